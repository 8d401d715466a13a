(** * DataGroups: the targets of the data sets under the elements of the group objects that
    the data sets declare as their symmetry. *)
From Coq Require Import Reals String.
From mathcomp Require Import all_ssreflect all_algebra.
From mathcomp Require Import zify.
From Verif Require Import Np NpLemmas Spec SpecLemmas LinOp LinOpSpec LinOpInv Rep RepSpec RepWf RepAlg RepFun RepExpr RhoProofs Rstruct Expm GrpSpec GrpProofs.
From Verif Require Import Groups GroupsSpec GroupsSpecR GroupsInit GroupsCtor GroupsThm GroupsFlag GroupsReal GroupsEmb ExactSpec GroupsExact GroupsExactL GroupsExactE.
From Verif Require Import Nn NnSpec NnThm Data DataSpec DataAlg DataThm DataHamSpec.
Set Implicit Arguments.
Unset Strict Implicit.
Unset Printing Implicit Defensive.
Import GRing.Theory.
Local Open Scope ring_scope.

Section Pend.
Variable R : comRingType.
Lemma pendulumE sqrt half (z : seq R) : size z = 12%N -> pendulum_H sqrt half z =
  let sq u := dot 3 z u z u in
  let d i := nth 0 z (0 + i)%N - nth 0 z (3 + i)%N in
  Ok (half * sq 6%N + half * sq 9%N + (half * (sqrt (sq 0%N) - 1) ^+ 2 + (sqrt (rsum 3 (fun i => d i ^+ 2)) - 1) ^+ 2
      + (nth 0 z 2 + nth 0 z 5))).
Proof. by do 13 case: z => [|? z] //. Qed.
Lemma pendulum_moved sqrt half (A : fmat R) z z' : fr A = 3%N -> fc A = 3%N -> isometry (fid R 3) A ->
  (forall v : nat -> R, act A v 2 = v 2%N) -> size z = 12%N -> size z' = 12%N ->
  (forall v, (v < 4)%N -> moved 3 A (v * 3) z z') -> pendulum_H sqrt half z' = pendulum_H sqrt half z.
Proof.
move=> a1 a2 H F S S' M; rewrite !pendulumE //=.
have M0 := M 0%N isT; have M1 := M 1%N isT; have M2 := M 2%N isT; have M3 := M 3%N isT.
rewrite (dot_moved a1 a2 H M0 M0) (dot_moved a1 a2 H M2 M2) (dot_moved a1 a2 H M3 M3).
have -> : nth 0 z' 2 = nth 0 z 2 by rewrite -[2%N]/(0 * 3 + 2)%N (M0 2%N) // F.
have -> : nth 0 z' 5 = nth 0 z 5 by rewrite -[5%N]/(1 * 3 + 2)%N (M1 2%N) // F.
pose w := mkseq (fun i => nth 0 z (0 + i)%N - nth 0 z (3 + i)%N) 3.
pose w' := mkseq (fun i => nth 0 z' (0 + i)%N - nth 0 z' (3 + i)%N) 3.
have D (u : seq R) : rsum 3 (fun i => (nth 0 u (0 + i)%N - nth 0 u (3 + i)%N) ^+ 2) =
    let t := mkseq (fun i => nth 0 u (0 + i)%N - nth 0 u (3 + i)%N) 3 in dot 3 t 0 t 0.
  by rewrite /= /dot /=.
rewrite !D /= -/w -/w' (@dot_moved _ 3 A w w' 0 0 a1 a2 H) //;
  move=> a Ha; rewrite add0n nth_mkseq // (M0 a Ha) (M1 a Ha) /act -sumrB a2; apply: eq_sum => b Hb.
1,2: by rewrite add0n nth_mkseq // mulrBr.
Qed.
End Pend.

Lemma tested_of r (a : attrs RR) G d : group_init idR (@same RR) r a = Ok G -> g_d G = Some d ->
  gok idR d (g_lie G) -> gok idR d (g_gens G) -> a_orth a = None -> a_perm a = None -> tested d G.
Proof. by move=> h1 h2 h3 h4 h5 h6; exists r, a. Qed.
Lemma built_tested r (a : attrs RR) d l h G : built idR (group_init idR (@same RR) r a) d l h -> a_orth a = None -> a_perm a = None ->
  group_init idR (@same RR) r a = Ok G -> tested d G.
Proof.
move=> [G0 E [Hd El Eg [H1 H2]]] o p E2; move: (E2); rewrite E => -[?]; subst G0.
by apply: (tested_of E Hd) => //; rewrite ?El ?Eg.
Qed.
Lemma lor_tested recip s G : g_o13_as idR recip (@same RR) s = Ok G -> tested 4 G.
Proof.
have [a [h [E Eh B]]] := @o13_ok RR idR recip (@same RR) s.
move: B; rewrite /g_o13_as E bindOk Eh bindOk => B; exact: built_tested B erefl erefl.
Qed.

(** ** elements of group objects *)
Section Main.
Variables (sinv : RR -> RR) (linv : nat -> seq RR -> seq RR).
Variables (crho cdrho : nat -> option gid -> gel RR -> res (op RR)).
Variables (gdim : gid -> nat) (csize : nat -> gid -> nat) (le : rel rep) (g : gid).
Variable G : gid -> group RR.
Local Notation sz := (rsize gdim csize).
Local Notation elem := (element sinv linv gdim (the_gens G) (the_lies G) g).
Local Notation gorth := (fun h => g_orth (G h)).
Local Notation members := (members idR sinv linv crho gdim gorth csize g elem).
Local Notation isometries := (isometries idR sinv linv crho gdim gorth csize g).
Local Notation rep_of := (rep_of gdim gorth csize le g).
Local Notation equivariant := (equivariant idR sinv linv crho gdim csize elem).
Hypothesis HC : customs_ok sinv linv crho cdrho gdim csize (pred1 g).
Hypothesis HCo : forall c C M, elem M -> crho c (Some g) M = Ok C -> g_orth (G g) -> orthm (csize c g) (den C).

Lemma in_group_meq n As hs (X Y : fmat RR) : fc Y = n -> in_group n As hs X -> meq Y X -> in_group n As hs Y.
Proof.
move=> y2 HX E; apply: (I_mul HX (I_one As hs (meq_refl (fid RR n)))).
have [_ e _] := E; apply: meq_trans E _; apply: meq_sym; rewrite -y2 e; exact: fmul_id_r.
Qed.
Lemma generated_in' X : (forall A, List.In A (gmats (G g)) -> fr A = gdim g /\ fc A = gdim g) ->
  generated gdim (pred1 g) (the_gens G) (the_lies G) X -> in_group (gdim g) (lmats (G g)) (gmats (G g)) (X g).
Proof.
move=> T; have SZ Y : generated gdim (pred1 g) (the_gens G) (the_lies G) Y -> fr (Y g) = gdim g /\ fc (Y g) = gdim g.
  elim=> {Y} [Y H|h k Y /eqP -> Hk E A|h A Y /eqP -> _ [e1 e2 _] A'|Y Z W _ [y1 y2] _ [z1 z2] H|Y Z _ IY H].
  - by have [-> -> _] := H g (eqxx g).
  - by have [-> -> _] := E; apply: T; apply: List.in_map.
  - by [].
  - by have [-> -> _] := H g (eqxx g); rewrite /= y1 z2.
  - by have [-> [_ /= -> _]] := H g (eqxx g).
elim=> {X} [X H|h k X /eqP Hh Hk E A|h A X /eqP Hh LA E A'|X Y Z GX IX GY IY H|X Y GX IX H].
- exact: I_one (H g (eqxx g)).
- by rewrite Hh in Hk E; apply: I_gen E; apply: List.in_map.
- by rewrite Hh in LA E; exact: I_exp (lie_alg_span LA) E.
- exact: I_mul IX IY (H g (eqxx g)).
have [y1 E] := H g (eqxx g); have [_ /= y2 _] := E; have [x1 x2] := SZ X GX.
exact: I_inv IX y1 y2 E (one_sided x1 x2 y1 y2 E).
Qed.
Lemma elem_P x d P M A : exact_group x d P -> x = Ok (G g) -> gdim g = d -> elem M -> glook M (Some g) = Ok A ->
  [/\ fr (den A) = d, fc (den A) = d & P (den A)].
Proof.
move=> [G0 E [_ H]]; rewrite E => -[?] Ed [X GX HM] EA; subst G0.
have [A'] := HM g (eqxx g); rewrite EA => -[<-] [[GA _] EX]; have [a1 a2] := gop_sz GA.
apply/H; apply: (@in_group_meq _ _ _ (X g)); first by rewrite a2 Ed.
  rewrite -Ed; apply: generated_in' => // B HB; rewrite Ed.
  by have /H[] : in_group d (lmats (G g)) (gmats (G g)) B by apply: I_gen HB (meq_refl _).
exact: EX.
Qed.
Lemma elem_members x d P Q : exact_group x d P -> x = Ok (G g) -> gdim g = d ->
  (forall A : fmat RR, fr A = d -> fc A = d -> P A -> isometry (fid RR d) A /\ Q A) -> members Q.
Proof.
move=> HX E Ed HP M EM; split; first exact: (element_group HC EM).
  move=> h /eqP -> Oh; split=> [A EA|c C EC]; last by have [_ _ H1 H2] := HCo EM EC Oh; split.
  have [a1 a2 /(HP _ a1 a2)[I _]] := elem_P HX E Ed EM EA.
  have L : meq (fmul (ftr (den A)) (den A)) (fid RR d).
    apply: meq_trans I; apply: meq_fmul => //.
    by apply: meq_sym; rewrite -{1}a1; exact: fmul_id_l.
  by rewrite Ed; split=> //; apply: (@one_sided RR d (ftr (den A)) (den A)).
by move=> A EA; have [a1 a2 /(HP _ a1 a2)[]] := elem_P HX E Ed EM EA.
Qed.

Hypothesis O : total_order_on (key gdim csize le (pred1 g)) le.
Hypothesis C0 : forall c, (0 < csize c g)%N.
Lemma inertia_group' x k : gdim g = 3%N -> (0 < k)%N -> exact_group x 3 (isometry (fid RR 3)) -> x = Ok (G g) ->
  exists rin rout, [/\ rep_of (inertia_in k) rin, rep_of (T_expr 2 0) rout, sz rin = (k + k * 3)%N, sz rout = 9%N &
    equivariant rin rout (inertia k)].
Proof.
move=> G3 K HX EG; apply: inertia_thm => //; first by rewrite G3.
exact: (elem_members HX EG G3 (fun A _ _ h => Logic.conj h h) : members (isometry (fid RR 3))).
Qed.
Theorem inertia_group close k : gdim g = 3%N -> (0 < k)%N -> g_o idR close 3 = Ok (G g) ->
  exists rin rout, [/\ rep_of (inertia_in k) rin, rep_of (T_expr 2 0) rout, sz rin = (k + k * 3)%N, sz rout = 9%N &
    equivariant rin rout (inertia k)].
Proof. move=> G3 K; exact: inertia_group' G3 K (@exact_o idR close 3 isT). Qed.
Lemma o5_group' x sqrt sin div half : gdim g = 5%N -> exact_group x 5 (isometry (fid RR 5)) -> x = Ok (G g) ->
  (forall a b : RR, exists c, div a b = Ok c) ->
  exists2 rin, rep_of o5_in rin & sz rin = 10%N /\ equivariant rin RScalar (o5 sqrt sin div half).
Proof.
move=> G5 HX EG D; apply: o5_thm => //; first by rewrite G5.
exact: (elem_members HX EG G5 (fun A _ _ h => Logic.conj h h) : members (isometry (fid RR 5))).
Qed.
Theorem o5_group close sqrt sin div half : gdim g = 5%N -> g_o idR close 5 = Ok (G g) ->
  (forall a b : RR, exists c, div a b = Ok c) ->
  exists2 rin, rep_of o5_in rin & sz rin = 10%N /\ equivariant rin RScalar (o5 sqrt sin div half).
Proof. move=> G5; exact: o5_group' G5 (@exact_o idR close 5 isT). Qed.
Lemma particle_group' x : gdim g = 4%N -> exact_group x 4 (isometry (minkowski RR 4)) -> x = Ok (G g) -> tested (gdim g) (G g) ->
  exists2 rin, rep_of particle_in rin & sz rin = 16%N /\ equivariant rin RScalar (@particle RR).
Proof.
move=> G4 HX EG HT; apply: particle_thm => //; first by rewrite G4.
move=> M EM; split; first exact: (element_group HC EM).
  exact: (element_orth HT HCo EM).
by move=> A EA; have [_ _] := elem_P HX EG G4 EM EA.
Qed.
Theorem particle_group recip : gdim g = 4%N -> g_lorentz idR recip (@same RR) = Ok (G g) ->
  exists2 rin, rep_of particle_in rin & sz rin = 16%N /\ equivariant rin RScalar (@particle RR).
Proof.
rewrite /g_lorentz => G4 EG; apply: (particle_group' G4 (@exact_o13 idR recip (@same RR) "Lorentz") EG).
rewrite G4; exact: lor_tested EG.
Qed.
(** O2eR3 fixes the third axis and is orthogonal *)
Lemma plane_ok (A Y : fmat RR) : fr A = 3%N -> fc A = 3%N -> fr Y = 2%N -> fc Y = 2%N -> isometry (fid RR 2) Y ->
  meq A (plane Y) -> isometry (fid RR 3) A /\ forall v : nat -> RR, act A v 2 = v 2%N.
Proof.
move=> a1 a2 y1 y2 [_ _ I] [_ _ E].
have E2 j : (j < 3)%N -> fe A 2 j = (j == 2%N)%:R.
  by move=> Hj; rewrite E ?a1 ?a2 //=; move: j Hj => [|[|[|]]].
have E3 i : (i < 3)%N -> fe A i 2 = (i == 2%N)%:R.
  by move=> Hi; rewrite E ?a1 ?a2 //=; move: i Hi => [|[|[|]]].
have Ey i j : (i < 2)%N -> (j < 2)%N -> fe A i j = fe Y i j.
  move=> Hi Hj; rewrite E ?a1 ?a2 ?(ltn_trans Hi) ?(ltn_trans Hj) //=.
  by move: i j Hi Hj => [|[|]] // [|[|]].
split; last first.
  move=> v; rewrite /act a2 (sum_only (i := 2%N)) ?E2 ?mul1r // => j Hj /negbTE ne; by rewrite E2 // ne mul0r.
split=> //; rewrite ?a2 //= => i j Hi Hj; rewrite a1; rewrite a2 in Hi.
have X1 j' : (j' < 3)%N -> forall l, (l < 3)%N -> \sum_(0 <= j0 < 3) (l == j0)%:R * fe A j0 j' = fe A l j'.
  move=> _ l Hl; rewrite (sum_only (i := l)) ?eqxx ?mul1r // => t _ /negbTE; by rewrite eq_sym => ->; rewrite mul0r.
have -> : \sum_(0 <= j0 < 3) fe A j0 i * (\sum_(0 <= j1 < 3) (j0 == j1)%:R * fe A j1 j) = \sum_(0 <= l < 3) fe A l i * fe A l j.
  by apply: eq_sum => l Hl; rewrite X1.
rewrite big_nat_recr //=.
have S2 : (i < 2)%N -> (j < 2)%N -> \sum_(0 <= l < 2) fe A l i * fe A l j = (i == j)%:R.
  move=> Hi2 Hj2; have := I i j; rewrite /= y2 => /(_ Hi2 Hj2) <-; rewrite y1; apply: eq_sum => l Hl.
  rewrite !Ey // (sum_only (i := l)) ?eqxx ?mul1r // => t _ /negbTE; by rewrite eq_sym => ->; rewrite mul0r.
have [Hi2|] := ltnP i 2; have [Hj2|] := ltnP j 2.
- by rewrite S2 // !E2 // (ltn_eqF Hi2) mul0r addr0.
- move=> Hj2; have -> : j = 2%N by lia.
  rewrite big1_seq ?add0r => [|l]; last by rewrite mem_index_iota => /= Hl; rewrite [fe A l 2]E3 ?(ltn_eqF Hl) ?mulr0 //; lia.
  by rewrite !E2 // (ltn_eqF Hi2) mul0r.
- move=> Hi2; have -> : i = 2%N by lia.
  rewrite big1_seq ?add0r => [|l]; last by rewrite mem_index_iota => /= Hl; rewrite [fe A l 2]E3 ?(ltn_eqF Hl) ?mul0r //; lia.
  by rewrite !E2 // (ltn_eqF Hj2) mulr0 eq_sym (ltn_eqF Hj2).
move=> Hj2 Hi2; have -> : i = 2%N by lia. have -> : j = 2%N by lia.
rewrite big1_seq ?add0r => [|l]; last by rewrite mem_index_iota => /= Hl; rewrite [fe A l 2]E3 ?(ltn_eqF Hl) ?mul0r //; lia.
by rewrite !E2 // mulr1.
Qed.
Lemma pendulum_group' x sqrt half : gdim g = 3%N ->
  exact_group x 3 (fun X => exists Y, [/\ fr Y = 2%N, fc Y = 2%N, isometry (fid RR 2) Y & meq X (plane Y)]) -> x = Ok (G g) ->
  exists rin rout, [/\ rep_of pendulum_in rin, rep_of (T_expr 0 0) rout, sz rin = 12%N, sz rout = 1%N &
    equivariant rin rout (pendulum sqrt half)].
Proof.
rename x into xG; move=> G3 HX EG.
pose Q (A : fmat RR) := isometry (fid RR 3) A /\ forall v : nat -> RR, act A v 2 = v 2%N.
have HI : members Q.
  apply: (elem_members HX EG G3) => A a1 a2 [Y [y1 y2 I E]].
  by have [I1 F1] := plane_ok a1 a2 y1 y2 I E.
pose Fi (S : comRingType) (A : fmat S) := fdsuml (nseq 4 (fkron (fkronl (nseq 1 A)) (fkronl [::]))).
pose Fo (S : comRingType) (A : fmat S) := fkron (fkronl (nseq 0 A)) (fkronl [::]) : fmat S.
have G0 : (0 < gdim g)%N by rewrite G3.
apply: (@data_eq RR idR sinv linv crho gdim gorth csize le g O G0 C0 elem Q _ _ Fi Fo 12 1 _ HI) => //.
- by move=> S X x1 x2; rewrite /Fi fr_copies fc_copies /= x1 x2 G3.
move=> A x x' a1 a2 [I F] s1 s2 hx; rewrite G3 in a1 a2.
have hx' : forall v, (v < 4)%N -> moved 3 A (v * 3) x x'.
  apply: (copies_moved G0 a1 a2) => i Hi; rewrite hx //; apply: act_meq; last by rewrite /Fi fr_copies /= a1.
  have H : meq A (fkron (fkronl (nseq 1 A)) (fkronl [::])).
    by apply: meq_sym; apply: meq_trans (fkron_1_r _) _; exact: fkron_1_r.
  have D n : meq (fdsuml (nseq n A)) (fdsuml (nseq n (fkron (fkronl (nseq 1 A)) (fkronl [::])))).
    by elim: n => [|n IH]; [exact: meq_refl | exact: meq_fdsum].
  exact: meq_sym (D 4%N).
have EH := pendulum_moved sqrt half a1 a2 I F s1 s2 hx'.
rewrite EH pendulumE //=; eexists; eexists; split=> //; case=> // _.
by rewrite (act_meq (B := fid RR 1)) ?act_fid //; apply: fkron_1_r.
Qed.
Theorem pendulum_group close sqrt half : gdim g = 3%N -> g_o2er3 idR id close = Ok (G g) ->
  exists rin rout, [/\ rep_of pendulum_in rin, rep_of (T_expr 0 0) rout, sz rin = 12%N, sz rout = 1%N &
    equivariant rin rout (pendulum sqrt half)].
Proof. move=> G3; exact: pendulum_group' G3 (exact_o2er3 idR close). Qed.
End Main.
