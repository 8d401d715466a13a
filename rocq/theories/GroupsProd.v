(** * GroupsProd: DirectProduct. *)
From Coq Require Import String.
From mathcomp Require Import all_ssreflect all_algebra.
From mathcomp Require Import zify.
From Verif Require Import Np NpLemmas Spec SpecLemmas LinOp LinOpSpec LinOpProofs LinOpMM LinOpMore Rep RepSpec RepWf Order RepMat RepAlg RhoProofs RepThm RepThm1 RepDir DirThm Solver SolSpec.
From Verif Require Import Groups GroupsSpec GroupsLoop GroupsLie GroupsInit GroupsCtor GroupsPerm GroupsThm.
Set Implicit Arguments.
Unset Strict Implicit.
Unset Printing Implicit Defensive.
Import GRing.Theory.
Local Open Scope ring_scope.

Section Prod.
Variables (R : comRingType) (conj : R -> R) (close : seq R -> seq R -> bool).
Local Notation gop := (gop conj).

Lemma kronsum_l n (A : fmat R) d : fr A = n -> fc A = n -> meq (fkronsum A (fzero R d d)) (fkron A (fid R d)).
Proof.
move=> a1 a2; split=> //= i j Hi Hj.
by rewrite mulr0 addr0.
Qed.
Lemma kronsum_r n (A : fmat R) d : fr A = n -> fc A = n -> meq (fkronsum (fzero R d d) A) (fkron (fid R d) A).
Proof.
move=> a1 a2; split=> //=; rewrite ?a1 ?a2 // => i j Hi Hj.
by rewrite mul0r add0r.
Qed.
Lemma kronsum_1 n (A : fmat R) : fr A = n -> fc A = n -> meq (fkronsum A (fzero R 1 1)) A.
Proof.
move=> a1 a2; apply: meq_trans (@kronsum_l n A 1 a1 a2) _; exact: fkron_1_r.
Qed.

(** the four kinds of generators *)
Lemma gop_I d : gop d (OI R d). Proof. by split=> //; left. Qed.
Lemma gop_Z d : gop d (OScaled (OI R d) 0). Proof. by split=> //; left. Qed.
Lemma plain2 (A B : op R) : plain A \/ (forall x, conj x = x) -> plain B \/ (forall x, conj x = x) ->
  all (@plain R) [:: A; B] \/ (forall x, conj x = x).
Proof. by move=> [pA|H]; [move=> [pB|H]; [left; rewrite /= pA pB | right] | right]. Qed.
Lemma gop_kron2 d1 d2 A B : (0 < d1)%N -> (0 < d2)%N -> gop d1 A -> gop d2 B -> gop (d1 * d2) (OKron [:: A; B]).
Proof.
move=> p1 p2 [W1 S1 D1 P1 Sh1] [W2 S2 D2 P2 Sh2]; split.
- by rewrite /= W1 W2 /rows /cols Sh1 Sh2 /= p1 p2.
- by rewrite /= S1 S2.
- by rewrite /= D1 D2.
- exact: plain2.
by rewrite /= Sh1 Sh2 /= !muln1.
Qed.
Lemma gop_kronsum2 d1 d2 A B : (0 < d1)%N -> (0 < d2)%N -> gop d1 A -> gop d2 B -> gop (d1 * d2) (OKronsum [:: A; B]).
Proof.
move=> p1 p2 [W1 S1 D1 P1 Sh1] [W2 S2 D2 P2 Sh2]; split.
- by rewrite /= W1 W2 /rows /cols Sh1 Sh2 /= p1 p2 !eqxx.
- by rewrite /= S1 S2.
- by rewrite /= D1 D2.
- exact: plain2.
by rewrite /= Sh1 Sh2 /= !muln1.
Qed.
Lemma den_kron2 (A B : op R) : meq (den (OKron [:: A; B])) (fkron (den A) (den B)).
Proof. apply: meq_fkron; [exact: meq_refl | exact: fkron_1_r]. Qed.
Lemma den_ksl d1 d2 A : gop d1 A -> meq (den (OKronsum [:: A; OScaled (OI R d2) 0])) (fkron (den A) (fid R d2)).
Proof.
move=> /gop_sz[a1 a2]; apply: (meq_trans _ (kronsum_l d2 a1 a2)) => /=.
have H : meq (fkronsum (fscale 0 (fid R d2)) (fzero R 1 1)) (fzero R d2 d2).
  by apply: meq_trans (@kronsum_1 d2 (fscale 0 (fid R d2)) erefl erefl) _; split=> //= i j _ _; rewrite mul0r.
apply: meq_fkronsum => //=; rewrite ?a1 ?a2 ?muln1 //; exact: meq_refl.
Qed.
Lemma den_ksr d1 d2 A : gop d2 A -> meq (den (OKronsum [:: OScaled (OI R d1) 0; A])) (fkron (fid R d1) (den A)).
Proof.
move=> /gop_sz[a1 a2]; apply: (meq_trans _ (kronsum_r d1 a1 a2)) => /=.
apply: meq_fkronsum => //=; rewrite ?a1 ?a2 ?muln1 //; first by split=> //= i j _ _; rewrite mul0r.
exact: kronsum_1 a1 a2.
Qed.

(** the generators of the product, as matrices *)
Definition meqs (l1 l2 : seq (fmat R)) : Prop := List.Forall2 (@meq R) l1 l2.
Definition left_ax (d2 : nat) (A : fmat R) : fmat R := fkron A (fid R d2).
Definition right_ax (d1 : nat) (A : fmat R) : fmat R := fkron (fid R d1) A.

Lemma mapM_mk (mk : op R -> res (op R)) (f : op R -> op R) l : (forall A, mk A = Ok (f A)) -> mapM mk l = Ok (map f l).
Proof. by move=> H; elim: l => //= A l IH; rewrite /mapM /= H /= -/(mapM mk l) IH. Qed.

Lemma meqs_map (f : op R -> op R) (g : fmat R -> fmat R) l : (forall A, List.In A l -> meq (den (f A)) (g (den A))) ->
  meqs (map (@den R) (map f l)) (map g (map (@den R) l)).
Proof. by elim: l => [|A l IH] H /=; constructor; [apply: H; left | apply: IH => B HB; apply: H; right]. Qed.

Definition usable (d : nat) (G : group R) : Prop := [/\ g_d G = Some d, (0 < d)%N, gok conj d (g_lie G) & gok conj d (g_gens G)].
Lemma In_map_cat (f g : op R -> op R) l1 l2 (P : op R -> Prop) : (forall A, List.In A l1 -> P (f A)) -> (forall A, List.In A l2 -> P (g A)) ->
  forall A, List.In A (map f l1 ++ map g l2) -> P A.
Proof.
move=> H1 H2 A /List.in_app_iff[|]; [elim: l1 H1 | elim: l2 H2] => //= B l IH H [<-|].
- by apply: H; left.
- by apply: IH => C HC; apply: H; right.
- by apply: H; left.
by apply: IH => C HC; apply: H; right.
Qed.
Lemma last_ops d (l : seq (op R)) : gok conj d (GOps l) -> glen (GOps l) != 0%N -> last_dim (GOps l) = d.
Proof. by case: l => // A l H _; have [_ _ _ _ Sh] := H A (or_introl erefl); rewrite /last_dim /= /cols Sh. Qed.
Lemma prod_ok d1 d2 G1 G2 : usable d1 G1 -> usable d2 G2 ->
  (0 < size (gitems (g_lie G1)) + size (gitems (g_gens G1)) + size (gitems (g_lie G2)) + size (gitems (g_gens G2)))%N ->
  exists2 G, g_prod conj close G1 G2 = Ok G & [/\ usable (d1 * d2) G, g_repr G = cat (g_repr G1) (cat "x" (g_repr G2)),
    meqs (gmats G) (map (left_ax d2) (gmats G1) ++ map (right_ax d1) (gmats G2)) &
    meqs (lmats G) (map (left_ax d2) (lmats G1) ++ map (right_ax d1) (lmats G2))].
Proof.
move=> [e1 p1 l1 h1] [e2 p2 l2 h2] Hne; rewrite /g_prod e1 e2.
have -> : mapM (fun A => mkKronsum [:: A; OScaled (OI R d2) 0]) (gitems (g_lie G1)) = Ok (map (fun A => OKronsum [:: A; OScaled (OI R d2) 0]) (gitems (g_lie G1))) by apply: mapM_mk; case.
have -> : mapM (fun A => mkKronsum [:: OScaled (OI R d1) 0; A]) (gitems (g_lie G2)) = Ok (map (fun A => OKronsum [:: OScaled (OI R d1) 0; A]) (gitems (g_lie G2))) by apply: mapM_mk.
have -> : mapM (fun A => mkKron [:: A; OI R d2]) (gitems (g_gens G1)) = Ok (map (fun A => OKron [:: A; OI R d2]) (gitems (g_gens G1))) by apply: mapM_mk; case.
have -> : mapM (fun A => mkKron [:: OI R d1; A]) (gitems (g_gens G2)) = Ok (map (fun A => OKron [:: OI R d1; A]) (gitems (g_gens G2))) by apply: mapM_mk.
rewrite /=; set ls := _ ++ _; set hs := _ ++ _.
have GL : gok conj (d1 * d2) (GOps ls).
  by apply: In_map_cat => A HA; apply: gop_kronsum2 => //; [exact: l1 | exact: gop_Z | exact: gop_Z | exact: l2].
have GH : gok conj (d1 * d2) (GOps hs).
  by apply: In_map_cat => A HA; apply: gop_kron2 => //; [exact: h1 | exact: gop_I | exact: gop_I | exact: h2].
have [|||||G EG [g1 g2 g3 [g4 g5]]] := @built_one _ conj close (cat (g_repr G1) (cat "x" (g_repr G2))) (d1 * d2) (GOps ls) (GOps hs) => //.
- exact: last_ops.
- exact: last_ops.
- by rewrite /= !size_cat !size_map -negb_and; move: Hne; clear; lia.
exists G => //; split.
- by split=> //; rewrite ?muln_gt0 ?p1 ?p2 // ?g2 ?g3.
- by move: EG; rewrite /group_init /=; do 2 case: (X in bind X _) => //= ?; case=> <-.
- rewrite /gmats g3 /= map_cat; apply: List.Forall2_app; apply: meqs_map => A HA; exact: den_kron2.
rewrite /lmats g2 /= map_cat; apply: List.Forall2_app; apply: meqs_map => A HA.
  by apply: den_ksl; exact: l1 HA.
by apply: den_ksr; exact: l2 HA.
Qed.
(** two groups without generators: the product has no dimension *)
Lemma prod_none d1 d2 G1 G2 : g_d G1 = Some d1 -> g_d G2 = Some d2 ->
  (size (gitems (g_lie G1)) + size (gitems (g_gens G1)) + size (gitems (g_lie G2)) + size (gitems (g_gens G2)) = 0)%N ->
  exists2 G, g_prod conj close G1 G2 = Ok G & g_d G = None.
Proof.
move=> e1 e2; rewrite /g_prod e1 e2; do 4 case: (gitems _) => //; by eexists.
Qed.
(** a generator of the first factor that is a plain array has no invT, and LazyKron.invT asks
    every factor for it *)
Lemma prod_dual_err (sinv : R -> R) linv crho d1 d2 G1 G2 G m n D : usable d1 G1 -> usable d2 G2 -> g_prod conj close G1 G2 = Ok G ->
  List.In (OArr m n D) (gitems (g_gens G1)) ->
  exists2 h, List.In h (gitems (g_gens G)) &
    (forall (p : gid) M, glook M (Some p) = Ok h -> rho_dense conj sinv linv crho (RDual (RBase (Some p))) M = Err AttributeError).
Proof.
move=> [e1 _ _ _] [e2 _ _ _]; rewrite /g_prod e1 e2.
have -> : mapM (fun A => mkKronsum [:: A; OScaled (OI R d2) 0]) (gitems (g_lie G1)) = Ok (map (fun A => OKronsum [:: A; OScaled (OI R d2) 0]) (gitems (g_lie G1))) by apply: mapM_mk; case.
have -> : mapM (fun A => mkKronsum [:: OScaled (OI R d1) 0; A]) (gitems (g_lie G2)) = Ok (map (fun A => OKronsum [:: OScaled (OI R d1) 0; A]) (gitems (g_lie G2))) by apply: mapM_mk.
have -> : mapM (fun A => mkKron [:: A; OI R d2]) (gitems (g_gens G1)) = Ok (map (fun A => OKron [:: A; OI R d2]) (gitems (g_gens G1))) by apply: mapM_mk; case.
have -> : mapM (fun A => mkKron [:: OI R d1; A]) (gitems (g_gens G2)) = Ok (map (fun A => OKron [:: OI R d1; A]) (gitems (g_gens G2))) by apply: mapM_mk.
rewrite /group_init /=; do 2 case: (X in bind X _) => //= ?; case=> <- /= H.
exists (OKron [:: OArr m n D; OI R d2]); last by move=> p M L; rewrite /rho_dense /= L.
by apply: List.in_or_app; left; apply: (List.in_map (fun A => OKron [:: A; OI R d2])) H.
Qed.
End Prod.

(** ** invariant vectors *)
Section Inv.
Variables (R : comRingType) (conj : R -> R) (close : seq R -> seq R -> bool).
Variables (sinv : R -> R) (linv : nat -> seq R -> seq R).
Variables (crho cdrho : nat -> option gid -> gel R -> res (op R)).
Variables (gdim : gid -> nat) (csize : nat -> gid -> nat) (le : rel rep).
Variables (G : gid -> group R) (p g1 g2 : gid).
Local Notation gs := (predU (pred1 g1) (pred1 g2)).
Local Notation gens := (fun g => gitems (g_gens (G g))).
Local Notation lies := (fun g => gitems (g_lie (G g))).
Local Notation V g := (RBase (Some g)).
Local Notation invariant := (fun gs => invariant conj gdim sinv linv crho cdrho csize gs gens lies).
Local Notation rho_dense := (rho_dense conj sinv linv crho).
Local Notation drho_dense := (drho_dense conj cdrho).
Local Notation sz := (rsize gdim csize).

Definition fixed (n : nat) (l : seq (fmat R)) (v : seq R) : Prop := forall X, List.In X l -> matvec n n (flat X) v = v.
Definition killed (n : nat) (l : seq (fmat R)) (v : seq R) : Prop := forall X, List.In X l -> matvec n n (flat X) v = nseq n 0.
Lemma In_meqs (l1 l2 : seq (fmat R)) X : meqs l1 l2 -> List.In X l1 -> exists2 Y, List.In Y l2 & meq X Y.
Proof.
elim=> // A B k1 k2 E _ IH /= [<-|/IH[Y H1 H2]]; first by exists B => //; left.
by exists Y => //; right.
Qed.
Lemma meqs_sym (l1 l2 : seq (fmat R)) : meqs l1 l2 -> meqs l2 l1.
Proof. by elim=> [|A B k1 k2 E _ IH]; constructor => //; apply: meq_sym. Qed.
Lemma fixed_meqs n l1 l2 v : meqs l1 l2 -> fixed n l1 v <-> fixed n l2 v.
Proof.
move=> E; split=> H X HX; first by have [Y HY M] := In_meqs (meqs_sym E) HX; rewrite (flat_meq M); apply: H.
by have [Y HY M] := In_meqs E HX; rewrite (flat_meq M); apply: H.
Qed.
Lemma killed_meqs n l1 l2 v : meqs l1 l2 -> killed n l1 v <-> killed n l2 v.
Proof.
move=> E; split=> H X HX; first by have [Y HY M] := In_meqs (meqs_sym E) HX; rewrite (flat_meq M); apply: H.
by have [Y HY M] := In_meqs E HX; rewrite (flat_meq M); apply: H.
Qed.
Lemma In_map_den (f : fmat R -> fmat R) (l : seq (op R)) A : List.In A l -> List.In (f (den A)) (map f (map (@den R) l)).
Proof. by elim: l => //= B l IH [->|/IH H]; [left | right]. Qed.
Lemma In_den (f : fmat R -> fmat R) (l : seq (op R)) X : List.In X (map f (map (@den R) l)) -> exists2 A, List.In A l & X = f (den A).
Proof. by elim: l => //= B l IH [<-|/IH[A H ->]]; [exists B => //; left | exists A => //; right]. Qed.

Lemma rho_V g g' h n : gop conj n (if g' == g then h else OI R (gdim g')) ->
  rho_dense (V g') (elemG gdim g h) = Ok (n, n, flat (den (if g' == g then h else OI R (gdim g')))).
Proof. by move=> H; rewrite /rho_dense /Rep.rho_dense /= (gop_dense H). Qed.
Lemma drho_V g g' A n : gop conj n (if g' == g then A else OArr (gdim g') (gdim g') (nseq (gdim g' * gdim g') 0)) ->
  drho_dense (V g') (elemL gdim g A) = Ok (n, n, flat (den (if g' == g then A else OArr (gdim g') (gdim g') (nseq (gdim g' * gdim g') 0)))).
Proof. by move=> H; rewrite /drho_dense /Rep.drho_dense /= (gop_dense H). Qed.

Lemma invariant_V g v : gok conj (gdim g) (g_gens (G g)) -> gok conj (gdim g) (g_lie (G g)) ->
  invariant (pred1 g) (V g) v <-> fixed (gdim g) (gmats (G g)) v /\ killed (gdim g) (lmats (G g)) v.
Proof.
move=> Hh Hl; split.
  move=> [H1 H2]; split=> X /(@List.in_map_iff _ _ _ _ X) [A [<- HA]].
    have [D] := H1 g A (eqxx g) HA; rewrite (@rho_V g g A (gdim g)) eqxx; last exact: Hh HA.
    by case=> <-.
  have [D] := H2 g A (eqxx g) HA; rewrite (@drho_V g g A (gdim g)) eqxx; last exact: Hl HA.
  by case=> <-.
move=> [H1 H2]; split=> g' A /eqP -> HA.
  exists (flat (den A)); first by rewrite (@rho_V g g A (gdim g)) eqxx //; apply: Hh HA.
  by apply: H1; apply: List.in_map.
exists (flat (den A)); first by rewrite (@drho_V g g A (gdim g)) eqxx //; apply: Hl HA.
by apply: H2; apply: List.in_map.
Qed.

Hypothesis ne : g1 != g2.
Hypothesis O : total_order_on (key gdim csize le gs) le.
Hypothesis HGen : generators_ok conj gdim sinv linv crho cdrho csize gs gens lies.
Hypothesis U1 : usable conj (gdim g1) (G g1).
Hypothesis U2 : usable conj (gdim g2) (G g2).
Let W g : gs g -> wfr gdim csize le (pred1 g) (V g).
Proof.
move=> Hg; have g0 : (0 < gdim g)%N by case/orP: Hg => /eqP ->; [case: U1 | case: U2].
by rewrite /wfr /nonsum /= /atomic /= eqxx g0.
Qed.
Let Dis : forall g, pred1 g1 g -> ~~ pred1 g2 g.
Proof. by move=> g /eqP ->. Qed.
Let G1 : gs g1. Proof. by rewrite /= eqxx. Qed.
Let G2 : gs g2. Proof. by rewrite /= eqxx orbT. Qed.
Let n := (gdim g1 * gdim g2)%N.

Lemma mixed_rep : exists r, [/\ mul gdim csize le (V g1) (V g2) = Ok r, wfr gdim csize le gs r, sz r = n,
  forall M A1 A2, group_elem conj sinv linv crho gdim csize gs M -> glook M (Some g1) = Ok A1 -> glook M (Some g2) = Ok A2 ->
    rho_dense r M = Ok (n, n, flat (fkron (den A1) (den A2))) &
  forall M A1 A2, lie_elem conj cdrho gdim csize gs M -> glook M (Some g1) = Ok A1 -> glook M (Some g2) = Ok A2 ->
    drho_dense r M = Ok (n, n, flat (fkronsum (den A1) (den A2)))].
Proof.
have UF k (A : fmat R) : fr A = k -> fc A = k -> meq (unflat k k (flat A)) A.
  by move=> a1 a2; have := unflat_flat A; rewrite a1 a2.
have HA k : atomic gdim csize gs k -> kok (fun k => fzero R (sz k) (sz k)) sz k by [].
have [r E [Wr Sr _]] := mul_dis Dis O HA (W G1) (W G2); exists r; split=> // M A1 A2 HM L1 L2.
  have [r' [Da [Db [E' _ H1 H2 H3]]]] := dirmul_thm Dis O (W G1) (W G2) HM.
  move: E'; rewrite E => -[?]; subst r'.
  have [B1 M1 [[I1 _] _]] := HM _ G1; have [B2 M2 [[I2 _] _]] := HM _ G2.
  move: M1 M2; rewrite L1 L2 => -[?] [?]; subst B1 B2.
  move: H1 H2; rewrite /Rep.rho_dense /= L1 L2 /= (gop_dense I1) (gop_dense I2) => -[?] [?]; subst Da Db.
  apply: (etrans H3); rewrite /kron2; congr (Ok (_, _)); apply: flat_meq.
  have [a1 a2] := gop_sz I1; have [b1 b2] := gop_sz I2.
  by apply: meq_fkron; apply: UF.
have [r' [Da [Db [E' _ H1 H2 H3]]]] := dirdmul_thm Dis O (W G1) (W G2) HM.
move: E'; rewrite E => -[?]; subst r'.
have [B1 M1 [[I1 _] _]] := HM _ G1; have [B2 M2 [[I2 _] _]] := HM _ G2.
move: M1 M2; rewrite L1 L2 => -[?] [?]; subst B1 B2.
move: H1 H2; rewrite /Rep.drho_dense /= L1 L2 /= (gop_dense I1) (gop_dense I2) => -[?] [?]; subst Da Db.
apply: (etrans H3); rewrite /kronsum2; congr (Ok (_, _)); apply: flat_meq.
have [a1 a2] := gop_sz I1; have [b1 b2] := gop_sz I2.
by apply: meq_fkronsum; rewrite //=; apply: UF.
Qed.

Theorem prod_invariants : g_prod conj close (G g1) (G g2) = Ok (G p) -> gdim p = n ->
  (0 < size (lies g1) + size (gens g1) + size (lies g2) + size (gens g2))%N ->
  exists r, [/\ mul gdim csize le (V g1) (V g2) = Ok r, wfr gdim csize le gs r, sz r = gdim p &
    forall v, invariant (pred1 p) (V p) v <-> invariant gs r v].
Proof.
move=> EP Ep Hne; have [P EP' [[_ _ Pl Ph] _ Mh Ml]] := prod_ok close U1 U2 Hne.
move: EP'; rewrite EP => -[?]; subst P.
have [r [E Wr Sr H1 H2]] := mixed_rep; exists r; split=> //; first by rewrite Sr Ep.
move=> v; have -> := @invariant_V p v; try by rewrite Ep.
have -> := fixed_meqs (gdim p) v Mh; have -> := killed_meqs (gdim p) v Ml.
have [Hg Hl _ _] := HGen; have [_ _ Al1 Ah1] := U1; have [_ _ Al2 Ah2] := U2.
have e12 : (g2 == g1) = false by rewrite eq_sym (negbTE ne).
have R1 h : List.In h (gens g1) -> rho_dense r (elemG gdim g1 h) = Ok (n, n, flat (left_ax (gdim g2) (den h))).
  by move=> Hh; rewrite (H1 _ h (OI R (gdim g2)) (Hg _ _ G1 Hh)) //= ?eqxx ?e12.
have R2 h : List.In h (gens g2) -> rho_dense r (elemG gdim g2 h) = Ok (n, n, flat (right_ax (gdim g1) (den h))).
  by move=> Hh; rewrite (H1 _ (OI R (gdim g1)) h (Hg _ _ G2 Hh)) //= ?eqxx ?(negbTE ne).
have Z d : meq (den (OArr d d (nseq (d * d) 0))) (fzero R d d).
  by split=> //= i j Hi Hj; rewrite nth_nseq if_same.
have D1 A : List.In A (lies g1) -> drho_dense r (elemL gdim g1 A) = Ok (n, n, flat (left_ax (gdim g2) (den A))).
  move=> HA; have [a1 a2] := gop_sz (Al1 _ HA).
  rewrite (H2 _ A (OArr (gdim g2) (gdim g2) (nseq (gdim g2 * gdim g2) 0)) (Hl _ _ G1 HA)) ?eqxx ?e12 //=; rewrite ?eqxx ?e12 //.
  congr (Ok (_, _)); apply: flat_meq; apply: meq_trans _ (kronsum_l _ a1 a2).
  by apply: meq_fkronsum; rewrite ?a1 ?a2 //; exact: Z.
have D2 A : List.In A (lies g2) -> drho_dense r (elemL gdim g2 A) = Ok (n, n, flat (right_ax (gdim g1) (den A))).
  move=> HA; have [a1 a2] := gop_sz (Al2 _ HA).
  rewrite (H2 _ (OArr (gdim g1) (gdim g1) (nseq (gdim g1 * gdim g1) 0)) A (Hl _ _ G2 HA)) //=; rewrite ?eqxx ?(negbTE ne) //.
  congr (Ok (_, _)); apply: flat_meq; apply: meq_trans _ (kronsum_r _ a1 a2).
  by apply: meq_fkronsum; rewrite ?a1 ?a2 //; exact: Z.
rewrite /SolSpec.invariant Sr Ep -/n; split.
  move=> [F K]; split=> g h /orP[] /eqP -> Hh.
  - exists (flat (left_ax (gdim g2) (den h))); first exact: R1.
    by apply: F; apply: List.in_or_app; left; apply: In_map_den.
  - exists (flat (right_ax (gdim g1) (den h))); first exact: R2.
    by apply: F; apply: List.in_or_app; right; apply: In_map_den.
  - exists (flat (left_ax (gdim g2) (den h))); first exact: D1.
    by apply: K; apply: List.in_or_app; left; apply: In_map_den.
  exists (flat (right_ax (gdim g1) (den h))); first exact: D2.
  by apply: K; apply: List.in_or_app; right; apply: In_map_den.
move=> [F K]; split=> X HX; have [HX'|HX'] := List.in_app_or _ _ _ HX; have [A HA ->] := In_den HX'.
- by have [D] := F g1 A G1 HA; rewrite R1 // => -[<-].
- by have [D] := F g2 A G2 HA; rewrite R2 // => -[<-].
- by have [D] := K g1 A G1 HA; rewrite D1 // => -[<-].
by have [D] := K g2 A G2 HA; rewrite D2 // => -[<-].
Qed.
End Inv.
