(** * DataCubeThm: the data sets InvertedCube and BrokenRubiksCube. *)
From Coq Require Import Reals String.
From mathcomp Require Import all_ssreflect all_algebra.
From mathcomp Require Import zify.
From Verif Require Import Np NpLemmas Spec SpecLemmas LinOp LinOpSpec LinOpInv Rep RepSpec RepWf RepAlg RepFun RepExpr RhoProofs Rstruct Expm GrpSpec GrpProofs.
From Verif Require Import Groups GroupsSpec GroupsPerm GroupsSpecR GroupsInit GroupsCtor GroupsThm GroupsFlag GroupsReal GroupsRubik ExactSpec GroupsExact GroupsExactL GroupsExactD.
From Verif Require Import Nn NnSpec NnThm Data DataSpec DataAlg DataThm DataGroups RubikSpec GroupsRubikG DataCube.
Set Implicit Arguments.
Unset Strict Implicit.
Unset Printing Implicit Defensive.
Import GRing.Theory.
Local Open Scope ring_scope.

(** ** permutation matrices *)
Section Perms.
Variable n : nat.
Lemma ftr_perm p : is_perm n p -> meq (ftr (perm_mat RR n p)) (perm_mat RR n (argsort p)).
Proof.
move=> P; split=> //= i j Hi Hj; congr ((_ : bool)%:R); apply/eqP/eqP => <-.
  by rewrite (argsort_perm_nth P).
by rewrite (perm_argsort P).
Qed.
Lemma perm_id e : (forall i, (i < n)%N -> nth 0%N e i = i) -> meq (perm_mat RR n e) (fid RR n).
Proof. by move=> H; split=> //= i j Hi Hj; rewrite H. Qed.
Lemma perm_inv_r p : is_perm n p -> meq (fmul (perm_mat RR n p) (perm_mat RR n (argsort p))) (fid RR n).
Proof.
move=> P; apply: meq_trans (perm_mul RR P (argsort_perm P)) _; apply: perm_id => i Hi.
by rewrite nth_gather ?(is_perm_size P) // (argsort_perm_nth P).
Qed.
Lemma perm_inv_l p : is_perm n p -> meq (fmul (perm_mat RR n (argsort p)) (perm_mat RR n p)) (fid RR n).
Proof.
move=> P; apply: meq_trans (perm_mul RR (argsort_perm P) P) _; apply: perm_id => i Hi.
by rewrite nth_gather ?size_argsort ?(is_perm_size P) // (perm_argsort P).
Qed.
Lemma perm_isometry p : is_perm n p -> isometry (fid RR n) (perm_mat RR n p).
Proof.
move=> P; apply: meq_trans (perm_inv_l P); apply: meq_fmul; [exact: ftr_perm | exact: fmul_id_l | by []].
Qed.
Lemma act_perm p v i : is_perm n p -> (i < n)%N -> act (perm_mat RR n p) v i = v (nth 0%N p i).
Proof.
move=> P Hi; rewrite /act /= (sum_only (i := nth 0%N p i)) ?eqxx ?mul1r //; first exact: is_perm_nth.
by move=> j Hj; rewrite eq_sym => /negbTE ->; rewrite mul0r.
Qed.
End Perms.

(** ** arrays *)
Section Arrays.
Variable R : comRingType.
Lemma nth_nseqs n m (S : seq R) i j : size S = n -> (i < m)%N -> (j < n)%N -> nth 0 (flatten (nseq m S)) (i * n + j) = nth 0 S j.
Proof.
move=> Sz; elim: m i => // m IH [|i] Hi Hj /=; rewrite nth_cat Sz.
  by rewrite mul0n add0n Hj.
by rewrite mulSn -addnA ltnNge leq_addr /= addKn IH.
Qed.
Lemma size_nseqs m (S : seq R) : size (flatten (nseq m S)) = (m * size S)%N.
Proof. by elim: m => //= m IH; rewrite size_cat IH mulSn. Qed.
Lemma row_take n (A : seq R) p i : (i < size p)%N -> row_of n i (take_rows n p A) = row_of n (nth 0%N p i) A.
Proof.
move=> Hi; apply: (@eq_from_nth _ 0) => [|j]; rewrite ?size_mkseq // => Hj.
rewrite !nth_mkseq // /take_rows; elim: p i Hi => // a p IH [|i] Hi /=; rewrite nth_cat size_mkseq.
  by rewrite mul0n add0n Hj nth_mkseq.
by rewrite mulSn -addnA ltnNge leq_addr /= addKn IH.
Qed.
Lemma divmod_row n b j : (j < n)%N -> ((b * n + j) %/ n = b)%N /\ ((b * n + j) %% n = j)%N.
Proof. by move=> Hj; rewrite divnMDl ?modnMDl ?divn_small ?modn_small ?addn0 //; lia. Qed.
Lemma row_lt n b j N : (b < N)%N -> (j < n)%N -> (b * n + j < N * n)%N.
Proof. by move=> Hb Hj; apply: (@leq_trans (b * n + n)); rewrite ?ltn_add2l // addnC -mulSn leq_mul2r Hb orbT. Qed.
Lemma row_repeat m n r b (A : seq R) : (b < r * m)%N -> row_of n b (repeat0 m n r A) = row_of n (b %/ m) A.
Proof.
move=> Hb; apply: (@eq_from_nth _ 0) => [|j]; rewrite ?size_mkseq // => Hj.
rewrite !nth_mkseq //; last exact: row_lt.
by have [-> ->] := divmod_row b Hj.
Qed.
(** row b of X@gs *)
Lemma row_batch N c k X gs Y b i j : batch_mul N c k X gs = Ok Y -> (b < N)%N -> (i < c)%N -> (j < k)%N ->
  nth 0 (row_of (c * k) b Y) (i * k + j) =
  \sum_(0 <= l < k) nth 0 (row_of (c * k) b X) (i * k + l) * nth (0 : R) gs (b * (k * k) + (l * k + j))%N.
Proof.
rewrite /batch_mul; case: eqP => // _ [<-] Hb Hi Hj; have Hij := row_lt Hi Hj.
rewrite nth_mkseq // nth_mkseq; last exact: row_lt.
have [-> ->] := divmod_row b Hij; have [-> ->] := divmod_row i Hj.
rewrite rsumE; apply: eq_sum => l Hl; rewrite nth_mkseq //; exact: row_lt.
Qed.
(** the columns of a state are permuted *)
Definition col_perm (ids : seq nat) (i : nat) : seq nat :=
  mkseq (fun a => if a \in ids then nth 0%N (roll 0%N i ids) (index a ids) else a) 48.
Lemma nth_roll_cols ids i (S : seq R) c a : size S = 288%N -> (c < 6)%N -> (a < 48)%N ->
  nth 0 (roll_cols ids i S) (c * 48 + a) = nth 0 S (c * 48 + nth 0%N (col_perm ids i) a).
Proof.
move=> Sz Hc Ha; rewrite nth_mkseq; last by rewrite Sz; exact: (@row_lt 48 c a 6).
have [e1 e2] := divmod_row c Ha; cbv zeta; rewrite e1 e2 /col_perm nth_mkseq //; by case: (a \in ids).
Qed.
End Arrays.

Section Main.
Variables (sinv : RR -> RR) (linv : nat -> seq RR -> seq RR).
Variables (crho cdrho : nat -> option gid -> gel RR -> res (op RR)).
Variables (gdim : gid -> nat) (csize : nat -> gid -> nat) (le : rel rep) (g : gid).
Variable G : gid -> group RR.
Local Notation sz := (rsize gdim csize).
Local Notation elem := (element sinv linv gdim (the_gens G) (the_lies G) g).
Local Notation gorth := (fun h => g_orth (G h)).
Local Notation members := (members idR sinv linv crho gdim gorth csize g elem).
Local Notation rep_of := (rep_of gdim gorth csize le g).
Local Notation acts_rows := (acts_rows idR sinv linv crho gdim csize).
Local Notation equivariant := (equivariant idR sinv linv crho gdim csize elem).
Hypothesis HC : customs_ok sinv linv crho cdrho gdim csize (pred1 g).
Hypothesis HCo : forall c C M, elem M -> crho c (Some g) M = Ok C -> g_orth (G g) -> orthm (csize c g) (den C).
Hypothesis O : total_order_on (key gdim csize le (pred1 g)) le.
Hypothesis C0 : forall c, (0 < csize c g)%N.

(** in_group and generated describe the same group *)
Lemma span_lie_alg X : lie_span (lmats (G g)) X -> lie_alg (the_lies G) g X.
Proof.
elim=> {X} [A X HA E|c X Y Z _ SX _ SY E|X Y Z _ SX _ SY E].
- by have [B [EB HB]] := proj1 (List.in_map_iff _ _ _) HA; apply: LA_gen HB _; rewrite EB.
- exact: LA_lin SX SY E.
- exact: LA_br SX SY E.
Qed.
Lemma in_generated X : in_group (gdim g) (lmats (G g)) (gmats (G g)) X ->
  generated gdim (pred1 g) (the_gens G) (the_lies G) (fun=> X).
Proof.
have at1 Y : at_group gdim (pred1 g) g (fun=> Y) by move=> h /eqP.
elim=> {X} [X E|h X Hh E|A X HA E|X Y Z _ IX _ IY E|X Y _ IX y1 y2 E1 E2].
- by apply: G_one => h /eqP ->.
- have [B [EB HB]] := proj1 (List.in_map_iff _ _ _) Hh.
  apply: (@G_gen gdim (pred1 g) (the_gens G) (the_lies G) g B (fun=> X) (eqxx g) HB _ (at1 X)).
  by rewrite EB; exact: E.
- exact: (@G_exp gdim (pred1 g) (the_gens G) (the_lies G) g A (fun=> X) (eqxx g) (span_lie_alg HA) E (at1 X)).
- by apply: (G_mul IX IY) => h _.
by apply: (G_inv IX) => h /eqP ->.
Qed.
Variables (x : res (group RR)) (k : nat) (P : fmat RR -> Prop).
Hypothesis HX : exact_group x k P.
Hypothesis EG : x = Ok (G g).
Hypothesis Ek : gdim g = k.
Hypothesis K0 : (0 < k)%N.
Hypothesis HP : forall X, P X -> exists2 p, is_perm k p & meq X (perm_mat RR k p).
Local Notation inG := (in_group k (lmats (G g)) (gmats (G g))).

Lemma perm_elem p : is_perm k p -> inG (perm_mat RR k p) -> elem (GMat (OPerm RR p)).
Proof.
move=> Pp; rewrite -Ek => I; exists (fun=> perm_mat RR k p); first by rewrite -Ek; exact: in_generated.
move=> h /eqP ->; exists (OPerm RR p) => //.
have GP : gop idR (gdim g) (OPerm RR p) by rewrite Ek; exact: gop_perm.
have ED : den (OPerm RR p) = perm_mat RR k p by rewrite /= (is_perm_size Pp).
split; last by rewrite ED; exact: meq_refl.
split=> //; exists (OPerm RR p) => //; split=> //.
rewrite ED; have T := ftr_perm Pp; split.
  by apply: meq_trans (perm_inv_r Pp); exact: meq_fmul.
by apply: meq_trans (perm_inv_l Pp); exact: meq_fmul.
Qed.
Lemma elem_perm M : elem M -> exists A p, [/\ glook M (Some g) = Ok A, is_perm k p, meq (den A) (perm_mat RR k p) & inG (perm_mat RR k p)].
Proof.
move=> EM; have [X GX HM] := EM; have [A EA _] := HM g (eqxx g).
have [a1 a2 HA] := elem_P HX EG Ek EM EA; have [p Pp Ep] := HP HA; exists A, p; split=> //.
have [G0 E0 [_ H]] := HX; move: E0; rewrite EG => -[?]; subst G0.
apply: (@in_group_meq _ _ _ (den A)) => //; last exact: meq_sym.
by apply/H.
Qed.
Lemma perm_members : members (fun=> True).
Proof.
apply: (elem_members HC HCo HX EG Ek) => A a1 a2 /HP[p Pp E]; split=> //.
apply: meq_trans (perm_isometry Pp); have E2 : meq (fmul (fid RR k) A) (fmul (fid RR k) (perm_mat RR k p)) by apply: meq_fmul.
by apply: meq_fmul E2 _; [exact: meq_ftr | rewrite /= a1].
Qed.
Let G0' : (0 < gdim g)%N. Proof. by rewrite Ek. Qed.
Lemma cube_reps m : (0 < m)%N -> exists2 rin, rep_of (EMul (EInt m) EV) rin & sz rin = (m * k)%N /\
  forall M A p u v, elem M -> glook M (Some g) = Ok A -> is_perm k p -> meq (den A) (perm_mat RR k p) ->
    acts_rows rin (fun=> M) 1 u v <-> [/\ size u = (m * k)%N, size v = (m * k)%N &
      forall c a, (c < m)%N -> (a < k)%N -> nth 0 v (c * k + a)%N = nth 0 u (c * k + nth 0%N p a)%N].
Proof.
move=> m0; pose Fi (S : comRingType) (A : fmat S) := fdsuml (nseq m A).
have ei S A B : @espec S A B (EMul (EInt m) EV) = Some (SMat (Fi S (A None))).
  by rewrite /Fi /=; case: (m) m0.
have [rin Ri [_ zi]] := @rep_exists gdim gorth csize le g O G0' C0 (EMul (EInt m) EV) _ (ei _ _ _).
rewrite /Fi fr_copies /= Ek in zi; exists rin => //; split=> // M A p u v EM EA Pp EP.
have [GM OM _] := perm_members EM.
have ri := rep_rho O G0' C0 Ri GM OM (ei _ _ _); rewrite /= (arho_V _ _ _ EA) in ri.
have [a1 a2 _] := EP; rewrite /= in a1 a2.
have AP : acts_rows rin (fun=> M) 1 u v <-> [/\ size u = (m * k)%N, size v = (m * k)%N &
    forall i, (i < m * k)%N -> nth 0 v i = act (Fi _ (den A)) (nth 0 u) i].
  by rewrite -zi; apply: (acts1P _ _ _ _ ri); rewrite zi /Fi ?fr_copies ?fc_copies ?a1 ?a2.
apply: (iff_trans AP).
have Act c a (y : nat -> RR) : (c < m)%N -> (a < k)%N -> act (Fi _ (den A)) y (c * k + a) = y (c * k + nth 0%N p a)%N.
  move=> Hc Ha; rewrite (act_copies y a1 a2 Hc Ha) (act_meq (B := perm_mat RR k p)) ?a1 //.
  by rewrite act_perm.
split=> -[s1 s2 H]; split=> //.
  move=> c a Hc Ha; rewrite H ?Act //.
  by apply: (@leq_trans (c * k + k)); rewrite ?ltn_add2l // addnC -mulSn leq_mul2r Hc orbT.
move=> i Hi; have Hk : (i %% k < k)%N by rewrite ltn_mod.
have Hc : (i %/ k < m)%N by rewrite ltn_divLR.
by rewrite {1 2}(divn_eq i k) H // Act.
Qed.
Lemma scalar_reps m : (0 < m)%N -> exists2 rout, rep_of (EMul (EInt m) EScalar) rout & sz rout = m /\
  forall M u v, elem M -> acts_rows rout (fun=> M) 1 u v <-> size u = m /\ v = u.
Proof.
move=> m0; pose Fo (S : comRingType) (A : fmat S) := fdsuml (nseq m (fid S 1)).
have eo S A B : @espec S A B (EMul (EInt m) EScalar) = Some (SMat (Fo S (A None))).
  by rewrite /Fo /=; case: (m) m0.
have [rout Ro [_ zo]] := @rep_exists gdim gorth csize le g O G0' C0 (EMul (EInt m) EScalar) _ (eo _ _ _).
rewrite /Fo fr_copies /= muln1 in zo; exists rout => //; split=> // M u v EM.
have [GM OM _] := perm_members EM.
have ro := rep_rho O G0' C0 Ro GM OM (eo _ _ _).
have AP : acts_rows rout (fun=> M) 1 u v <-> [/\ size u = m, size v = m &
    forall i, (i < m)%N -> nth 0 v i = act (Fo _ (fid RR 1)) (nth 0 u) i].
  by rewrite -zo; apply: (acts1P _ _ _ _ ro); rewrite zo /Fo ?fr_copies ?fc_copies ?muln1.
apply: (iff_trans AP).
have Act (y : nat -> RR) i : (i < m)%N -> act (Fo _ (fid RR 1)) y i = y i.
  move=> Hi; have := @act_copies RR 1 m (fid RR 1) y i 0 erefl erefl Hi isT.
  by rewrite muln1 addn0 act_fid // addn0.
split=> [[s1 s2 H]|[s1 ->]]; last by split=> // i Hi; rewrite Act.
by split=> //; apply: (@eq_from_nth _ 0); rewrite ?s1 ?s2 // => i Hi; rewrite H // Act.
Qed.
(** an equivariant function into invariants takes the same value on two inputs that differ
    by an element *)
Lemma same_value rin rout f m M u v : (0 < m)%N -> rep_of (EMul (EInt m) EScalar) rout -> equivariant rin rout f ->
  elem M -> acts_rows rin (fun=> M) 1 u v -> exists y, f 1%N u = Ok y /\ f 1%N v = Ok y.
Proof.
move=> m0 Ro Hf EM A; have [ro Ro' [_ H]] := scalar_reps m0.
have [y [y' [E1 E2 A2]]] := Hf 1%N (fun=> M) u v (fun _ _ => EM) A.
rewrite (rep_of_inj Ro Ro') in A2; have [_ E] := proj1 (H M y y' EM) A2.
by exists y; rewrite E1 E2 E.
Qed.

(** ** the test set *)
Local Notation mat_of gs b := (FM k k (fun i j => nth (0 : RR) gs (b * (k * k) + (i * k + j))%N)).
Lemma inG_argsort p : is_perm k p -> inG (perm_mat RR k p) -> inG (perm_mat RR k (argsort p)).
Proof. by move=> Pp I; apply: (I_inv I); [| |exact: perm_inv_r | exact: perm_inv_l]. Qed.
Lemma inG_perm X : inG X -> exists2 p, is_perm k p & meq X (perm_mat RR k p) /\ inG (perm_mat RR k p).
Proof.
move=> I; have [G1 E1 [_ H]] := HX; move: E1; rewrite EG => -[?]; subst G1.
have [x1 x2 /HP[p Pp E]] := proj1 (H X) I; exists p => //; split=> //.
by apply: (in_group_meq _ I) => //; exact: meq_sym.
Qed.
Lemma scramble_ok rin r m c X Y gs p : (0 < c)%N -> rep_of (EMul (EInt c) EV) rin ->
  size gs = (r * m * (k * k))%N -> (forall b, (b < r * m)%N -> inG (mat_of gs b)) -> is_perm (r * m) p ->
  exists X' Y', [/\ scramble r m c k X Y gs p = Ok (X', Y'), size X' = (r * m * (c * k))%N, size Y' = (r * m)%N &
    forall i, (i < r * m)%N -> let b := (nth 0%N p i %/ m)%N in
      [/\ (b < r)%N, nth 0 Y' i = nth 0 Y b & exists2 M, elem M & acts_rows rin (fun=> M) 1 (row_of (c * k) b X) (row_of (c * k) i X')]].
Proof.
move=> c0 Ri Sg Hg Pp; have sp := is_perm_size Pp.
have [r1 Ri1 [_ HA]] := cube_reps c0; rewrite -(rep_of_inj Ri Ri1) in HA.
have [X1 EX] : exists X1, batch_mul (r * m) c k (repeat0 m (c * k) r X) gs = Ok X1 by rewrite /batch_mul Sg eqxx; eexists.
have sr n (A : seq RR) : size (take_rows n p A) = (r * m * n)%N.
  by rewrite -sp /take_rows; elim: (p) => //= a l IH; rewrite size_cat size_mkseq IH mulSn.
exists (take_rows (c * k) p X1), (take_rows 1 p (repeat0 m 1 r Y)); rewrite /scramble EX; split=> //; first by rewrite sr muln1.
move=> i Hi /=; have Hb := is_perm_nth Pp Hi; set b := nth 0%N p i in Hb *.
split.
- by rewrite ltn_divLR //; case: (m) Hb; rewrite ?muln0.
- have := congr1 (nth 0 ^~ 0%N) (@row_take _ 1 (repeat0 m 1 r Y) p i _); rewrite sp -/b row_repeat // => /(_ Hi).
  by rewrite /= muln1 addn0 => ->; rewrite muln1 addn0.
rewrite row_take ?sp // -/b; have [q Pq [[_ _ Eq] Iq]] := inG_perm (Hg b Hb).
have Pa := argsort_perm Pq; have EM := perm_elem Pa (inG_argsort Pq Iq); exists (GMat (OPerm RR (argsort q))) => //.
have ED : meq (den (OPerm RR (argsort q))) (perm_mat RR k (argsort q)) by rewrite /= size_argsort (is_perm_size Pq); exact: meq_refl.
apply/(HA _ _ _ _ _ EM erefl Pa ED); rewrite !size_mkseq; split=> // ci a Hc Ha.
rewrite (row_batch EX Hb Hc Ha) row_repeat // (sum_only (i := nth 0%N (argsort q) a)); last 2 first.
- exact: is_perm_nth.
- move=> l Hl ne; have /= -> := Eq l a Hl Ha; case: eqP => [e|_]; last by rewrite mulr0.
  by case/eqP: ne; rewrite -e (argsort_perm_nth Pq).
have /= -> := Eq _ _ (is_perm_nth Pa Ha) Ha; by rewrite (perm_argsort Pq) // eqxx mulr1.
Qed.
End Main.
