(** * DimPerm: the equivariant tensors of groups of permutations. *)
From Coq Require Import Reals String ClassicalEpsilon.
From mathcomp Require Import all_ssreflect all_algebra.
From mathcomp Require Import zify.
From Verif Require Import Np NpLemmas Spec SpecLemmas LinOp LinOpSpec LinOpInv LinOpProofs Rep RepSpec RepMat RepWf RepAlg RepMul RepFun RepExpr RhoProofs RepThm RepThm1 Solver SolSpec Rstruct Expm GrpSpec GrpProofs.
From Verif Require Import Groups GroupsSpec GroupsPerm GroupsSpecR GroupsInit GroupsCtor GroupsThm GroupsFlag GroupsReal GroupsForm ExactSpec GroupsExact GroupsExactL GroupsExactD.
From Verif Require Import Nn NnSpec NnThm Data DataSpec DataAlg DataThm DataGroups DataCubeThm DimSpec DimAlg DimComb DimTenSpec DimGrp DimTen.
Set Implicit Arguments.
Unset Strict Implicit.
Unset Printing Implicit Defensive.
Import GRing.Theory.
Local Open Scope ring_scope.

(** ** the action on index tuples *)
Lemma act_fkron (A B : fmat RR) n m v a c : fc A = n -> fr B = m -> fc B = m -> (c < m)%N ->
  act (fkron A B) v (a * m + c)%N = \sum_(0 <= e < n) fe A a e * act B (fun f => v (e * m + f)%N) c.
Proof.
move=> a2 b1 b2 Hc; rewrite /act /= a2 b1 b2 sum_mul; apply: eq_sum => e He.
rewrite big_distrr /=; apply: eq_sum => f Hf.
by rewrite !divnMDl ?modnMDl ?(divn_small Hc) ?(divn_small Hf) ?(modn_small Hc) ?(modn_small Hf) ?addn0 ?mulrA //; lia.
Qed.
Lemma moved_ok n p k t : is_perm n p -> tuple_ok n k t -> tuple_ok n k (moved_by p t).
Proof.
move=> P [<- /allP A]; split; first by rewrite size_map.
by apply/allP => x /mapP[y /A Hy ->]; exact: is_perm_nth P Hy.
Qed.
Lemma act_tuple n p k : is_perm n p -> forall t v, tuple_ok n k t ->
  act (fkronl (nseq k (perm_mat RR n p))) v (num n t) = v (num n (moved_by p t)).
Proof.
move=> P; elim: k => [|k IH] [|x t] v [] //= S.
  by move=> _; rewrite /act /= big_nat1 mul1r.
case: S => S /andP[Hx Ht]; have [s1 s2] := @fkronl_sz n k RR (perm_mat RR n p) erefl erefl.
have OK : tuple_ok n k t by [].
rewrite size_map S (@act_fkron _ _ n (n ^ k)%N) //; last by rewrite -S num_lt.
rewrite (eq_sum (g := fun e => (nth 0%N p x == e)%:R * v (e * n ^ k + num n (moved_by p t))%N)); last by move=> e He; rewrite IH.
rewrite (sum_only (i := nth 0%N p x)) ?eqxx ?mul1r //; first exact: is_perm_nth.
by move=> j Hj; rewrite eq_sym => /negbTE ->; rewrite mul0r.
Qed.
Lemma moved_comp n k p q t : is_perm n p -> tuple_ok n k t -> moved_by q (moved_by p t) = moved_by (gather 0%N q p) t.
Proof.
move=> P [_ /allP A]; rewrite /moved_by -map_comp; apply/eq_in_map => x /A Hx /=.
by rewrite nth_gather ?(is_perm_size P).
Qed.
Lemma moved_id n k e t : (forall i, (i < n)%N -> nth 0%N e i = i) -> tuple_ok n k t -> moved_by e t = t.
Proof. by move=> E [_ /allP A]; rewrite -[RHS]map_id; apply/eq_in_map => x /A Hx; rewrite E. Qed.

Section Orbit.
Variables (n k : nat) (Ps : seq nat -> Prop) (xs : seq (seq nat)).
Hypothesis HP : forall p, Ps p -> is_perm n p.
Hypothesis HM : forall p q, Ps p -> Ps q -> Ps (gather 0%N q p).
Hypothesis HI : forall p, Ps p -> Ps (argsort p).
Hypothesis HT : transversal n k Ps xs.
Definition invt (v : seq RR) : Prop := forall p, Ps p -> forall t, tuple_ok n k t -> nth 0 v (num n (moved_by p t)) = nth 0 v (num n t).
Lemma moved_inv p t : Ps p -> tuple_ok n k t -> moved_by (argsort p) (moved_by p t) = t.
Proof.
move=> Hp Ht; have P := HP Hp; rewrite (moved_comp _ P Ht); apply: moved_id Ht => i Hi.
by rewrite nth_gather ?(is_perm_size P) // (argsort_perm_nth P).
Qed.
Definition orbit_ind (x : seq nat) : seq RR :=
  mkseq (fun i => if excluded_middle_informative (exists2 p, Ps p & num n (moved_by p x) = i) then 1 : RR else 0) (n ^ k).
Lemma ind_size x : size (orbit_ind x) = (n ^ k)%N. Proof. exact: size_mkseq. Qed.
Lemma num_ok t : tuple_ok n k t -> (num n t < n ^ k)%N.
Proof. by case=> <-; exact: num_lt. Qed.
Lemma num_tuple s t : tuple_ok n k s -> tuple_ok n k t -> num n s = num n t -> s = t.
Proof. by move=> [s1 s2] [t1 t2]; apply: num_inj; rewrite // s1 t1. Qed.
Lemma ind_in x t : tuple_ok n k t -> (exists2 p, Ps p & moved_by p x = t) -> nth 0 (orbit_ind x) (num n t) = 1.
Proof.
move=> Ht [p Hp E]; rewrite nth_mkseq ?num_ok //; case: excluded_middle_informative => //= H; case: H.
by exists p => //; rewrite E.
Qed.
Lemma ind_out x t : tuple_ok n k x -> tuple_ok n k t -> ~ (exists2 p, Ps p & moved_by p x = t) -> nth 0 (orbit_ind x) (num n t) = 0.
Proof.
move=> Hx Ht H; rewrite nth_mkseq ?num_ok //; case: excluded_middle_informative => //= -[p Hp E]; case: H; exists p => //.
by apply: num_tuple E => //; apply: moved_ok (HP Hp) Hx.
Qed.
Lemma ind_invt x : tuple_ok n k x -> invt (orbit_ind x).
Proof.
move=> Hx p Hp t Ht; have Ht' := moved_ok (HP Hp) Ht.
case: (excluded_middle_informative (exists2 q, Ps q & moved_by q x = t)) => H.
  rewrite !ind_in //; case: H => q Hq E; exists (gather 0%N p q); first exact: HM.
  by rewrite -(moved_comp _ (HP Hq) Hx) E.
rewrite !ind_out // => -[q Hq E]; case: H; exists (gather 0%N (argsort p) q); first by apply: HM => //; exact: HI.
by rewrite -(moved_comp _ (HP Hq) Hx) E moved_inv.
Qed.
Lemma xs_num i : (i < size xs)%N -> nth 0%N (map (num n) xs) i = num n (nth [::] xs i).
Proof. by move=> Hi; rewrite (nth_map [::]). Qed.
Theorem orbits m Q : spans (n ^ k) m Q invt -> m = size xs.
Proof.
case: HT => T1 T2 T3 [HQ HU].
have E := @points_eq (n ^ k)%N m Q invt (map (num n) xs) HQ HU; rewrite size_map in E; apply: E.
- by move=> x /mapP[s Hs ->]; apply: num_ok; exact: T1.
- move=> j Hj; exists (orbit_ind (nth [::] xs j)); first exact: ind_size.
  have Oj : tuple_ok n k (nth [::] xs j) by apply: T1; exact: mem_nth.
  split=> [|i Hi]; first exact: ind_invt.
  have Oi : tuple_ok n k (nth [::] xs i) by apply: T1; exact: mem_nth.
  rewrite xs_num //; case: eqP => [->|ne].
    have [p Hp _] := T3 _ Oj.
    apply: ind_in => //; exists (gather 0%N (argsort p) p); first by apply: HM => //; exact: HI.
    by rewrite -(moved_comp _ (HP Hp) Oj) moved_inv.
  by apply: ind_out => // -[p Hp E']; apply: ne; rewrite (T2 j i p).
- move=> v Sv Hv H i Hi; have [t Ht <-] := num_surj Hi; have [p Hp M] := T3 t Ht.
  by rewrite -(Hv p Hp t Ht); apply: H; apply: map_f.
Qed.
End Orbit.

(** the tensors fixed by a permutation *)
Lemma fixes_perm n k p v : is_perm n p ->
  fixes (n ^ k) (fkronl (nseq k (perm_mat RR n p))) v <-> forall t, tuple_ok n k t -> nth 0 v (num n (moved_by p t)) = nth 0 v (num n t).
Proof.
move=> P; have [s1 s2] := @fkronl_sz n k RR (perm_mat RR n p) erefl erefl; split=> H.
  move=> t Ht; rewrite -(act_tuple P (nth 0 v) Ht) /act s2; apply: H; case: Ht => <-; exact: num_lt.
move=> i Hi; have [t Ht <-] := num_surj Hi; have := act_tuple P (nth 0 v) Ht; rewrite /act s2 => ->; exact: H.
Qed.

(** ** groups of permutations among the group objects *)
Section Main.
Variables (sinv : RR -> RR) (linv : nat -> seq RR -> seq RR).
Variables (crho cdrho : nat -> option gid -> gel RR -> res (op RR)).
Variables (gdim : gid -> nat) (csize : nat -> gid -> nat) (le : rel rep) (g : gid).
Variable G : gid -> group RR.
Variables (svd : nat -> nat -> seq RR -> seq RR * seq RR * seq RR) (big : pred RR).
Variable krylov : op RR -> res (darr RR).
Local Notation sz := (rsize gdim csize).
Local Notation gorth := (fun h => g_orth (G h)).
Local Notation rep_of := (rep_of gdim gorth csize le g).
Local Notation basis := (basis idR sinv linv crho cdrho gdim csize le (the_gens G) (the_lies G) svd big krylov).
Hypothesis HS : setting sinv linv crho cdrho gdim csize le g G svd big krylov.
Variables (x : res (group RR)) (n : nat) (Ps : seq nat -> Prop).
Hypothesis HX : exact_group x n (fun X => exists2 p, Ps p & meq X (perm_mat RR n p)).
Hypothesis HPs : forall p, Ps p -> is_perm n p.
Hypothesis EG : x = Ok (G g).
Hypothesis Ed : gdim g = n.
Hypothesis n0 : (0 < n)%N.
Hypothesis HB : basic_group n (G g).

Lemma ps_in p : Ps p -> in_group n (lmats (G g)) (gmats (G g)) (perm_mat RR n p).
Proof.
case: HX => G0; rewrite EG => -[<-] [_ E] Hp; apply/E; split=> //; exists p => //; exact: meq_refl.
Qed.
Lemma in_ps p : is_perm n p -> in_group n (lmats (G g)) (gmats (G g)) (perm_mat RR n p) -> Ps p.
Proof.
move=> P; case: HX => G0; rewrite EG => -[<-] [_ E] /E[_ _ [q Hq M]].
by rewrite (perm_mat_inj P (HPs Hq) M).
Qed.
Lemma ps_mul p q : Ps p -> Ps q -> Ps (gather 0%N q p).
Proof.
move=> Hp Hq; have [P Q] := (HPs Hp, HPs Hq); apply: in_ps; first exact: is_perm_gather.
by apply: I_mul (ps_in Hp) (ps_in Hq) _; apply: meq_sym; exact: perm_mul.
Qed.
Lemma ps_inv p : Ps p -> Ps (argsort p).
Proof.
move=> Hp; have P := HPs Hp; apply: in_ps; first exact: argsort_perm.
by apply: I_inv (ps_in Hp) _ _ (perm_inv_r P) (perm_inv_l P).
Qed.

Theorem tensors_perm p q : exists r k Q, [/\ rep_of (T_expr p q) r, sz r = (n ^ (p + q))%N, returns (basis r) (n ^ (p + q)) k Q &
  spans (n ^ (p + q)) k Q (invt n (p + q) Ps)].
Proof.
have I A : fr A = n -> fc A = n -> (exists2 p, Ps p & meq A (perm_mat RR n p)) -> isometry (fid RR n) A.
  move=> a1 a2 [s Hs E]; have Is := perm_isometry (HPs Hs); apply: meq_trans Is.
  by apply: meq_fmul => //; [apply: meq_ftr | apply: meq_fmul].
have [r [k [Q [R1 R2 R3 R4]]]] := tensors_iso HS HX EG Ed n0 HB p q I.
exists r, k, Q; split=> //; apply: spans_iff R4 => v Sv; split=> H.
  by move=> s Hs; apply/(fixes_perm _ _ (HPs Hs)); apply: H => //; exists s => //; exact: meq_refl.
move=> A a1 a2 [s Hs E]; have [s1 s2] := fkronl_sz (p + q) a1 a2.
by rewrite (fixes_meq _ _ _ (fkronl_nseq_meq _ E)) //; apply/(fixes_perm _ _ (HPs Hs)); exact: H.
Qed.
Theorem tensors_orbits p q xs : transversal n (p + q) Ps xs ->
  exists r Q, [/\ rep_of (T_expr p q) r, sz r = (n ^ (p + q))%N & returns (basis r) (n ^ (p + q)) (size xs) Q].
Proof.
move=> HT; have [r [k [Q [R1 R2 R3 R4]]]] := tensors_perm p q; exists r, Q; split=> //.
by rewrite -(orbits HPs ps_mul ps_inv HT R4).
Qed.
End Main.
