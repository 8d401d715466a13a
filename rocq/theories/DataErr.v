(** * DataErr: equivariance_error. *)
From Coq Require Import Reals Lra.
From mathcomp Require Import all_ssreflect all_algebra.
From mathcomp Require Import zify.
From Verif Require Import Np NpLemmas Spec SpecLemmas LinOp LinOpSpec LinOpProofs LinOpInv Rep RepSpec RepWf RepCode RepMat RepProd RepAlg RepDist RepMul RepFun RepOps RhoProofs RepThm RepThm1.
From Verif Require Import RepExpr RepExprProofs RepDefer MxBridge GroupsSpec Rstruct Expm GrpSpec Nn NnSpec Data DataSpec DataAlg DataThm.
Set Implicit Arguments.
Unset Strict Implicit.
Unset Printing Implicit Defensive.
Import GRing.Theory.
Local Open Scope ring_scope.
Delimit Scope R_scope with coqR.

Local Notation rmsR := (rms (R := RR) R_sqrt.sqrt Rabs (fun x n => Rdiv x (INR n))).

Lemma sum_ge0 n (f : nat -> RR) : (forall i, (i < n)%N -> (0 <= f i)%coqR) -> (0 <= (\sum_(0 <= i < n) f i)%R)%coqR.
Proof.
elim: n => [|n IH] H; first by rewrite big_geq //; apply: Rle_refl.
rewrite big_nat_recr //=; apply: Rplus_le_le_0_compat; last exact: H.
by apply: IH => i Hi; apply: H; rewrite ltnS ltnW.
Qed.
Lemma sum_eq0 n (f : nat -> RR) : (forall i, (i < n)%N -> (0 <= f i)%coqR) -> \sum_(0 <= i < n) f i = 0 ->
  forall i, (i < n)%N -> f i = 0.
Proof.
elim: n => [//|n IH] H; rewrite big_nat_recr //= => E0.
have H' i : (i < n)%N -> (0 <= f i)%coqR by move=> Hi; apply: H; rewrite ltnS ltnW.
have S0 := sum_ge0 H'; have F0 : (0 <= f n)%coqR by apply: H.
have E0' : ((\sum_(0 <= i < n) f i)%R + f n = 0)%coqR := E0.
have [S1 F1] : \sum_(0 <= i < n) f i = 0%coqR /\ f n = 0%coqR by split; lra.
move=> i; rewrite ltnS leq_eqVlt => /orP[/eqP -> //|Hi]; exact: IH.
Qed.
Lemma rms_ge0 t : (0 <= rmsR t)%coqR.
Proof. exact: sqrt_pos. Qed.
Lemma rms_eq0 t : (0 < size t)%N -> rmsR t = 0%coqR <-> forall i, (i < size t)%N -> nth 0 t i = 0.
Proof.
move=> H0; have N0 : (0 < INR (size t))%coqR by apply: lt_0_INR; apply/ltP.
rewrite /rms rsumE.
have P i : (i < size t)%N -> (0 <= ((Rabs (nth 0 t i) : RR) ^+ 2)%R)%coqR.
  by move=> _; rewrite expr2; apply: Rle_0_sqr.
have Q := sum_ge0 P; split=> [E i Hi|H].
  have Z : (\sum_(0 <= j < size t) (Rabs (nth 0 t j) : RR) ^+ 2 : RR) = 0.
    have /sqrt_eq_0 E1 := E; have {}E1 := E1 (Rmult_le_pos _ _ Q (Rlt_le _ _ (Rinv_0_lt_compat _ N0))).
    by case: (Rmult_integral _ _ E1) => // E2; have := Rinv_neq_0_compat _ (not_eq_sym (Rlt_not_eq _ _ N0)).
  have := sum_eq0 P Z Hi; rewrite expr2 => /Rmult_integral E2.
  have E3 : Rabs (nth 0 t i) = 0%coqR by case: E2.
  by case: (Req_dec (nth 0 t i) 0) => // /Rabs_no_R0.
rewrite sum0; first by rewrite /Rdiv Rmult_0_l sqrt_0.
by move=> i Hi; rewrite H //; rewrite Rabs_R0 expr2; apply: Rmult_0_l.
Qed.
Lemma size_vsub (a b : seq RR) : size a = size b -> size (vsub a b) = size a.
Proof. by move=> E; rewrite size_map size_zip E minnn. Qed.
Lemma vsub_eq0 (a b : seq RR) : size a = size b -> (forall i, (i < size (vsub a b))%N -> nth 0 (vsub a b) i = 0) <-> a = b.
Proof.
move=> S; rewrite size_vsub //; split=> [H|-> i Hi].
  apply: (@eq_from_nth _ 0) => // i Hi; have := H i Hi.
  rewrite (nth_map (0, 0)) ?size_zip -?S ?minnn // nth_zip //= => E.
  by apply/eqP; rewrite -subr_eq0; apply/eqP.
by rewrite (nth_map (0, 0)) ?size_zip ?minnn // nth_zip //= subrr.
Qed.
Lemma rel_error t1 t2 d g tiny : (0 < tiny)%coqR -> size t1 = size t2 -> (0 < size t1)%N ->
  let e := scale_adjusted_rel_error R_sqrt.sqrt Rabs Rmax Rdiv (fun x n => Rdiv x (INR n)) tiny t1 t2 d g in
  (0 <= e)%coqR /\ (e = 0%coqR <-> t1 = t2).
Proof.
move=> T0 S H0 e.
have M0 : (0 < Rmax (Rmax (rmsR t1 + rmsR t2) (rmsR (flatten [seq vsub h (eye RR d) | h <- g]))) tiny)%coqR.
  by apply: Rlt_le_trans (Rmax_r _ _).
have S0 : (0 < size (vsub t1 t2))%N by rewrite size_vsub.
have E0 := rms_ge0 (vsub t1 t2).
rewrite -(vsub_eq0 S) -(rms_eq0 S0) /e /scale_adjusted_rel_error; split.
  by apply: Rmult_le_pos => //; apply: Rlt_le; apply: Rinv_0_lt_compat.
split=> [/Rmult_integral[//|E1]|->]; last by rewrite /Rdiv Rmult_0_l.
by have := Rinv_neq_0_compat _ (not_eq_sym (Rlt_not_eq _ _ M0)).
Qed.

Lemma flatten_inj (T : Type) (l1 l2 : seq (seq T)) : seq.shape l1 = seq.shape l2 -> flatten l1 = flatten l2 -> l1 = l2.
Proof. by move=> S E; rewrite -(flattenK l1) -(flattenK l2) S E. Qed.

Section Err.
Variables (sinv : RR -> RR) (linv : nat -> seq RR -> seq RR).
Variables (crho : nat -> option gid -> gel RR -> res (op RR)).
Variables (gdim : gid -> nat) (csize : nat -> gid -> nat) (le : rel rep) (gs0 : pred gid).
Local Notation sz := (rsize gdim csize).
Local Notation rho_dense := (rho_dense idR sinv linv crho).
Local Notation group_elem := (group_elem idR sinv linv crho gdim csize gs0).
Local Notation wfr := (wfr gdim csize le gs0).
Local Notation arho := (arho sinv linv crho).
Local Notation intertwines := (intertwines sinv linv crho gdim csize).
Local Notation equivariance_error := (equivariance_error_R sinv linv crho gdim csize).

Lemma matmul_eq m n n' K (A B C D : seq RR) : matmul m n K A B = matmul m n' K C D <->
  forall i j, (i < m)%N -> (j < K)%N ->
    \sum_(0 <= k < n) nth 0 A (i * n + k)%N * nth 0 B (k * K + j)%N = \sum_(0 <= k < n') nth 0 C (i * n' + k)%N * nth 0 D (k * K + j)%N.
Proof.
split=> [E i j Hi Hj|H].
  have Ht : (i * K + j < m * K)%N by move: (leq_mul Hi (leqnn K)); rewrite mulSn; lia.
  have := congr1 (fun s => nth 0 s (i * K + j)%N) E; rewrite /matmul !nth_mkseq // !rsumE.
  by rewrite divnMDl ?modnMDl ?(divn_small Hj) ?(modn_small Hj) ?addn0 //; lia.
apply/eq_in_map => t; rewrite mem_iota add0n => Ht; rewrite !rsumE.
have K0 : (0 < K)%N by case: (K) Ht; rewrite ?muln0.
by apply: H; rewrite ?ltn_divLR ?ltn_mod.
Qed.
Lemma size_blocks (T : eqType) (f : T -> seq RR) k l : (forall x, size (f x) = k) -> size (flatten (map f l)) = (size l * k)%N.
Proof. by move=> S; elim: l => //= x l IH; rewrite size_cat S IH mulSn. Qed.
Lemma blocks_eq (T : eqType) (f h : T -> seq RR) k l : (forall x, size (f x) = k) -> (forall x, size (h x) = k) ->
  flatten (map f l) = flatten (map h l) <-> {in l, f =1 h}.
Proof.
move=> S1 S2; split=> [E|/eq_in_map -> //]; apply/eq_in_map; apply: flatten_inj E.
by rewrite /seq.shape -!map_comp; apply: eq_map => x /=; rewrite S1 S2.
Qed.
Theorem error_thm tiny (W : seq RR) rin rout r d (gs : seq (seq RR)) : (0 < tiny)%coqR -> wfr rin -> wfr rout ->
  (forall D, D \in gs -> group_elem (GMat (OArr d d D))) -> gs != [::] ->
  size W = (sz rout * sz rin * r)%N -> (0 < size W)%N ->
  exists2 e, equivariance_error tiny W rin rout d gs = Ok e &
    (0 <= e)%coqR /\ (e = 0%coqR <-> forall D, D \in gs -> intertwines W rin rout r (GMat (OArr d d D))).
Proof.
move=> T0 W1 W2 HG Hne SW W0; rewrite /equivariance_error_R /Data.equivariance_error (size_py_ok W1) (size_py_ok W2) !bindOk.
have N0 : (0 < sz rout * sz rin)%N by move: W0; rewrite SW; case: (_ * sz rin)%N.
have r0 : (0 < r)%N by move: W0; rewrite SW; case: (r); rewrite ?muln0.
rewrite SW modnMr eqn0Ngt N0 /= mulKn //.
pose A D := rmat (arho (GMat (OArr d d D))) rin; pose B D := rmat (arho (GMat (OArr d d D))) rout.
have EA : mapM (fun D => rho_dense rin (GMat (OArr d d D))) gs = Ok [seq (sz rin, sz rin, flat (A D)) | D <- gs].
  by apply: mapM_ok_in => D HD; apply: rho_dense_ok W1; apply: HG.
have EB : mapM (fun D => rho_dense rout (GMat (OArr d d D))) gs = Ok [seq (sz rout, sz rout, flat (B D)) | D <- gs].
  by apply: mapM_ok_in => D HD; apply: rho_dense_ok W2; apply: HG.
rewrite EA EB !bindOk -!map_comp /comp /=.
set t1 := flatten _; set t2 := flatten _.
pose sl := slice_of (sz rout) (sz rin) r W.
pose f D := flatten [seq matmul (sz rout) (sz rin) (sz rin) (sl c) (flat (A D)) | c <- iota 0 r].
pose h D := flatten [seq matmul (sz rout) (sz rout) (sz rin) (flat (B D)) (sl c) | c <- iota 0 r].
have F D : size (f D) = (r * (sz rout * sz rin))%N by rewrite /f (size_blocks (k := (sz rout * sz rin)%N)) ?size_iota // => c; rewrite size_mkseq.
have H D : size (h D) = (r * (sz rout * sz rin))%N by rewrite /h (size_blocks (k := (sz rout * sz rin)%N)) ?size_iota // => c; rewrite size_mkseq.
have S1 : size t1 = (size gs * (r * (sz rout * sz rin)))%N by rewrite /t1 (size_blocks (f := f) (k := (r * (sz rout * sz rin))%N)).
have S2 : size t2 = (size gs * (r * (sz rout * sz rin)))%N by rewrite /t2 (size_blocks (f := h) (k := (r * (sz rout * sz rin))%N)).
have P1 : (0 < size t1)%N by rewrite S1 muln_gt0 muln_gt0 r0 N0 !andbT; case: (gs) Hne.
eexists; first by reflexivity.
have S12 : size t1 = size t2 by rewrite S1 S2.
have [e0 e1] := rel_error d gs T0 S12 P1; split=> //; rewrite {}e1 (@blocks_eq _ f h _ gs F H).
have Q D : f D = h D <-> {in iota 0 r, (fun c => matmul (sz rout) (sz rin) (sz rin) (sl c) (flat (A D))) =1 (fun c => matmul (sz rout) (sz rout) (sz rin) (flat (B D)) (sl c))}.
  by apply: (@blocks_eq _ _ _ (sz rout * sz rin)%N) => c; rewrite size_mkseq.
have SL i j c : (i < sz rout)%N -> (j < sz rin)%N -> (c < r)%N -> nth 0 (sl c) (i * sz rin + j) = nth 0 W ((i * sz rin + j) * r + c).
  by move=> Hi Hj Hc; rewrite nth_mkseq //; move: (leq_mul Hi (leqnn (sz rin))); rewrite mulSn; lia.
split=> E0 D HD.
  exists (flat (A D)), (flat (B D)); split; [exact: rho_dense_ok (HG D HD) W1|exact: rho_dense_ok (HG D HD) W2|].
  move=> i j c Hi Hj Hc; have /Q/(_ c) := E0 D HD; rewrite mem_iota add0n => /(_ Hc)/matmul_eq/(_ i j Hi Hj) E1.
  etransitivity; first (etransitivity; last exact: E1).
    by apply: eq_sum => k Hk; rewrite SL.
  by apply: eq_sum => k Hk; rewrite SL.
apply/Q => c; rewrite mem_iota add0n => Hc; apply/matmul_eq => i j Hi Hj.
have [A' [B' []]] := E0 D HD; rewrite (rho_dense_ok (HG D HD) W1) (rho_dense_ok (HG D HD) W2) => -[<-] [<-] /(_ i j c Hi Hj Hc) E1.
etransitivity; first (etransitivity; last exact: E1).
  by apply: eq_sum => k Hk; rewrite SL.
by apply: eq_sum => k Hk; rewrite SL.
Qed.
(** W of another size: reshape raises *)
Lemma error_shape tiny W rin rout d gs : wfr rin -> wfr rout -> ~~ (sz rout * sz rin %| size W)%N ->
  equivariance_error tiny W rin rout d gs = Err TypeError.
Proof.
move=> W1 W2; rewrite /dvdn /equivariance_error_R /Data.equivariance_error (size_py_ok W1) (size_py_ok W2) !bindOk => ->.
by rewrite orbT.
Qed.
End Err.
