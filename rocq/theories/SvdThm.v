(** * SvdThm: exact numerical solvers exist over the real numbers, for every system. *)
From Coq Require Import Reals ClassicalEpsilon.
From mathcomp Require Import all_ssreflect all_algebra.
From mathcomp Require Import zify.
From Verif Require Import Np NpLemmas Spec SpecLemmas LinOp LinOpSpec Rep RepSpec Solver SolSpec SolAlg SolSvd SolBasis MxBridge Rstruct RField Expm GrpSpec SvdReal.
Set Implicit Arguments.
Unset Strict Implicit.
Unset Printing Implicit Defensive.
Import GRing.Theory.
Local Open Scope ring_scope.

(** the rank decision without rounding: s > 0 for singular values *)
Definition nonzero : pred RR := fun x => x != 0.

Lemma mxf_sdiag m n (s : nat -> RR) : mxf m n (FM m n (fun i j => if i == j then nth 0 (mkseq s (minn m n)) i else 0)) = sdiag m n s.
Proof.
apply/matrixP=> i j; rewrite !mxE /=; case: eqP => // e.
by rewrite nth_mkseq // leq_min ltn_ord e ltn_ord.
Qed.
Lemma svd_data m n (D : seq RR) : exists usv : seq RR * seq RR * seq RR, svd_exact idR (fun _ _ _ => usv) nonzero m n D.
Proof.
have [U [s [V [HU HV E M]]]] := svd_exists (mxf m n (unflat m n D)).
exists (ofM (U : 'M[RR]_m), mkseq s (minn m n), ofM (V : 'M[RR]_n)); rewrite /svd_exact.
have tu k (X : 'M[RR]_k) : mxf k k (unflat k k (ofM X)) = X by exact: toM_ofM.
have th k (X : 'M[RR]_k) : mxf k k (ftr (fconj idR (unflat k k (ofM X)))) = X^T.
  by rewrite mxf_tr -[in RHS](tu k X); congr (_^T); apply/matrixP=> i j; rewrite !mxE.
split.
- by rewrite size_mkseq !size_ofM.
- split; apply: meq_mxf => //.
  + by rewrite (@mxf_mul _ m m m) // mxf_id th tu.
  + by rewrite (@mxf_mul _ n n n) // mxf_id th tu; exact: orthogonalC HV.
  + by rewrite (@mxf_mul _ n n n) // mxf_id th tu.
- by apply: meq_mxf => //; rewrite (@mxf_mul _ m n m) // (@mxf_mul _ m n n) // !tu mxf_sdiag E mulmxA.
split.
- move=> i j ij; rewrite size_mkseq => Hj; rewrite !nth_mkseq //; last by apply: ltn_trans Hj.
  by apply: contra => /eqP Z; apply/eqP; apply: M ij Z.
- move=> x _ Hx; exists (Rinv x); apply: Rinv_l; exact/eqP.
- by move=> x _ /negPn/eqP.
Qed.
Definition real_svd (m n : nat) (D : seq RR) : seq RR * seq RR * seq RR :=
  proj1_sig (constructive_indefinite_description _ (svd_data m n D)).
Lemma real_svd_exact m n D : svd_exact idR real_svd nonzero m n D.
Proof. exact: (proj2_sig (constructive_indefinite_description _ (svd_data m n D))). Qed.
(** an exact solver for the systems that are too large for the decomposition *)
Definition real_krylov (C : op RR) : res (darr RR) :=
  match to_dense idR C with
  | Ok (m, n, D) => Ok (orthogonal_complement idR real_svd nonzero m n (flat (unflat m n D)))
  | Err e => Err e
  end.
Lemma sol_null m n (D : seq RR) k (Q : seq RR) : size Q = (n * k)%N ->
  sol idR n (fun _ : unit => unflat m n D) (unflat n k Q) -> null_basis idR m n D k Q.
Proof.
move=> SQ [h1 h2 h3 h4]; split=> // v Sv; have := h4 (nth 0 v).
rewrite matvecE // matvec_flat // => H; split=> E.
  apply: (@eq_from_nth _ 0); rewrite size_mkseq ?Sv // => i Hi; rewrite nth_mkseq //.
  apply: (H.1 _ i Hi) => -[] j Hj; have := congr1 (nth 0 ^~ j) E.
  by rewrite nth_mkseq // nth_nseq if_same.
apply: (@eq_from_nth _ 0); rewrite size_mkseq ?size_nseq // => i Hi; rewrite nth_mkseq // nth_nseq if_same.
apply: (H.2 _ tt i Hi) => j Hj; have := congr1 (nth 0 ^~ j) E.
by rewrite nth_mkseq.
Qed.
Theorem real_solvers sinv linv crho cdrho gdim csize gens lies c :
  solver_ok idR gdim sinv linv crho cdrho csize gens lies real_svd nonzero real_krylov c.
Proof.
move=> C m n D EC ED; case: ifP => _; last exact: real_svd_exact.
set D' := flat (unflat m n D); have SD : size D' = (m * n)%N by rewrite size_flat.
have [q1 q2 q3] := svd_sol (fun x => erefl) SD (real_svd_exact m n D').
rewrite /real_krylov ED -/D'; move: q1 q2 q3; case: (orthogonal_complement _ _ _ _ _ _) => -[n' k] Q /= -> S H.
exists k, Q; split=> //.
have [s1 s2 s3] := sol_null S H; split=> // v Sv; rewrite -s3 // /matvec.
have M : meq (unflat m n D') (unflat m n D) by exact: (unflat_flat (unflat m n D)).
by rewrite (flat_meq (@meq_fmul _ _ _ _ _ M (meq_refl (unflat n 1 v)) erefl)).
Qed.
