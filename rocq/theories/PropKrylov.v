(** * PropKrylov: C30 and C31, the iterative solver. *)
From mathcomp Require Import all_ssreflect all_algebra.
From Verif Require Import Np Spec LinOp Cplx SolSpec Krylov KrySpec KryThm KryMore KryCplx ExKry.
Set Implicit Arguments.
Unset Strict Implicit.
Unset Printing Implicit Defensive.
Import GRing.Theory Num.Theory.
Local Open Scope ring_scope.

Section Kry.
Variable R : comRingType.
Variables (conj re : R -> R) (sc : rat -> R).
Variables (conv diverging : seq R -> bool).
Variable tsvd : nat -> nat -> seq R -> seq R * seq R * seq R.
Variables (big : pred R) (gap : R -> R -> bool).
Variable W0 : nat -> nat -> seq R.
Local Notation krylov_solve := (krylov_solve conj re sc conv diverging tsvd big gap W0).
Local Notation upto := (upto conj re sc conv diverging tsvd big gap W0).
Local Notation finish := (finish tsvd big gap).
Local Notation iterate := (iterate conj re sc W0).
Local Notation residual := (residual conj re sc W0).
Local Notation exact_attempt := (exact_attempt conj re sc conv tsvd big gap W0).
Local Notation call_fails := (call_fails conj re sc conv diverging W0).

(** C30.  For real constraints, if every attempt starts generically and converges exactly:
    the rank doubling terminates.  If it returns without hitting the memory limit it returns
    an orthonormal basis of the whole null space.  If it hits the limit it says so, and
    returns orthonormal solutions.  It raises when the first size is over the limit or when
    a call raises: six attempts diverge, one exhausts its iterations, or every vector is a
    solution and the rank asked for is larger than the dimension. *)
Theorem C30_krylov C m n D v N : (forall x, conj x = x) -> (forall x, re x = x) ->
  (0 < m)%N -> to_dense conj C = Ok (m, n, D) -> size D = (m * n)%N -> null_basis conj m n D v N ->
  (forall k a, (a < 6)%N -> ~~ gt2e9 (m * (5 * 2 ^ k.+1)) -> exact_attempt m n D v N k (5 * 2 ^ k.+1) a) ->
  exists2 x, krylov_solve C = Some x & outer_ok conj m n D (call_fails m n D) x.
Proof. move=> h1 h2; exact: (krylov_thm h1 h2). Qed.

(** C30, the boundary: when every vector is a solution (an unconstrained representation)
    it never returns, though the null space is as simple as it can be. *)
Theorem C30_full_nullity C m n D v N : (forall x, conj x = x) -> (forall x, re x = x) ->
  (0 < m)%N -> to_dense conj C = Ok (m, n, D) -> size D = (m * n)%N -> null_basis conj m n D v N ->
  (forall k a, (a < 6)%N -> ~~ gt2e9 (m * (5 * 2 ^ k.+1)) -> exact_attempt m n D v N k (5 * 2 ^ k.+1) a) ->
  (forall x, size x = n -> matvec m n D x = nseq m 0) -> ~~ gt2e9 (m * (2 * n)) ->
  exists e, krylov_solve C = Some (Err e).
Proof. move=> h1 h2; exact: (full_nullity h1 h2). Qed.

(** C31.  At most six attempts, with learning rates 1e-2, 1e-2/3, ..., each of at most
    20000 iterations. *)
Theorem C31_attempts m n r D k fuel : (6 <= fuel)%N ->
  exists x l, [/\ upto fuel m n r D k 0 lr0 = Some (x, l), (0 < size l <= 6)%N,
    map fst l = mkseq (fun i => lr0 / 3%:Q ^+ i) (size l) &
    all (fun y => y.2 <= max_iter)%N l].
Proof. exact: six_attempts. Qed.
(** for any other learning rate the recursion ends as well *)
Theorem C31_ends m n r D k lr : exists fuel y, upto fuel m n r D k 0 lr = Some y.
Proof. exact: attempts_end. Qed.
(** the outcome is that of the last attempt: an array only after an iterate with a small
    residual was seen, and then the array is computed from the next iterate; the exception
    if no iterate of that attempt had one, or if it diverged at a small learning rate *)
Theorem C31_converged m n r D k fuel x l lr : upto fuel m n r D k 0 lr = Some (x, l) ->
  let a := (size l).-1 in let lr' := lr / 3%:Q ^+ a in
  (x = Err ConvergenceError /\
     ((forall t, (t < max_iter)%N -> ~~ conv (residual m n r D lr' k a t)) \/
      (lr' < 1%:Q / 100%:Q / 100%:Q /\ exists2 t, (100 < t < max_iter)%N & diverging (residual m n r D lr' k a t)))) \/
  exists t, [/\ (t < max_iter)%N, conv (residual m n r D lr' k a t) & x = finish n r (iterate m n r D lr' k a t.+1)].
Proof. exact: converged. Qed.
End Kry.
Print Assumptions C30_krylov.
Print Assumptions C30_full_nullity.
Print Assumptions C31_attempts.
Print Assumptions C31_ends.
Print Assumptions C31_converged.

(** the constraint (1 0), every start (0 ... 0; 1 0 ... 0): all hypotheses of C30 hold and
    the basis (0 1) is returned *)
Example C30_ex : [/\ null_basis idq 1 2 D1 1 N1,
  forall k a, exact_attempt idq idq idq zconv svd1 zbig zgap W1 1 2 D1 1 N1 k (5 * 2 ^ k.+1) a &
  krylov_solve idq idq idq zconv zdiv svd1 zbig zgap W1 (OArr 1 2 D1) = Some (Ok (2%N, 1%N, [:: 0; 1], false))].
Proof. exact: And3 nb1 exact1 kry1_run. Qed.

(** C30 as stated is false: for the constraint (0 0 0) all hypotheses of C30 hold, but
    S[rank] raises IndexError *)
Theorem C30_full_nullity_refuted : exists m n D v N tsvd W0,
  [/\ null_basis idq m n D v N,
      forall k a, exact_attempt idq idq idq zconv tsvd zbig zgap W0 m n D v N k (5 * 2 ^ k.+1) a &
      krylov_solve idq idq idq zconv zdiv tsvd zbig zgap W0 (OArr m n D) = Some (Err IndexError)].
Proof. exists 1%N, 3%N, D2, 3%N, N2, svd2, W2; exact: And3 nb2 exact2 kry2_run. Qed.
Print Assumptions C30_full_nullity_refuted.

(** C30 is false for complex constraints: the iterates are real, so for (4/5 3i/5), whose
    null space is spanned by (3/5 4i/5), no run returns a basis of it, whatever the random
    starts, the tests and the decomposition of real arrays *)
Theorem C30_complex_refuted : exists D N : seq CC, null_basis (@cconj _) 1 2 D 1 N /\
  forall sc conv diverging tsvd big gap W0 n c Q fl,
  (forall q, realz (sc q)) -> (forall k a, all realz (W0 k a)) ->
  (forall n r W, all realz W -> all realz (tsvd n r W).1.1) ->
  krylov_solve (@cconj _) rpart sc conv diverging tsvd big gap W0 (OArr 1 2 D) = Some (Ok ((n, c, Q), fl)) ->
  ~ null_basis (@cconj _) 1 2 D c Q.
Proof. exists DC, NC; split; [exact: nbC | exact: complex_never]. Qed.
Print Assumptions C30_complex_refuted.
