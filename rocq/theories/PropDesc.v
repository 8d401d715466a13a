(** * PropDesc: C91, the descent of the iterative solver converges at an exponential rate. *)
From mathcomp Require Import all_ssreflect all_algebra.
From Verif Require Import Np Spec LinOp SolSpec Krylov DescSpec DescThm DescThm2 DescUpto ExDesc.
Set Implicit Arguments.
Unset Strict Implicit.
Unset Printing Implicit Defensive.
Import GRing.Theory Num.Theory.
Local Open Scope ring_scope.

(** C91.  Let L bound the square of the largest singular value of the constraint matrix D.
    If lr L < 1/5 then the residual |D W_t|^2 goes to zero geometrically, with a ratio that
    depends on D and lr alone, and is never above the one at the start: for every rank r and
    every start W. *)
Theorem C91_rate (F : realFieldType) (sc : rat -> F) m n D lr L :
  sc (9%:Q / 10%:Q) = 9%:R / 10%:R -> 0 < sc lr -> bounded_by m n D L -> sc lr * L < 5%:R^-1 ->
  exists2 q, 0 <= q < 1 & forall r W t, size W = (n * r)%N ->
    sumsq (matmul m n r D (descent sc m n r D lr W t)) <= q ^+ (t %/ 2) * sumsq (matmul m n r D W).
Proof. move=> h1 h2 h3 h4; exact: (descent_rate h1 h2 h3 h4). Qed.
(** up to the limit of stability, lr L < 2 (1 + .9), up to a constant factor *)
Theorem C91_sharp (F : realFieldType) (sc : rat -> F) m n D lr L :
  sc (9%:Q / 10%:Q) = 9%:R / 10%:R -> 0 < sc lr -> bounded_by m n D L -> sc lr * L < 19%:R / 5%:R ->
  exists A q, [/\ 0 <= A, 0 <= q < 1 & forall r W t, size W = (n * r)%N ->
    sumsq (matmul m n r D (descent sc m n r D lr W t)) <= A * q ^+ (t %/ 2) * sumsq (matmul m n r D W)].
Proof. move=> h1 h2 h3 h4; exact: (descent_sharp h1 h2 h3 h4). Qed.
(** and the iterates converge, as fast, to N N^T W: the projection of the start to the null
    space, N being an orthonormal basis of it *)
Theorem C91_limit (F : realFieldType) (sc : rat -> F) m n D lr L k N :
  sc (9%:Q / 10%:Q) = 9%:R / 10%:R -> 0 < sc lr -> bounded_by m n D L -> sc lr * L < 19%:R / 5%:R ->
  null_basis id m n D k N ->
  exists B q, [/\ 0 <= B, 0 <= q < 1 & forall r W t, size W = (n * r)%N ->
    sumsq (vadd (descent sc m n r D lr W t) (vscale (-1) (matmul n n r (flat (fmul (unflat n k N) (ftr (unflat n k N)))) W)))
      <= B * q ^+ (t %/ 2) * sumsq (matmul m n r D W)].
Proof. move=> h1 h2 h3 h4; exact: (sharp_limit h1 h2 h3 h4). Qed.
(** The loop therefore breaks: for every tolerance e and every bound b on the first residual
    there is a number T such that the loop, with any number of iterations above T, ends by
    convergence within T+1 iterations, when the convergence test accepts residuals below e
    and the divergence test does not accept residuals below the first one. *)
Theorem C91_converges (F : archiFieldType) (sc : rat -> F) m n D lr L e b :
  sc (9%:Q / 10%:Q) = 9%:R / 10%:R -> 0 < sc lr -> bounded_by m n D L -> sc lr * L < 5%:R^-1 -> 0 < e ->
  exists T, forall (conv diverging : seq F -> bool) r W k, size W = (n * r)%N -> sumsq (matmul m n r D W) <= b ->
    (forall X, size X = (m * r)%N -> sumsq X < e -> conv X) ->
    (forall X, size X = (m * r)%N -> sumsq X <= sumsq (matmul m n r D W) -> ~~ diverging X) -> (T < k)%N ->
    exists W' its, descend id id sc conv diverging m n r D lr k 0 (W, nseq (n * r) 0) = (Converged W', its) /\ (its <= T.+1)%N.
Proof. exact: descent_converges. Qed.
(** so krylov_constraint_solve_upto_r makes one attempt only, if 20000 iterations are enough *)
Theorem C91_first_attempt (F : archiFieldType) (sc : rat -> F) m n D lr L e b :
  sc (9%:Q / 10%:Q) = 9%:R / 10%:R -> 0 < sc lr -> bounded_by m n D L -> sc lr * L < 5%:R^-1 -> 0 < e ->
  exists T, forall (conv diverging : seq F -> bool) tsvd big gap W0 r k f, size (W0 k 0%N) = (n * r)%N ->
    sumsq (matmul m n r D (W0 k 0%N)) <= b ->
    (forall X, size X = (m * r)%N -> sumsq X < e -> conv X) ->
    (forall X, size X = (m * r)%N -> sumsq X <= sumsq (matmul m n r D (W0 k 0%N)) -> ~~ diverging X) -> (T < max_iter)%N ->
    exists W' its, upto id id sc conv diverging tsvd big gap W0 f.+1 m n r D k 0 lr =
      Some (finish tsvd big gap n r W', [:: (lr, its)]) /\ (its <= T.+1)%N.
Proof. exact: first_attempt. Qed.
(** a bound L exists for every matrix: the sum of the squares of its entries *)
Theorem C91_bound_exists (F : realFieldType) m n (D : seq F) : size D = (m * n)%N -> bounded_by m n D (sumsq D).
Proof. exact: frobenius. Qed.
(** The claim of the docstring, for every matrix and with the learning rate the routine
    starts with, is false: on the matrix (20), for which lr L = 4, the iterates have this
    closed form, and the residuals are unbounded. *)
Theorem C91_large_refuted : exists D L, [/\ bounded_by 1 1 D L, Krylov.lr0 * L = 4%:R,
  forall t, descent id 1 1 1 D Krylov.lr0 [:: 1] t =
    [:: 8%:Q / 3%:Q * (- (3%:Q / 2%:Q)) ^+ t + - (5%:Q / 3%:Q) * (- (3%:Q / 5%:Q)) ^+ t] &
  forall b, exists t, b < sumsq (matmul 1 1 1 D (descent id 1 1 1 D Krylov.lr0 [:: 1] t))].
Proof. exact: large_all. Qed.

Example C91_ex : bounded_by 1 2 [:: 1; 0 : rat] 1 /\
  [/\ 0 < Krylov.lr0, Krylov.lr0 * 1 < 5%:R^-1 & null_basis id 1 2 [:: 1; 0 : rat] 1 [:: 0; 1]].
Proof. exact: (conj ex_bound ex_hyp). Qed.
Example C91_ex_start :
  sumsq (matmul 1 2 1 [:: 1; 0 : rat] (descent id 1 2 1 [:: 1; 0] Krylov.lr0 [:: 1; 1] 1)) = (99%:R / 100%:R) ^+ 2.
Proof. exact: ex_start. Qed.

Print Assumptions C91_rate.
Print Assumptions C91_sharp.
Print Assumptions C91_limit.
Print Assumptions C91_converges.
Print Assumptions C91_first_attempt.
Print Assumptions C91_bound_exists.
Print Assumptions C91_large_refuted.
