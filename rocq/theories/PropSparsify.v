(** * PropSparsify: C54. *)
From Coq Require Import Reals Lra.
From mathcomp Require Import all_ssreflect all_algebra.
From Verif Require Import Rstruct Sparsify SpProofs.
Set Implicit Arguments.
Unset Strict Implicit.
Unset Printing Implicit Defensive.
Local Open Scope R_scope.

Section Sp.
Variables (W0 : nat -> seq R) (grad : seq R -> seq R) (logdet : seq R -> R).

(** C54 is false: sparsify_basis([[1000]],lr) with lr<=1e-5 recurses forever, whatever the
    gradients, the determinants and the random starts (1 or -1, the orthogonal 1 x 1
    matrices): a step of adam moves an entry by at most 73 lr, so the loss stays above the
    threshold, and the learning rate only gets smaller *)
Theorem C54_sparsify_refuted lr : (forall W, size (grad W) = size W) ->
  (forall a, W0 a = [:: 1] \/ W0 a = [:: -1]) -> 0 <= lr <= / 10 ^ 5 ->
  forall fuel a, sparsify 1 1 [:: 1000] W0 grad logdet fuel a lr = None.
Proof. move=> h1 h2; exact: (sparsify_diverges logdet h1 h2). Qed.

Example C54_ex : (forall W : seq R, size (map Ropp W) = size W) /\ ([:: 1] = [:: 1] \/ [:: 1] = [:: -1]) /\
  0 <= / 10 ^ 5 <= / 10 ^ 5.
Proof. by split; [move=> W; rewrite size_map | split; [left | split; lra]]. Qed.

(** it returns if and only if some attempt ends without divergence *)
Theorem C54_sparsify_returns n r Q lr a :
  (exists fuel, sparsify n r Q W0 grad logdet fuel a lr <> None) <->
  (exists b, sp_descend n r Q grad logdet (lr / 3 ^ b) sp_iter 0 (adam_init r) (W0 (a + b)%N) <> None).
Proof. exact: sparsify_returns. Qed.

(** and then every entry of the result is 0, 1 or -1, or has absolute value exactly 1/100 *)
Theorem C54_sparsify_entries n r Q fuel a lr P : sparsify n r Q W0 grad logdet fuel a lr = Some P ->
  size P = (n * r)%N /\ forall q, q \in P -> q = 0 \/ q = 1 \/ q = -1 \/ Rabs q = / 100.
Proof. exact: sparsify_entries. Qed.
End Sp.
Print Assumptions C54_sparsify_refuted.
Print Assumptions C54_sparsify_returns.
Print Assumptions C54_sparsify_entries.
