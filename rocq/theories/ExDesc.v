(** * ExDesc: a concrete descent, for the example of C91. *)
From mathcomp Require Import all_ssreflect all_algebra.
From Verif Require Import Np Spec LinOp SolSpec Krylov ExKry DescSpec DescThm.
Set Implicit Arguments.
Unset Strict Implicit.
Unset Printing Implicit Defensive.
Import GRing.Theory Num.Theory.
Local Open Scope ring_scope.

(** the matrix (1 0) and the first learning rate of the routine: lr L = 1/100 *)
Lemma ex_bound : bounded_by 1 2 [:: 1; 0 : rat] 1.
Proof.
have E : sumsq [:: 1; 0 : rat] = 1 by rewrite /sumsq big_cons big_seq1 expr1n expr0n addr0.
have := @frobenius _ 1 2 [:: 1; 0 : rat] erefl; rewrite E; exact.
Qed.
Lemma ex_hyp : [/\ 0 < Krylov.lr0, Krylov.lr0 * 1 < 5%:R^-1 & null_basis id 1 2 [:: 1; 0 : rat] 1 [:: 0; 1]].
Proof. by split; [ | | exact: nb1]. Qed.
(** a start outside the null space, not yet converged after the first step *)
Lemma ex_start : sumsq (matmul 1 2 1 [:: 1; 0 : rat] (descent id 1 2 1 [:: 1; 0] Krylov.lr0 [:: 1; 1] 1)) = (99%:R / 100%:R) ^+ 2.
Proof. by apply/eqP; rewrite /sumsq /matmul /mkseq /rsum /= big_seq1; vm_compute. Qed.
