(** * DescSpec: vocabulary for the statements about the descent of the iterative solver. *)
From mathcomp Require Import all_ssreflect all_algebra.
From Verif Require Import Np Spec LinOp SolSpec Krylov.
Set Implicit Arguments.
Unset Strict Implicit.
Unset Printing Implicit Defensive.
Import GRing.Theory Num.Theory.
Local Open Scope ring_scope.

Section S.
Variable F : numDomainType.
(** the sum of the squares of the entries; lossval is half that of C@W *)
Definition sumsq (X : seq F) : F := \sum_(x <- X) x ^+ 2.
(** L bounds the square of the largest singular value of the m x n array D *)
Definition bounded_by (m n : nat) (D : seq F) (L : F) : Prop :=
  forall v, size v = n -> sumsq (matvec m n D v) <= L * sumsq v.
(** the array W before iteration t, started at W with momentum 0 *)
Definition descent (sc : rat -> F) (m n r : nat) (D : seq F) (lr : rat) (W : seq F) (t : nat) : seq F :=
  (iter t (sgd id id sc m n r D lr) (W, nseq (n * r) 0)).1.
End S.
