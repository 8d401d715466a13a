(** * DataHamSpec: vocabulary for the statements about Hamiltonian systems. *)
From Coq Require Import Reals.
From mathcomp Require Import all_ssreflect all_algebra.
From Verif Require Import Np Spec LinOp Rstruct Expm Data.
Set Implicit Arguments.
Unset Strict Implicit.
Unset Printing Implicit Defensive.
Import GRing.Theory.
Local Open Scope ring_scope.

(** DoubleSpringPendulum.H of every row of an array of shape (bs,12) *)
Definition pendulum (R : comRingType) (sqrt : R -> R) (half : R) : nat -> seq R -> res (seq R) :=
  rowwise 12 (fun z => rmap (fun h => [:: h]) (pendulum_H sqrt half z)).
(** DoubleSpringPendulum.H of one state with the square root of the reals (0 for an array of a
    wrong shape, for which H raises; it is only used for states of length 12) *)
Definition pendulum_energy (z : seq RR) : RR :=
  if pendulum_H (R_sqrt.sqrt : RR -> RR) (Rinv 2) z is Ok h then h else 0.

(** z+v for vectors of length n *)
Definition vadd (n : nat) (z v : seq RR) : seq RR := mkseq (fun i => nth 0 z i + nth 0 v i) n.
(** d is the gradient of H at z: H is (totally) differentiable at z with derivative d *)
Definition gradient_at (n : nat) (H : seq RR -> RR) (z d : seq RR) : Prop :=
  size d = n /\ forall eps, Rlt R0 eps -> exists2 del, Rlt R0 del & forall v, size v = n ->
    (forall i, (i < n)%N -> Rlt (Rabs (nth 0 v i)) del) ->
    Rle (Rabs (H (vadd n z v) - H z - \sum_(0 <= i < n) nth 0 d i * nth 0 v i))
        (Rmult eps (\sum_(0 <= i < n) (Rabs (nth 0 v i) : RR))).
(** gr computes the gradient of H *)
Definition gradient_of (n : nat) (H : seq RR -> RR) (gr : seq RR -> seq RR) : Prop :=
  forall z, size z = n -> gradient_at n H z (gr z).
(** the curve c solves the differential equation z' = F(z) *)
Definition solves (n : nat) (F : seq RR -> res (seq RR)) (c : R -> seq RR) : Prop :=
  forall t, size (c t) = n /\ exists2 w, F (c t) = Ok w &
    forall i, (i < n)%N -> derivable_pt_lim (fun s => nth 0 (c s) i) t (nth 0 w i).
(** z' is A z *)
Definition takes (n : nat) (A : fmat RR) (z z' : seq RR) : Prop :=
  [/\ size z = n, size z' = n & forall i, (i < n)%N -> nth 0 z' i = \sum_(0 <= j < n) fe A i j * nth 0 z j].
(** H(Az) = H(z) *)
Definition unchanged (n : nat) (A : fmat RR) (H : seq RR -> RR) : Prop :=
  forall z z', takes n A z z' -> H z' = H z.
