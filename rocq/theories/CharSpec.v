(** * CharSpec: characters of the representations of a finite group. *)
From mathcomp Require Import all_ssreflect all_algebra.
From Verif Require Import Np Spec.
Set Implicit Arguments.
Unset Strict Implicit.
Unset Printing Implicit Defensive.
Import GRing.Theory.
Local Open Scope ring_scope.

Section S.
Variable R : comRingType.
(** the trace of a flat N x N array *)
Definition trace (N : nat) (D : seq R) : R := \sum_(0 <= i < N) nth 0 D (i * N + i)%N.
(** Es lists the flat d x d arrays of the matrices with P, each once *)
Definition enumerates (d : nat) (P : fmat R -> Prop) (Es : seq (seq R)) : Prop :=
  uniq Es /\ forall D, D \in Es <-> size D = (d * d)%N /\ P (unflat d d D).
End S.
(** the number of ways to write n signs whose sum is a multiple of k (i of them are +) *)
Definition balanced (k n : nat) : nat := \sum_(0 <= i < n.+1) (if (2 * i == n %[mod k])%N then 'C(n, i) else 0%N).
(** the number of points below n that the permutation p fixes *)
Definition fixed_points (n : nat) (p : seq nat) : nat := \sum_(0 <= i < n) (nth 0%N p i == i).
