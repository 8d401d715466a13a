(** * RolloutSpec: vocabulary for the statements about rollouts. *)
From Coq Require Import Reals.
From mathcomp Require Import all_ssreflect all_algebra.
From Verif Require Import Np Spec LinOp Rstruct Expm Data DataHamSpec FlowSpec.
Set Implicit Arguments.
Unset Strict Implicit.
Unset Printing Implicit Defensive.
Import GRing.Theory.
Local Open Scope ring_scope.

(** zs are the states at the times ts of a solution of z' = F(z) that starts in z0 at the first
    of the times *)
Definition exact_rollout (n : nat) (F : seq RR -> res (seq RR)) (z0 ts : seq RR) (zs : seq (seq RR)) : Prop :=
  exists a b c, [/\ solves_on a b n F c, forall t, t \in ts -> Rlt a t /\ Rlt t b, c (head 0 ts) = z0 & zs = map c ts].
(** the integrator makes no error for F: it returns exact rollouts or raises *)
Definition exact (n : nat) (F : seq RR -> res (seq RR)) (odeint : (seq RR -> res (seq RR)) -> seq RR -> seq RR -> res (seq (seq RR))) : Prop :=
  forall z0 ts zs, size z0 = n -> odeint F z0 ts = Ok zs -> exact_rollout n F z0 ts zs.
(** F maps vectors of length n to vectors of length n if it does not raise *)
Definition field_on (n : nat) (F : seq RR -> res (seq RR)) : Prop := forall z w, size z = n -> F z = Ok w -> size w = n.
(** SHO.H of one state, with 1/2 for half *)
Definition sho_energy (z : seq RR) : RR := nth 0 z 0%N * nth 0 z 0%N * Rinv 2 + nth 0 z 1%N * nth 0 z 1%N * Rinv 2.
(** the rotation of the plane of position and momentum by the angle -t *)
Definition sho_flow (t : R) (z : seq RR) : seq RR :=
  [:: nth 0 z 0%N * (cos t : RR) + nth 0 z 1%N * (sin t : RR); nth 0 z 1%N * (cos t : RR) - nth 0 z 0%N * (sin t : RR)].
