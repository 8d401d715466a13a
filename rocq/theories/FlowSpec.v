(** * FlowSpec: vocabulary for the statements about neural differential equations. *)
From Coq Require Import Reals.
From mathcomp Require Import all_ssreflect all_algebra.
From Verif Require Import Np Spec LinOp Rstruct Expm Data DataHamSpec.
Set Implicit Arguments.
Unset Strict Implicit.
Unset Printing Implicit Defensive.
Import GRing.Theory.
Local Open Scope ring_scope.

(** jax.nn.sigmoid: 1/(1+exp(-x)) *)
Definition sigmoid (x : RR) : RR := Rinv (Rplus R1 (exp (Ropp x))).
(** the curve c solves z' = F(z) between the times a and b *)
Definition solves_on (a b : R) (n : nat) (F : seq RR -> res (seq RR)) (c : R -> seq RR) : Prop :=
  forall t, Rlt a t -> Rlt t b -> size (c t) = n /\ exists2 w, F (c t) = Ok w &
    forall i, (i < n)%N -> derivable_pt_lim (fun s => nth 0 (c s) i) t (nth 0 w i).
(** all coordinates are at most B in absolute value *)
Definition in_box (B : R) (z : seq RR) : Prop := forall i, Rle (Rabs (nth 0 z i)) B.
(** F is Lipschitz in every box *)
Definition locally_lipschitz (n : nat) (F : seq RR -> res (seq RR)) : Prop :=
  forall B, exists L, forall z z' w w' d, size z = n -> size z' = n -> in_box B z -> in_box B z' ->
    F z = Ok w -> F z' = Ok w' -> (forall i, (i < n)%N -> Rle (Rabs (nth 0 z i - nth 0 z' i)) d) ->
    forall i, (i < n)%N -> Rle (Rabs (nth 0 w i - nth 0 w' i)) (Rmult L d).
(** through every state runs a solution of z' = F(z) *)
Definition locally_solvable (n : nat) (F : seq RR -> res (seq RR)) : Prop :=
  forall z0, size z0 = n -> exists2 h, Rlt R0 h & exists2 c, c R0 = z0 & solves_on (Ropp h) h n F c.
(** two solutions on an interval that agree at one time agree at all times *)
Definition uniquely_solvable (n : nat) (F : seq RR -> res (seq RR)) : Prop :=
  forall a b c1 c2 s t, solves_on a b n F c1 -> solves_on a b n F c2 ->
    Rlt a s -> Rlt s b -> Rlt a t -> Rlt t b -> c1 s = c2 s -> c1 t = c2 t.
(** two solutions that are related at one time are related at all times *)
Definition flow_preserves (n : nat) (F : seq RR -> res (seq RR)) (P : seq RR -> seq RR -> Prop) : Prop :=
  forall a b c1 c2 s t, solves_on a b n F c1 -> solves_on a b n F c2 ->
    Rlt a s -> Rlt s b -> Rlt a t -> Rlt t b -> P (c1 s) (c2 s) -> P (c1 t) (c2 t).
(** H does not change along solutions *)
Definition flow_conserves (n : nat) (F : seq RR -> res (seq RR)) (H : seq RR -> RR) : Prop :=
  forall a b c s t, solves_on a b n F c -> Rlt a s -> Rlt s b -> Rlt a t -> Rlt t b -> H (c s) = H (c t).
(** through every state runs a solution of z' = F(z) for all times *)
Definition globally_solvable (n : nat) (F : seq RR -> res (seq RR)) : Prop :=
  forall z0, size z0 = n -> exists2 c, c R0 = z0 & solves n F c.
(** phi t z is the state at time t of the solution through z, and the solutions compose *)
Definition flow_of (n : nat) (F : seq RR -> res (seq RR)) (phi : R -> seq RR -> seq RR) : Prop :=
  forall z, size z = n -> [/\ phi R0 z = z, solves n F (fun t => phi t z) & forall s t, phi (Rplus s t) z = phi s (phi t z)].
