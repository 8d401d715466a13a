(** * TrainerSpec: vocabulary for the statements about experiments/trainer. *)
From mathcomp Require Import all_ssreflect all_algebra.
From Verif Require Import Np LinOp Trainer.
Set Implicit Arguments.
Unset Strict Implicit.
Unset Printing Implicit Defensive.
Import GRing.Theory Num.Theory.
Local Open Scope ring_scope.

(** the state of model and optimiser after the steps evs *)
Definition steps_state (F : fieldType) (B S : Type) (upd : F -> B -> S -> S) (s : S) (evs : seq (event F B)) : S :=
  foldl (fun s ev => upd (ev_epoch ev) (ev_batch ev) s) s evs.
(** the learning rate schedule is evaluated at the number of the step divided by the steps per epoch *)
Definition numbered (F : fieldType) (B : Type) (spe : nat) (evs : seq (event F B)) : Prop :=
  forall ev, List.In ev evs -> ev_epoch ev = (ev_step ev)%:R / spe%:R.
(** a is at least as good as b, strictly better *)
Definition as_good (F : numDomainType) (maximize : bool) (a b : F) : bool := if maximize then b <= a else a <= b.
Definition better (F : numDomainType) (maximize : bool) (a b : F) : bool := if maximize then b < a else a < b.
(** the state after the values vs have been logged *)
Definition logs (F : numDomainType) (early : option bool) (vs : seq F) : logst F := foldl (log_stuff early) (LogSt [::] None) vs.
(** the columns of the (n,n) array Q are orthonormal *)
Definition ortho_rows (F : fieldType) (n : nat) (Q : seq F) : Prop := forall i j, (i < n)%N -> (j < n)%N ->
  \sum_(0 <= k < n) nth 0 Q (k * n + i)%N * nth 0 Q (k * n + j)%N = (i == j)%:R.
(** the states of the flow phi at the times 0, dt, .. *)
Definition rollout (F : fieldType) (S : Type) (phi : F -> S -> S) (dt : F) (len : nat) (z : S) : seq S :=
  mkseq (fun k => phi (k%:R * dt) z) len.
(** the average of f over a list *)
Definition average (F : fieldType) (T : Type) (f : T -> F) (l : seq T) : F := (\sum_(x <- l) f x) / (size l)%:R.
(** the number of examples that evalAverageMetrics assigns to each batch *)
Definition weight (bs : option nat) : nat := if bs is Some k then k else 1%N.
