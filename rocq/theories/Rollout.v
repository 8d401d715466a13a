(** * Rollout: the rollouts of experiments/trainer/hamiltonian_dynamics.py, the losses of its trainers and
      the errors it reports. *)
From mathcomp Require Import all_ssreflect all_algebra.
From Verif Require Import Np LinOp Rep Data Trainer.
Set Implicit Arguments.
Unset Strict Implicit.
Unset Printing Implicit Defensive.
Import GRing.Theory.
Local Open Scope ring_scope.

(** ** SHO.H, hamiltonian_dynamics.py:160-163, for an array of shape (..,D): ke is the sum over all rows
    of z[...,1]**2, halved.  An index out of range raises IndexError. *)
Section Sho.
Variables (R : comRingType) (half : R).
Definition sho_H (D bs : nat) (z : seq R) : res R :=
  if (D < 2)%N then Err IndexError else
  let col j := rsum bs (fun b => nth 0 z (b * D + j)%N ^+ 2) in
  Ok (col 1%N * half + col 0%N * half).
End Sho.

Section Flow.
Variable R : comRingType.
(** jax.experimental.ode.odeint(f,z0,T): one array of the shape of z0 for each time.  The integrator is a
    parameter (with its tolerances); f gets no time since all the callers here ignore it. *)
Variable odeint : (seq R -> res (seq R)) -> seq R -> seq R -> res (seq (seq R)).
(** HamiltonianFlow, lines 51-56; [gr] is grad(H) *)
Definition hamiltonian_flow (gr : seq R -> seq R) (z0 ts : seq R) : res (seq (seq R)) :=
  odeint (hamiltonian_dynamics gr) z0 ts.
(** BOdeFlow, lines 64-69: dynamics is vmapped over the rows of z0, of shape (bs,n); the result of
    shape (t,bs,n) is transposed by (1,0,2): the list of its states in the order of the array
    of shape (bs,t,n) *)
Definition b_ode_flow (n : nat) (dynamics : seq R -> res (seq R)) (bs : nat) (z0 ts : seq R) : res (seq (seq R)) :=
  do zs <- odeint (rowwise n dynamics bs) z0 ts;
  Ok [seq row_of n b z | b <- iota 0 bs, z <- zs].
(** BHamiltonianFlow, lines 58-62 *)
Definition b_hamiltonian_flow (n : nat) (gr : seq R -> seq R) : nat -> seq R -> seq R -> res (seq (seq R)) :=
  b_ode_flow n (hamiltonian_dynamics gr).
(** pred_and_gt and pred_and_gt_ode, lines 263-267,282-286: np.stack of both arrays along a new last axis *)
Definition stack_last (p g : seq R) : seq R := flatten [seq [:: ab.1; ab.2] | ab <- zip p g].
Definition pred_and_gt_ode (n : nat) (model : seq R -> res (seq R)) (gr : seq R -> seq R) (bs : nat) (z0 ts : seq R) : res (seq R) :=
  do p <- b_ode_flow n model bs z0 ts;
  do g <- b_hamiltonian_flow n gr bs z0 ts;
  if size (flatten p) == size (flatten g) then Ok (stack_last (flatten p) (flatten g)) else Err ValueError.
Definition pred_and_gt (n : nat) (gm gr : seq R -> seq R) : nat -> seq R -> seq R -> res (seq R) :=
  pred_and_gt_ode n (hamiltonian_dynamics gm) gr.
End Flow.

Section Loss.
Variable F : fieldType.
Variable odeint : (seq F -> res (seq F)) -> seq F -> seq F -> res (seq (seq F)).
(** IntegratedODETrainer.loss, lines 231-235, on the minibatch ((z0,ts),true_zs): ts has one row of times per
    example and the first is used for all; true_zs of shape (bs,t,n).  Arrays of sizes that
    differ broadcast or raise: TypeError here *)
Definition ode_loss (n : nat) (model : seq F -> res (seq F)) (bs : nat) (z0 : seq F) (ts : seq (seq F)) (zs : seq F) : res F :=
  do p <- b_ode_flow odeint n model bs z0 (nth [::] ts 0);
  if size (flatten p) == size zs then Ok (mse (flatten p) zs) else Err TypeError.
(** IntegratedDynamicsTrainer.loss, lines 206-210; [gm] is grad(model) *)
Definition dynamics_loss (n : nat) (gm : seq F -> seq F) : nat -> seq F -> seq (seq F) -> seq F -> res F :=
  ode_loss n (hamiltonian_dynamics gm).
End Loss.

Section Err.
Variable F : realFieldType.
Variable odeint : (seq F -> res (seq F)) -> seq F -> seq F -> res (seq (seq F)).
Variables (sqrt log : F -> F) (tiny : F).
(** log_rollout_error_ode, lines 270-280; [ts] is ds.T_long and [gr] is grad(ds.H) *)
Definition rollout_error_ode (n : nat) (model : seq F -> res (seq F)) (gr : seq F -> seq F) (bs : nat) (z0 ts : seq F) : res (option F) :=
  do p <- b_ode_flow odeint n model bs z0 ts;
  do g <- b_hamiltonian_flow odeint n gr bs z0 ts;
  Ok (log_rollout_error sqrt log tiny p g).
(** log_rollout_error, lines 251-261 *)
Definition rollout_error (n : nat) (gm gr : seq F -> seq F) : nat -> seq F -> seq F -> res (option F) :=
  rollout_error_ode n (hamiltonian_dynamics gm) gr.
End Err.
