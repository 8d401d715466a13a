(** * Vis: the data that vis plots (emlp/reps/representation.py). *)
From mathcomp Require Import all_ssreflect all_algebra.
From Verif Require Import Np LinOp Rep Solver.
Set Implicit Arguments.
Unset Strict Implicit.
Unset Printing Implicit Defensive.
Import GRing.Theory.
Local Open Scope ring_scope.

Section Vis.
Variable R : comRingType.
Variables (conj sinv : R -> R) (linv : nat -> seq R -> seq R).
Variables (crho cdrho : nat -> option gid -> gel R -> res (op R)).
Variables (gdim : gid -> nat) (gorth : gid -> bool) (csize : nat -> gid -> nat) (le : rel rep).
Variables (gens lies : gid -> seq (op R)).
Variables (svd : nat -> nat -> seq R -> seq R * seq R * seq R) (big : pred R).
Variable krylov : op R -> res (darr R).
(** [rnd]: np.round(.,decimals=4) of one entry; [randn n]: np.random.randn(n) *)
Variables (rnd : R -> R) (randn : nat -> seq R).
Local Notation basis := (basis conj sinv linv crho cdrho gdim csize le gens lies svd big krylov).
Local Notation projector := (projector conj sinv linv crho cdrho gdim csize le gens lies svd big krylov).
(** vis, representation.py lines 463-475.  The result is the number of clusters that KMeans is
    asked for and the projected vector, before clustering; the last test is that of
    v.reshape(repout.size(),repin.size()) in line 474.  KMeans and plt are not modelled. *)
Definition vis (repin repout : rep) : res (nat * seq R) :=
  do r <- rshift gdim gorth csize le repin repout;
  do P <- projector r;
  do Q <- basis r;
  do v <- matmat conj P 1 (randn (shape P).2);
  if size v == (rsize gdim csize repout * rsize gdim csize repin)%N then Ok ((shape Q).2, map rnd v)
  else Err ValueError.
End Vis.
