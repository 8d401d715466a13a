(** * ExactSpec: what it means for a group object to generate exactly a given matrix group. *)
From Coq Require Import Reals.
From mathcomp Require Import all_ssreflect all_algebra.
From Verif Require Import Np Spec LinOp MxBridge Rep Rstruct Expm Groups GroupsSpec GroupsSpecR GroupsThm.
Set Implicit Arguments.
Unset Strict Implicit.
Unset Printing Implicit Defensive.
Import GRing.Theory.
Local Open Scope ring_scope.

(** the determinant of an n x n matrix *)
Definition fdet (R : comRingType) (n : nat) (X : fmat R) : R := \det (mxf n n X).

(** x constructs a group of dimension d, and the group generated by the exponentials of its
    Lie algebra and by its discrete generators consists exactly of the d x d matrices that
    satisfy P *)
Definition exact_group (x : res (group RR)) (d : nat) (P : fmat RR -> Prop) : Prop :=
  exists2 G, x = Ok G & g_d G = Some d /\
    forall X, in_group d (lmats G) (gmats G) X <-> [/\ fr X = d, fc X = d & P X].

(** the rotation of the plane by the angle -t *)
Definition rot (t : R) : fmat RR := FM 2 2 (fun i j =>
  if i == j then (cos t : RR) else if i == 0%N then (sin t : RR) else - (sin t : RR)).
(** diag(-1,1) times a rotation *)
Definition ref (t : R) : fmat RR := FM 2 2 (fun i j =>
  if i == j then (if i == 0%N then - (cos t : RR) else cos t) else - (sin t : RR)).

(** the block Y at the coordinates ix, c times the identity elsewhere *)
Definition emb (d : nat) (ix : seq nat) (c : RR) (Y : fmat RR) : fmat RR :=
  FM d d (fun i j => if (i \in ix) && (j \in ix) then fe Y (index i ix) (index j ix) else if i == j then c else 0).
(** matrices of the plane as matrices on space that fix the third coordinate *)
Definition plane (Y : fmat RR) : fmat RR := emb 3 [:: 0; 1]%N 1 Y.
