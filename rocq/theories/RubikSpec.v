(** * RubikSpec: the stickers of a cube, for the claims about RubiksCube() and its data sets.
    Nothing here refers to the model's own helpers. *)
From mathcomp Require Import all_ssreflect all_algebra.
From Verif Require Import Spec LinOp GroupsSpec ExactSpec.
Set Implicit Arguments.
Unset Strict Implicit.
Unset Printing Implicit Defensive.
Import GRing.Theory.
Local Open Scope ring_scope.

(** sticker 8 f + k is on face f; its place k on the face is a corner when k is one of 0, 2,
    5, 7 and an edge when it is one of 1, 3, 4, 6 *)
Definition at_corner (x : nat) : bool := (x %% 8)%N \in [:: 0; 2; 5; 7]%N.
(** the 24 edge stickers in increasing order *)
Definition edge (k : nat) : nat := (8 * (k %/ 4) + nth 0 [:: 1; 3; 4; 6] (k %% 4))%N.
(** the rows and columns of the edge stickers *)
Definition edge_part (R : ringType) (X : fmat R) : fmat R := FM 24 24 (fun i j => fe X (edge i) (edge j)).
(** p permutes the 48 stickers, corners among themselves and edges among themselves *)
Definition keeps_kinds (p : seq nat) : Prop :=
  perm_eq p (iota 0 48) /\ forall x, (x < 48)%N -> at_corner (nth 0%N p x) = at_corner x.
(** S of shape (6,48) is the one-hot encoding of a colouring of the stickers with six colours *)
Definition one_hot (R : ringType) (col : nat -> nat) (S : seq R) : Prop :=
  [/\ size S = 288%N, forall x, (x < 48)%N -> (col x < 6)%N &
      forall c x, (c < 6)%N -> (x < 48)%N -> nth 0 S (c * 48 + x)%N = (col x == c)%:R].
