(** * SchurSpec: multiples of a matrix, and matrices that commute with a group, for C89. *)
From Coq Require Import Reals.
From mathcomp Require Import all_ssreflect all_algebra.
From Verif Require Import Np Spec Expm GroupsSpec.
Set Implicit Arguments.
Unset Strict Implicit.
Unset Printing Implicit Defensive.
Import GRing.Theory.
Local Open Scope ring_scope.

(** the tensors of rank two that are multiples of the matrix J *)
Definition form_tensor (n : nat) (J : fmat RR) (v : seq RR) : Prop :=
  exists c : RR, forall i j, (i < n)%N -> (j < n)%N -> nth 0 v (i * n + j)%N = c * fe J i j.
(** only the multiples of the identity commute with all n x n matrices that satisfy P *)
Definition irreducible_on (n : nat) (P : fmat RR -> Prop) : Prop :=
  forall M : fmat RR, fr M = n -> fc M = n ->
    (forall A, fr A = n -> fc A = n -> P A -> meq (fmul A M) (fmul M A)) -> exists c, meq M (fscale c (fid RR n)).
