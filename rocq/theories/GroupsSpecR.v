(** * GroupsSpecR: the group generated by a list of matrices and the exponentials of a Lie
    algebra, over the real numbers. *)
From Coq Require Import Reals.
From mathcomp Require Import all_ssreflect all_algebra.
From Verif Require Import Np Spec Rstruct Expm.
Set Implicit Arguments.
Unset Strict Implicit.
Unset Printing Implicit Defensive.
Import GRing.Theory.
Local Open Scope ring_scope.

(** the Lie algebra generated by As: linear combinations and commutators *)
Inductive lie_span (As : seq (fmat RR)) : fmat RR -> Prop :=
| LS_gen A X : List.In A As -> meq X A -> lie_span As X
| LS_lin (c : RR) X Y Z : lie_span As X -> lie_span As Y -> meq Z (fadd (fscale c X) Y) -> lie_span As Z
| LS_br X Y Z : lie_span As X -> lie_span As Y -> meq Z (fsub (fmul X Y) (fmul Y X)) -> lie_span As Z.
(** the group of n x n matrices generated by exp(As) and hs *)
Inductive in_group (n : nat) (As hs : seq (fmat RR)) : fmat RR -> Prop :=
| I_one X : meq X (fid RR n) -> in_group n As hs X
| I_gen h X : List.In h hs -> meq X h -> in_group n As hs X
| I_exp A X : lie_span As A -> is_exp n A X -> in_group n As hs X
| I_mul X Y Z : in_group n As hs X -> in_group n As hs Y -> meq Z (fmul X Y) -> in_group n As hs Z
| I_inv X Y : in_group n As hs X -> fr Y = n -> fc Y = n ->
    meq (fmul X Y) (fid RR n) -> meq (fmul Y X) (fid RR n) -> in_group n As hs Y.

(** Y = X^k for an integer k, the negative powers being those of the inverse *)
Definition is_zpow (n : nat) (X : fmat RR) (k : int) (Y : fmat RR) : Prop :=
  match k with
  | Posz m => meq Y (mpow n X m)
  | Negz m => exists V, [/\ fr V = n, fc V = n, meq (fmul X V) (fid RR n), meq (fmul V X) (fid RR n) & meq Y (mpow n V m.+1)]
  end.
(** the product of a list of n x n matrices *)
Definition mprod (n : nat) (l : seq (fmat RR)) : fmat RR := foldl (@fmul RR) (fid RR n) l.
