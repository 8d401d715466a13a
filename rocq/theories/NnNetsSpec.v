(** * NnNetsSpec: comparison of two computations, and the parameters of an MLP. *)
From mathcomp Require Import all_ssreflect all_algebra.
From Verif Require Import Np Data.
Set Implicit Arguments.
Unset Strict Implicit.
Unset Printing Implicit Defensive.

(** both computations raise, or both return and the second value is the image of the first *)
Definition outcome (A B : Type) (f : A -> B) (x : res A) (y : res B) : Prop :=
  match x, y with Ok a, Ok b => b = f a | Err _, Err _ => True | _, _ => False end.

(** one matrix of shape (n_i,n_{i+1}) and one vector of length n_{i+1} per layer *)
Fixpoint mlp_fits (T : Type) (n : nat) (ms : seq nat) (Ps : seq (seq T * seq T)) : Prop :=
  match ms, Ps with
  | [::], [::] => True
  | m :: ms', P :: Ps' => [/\ size P.1 = n * m, size P.2 = m & mlp_fits m ms' Ps']
  | _, _ => False
  end.
(** the matrices transposed *)
Fixpoint transposed (R : ringType) (n : nat) (ms : seq nat) (Ps : seq (seq R * seq R)) : seq (seq R * seq R) :=
  match ms, Ps with
  | m :: ms', P :: Ps' => (mkseq (fun t => nth 0%R P.1 (t %% n * m + t %/ n)) (m * n), P.2) :: transposed m ms' Ps'
  | _, _ => [::]
  end.
(** a statistic that broadcasts against rows of length n *)
Definition broadcasts (T : Type) (n : nat) (s : stat T) : bool := if s is SVec v then (size v == n) || (size v == 1) else true.
