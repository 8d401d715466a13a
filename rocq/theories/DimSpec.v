(** * DimSpec: index tuples, orbits and partitions, the vocabulary for the number of
    equivariant basis elements. *)
From mathcomp Require Import all_ssreflect.
From Verif Require Import Np.
Set Implicit Arguments.
Unset Strict Implicit.
Unset Printing Implicit Defensive.

(** the position of the entry with index tuple s in the flattened array of side n *)
Fixpoint num (n : nat) (s : seq nat) : nat := if s is x :: s' then x * n ^ size s' + num n s' else 0.
(** the index tuples of an array with k axes of length n *)
Definition tuple_ok (n k : nat) (s : seq nat) : Prop := size s = k /\ all (fun x => x < n) s.
(** a permutation p of range(n), as the list of its values, acts on index tuples *)
Definition moved_by (p s : seq nat) : seq nat := [seq nth 0 p x | x <- s].
(** one tuple per orbit of the set of permutations Ps *)
Definition transversal (n k : nat) (Ps : seq nat -> Prop) (xs : seq (seq nat)) : Prop :=
  [/\ forall s, s \in xs -> tuple_ok n k s,
      forall i j p, i < size xs -> j < size xs -> Ps p -> moved_by p (nth [::] xs i) = nth [::] xs j -> i = j &
      forall s, tuple_ok n k s -> exists2 p, Ps p & moved_by p s \in xs].
(** the number of partitions of a set with k elements into m blocks, and into any number *)
Fixpoint stirling2 (k m : nat) : nat :=
  match k, m with
  | 0, 0 => 1
  | k'.+1, m'.+1 => m'.+1 * stirling2 k' m'.+1 + stirling2 k' m'
  | _, _ => 0
  end.
Definition bell (k : nat) : nat := sumn [seq stirling2 k m | m <- iota 0 k.+1].
