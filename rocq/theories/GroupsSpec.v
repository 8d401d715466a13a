(** * GroupsSpec: vocabulary for the statements about groups. *)
From mathcomp Require Import all_ssreflect all_algebra.
From Verif Require Import Np Spec.
Set Implicit Arguments.
Unset Strict Implicit.
Unset Printing Implicit Defensive.
Import GRing.Theory.
Local Open Scope ring_scope.

Section Lin.
Variables (K R : comRingType) (emb : K -> R).
(** sum_k c_k A_k, the coefficients in the ring K embedded in R by emb *)
Definition lincomb (n : nat) (c : nat -> K) (As : seq (fmat R)) : fmat R :=
  FM n n (fun i j => \sum_(0 <= k < size As) emb (c k) * fe (nth (fzero R 0 0) As k) i j).
(** the n x n matrices As satisfy P, are linearly independent over K, and span the
    matrices that satisfy P *)
Definition is_basis (n : nat) (P : fmat R -> Prop) (As : seq (fmat R)) : Prop :=
  [/\ forall A, List.In A As -> [/\ fr A = n, fc A = n & P A],
      forall c, meq (lincomb n c As) (fzero R n n) -> forall k, (k < size As)%N -> c k = 0 &
      forall X, fr X = n -> fc X = n -> P X -> exists c, meq X (lincomb n c As)].
End Lin.

Section Eqs.
Variable R : comRingType.
(** X^T = -X *)
Definition skew (X : fmat R) : Prop := meq (ftr X) (fopp X).
(** X^T J + J X = 0 *)
Definition preserves (J X : fmat R) : Prop := meq (fadd (fmul (ftr X) J) (fmul J X)) (fzero R (fr X) (fc X)).
(** tr X = 0 *)
Definition traceless (X : fmat R) : Prop := \sum_(0 <= i < fr X) fe X i i = 0.
(** X^H = -X *)
Definition skew_herm (conj : R -> R) (X : fmat R) : Prop := meq (ftr (fconj conj X)) (fopp X).
(** the standard symplectic form of size 2m, and diag(1,-1,...,-1) *)
Definition sympl (m : nat) : fmat R :=
  FM (2 * m) (2 * m) (fun i j => if j == (m + i)%N then 1 else if i == (m + j)%N then -1 else 0).
Definition minkowski (n : nat) : fmat R :=
  FM n n (fun i j => if i == j then (if i == 0%N then 1 else -1) else 0).
(** h^T J h = J *)
Definition isometry (J h : fmat R) : Prop := meq (fmul (ftr h) (fmul J h)) J.

(** the group generated by the matrices gens: words in the generators and their inverses *)
Inductive words (n : nat) (gens : seq (fmat R)) : fmat R -> Prop :=
| W_one X : meq X (fid R n) -> words n gens X
| W_gen h X : List.In h gens -> meq X h -> words n gens X
| W_mul X Y Z : words n gens X -> words n gens Y -> meq Z (fmul X Y) -> words n gens Z
| W_inv X Y : words n gens X -> fr Y = n -> fc Y = n ->
    meq (fmul X Y) (fid R n) -> meq (fmul Y X) (fid R n) -> words n gens Y.
(** the matrix that moves coordinate p_i to i *)
Definition perm_mat (n : nat) (p : seq nat) : fmat R := FM n n (fun i j => (nth 0%N p i == j)%:R).
(** the matrix of the cyclic shift by k places *)
Definition shift_mat (n k : nat) : fmat R := FM n n (fun i j => (i == (j + k) %% n)%N%:R).
End Eqs.

(** the faces of a cube are 0..5 with opposite faces 0-5, 1-3, 2-4: face f lies on axis
    [axis f] at the positive end when f is 0, 1 or 2 *)
Definition axis (f : nat) : nat := nth 0%N [:: 2; 0; 1; 0; 1; 2]%N f.
Definition negf (f : nat) : bool := (2 < f)%N.
Definition opposite (f : nat) : nat := nth 0%N [:: 5; 3; 4; 1; 2; 0]%N f.
(** a permutation of the axes (images of axes 0, 1, 2) is odd *)
Definition odd3 (a b c : nat) : bool := (b < a)%N (+) (c < a)%N (+) (c < b)%N.
(** p is the effect of a rotation of the cube: a permutation of the six faces that maps
    opposite faces to opposite faces and preserves the orientation, that is, the signed
    permutation matrix of the axes has determinant 1 *)
Definition rotation (p : seq nat) : bool :=
  let f := nth 0%N p in
  [&& perm_eq p (iota 0 6), all (fun i => f (opposite i) == opposite (f i)) (iota 0 6) &
      ~~ (odd3 (axis (f 1%N)) (axis (f 2%N)) (axis (f 0%N)) (+) negf (f 0%N) (+) negf (f 1%N) (+) negf (f 2%N))].
