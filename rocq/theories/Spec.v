(** * Spec: matrices as entry functions with sizes.

    This file is the vocabulary in which the properties are stated.  It does not
    mention the model: a matrix is a number of rows, a number of columns and an
    entry function (only entries in range matter, see [meq]). *)
From mathcomp Require Import all_ssreflect all_algebra.
Set Implicit Arguments.
Unset Strict Implicit.
Unset Printing Implicit Defensive.
Import GRing.Theory.
Local Open Scope ring_scope.

Section FMat.
Variable R : ringType.

Record fmat := FM { fr : nat; fc : nat; fe : nat -> nat -> R }.

(** Equality of matrices: same shape, same entries in range. *)
Definition meq (A B : fmat) : Prop :=
  [/\ fr A = fr B, fc A = fc B &
      forall i j, (i < fr A)%N -> (j < fc A)%N -> fe A i j = fe B i j].

Definition fid (n : nat) : fmat := FM n n (fun i j => (i == j)%:R).
Definition fzero (m n : nat) : fmat := FM m n (fun _ _ => 0).
Definition ftr (A : fmat) : fmat := FM (fc A) (fr A) (fun i j => fe A j i).
Definition fconj (c : R -> R) (A : fmat) : fmat := FM (fr A) (fc A) (fun i j => c (fe A i j)).
Definition fadd (A B : fmat) : fmat := FM (fr A) (fc A) (fun i j => fe A i j + fe B i j).
Definition fopp (A : fmat) : fmat := FM (fr A) (fc A) (fun i j => - fe A i j).
Definition fsub (A B : fmat) : fmat := fadd A (fopp B).
Definition fscale (a : R) (A : fmat) : fmat := FM (fr A) (fc A) (fun i j => a * fe A i j).
Definition fmul (A B : fmat) : fmat :=
  FM (fr A) (fc B) (fun i k => \sum_(0 <= j < fc A) fe A i j * fe B j k).
Fixpoint fpow (A : fmat) (p : nat) : fmat :=
  if p is p'.+1 then fmul A (fpow A p') else fid (fr A).

(** Kronecker product, row-major index pairs. *)
Definition fkron (A B : fmat) : fmat :=
  FM (fr A * fr B) (fc A * fc B)
     (fun i j => fe A (i %/ fr B)%N (j %/ fc B)%N * fe B (i %% fr B)%N (j %% fc B)%N).
Definition fkronl (l : seq fmat) : fmat := foldr fkron (fid 1) l.

(** Kronecker sum of square matrices: A (x) 1 + 1 (x) B. *)
Definition fkronsum (A B : fmat) : fmat :=
  fadd (fkron A (fid (fr B))) (fkron (fid (fr A)) B).
Definition fkronsuml (l : seq fmat) : fmat := foldr fkronsum (fzero 1 1) l.

(** Block diagonal. *)
Definition fdsum (A B : fmat) : fmat :=
  FM (fr A + fr B) (fc A + fc B)
     (fun i j => if (i < fr A)%N then (if (j < fc A)%N then fe A i j else 0)
                 else (if (j < fc A)%N then 0 else fe B (i - fr A)%N (j - fc A)%N)).
Definition fdsuml (l : seq fmat) : fmat := foldr fdsum (fzero 0 0) l.

(** Vertical concatenation. *)
Definition fvcat (A B : fmat) : fmat :=
  FM (fr A + fr B) (fc B) (fun i j => if (i < fr A)%N then fe A i j else fe B (i - fr A)%N j).
Definition fvcatl (n : nat) (l : seq fmat) : fmat := foldr fvcat (fzero 0 n) l.

(** Matrix whose action on a vector v is i |-> v (s i). *)
Definition fsel (m n : nat) (s : nat -> nat) : fmat := FM m n (fun i j => (s i == j)%:R).

(** B is the inverse transpose of A (both n x n):  A B^T = 1 = B^T A. *)
Definition is_invT (A B : fmat) : Prop :=
  meq (fmul A (ftr B)) (fid (fr A)) /\ meq (fmul (ftr B) A) (fid (fr A)).

(** Dense data: the flat row-major array of a matrix. *)
Definition flat (A : fmat) : seq R :=
  mkseq (fun t => fe A (t %/ fc A)%N (t %% fc A)%N) (fr A * fc A)%N.
(** ... and the matrix of a flat array with the given shape. *)
Definition unflat (m n : nat) (X : seq R) : fmat := FM m n (fun i j => nth 0 X (i * n + j)%N).

End FMat.
