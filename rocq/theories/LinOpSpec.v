(** * LinOpSpec: the mathematical matrix [den A] of an operator expression,
    and well-formedness.  [den] uses only the vocabulary of [Spec]. *)
From mathcomp Require Import all_ssreflect all_algebra.
From Verif Require Import Np Spec LinOp.
Set Implicit Arguments.
Unset Strict Implicit.
Unset Printing Implicit Defensive.
Import GRing.Theory.
Local Open Scope ring_scope.

Section Den.
Variable R : comRingType.

(** Cyclic shift by k: column j goes to row (j+k) mod n. *)
Definition fshift (n : nat) (k : int) : fmat R :=
  FM n n (fun i j => (Posz i == ((Posz j + k) %% Posz n)%Z)%:R).
(** Rotation of an n x n image by 90 degrees counter-clockwise:
    out[i,j] = in[j,n-1-i] *)
Definition frot1 (n : nat) : fmat R :=
  fsel R (n * n) (n * n) (fun t => ((t %% n) * n + (n - 1 - t %/ n))%N).
(** Exchange the listed coordinates end for end, keep the others. *)
Definition fswap (sw : seq nat) (n : nat) : fmat R :=
  fsel R n n (fun i => if i \in sw then nth 0%N sw (size sw - (index i sw).+1) else i).

(** c_1 copies of D_1, c_2 copies of D_2, ... *)
Definition expand (Ds : seq (fmat R)) (c : seq nat) : seq (fmat R) :=
  flatten [seq nseq p.2 p.1 | p <- zip Ds c].

Fixpoint den (A : op R) : fmat R :=
  match A with
  | OArr m n D | OLazy m n D => unflat m n D
  | OI n => fid R n
  | OKron Ms => fkronl (map den Ms)
  | OKronsum Ms => fkronsuml (map den Ms)
  | OConcat Ms => fvcatl (head 0%N [seq fc (den M) | M <- Ms]) (map den Ms)
  | ODsum Ms c => fdsuml (expand (map den Ms) c)
  | OCustom m n Ms c pre post =>
      let D := fdsuml (expand (map den Ms) c) in
      let D' := if pre is Some p then fmul D (fsel R (size p) n (nth 0%N p)) else D in
      fmul (fsel R m (fr D) (nth 0%N post)) D'
  | OPerm p => fsel R (size p) (size p) (nth 0%N p)
  | OShift n k => fshift n k
  | OSwap sw n => fswap sw n
  | ORot90 n k => fpow (frot1 n) (absz (k %% 4%:Z)%Z)
  | OSum A B => fadd (den A) (den B)
  | OProd A B => fmul (den A) (den B)
  | OScaled A a => fscale a (den A)
  | OPow A p => fpow (den A) p
  | OAdj A | OTrans A => ftr (den A)
  end.

(** Operator expressions that the constructors can build from data of the
    declared shapes and that represent a matrix (all Kronecker factors non-empty,
    direct summands square, permutations permutations). *)
Fixpoint wf (A : op R) : bool :=
  match A with
  | OArr m n D | OLazy m n D => size D == (m * n)%N
  | OI _ => true
  | OKron Ms =>
      [&& (1 < size Ms)%N, all wf Ms,
          all (fun M => 0 < rows M)%N Ms & all (fun M => 0 < cols M)%N Ms]
  | OKronsum Ms =>
      [&& (1 < size Ms)%N, all wf Ms,
          all (fun M => 0 < rows M)%N Ms & all (fun M => rows M == cols M) Ms]
  | OConcat Ms =>
      [&& (0 < size Ms)%N, all wf Ms,
          all (fun M => rows M == head 0%N (map (@rows R) Ms)) Ms &
          all (fun M => cols M == head 0%N (map (@cols R) Ms)) Ms]
  | ODsum Ms c =>
      [&& (0 < size Ms)%N, size c == size Ms, all wf Ms & all (fun M => rows M == cols M) Ms]
  | OCustom m n Ms c pre post =>
      let tr := sumn [seq (p.1 * p.2)%N | p <- zip [seq rows M | M <- Ms] c] in
      let tc := sumn [seq (p.1 * p.2)%N | p <- zip [seq cols M | M <- Ms] c] in
      [&& (0 < size Ms)%N, size c == size Ms, all wf Ms,
          (size post == m) && all (fun i => i < tr)%N post &
          if pre is Some p then (size p == tc) && all (fun i => i < n)%N p else tc == n]
  | OPerm p => is_perm (size p) p
  | OShift _ _ => true
  | OSwap sw n => uniq sw && all (fun i => i < n)%N sw
  | ORot90 _ _ => true
  | OSum A B => [&& is_op A, is_op B, wf A, wf B & shape A == shape B]
  | OProd A B => [&& is_op A, is_op B, wf A, wf B & cols A == rows B]
  | OScaled A _ => is_op A && wf A
  | OPow A _ => [&& is_op A, wf A & rows A == cols A]
  | OAdj A | OTrans A => is_op A && wf A
  end.

(** No transposed views inside. *)
Fixpoint plain (A : op R) : bool :=
  match A with
  | OKron Ms | OKronsum Ms | OConcat Ms | ODsum Ms _ | OCustom _ _ Ms _ _ _ => all plain Ms
  | OSum A B | OProd A B => plain A && plain B
  | OScaled A _ | OPow A _ => plain A
  | OAdj _ | OTrans _ => false
  | _ => true
  end.

(** [supp true A]: A@X is supported; [supp false A]: A.T@X (and A.H@X) is
    supported for every number of columns.  The unsupported leaves are direct
    sums, custom operators, Rot90 and vertical concatenations in a transposed position. *)
Fixpoint supp (fwd : bool) (A : op R) : bool :=
  match A with
  | OKron Ms | OKronsum Ms => all (supp fwd) Ms
  | OConcat Ms | ODsum Ms _ | OCustom _ _ Ms _ _ _ => fwd && all (supp fwd) Ms
  | ORot90 _ _ => fwd
  | OSum A B | OProd A B => supp fwd A && supp fwd B
  | OScaled A _ | OPow A _ => supp fwd A
  | OAdj A | OTrans A => supp (~~ fwd) A
  | _ => true
  end.
End Den.
