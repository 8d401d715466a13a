(** * RepSpec: vocabulary for the statements about representations. *)
From mathcomp Require Import all_ssreflect all_algebra.
From Verif Require Import Np Spec LinOp LinOpSpec LinOpMore Rep.
Set Implicit Arguments.
Unset Strict Implicit.
Unset Printing Implicit Defensive.
Import GRing.Theory.
Local Open Scope ring_scope.

Section S.
Variable R : comRingType.
Variables (conj sinv : R -> R) (linv : nat -> seq R -> seq R).
Variables (crho cdrho : nat -> option gid -> gel R -> res (op R)).
Variables (gdim : gid -> nat) (csize : nat -> gid -> nat).

(** a square operator (or array) of size n that can be multiplied and densified; every
    n x n array is one (lemma [gop_arr]) *)
Definition gop (n : nat) (A : op R) : Prop :=
  [/\ wf A, supp true A, dsum_ne A, plain A \/ (forall x, conj x = x) & shape A = (n, n)].

(** ... that the code can invert *)
Definition invertible (n : nat) (A : op R) : Prop :=
  gop n A /\ exists2 B, inv_transpose sinv linv A = Ok B & gop n B /\ is_invT (den A) (den B).

(** [M], a matrix or a dictionary from groups to matrices, gives an element of every
    group in [gs]; on user-defined classes rho is defined, invertible and depends only on
    the element of the class's group *)
Definition group_elem (gs : pred gid) (M : gel R) : Prop :=
  forall g, gs g -> exists2 A, glook M (Some g) = Ok A & invertible (gdim g) A /\
    forall c, exists2 C, crho c (Some g) M = Ok C &
      crho c (Some g) (GMat A) = Ok C /\ invertible (csize c g) C.

(** [M] gives a Lie algebra element of every group in [gs] *)
Definition lie_elem (gs : pred gid) (M : gel R) : Prop :=
  forall g, gs g -> exists2 A, glook M (Some g) = Ok A &
    (gop (gdim g) A /\ gop (gdim g) (neg (transpose A))) /\
    forall c, exists2 C, cdrho c (Some g) M = Ok C &
      cdrho c (Some g) (GMat A) = Ok C /\ gop (csize c g) C /\ gop (csize c g) (neg (transpose C)).

(** orthogonal: A A^T = 1 *)
Definition orthogonal (n : nat) (A : op R) : Prop :=
  meq (fmul (den A) (ftr (den A))) (fid R n) /\ meq (fmul (ftr (den A)) (den A)) (fid R n).
(** the elements of the groups flagged is_orthogonal are orthogonal *)
Definition orth_elem (gorth : gid -> bool) (gs : pred gid) (M : gel R) : Prop :=
  forall g, gs g -> gorth g ->
    (forall A, glook M (Some g) = Ok A -> orthogonal (gdim g) A) /\
    (forall c C, crho c (Some g) M = Ok C -> orthogonal (csize c g) C).

(** block-diagonal, Kronecker, ... of square data *)
Definition bdiag (na : nat) (Da : seq R) (nb : nat) (Db : seq R) : seq R :=
  flat (fdsum (unflat na na Da) (unflat nb nb Db)).
Definition kron2 (na : nat) (Da : seq R) (nb : nat) (Db : seq R) : seq R :=
  flat (fkron (unflat na na Da) (unflat nb nb Db)).
Definition mat_mul (n : nat) (D1 D2 : seq R) : seq R := flat (fmul (unflat n n D1) (unflat n n D2)).
Definition kronsum2 (na : nat) (Da : seq R) (nb : nat) (Db : seq R) : seq R :=
  flat (fkronsum (unflat na na Da) (unflat nb nb Db)).

(** the Lie algebra elements of the groups flagged is_orthogonal are antisymmetric *)
Definition orth_lie (gorth : gid -> bool) (gs : pred gid) (M : gel R) : Prop :=
  forall g, gs g -> gorth g ->
    (forall A, glook M (Some g) = Ok A -> meq (den A) (fopp (ftr (den A)))) /\
    (forall c C, cdrho c (Some g) M = Ok C -> meq (den C) (fopp (ftr (den C)))).

(** [A] are the matrices of V ([None]) and of the user-defined classes ([Some c]) at the
    group element M of g, [B] their inverse transposes *)
Definition rho_leaves (g : gid) (M : gel R) (A B : option nat -> fmat R) : Prop :=
  [/\ forall X, glook M (Some g) = Ok X -> A None = den X,
      forall c X, crho c (Some g) M = Ok X -> A (Some c) = den X &
      forall l, [/\ fr (B l) = fr (A l), fc (B l) = fr (A l) & is_invT (A l) (B l)]].
(** ... at the Lie algebra element M *)
Definition drho_leaves (g : gid) (M : gel R) (A B : option nat -> fmat R) : Prop :=
  [/\ forall X, glook M (Some g) = Ok X -> A None = den X,
      forall c X, cdrho c (Some g) M = Ok X -> A (Some c) = den X &
      forall l, meq (B l) (fopp (ftr (A l)))].
End S.
