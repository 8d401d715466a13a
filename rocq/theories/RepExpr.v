(** * RepExpr: expressions over representations, as users write them.

    [eval G e] runs the Python operators on the objects V, Scalar and user-defined
    classes; with [G = Some g] the leaves are V(G), with [G = None] they are the
    uninstantiated objects.  [espec] says what the expression means, in the vocabulary
    of Spec only. *)
From mathcomp Require Import all_ssreflect all_algebra.
From Verif Require Import Np Spec LinOp Rep.
Set Implicit Arguments.
Unset Strict Implicit.
Unset Printing Implicit Defensive.
Import GRing.Theory.

Inductive expr : Type :=
| EV                         (* V *)
| ECust (c : nat)            (* an instance of the user-defined class number c *)
| EScalar                    (* Scalar *)
| EInt (n : nat)             (* a non-negative integer *)
| EAdd (a b : expr)          (* a+b *)
| EMul (a b : expr)          (* a*b *)
| ET (a : expr)              (* a.T *)
| EPow (a : expr) (n : nat). (* a**n *)

Section Eval.
Variables (gdim : gid -> nat) (gorth : gid -> bool) (csize : nat -> gid -> nat).
Variable le : rel rep.

Fixpoint eval (G : option gid) (e : expr) : res val :=
  match e with
  | EV => Ok (VRep (RBase G))
  | ECust c => Ok (VRep (RCustom c G))
  | EScalar => Ok (VRep RScalar)
  | EInt n => Ok (VInt (Posz n))
  | EAdd a b => do x <- eval G a; do y <- eval G b; add_val gdim csize le x y
  | EMul a b => do x <- eval G a; do y <- eval G b; mul_val gdim csize le x y
  | ET a => do x <- eval G a;
      match x with
      | VRep r => rmap VRep (tr gdim gorth csize le r)
      | VInt _ => Err AttributeError
      end
  | EPow a n => do x <- eval G a;
      match x with
      | VRep r => rmap VRep (pow gdim csize le r n)
      | VInt z => Ok (VInt (z ^+ n)%R)
      end
  end.
(** e(G) for a representation-valued e *)
Definition call_val (v : val) (G : option gid) : res val :=
  match v with
  | VRep r => rmap VRep (call gdim gorth csize le r G)
  | VInt _ => Err TypeError
  end.
End Eval.

Section Meaning.
Variable R : comRingType.
Inductive sval : Type := SInt (n : nat) | SMat (A : fmat R).

(** [A] gives the matrix of every leaf ([None] is V, [Some c] the class c), [B] the
    matrix of its dual. *)
Fixpoint espec (A B : option nat -> fmat R) (e : expr) : option sval :=
  match e with
  | EV => Some (SMat (A None))
  | ECust c => Some (SMat (A (Some c)))
  | EScalar => Some (SMat (fid R 1))
  | EInt n => Some (SInt n)
  | EAdd a b =>
      match espec A B a, espec A B b with
      | Some (SMat X), Some (SMat Y) => Some (SMat (fdsum X Y))
      | Some (SMat X), Some (SInt n) => Some (SMat (fdsum X (fid R n)))
      | Some (SInt n), Some (SMat X) => Some (SMat (fdsum (fid R n) X))
      | Some (SInt m), Some (SInt n) => Some (SInt (m + n))
      | _, _ => None
      end
  | EMul a b =>
      match espec A B a, espec A B b with
      | Some (SMat X), Some (SMat Y) => Some (SMat (fkron X Y))
      | Some (SMat X), Some (SInt n) | Some (SInt n), Some (SMat X) =>
          Some (if n is 0 then SInt 0 else SMat (fdsuml (nseq n X)))
      | Some (SInt m), Some (SInt n) => Some (SInt (m * n))
      | _, _ => None
      end
  | ET a => if espec B A a is Some (SMat X) then Some (SMat X) else None
  | EPow a n =>
      match espec A B a with
      | Some (SMat X) => Some (SMat (fkronl (nseq n X)))
      | Some (SInt m) => Some (SInt (m ^ n))
      | None => None
      end
  end.

(** the same for the Lie algebra: products give Kronecker sums, trivial coordinates 0 *)
Fixpoint dspec (A B : option nat -> fmat R) (e : expr) : option sval :=
  match e with
  | EV => Some (SMat (A None))
  | ECust c => Some (SMat (A (Some c)))
  | EScalar => Some (SMat (fzero R 1 1))
  | EInt n => Some (SInt n)
  | EAdd a b =>
      match dspec A B a, dspec A B b with
      | Some (SMat X), Some (SMat Y) => Some (SMat (fdsum X Y))
      | Some (SMat X), Some (SInt n) => Some (SMat (fdsum X (fzero R n n)))
      | Some (SInt n), Some (SMat X) => Some (SMat (fdsum (fzero R n n) X))
      | Some (SInt m), Some (SInt n) => Some (SInt (m + n))
      | _, _ => None
      end
  | EMul a b =>
      match dspec A B a, dspec A B b with
      | Some (SMat X), Some (SMat Y) => Some (SMat (fkronsum X Y))
      | Some (SMat X), Some (SInt n) | Some (SInt n), Some (SMat X) =>
          Some (if n is 0 then SInt 0 else SMat (fdsuml (nseq n X)))
      | Some (SInt m), Some (SInt n) => Some (SInt (m * n))
      | _, _ => None
      end
  | ET a => if dspec B A a is Some (SMat X) then Some (SMat X) else None
  | EPow a n =>
      match dspec A B a with
      | Some (SMat X) => Some (SMat (fkronsuml (nseq n X)))
      | Some (SInt m) => Some (SInt (m ^ n))
      | None => None
      end
  end.
End Meaning.
