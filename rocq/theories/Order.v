(** * Order: the comparison used by sorted(), Rep.__lt__ and its overrides. *)
From mathcomp Require Import all_ssreflect all_algebra.
From Verif Require Import Np LinOp Rep.
Set Implicit Arguments.
Unset Strict Implicit.
Unset Printing Implicit Defensive.
Local Open Scope ring_scope.

Section Order.
Variables (gdim : gid -> nat) (csize : nat -> gid -> nat).
(** hash(G), hash(None), hash(rep) *)
Variables (ghash : gid -> int) (nhash : int) (hash : rep -> int).

(** self.G<other.G for two G attributes, groups.py:98-100.  [None] is the TypeError of
    NoneType<...; comparing a group with None compares the hashes. *)
Definition g_lt (G H : option gid) : option bool :=
  match G, H with
  | Some g, Some h => Some (ghash g < ghash h)
  | Some g, None => Some (ghash g < nhash)
  | None, _ => None
  end.
(** self.G>other.G: Group has no __gt__, so that other.G<self.G is evaluated *)
Definition g_gt (G H : option gid) : option bool := g_lt H G.

(** the try block, representation.py:169-172: [Some b] is "return b"; AttributeError
    (no attribute G) and TypeError are caught *)
Definition try_groups (a b : rep) : option bool :=
  match gattr a, gattr b with
  | Some G, Some H =>
      match g_lt G H with
      | Some true => Some true
      | Some false => if g_gt G H is Some true then Some false else None
      | None => None
      end
  | _, _ => None
  end.

(** hash(rep): __hash__ of sums and products asserts canonical *)
Definition hash_py (r : rep) : res int := if hashable r then Ok (hash r) else Err AssertionError.

(** Rep.__lt__, representation.py:165-175; other==Scalar is SumRep.__eq__ for a sum,
    which reads Scalar.reps (AttributeError) *)
Definition lt_rep (a b : rep) : res bool :=
  match b with
  | RScalar => Ok false
  | RSum _ _ => Err AttributeError
  | _ =>
    if try_groups a b is Some x then Ok x else
    do m <- size_py gdim csize a;
    do n <- size_py gdim csize b;
    if (m < n)%N then Ok true else if (n < m)%N then Ok false else
    do h <- hash_py a; do k <- hash_py b; Ok (h < k)
  end.

(** a<b: Base.__lt__ (representation.py:256-258), Dual.__lt__ (289-291), Rep.__lt__ for
    the other classes (user-defined ones are direct subclasses of Rep) *)
Definition py_lt (a b : rep) : res bool :=
  match a with
  | RBase _ => if b is RDual _ then Ok true else lt_rep a b
  | RDual s =>
      if b is RSum _ _ then Err AttributeError
      else if b == s then Ok false else lt_rep a b
  | _ => lt_rep a b
  end.

(** the order of sorted(): a precedes b unless b<a.  Python's sort and [sort] are
    both stable, so they agree when < is a strict weak order. *)
Definition py_le (a b : rep) : bool := if py_lt b a is Ok true then false else true.
End Order.
