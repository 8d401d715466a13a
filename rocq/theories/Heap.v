(** * Heap: the only attribute of a representation that the library assigns after
    construction, the group G of the module-level object Scalar. *)
From mathcomp Require Import all_ssreflect all_algebra.
From Verif Require Import Np LinOp Rep Order.
Set Implicit Arguments.
Unset Strict Implicit.
Unset Printing Implicit Defensive.
Local Open Scope ring_scope.

Section Heap.
Variables (gdim : gid -> nat) (gorth : gid -> bool) (csize : nat -> gid -> nat).
Variables (ghash : gid -> int) (nhash : int) (hash : rep -> int).

(** a<b when Scalar.G is [s]: as [py_lt] (Order.v), except that self.G<other.G
    (representation.py:169-172) reads [s] when self is Scalar. *)
Definition lt_s (s : option gid) (a b : rep) : res bool :=
  match a, b with
  | RScalar, RScalar => Ok false
  | RScalar, RSum _ _ => Err AttributeError
  | RScalar, _ =>
      let decided := if gattr b is Some H then
          match g_lt ghash nhash s H with
          | Some true => Some true
          | Some false => if g_gt ghash nhash s H is Some true then Some false else None
          | None => None
          end
        else None in
      if decided is Some x then Ok x
      else py_lt gdim csize ghash nhash hash a b
  | _, _ => py_lt gdim csize ghash nhash hash a b
  end.
Definition le_s (s : option gid) (a b : rep) : bool := if lt_s s b a is Ok true then false else true.

(** rep(G) with the assignment self.G=G of ScalarRep.__call__ (representation.py:206-208),
    and otherwise as [call] in Rep.v; the state is Scalar.G.  The elements of a sum are
    called before the result is sorted. *)
Fixpoint call_s (s : option gid) (r : rep) (G : option gid) : option gid * res rep :=
  let calld := fix calld (s : option gid) (d : seq (rep * nat)) : option gid * res (seq (rep * nat)) :=
    match d with
    | [::] => (s, Ok [::])
    | (k, c) :: d' =>
        let: (s1, k') := call_s s k G in
        if k' is Ok k' then let: (s2, l) := calld s1 d' in (s2, do l <- l; Ok ((k', c) :: l))
        else (s1, do x <- k'; Ok [:: (x, c)])
    end in
  let calll := fix calll (s : option gid) (l : seq rep) : option gid * res (seq rep) :=
    match l with
    | [::] => (s, Ok [::])
    | k :: l' =>
        let: (s1, k') := call_s s k G in
        if k' is Ok k' then let: (s2, m) := calll s1 l' in (s2, do m <- m; Ok (k' :: m))
        else (s1, do x <- k'; Ok [:: x])
    end in
  match r with
  | RScalar => (G, Ok RScalar)
  | RBase _ => (s, Ok (RBase G))
  | RCustom c _ => (s, Ok (RCustom c G))
  | RDual t => let: (s1, t') := call_s s t G in (s1, do t' <- t'; tr gdim gorth csize (le_s s1) t')
  | RSum d p => let: (s1, l) := calld s d in (s1, do l <- l; Ok (sum_coll gdim csize (le_s s1) (dict_of l) (Some p)))
  | RProd _ _ | RDir _ _ => (s, Err NotImplementedError)
  | RDefSum l =>
      if G is None then (s, Ok r) else
      let: (s1, l') := calll s l in (s1, do l' <- l'; sum_rep gdim csize (le_s s1) l' None)
  | RDefProd l =>
      if G is None then (s, Ok r) else
      let: (s1, l') := calll s l in (s1, do l' <- l'; reduce_mul (mul gdim csize (le_s s1)) l')
  end.

(** a program: each step builds an object from earlier ones (given by position) *)
Inductive cmd : Type :=
  | CBase (G : option gid)          (* Base(G); V is Base() *)
  | CCustom (c : nat) (G : option gid)
  | CScalar                         (* the module-level object *)
  | CAdd (i j : nat) | CMul (i j : nat) | CT (i : nat) | CPow (i n : nat) | CMulInt (i : nat) (n : int)
  | CRshift (i j : nat) | CLshift (i j : nat)
  | CCall (i : nat) (G : option gid).
Record state : Type := St { scalar_G : option gid; objs : seq rep }.

Definition obj (st : state) (i : nat) : res rep :=
  if (i < size (objs st))%N then Ok (nth RScalar (objs st) i) else Err KeyError.
Definition push (st : state) (x : res rep) : state :=
  if x is Ok r then St (scalar_G st) (rcons (objs st) r) else st.
Definition vrep (x : res val) : res rep := if x is Ok (VRep r) then Ok r else Err TypeError.

(** one API call; when it raises, no object is added *)
Definition step (st : state) (c : cmd) : state :=
  let le := le_s (scalar_G st) in
  match c with
  | CBase G => push st (Ok (RBase G))
  | CCustom k G => push st (Ok (RCustom k G))
  | CScalar => push st (Ok RScalar)
  | CAdd i j => push st (do a <- obj st i; do b <- obj st j; add gdim csize le a b)
  | CMul i j => push st (do a <- obj st i; do b <- obj st j; mul gdim csize le a b)
  | CT i => push st (do a <- obj st i; tr gdim gorth csize le a)
  | CPow i n => push st (do a <- obj st i; pow gdim csize le a n)
  | CMulInt i n => push st (do a <- obj st i; vrep (mul_int gdim csize le a n))
  | CRshift i j => push st (do a <- obj st i; do b <- obj st j; rshift gdim gorth csize le a b)
  | CLshift i j => push st (do a <- obj st i; do b <- obj st j; lshift gdim gorth csize le a b)
  | CCall i G =>
      match obj st i with
      | Ok a => let: (s, r) := call_s (scalar_G st) a G in push (St s (objs st)) r
      | Err _ => st
      end
  end.
Definition run (st : state) (cs : seq cmd) : state := foldl step st cs.
End Heap.
