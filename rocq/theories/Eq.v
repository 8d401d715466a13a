(** * Eq: equality and hashing of representations. *)
From mathcomp Require Import all_ssreflect all_algebra.
From Verif Require Import Np LinOp Rep.
Set Implicit Arguments.
Unset Strict Implicit.
Unset Printing Implicit Defensive.

(** a==b: representation.py:54-58 (Rep: same class and equal attributes, used by the
    deferred classes and assumed of user-defined ones), 223-224 (Scalar), 254-255 (Base),
    284-285 (Dual); product_sum_reps.py:42-43 (SumRep, reads other.reps and other.perm
    whatever the class of other), 275-276 (ProductRep and its subclass DirectProduct).
    G==G is equality of names, [gid] stands for the name.  dict==dict ignores the order:
    equal lengths, and every key of the first found in the second with an equal count.
    (Python compares only keys with equal hashes; the others are unequal.)  Permutations
    of different lengths do not occur here: equal dictionaries have equal sizes. *)
Fixpoint py_eq (a b : rep) : res bool :=
  let find := fix find (k : rep) (c : nat) (eqk : rep -> res bool) (d2 : dict) : res bool :=
    match d2 with
    | [::] => Ok false
    | (k', c') :: d2' => do e <- eqk k'; if e then Ok (c == c') else find k c eqk d2'
    end in
  let all_in := fix all_in (d1 : seq (rep * nat)) (d2 : dict) : res bool :=
    match d1 with
    | [::] => Ok true
    | (k, c) :: d1' => do f <- find k c (py_eq k) d2; if f then all_in d1' d2 else Ok false
    end in
  let deq := fun (d1 d2 : dict) => if size d1 == size d2 then all_in d1 d2 else Ok false in
  let leq := fix leq (l1 : seq rep) (l2 : seq rep) : res bool :=
    match l1, l2 with
    | [::], [::] => Ok true
    | x :: l1', y :: l2' => do e <- py_eq x y; if e then leq l1' l2' else Ok false
    | _, _ => Ok false
    end in
  match a with
  | RScalar => Ok (if b is RScalar then true else false)
  | RBase G => Ok (if b is RBase H then G == H else false)
  | RCustom c G => Ok (if b is RCustom c' H then (c == c') && (G == H) else false)
  | RDual s => if b is RDual t then py_eq s t else Ok false
  | RSum d p =>
      match b with
      | RSum e q | RProd e q | RDir e q => do x <- deq d e; Ok (x && (p == q))
      | _ => Err AttributeError
      end
  | RProd d p | RDir d p =>
      match b with
      | RProd e q | RDir e q => do x <- deq d e; Ok (x && (p == q))
      | _ => Ok false
      end
  | RDefSum l => if b is RDefSum m then (if size l == size m then leq l m else Ok false) else Ok false
  | RDefProd l => if b is RDefProd m then (if size l == size m then leq l m else Ok false) else Ok false
  end.

(** hash(a), up to the hash function of Python for tuples: the value that is hashed.
    representation.py:60-62,221-222,252-253,286-287; product_sum_reps.py:45-47,272-274.
    Sums and products hash their dictionary only, after asserting canonical. *)
Inductive hval : Type := HScalar | HRep (r : rep) | HItems (d : dict).
Definition hash_val (a : rep) : res hval :=
  match a with
  | RScalar => Ok HScalar
  | RSum d _ | RProd d _ | RDir d _ => if hashable a then Ok (HItems d) else Err AssertionError
  | _ => Ok (HRep a)
  end.
