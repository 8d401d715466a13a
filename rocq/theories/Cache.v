(** * Cache: Rep.solcache, the class-level dictionary of solutions
    (emlp/reps/representation.py:97-123; product_sum_reps.py:75-97,374-380).

    Here [gid] stands for a group with its generators, not for its name: two groups with
    the same generators may be represented by the same number, and [name g] is repr(g)
    (groups.py:86-96, 440-444, 468-471), the only thing that == and hash look at. *)
From mathcomp Require Import all_ssreflect all_algebra.
From Verif Require Import Np LinOp Rep Eq Solver.
Set Implicit Arguments.
Unset Strict Implicit.
Unset Printing Implicit Defensive.
Import GRing.Theory.

(** what == on representations sees: every group replaced by its name *)
Fixpoint ren (f : gid -> gid) (r : rep) : rep :=
  match r with
  | RScalar => RScalar
  | RBase G => RBase (omap f G)
  | RCustom c G => RCustom c (omap f G)
  | RDual s => RDual (ren f s)
  | RSum d p => RSum [seq (ren f x.1, x.2) | x <- d] p
  | RProd d p => RProd [seq (ren f x.1, x.2) | x <- d] p
  | RDir d p => RDir [seq (ren f x.1, x.2) | x <- d] p
  | RDefSum l => RDefSum (map (ren f) l)
  | RDefProd l => RDefProd (map (ren f) l)
  end.

Section Cache.
Variable R : comRingType.
Variables (conj sinv : R -> R) (linv : nat -> seq R -> seq R).
Variables (crho cdrho : nat -> option gid -> gel R -> res (op R)).
Variables (gdim : gid -> nat) (csize : nat -> gid -> nat) (le : rel rep).
Variables (gens lies : gid -> seq (op R)).
Variables (svd : nat -> nat -> seq R -> seq R * seq R * seq R) (big : pred R).
Variable krylov : op R -> res (darr R).
Variable name : gid -> gid.
Local Notation solve := (solve conj sinv linv crho cdrho gdim csize gens lies svd big krylov).

(** solcache={}, representation.py:97; the items in insertion order *)
Definition cache := seq (rep * darr R).

(** the lookup of k in the dictionary: the stored key is compared with k *)
Fixpoint look (c : cache) (k : rep) : res (option (darr R)) :=
  match c with
  | [::] => Ok None
  | (k', Q) :: c' => do e <- py_eq (ren name k') (ren name k); if e then Ok (Some Q) else look c' k
  end.

(** computations that read and write the cache; an exception leaves it as it is *)
Definition cst (A : Type) : Type := cache -> res A * cache.
Definition cret (A : Type) (x : res A) : cst A := fun c => (x, c).
Definition cbind (A B : Type) (m : cst A) (f : A -> cst B) : cst B :=
  fun c => let: (x, c') := m c in match x with Ok a => f a c' | Err e => (Err e, c') end.
Fixpoint cmapM (A B : Type) (f : A -> cst B) (l : seq A) : cst (seq B) :=
  match l with
  | [::] => cret (Ok [::])
  | x :: l' => cbind (f x) (fun y => cbind (cmapM f l') (fun ys => cret (Ok (y :: ys))))
  end.

(** Rep.equivariant_basis, representation.py:98-116.  `canon_rep not in self.solcache`
    hashes canon_rep, which asserts that it is canonical. *)
Definition basis_rep_c (r : rep) : cst (op R) :=
  if r is RScalar then cret (Ok (OArr 1 1 [:: 1%R])) else
  cbind (cret (canonicalize gdim csize le r)) (fun cp =>
  let out Q := Ok (OArr (size cp.2) Q.1.2 (grows 0%R Q.1.2 Q.2 (argsort cp.2))) in
  if ~~ hashable cp.1 then cret (Err AssertionError) else
  fun c =>
    match look c cp.1 with
    | Err e => (Err e, c)
    | Ok (Some Q) => (out Q, c)
    | Ok None =>
        match solve cp.1 with
        | Err e => (Err e, c)
        | Ok Q => (out Q, rcons c (cp.1, Q))
        end
    end).

(** DirectProduct.equivariant_basis, product_sum_reps.py:374-376 *)
Definition basis_ns_c (r : rep) : cst (op R) :=
  if r is RDir d p then
    cbind (cmapM basis_rep_c (keys d)) (fun Qs =>
    cret (do K <- mkKron Qs; mkProd (OPerm R (argsort p)) K))
  else basis_rep_c r.

(** SumRep.equivariant_basis, product_sum_reps.py:75-85 *)
Definition basis_c (r : rep) : cst (op R) :=
  if r is RSum d p then
    cbind (cmapM basis_ns_c (keys d)) (fun Qs =>
    cret (Ok (OCustom (rsize gdim csize r) (sumn [seq (x.1 * x.2)%N | x <- zip (vals d) (map (@cols R) Qs)])
          Qs (vals d) None (argsort p))))
  else basis_ns_c r.

(** Rep.equivariant_projector, representation.py:118-123 *)
Definition projector_rep_c (r : rep) : cst (op R) :=
  cbind (basis_rep_c r) (fun Q =>
  cret (do QH <- adjoint conj (lazify Q); mkProd (lazify Q) QH)).
(** DirectProduct.equivariant_projector, product_sum_reps.py:378-380 *)
Definition projector_ns_c (r : rep) : cst (op R) :=
  if r is RDir d p then
    cbind (cmapM projector_rep_c (keys d)) (fun Ps => cret (do K <- mkKron Ps; conjp p K))
  else projector_rep_c r.
(** SumRep.equivariant_projector, product_sum_reps.py:87-97 *)
Definition projector_c (r : rep) : cst (op R) :=
  if r is RSum d p then
    cbind (cmapM projector_ns_c (keys d)) (fun Ps =>
    cret (Ok (OCustom (rsize gdim csize r) (rsize gdim csize r) Ps (vals d) (Some p) (argsort p))))
  else projector_ns_c r.

(** a program: a sequence of calls r.equivariant_basis() and r.equivariant_projector(),
    starting with some cache, and the results (an exception does not end it) *)
Inductive bcall : Type := CallBasis (r : rep) | CallProj (r : rep).
Definition bcall_rep (b : bcall) : rep := match b with CallBasis r | CallProj r => r end.
Definition do_call (b : bcall) : cst (op R) :=
  match b with CallBasis r => basis_c r | CallProj r => projector_c r end.
Fixpoint do_calls (bs : seq bcall) (c : cache) : seq (res (op R)) :=
  match bs with
  | [::] => [::]
  | b :: bs' => let: (x, c') := do_call b c in x :: do_calls bs' c'
  end.
End Cache.
