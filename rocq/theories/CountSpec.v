(** * CountSpec: vocabulary of C86, the number of columns of an equivariant basis. *)
From Coq Require Import Reals.
From mathcomp Require Import all_ssreflect all_algebra.
From Verif Require Import Np Spec LinOp LinOpSpec Rep RepSpec RepWf RepOps Solver SolSpec Rstruct Expm GrpSpec NnSpec DimTenSpec.
Set Implicit Arguments.
Unset Strict Implicit.
Unset Printing Implicit Defensive.

Section S.
Variables (sinv : RR -> RR) (linv : nat -> seq RR -> seq RR).
Variables (crho cdrho : nat -> option gid -> gel RR -> res (op RR)).
Variables (gdim : gid -> nat) (gorth : gid -> bool) (csize : nat -> gid -> nat) (le : rel rep).
Variables (gens lies : gid -> seq (op RR)).
Variables (svd : nat -> nat -> seq RR -> seq RR * seq RR * seq RR) (big : pred RR).
Variable krylov : op RR -> res (darr RR).

(** r.equivariant_basis() returns an array of shape (r.size(), k) *)
Definition basis_columns (r : rep) (k : nat) : Prop :=
  exists Q, returns (basis idR sinv linv crho cdrho gdim csize le gens lies svd big krylov r) (rsize gdim csize r) k Q.
(** (a>>b).equivariant_basis() has k columns: the equivariant linear maps from a to b form a space
    of dimension k *)
Definition map_columns (a b : rep) (k : nat) : Prop :=
  exists2 r, rshift gdim gorth csize le a b = Ok r & basis_columns r k.
(** a+a1+a2+..., Python's + from left to right *)
Definition adds (a : rep) (l : seq rep) : res rep := foldM (add gdim csize le) a l.
(** the group g, its representations and the solvers: generators_ok and customs_ok as in C41, the
    solvers are exact as in C26 *)
Definition counting (g : gid) : Prop :=
  [/\ linv_ok linv, customs_ok sinv linv crho cdrho gdim csize (pred1 g),
      generators_ok idR gdim sinv linv crho cdrho csize (pred1 g) gens lies,
      total_order_on (key gdim csize le (pred1 g)) le &
      forall c, solver_ok idR gdim sinv linv crho cdrho csize gens lies svd big krylov c].
(** if the flag is_orthogonal is set, the elements of the group are orthogonal *)
Definition flag_correct (g : gid) : Prop :=
  forall M, element sinv linv gdim gens lies g M -> orth_elem crho gdim csize gorth (pred1 g) M.
End S.
