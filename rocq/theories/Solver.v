(** * Solver: constraint_matrix, orthogonal_complement, equivariant_basis and
    equivariant_projector (emlp/reps/representation.py:87-132,303-307;
    emlp/reps/product_sum_reps.py:75-97,374-380).

    The numerical kernels are parameters: [svd m n D] is jnp.linalg.svd(D,full_matrices=True)
    on an m x n array, [big s] is the comparison s>1e-5, [krylov] is
    krylov_constraint_solve (modelled in Krylov.v).  The cache is modelled in Cache.v; here
    every call solves afresh. *)
From mathcomp Require Import all_ssreflect all_algebra.
From Coq Require BinNat.
From Verif Require Import Np LinOp Rep.
Set Implicit Arguments.
Unset Strict Implicit.
Unset Printing Implicit Defensive.
Import GRing.Theory.

Section Solver.
Variable R : comRingType.
Variables (conj sinv : R -> R) (linv : nat -> seq R -> seq R).
Variables (crho cdrho : nat -> option gid -> gel R -> res (op R)).
Variables (gdim : gid -> nat) (csize : nat -> gid -> nat) (le : rel rep).
(** G.discrete_generators and G.lie_algebra: sequences of arrays or operators *)
Variables (gens lies : gid -> seq (op R)).
Variables (svd : nat -> nat -> seq R -> seq R * seq R * seq R) (big : pred R).
Variable krylov : op R -> res (darr R).

Local Notation rho := (rho sinv linv crho).
Local Notation drho := (drho cdrho).

(** rep.constraint_matrix(), representation.py:87-95.  It reads self.G: a SumRep or a
    DirectProduct has no such attribute, G=None has no generators. *)
Definition constraint_matrix (r : rep) : res (op R) :=
  do n <- size_py gdim csize r;
  match gattr r with
  | Some (Some g) =>
      do c1 <- mapM (fun h => do A <- rho r (GMat h); sub (lazify A) (OI R n)) (gens g);
      do c2 <- mapM (fun A => rmap (@lazify R) (drho r (GMat A))) (lies g);
      if nilp (c1 ++ c2) then Ok (OLazy 1 n (nseq n 0%R)) else mkConcat (c1 ++ c2)
  | _ => Err AttributeError
  end.

(** orthogonal_complement(proj), representation.py:303-307: rank = (S>1e-5).sum() and
    VH[rank:].conj().T, an n x (n-rank) array *)
Definition orthogonal_complement (m n : nat) (D : seq R) : darr R :=
  let: (_, Sv, VH) := svd m n D in
  let rank := count big Sv in
  (n, (n - rank)%N, tr2 0%R (n - rank) n (map conj (srows n rank n VH))).

(** C_lazy.shape[0]*C_lazy.shape[1]>3e7, representation.py:109 *)
Definition too_large (C : op R) : bool :=
  BinNat.N.ltb (BinNat.N.mul (BinNat.N.of_nat 3) (BinNat.N.pow (BinNat.N.of_nat 10) (BinNat.N.of_nat 7)))
               (BinNat.N.of_nat (rows C * cols C)).

(** the cache-miss branch of equivariant_basis, representation.py:108-114 *)
Definition solve (c : rep) : res (darr R) :=
  do C <- constraint_matrix c;
  if too_large C then krylov C else
  do D <- to_dense conj C;
  Ok (orthogonal_complement D.1.1 D.1.2 D.2).

(** Rep.equivariant_basis, representation.py:98-116, with the cache lookup (which hashes
    the canonical representation) but no cache; result[invperm] *)
Definition basis_rep (r : rep) : res (op R) :=
  if r is RScalar then Ok (OArr 1 1 [:: 1%R]) else
  do cp <- canonicalize gdim csize le r;
  if ~~ hashable cp.1 then Err AssertionError else
  do Q <- solve cp.1;
  Ok (OArr (size cp.2) Q.1.2 (grows 0%R Q.1.2 Q.2 (argsort cp.2))).

(** DirectProduct.equivariant_basis, product_sum_reps.py:374-376 *)
Definition basis_ns (r : rep) : res (op R) :=
  if r is RDir d p then
    do Qs <- mapM basis_rep (keys d);
    do K <- mkKron Qs;
    mkProd (OPerm R (argsort p)) K
  else basis_rep r.

(** SumRep.equivariant_basis, product_sum_reps.py:75-85 (the casts to float32 are
    the identity here) *)
Definition basis (r : rep) : res (op R) :=
  if r is RSum d p then
    do Qs <- mapM basis_ns (keys d);
    Ok (OCustom (rsize gdim csize r) (sumn [seq (x.1 * x.2)%N | x <- zip (vals d) (map (@cols R) Qs)])
          Qs (vals d) None (argsort p))
  else basis_ns r.

(** Rep.equivariant_projector, representation.py:118-123 *)
Definition projector_rep (r : rep) : res (op R) :=
  do Q <- basis_rep r;
  do QH <- adjoint conj (lazify Q);
  mkProd (lazify Q) QH.
(** DirectProduct.equivariant_projector, product_sum_reps.py:378-380 *)
Definition projector_ns (r : rep) : res (op R) :=
  if r is RDir d p then
    do Ps <- mapM projector_rep (keys d);
    do K <- mkKron Ps;
    conjp p K
  else projector_rep r.
(** SumRep.equivariant_projector, product_sum_reps.py:87-97 *)
Definition projector (r : rep) : res (op R) :=
  if r is RSum d p then
    do Ps <- mapM projector_ns (keys d);
    Ok (OCustom (rsize gdim csize r) (rsize gdim csize r) Ps (vals d) (Some p) (argsort p))
  else projector_ns r.
End Solver.
