(** * SolSpec: vocabulary for the statements about solutions of the constraints. *)
From mathcomp Require Import all_ssreflect all_algebra.
From Verif Require Import Np Spec LinOp LinOpSpec Rep RepSpec Solver.
Set Implicit Arguments.
Unset Strict Implicit.
Unset Printing Implicit Defensive.
Import GRing.Theory.
Local Open Scope ring_scope.

Section S.
Variable R : comRingType.
Variable conj : R -> R.

(** the numerical contract of jnp.linalg.svd and of the rank decision on one m x n array:
    D = U diag(s) VH with U and VH unitary, s in descending order, and the entries of
    s that do not pass the threshold are exactly zero *)
Definition svd_exact (svd : nat -> nat -> seq R -> seq R * seq R * seq R) (big : pred R)
    (m n : nat) (D : seq R) : Prop :=
  let: (U, s, VH) := svd m n D in
  let Um := unflat m m U in let Vm := unflat n n VH in
  let H A := ftr (fconj conj A) in
  [/\ [/\ size s = minn m n, size U = (m * m)%N & size VH = (n * n)%N],
      [/\ meq (fmul (H Um) Um) (fid R m), meq (fmul Vm (H Vm)) (fid R n) & meq (fmul (H Vm) Vm) (fid R n)],
      meq (unflat m n D) (fmul Um (fmul (FM m n (fun i j => if i == j then nth 0 s i else 0)) Vm)) &
      [/\ forall i j, (i < j)%N -> (j < size s)%N -> big (nth 0 s j) -> big (nth 0 s i),
          forall x, x \in s -> big x -> exists t, t * x = 1 &
          forall x, x \in s -> ~~ big x -> x = 0]].

Variables (gdim : gid -> nat).
(** the element of the product of all groups that is h in the group g and the identity in
    the others; the Lie algebra element that is A for g and 0 for the others *)
Definition elemG (g : gid) (h : op R) : gel R :=
  GDict (fun g' => Some (if g' == g then h else OI R (gdim g'))).
Definition elemL (g : gid) (A : op R) : gel R :=
  GDict (fun g' => Some (if g' == g then A else OArr (gdim g') (gdim g') (nseq (gdim g' * gdim g') 0))).

(** matrix times vector on flat data *)
Definition matvec (m n : nat) (D v : seq R) : seq R := flat (fmul (unflat m n D) (unflat n 1 v)).

(** Q is an n x k array with orthonormal columns that span the null space of the m x n array D *)
Definition null_basis (m n : nat) (D : seq R) (k : nat) (Q : seq R) : Prop :=
  let Qm := unflat n k Q in let QH := ftr (fconj conj Qm) in
  [/\ size Q = (n * k)%N, meq (fmul QH Qm) (fid R k) &
      forall v, size v = n -> matvec m n D v = nseq m 0 <-> matvec n n (flat (fmul Qm QH)) v = v].

Variables (sinv : R -> R) (linv : nat -> seq R -> seq R).
Variables (crho cdrho : nat -> option gid -> gel R -> res (op R)).
Variables (csize : nat -> gid -> nat) (gs : pred gid) (gens lies : gid -> seq (op R)).
Variables (svd : nat -> nat -> seq R -> seq R * seq R * seq R) (big : pred R).
Variable krylov : op R -> res (darr R).

(** the numerical solvers are exact on the system solved for the representation c: the
    SVD on the dense constraint matrix, the iterative solver when that is too large *)
Definition solver_ok (c : rep) : Prop :=
  forall C m n D, constraint_matrix sinv linv crho cdrho gdim csize gens lies c = Ok C ->
    to_dense conj C = Ok (m, n, D) ->
    if too_large C then exists k Q, krylov C = Ok (n, k, Q) /\ null_basis m n D k Q
    else svd_exact svd big m n D.

(** the systems that equivariant_basis solves for r: one per factor of a mixed product and
    per summand of a sum *)
Definition systems_ns (r : rep) : seq rep :=
  match r with
  | RScalar => [::]
  | RDir d _ => keys d
  | RProd d _ => [:: RProd d (iota 0 (rsize gdim csize r))]
  | _ => [:: r]
  end.
Definition systems (r : rep) : seq rep :=
  if r is RSum d p then flatten [seq systems_ns k | k <- keys d] else systems_ns r.

(** v is fixed by every discrete generator and killed by every Lie algebra generator of the
    groups gs, acting through rho and drho of r *)
Definition invariant (r : rep) (v : seq R) : Prop :=
  let n := rsize gdim csize r in
  (forall g h, gs g -> List.In h (gens g) ->
     exists2 D, rho_dense conj sinv linv crho r (elemG g h) = Ok (n, n, D) & matvec n n D v = v) /\
  (forall g A, gs g -> List.In A (lies g) ->
     exists2 D, drho_dense conj cdrho r (elemL g A) = Ok (n, n, D) & matvec n n D v = nseq n 0).

(** every factor of a mixed product has a nonzero invariant vector *)
Definition factors_nonzero (r : rep) : Prop :=
  forall d p k, (RDir d p) \in (if r is RSum ds _ then keys ds else [:: r]) -> k \in keys d ->
    exists v, [/\ size v = rsize gdim csize k, invariant k v & v <> nseq (size v) 0].

(** the generators of the groups gs are elements on which rho and drho of the atoms are
    defined, and user-defined representations send the identity to the identity and 0 to 0 *)
Definition generators_ok : Prop :=
  [/\ forall g h, gs g -> List.In h (gens g) -> group_elem conj sinv linv crho gdim csize gs (elemG g h),
      forall g A, gs g -> List.In A (lies g) -> lie_elem conj cdrho gdim csize gs (elemL g A),
      forall c g C, gs g -> crho c (Some g) (GMat (OI R (gdim g))) = Ok C -> meq (den C) (fid R (csize c g)) &
      forall c g C, gs g ->
        cdrho c (Some g) (GMat (OArr (gdim g) (gdim g) (nseq (gdim g * gdim g) 0))) = Ok C ->
        meq (den C) (fzero R (csize c g) (csize c g))].
(** complex conjugation *)
Definition conj_ok : Prop :=
  [/\ forall x y, conj (x * y) = conj x * conj y, forall x, conj (conj x) = x, conj 0 = 0 & conj 1 = 1].
End S.
