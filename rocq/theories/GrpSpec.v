(** * GrpSpec: the group generated by the discrete generators, their inverses and the
    exponentials of the Lie algebra; real scalars. *)
From Coq Require Import Reals.
From mathcomp Require Import all_ssreflect all_algebra.
From Verif Require Import Np Spec LinOp LinOpSpec Rep RepSpec Solver SolSpec Rstruct Expm.
Set Implicit Arguments.
Unset Strict Implicit.
Unset Printing Implicit Defensive.
Import GRing.Theory.
Local Open Scope ring_scope.

(** conjugation of real numbers *)
Definition idR (x : RR) : RR := x.

Section S.
Variables (sinv : RR -> RR) (linv : nat -> seq RR -> seq RR).
Variables (crho cdrho : nat -> option gid -> gel RR -> res (op RR)).
Variables (gdim : gid -> nat) (csize : nat -> gid -> nat) (gs : pred gid).
Variables (gens lies : gid -> seq (op RR)).

(** jnp.linalg.inv inverts every invertible matrix *)
Definition linv_ok : Prop := forall n (X Y : fmat RR), fr X = n -> fc X = n -> fr Y = n -> fc Y = n ->
  meq (fmul X Y) (fid RR n) -> meq (fmul Y X) (fid RR n) ->
  size (linv n (flat X)) = (n * n)%N /\ meq (unflat n n (linv n (flat X))) Y.

(** the Lie algebra generated by G.lie_algebra: linear combinations and commutators *)
Inductive lie_alg (g : gid) : fmat RR -> Prop :=
| LA_gen (A : op RR) X : List.In A (lies g) -> meq X (den A) -> lie_alg g X
| LA_lin (c : RR) X Y Z : lie_alg g X -> lie_alg g Y -> meq Z (fadd (fscale c X) Y) -> lie_alg g Z
| LA_br X Y Z : lie_alg g X -> lie_alg g Y -> meq Z (fsub (fmul X Y) (fmul Y X)) -> lie_alg g Z.

(** X is the identity in all groups but g *)
Definition at_group (g : gid) (X : gid -> fmat RR) : Prop :=
  forall g', gs g' -> g' <> g -> meq (X g') (fid RR (gdim g')).

(** the subgroup of the product of the groups gs generated by the discrete generators, the
    exponentials of the Lie algebras, products and inverses *)
Inductive generated : (gid -> fmat RR) -> Prop :=
| G_one X : (forall g, gs g -> meq (X g) (fid RR (gdim g))) -> generated X
| G_gen g h X : gs g -> List.In h (gens g) -> meq (X g) (den h) -> at_group g X -> generated X
| G_exp g A X : gs g -> lie_alg g A -> is_exp (gdim g) A (X g) -> at_group g X -> generated X
| G_mul X Y Z : generated X -> generated Y ->
    (forall g, gs g -> meq (Z g) (fmul (X g) (Y g))) -> generated Z
| G_inv X Y : generated X ->
    (forall g, gs g -> fr (Y g) = gdim g /\ meq (fmul (X g) (Y g)) (fid RR (gdim g))) -> generated Y.

(** rho of user-defined classes is a homomorphism on the invertible matrices, drho is
    linear, respects commutators and is the derivative of rho along exponentials *)
Definition customs_ok : Prop :=
  [/\ (forall M, (forall g, gs g -> exists2 A, glook M (Some g) = Ok A & invertible idR sinv linv (gdim g) A) ->
         group_elem idR sinv linv crho gdim csize gs M) /\
      (forall M, (forall g, gs g -> exists2 A, glook M (Some g) = Ok A & gop idR (gdim g) A /\ gop idR (gdim g) (neg (transpose A))) ->
         lie_elem idR cdrho gdim csize gs M),
      forall c g A1 A2 A3 C1 C2 C3, gs g ->
        [/\ invertible idR sinv linv (gdim g) A1, invertible idR sinv linv (gdim g) A2 & invertible idR sinv linv (gdim g) A3] ->
        [/\ crho c (Some g) (GMat A1) = Ok C1, crho c (Some g) (GMat A2) = Ok C2 & crho c (Some g) (GMat A3) = Ok C3] ->
        meq (den A3) (fmul (den A1) (den A2)) -> meq (den C3) (fmul (den C1) (den C2)),
      forall c g A C (E F : R -> op RR), gs g ->
        [/\ gop idR (gdim g) A, cdrho c (Some g) (GMat A) = Ok C,
            forall t, invertible idR sinv linv (gdim g) (E t) & forall t, crho c (Some g) (GMat (E t)) = Ok (F t)] ->
        (forall t, is_exp (gdim g) (fscale t (den A)) (den (E t))) ->
        forall i j, (i < csize c g)%N -> (j < csize c g)%N ->
          derivable_pt_lim (fun t => fe (den (F t)) i j) R0 (fe (den C) i j) &
      forall c g (a : RR) A1 A2 A3 C1 C2 C3, gs g ->
        [/\ gop idR (gdim g) A1, gop idR (gdim g) A2 & gop idR (gdim g) A3] ->
        [/\ cdrho c (Some g) (GMat A1) = Ok C1, cdrho c (Some g) (GMat A2) = Ok C2 & cdrho c (Some g) (GMat A3) = Ok C3] ->
        (meq (den A3) (fadd (fscale a (den A1)) (den A2)) -> meq (den C3) (fadd (fscale a (den C1)) (den C2))) /\
        (meq (den A3) (fsub (fmul (den A1) (den A2)) (fmul (den A2) (den A1))) ->
         meq (den C3) (fsub (fmul (den C1) (den C2)) (fmul (den C2) (den C1))))].

(** [M] is the element X *)
Definition elem_is (M : gel RR) (X : gid -> fmat RR) : Prop :=
  forall g, gs g -> exists2 A, glook M (Some g) = Ok A & invertible idR sinv linv (gdim g) A /\ meq (den A) (X g).

(** v is fixed by rho(M) for every element M of the group *)
Definition group_invariant (r : rep) (v : seq RR) : Prop :=
  forall M X, generated X -> elem_is M X ->
    exists2 D, rho_dense idR sinv linv crho r M = Ok (rsize gdim csize r, rsize gdim csize r, D) &
      matvec (rsize gdim csize r) (rsize gdim csize r) D v = v.
End S.
