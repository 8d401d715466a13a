(** * PropConstraint: C24 and C25, the constraint matrix against the whole group. *)
From Coq Require Import Reals.
From mathcomp Require Import all_ssreflect all_algebra.
From Verif Require Import Np Spec LinOp LinOpSpec Rep RepSpec RepWf RepThm Solver SolSpec SolThm Rstruct Expm GrpSpec GrpProofs GrpThm ExGrp.
Set Implicit Arguments.
Unset Strict Implicit.
Unset Printing Implicit Defensive.
Import GRing.Theory.
Local Open Scope ring_scope.

Section Con.
Variables (sinv : RR -> RR) (linv : nat -> seq RR -> seq RR).
Variables (crho cdrho : nat -> option gid -> gel RR -> res (op RR)).
Variables (gdim : gid -> nat) (csize : nat -> gid -> nat) (le : rel rep) (gs : pred gid).
Variables (gens lies : gid -> seq (op RR)).
Variables (svd : nat -> nat -> seq RR -> seq RR * seq RR * seq RR) (big : pred RR).
Variable krylov : op RR -> res (darr RR).
Local Notation sz := (rsize gdim csize).
Local Notation wfr := (wfr gdim csize le gs).
Local Notation customs_ok := (customs_ok sinv linv crho cdrho gdim csize gs).
Local Notation generators_ok := (generators_ok idR gdim sinv linv crho cdrho csize gs gens lies).
Local Notation total_order := (total_order_on (key gdim csize le gs) le).
Local Notation solver_ok := (solver_ok idR gdim sinv linv crho cdrho csize gens lies svd big krylov).
Local Notation basis := (basis idR sinv linv crho cdrho gdim csize le gens lies svd big krylov).
Local Notation factors_nonzero := (factors_nonzero idR gdim sinv linv crho cdrho csize gs gens lies).
Local Notation constraint_matrix := (constraint_matrix sinv linv crho cdrho gdim csize gens lies).
Local Notation generated := (generated gdim gs gens lies).
Local Notation elem_is := (elem_is sinv linv gdim gs).
Local Notation group_invariant := (group_invariant sinv linv crho gdim csize gs gens lies).

(** C24.  The constraint matrix C of a representation with an attribute G exists; every
    vector with C @ v = 0 is fixed by rho(M) for every M in the group generated by the
    discrete generators and the exponentials of the Lie algebra. *)
Theorem C24_constraint_sound r g : linv_ok linv -> customs_ok -> generators_ok -> wfr r -> gattr r = Some (Some g) ->
  exists C m, [/\ constraint_matrix r = Ok C, shape C = (m, sz r) &
    forall v, size v = sz r -> matmat idR C 1 v = Ok (nseq m 0) -> group_invariant r v].
Proof. move=> h1 h2 h3; exact: (constraint_sound h1 h2 h3). Qed.

(** C25.  The converse. *)
Theorem C25_constraint_complete r g : linv_ok linv -> customs_ok -> generators_ok -> wfr r -> gattr r = Some (Some g) ->
  exists C m, [/\ constraint_matrix r = Ok C, shape C = (m, sz r) &
    forall v, size v = sz r -> group_invariant r v -> matmat idR C 1 v = Ok (nseq m 0)].
Proof. move=> h1 h2 h3; exact: (constraint_complete h1 h2 h3). Qed.

(** sums, mixed products and Scalar have no group attribute with generators: the call fails *)
Theorem C24_constraint_undefined r : wfr r -> (forall g, gattr r <> Some (Some g)) ->
  constraint_matrix r = Err AttributeError.
Proof. exact: constraint_err. Qed.

(** the elements quantified over in group_invariant are there: each element of the
    generated group is a family of invertible matrices on which rho is defined *)
Theorem C24_elements X r : linv_ok linv -> customs_ok -> generators_ok -> wfr r -> generated X ->
  exists2 M, elem_is M X & exists D, rho_dense idR sinv linv crho r M = Ok (sz r, sz r, D).
Proof. move=> h1 h2 h3; exact: (group_elements h1 h2 h3). Qed.

(** for all representations, sums and mixed products included, the invariants computed by
    equivariant_basis are those of the whole group *)
Theorem C25_basis_whole_group r : linv_ok linv -> customs_ok -> generators_ok -> total_order -> wfr r ->
  (forall c, c \in systems gdim csize r -> solver_ok c) -> factors_nonzero r ->
  exists B k Q, [/\ basis r = Ok B, to_dense idR B = Ok (sz r, k, Q) &
    forall v, size v = sz r -> group_invariant r v <-> exists2 w, size w = k & matmat idR B 1 w = Ok v].
Proof. move=> h1 h2 h3; exact: (basis_whole_group h1 h2 h3). Qed.
End Con.

(** the hypotheses hold for the reflected shears of the plane; (1,0) is invariant under the
    whole group, and the constraint matrix rejects (0,1) *)
Example C24_example :
  [/\ linv_ok linvE, customs_ok exsinv linvE excr excr exdim excsz exgs,
      generators_ok idR exdim exsinv linvE excr excr excsz exgs exgens exlies &
      RepWf.wfr exdim excsz (fun _ _ => true) exgs exV /\ gattr exV = Some (Some 0%N)] /\
  group_invariant exsinv linvE excr exdim excsz exgs exgens exlies exV [:: 1; 0] /\
  ~ group_invariant exsinv linvE excr exdim excsz exgs exgens exlies exV [:: 0; 1].
Proof. exact: ex_group. Qed.

Print Assumptions C24_constraint_sound.
Print Assumptions C24_constraint_undefined.
Print Assumptions C24_elements.
Print Assumptions C25_constraint_complete.
Print Assumptions C25_basis_whole_group.
Print Assumptions C24_example.
