(** * GrpThm: the statements of C24 and C25. *)
From Coq Require Import Reals.
From mathcomp Require Import all_ssreflect all_algebra.
From Verif Require Import Np Spec LinOp LinOpSpec Rep RepSpec RepWf RepThm Solver SolSpec SolThm Rstruct Expm GrpSpec GrpProofs ExGrp.
Set Implicit Arguments.
Unset Strict Implicit.
Unset Printing Implicit Defensive.
Import GRing.Theory.
Local Open Scope ring_scope.

Section Con.
Variables (sinv : RR -> RR) (linv : nat -> seq RR -> seq RR).
Variables (crho cdrho : nat -> option gid -> gel RR -> res (op RR)).
Variables (gdim : gid -> nat) (csize : nat -> gid -> nat) (le : rel rep) (gs : pred gid).
Variables (gens lies : gid -> seq (op RR)).
Variables (svd : nat -> nat -> seq RR -> seq RR * seq RR * seq RR) (big : pred RR).
Variable krylov : op RR -> res (darr RR).
Local Notation sz := (rsize gdim csize).
Local Notation wfr := (wfr gdim csize le gs).
Local Notation customs_ok := (customs_ok sinv linv crho cdrho gdim csize gs).
Local Notation generators_ok := (generators_ok idR gdim sinv linv crho cdrho csize gs gens lies).
Local Notation solver_ok := (solver_ok idR gdim sinv linv crho cdrho csize gens lies svd big krylov).
Local Notation basis := (basis idR sinv linv crho cdrho gdim csize le gens lies svd big krylov).
Local Notation constraint_matrix := (constraint_matrix sinv linv crho cdrho gdim csize gens lies).
Local Notation generated := (generated gdim gs gens lies).
Local Notation elem_is := (elem_is sinv linv gdim gs).
Local Notation group_invariant := (group_invariant sinv linv crho gdim csize gs gens lies).
Hypothesis HLI : linv_ok linv.
Hypothesis HC : customs_ok.
Hypothesis HGen : generators_ok.

Lemma constraint_sound r g : wfr r -> gattr r = Some (Some g) ->
  exists C m, [/\ constraint_matrix r = Ok C, shape C = (m, sz r) &
    forall v, size v = sz r -> matmat idR C 1 v = Ok (nseq m 0) -> group_invariant r v].
Proof.
move=> W E; have [C [m [h1 h2 h3]]] := constraint_inv HGen W E; exists C, m; split=> // v S.
by move/(proj1 (h3 v S)); apply: (invariant_group HLI HC HGen W S).
Qed.
Lemma constraint_complete r g : wfr r -> gattr r = Some (Some g) ->
  exists C m, [/\ constraint_matrix r = Ok C, shape C = (m, sz r) &
    forall v, size v = sz r -> group_invariant r v -> matmat idR C 1 v = Ok (nseq m 0)].
Proof.
move=> W E; have [C [m [h1 h2 h3]]] := constraint_inv HGen W E; exists C, m; split=> // v S H.
by apply: (proj2 (h3 v S)); apply: (group_invariant_inv HLI HC HGen W S).
Qed.
Lemma group_elements X r : wfr r -> generated X ->
  exists2 M, elem_is M X & exists D, rho_dense idR sinv linv crho r M = Ok (sz r, sz r, D).
Proof.
move=> W G; have I := fel_is HLI HGen G; exists (fel gdim X) => //.
eexists; exact: rho_dense_ok (is_elem HC I) W.
Qed.
Lemma basis_whole_group r : total_order_on (key gdim csize le gs) le -> wfr r ->
  (forall c, c \in systems gdim csize r -> solver_ok c) ->
  factors_nonzero idR gdim sinv linv crho cdrho csize gs gens lies r ->
  exists B k Q, [/\ basis r = Ok B, to_dense idR B = Ok (sz r, k, Q) &
    forall v, size v = sz r -> group_invariant r v <-> exists2 w, size w = k & matmat idR B 1 w = Ok v].
Proof.
move=> O W HS F; case: (HGen) => HG HL h1 h0.
have [B [k [Q [E D _ H]]]] := @basis_thm RR idR sinv linv crho cdrho gdim csize le gs gens lies svd big krylov
  (fun _ _ => erefl) (fun _ => erefl) erefl erefl HG HL h1 h0 O r W HS F.
exists B, k, Q; split=> // v S.
rewrite -(H v S); split; [exact: (group_invariant_inv HLI HC HGen W S) | exact: (invariant_group HLI HC HGen W S)].
Qed.
End Con.

Lemma ex_group :
  [/\ linv_ok linvE, customs_ok exsinv linvE excr excr exdim excsz exgs,
      generators_ok idR exdim exsinv linvE excr excr excsz exgs exgens exlies &
      RepWf.wfr exdim excsz (fun _ _ => true) exgs exV /\ gattr exV = Some (Some 0%N)] /\
  group_invariant exsinv linvE excr exdim excsz exgs exgens exlies exV [:: 1; 0] /\
  ~ group_invariant exsinv linvE excr exdim excsz exgs exgens exlies exV [:: 0; 1].
Proof.
have W : RepWf.wfr exdim excsz (fun _ _ => true) exgs exV by [].
split; first by split=> //; [exact: linvE_ok | exact: ex_customs | exact: ex_generators].
split; first exact (@invariant_group _ _ _ _ _ _ _ _ _ _ linvE_ok ex_customs ex_generators exV [:: 1; 0] W erefl ex_inv).
move=> H; exact: ex_noninv (@group_invariant_inv _ _ _ _ _ _ _ _ _ _ linvE_ok ex_customs ex_generators exV [:: 0; 1] W erefl H).
Qed.
