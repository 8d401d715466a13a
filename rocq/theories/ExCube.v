(** * ExCube: the examples of the claims on InvertedCube and BrokenRubiksCube. *)
From Coq Require Import Reals String.
From mathcomp Require Import all_ssreflect all_algebra.
From mathcomp Require Import zify.
From Verif Require Import Np NpLemmas Spec SpecLemmas LinOp LinOpSpec LinOpInv Rep RepSpec Rstruct Expm GrpSpec GrpProofs.
From Verif Require Import Groups GroupsSpec GroupsPerm GroupsSpecR ExactSpec GroupsExact GroupsExactD RubikSpec GroupsRubikG DataCube DataCubeThm DataCubeSets ExData2.
Set Implicit Arguments.
Unset Strict Implicit.
Unset Printing Implicit Defensive.
Import GRing.Theory.
Local Open Scope ring_scope.

Lemma ready_perm x n (P : fmat RR -> Prop) : (0 < n)%N -> exact_group x n P ->
  (forall X, P X -> exists2 p, is_perm n p & meq X (perm_mat RR n p)) -> ready x n.
Proof.
move=> n0 HX HP; apply: (ready_iso n0 HX) => X _ _ /HP[p Pp E].
apply: meq_trans (perm_isometry Pp); have [x1 x2 _] := E.
by apply: meq_fmul; [exact: meq_ftr | exact: meq_fmul | rewrite /= x1].
Qed.
Lemma ready_rubik close : ready (g_rubik idR close) 48.
Proof. by apply: (ready_perm (isT : 0 < 48)%N (exact_rubik idR close)) => X [p [Pp _] [E _]]; exists p. Qed.
Lemma ready_cube close : ready (g_cube idR close) 6.
Proof. by apply: (ready_perm (isT : 0 < 6)%N (exact_cube idR close)) => X [p /and3P[Pp _ _] E]; exists p. Qed.
Lemma solved_one_hot : one_hot (fun x => x %/ 8)%N (solved_state RR).
Proof. exact: solved_hot. Qed.
