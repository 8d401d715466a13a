(** * PropFlags: C79, what is_orthogonal and is_permutation mean, and their values for the groups. *)
From Coq Require Import Reals String.
From mathcomp Require Import all_ssreflect all_algebra.
From Verif Require Import Np Spec SpecLemmas LinOp Rstruct Expm GrpSpec Groups GroupsSpec GroupsSpecR GroupsFlag GroupsReal GroupsPerm GroupsTol GroupsThm ExactSpec FlagThm.
Set Implicit Arguments.
Unset Strict Implicit.
Unset Printing Implicit Defensive.
Import GRing.Theory.
Local Open Scope ring_scope.

(** C79.  With exact comparisons Group.__init__ sets is_orthogonal exactly if every matrix of
    the group is orthogonal.  is_permutation is set exactly if there is no Lie algebra basis and
    every discrete generator is a permutation matrix, and then the group consists of
    permutation matrices *)
Theorem C79_orthogonal d (G : group RR) : tested d G ->
  g_orth G <-> forall X, in_group d (lmats G) (gmats G) X -> orthm d X.
Proof. exact: orth_iff. Qed.
Theorem C79_permutation d (G : group RR) : tested d G ->
  g_perm G <-> lmats G = [::] /\ forall h, List.In h (gmats G) -> isperm d h.
Proof. exact: perm_iff. Qed.
Theorem C79_orthogonal_exact x d P G : exact_group x d P -> x = Ok G -> tested d G ->
  g_orth G <-> forall A, fr A = d -> fc A = d -> P A -> isometry (fid RR d) A.
Proof. exact: orth_exact. Qed.
Theorem C79_permutation_exact x d P G : exact_group x d P -> x = Ok G -> tested d G -> lmats G = [::] ->
  g_perm G <-> forall A, fr A = d -> fc A = d -> P A -> isperm d A.
Proof. exact: perm_exact. Qed.
Print Assumptions C79_orthogonal.
Print Assumptions C79_permutation.
Print Assumptions C79_orthogonal_exact.
Print Assumptions C79_permutation_exact.

(** the values of the two flags for the groups of groups.py *)
Local Notation same := (@GroupsFlag.same RR).
Theorem C79_permutation_groups n : (1 < n)%N ->
  [/\ flags (g_s idR same n) true true, flags (g_z idR same n) true true, flags (g_trivial idR same n) true true,
      flags (g_cube idR same) true true & flags (g_rubik idR same) true true].
Proof.
by move=> n1; split; [exact: flags_s | exact: flags_z (ltnW n1) | exact: flags_trivial | exact: flags_cube | exact: flags_rubik].
Qed.
Theorem C79_orthogonal_groups n : (1 < n)%N ->
  [/\ flags (g_so idR same n) true false, flags (g_o idR same n) true false, flags (g_c idR cosR sinR same n) true false,
      flags (g_parity idR same) true false & flags (g_time idR same) true false].
Proof.
move=> n1; have n0 := ltnW n1; have := flags_c n0; rewrite (gtn_eqF n1) => C.
by split; [exact: flags_so | exact: flags_o n0 | exact C | exact: flags_parity | exact: flags_time].
Qed.
Theorem C79_other_groups recip name n : (1 < n)%N ->
  [/\ flags (g_sl idR same n) false false, flags (g_gl idR same n) false false, flags (g_scaling idR same n) false false,
      flags (g_sp idR same n) false false &
      [/\ flags (g_so13p idR recip same) false false, flags (g_so13 idR recip same) false false,
          flags (g_o13_as idR recip same name) false false, flags (g_so11p idR same) false false & flags (g_o11 idR same) false false]].
Proof.
move=> n1; have n0 := ltnW n1; split; [exact: flags_sl | exact: flags_gl | exact: flags_scaling | exact: flags_sp |].
by split; [exact: flags_so13p | exact: flags_so13 | exact: flags_o13 | exact: flags_so11p | exact: flags_o11].
Qed.
(** the group C(1) of one rotation by a full turn is flagged as a permutation group *)
Theorem C79_c1 : flags (g_c idR cosR sinR same 1) true true.
Proof. exact: (@flags_c 1). Qed.
Print Assumptions C79_permutation_groups.
Print Assumptions C79_orthogonal_groups.
Print Assumptions C79_other_groups.
Print Assumptions C79_c1.
(** S(3) is tested and exact *)
Example C79_example : exists G, [/\ g_s idR same 3 = Ok G, tested 3 G,
  exact_group (g_s idR same 3) 3 (fun X => exists2 p, is_perm 3 p & meq X (perm_mat RR 3 p)) & lmats G = [::]].
Proof. exact: tested_example. Qed.
