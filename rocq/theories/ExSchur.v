(** * ExSchur: the examples of the claims of PropSchur. *)
From Coq Require Import Reals Lra String.
From mathcomp Require Import all_ssreflect all_algebra.
From mathcomp Require Import zify.
From Verif Require Import Np NpLemmas Spec LinOp Rep RepSpec Solver Rstruct Expm GrpSpec Groups GroupsSpec DataGroups GroupsCtor GroupsFlag GroupsReal ExactSpec FlagThm Nn NnSpec NnThm Data DataSpec ExGrp ExNn ExData ExData2 SvdReal DimSpec DimTenSpec ExDim.
Set Implicit Arguments.
Unset Strict Implicit.
Unset Printing Implicit Defensive.
Import GRing.Theory.
Local Open Scope ring_scope.

Lemma u_sl n : (1 < n)%N -> exists G, usable_as (g_sl idR (@same RR) n) n G.
Proof.
move=> n1; have [a Ea B] := sl_ok idR (@same RR) n1; have [G0 E _] := B.
apply: (u_tested _ E); first exact: ltnW.
by move: B E; rewrite /g_sl Ea bindOk => B E; exact: built_tested B erefl erefl E.
Qed.
Lemma u_gl n : (0 < n)%N -> exists G, usable_as (g_gl idR (@same RR) n) n G.
Proof.
case: n => // n _; have [a Ea B] := gl_ok idR (@same RR) n; have [G0 E _] := B.
apply: (u_tested _ E) => //.
by move: B E; rewrite /g_gl Ea bindOk => B E; exact: built_tested B erefl erefl E.
Qed.
Lemma u_scaling n : (0 < n)%N -> exists G, usable_as (g_scaling idR (@same RR) n) n G.
Proof.
move=> n0; have B := scaling_ok idR (@same RR) n; have [G0 E _] := B.
by apply: (u_tested n0 E); exact: built_tested B erefl erefl E.
Qed.
Lemma u_so13p recip : exists G, usable_as (g_so13p idR recip (@same RR)) 4 G.
Proof.
have [a Ea B] := so13p_ok idR recip (@same RR); have [G0 E _] := B.
exact: (u_tested (isT : (0 < 4)%N) E (so13p_tested E)).
Qed.
Lemma u_so13 recip : exists G, usable_as (g_so13 idR recip (@same RR)) 4 G.
Proof.
have [a Ea B] := so13_ok idR recip (@same RR); have [G0 E _] := B.
exact: (u_tested (isT : (0 < 4)%N) E (so13_tested E)).
Qed.
Lemma u_o11 : exists G, usable_as (g_o11 idR (@same RR)) 2 G.
Proof.
have [h Eh B] := o11_ok idR (@same RR); have [G0 E _] := B.
apply: (u_tested (isT : (0 < 2)%N) E); move: (B) (E); rewrite /g_o11 Eh bindOk => B' E'; exact: built_tested B' erefl erefl E'.
Qed.
