(** * ExGroups3: two groups and their product, for the example beside C38. *)
From Coq Require Import String.
From mathcomp Require Import all_ssreflect all_algebra.
From Verif Require Import Np Spec SpecLemmas LinOp LinOpSpec LinOpMore LinOpInv Rep RepSpec RepWf RepExpr RepThm DrhoThm RepCode ExRep Solver SolSpec ExSol.
From Verif Require Import Groups GroupsSpec GroupsInit GroupsCtor GroupsThm GroupsProd.
Set Implicit Arguments.
Unset Strict Implicit.
Unset Printing Implicit Defensive.
Import GRing.Theory.
Local Open Scope ring_scope.

Definition yes (a b : seq R0) : bool := true.
(** the group generated by a shear, and the one whose Lie algebra is spanned by (0 1; 0 0) *)
Definition shearG : group R0 :=
  Grp "Shear" (Some 2%N) (GArr (zeros R0 [:: 0; 2; 2]%N)) (GArr (ND [:: 1; 2; 2]%N [:: 1; 1; 0; 1])) false false None.
Definition nilG : group R0 :=
  Grp "Nil" (Some 2%N) (GArr (ND [:: 1; 2; 2]%N [:: 0; 1; 0; 0])) (GArr (zeros R0 [:: 0; 2; 2]%N)) false false None.
Definition prodG : group R0 := if g_prod idz yes shearG nilG is Ok G then G else shearG.
Definition fam (g : gid) : group R0 := if g == 0%N then shearG else if g == 1%N then nilG else prodG.
Definition famd (g : gid) : nat := if (g < 2)%N then 2%N else 4%N.

Lemma fam_gens : generators_ok idz famd idz (@linv2 R0) (@cr1 R0) (@cd1 R0) cs1 (predU (pred1 0%N) (pred1 1%N))
  (fun g => gitems (g_gens (fam g))) (fun g => gitems (g_lie (fam g))).
Proof.
split.
- move=> g h /orP[] /eqP -> //= [<-|//] g' Hg' /=; eexists; first by [].
  have D : famd g' = 2%N by case/orP: Hg' => /eqP ->.
  split; first by rewrite D; case: ifP => _; [apply: inv_shear | apply: inv_I].
  by move=> c; exists (OArr 1 1 [:: 1]) => //; split=> //; apply: inv11.
- move=> g A /orP[] /eqP -> //= [<-|//] g' Hg' /=; eexists; first by [].
  have D : famd g' = 2%N by case/orP: Hg' => /eqP ->.
  split; first by rewrite D; case: ifP => _; apply: lie_arr.
  by move=> c; exists (OArr 1 1 [:: 0]) => //; split=> //; apply: lie_arr.
- by move=> c g C _ [<-]; split=> //= -[|i] [|j].
by move=> c g C _ [<-]; split=> //= -[|i] [|j].
Qed.
Lemma fam_usable g : g \in [:: 0; 1]%N -> usable idz (famd g) (fam g).
Proof.
rewrite !inE => /orP[] /eqP -> /=; split=> //; try exact: (@gok_arr _ _ 1); exact: (@gok_arr _ _ 0).
Qed.
Lemma fam_prod : g_prod idz yes (fam 0%N) (fam 1%N) = Ok (fam 2%N).
Proof.
have [||//|G E _] := @prod_ok R0 idz yes 2 2 shearG nilG; [exact: (@fam_usable 0%N) | exact: (@fam_usable 1%N) |].
by rewrite /fam /= /prodG E.
Qed.
