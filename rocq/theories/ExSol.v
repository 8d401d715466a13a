(** * ExSol: concrete groups with generators for the examples beside the solver theorems. *)
From mathcomp Require Import all_ssreflect all_algebra.
From Verif Require Import Np Spec SpecLemmas LinOp LinOpSpec LinOpMore LinOpInv Cplx Rep RepSpec RepWf RepExpr RepThm DrhoThm DualNum RepCode ExRep Solver SolSpec.
Set Implicit Arguments.
Unset Strict Implicit.
Unset Printing Implicit Defensive.
Import GRing.Theory.
Local Open Scope ring_scope.

Section Ex.
Variable R : comRingType.
Variable conj : R -> R.
Local Notation sinv := (fun x : R => x).
(** the group 0 is generated by the shear (1 1; 0 1), the group 1 by the Lie algebra
    element (0 1; 0 0), the group 2 by (0 1; -1 0) *)
Definition exg (g : gid) : seq (op R) := if g == 0%N then [:: OArr 2 2 [:: 1; 1; 0; 1]] else [::].
Definition exl (g : gid) : seq (op R) :=
  if g == 1%N then [:: OArr 2 2 [:: 0; 1; 0; 0]] else
  if g == 2%N then [:: OArr 2 2 [:: 0; 1; -1; 0]] else [::].
(** a singular value decomposition of (0 1; 0 0) and (0 1; -1 0) *)
Definition exsvd (m n : nat) (D : seq R) : seq R * seq R * seq R :=
  if D == [:: 0; 1; -1; 0] then (D, [:: 1; 1], [:: 1; 0; 0; 1])
  else ([:: 1; 0; 0; 1], [:: 1; 0], [:: 0; 1; 1; 0]).
Definition exbig : pred R := fun x => x == 1.
Definition exkry (C : op R) : res (darr R) := Err ValueError.

Lemma inv_I n : invertible conj sinv (@linv2 R) n (OI R n).
Proof.
split; first by split=> //; left.
exists (OI R n) => //; split; first by split=> //; left.
exact: invTn_is (invTn_id _ n).
Qed.
Lemma ex_gens (gs : pred gid) : generators_ok conj gd2 sinv (@linv2 R) (@cr1 R) (@cd1 R) cs1 gs exg exl.
Proof.
split.
- move=> g h _; rewrite /exg; case: eqP => // -> [<-|//] g' _ /=; eexists; first by [].
  split; first by case: ifP => _; [apply: inv_shear | apply: inv_I].
  by move=> c; exists (OArr 1 1 [:: 1]) => //; split=> //; apply: inv11.
- move=> g A _; have L : forall D : seq R, size D = 4%N -> forall g', glook (elemL gd2 g (OArr 2 2 D)) (Some g') =
      Ok (if g' == g then OArr 2 2 D else OArr 2 2 (nseq 4 0)) by [].
  have lie D : size D = 4%N -> lie_elem conj (@cd1 R) gd2 cs1 gs (elemL gd2 g (OArr 2 2 D)).
    move=> SD g' _; eexists; first exact: L.
    split; first by case: ifP => _; apply: lie_arr.
    by move=> c; exists (OArr 1 1 [:: 0]) => //; split=> //; apply: lie_arr.
  by rewrite /exl; case: ifP => _ /=; [case=> [<-|//] | case: ifP => _ //= [<-|//]]; apply: lie.
- by move=> c g C _ [<-]; split=> //= -[|i] [|j].
by move=> c g C _ [<-]; split=> //= -[|i] [|j].
Qed.
End Ex.

Definition R0 := int_comRing.
Definition sol_z := solver_ok idz gd2 idz (@linv2 R0) (@cr1 R0) (@cd1 R0) cs1 (@exg R0) (@exl R0) (@exsvd R0) (@exbig R0) (@exkry R0).
Definition cmat_z := constraint_matrix idz (@linv2 R0) (@cr1 R0) (@cd1 R0) gd2 cs1 (@exg R0) (@exl R0).
Definition V1' : rep := RBase (Some 1%N).
Definition V2' : rep := RBase (Some 2%N).

Lemma svd_shear : svd_exact idz (@exsvd R0) (@exbig R0) 2 2 [:: 0; 1; 0; 0].
Proof.
split=> //.
- by split; split=> //= -[|[|i]] [|[|j]] //= _ _; rewrite !big_nat_recr //= big_geq.
- by split=> //= -[|[|i]] [|[|j]] //= _ _; rewrite !big_nat_recr //= !big_geq.
- by split=> //; [case=> [|[|i]] [|[|j]] | move=> x _ /eqP ->; exists 1 | move=> x; rewrite !inE => /orP[] /eqP ->].
Qed.
Lemma svd_turn : svd_exact idz (@exsvd R0) (@exbig R0) 2 2 [:: 0; 1; -1; 0].
Proof.
split=> //.
- by split; split=> //= -[|[|i]] [|[|j]] //= _ _; rewrite !big_nat_recr //= big_geq.
- by split=> //= -[|[|i]] [|[|j]] //= _ _; rewrite !big_nat_recr //= !big_geq.
- by split=> //; [case=> [|[|i]] [|[|j]] | move=> x _ /eqP ->; exists 1 | move=> x; rewrite !inE => /orP[] /eqP ->].
Qed.
Lemma ex_sol r : r \in [:: V0; V1'; V2'] -> sol_z r.
Proof.
rewrite !inE => /or3P[] /eqP -> C m n D.
- by move=> [<-] [<- <- <-]; apply: svd_shear.
- by move=> [<-] [<- <- <-]; apply: svd_shear.
by move=> [<-] [<- <- <-]; apply: svd_turn.
Qed.
Definition inv_z := invariant idz gd2 idz (@linv2 R0) (@cr1 R0) (@cd1 R0) cs1 xpredT (@exg R0) (@exl R0).
