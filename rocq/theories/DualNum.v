(** * DualNum: dual numbers a + b eps, eps^2 = 0, over a commutative ring; used to state
    that drho is the derivative of rho at the identity. *)
From mathcomp Require Import all_ssreflect all_algebra.
Set Implicit Arguments.
Unset Strict Implicit.
Unset Printing Implicit Defensive.
Import GRing.Theory.
Local Open Scope ring_scope.

Section Dual.
Variable F : comRingType.

Record dual : Type := Du { dre : F; deps : F }.
Definition du_pair (z : dual) : F * F := (dre z, deps z).
Definition du_unpair (p : F * F) : dual := Du p.1 p.2.
Lemma du_pairK : cancel du_pair du_unpair. Proof. by case. Qed.

Definition dual_eqMixin := CanEqMixin du_pairK.
Canonical dual_eqType := Eval hnf in EqType dual dual_eqMixin.
Definition dual_choiceMixin := CanChoiceMixin du_pairK.
Canonical dual_choiceType := Eval hnf in ChoiceType dual dual_choiceMixin.

Definition duadd (x y : dual) := Du (dre x + dre y) (deps x + deps y).
Definition duopp (x : dual) := Du (- dre x) (- deps x).
Definition du0 := Du 0 0.
Definition du1 := Du 1 0.
Definition dumul (x y : dual) := Du (dre x * dre y) (dre x * deps y + deps x * dre y).

Lemma duaddA : associative duadd. Proof. by move=> x y z; congr Du; apply: addrA. Qed.
Lemma duaddC : commutative duadd. Proof. by move=> x y; congr Du; apply: addrC. Qed.
Lemma duadd0 : left_id du0 duadd. Proof. by case=> x y; congr Du; apply: add0r. Qed.
Lemma duaddN : left_inverse du0 duopp duadd. Proof. by move=> x; congr Du; apply: addNr. Qed.
Definition dual_zmodMixin := ZmodMixin duaddA duaddC duadd0 duaddN.
Canonical dual_zmodType := Eval hnf in ZmodType dual dual_zmodMixin.

Lemma dumulC : commutative dumul.
Proof.
move=> [a b] [c d]; rewrite /dumul /=; congr Du; first by rewrite mulrC.
by rewrite addrC [c * b]mulrC [d * a]mulrC.
Qed.
Lemma dumulA : associative dumul.
Proof.
move=> [a b] [c d] [e f]; rewrite /dumul /=; congr Du; first by rewrite mulrA.
by rewrite !mulrDl !mulrDr !mulrA addrA.
Qed.
Lemma dumul1 : left_id du1 dumul.
Proof. by case=> a b; rewrite /dumul /= !mul1r !mul0r addr0. Qed.
Lemma dumulDl : left_distributive dumul duadd.
Proof.
move=> [a b] [c d] [e f]; rewrite /dumul /duadd /=; congr Du; rewrite !mulrDl // addrACA //.
Qed.
Lemma du10 : du1 != 0 :> dual.
Proof. by apply/eqP=> -[] /eqP; rewrite oner_eq0. Qed.
Definition dual_ringMixin := ComRingMixin dumulA dumulC dumul1 dumulDl du10.
Canonical dual_ringType := Eval hnf in RingType dual dual_ringMixin.
Canonical dual_comRingType := Eval hnf in ComRingType dual dumulC.

(** the constants, and eps *)
Definition dconst (x : F) : dual := Du x 0.
Definition eps : dual := Du 0 1.

Lemma dconst_is_rmorphism : rmorphism dconst.
Proof.
split; first by move=> x y; congr Du; rewrite /= subr0.
split=> // x y; congr Du; by rewrite /= mulr0 mul0r addr0.
Qed.
Canonical dconst_additive := Additive dconst_is_rmorphism.
Canonical dconst_rmorphism := RMorphism dconst_is_rmorphism.

Lemma eps2 : eps * eps = 0 :> dual.
Proof. by congr Du; rewrite /= ?mul0r ?mulr0 ?addr0. Qed.

Lemma deps_is_additive : additive deps. Proof. by []. Qed.
Canonical deps_additive := Additive deps_is_additive.
Lemma dre_is_additive : additive dre. Proof. by []. Qed.
Canonical dre_additive := Additive dre_is_additive.

Lemma depsM x y : deps (x * y) = dre x * deps y + deps x * dre y. Proof. by []. Qed.
Lemma dreM x y : dre (x * y) = dre x * dre y. Proof. by []. Qed.
Lemma deps_nat n : deps n%:R = 0.
Proof. by elim: n => // n IH; rewrite mulrS raddfD /= IH addr0. Qed.
Lemma dre_nat n : dre n%:R = n%:R.
Proof. by elim: n => // n IH; rewrite !mulrS raddfD /= IH. Qed.
End Dual.
