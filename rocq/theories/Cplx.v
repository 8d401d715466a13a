(** * Cplx: complex numbers over a commutative ring (pairs re + i im), used for
    the claims about complex matrices.  Executable when the base ring is. *)
From mathcomp Require Import all_ssreflect all_algebra.
Set Implicit Arguments.
Unset Strict Implicit.
Unset Printing Implicit Defensive.
Import GRing.Theory.
Local Open Scope ring_scope.

Section Cplx.
Variable F : comRingType.

Record cplx : Type := Cx { re : F; im : F }.
Definition cx_pair (z : cplx) : F * F := (re z, im z).
Definition cx_unpair (p : F * F) : cplx := Cx p.1 p.2.
Lemma cx_pairK : cancel cx_pair cx_unpair. Proof. by case. Qed.

Definition cplx_eqMixin := CanEqMixin cx_pairK.
Canonical cplx_eqType := Eval hnf in EqType cplx cplx_eqMixin.
Definition cplx_choiceMixin := CanChoiceMixin cx_pairK.
Canonical cplx_choiceType := Eval hnf in ChoiceType cplx cplx_choiceMixin.

Definition cadd (x y : cplx) := Cx (re x + re y) (im x + im y).
Definition copp (x : cplx) := Cx (- re x) (- im x).
Definition c0 := Cx 0 0.
Definition c1 := Cx 1 0.
Definition cmul (x y : cplx) := Cx (re x * re y - im x * im y) (re x * im y + im x * re y).
Definition cconj (x : cplx) := Cx (re x) (- im x).

Lemma caddA : associative cadd. Proof. by move=> x y z; congr Cx; apply: addrA. Qed.
Lemma caddC : commutative cadd. Proof. by move=> x y; congr Cx; apply: addrC. Qed.
Lemma cadd0 : left_id c0 cadd. Proof. by case=> x y; congr Cx; apply: add0r. Qed.
Lemma caddN : left_inverse c0 copp cadd. Proof. by move=> x; congr Cx; apply: addNr. Qed.
Definition cplx_zmodMixin := ZmodMixin caddA caddC cadd0 caddN.
Canonical cplx_zmodType := Eval hnf in ZmodType cplx cplx_zmodMixin.

Lemma cmulC : commutative cmul.
Proof.
move=> [a b] [c d]; rewrite /cmul /=; congr Cx; first by rewrite [c * a]mulrC [d * b]mulrC.
by rewrite addrC [c * b]mulrC [d * a]mulrC.
Qed.
Lemma cmulA : associative cmul.
Proof.
move=> [a b] [c d] [e f]; rewrite /cmul /=; congr Cx;
  rewrite !mulrDl !mulrDr ?mulrN ?mulNr !mulrA ?opprD.
  by rewrite -!addrA; congr (_ + _); rewrite addrA addrC.
by rewrite -!addrA; congr (_ + _); rewrite addrA addrC.
Qed.
Lemma cmul1 : left_id c1 cmul.
Proof. by case=> a b; rewrite /cmul /= !mul1r !mul0r subr0 addr0. Qed.
Lemma cmulDl : left_distributive cmul cadd.
Proof.
move=> [a b] [c d] [e f]; rewrite /cmul /cadd /=; congr Cx; rewrite !mulrDl ?opprD addrACA //.
Qed.
Lemma c10 : c1 != 0 :> cplx.
Proof. by apply/eqP=> -[] /eqP; rewrite oner_eq0. Qed.
Definition cplx_ringMixin := ComRingMixin cmulA cmulC cmul1 cmulDl c10.
Canonical cplx_ringType := Eval hnf in RingType cplx cplx_ringMixin.
Canonical cplx_comRingType := Eval hnf in ComRingType cplx cmulC.

Lemma cconjK : involutive cconj.
Proof. by case=> a b; rewrite /cconj /= opprK. Qed.
Lemma cconjD (x y : cplx) : cconj (x + y) = cconj x + cconj y.
Proof. by rewrite /cconj /= opprD. Qed.
Lemma cconjM (x y : cplx) : cconj (x * y) = cconj x * cconj y.
Proof.
case: x y => [a b] [c d]; congr Cx; first by rewrite /= mulrNN.
by rewrite /= mulrN mulNr opprD.
Qed.
Lemma cconj0 : cconj 0 = 0 :> cplx. Proof. by rewrite /cconj /= oppr0. Qed.
Lemma cconj1 : cconj 1 = 1 :> cplx. Proof. by rewrite /cconj /= oppr0. Qed.
End Cplx.
