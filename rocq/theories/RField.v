(** * RField: the real numbers of the standard library as a field. *)
From Coq Require Import Reals.
From mathcomp Require Import all_ssreflect all_algebra.
From Verif Require Import Rstruct.
Set Implicit Arguments.
Unset Strict Implicit.
Unset Printing Implicit Defensive.
Import GRing.Theory.
Local Open Scope ring_scope.

Definition rinv (x : R) : R := if Reqb x R0 then R0 else Rinv x.
Lemma rinv_mul (x : R) : x != 0 -> rinv x * x = 1.
Proof.
move=> H; have N : x <> R0 by move/eqP: H.
rewrite /rinv; case: ReqP => // _; exact: Rinv_l.
Qed.
Lemma rinv0 : rinv 0 = 0.
Proof. by rewrite /rinv; case: ReqP. Qed.
Definition R_unitMixin := FieldUnitMixin rinv_mul rinv0.
Canonical R_unitRingType := Eval hnf in UnitRingType R R_unitMixin.
Canonical R_comUnitRingType := Eval hnf in [comUnitRingType of R].
Lemma R_fieldMixin : GRing.Field.mixin_of [unitRingType of R].
Proof. by move=> x /=; rewrite unfold_in. Qed.
Definition R_idomainMixin := FieldIdomainMixin R_fieldMixin.
Canonical R_idomainType := Eval hnf in IdomainType R R_idomainMixin.
Canonical R_fieldType := Eval hnf in FieldType R R_fieldMixin.
Lemma R_invE (x : R) : x <> R0 -> x^-1 = Rinv x.
Proof. by move=> H; rewrite /GRing.inv /= /rinv; case: ReqP. Qed.
