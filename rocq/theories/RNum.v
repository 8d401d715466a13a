(** * RNum: the real numbers of the standard library as an ordered field. *)
From Coq Require Import Reals Lra.
From mathcomp Require Import all_ssreflect all_algebra.
From Verif Require Import Rstruct Expm RField.
Set Implicit Arguments.
Unset Strict Implicit.
Unset Printing Implicit Defensive.
Import GRing.Theory.

Definition Rleb (x y : R) : bool := if Rle_dec x y then true else false.
Definition Rltb (x y : R) : bool := if Rlt_dec x y then true else false.
Lemma RlebP x y : reflect (Rle x y) (Rleb x y).
Proof. by rewrite /Rleb; case: Rle_dec => h; constructor. Qed.
Lemma RltbP x y : reflect (Rlt x y) (Rltb x y).
Proof. by rewrite /Rltb; case: Rlt_dec => h; constructor. Qed.
Lemma Rnorm_add (x y : R) : Rleb (Rabs (x + y)%R) (Rabs x + Rabs y)%R.
Proof. by apply/RlebP; exact: Rabs_triang. Qed.
Lemma Rlt0_add (x y : R) : Rltb R0 x -> Rltb R0 y -> Rltb R0 (x + y)%R.
Proof. by move=> /RltbP h1 /RltbP h2; apply/RltbP; exact: Rplus_lt_0_compat. Qed.
Lemma Rnorm0 (x : R) : Rabs x = R0 -> x = R0.
Proof. by move=> h; case: (Req_dec x R0) => // n; case: (Rabs_no_R0 _ n). Qed.
Lemma RleVge (x y : R) : Rleb R0 x -> Rleb R0 y -> (Rleb x y) || (Rleb y x).
Proof. by move=> _ _; case: (Rle_dec x y) => h; apply/orP; [left|right]; apply/RlebP; lra. Qed.
Lemma RnormM : {morph Rabs : x y / (x * y)%R >-> (x * y)%R}.
Proof. exact: Rabs_mult. Qed.
Lemma Rleb_def (x y : R) : Rleb x y = (Rabs (y - x)%R == (y - x)%R).
Proof.
change (Rleb x y = (Rabs (Rminus y x) == Rminus y x)).
apply/RlebP/eqP => h; first by rewrite Rabs_pos_eq //; lra.
by have := Rabs_pos (Rminus y x); rewrite h; lra.
Qed.
Lemma Rltb_def (x y : R) : Rltb x y = (y != x) && (Rleb x y).
Proof.
apply/RltbP/andP => [h|[/eqP n /RlebP h]]; first by split; [apply/eqP; lra | apply/RlebP; lra].
by case: (Rle_lt_or_eq_dec _ _ h) => // E; case: n.
Qed.
Definition R_numMixin := NumMixin Rnorm_add Rlt0_add Rnorm0 RleVge RnormM Rleb_def Rltb_def.
Canonical R_porderType := POrderType ring_display R R_numMixin.
Canonical R_numDomainType := NumDomainType R R_numMixin.
Canonical R_normedZmodType := NormedZmodType R R R_numMixin.
Lemma R_total : totalPOrderMixin R_porderType.
Proof. by move=> x y; case: (Rle_dec x y) => h; apply/orP; [left|right]; apply/RlebP; lra. Qed.
Canonical R_latticeType := LatticeType R R_total.
Canonical R_distrLatticeType := DistrLatticeType R R_total.
Canonical R_orderType := OrderType R R_total.
Canonical R_numFieldType := [numFieldType of R].
Canonical R_realDomainType := [realDomainType of R].
Canonical R_realFieldType := [realFieldType of R].
