(** * Rstruct: the real numbers of the standard library as a commutative ring. *)
From Coq Require Import Reals ClassicalEpsilon FunctionalExtensionality.
From mathcomp Require Import all_ssreflect all_algebra.
Set Implicit Arguments.
Unset Strict Implicit.
Unset Printing Implicit Defensive.

Definition Reqb (x y : R) : bool := if Req_EM_T x y then true else false.
Lemma ReqP : Equality.axiom Reqb.
Proof. by move=> x y; rewrite /Reqb; case: Req_EM_T => H; constructor. Qed.
Definition R_eqMixin := EqMixin ReqP.
Canonical R_eqType := Eval hnf in EqType R R_eqMixin.

Definition Rfind (P : pred R) (n : nat) : option R :=
  if excluded_middle_informative (exists x, P x) then Some (epsilon (inhabits R0) (fun x => P x)) else None.
Lemma Rchoice : Choice.mixin_of R.
Proof.
exists Rfind.
- move=> P n x; rewrite /Rfind; case: excluded_middle_informative => // E [<-]; exact: (epsilon_spec _ _ E).
- by move=> P [x Px]; exists 0; rewrite /Rfind; case: excluded_middle_informative => // -[]; exists x.
by move=> P Q E n; rewrite (functional_extensionality _ _ E).
Qed.
Canonical R_choiceType := Eval hnf in ChoiceType R Rchoice.

Lemma RaddA : associative Rplus. Proof. by move=> x y z; rewrite Rplus_assoc. Qed.
Definition R_zmodMixin := ZmodMixin RaddA Rplus_comm Rplus_0_l Rplus_opp_l.
Canonical R_zmodType := Eval hnf in ZmodType R R_zmodMixin.
Lemma RmulA : associative Rmult. Proof. by move=> x y z; rewrite Rmult_assoc. Qed.
Lemma RmulDl : left_distributive Rmult Rplus. Proof. by move=> x y z; rewrite Rmult_plus_distr_r. Qed.
Lemma R10 : R1 != R0. Proof. by apply/eqP; exact: R1_neq_R0. Qed.
Definition R_ringMixin := ComRingMixin RmulA Rmult_comm Rmult_1_l RmulDl R10.
Canonical R_ringType := Eval hnf in RingType R R_ringMixin.
Canonical R_comRingType := Eval hnf in ComRingType R Rmult_comm.
