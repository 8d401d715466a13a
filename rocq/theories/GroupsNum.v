(** * GroupsNum: rel_err, emlp/groups.py lines 10-11, and the test rel_err(A,B)<1e-6 of
    lines 45 and 48, over an ordered field.  The mean of an empty array is nan, and nan<1e-6
    is False. *)
From Coq Require Import String.
From mathcomp Require Import all_ssreflect all_algebra.
From Verif Require Import Np NpLemmas Spec SpecLemmas LinOp Groups.
Set Implicit Arguments.
Unset Strict Implicit.
Unset Printing Implicit Defensive.
Import GRing.Theory Num.Theory Order.Theory.
Local Open Scope ring_scope.

Section Num.
Variable F : realFieldType.
(** jnp.mean, jnp.abs *)
Definition mean (l : seq F) : F := foldr +%R 0 l / (size l)%:R.
Definition mabs (l : seq F) : F := mean (map Num.norm l).
(** 1e-6 *)
Definition micro : F := 10%:R ^- 6.
Definition rel_err (A B : seq F) : F := mabs [seq x.1 - x.2 | x <- zip A B] / (mabs A + mabs B + micro).
Definition near (A B : seq F) : bool := ~~ nilp A && (rel_err A B < micro).

Lemma micro_gt0 : 0 < micro.
Proof. by rewrite invr_gt0 exprn_gt0 // ltr0n. Qed.
(** exactly equal arrays pass the test *)
Lemma near_refl A : ~~ nilp A -> near A A.
Proof.
move=> N; rewrite /near N /rel_err.
have -> : mabs [seq x.1 - x.2 | x <- zip A A] = 0; last by rewrite mul0r micro_gt0.
rewrite /mabs /mean; suff -> : foldr +%R 0 (map Num.norm [seq x.1 - x.2 | x <- zip A A]) = 0 by rewrite mul0r.
by elim: (A) => //= x l ->; rewrite subrr normr0 addr0.
Qed.
Definition sabs (l : seq F) : F := foldr +%R 0 (map Num.norm l).
Lemma sabs_ge0 l : 0 <= sabs l.
Proof. by elim: l => //= x l IH; rewrite addr_ge0. Qed.
Lemma near_sum A B : ~~ nilp A -> size A = size B ->
  sabs [seq x.1 - x.2 | x <- zip A B] < micro * sabs B -> near A B.
Proof.
move=> N S H; rewrite /near N /rel_err /mabs /mean !size_map size_zip -S minnn -!/(sabs _).
have n0 : 0 < (size A)%:R :> F by rewrite ltr0n lt0n.
have a0 := sabs_ge0 A; have b0 := sabs_ge0 B; have m0 := micro_gt0.
have d0 : 0 < sabs A / (size A)%:R + sabs B / (size A)%:R + micro.
  by apply: ltr_paddl => //; apply: addr_ge0; apply: divr_ge0 => //; apply: ltW.
rewrite /= ltr_pdivr_mulr // ltr_pdivr_mulr //; apply: lt_le_trans H _.
rewrite -mulrA ler_pmul2l // !mulrDl !mulfVK ?gt_eqF //.
rewrite addrAC ler_addr addr_ge0 // mulr_ge0 // ltW //.
Qed.
(** a quarter of 1e-6 *)
Definition quarter : F := micro / 4%:R.
Lemma quarter_lt : [/\ 0 < quarter, quarter * 2%:R + quarter * quarter < micro & quarter != 0].
Proof.
have m0 := micro_gt0; have q0 : 0 < quarter by rewrite divr_gt0 // ltr0n.
have q4 : quarter * 4%:R = micro by rewrite mulfVK // pnatr_eq0.
split=> //; last by rewrite gt_eqF.
rewrite -q4 -mulrDr ltr_pmul2l //.
have q1 : quarter <= 1.
  rewrite ler_pdivr_mulr ?ltr0n // mul1r; apply: (@le_trans _ _ 1); last by rewrite ler1n.
  rewrite invf_le1 ?exprn_gt0 ?ltr0n //; apply: exprn_ege1; by rewrite ler1n.
apply: (@le_lt_trans _ _ (2%:R + 1)); first by rewrite ler_add2l.
by rewrite -(natrD _ 2 1) ltr_nat.
Qed.
End Num.
