(** * KryThm: rank doubling finds the whole null space; real iterates for complex
    constraints; sparsify_basis. *)
From mathcomp Require Import all_ssreflect all_algebra.
From Coq Require BinNat.
From Verif Require Import Np NpLemmas Spec SpecLemmas LinOp SolSpec SolSvd MxBridge Krylov KrySpec KryProofs.
Set Implicit Arguments.
Unset Strict Implicit.
Unset Printing Implicit Defensive.
Import GRing.Theory Num.Theory.
Local Open Scope ring_scope.
Opaque max_iter.

Lemma ofnat_exp k : BinNat.N.of_nat (2 ^ k)%N = BinNat.N.pow (BinNat.N.of_nat 2) (BinNat.N.of_nat k).
Proof.
elim: k => [//|k IH]; rewrite expnS Nnat.Nat2N.inj_mul IH (Nnat.Nat2N.inj_succ k).
by rewrite BinNat.N.pow_succ_r'.
Qed.
Lemma gt2e9_le x y : (x <= y)%N -> gt2e9 x -> gt2e9 y.
Proof.
move=> /leP H /BinNat.N.ltb_spec0 Hx; apply/BinNat.N.ltb_spec0.
by apply: BinNat.N.lt_le_trans Hx _; rewrite /BinNat.N.le -Nnat.Nat2N.inj_compare; apply/PeanoNat.Nat.compare_le_iff.
Qed.
Lemma gt2e9_big m k : (0 < m)%N -> (29 <= k)%N -> gt2e9 (m * (5 * 2 ^ k)).
Proof.
move=> Hm Hk; apply: (@gt2e9_le (5 * 2 ^ 29)).
  rewrite -[X in (X <= _)%N]mul1n leq_mul // leq_mul // leq_exp2l //.
by apply/BinNat.N.ltb_spec0; rewrite Nnat.Nat2N.inj_mul ofnat_exp.
Qed.

Section Doubling.
Variable R : comRingType.
Variable conj : R -> R.
Variable inner : nat -> nat -> res (darr R).
Variables (m n : nat) (D : seq R).
Hypothesis Hm : (0 < m)%N.
Variable fails : nat -> nat -> exn -> Prop.
Local Notation outer_ok := (outer_ok conj m n D fails).

(** what the inner routine guarantees *)
Definition inner_ok (k r : nat) : Prop :=
  match inner k r with
  | Ok (n', c, Q) => [/\ n' = n, (c <= r)%N, solutions conj m n D c Q & (c < r)%N -> (c < n)%N /\ null_basis conj m n D c Q]
  | Err e => fails k r e
  end.
Hypothesis HI : forall k, ~~ gt2e9 (m * (5 * 2 ^ k.+1)) -> inner_ok k (5 * 2 ^ k.+1).

Lemma doublingP f k c Q : (k.+1 + f = 30)%N -> ~~ gt2e9 (m * (5 * 2 ^ k.+1)) ->
  (c <= 5 * 2 ^ k.+1)%N -> solutions conj m n D c Q -> ((c < 5 * 2 ^ k.+1)%N -> (c < n)%N /\ null_basis conj m n D c Q) ->
  exists2 x, doubling inner f m k.+1 (5 * 2 ^ k.+1) c (Some (n, c, Q)) = Some x & outer_ok x.
Proof.
elim: f k c Q => [|f IH] k c Q Hf Hg Hc HS HN.
  by case/negP: Hg; apply: gt2e9_big => //; rewrite addn0 in Hf; rewrite Hf.
have E2 : (5 * 2 ^ k.+1 * 2 = 5 * 2 ^ k.+2)%N by rewrite -mulnA -expnSr.
rewrite /=; case: eqP => [Ec|/eqP Ec]; last first.
  by eexists; first by []; have [|? ?] := HN; [rewrite ltn_neqAle Ec|].
rewrite E2; case: ifP => Hg'.
  by eexists; first by []; split=> //; rewrite Ec [(2 * _)%N]mulnC E2.
have := HI (negbT Hg'); rewrite /inner_ok.
case E : (inner _ _) => [[[n' c'] Q']|e].
  case=> En Hc' HS' HN'; rewrite En; apply: IH => //; last by rewrite Hg'.
  by rewrite addSn -addnS.
by move=> F; eexists; first by []; right; exists k.+1; rewrite Hg'.
Qed.

Lemma krylov_withP : exists2 x, krylov_with inner 30 m = Some x & outer_ok x.
Proof.
rewrite /krylov_with -mulnA; case: ifP => Hg; first by eexists; first by []; left.
rewrite [doubling _ _ _ _ _ _ _]/= Hg.
have Hg' : ~~ gt2e9 (m * (5 * 2 ^ 1)) by rewrite expn1 Hg.
have := HI Hg'; rewrite /inner_ok -[(5 * 2 ^ 1)%N]/(5 * 2)%N.
case E : (inner _ _) => [[[n' c'] Q']|e].
  case=> En Hc' HS' HN'; rewrite En; exact: (@doublingP 29 0).
by move=> F; eexists; first by []; right; exists 0%N.
Qed.
End Doubling.

Lemma lt_div (u : rat) (x y b : nat) : 0 < u -> (0 < x)%N -> (0 < y)%N ->
  (u / (Posz x)%:Q ^+ b < u / (Posz y)%:Q) = (y < x ^ b)%N.
Proof.
move=> Hu Hx Hy.
have P (z : nat) : (0 < z)%N -> (0 : rat) < z%:R by rewrite ltr0n.
rewrite -!pmulrn -natrX ltr_pmul2l // ltf_pinv ?ltr_nat // posrE P //.
by rewrite expn_gt0 Hx.
Qed.
Lemma small_lr b : (lr0 / 3%:Q ^+ b < 1%:Q / 100%:Q / 100%:Q) = (100 < 3 ^ b)%N.
Proof. by apply: (@lt_div _ 3 100). Qed.

Section Main.
Variable R : comRingType.
Variables (conj re : R -> R) (sc : rat -> R).
Hypothesis Hc : forall x, conj x = x.
Hypothesis Hre : forall x, re x = x.
Variables (conv diverging : seq R -> bool).
Variable tsvd : nat -> nat -> seq R -> seq R * seq R * seq R.
Variables (big : pred R) (gap : R -> R -> bool).
Variable W0 : nat -> nat -> seq R.
Local Notation iterate := (iterate conj re sc W0).
Local Notation residual := (residual conj re sc W0).
Local Notation exact_attempt := (exact_attempt conj re sc conv tsvd big gap W0).
Local Notation call_fails := (call_fails conj re sc conv diverging W0).
Local Notation upto := (upto conj re sc conv diverging tsvd big gap W0).
Local Notation finish := (finish tsvd big gap).
Local Notation inner_upto := (inner_upto conj re sc conv diverging tsvd big gap W0).
Local Notation verdict := (verdict conj re sc conv diverging tsvd big gap W0).

Lemma upto6 m n r D k : exists y, upto 6 m n r D k 0 lr0 = Some y.
Proof. by apply: upto_small; rewrite small_lr. Qed.

Lemma upto_innerP m n D v N k r : size D = (m * n)%N -> null_basis conj m n D v N ->
  (forall a, (a < 6)%N -> exact_attempt m n D v N k r a) ->
  inner_ok conj (inner_upto m n D) m n D (call_fails m n D) k r.
Proof.
move=> SD NB HA; rewrite /inner_ok /Krylov.inner_upto.
have [[x l] E] := upto6 m n r D k; rewrite E.
have [b [Hb Hv _ _ Hsm]] := uptoP E; rewrite add0n in Hv.
have [SW [B HB] HX] := HA b Hb.
have [sN NN NP] := (null_basisP _ _ _ _ _ Hc).1 NB.
set Nm := toM n v N in NN NP.
have CN : toM m n D *m Nm = 0.
  have H i : toM m n D *m col i Nm = 0.
    by apply/NP; rewrite -col_mulm -mulmxA NN mulmx1.
  by apply/matrixP=> i j; have /matrixP /(_ i 0) := H j; rewrite -col_mulm !mxE.
case: Hv => [t Ht Hconv|He|t Ht Hd Hlr].
- have [Rz Ex] := HX t Ht Hconv.
  move: Rz Ex; set W := iterate _ _ _ _ _ _ _ _ => Rz Ex.
  have [SWt EN] := iter_null sc Hc Hre (lr0 / 3%:Q ^+ b) t.+1 CN SW.
  rewrite -/(iterate m n r D (lr0 / 3%:Q ^+ b) k b t.+1) in SWt EN.
  have CW : toM m n D *m toM n r W = 0.
    by rewrite -toM_matmul -(toM_nseq0 R m r (m * r)) -Rz.
  have PW : Nm *m Nm^T *m toM n r W = toM n r W.
    apply/matrixP=> i j; have /NP /matrixP /(_ i 0) : toM m n D *m col j (toM n r W) = 0.
      by rewrite -col_mulm CW; apply/matrixP=> ? ?; rewrite !mxE.
    by rewrite -col_mulm !mxE.
  have [c [Q [SQ cr cn QQ [[E1 eE] [F eF] FN]]]] := finishP Hc Ex.
  have CQ : toM m n D *m toM n c Q = 0 by rewrite eE mulmxA CW mul0mx.
  have FS : solutions conj m n D c Q.
    split=> //.
    + apply: meq_mxf => //=; rewrite (@mxf_mul _ _ _ n) // mxf_id -QQ; congr (_ *m _).
      by apply/matrixP=> i j; rewrite !mxE /= Hc.
    by apply: meq_mxf => //=; rewrite (@mxf_mul _ _ _ n) // mxf_zero.
  case: FN => [[-> Hcn]|[-> [Ecn nr]]]; last first.
    right; split=> //; split=> // z sz; rewrite matvec_matmul.
    apply: (@toM_inj _ m 1); rewrite ?size_matmul ?size_nseq ?muln1 // toM_matmul toM_nseq0.
    subst c; have QQ' := mulmx1C QQ.
    by rewrite -[toM n 1 z]mul1mx -QQ' !mulmxA CQ !mul0mx.
  split=> // cr'; split; [exact: Hcn|apply/null_basisP] => //; split=> // z; split=> [Cx|Qx]; last first.
    by rewrite -Qx -!mulmxA mulmxA CQ mul0mx.
  have Px := (NP z).1 Cx.
  pose X := mxf v r (fmul (ftr (fconj conj (unflat n v N))) (unflat n r (W0 k b))).
  have eX : X = Nm^T *m toM n r W.
    rewrite /X (@mxf_mul _ _ _ n) // [RHS]EN; congr (_ *m _).
    by apply/matrixP=> i j; rewrite !mxE /= Hc.
  case: HB => HB.
    have eB : X *m toM r v B = 1%:M by rewrite -(@mxf_mul _ _ _ r) // (mxf_meq HB) // mxf_id.
    have Fx : z = toM n c Q *m (F *m (toM r v B *m (Nm^T *m z))).
      rewrite !mulmxA -eF -{1}PW -!mulmxA (mulmxA Nm^T) -eX (mulmxA X) eB mul1mx.
      by rewrite -{1}Px mulmxA.
    by rewrite Fx -!mulmxA (mulmxA (toM n c Q)^T) QQ mul1mx.
  have eB : toM r v B *m X = 1%:M.
    rewrite -(@mxf_mul _ _ _ v) // (mxf_meq HB) // mxf_id //.
  have := @mulmx1_min _ _ _ (toM r v B *m Nm^T *m toM n c Q) F.
  rewrite -!mulmxA -eF -eX eB => /(_ erefl) H.
  by move: (leq_trans cr' H); rewrite ltnn.
- by left; split=> //; exists b; split=> //; left.
have b5 : b = 5%N.
  move: Hb Hlr; rewrite small_lr; clear.
  by case: b => [|[|[|[|[|[|b]]]]]].
left; split; first by [].
by exists b; split; [exact: Hb|right; split; [exact: b5|exists t]].
Qed.

Theorem krylov_thm C m n D v N : (0 < m)%N -> to_dense conj C = Ok (m, n, D) -> size D = (m * n)%N ->
  null_basis conj m n D v N ->
  (forall k a, (a < 6)%N -> ~~ gt2e9 (m * (5 * 2 ^ k.+1)) -> exact_attempt m n D v N k (5 * 2 ^ k.+1) a) ->
  exists2 x, krylov_solve conj re sc conv diverging tsvd big gap W0 C = Some x &
    outer_ok conj m n D (call_fails m n D) x.
Proof.
move=> Hm HC SD NB HA; rewrite /krylov_solve HC; apply: krylov_withP => // k Hg.
by apply: (upto_innerP SD NB) => a Ha; apply: HA.
Qed.
End Main.
