(** * KryMore: full nullity, complex constraints, and the attempts of the inner routine. *)
From mathcomp Require Import all_ssreflect all_algebra.
From mathcomp Require Import zify.
From Verif Require Import Np NpLemmas Spec SpecLemmas LinOp Cplx SolSpec SolSvd MxBridge Krylov KrySpec KryProofs KryThm.
Set Implicit Arguments.
Unset Strict Implicit.
Unset Printing Implicit Defensive.
Import GRing.Theory Num.Theory.
Local Open Scope ring_scope.
Opaque max_iter.

Section Full.
Variable R : comRingType.
Variables (conj re : R -> R) (sc : rat -> R).
Hypothesis Hc : forall x, conj x = x.
Hypothesis Hre : forall x, re x = x.
Variables (conv diverging : seq R -> bool).
Variable tsvd : nat -> nat -> seq R -> seq R * seq R * seq R.
Variables (big : pred R) (gap : R -> R -> bool).
Variable W0 : nat -> nat -> seq R.

Theorem full_nullity C m n D v N : (0 < m)%N -> to_dense conj C = Ok (m, n, D) -> size D = (m * n)%N ->
  null_basis conj m n D v N ->
  (forall k a, (a < 6)%N -> ~~ gt2e9 (m * (5 * 2 ^ k.+1)) ->
     exact_attempt conj re sc conv tsvd big gap W0 m n D v N k (5 * 2 ^ k.+1) a) ->
  (forall x, size x = n -> matvec m n D x = nseq m 0) -> ~~ gt2e9 (m * (2 * n)) ->
  exists e, krylov_solve conj re sc conv diverging tsvd big gap W0 C = Some (Err e).
Proof.
move=> Hm HC SD NB HA Hz Hg.
have [[[[[n' c] Q] b]|e] E] := krylov_thm Hc Hre diverging Hm HC SD NB HA; last by exists e.
case: b E => E [].
- move=> _ [SQ QQ _] Hgt; case/negP: Hg.
  have cn : (c <= n)%N.
    apply: (@mulmx1_min _ _ _ (mxf c n (ftr (fconj conj (unflat n c Q)))) (toM n c Q)).
    by rewrite -(@mxf_mul _ _ _ n) // (mxf_meq QQ) // mxf_id.
  by apply: gt2e9_le Hgt; rewrite leq_mul2l leq_mul2l cn !orbT.
move=> _ cn /(null_basisP _ _ _ _ _ Hc) [_ QQ QP].
suff : (n <= c)%N by rewrite leqNgt cn.
apply: (@mulmx1_min _ _ _ (toM n c Q) (toM n c Q)^T).
apply/matrixP=> i j; have [+ _] := QP (delta_mx j 0).
have -> : toM m n D *m (delta_mx j 0 : 'cV[R]_n) = 0.
  set d := delta_mx j 0; have sd : size (ofM d) = n by rewrite size_mkseq muln1.
  have := congr1 (toM m 1) (Hz _ sd).
  by rewrite matvec_matmul toM_matmul toM_nseq0 toM_ofM.
move=> /(_ erefl) /matrixP /(_ i 0); rewrite -colE [RHS]mxE !mxE => ->.
by rewrite andbT.
Qed.
End Full.

Lemma shrinks (u c : rat) : 0 < c -> exists b, u / 3%:Q ^+ b < c.
Proof.
move=> p4; have [u0|u0] := Order.TotalTheory.ltP 0 u; last first.
  by exists 0%N; rewrite expr0 divr1; apply: Order.POrderTheory.le_lt_trans u0 _.
exists (Num.bound (u / c)); have : u / c < (Num.bound (u / c))%:R.
  by apply: archi_boundP; rewrite Order.POrderTheory.ltW // divr_gt0.
move: (Num.bound _) => N HN.
have p3 : (0 : rat) < 3%:Q ^+ N by rewrite exprn_gt0 // ltr0z.
rewrite ltr_pdivr_mulr //; move: HN; rewrite ltr_pdivr_mulr // mulrC => HN.
apply: Order.POrderTheory.lt_le_trans HN _; rewrite ler_pmul2l //.
by rewrite -pmulrn -natrX ler_nat; apply: ltnW; apply: ltn_expl.
Qed.

Section Attempts.
Variable R : comRingType.
Variables (conj re : R -> R) (sc : rat -> R).
Variables (conv diverging : seq R -> bool).
Variable tsvd : nat -> nat -> seq R -> seq R * seq R * seq R.
Variables (big : pred R) (gap : R -> R -> bool).
Variable W0 : nat -> nat -> seq R.
Local Notation upto := (upto conj re sc conv diverging tsvd big gap W0).
Local Notation finish := (finish tsvd big gap).
Local Notation iterate := (iterate conj re sc W0).
Local Notation residual := (residual conj re sc W0).

(** six attempts are enough for the default learning rate *)
Theorem six_attempts m n r D k fuel : (6 <= fuel)%N ->
  exists x l, [/\ upto fuel m n r D k 0 lr0 = Some (x, l), (0 < size l <= 6)%N,
    map fst l = mkseq (fun i => lr0 / 3%:Q ^+ i) (size l) &
    all (fun y => y.2 <= max_iter)%N l].
Proof.
move=> Hf; have [[x l] E] := upto6 conj re sc conv diverging tsvd big gap W0 m n r D k.
exists x, l; rewrite (upto_more E Hf); have [b [Hb _ Hl Ha _]] := uptoP E.
have Sl : size l = b.+1 by rewrite -(size_map fst) Hl size_mkseq.
by rewrite Sl.
Qed.

(** a result is returned only after convergence was seen; then it comes from the next iterate *)
Theorem converged m n r D k fuel x l lr : upto fuel m n r D k 0 lr = Some (x, l) ->
  let a := (size l).-1 in let lr' := lr / 3%:Q ^+ a in
  (x = Err ConvergenceError /\
     ((forall t, (t < max_iter)%N -> ~~ conv (residual m n r D lr' k a t)) \/
      (lr' < 1%:Q / 100%:Q / 100%:Q /\ exists2 t, (100 < t < max_iter)%N & diverging (residual m n r D lr' k a t)))) \/
  exists t, [/\ (t < max_iter)%N, conv (residual m n r D lr' k a t) & x = finish n r (iterate m n r D lr' k a t.+1)].
Proof.
move=> E a lr'; have [b [Hb Hv Hl _ _]] := uptoP E.
have Ea : a = b by rewrite /a -(size_map fst) Hl size_mkseq.
rewrite /lr' Ea; move: Hv; rewrite add0n; case=> [t Ht Hcv|He|t Ht Hd Hlr].
- by right; exists t.
- by left; split=> //; left.
by left; split=> //; right; split=> //; exists t.
Qed.

(** for every learning rate the recursion ends *)
Theorem attempts_end m n r D k lr : exists fuel y, upto fuel m n r D k 0 lr = Some y.
Proof.
have [|b Hb] := @shrinks lr (1%:Q / 100%:Q / 100%:Q); first by rewrite !divr_gt0 // ltr0z.
by have [y E] := upto_small conj re sc conv diverging tsvd big gap W0 m n r D k 0 Hb; exists b.+1, y.
Qed.
End Attempts.
