(** * GenLor: boosts and rotations generate the proper orthochronous Lorentz group. *)
From Coq Require Import Reals Lra.
From mathcomp Require Import all_ssreflect all_algebra.
From Verif Require Import Rstruct Expm RField GenSL GenSO.
Set Implicit Arguments.
Unset Strict Implicit.
Unset Printing Implicit Defensive.
Import GRing.Theory.
Local Open Scope ring_scope.

Lemma hyp (t : R) : Rminus (Rmult (cosh t) (cosh t)) (Rmult (sinh t) (sinh t)) = R1.
Proof. rewrite /cosh /sinh; have := exp_plus t (Ropp t); rewrite Rplus_opp_r exp_0; nra. Qed.
(** the boost that brings (a,b) with a^2-b^2=1 to the first axis *)
Lemma rapidity (a b : R) : Rminus (Rmult a a) (Rmult b b) = R1 -> exists t, Rplus (Rmult (sinh t) a) (Rmult (cosh t) b) = R0.
Proof.
move=> E; pose s := if Rle_lt_dec R0 a then R1 else Ropp R1.
have S2 : Rmult s s = R1 by rewrite /s; case: Rle_lt_dec => ? /=; lra.
have Sa : Rle R0 (Rmult s a) by rewrite /s; case: Rle_lt_dec => ? /=; lra.
exists (arcsinh (Ropp (Rmult b s))); rewrite sinh_arcsinh; set t := arcsinh _.
have C : cosh t = Rmult s a.
  have := hyp t; have ct : Rlt R0 (cosh t) by rewrite /cosh; have := exp_pos t; have := exp_pos (Ropp t); lra.
  rewrite /t sinh_arcsinh -/t => H.
  have H2 : Rmult (Rminus (cosh t) (Rmult s a)) (Rplus (cosh t) (Rmult s a)) = R0 by nra.
  by case/Rmult_integral: H2 => H2; nra.
by rewrite C; ring_simplify; nra.
Qed.

Lemma pos3 (a b c : R) : Rlt R0 a -> Rlt R0 b -> Rlt R0 (Rmult (Rmult a b) c) -> Rlt R0 c.
Proof.
move=> ha hb h; have hab := Rmult_lt_0_compat _ _ ha hb.
by apply: (Rmult_lt_reg_l (Rmult a b)) => //; rewrite Rmult_0_r.
Qed.
Section Lor.
Variable m : nat.
Local Notation n := m.+2.
Local Notation M := 'M[RR]_n.
Local Notation I := 'I_n.
Definition o1 : I := inord 1.
Lemma o1E : (o1 : nat) = 1%N. Proof. by rewrite inordK. Qed.
Lemma o01 : (ord0 : I) != o1. Proof. by rewrite -val_eqE /= o1E. Qed.
(** diag(1,-1,...,-1) *)
Definition sgn (a : I) : RR := if a == ord0 then 1 else -1.
Definition eta : M := \matrix_(a, b) (if a == b then sgn a else 0).
Lemma etaE (X : M) a b : (eta *m X) a b = sgn a * X a b.
Proof.
rewrite mxE (bigD1 a) //= big1 ?addr0 => [|k /negbTE Hk]; rewrite mxE ?eqxx // eq_sym Hk mul0r.
by [].
Qed.
Lemma etaR (X : M) a b : (X *m eta) a b = X a b * sgn b.
Proof.
rewrite mxE (bigD1 b) //= big1 ?addr0 => [|k /negbTE Hk]; rewrite mxE ?eqxx // Hk mulr0.
by [].
Qed.
Definition lor (X : M) : Prop := X^T *m (eta *m X) = eta.
Lemma sgn2 a : sgn a * sgn a = 1. Proof. by rewrite /sgn; case: ifP => _; rewrite ?mulrNN mulr1. Qed.
Lemma eta2 : eta *m eta = 1%:M.
Proof. by apply/matrixP=> a b; rewrite etaE !mxE; case: eqP => _; rewrite ?mulr0 ?sgn2. Qed.
Lemma lorM X Y : lor X -> lor Y -> lor (X *m Y).
Proof. by rewrite /lor => h1 h2; rewrite trmx_mul -!mulmxA (mulmxA eta) (mulmxA X^T) h1. Qed.
Lemma lorT X : lor X -> X *m (eta *m X^T) = eta.
Proof.
move=> E; have E1 : (eta *m X^T *m eta) *m X = 1%:M by rewrite -!mulmxA E eta2.
have := mulmx1C E1; rewrite !mulmxA => /(congr1 (fun Y => Y *m eta)).
by rewrite -!mulmxA eta2 mulmx1 mul1mx.
Qed.
(** the boost along the first axis *)
Definition bst (t : R) : M := \matrix_(a, b)
  (if a == ord0 then (if b == ord0 then cosh t else if b == o1 then sinh t else 0)
   else if a == o1 then (if b == ord0 then sinh t else if b == o1 then cosh t else 0) else (a == b)%:R).
Lemma bstE t (X : M) a b : (bst t *m X) a b =
  if a == ord0 then (cosh t : RR) * X ord0 b + (sinh t : RR) * X o1 b
  else if a == o1 then (sinh t : RR) * X ord0 b + (cosh t : RR) * X o1 b else X a b.
Proof.
rewrite mxE; case: ifP => [/eqP ->|Ha].
  rewrite (sum2 o01) => [|k /negbTE h1 /negbTE h2]; rewrite !mxE !eqxx ?h1 ?h2 ?mul0r //.
  by rewrite eq_sym (negbTE o01).
case: ifP => [/eqP ->|Hj].
  rewrite (sum2 o01) => [|k /negbTE h1 /negbTE h2]; rewrite !mxE !eqxx ?h1 ?h2 1?eq_sym ?(negbTE o01) ?mul0r //.
rewrite (bigD1 a) //= big1 ?addr0 => [|k /negbTE h1]; rewrite !mxE Ha Hj ?eqxx ?mul1r // eq_sym h1 mul0r.
by [].
Qed.
Lemma bst_lor t : lor (bst t).
Proof.
rewrite /lor; have -> : (bst t)^T = bst t.
  have O := o01.
  apply/matrixP=> a b; rewrite !mxE.
  by case: (eqVneq a ord0) => Ha; case: (eqVneq b ord0) => Hb; case: (eqVneq a o1) => Haj; case: (eqVneq b o1) => Hbj;
    case: (eqVneq b a) => E; rewrite ?eqxx //; try (by neqs); case: (eqVneq a b) => E2 //; neqs.
have O := o01; have SC := hyp t.
apply/matrixP=> a b; rewrite bstE !etaE !mxE !eqxx (eq_sym o1) (negbTE O) /sgn eqxx (eq_sym o1) (negbTE O).
case: (eqVneq a ord0) => Ha; case: (eqVneq b ord0) => Hb; case: (eqVneq a o1) => Haj; case: (eqVneq b o1) => Hbj;
  try (by neqs); case: (eqVneq a b) => E; try (by neqs); rewrite ?mulr0 ?addr0 ?mul1r ?mulr1 // ?mulN1r -?[1]/R1 -?[- 1]/(Ropp R1);
  try (by rewrite /GRing.add /GRing.mul /GRing.opp /GRing.zero /=; lra).
Qed.
Lemma giv_lor (i j : I) t : (0 < i)%N -> (i < j)%N -> lor (giv i j t).
Proof.
move=> Hi Hj; have Hij := ord_neq Hj.
have i0 : i != ord0 by rewrite -val_eqE /= -lt0n.
have j0 : j != ord0 by rewrite -val_eqE /= -lt0n (ltn_trans Hi).
rewrite /lor; have -> : eta *m giv i j t = giv i j t *m eta.
  apply/matrixP=> a b; rewrite etaE etaR mulrC !mxE /sgn.
  case: (eqVneq a i) => Ha; case: (eqVneq b i) => Hb; case: (eqVneq a j) => Haj; case: (eqVneq b j) => Hbj;
    case: (eqVneq a b) => E; rewrite ?mul0r //; try (by rewrite ?Ha ?Hb ?Haj ?Hbj ?(negbTE i0) ?(negbTE j0)); by rewrite E.
by rewrite mulmxA giv_inv // mul1mx.
Qed.
Lemma lor_col X (b c : I) : lor X -> \sum_a sgn a * X a b * X a c = if b == c then sgn b else 0.
Proof.
move/matrixP/(_ b c); rewrite [RHS]mxE => <-; rewrite mxE; apply: eq_bigr => a _; by rewrite etaE mxE mulrA (mulrC (X a b)).
Qed.
Lemma lor_row X (b c : I) : lor X -> \sum_a sgn a * X b a * X c a = if b == c then sgn b else 0.
Proof.
move/lorT/matrixP/(_ b c); rewrite [RHS]mxE => <-; rewrite mxE; apply: eq_bigr => a _; by rewrite etaE mxE mulrA (mulrC (X b a)).
Qed.
(** the sign of the first entry is multiplicative *)
Lemma sumsq (f : I -> RR) : Rle R0 (\sum_(a | a != ord0) f a * f a).
Proof. by apply: (big_ind (fun x => Rle R0 x)) => [|x y|a _]; [exact: Rle_refl | exact: Rplus_le_le_0_compat | exact: Rle_0_sqr]. Qed.
Lemma lor_sign X Y : lor X -> lor Y -> Rlt R0 (Rmult (Rmult (X ord0 ord0) (Y ord0 ord0)) ((X *m Y) ord0 ord0)).
Proof.
move=> HX HY.
have N (f : I -> RR) : \sum_i sgn i * f i * f i = f ord0 * f ord0 - \sum_(i | i != ord0) f i * f i.
  rewrite (bigD1 ord0) //= /sgn eqxx mul1r -sumrN; congr (_ + _).
  by apply: eq_bigr => i /negbTE ->; rewrite -!mulrA mulN1r.
have := lor_row ord0 ord0 HX; rewrite eqxx (N (fun i => X ord0 i)) {1}/sgn eqxx => E2.
have := lor_col ord0 ord0 HY; rewrite eqxx (N (fun i => Y i ord0)) {1}/sgn eqxx => E1.
have -> : (X *m Y) ord0 ord0 = X ord0 ord0 * Y ord0 ord0 + \sum_(i | i != ord0) X ord0 i * Y i ord0 by rewrite mxE (bigD1 ord0).
move: E1 E2; set a := X ord0 ord0; set b := Y ord0 ord0 => E1 E2.
have := sumsq (fun i => (b : RR) * X ord0 i + (a : RR) * Y i ord0).
have -> : \sum_(i | i != ord0) ((b : RR) * X ord0 i + (a : RR) * Y i ord0) * ((b : RR) * X ord0 i + (a : RR) * Y i ord0) =
    (b : RR) * b * (\sum_(i | i != ord0) X ord0 i * X ord0 i) + (a : RR) * a * (\sum_(i | i != ord0) Y i ord0 * Y i ord0) +
    (a : RR) * b * (\sum_(i | i != ord0) X ord0 i * Y i ord0) + (a : RR) * b * (\sum_(i | i != ord0) X ord0 i * Y i ord0).
  rewrite !mulr_sumr -!big_split /=; apply: eq_bigr => i _; rewrite /GRing.add /GRing.mul /=; ring.
move: E1 E2; set p := \sum_(i | _) X ord0 i * X ord0 i; set r := \sum_(i | _) Y i ord0 * Y i ord0; set s := \sum_(i | _) X ord0 i * Y i ord0.
have Hr : Rle R0 r by exact: sumsq. have Hp : Rle R0 p by exact: (sumsq (fun i => X ord0 i)).
rewrite /GRing.add /GRing.mul /GRing.opp /GRing.one /= => E1 E2 K.
have e1 : r = Rminus (Rmult b b) R1 by lra. have e2 : p = Rminus (Rmult a a) R1 by lra.
have a2 : Rle R1 (Rmult a a) by lra. have b2 : Rle R1 (Rmult b b) by lra.
rewrite e1 e2 in K; nra.
Qed.

Variable H : M -> Prop.
Hypotheses (H1 : H 1%:M) (HM : forall X Y, H X -> H Y -> H (X *m Y)).
Hypothesis HG : forall (i j : I) t, (0 < i)%N -> (i < j)%N -> H (giv i j t).
Hypothesis HB : forall t, H (bst t).
Hypothesis HD : forall g, H g -> \det g = 1.
Hypothesis HL : forall g, H g -> lor g /\ Rlt R0 (g ord0 ord0).
Theorem gen_lor X : lor X -> \det X = 1 -> Rlt R0 (X ord0 ord0) -> exists2 g, H g & g *m X = 1%:M.
Proof.
move=> LX DX PX.
have [g1 Hg1 [L1 Z1]] := @clear_rot m.+1 H 1 H1 HM HG o1 ord0 lor X (eq_leq (esym o1E))
  (fun Y i t Hi LY => lorM (@giv_lor o1 i t (eq_leq (esym o1E)) Hi) LY) LX.
have S1 : Rminus (Rmult ((g1 *m X) ord0 ord0) ((g1 *m X) ord0 ord0)) (Rmult ((g1 *m X) o1 ord0) ((g1 *m X) o1 ord0)) = R1.
  have := lor_col ord0 ord0 L1; rewrite (sum2 o01) => [|k h1 h2]; last first.
    rewrite Z1 ?mulr0 // o1E; move: h1 h2; rewrite -!val_eqE /= o1E; by case: (k : nat) => [|[|]].
  rewrite /sgn !eqxx (eq_sym o1) (negbTE o01); move: ((g1 *m X) ord0 ord0) ((g1 *m X) o1 ord0) => x y.
  by rewrite /GRing.add /GRing.mul /GRing.opp /GRing.one /= => E; lra.
have [t Ht] := rapidity S1; pose g2 := bst t *m g1; have Hg2 : H g2 by apply: HM.
have [Lg Pg] := HL Hg2.
have L2 : lor (g2 *m X) by apply: lorM.
have Z2 (i : I) : i != ord0 -> (g2 *m X) i ord0 = 0.
  move=> Hi; rewrite -mulmxA bstE (negbTE Hi); case: eqP => [_|/eqP h2]; first exact: Ht.
  by apply: Z1; rewrite o1E; move: Hi h2; rewrite -!val_eqE /= o1E; case: (i : nat) => [|[|]].
have P2 : Rlt R0 ((g2 *m X) ord0 ord0) := pos3 Pg PX (lor_sign Lg LX).
have E0 : (g2 *m X) ord0 ord0 = R1.
  have := lor_col ord0 ord0 L2; rewrite (bigD1 ord0) //= big1 ?addr0 => [|k Hk]; last by rewrite Z2 ?mulr0.
  rewrite /sgn !eqxx mul1r => E; have := sq_one E => -[] // E3; rewrite E3 in P2; lra.
have R2 (b : I) : b != ord0 -> (g2 *m X) ord0 b = 0.
  move=> Hb; have := lor_col ord0 b L2; rewrite eq_sym (negbTE Hb) (bigD1 ord0) //= big1 ?addr0 => [|k Hk].
    by rewrite /sgn eqxx mul1r E0 mul1r.
  by rewrite Z2 // mulr0 mul0r.
have O2 : (g2 *m X)^T *m (g2 *m X) = 1%:M.
  apply/matrixP=> b c; rewrite !mxE.
  have := lor_col b c L2; rewrite (bigD1 ord0) //= [in X in _ -> X](bigD1 ord0) //= [(_)^T _ _]mxE.
  have -> : \sum_(i | i != ord0) (g2 *m X)^T b i * (g2 *m X) i c = - \sum_(i | i != ord0) sgn i * (g2 *m X) i b * (g2 *m X) i c.
    by rewrite -sumrN; apply: eq_bigr => i /negbTE Hi; rewrite mxE /sgn Hi mulN1r mulNr opprK.
  set S := \sum_(i | _) _; rewrite /sgn eqxx mul1r.
  have [->|Hb] := eqVneq b ord0.
    rewrite E0 mul1r; have [<-|Hc] := eqVneq ord0 c.
      rewrite E0 -[R1]/(1 : RR) => E; have -> : S = 0 by apply: (addrI (1 : RR)); rewrite E addr0.
      by rewrite subr0.
    by rewrite R2 1?eq_sym // add0r => ->; rewrite oppr0 addr0.
  rewrite (R2 b Hb) mul0r !add0r => ->; case: eqP => _; by rewrite ?opprK ?oppr0.
have S2 : std 1 (g2 *m X).
  move=> a b; rewrite ltnS leqn0 => Hb; have -> : b = ord0 by apply/eqP.
  by have [->|Ha] := eqVneq a ord0; [exact: E0 | exact: Z2].
have [g3 Hg3 E3] := @gen_so m.+1 H 1 H1 HM HG HD (g2 *m X) isT S2 O2.
exists (g3 *m g2); first exact: HM.
rewrite -mulmxA E3 det_mulmx DX HD // mul1r; apply/matrixP=> a b; rewrite !mxE.
by case: eqP => // _; rewrite if_same.
Qed.
End Lor.
