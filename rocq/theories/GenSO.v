(** * GenSO: plane rotations generate the special orthogonal group. *)
From Coq Require Import Reals Lra Ring.
From mathcomp Require Import all_ssreflect all_algebra.
From Verif Require Import Rstruct Expm RField GenSL.
Set Implicit Arguments.
Unset Strict Implicit.
Unset Printing Implicit Defensive.
Import GRing.Theory.
Local Open Scope ring_scope.

(** ** angles *)
Lemma angle (a b : R) : exists t, Rplus (Rmult (Ropp (sin t)) a) (Rmult (cos t) b) = R0.
Proof.
have [->|Ha] := Req_dec a R0; first by exists (Rdiv PI 2); rewrite cos_PI2; lra.
exists (atan (Rdiv b a)).
have C : cos (atan (Rdiv b a)) <> R0.
  by have [h1 h2] := atan_bound (Rdiv b a); apply: Rgt_not_eq; apply: cos_gt_0; lra.
have T : sin (atan (Rdiv b a)) = Rmult (Rdiv b a) (cos (atan (Rdiv b a))).
  by rewrite -{2}(tan_atan (Rdiv b a)) /tan; field.
by rewrite T; field.
Qed.
Lemma sq_one (x : R) : Rmult x x = R1 -> x = R1 \/ x = Ropp R1.
Proof. by move=> H; have : Rmult (Rminus x R1) (Rplus x R1) = R0 by [lra]; case/Rmult_integral; [left | right]; lra. Qed.

Ltac neqs := exfalso; repeat match goal with N : is_true (_ != _) |- _ => move/eqP: N => N end; congruence.
Ltac rr := rewrite /GRing.add /GRing.mul /GRing.opp /GRing.zero /=; ring.
Section Rot.
Variable n : nat.
Local Notation M := 'M[RR]_n.+1.
Local Notation I := 'I_n.+1.
(** rotation by t in the plane of the axes i and j *)
Definition giv (i j : I) (t : R) : M := \matrix_(a, b)
  (if a == i then (if b == i then cos t else if b == j then sin t else 0)
   else if a == j then (if b == i then - (sin t : RR) else if b == j then cos t else 0) else (a == b)%:R).
Lemma sum2 (i j : I) (f : I -> RR) : i != j -> (forall k, k != i -> k != j -> f k = 0) -> \sum_k f k = f i + f j.
Proof.
move=> H Z; rewrite (bigD1 i) //= (bigD1 j) //= 1?eq_sym // big1 ?addr0 // => k /andP[h1 h2]; exact: Z.
Qed.
Lemma givE i j t (X : M) a b : i != j -> (giv i j t *m X) a b =
  if a == i then (cos t : RR) * X i b + (sin t : RR) * X j b
  else if a == j then - (sin t : RR) * X i b + (cos t : RR) * X j b else X a b.
Proof.
move=> H; rewrite mxE; case: ifP => [/eqP ->|Ha].
  rewrite (sum2 H) => [|k /negbTE h1 /negbTE h2]; rewrite !mxE !eqxx ?h1 ?h2 ?mul0r //.
  by rewrite eq_sym (negbTE H).
case: ifP => [/eqP ->|Hj].
  rewrite (sum2 H) => [|k /negbTE h1 /negbTE h2]; rewrite !mxE !eqxx ?h1 ?h2 1?eq_sym ?(negbTE H) ?mul0r //.
rewrite (bigD1 a) //= big1 ?addr0 => [|k /negbTE h1]; rewrite !mxE Ha Hj ?eqxx ?mul1r // eq_sym h1 mul0r.
by [].
Qed.
Lemma giv_inv i j t : i != j -> (giv i j t)^T *m giv i j t = 1%:M.
Proof.
move=> H; have -> : (giv i j t)^T = giv i j (Ropp t).
  apply/matrixP=> a b; rewrite !mxE cos_neg sin_neg.
  case: (eqVneq a i) => Ha; case: (eqVneq b i) => Hb; case: (eqVneq a j) => Haj; case: (eqVneq b j) => Hbj;
    try (by move: H; rewrite -Ha Haj eqxx); try (by move: H; rewrite -Hb Hbj eqxx); rewrite ?[- - _]opprK //;
    try (by rewrite -[Ropp _]/(- (sin t : RR)) opprK); try (by rewrite eq_sym);
    by case: eqP => // E; neqs.
have SC := sin2_cos2 t; rewrite /Rsqr in SC.
apply/matrixP=> a b; rewrite givE // cos_neg sin_neg !mxE !eqxx (eq_sym j) (negbTE H).
case: (eqVneq a i) => Ha; case: (eqVneq b i) => Hb; case: (eqVneq a j) => Haj; case: (eqVneq b j) => Hbj;
  try (by neqs); case: (eqVneq a b) => E; try (by neqs); rewrite ?mulr0 ?addr0 -?[true%:R]/R1 -?[false%:R]/R0 //; rewrite /GRing.add /GRing.mul /GRing.opp /GRing.zero /=; lra.
Qed.
Lemma giv_orth i j t (X : M) : i != j -> X^T *m X = 1%:M -> (giv i j t *m X)^T *m (giv i j t *m X) = 1%:M.
Proof. by move=> H E; rewrite trmx_mul -mulmxA (mulmxA _ (giv i j t)) giv_inv // mul1mx. Qed.

Variables (H : M -> Prop) (q : nat).
Hypotheses (H1 : H 1%:M) (HM : forall X Y, H X -> H Y -> H (X *m Y)).
Hypothesis HG : forall (i j : I) t, (q <= i)%N -> (i < j)%N -> H (giv i j t).

(** clear column c below row p *)
Lemma clear_rot (p c : I) (P : M -> Prop) X : (q <= p)%N ->
  (forall Y (i : I) t, (p < i)%N -> P Y -> P (giv p i t *m Y)) -> P X ->
  exists2 g, H g & P (g *m X) /\ forall i : I, (p < i)%N -> (g *m X) i c = 0.
Proof.
move=> Hp HP PX.
suff L m : (m <= n.+1)%N -> exists2 g, H g & P (g *m X) /\ forall i : I, (p < i)%N -> (i < m)%N -> (g *m X) i c = 0.
  have [g Hg [g1 g2]] := L n.+1 (leqnn _); exists g => //; split=> // i Hi; exact: g2.
elim: m => [_|m IH Hm]; first by exists 1%:M => //; rewrite mul1mx.
have [g Hg [g1 g2]] := IH (ltnW Hm); pose o := Ordinal Hm.
have [Hpm|Hpm] := ltnP p m; last first.
  by exists g => //; split=> // i Hi Him; move: Hi; rewrite ltnNge (leq_trans (Him : (i <= m)%N) Hpm).
have [t Ht] := angle ((g *m X) p c) ((g *m X) o c).
have Ho : p != o by rewrite neq_ltn Hpm.
exists (giv p o t *m g); first by apply: HM => //; apply: HG.
rewrite -mulmxA; split; first exact: HP.
move=> i Hi Him; rewrite givE //; case: eqP => [E|_]; first by rewrite E ltnn in Hi.
case: eqP => // Ne; apply: g2 => //; rewrite ltn_neqAle -ltnS Him andbT; apply/eqP => E; apply: Ne; exact: val_inj.
Qed.
(** in an orthogonal matrix with k standard columns the next one is zero above k *)
Lemma above (X : M) k (c i : I) : X^T *m X = 1%:M -> std k X -> (i < k)%N -> (k <= c)%N -> X i c = 0.
Proof.
move=> E S Hi Hc; have /matrixP/(_ i c) := E; rewrite !mxE.
have -> : (i == c) = false by apply/negbTE; rewrite neq_ltn (leq_trans Hi Hc).
rewrite (bigD1 i) //= big1 ?addr0 => [|a /negbTE Ha]; rewrite mxE S ?eqxx ?mul1r // Ha mul0r.
by [].
Qed.
Lemma diag_one (X : M) (c : I) : X^T *m X = 1%:M -> (forall i, i != c -> X i c = 0) -> X c c = R1 \/ X c c = Ropp R1.
Proof.
move=> E Z; apply: sq_one; have /matrixP/(_ c c) := E; rewrite !mxE eqxx.
by rewrite (bigD1 c) //= big1 ?addr0 => [|a /Z Ha]; rewrite mxE ?Ha ?mulr0.
Qed.
Lemma std_giv k X (i j : I) t : std k X -> (k <= i)%N -> (i < j)%N -> std k (giv i j t *m X).
Proof.
move=> S Hi Hj a b Hb; rewrite givE ?neq_ltn ?Hj // !S //.
have -> : (i == b) = false by apply/negbTE; rewrite neq_ltn (leq_trans Hb Hi) orbT.
have -> : (j == b) = false by apply/negbTE; rewrite neq_ltn (leq_trans Hb (leq_trans Hi (ltnW Hj))) orbT.
rewrite !mulr0 addr0; case: eqP => [->|_].
  by have -> : (i == b) = false by apply/negbTE; rewrite neq_ltn (leq_trans Hb Hi) orbT.
case: eqP => [->|//].
by have -> : (j == b) = false by apply/negbTE; rewrite neq_ltn (leq_trans Hb (leq_trans Hi (ltnW Hj))) orbT.
Qed.
Lemma ord_neq (i j : I) : (i < j)%N -> i != j.
Proof. by move=> h; rewrite neq_ltn h. Qed.
Lemma stepr (c : I) (X : M) : (q <= c)%N -> (c < n)%N -> std c X -> X^T *m X = 1%:M ->
  exists2 g, H g & std c.+1 (g *m X) /\ (g *m X)^T *m (g *m X) = 1%:M.
Proof.
move=> Hq Hc S E.
have [g Hg [[g1 g2] g3]] := @clear_rot c c (fun Y => std c Y /\ Y^T *m Y = 1%:M) X Hq
  (fun Y i t Hi PY => conj (@std_giv c Y c i t PY.1 (leqnn c) Hi) (@giv_orth c i t Y (ord_neq Hi) PY.2)) (conj S E).
have Z (i : I) : i != c -> (g *m X) i c = 0.
  rewrite neq_ltn => /orP[Hi|]; last exact: g3.
  exact: above g2 g1 Hi (leqnn c).
have next Y : std c Y -> (forall i, i != c -> Y i c = 0) -> Y c c = R1 -> std c.+1 Y.
  move=> SY ZY EY a b; rewrite ltnS leq_eqVlt => /orP[/eqP Eb|Hb]; last exact: SY.
  have {b Eb}-> : b = c by apply: val_inj.
  by have [->|Ha] := eqVneq a c; rewrite ?EY // ZY.
have [D|D] := diag_one g2 Z; first by exists g => //; split=> //; apply: next.
have Hn : (c.+1 < n.+1)%N by []; pose d : I := Ordinal Hn.
have Hd : c != d by rewrite neq_ltn /= ltnSn.
exists (giv c d PI *m g); first by apply: HM => //; apply: HG.
rewrite -mulmxA; split; last exact: giv_orth.
apply: next; first by apply: std_giv.
  move=> i Hi; rewrite givE // (negbTE Hi); case: ifP => _; last exact: Z.
  by rewrite (Z d) 1?eq_sym // sin_PI; rr.
by rewrite givE // eqxx cos_PI sin_PI D (Z d) 1?eq_sym // mulr0 addr0 /GRing.mul /=; ring.
Qed.
Hypothesis HD : forall g, H g -> \det g = 1.
Theorem gen_so X : (q <= n)%N -> std q X -> X^T *m X = 1%:M -> exists2 g, H g & g *m X = dlast n (\det X).
Proof.
move=> Hq S E.
have L k : (q <= k)%N -> (k <= n)%N -> exists2 g, H g & std k (g *m X) /\ (g *m X)^T *m (g *m X) = 1%:M.
  elim: k => [|k IH Hqk Hk].
    by rewrite leqn0 => /eqP Eq _; exists 1%:M => //; rewrite mul1mx -Eq.
  move: Hqk; rewrite leq_eqVlt => /orP[/eqP Eq|Hqk]; first by exists 1%:M => //; rewrite mul1mx -Eq.
  have [g Hg [Sg Eg]] := IH Hqk (ltnW Hk); have Hk' : (k < n.+1)%N by apply: leqW.
  have [h Hh [Sh Eh]] := @stepr (Ordinal Hk') (g *m X) Hqk Hk Sg Eg.
  by exists (h *m g); [apply: HM | rewrite -mulmxA].
have [g Hg [Sg Eg]] := L n Hq (leqnn n); exists g => //.
have En : g *m X = dlast n ((g *m X) ord_max ord_max).
  apply/matrixP=> a b; rewrite [RHS]mxE.
  have [->|Hb] := eqVneq b ord_max.
    have [->|Ha] := eqVneq a ord_max => //.
    have Ha' : (a < n)%N by rewrite ltn_neqAle -ltnS ltn_ord andbT.
    exact: (@above (g *m X) n ord_max a Eg Sg Ha' (leqnn n)).
  have Hb' : (b < n)%N by rewrite ltn_neqAle -ltnS ltn_ord andbT.
  by rewrite Sg //; case: eqP => // ->; rewrite (negbTE Hb).
by rewrite En -(det_dlast n ((g *m X) _ _)) -En det_mulmx HD // mul1r.
Qed.
End Rot.
