(** * GenSp: symplectic transvections generate the symplectic group. *)
From mathcomp Require Import all_ssreflect all_algebra.
Set Implicit Arguments.
Unset Strict Implicit.
Unset Printing Implicit Defensive.
Import GRing.Theory.
Local Open Scope ring_scope.

Section Sp.
Variables (F : fieldType) (N : nat).
Local Notation M := 'M[F]_N.
Local Notation I := 'I_N.
Local Notation V := 'cV[F]_N.
(** a symplectic form that pairs the axis a with the axis sg a *)
Variables (sg : I -> I) (s : I -> F).
Hypotheses (sgK : involutive sg) (s0 : forall a, s a != 0) (ssg : forall a, s (sg a) = - s a).
Hypothesis two : (2%:R : F) != 0.
Definition J : M := \matrix_(a, b) (if b == sg a then s a else 0).
Definition om (u v : V) : F := (u^T *m J *m v) 0 0.
Definition e (a : I) : V := delta_mx a 0.
Definition sp (X : M) : Prop := X^T *m J *m X = J.
Definition tv (u : V) (t : F) : M := 1%:M + t *: (u *m (u^T *m J)).

Lemma sgn a : sg a != a.
Proof.
apply/eqP=> E; have := ssg a; rewrite E => /eqP; rewrite -addr_eq0 -mulr2n -mulr_natr mulf_eq0 (negbTE two) orbF => H.
by have := s0 a; rewrite H.
Qed.
Lemma JT : J^T = - J.
Proof.
apply/matrixP=> a b; rewrite !mxE; have [->|H] := eqVneq a (sg b); first by rewrite sgK eqxx ssg opprK.
by case: eqP => [E|_]; rewrite ?oppr0 //; move: H; rewrite E sgK eqxx.
Qed.
Lemma omDl u u' v : om (u + u') v = om u v + om u' v.
Proof. by rewrite /om linearD /= !mulmxDl mxE. Qed.
Lemma omDr u v v' : om u (v + v') = om u v + om u v'.
Proof. by rewrite /om mulmxDr mxE. Qed.
Lemma omNl u v : om (- u) v = - om u v.
Proof. by rewrite /om linearN /= !mulNmx mxE. Qed.
Lemma omNr u v : om u (- v) = - om u v.
Proof. by rewrite /om mulmxN mxE. Qed.
Lemma omC u v : om v u = - om u v.
Proof.
have -> : om v u = ((v^T *m J *m u)^T) 0 0 by rewrite mxE.
by rewrite !trmx_mul trmxK JT /om mulmxA mulmxN mulNmx mxE.
Qed.
Lemma om0 u : om u u = 0.
Proof. by apply/eqP; have /eqP := omC u u; rewrite -addr_eq0 -mulr2n -mulr_natr mulf_eq0 (negbTE two) orbF. Qed.
Lemma om_e v a : om v (e (sg a)) = v a 0 * s a.
Proof.
rewrite /om -colE !mxE (bigD1 a) //= big1 ?addr0 => [|b Hb]; rewrite !mxE ?eqxx //.
by case: eqP => [/(can_inj sgK) E|_]; [rewrite E eqxx in Hb | rewrite mulr0].
Qed.
Lemma om_ee a b : om (e a) (e b) = if b == sg a then s a else 0.
Proof.
rewrite -(sgK b) om_e mxE eqxx andbT sgK; have [->|H] := eqVneq a (sg b); first by rewrite sgK eqxx mul1r.
by rewrite mul0r; case: eqP => // E; rewrite E sgK eqxx in H.
Qed.
Lemma om_sp X u v : sp X -> om (X *m u) (X *m v) = om u v.
Proof. by move=> E; rewrite /om trmx_mul -!mulmxA (mulmxA J) (mulmxA X^T) (mulmxA X^T J) E. Qed.
Lemma spM X Y : sp X -> sp Y -> sp (X *m Y).
Proof. by rewrite /sp => h1 h2; rewrite trmx_mul -{2}h2 -{2}h1 !mulmxA. Qed.
Lemma tvE u t v : tv u t *m v = v + (t * om u v) *: u.
Proof.
rewrite mulmxDl mul1mx -scalemxAl -mulmxA -scalerA; congr (_ + _); congr (_ *: _).
by apply/colP=> a; rewrite [RHS]mxE [LHS]mxE big_ord1 mulrC.
Qed.
Variable H : M -> Prop.
Hypotheses (H1 : H 1%:M) (HM : forall X Y, H X -> H Y -> H (X *m Y)).
Hypothesis HT : forall u t, H (tv u t).
Hypothesis HS : forall X, H X -> sp X.

(** moving v to w, and fixing whatever is orthogonal to w-v *)
Lemma move v w : om v w != 0 -> exists2 g, H g & g *m v = w /\ forall x, om (w - v) x = 0 -> g *m x = x.
Proof.
move=> Hvw; exists (tv (w - v) (- (om v w)^-1)) => //; split=> [|x Hx].
  by rewrite tvE omDl omNl om0 oppr0 addr0 (omC v w) mulrNN mulVf // scale1r addrC subrK.
by rewrite tvE Hx mulr0 scale0r addr0.
Qed.
Variable D : {set I}.
Hypothesis DS : forall a, a \in D -> sg a \in D.
(** the vectors orthogonal to the axes in D *)
Definition perpD (v : V) : Prop := forall a, a \in D -> om v (e a) = 0.
Definition fixD (X : M) : Prop := forall a, a \in D -> X *m e a = e a.
Lemma perp_e c : c \notin D -> perpD (e c).
Proof.
move=> Hc a Ha; rewrite om_ee; case: eqP => // E; rewrite E in Ha; have := DS Ha; by rewrite sgK (negbTE Hc).
Qed.
Lemma perpB v w : perpD v -> perpD w -> perpD (w - v).
Proof. by move=> h1 h2 a Ha; rewrite omDl omNl h1 // h2 // subr0. Qed.
Lemma perpA v w : perpD v -> perpD w -> perpD (w + v).
Proof. by move=> h1 h2 a Ha; rewrite omDl h1 // h2 // addr0. Qed.
Lemma transit v c : perpD v -> v != 0 -> c \notin D -> exists2 g, H g & g *m v = e c /\ fixD g.
Proof.
move=> Pv Nv Hc; have Pc := perp_e Hc.
have [Z|Nz] := eqVneq (om v (e c)) 0; last first.
  have [g Hg [g1 g2]] := move Nz; exists g => //; split=> // a Ha; apply: g2; exact: (perpB Pv Pc).
have Hsc : sg c \notin D by apply: contra Hc => /DS; rewrite sgK.
suff [z [Pz z1 z2]] : exists z, [/\ perpD z, om v z != 0 & om z (e c) != 0].
  have [g Hg [g1 g2]] := move z1; have [h Hh [h1 h2]] := move z2.
  exists (h *m g); [exact: HM | split=> [|a Ha]]; rewrite -mulmxA ?g1 //.
  by rewrite g2 ?h2 //; [apply: (perpB Pz Pc) | apply: (perpB Pv Pz)].
have [b Hb] : exists b, v b 0 != 0.
  apply/existsP; apply: contraNT Nv; rewrite negb_exists => /forallP K.
  by apply/eqP/colP=> b; rewrite mxE; apply/eqP; have := K b; rewrite negbK.
have Hsb : sg b \notin D.
  by apply/negP=> HD; have /eqP := Pv _ HD; rewrite om_e mulf_eq0 (negbTE Hb) (negbTE (s0 b)).
have B1 : om v (e (sg b)) != 0 by rewrite om_e mulf_neq0.
have C2 : om (e (sg c)) (e c) != 0 by rewrite om_ee sgK eqxx.
have [Z1|N1] := eqVneq (om v (e (sg c))) 0; last by exists (e (sg c)); split=> //; apply: perp_e.
have [Z2|N2] := eqVneq (om (e (sg b)) (e c)) 0; last by exists (e (sg b)); split=> //; apply: perp_e.
exists (e (sg b) + e (sg c)); split; first by apply: perpA; apply: perp_e.
  by rewrite omDr Z1 addr0.
by rewrite omDl Z2 add0r.
Qed.
(** fixing two more axes *)
Lemma stepD X c : sp X -> fixD X -> c \notin D ->
  exists2 g, H g & [/\ fixD (g *m X), (g *m X) *m e c = e c & (g *m X) *m e (sg c) = e (sg c)].
Proof.
move=> SX FX Hc; have Hsc : sg c \notin D by apply: contra Hc => /DS; rewrite sgK.
have PX Y d : sp Y -> fixD Y -> d \notin D -> perpD (Y *m e d).
  by move=> SY FY Hd a Ha; rewrite -{1}(FY a Ha) om_sp //; exact: perp_e.
have NX Y d : sp Y -> Y *m e d != 0.
  move=> SY; apply/eqP=> E; have := om_sp (e d) (e (sg d)) SY; rewrite E om_ee eqxx /om trmx0 !mul0mx mxE => /esym/eqP.
  by rewrite (negbTE (s0 d)).
have [g Hg [g1 g2]] := transit (PX X c SX FX Hc) (NX X c SX) Hc.
pose Y := g *m X; have SY : sp Y by apply: spM => //; apply: HS.
have FY : fixD Y by move=> a Ha; rewrite -mulmxA FX // g2.
have Yc : Y *m e c = e c by rewrite -mulmxA.
pose w := Y *m e (sg c); have Pw : perpD w by apply: PX.
have Ow : om (e c) w = s c by rewrite -{1}Yc om_sp // om_ee eqxx.
have Osc : om (e c) (e (sg c)) = s c by rewrite om_ee eqxx.
have Pc := perp_e Hc; have Psc := perp_e Hsc.
suff [h Hh [h1 h2 h3]] : exists2 h, H h & [/\ h *m w = e (sg c), h *m e c = e c & fixD h].
  exists (h *m g); first exact: HM.
  rewrite -(mulmxA h g X) -/Y; split=> [a Ha||]; rewrite -mulmxA ?Yc //; by rewrite FY // h3.
have [Z|Nz] := eqVneq (om w (e (sg c))) 0; last first.
  have [h Hh [h1 h2]] := move Nz; exists h => //; split=> // [|a Ha]; apply: h2; last exact: (perpB Pw Psc).
  by rewrite omC omDr omNr Ow Osc subrr oppr0.
have z1 : om w (e c + w) != 0 by rewrite omDr om0 addr0 omC Ow oppr_eq0.
have z2 : om (e c + w) (e (sg c)) != 0 by rewrite omDl Z addr0 Osc.
have [h Hh [h1 h2]] := move z1; have [k Hk [k1 k2]] := move z2.
have Pz : perpD (e c + w) by apply: perpA.
exists (k *m h); first exact: HM.
split=> [||a Ha]; rewrite -mulmxA ?h1 //.
  rewrite h2 ?k2 //; first by rewrite omC omDr omNr omDr om0 Ow Osc add0r subrr oppr0.
  by rewrite addrK om0.
by rewrite h2 ?k2 //; [apply: (perpB Pz Psc) | apply: (perpB Pw Pz)].
Qed.
End Sp.

Section Gen.
Variables (F : fieldType) (N : nat) (sg : 'I_N -> 'I_N) (s : 'I_N -> F).
Hypotheses (sgK : involutive sg) (s0 : forall a, s a != 0) (ssg : forall a, s (sg a) = - s a).
Hypothesis two : (2%:R : F) != 0.
Variable H : 'M[F]_N -> Prop.
Hypotheses (H1 : H 1%:M) (HM : forall X Y, H X -> H Y -> H (X *m Y)).
Hypothesis HT : forall u t, H (tv sg s u t).
Hypothesis HS : forall X, H X -> sp sg s X.
Theorem gen_sp X : sp sg s X -> exists2 g, H g & g *m X = 1%:M.
Proof.
move=> SX.
suff L k : forall (D : {set 'I_N}) Y, sp sg s Y -> (#|~: D| <= k)%N -> (forall a, a \in D -> sg a \in D) -> fixD D Y -> exists2 g, H g & g *m Y = 1%:M.
  by apply: (L #|~: (set0 : {set 'I_N})| set0 X SX (leqnn _)) => a; rewrite inE.
elim: k => [|k IH] D Y SY.
  rewrite leqn0 cards_eq0 => /eqP ED _ FY; exists 1%:M => //; rewrite mul1mx.
  apply/matrixP=> a b; have Hb : b \in D by rewrite -(setCK D) ED setC0 inE.
  by have /colP/(_ a) := FY b Hb; rewrite -colE !mxE eqxx andbT.
move=> Hk DS FY; have [E0|[c]] := set_0Vmem (~: D); first by apply: (IH D) => //; rewrite E0 cards0.
rewrite inE => Hc; have [g Hg [g1 g2 g3]] := stepD sgK s0 ssg two HM HT HS DS SY FY Hc.
pose D' := c |: (sg c |: D).
have [||||h Hh E] := IH D' (g *m Y).
- by apply: spM => //; apply: HS.
- rewrite -ltnS; apply: leq_trans Hk; apply: proper_card; rewrite properE; apply/andP; split.
    by apply/subsetP=> a; rewrite !inE !negb_or => /andP[_ /andP[_ ->]].
  by apply/subsetPn; exists c; rewrite !inE ?eqxx.
- move=> a; rewrite !inE => /orP[/eqP ->|/orP[/eqP ->|Ha]]; rewrite ?sgK ?eqxx ?orbT //.
  by rewrite (DS a Ha) !orbT.
- by move=> a; rewrite !inE => /orP[/eqP ->|/orP[/eqP ->|/g1]].
by exists (h *m g); [apply: HM | rewrite -mulmxA].
Qed.
End Gen.
