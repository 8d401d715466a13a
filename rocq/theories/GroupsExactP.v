(** * GroupsExactP: the group generated by a product group. *)
From Coq Require Import Reals Lra String.
From Coquelicot Require Import Coquelicot.
From mathcomp Require Import all_ssreflect all_algebra.
From mathcomp Require Import zify.
From Verif Require Import Np NpLemmas Spec SpecLemmas LinOp LinOpSpec LinOpInv MxBridge RepSpec RhoProofs Rstruct Expm GrpSpec RField GenSL GenSO.
From Verif Require Import Groups GroupsSpec GroupsPerm GroupsSpecR ExactSpec GroupsLoop GroupsLie GroupsInit GroupsCtor GroupsThm GroupsFlag GroupsReal GroupsForm GroupsDet GroupsGen GroupsTol GroupsProd GroupsExact.
Set Implicit Arguments.
Unset Strict Implicit.
Unset Printing Implicit Defensive.
Import GRing.Theory.
Local Open Scope ring_scope.

Section Kron.
Variables d1 d2 : nat.
Local Notation d := (d1 * d2)%N.
Local Notation lft A := (fkron A (fid RR d2)).
Local Notation rgt B := (fkron (fid RR d1) B).
Local Notation sq n A := (fr A = n /\ fc A = n).
Definition ksum (A B : fmat RR) : fmat RR := fadd (lft A) (rgt B).

Lemma lr_sz (A B : fmat RR) : sq d1 A -> sq d2 B -> sq d (fkron A B).
Proof. by move=> [a1 a2] [b1 b2] /=; rewrite a1 a2 b1 b2. Qed.
Lemma ksum_sz A B : sq d1 A -> sq d (ksum A B).
Proof. by move=> [a1 a2] /=; rewrite a1 a2. Qed.
Lemma lr_mul A B : sq d1 A -> sq d2 B -> meq (fmul (lft A) (rgt B)) (fkron A B).
Proof.
move=> [a1 a2] [b1 b2]; apply: meq_trans (fmul_fkron _ _) _ => //=; apply: meq_fkron; [exact: fmul_id_r | exact: fmul_id_l].
Qed.
Lemma rl_mul A B : sq d1 A -> sq d2 B -> meq (fmul (rgt B) (lft A)) (fkron A B).
Proof.
move=> [a1 a2] [b1 b2]; apply: meq_trans (fmul_fkron _ _) _ => //=; apply: meq_fkron; [exact: fmul_id_l | exact: fmul_id_r].
Qed.
Lemma ll_mul A B : sq d1 A -> sq d1 B -> meq (fmul (lft A) (lft B)) (lft (fmul A B)).
Proof.
by move=> [a1 a2] [b1 b2]; apply: meq_trans (fmul_fkron _ _) _ => //=; rewrite ?a2 ?b1 //; apply: meq_fkron; [exact: meq_refl | exact: fmul_id_l].
Qed.
Lemma rr_mul A B : sq d2 A -> sq d2 B -> meq (fmul (rgt A) (rgt B)) (rgt (fmul A B)).
Proof.
by move=> [a1 a2] [b1 b2]; apply: meq_trans (fmul_fkron _ _) _ => //=; rewrite ?a2 ?b1 //; apply: meq_fkron; [exact: fmul_id_l | exact: meq_refl].
Qed.
Lemma ksum_meq A A' B B' : sq d1 A -> sq d2 B -> meq A A' -> meq B B' -> meq (ksum A B) (ksum A' B').
Proof.
move=> [a1 a2] [b1 b2] EA EB.
have [x1 x2 x3] := meq_fkron EA (meq_refl (fid RR d2)); have [y1 y2 y3] := meq_fkron (meq_refl (fid RR d1)) EB.
split=> // i j Hi Hj; rewrite /ksum /fadd -!/(fkron _ _) -[LHS]/(fe (lft A) i j + fe (rgt B) i j) -[RHS]/(fe (lft A') i j + fe (rgt B') i j) x3 // y3 //.
  by move: Hi; rewrite /= a1 b1.
by move: Hj; rewrite /= a2 b2.
Qed.
Lemma ksum_lin c A A' B B' : sq d1 A -> sq d1 A' -> sq d2 B -> sq d2 B' ->
  meq (fadd (fscale c (ksum A B)) (ksum A' B')) (ksum (fadd (fscale c A) A') (fadd (fscale c B) B')).
Proof.
move=> [a1 a2] [a3 a4] [b1 b2] [b3 b4]; split=> //= i j Hi Hj; rewrite ?b1 ?b2 ?b3 ?b4.
rewrite !mulrDl !mulrDr; rewrite -!addrA; congr (_ + _); first by rewrite mulrA.
by rewrite addrCA; congr (_ + _); congr (_ + _); rewrite mulrCA.
Qed.
Lemma meq_mx n (X Y : fmat RR) : sq n X -> sq n Y -> mxf n n X = mxf n n Y -> meq X Y.
Proof. by move=> [x1 x2] [y1 y2] E; apply: meq_mxf; rewrite ?x1 ?x2 ?y1 ?y2. Qed.
Lemma mx_meq n (X Y : fmat RR) : meq X Y -> sq n X -> mxf n n X = mxf n n Y.
Proof. by move=> E [x1 x2]; apply: mxf_meq. Qed.
Lemma mxf_add (X Y : fmat RR) n : mxf n n (fadd X Y) = mxf n n X + mxf n n Y.
Proof. by apply/matrixP=> i j; rewrite !mxE. Qed.
Lemma mxf_sub (X Y : fmat RR) n : mxf n n (fsub X Y) = mxf n n X - mxf n n Y.
Proof. by apply/matrixP=> i j; rewrite !mxE. Qed.
Lemma mxf_mul' (X Y : fmat RR) n : sq n X -> sq n Y -> mxf n n (fmul X Y) = mxf n n X *m mxf n n Y.
Proof. by move=> [x1 x2] [y1 y2]; rewrite (@mxf_mul _ _ _ n). Qed.
Lemma kron_subl (A A' : fmat RR) : meq (lft (fsub A A')) (fsub (lft A) (lft A')).
Proof. by split=> //= i j _ _; rewrite mulrBl. Qed.
Lemma kron_subr (A A' : fmat RR) : sq d2 A -> sq d2 A' -> meq (rgt (fsub A A')) (fsub (rgt A) (rgt A')).
Proof. by move=> [a1 a2] [a3 a4]; split=> //= i j _ _; rewrite mulrBr a1 a2 a3 a4. Qed.
Lemma ksum_br A A' B B' : sq d1 A -> sq d1 A' -> sq d2 B -> sq d2 B' ->
  meq (fsub (fmul (ksum A B) (ksum A' B')) (fmul (ksum A' B') (ksum A B)))
      (ksum (fsub (fmul A A') (fmul A' A)) (fsub (fmul B B') (fmul B' B))).
Proof.
move=> SA SA' SB SB'; have [a1 a2] := SA; have [a3 a4] := SA'; have [b1 b2] := SB; have [b3 b4] := SB'.
have I1 : sq d1 (fid RR d1) by []; have I2 : sq d2 (fid RR d2) by [].
have L1 := lr_sz SA I2; have L2 := lr_sz SA' I2; have M1 := lr_sz I1 SB; have M2 := lr_sz I1 SB'.
have K1 := ksum_sz B SA; have K2 := ksum_sz B' SA'.
have P1 : sq d1 (fmul A A') by []. have P2 : sq d1 (fmul A' A) by []. have P3 : sq d2 (fmul B B') by []. have P4 : sq d2 (fmul B' B) by [].
apply: (@meq_mx d) ; [by rewrite /= a1 a4 | by rewrite /= a1 a4 | ].
rewrite mxf_sub !mxf_mul' // !mxf_add !mulmxDl !mulmxDr -!mxf_mul' //.
have Q X Y : meq X Y -> sq d X -> mxf d d X = mxf d d Y := @mx_meq d X Y.
have -> : mxf d d (lft (fsub (fmul A A') (fmul A' A))) = mxf d d (lft (fmul A A')) - mxf d d (lft (fmul A' A)).
  by rewrite -mxf_sub; apply: Q (kron_subl _ _) _; rewrite /= a1 a4.
have -> : mxf d d (rgt (fsub (fmul B B') (fmul B' B))) = mxf d d (rgt (fmul B B')) - mxf d d (rgt (fmul B' B)).
  by rewrite -mxf_sub; apply: Q (kron_subr P3 P4) _; rewrite /= b1 b4.
have Z (X Y : fmat RR) : sq d X -> sq d Y -> sq d (fmul X Y) by move=> [? ?] [? ?].
rewrite (Q _ _ (ll_mul SA SA') (Z _ _ L1 L2)) (Q _ _ (ll_mul SA' SA) (Z _ _ L2 L1)).
rewrite (Q _ _ (rr_mul SB SB') (Z _ _ M1 M2)) (Q _ _ (rr_mul SB' SB) (Z _ _ M2 M1)).
rewrite (Q _ _ (lr_mul SA SB') (Z _ _ L1 M2)) (Q _ _ (lr_mul SA' SB) (Z _ _ L2 M1)).
rewrite (Q _ _ (rl_mul SA SB') (Z _ _ M2 L1)) (Q _ _ (rl_mul SA' SB) (Z _ _ M1 L2)).
apply/matrixP=> i j; rewrite !mxE /GRing.add /GRing.opp /=; ring.
Qed.

(** *** exponentials *)
Lemma kron_exp A B E F : sq d1 A -> sq d2 B -> is_exp d1 A E -> is_exp d2 B F -> is_exp d (ksum A B) (fkron E F).
Proof.
move=> SA SB HE HF; have [a1 a2] := SA; have [b1 b2] := SB.
have one (X : fmat RR) : meq X (fscale R1 X) by split=> //= i j _ _; rewrite -[R1]/(1 : RR) mul1r.
have EE : meq E (expm d1 A R1) by apply: is_exp_expm => //; exact: is_exp_meq (one A) (meq_refl _) a1 a2 HE.
have EF : meq F (expm d2 B R1) by apply: is_exp_expm => //; exact: is_exp_meq (one B) (meq_refl _) b1 b2 HF.
have [k1 k2] := ksum_sz B SA.
have C : meq (fkron (expm d1 A R1) (expm d2 B R1)) (expm d (ksum A B) R1).
  apply: (@exp_curve d (ksum A B) (fun t => fkron (expm d1 A t) (expm d2 B t)) R1) => //.
    apply: meq_trans (meq_fkron (expm0 _ _) (expm0 _ _)) _; exact: fkron_id.
  move=> t i j Hi Hj.
  have p2 : (0 < d2)%N by case: (d2) Hi => //; rewrite muln0.
  have Hi1 : (i %/ d2 < d1)%N by rewrite ltn_divLR.
  have Hj1 : (j %/ d2 < d1)%N by rewrite ltn_divLR.
  have Hi2 : (i %% d2 < d2)%N by rewrite ltn_mod.
  have Hj2 : (j %% d2 < d2)%N by rewrite ltn_mod.
  apply: dl_ext (derivable_pt_lim_mult _ _ t _ _ (expm_der_l a2 t Hi1 Hj1) (expm_der_l b2 t Hi2 Hj2)) => [s //|].
  set X := expm d1 A t; set Y := expm d2 B t.
  have SX : sq d1 X by []; have SY : sq d2 Y by [].
  have M1 : meq (fmul (lft A) (fkron X Y)) (fkron (fmul A X) Y).
    by apply: meq_trans (fmul_fkron _ _) _ => //; apply: meq_fkron; [exact: meq_refl | exact: fmul_id_l].
  have M2 : meq (fmul (rgt B) (fkron X Y)) (fkron X (fmul B Y)).
    by apply: meq_trans (fmul_fkron _ _) _ => //; apply: meq_fkron; [exact: fmul_id_l | exact: meq_refl].
  have -> : fe (fmul (ksum A B) (fkron X Y)) i j = fe (fmul (lft A) (fkron X Y)) i j + fe (fmul (rgt B) (fkron X Y)) i j.
    by rewrite /= a2 b2 -big_split /=; apply: eq_bigr => l _; rewrite ?b1 ?b2 mulrDl.
  have [_ _ ->] := M1; [|by rewrite /= a1|by []].
  have [_ _ ->] := M2; [|by rewrite /= b1|by []].
  by rewrite /= b1.
apply: is_exp_meq (expm_is (A := ksum A B) (n := d) k2 R1) => //.
  exact: meq_sym (one _).
apply: meq_trans (meq_sym C) _; apply: meq_fkron; exact: meq_sym.
Qed.

(** *** inverses *)
Lemma kron_inv_l Y Z V : (0 < d2)%N -> sq d1 Y -> sq d2 Z -> sq d V -> meq (fmul (fkron Y Z) V) (fid RR d) ->
  exists2 W, sq d1 W & meq (fmul Y W) (fid RR d1).
Proof.
move=> p2 [y1 y2] [z1 z2] [v1 v2] [_ _ E].
exists (FM d1 d1 (fun a c => \sum_(0 <= b < d2) fe Z 0 b * fe V (a * d2 + b)%N (c * d2)%N)) => //; split=> //= i j; rewrite y1 => Hi Hj.
have L x : (x < d1)%N -> (x * d2 < d)%N by rewrite ltn_mul2r p2.
have := E (i * d2)%N (j * d2)%N; rewrite /= y1 z1 v2 => /(_ (L _ Hi) (L _ Hj)).
rewrite y2 z2 sum_mul => H; rewrite [RHS](_ : _ = ((i * d2 == j * d2)%N)%:R); last by rewrite eqn_pmul2r.
rewrite -H; apply: eq_sum => a Ha; rewrite big_distrr /=; apply: eq_sum => b Hb.
by rewrite idx_div // idx_mod // mulnK // modnMl mulrA.
Qed.
Lemma kron_inv_r Y Z V : (0 < d1)%N -> sq d1 Y -> sq d2 Z -> sq d V -> meq (fmul (fkron Y Z) V) (fid RR d) ->
  exists2 W, sq d2 W & meq (fmul Z W) (fid RR d2).
Proof.
move=> p1 [y1 y2] [z1 z2] [v1 v2] [_ _ E].
exists (FM d2 d2 (fun b c => \sum_(0 <= a < d1) fe Y 0 a * fe V (a * d2 + b)%N c)) => //; split=> //= i j; rewrite z1 => Hi Hj.
have L x : (x < d2)%N -> (x < d)%N by move=> H; apply: leq_trans H _; exact: leq_pmull.
have := E i j; rewrite /= y1 z1 v2 => /(_ (L _ Hi) (L _ Hj)).
rewrite y2 z2 sum_mul => H; rewrite -H exchange_big; apply: eq_sum => b Hb; rewrite big_distrr /=; apply: eq_sum => a Ha.
by rewrite idx_div // idx_mod // (divn_small Hi) (modn_small Hi) mulrA [_ * fe Y _ _]mulrC.
Qed.
Lemma inv_right n (X W : fmat RR) : sq n X -> sq n W -> meq (fmul X W) (fid RR n) -> meq (fmul W X) (fid RR n).
Proof.
move=> SX SW H; have [x1 x2] := SX; have [w1 w2] := SW.
apply: (@meq_mx n) => //; rewrite mxf_mul' // mxf_id; apply: mulmx1C.
by rewrite -mxf_mul' // -mxf_id; apply: mx_meq H _.
Qed.

(** *** the group *)
Section Groups.
Variables As1 As2 hs1 hs2 As hs : seq (fmat RR).
Hypotheses (p1 : (0 < d1)%N) (p2 : (0 < d2)%N).
Hypotheses (S1 : forall A, List.In A As1 -> sq d1 A) (S2 : forall A, List.In A As2 -> sq d2 A)
           (T1 : forall A, List.In A hs1 -> sq d1 A) (T2 : forall A, List.In A hs2 -> sq d2 A).
Hypotheses (EA : meqs As (map (left_ax d2) As1 ++ map (right_ax d1) As2))
           (Eh : meqs hs (map (left_ax d2) hs1 ++ map (right_ax d1) hs2)).
Lemma meqs_in (l l' : seq (fmat RR)) A : meqs l l' -> List.In A l -> exists2 B, List.In B l' & meq A B.
Proof. by elim=> // X Y l1 l2 H _ IH /= [<-|/IH[B HB E]]; [exists Y => //; left | exists B => //; right]. Qed.
Lemma meqs_in' (l l' : seq (fmat RR)) A : meqs l l' -> List.In A l' -> exists2 B, List.In B l & meq B A.
Proof. by elim=> // X Y l1 l2 H _ IH /= [<-|/IH[B HB E]]; [exists X => //; left | exists B => //; right]. Qed.

Definition spanz n (l : seq (fmat RR)) (A : fmat RR) : Prop := lie_span l A \/ meq A (fzero RR n n).
Lemma span_sz n l A : (forall A, List.In A l -> sq n A) -> lie_span l A -> sq n A.
Proof.
move=> H; elim=> {A} [A X /H[h1 h2] [-> -> _]|c X Y Z _ [x1 x2] _ _ [-> -> _]|X Y Z _ [x1 x2] _ [y1 y2] [-> -> _]] //.
Qed.
Lemma spanz_sz n l A : (forall A, List.In A l -> sq n A) -> spanz n l A -> sq n A.
Proof. by move=> H [/(span_sz H)//|[-> -> _]]. Qed.
Lemma spanz_lin n l c A B : (forall A, List.In A l -> sq n A) -> spanz n l A -> spanz n l B -> spanz n l (fadd (fscale c A) B).
Proof.
move=> H HA HB; have [a1 a2] := spanz_sz H HA; have [b1 b2] := spanz_sz H HB.
case: HA => [HA|[_ _ ZA]]; case: HB => [HB|[_ _ ZB]].
- by left; apply: LS_lin HA HB (meq_refl _).
- left; apply: (LS_lin (c := c - 1) HA HA); split=> //= i j; rewrite a1 a2 => Hi Hj; rewrite ZB ?b1 ?b2 //= addr0.
  by rewrite mulrBl mul1r subrK.
- left; apply: (LS_lin (c := 0) HB HB); split; rewrite /= ?a1 ?a2 ?b1 ?b2 // => i j Hi Hj.
  by rewrite ZA ?a1 ?a2 //= mulr0 mul0r.
right; split=> //= i j; rewrite a1 a2 => Hi Hj; by rewrite ZA ?a1 ?a2 // ZB ?b1 ?b2 //= mulr0 addr0.
Qed.
Lemma spanz_br n l A B : (forall A, List.In A l -> sq n A) -> spanz n l A -> spanz n l B -> spanz n l (fsub (fmul A B) (fmul B A)).
Proof.
move=> H HA HB; have [a1 a2] := spanz_sz H HA; have [b1 b2] := spanz_sz H HB.
case: HA => [HA|[_ _ ZA]]; last first.
  right; split=> //= i j; rewrite a1 b2 => Hi Hj.
  by rewrite a2 !sum0 ?subr0 // => l0 Hl; rewrite ZA ?a1 ?a2 //= ?mulr0 ?mul0r.
case: HB => [HB|[_ _ ZB]]; last first.
  right; split=> //= i j; rewrite a1 b2 => Hi Hj.
  by rewrite a2 !sum0 ?subr0 // => l0 Hl; rewrite ZB ?b1 ?b2 //= ?mulr0 ?mul0r.
by left; apply: LS_br HA HB (meq_refl _).
Qed.
Lemma spanz_exp n l h A E : spanz n l A -> is_exp n A E -> in_group n l h E.
Proof.
move=> [H|Z] HE; first exact: I_exp H HE.
apply: I_one; have [z1 z2 _] := Z.
have : meq E (expm n (fzero RR n n) R0).
  apply: is_exp_uniq (is_exp_meq Z (meq_refl _) z1 z2 HE) _.
  apply: is_exp_meq (expm_is (A := fzero RR n n) (n := n) erefl R0) => //.
  by split=> //= i j _ _; rewrite mulr0.
by move=> H; apply: meq_trans H _; exact: expm0.
Qed.

Lemma span_prod C : lie_span As C -> exists A B, [/\ spanz d1 As1 A, spanz d2 As2 B & meq C (ksum A B)].
Proof.
have Z1 : sq d1 (fzero RR d1 d1) by []; have Z2 : sq d2 (fzero RR d2 d2) by [].
elim=> {C} [C X /(meqs_in EA)[D /List.in_app_iff HD ED] E|c X Y Z _ [A [B [HA HB EX]]] _ [A' [B' [HA' HB' EY]]] E
  |X Y Z _ [A [B [HA HB EX]]] _ [A' [B' [HA' HB' EY]]] E].
- case: HD => /List.in_map_iff[K [EK HK]]; subst D.
    have [k1 k2] := S1 HK; exists K, (fzero RR d2 d2); split; [by left; apply: LS_gen HK (meq_refl _) | by right | ].
    apply: meq_trans E _; apply: meq_trans ED _; split=> //= i j _ _; by rewrite mulr0 addr0.
  have [k1 k2] := S2 HK; exists (fzero RR d1 d1), K; split; [by right | by left; apply: LS_gen HK (meq_refl _) | ].
  apply: meq_trans E _; apply: meq_trans ED _; split; rewrite /= ?k1 ?k2 // => i j _ _; by rewrite mul0r add0r.
- have SA := spanz_sz S1 HA; have SB := spanz_sz S2 HB; have SA' := spanz_sz S1 HA'; have SB' := spanz_sz S2 HB'.
  exists (fadd (fscale c A) A'), (fadd (fscale c B) B'); split; [exact: spanz_lin | exact: spanz_lin |].
  apply: meq_trans E _; apply: meq_trans (ksum_lin _ SA SA' SB SB').
  have [x1 x2 x3] := EX; have [y1 y2 y3] := EY; have [k1 k2] := ksum_sz B SA; have [k3 k4] := ksum_sz B' SA'.
  split=> // i j Hi Hj; rewrite -[LHS]/(c * fe X i j + fe Y i j) x3 // y3 //.
    by move: Hi; rewrite /= x1 y1 k1 k3.
  by move: Hj; rewrite /= x2 y2 k2 k4.
have SA := spanz_sz S1 HA; have SB := spanz_sz S2 HB; have SA' := spanz_sz S1 HA'; have SB' := spanz_sz S2 HB'.
exists (fsub (fmul A A') (fmul A' A)), (fsub (fmul B B') (fmul B' B)); split; [exact: spanz_br | exact: spanz_br |].
apply: meq_trans E _; apply: meq_trans (ksum_br SA SA' SB SB').
have [x1 x2 _] := EX; have [y1 y2 _] := EY; have [k1 k2] := ksum_sz B SA; have [k3 k4] := ksum_sz B' SA'.
have F1 : meq (fmul X Y) (fmul (ksum A B) (ksum A' B')) by apply: meq_fmul => //; rewrite x2 y1 k2 k3.
have F2 : meq (fmul Y X) (fmul (ksum A' B') (ksum A B)) by apply: meq_fmul => //; rewrite y2 x1 k1 k4.
have [q1 q2 q3] := F1; have [r1 r2 r3] := F2; split=> // i j Hi Hj.
rewrite -[LHS]/(fe (fmul X Y) i j - fe (fmul Y X) i j) q3 // r3 //.
  by move: Hi; rewrite /= x1 y1 k1 k3.
by move: Hj; rewrite /= x2 y2 k2 k4.
Qed.
Lemma span_left A : lie_span As1 A -> sq d1 A /\ lie_span As (lft A).
Proof.
move=> H; split; first exact: span_sz S1 H.
elim: H => {A} [A X HA E|c X Y Z HX LX HY LY E|X Y Z HX LX HY LY E].
- have [B HB EB] := meqs_in' EA (List.in_or_app _ _ _ (or_introl (List.in_map (left_ax d2) _ _ HA))).
  apply: LS_gen HB _; apply: meq_trans (meq_sym EB); exact: meq_fkron.
- have [x1 x2] := span_sz S1 HX; have [y1 y2] := span_sz S1 HY.
  apply: (LS_lin (c := c) LX LY); apply: meq_trans (meq_fkron E (meq_refl _)) _; split=> //= i j _ _; by rewrite mulrDl mulrA.
have SX := span_sz S1 HX; have SY := span_sz S1 HY; have [x1 x2] := SX; have [y1 y2] := SY.
apply: (LS_br LX LY); apply: meq_trans (meq_fkron E (meq_refl _)) _; apply: meq_trans (kron_subl _ _) _.
have [q1 q2 q3] := meq_sym (ll_mul SX SY); have [r1 r2 r3] := meq_sym (ll_mul SY SX).
split=> // i j Hi Hj; rewrite -[LHS]/(fe (lft (fmul X Y)) i j - fe (lft (fmul Y X)) i j) q3 // r3 //.
  by move: Hi; rewrite /= x1 y1.
by move: Hj; rewrite /= x2 y2.
Qed.
Lemma span_right A : lie_span As2 A -> sq d2 A /\ lie_span As (rgt A).
Proof.
move=> H; split; first exact: span_sz S2 H.
elim: H => {A} [A X HA E|c X Y Z HX LX HY LY E|X Y Z HX LX HY LY E].
- have [B HB EB] := meqs_in' EA (List.in_or_app _ _ _ (or_intror (List.in_map (right_ax d1) _ _ HA))).
  apply: LS_gen HB _; apply: meq_trans (meq_sym EB); exact: meq_fkron.
- have [x1 x2] := span_sz S2 HX; have [y1 y2] := span_sz S2 HY.
  apply: (LS_lin (c := c) LX LY); apply: meq_trans (meq_fkron (meq_refl _) E) _; split=> //= i j _ _.
  by rewrite mulrDr mulrCA x1 x2 y1 y2.
have SX := span_sz S2 HX; have SY := span_sz S2 HY; have [x1 x2] := SX; have [y1 y2] := SY.
apply: (LS_br LX LY); apply: meq_trans (meq_fkron (meq_refl _) E) _; apply: meq_trans (kron_subr _ _) _ => //.
have [q1 q2 q3] := meq_sym (rr_mul SX SY); have [r1 r2 r3] := meq_sym (rr_mul SY SX).
split=> // i j Hi Hj; rewrite -[LHS]/(fe (rgt (fmul X Y)) i j - fe (rgt (fmul Y X)) i j) q3 // r3 //.
  by move: Hi; rewrite /= x1 y1.
by move: Hj; rewrite /= x2 y2.
Qed.
Lemma exp0 n : is_exp n (fzero RR n n) (fid RR n).
Proof.
apply: is_exp_meq (expm_is (A := fzero RR n n) (n := n) erefl R0) => //; last exact: expm0.
by split=> //= i j _ _; rewrite mulr0.
Qed.
Lemma in_left Y : in_group d1 As1 hs1 Y -> in_group d As hs (lft Y).
Proof.
elim=> {Y} [Y E|h Y Hh0 E|A Y LA HE|X Y Z GX IX GY IY E|X Y GX IX y1 y2 E1 E2].
- by apply: I_one; apply: meq_trans (meq_fkron E (meq_refl _)) _; exact: fkron_id.
- have [h' Hh' Eh'] := meqs_in' Eh (List.in_or_app _ _ _ (or_introl (List.in_map (left_ax d2) _ _ Hh0))).
  apply: I_gen Hh' _; apply: meq_trans (meq_sym Eh'); exact: meq_fkron.
- have [SA LA'] := span_left LA; apply: I_exp LA' _; have [a1 a2] := SA.
  have H := kron_exp SA (conj erefl erefl : sq d2 (fzero RR d2 d2)) HE (exp0 d2).
  by apply: is_exp_meq H; [split=> //= i j _ _; rewrite mulr0 addr0 | exact: meq_refl | rewrite /= a1 | rewrite /= a2].
- apply: (I_mul IX IY); apply: meq_trans (meq_fkron E (meq_refl _)) _; apply: meq_sym; exact: ll_mul (in_sqn T1 GX) (in_sqn T1 GY).
have [x1 x2] := in_sqn T1 GX; apply: (I_inv IX); rewrite /= ?y1 ?y2 //.
  apply: meq_trans (ll_mul _ _) _ => //; apply: meq_trans (meq_fkron E1 (meq_refl _)) _; exact: fkron_id.
apply: meq_trans (ll_mul _ _) _ => //; apply: meq_trans (meq_fkron E2 (meq_refl _)) _; exact: fkron_id.
Qed.
Lemma in_right Y : in_group d2 As2 hs2 Y -> in_group d As hs (rgt Y).
Proof.
elim=> {Y} [Y E|h Y Hh0 E|A Y LA HE|X Y Z GX IX GY IY E|X Y GX IX y1 y2 E1 E2].
- by apply: I_one; apply: meq_trans (meq_fkron (meq_refl _) E) _; exact: fkron_id.
- have [h' Hh' Eh'] := meqs_in' Eh (List.in_or_app _ _ _ (or_intror (List.in_map (right_ax d1) _ _ Hh0))).
  apply: I_gen Hh' _; apply: meq_trans (meq_sym Eh'); exact: meq_fkron.
- have [SA LA'] := span_right LA; apply: I_exp LA' _; have [a1 a2] := SA.
  have H := kron_exp (conj erefl erefl : sq d1 (fzero RR d1 d1)) SA (exp0 d1) HE.
  by apply: is_exp_meq H; [split; rewrite /= ?a1 ?a2 // => i j _ _; rewrite mul0r add0r | exact: meq_refl | by [] | by []].
- apply: (I_mul IX IY); apply: meq_trans (meq_fkron (meq_refl _) E) _; apply: meq_sym; exact: rr_mul (in_sqn T2 GX) (in_sqn T2 GY).
have [x1 x2] := in_sqn T2 GX; apply: (I_inv IX); rewrite /= ?y1 ?y2 //.
  apply: meq_trans (rr_mul _ _) _ => //; apply: meq_trans (meq_fkron (meq_refl _) E1) _; exact: fkron_id.
apply: meq_trans (rr_mul _ _) _ => //; apply: meq_trans (meq_fkron (meq_refl _) E2) _; exact: fkron_id.
Qed.
Lemma in_prod X : in_group d As hs X <-> exists Y Z, [/\ in_group d1 As1 hs1 Y, in_group d2 As2 hs2 Z & meq X (fkron Y Z)].
Proof.
split=> [|[Y [Z [GY GZ E]]]]; last first.
  have SY := in_sqn T1 GY; have SZ := in_sqn T2 GZ.
  by apply: (I_mul (in_left GY) (in_right GZ)); apply: meq_trans E _; apply: meq_sym; exact: lr_mul.
elim=> {X} [X E|h X /(meqs_in Eh)[D /List.in_app_iff HD ED] E|C X /span_prod[A [B [HA HB EC]]] HE|X1 X2 X3 _ [Y [Z [GY GZ E]]] _ [Y' [Z' [GY' GZ' E']]] EM
  |X1 V _ [Y [Z [GY GZ E]]] v1 v2 E1 E2].
- exists (fid RR d1), (fid RR d2); split; [exact: I_one | exact: I_one | apply: meq_trans E (meq_sym (fkron_id _ _ _))].
- case: HD => /List.in_map_iff[K [EK HK]]; subst D.
    exists K, (fid RR d2); split; [exact: I_gen HK (meq_refl _) | exact: I_one | exact: meq_trans E ED].
  exists (fid RR d1), K; split; [exact: I_one | exact: I_gen HK (meq_refl _) | exact: meq_trans E ED].
- have SA := spanz_sz S1 HA; have SB := spanz_sz S2 HB; have [a1 a2] := SA; have [b1 b2] := SB.
  have one n (W : fmat RR) : fr W = n -> fc W = n -> is_exp n W (expm n W R1).
    move=> w1 w2; apply: is_exp_meq (expm_is w2 R1) => //; split=> //= i j _ _; by rewrite -[R1]/(1 : RR) mul1r.
  have XA := one _ A a1 a2; have XB := one _ B b1 b2.
  exists (expm d1 A R1), (expm d2 B R1); split; [exact: spanz_exp HA XA | exact: spanz_exp HB XB |].
  have [c1 c2 _] := EC; have [k1 k2] := ksum_sz B SA.
  apply: is_exp_uniq (is_exp_meq EC (meq_refl _) _ _ HE) (kron_exp SA SB XA XB); by rewrite ?c1 ?c2.
- have [y1 y2] := in_sqn T1 GY; have [z1 z2] := in_sqn T2 GZ; have [y3 y4] := in_sqn T1 GY'; have [z3 z4] := in_sqn T2 GZ'.
  have [e1 e2 _] := E; have [e3 e4 _] := E'.
  exists (fmul Y Y'), (fmul Z Z'); split; [exact: I_mul GY GY' (meq_refl _) | exact: I_mul GZ GZ' (meq_refl _) |].
  apply: meq_trans EM _; apply: meq_trans (meq_fmul E E' _) _; first by rewrite e2 e3 /= y2 z2 y3 z3.
  by apply: fmul_fkron; rewrite ?y2 ?y3 ?z2 ?z3.
have SY := in_sqn T1 GY; have SZ := in_sqn T2 GZ; have [y1 y2] := SY; have [z1 z2] := SZ; have [e1 e2 _] := E.
have SV : sq d V by []; have SK := lr_sz SY SZ; have [k1 k2] := SK.
have H1 : meq (fmul (fkron Y Z) V) (fid RR d).
  by apply: meq_trans (meq_fmul (meq_sym E) (meq_refl _) _) E1; rewrite k2 v1.
have H2 := inv_right SK SV H1.
have [Y' SY' FY] := kron_inv_l p2 SY SZ SV H1; have [Z' SZ' FZ] := kron_inv_r p1 SY SZ SV H1.
have FY' := inv_right SY SY' FY; have FZ' := inv_right SZ SZ' FZ; have [y3 y4] := SY'; have [z3 z4] := SZ'.
exists Y', Z'; split; [exact: I_inv GY y3 y4 FY FY' | exact: I_inv GZ z3 z4 FZ FZ' |].
have SK' := lr_sz SY' SZ'.
have H3 : meq (fmul (fkron Y Z) (fkron Y' Z')) (fid RR d).
  by apply: meq_trans (fmul_fkron _ _) _; rewrite ?y2 ?z2 ?y3 ?z3 //; apply: meq_trans (meq_fkron FY FZ) _; exact: fkron_id.
have [k3 k4] := SK'; apply: (@meq_mx d) => //.
have K : mxf d d V *m mxf d d (fkron Y Z) = 1%:M by rewrite -mxf_mul' // -mxf_id; apply: mx_meq H2 _; split.
have K3 : mxf d d (fmul (fkron Y Z) (fkron Y' Z')) = 1%:M by rewrite -mxf_id; apply: mx_meq H3 _; split.
rewrite -[LHS]mulmx1 -K3 mxf_mul' // mulmxA K.
by rewrite mul1mx.
Qed.
End Groups.
End Kron.

Section Ctors.
Variables (conj : RR -> RR) (close : seq RR -> seq RR -> bool).
Lemma exact_prod d1 d2 (G1 G2 : group RR) : usable conj d1 G1 -> usable conj d2 G2 ->
  (0 < size (gitems (g_lie G1)) + size (gitems (g_gens G1)) + size (gitems (g_lie G2)) + size (gitems (g_gens G2)))%N ->
  exists2 G, g_prod conj close G1 G2 = Ok G & g_d G = Some (d1 * d2)%N /\
    forall X, in_group (d1 * d2) (lmats G) (gmats G) X <->
      exists Y Z, [/\ in_group d1 (lmats G1) (gmats G1) Y, in_group d2 (lmats G2) (gmats G2) Z & meq X (fkron Y Z)].
Proof.
move=> U1 U2 K; have [G EG [[Gd _ _ _] _ HG HL]] := prod_ok close U1 U2 K; exists G => //; split=> // X.
have [_ p1 l1 h1] := U1; have [_ p2 l2 h2] := U2.
have S d g : gok conj d g -> forall A, List.In A (map (@den RR) (gitems g)) -> fr A = d /\ fc A = d.
  by move=> H A /List.in_map_iff[C [<- HC]]; exact: gop_sz (H C HC).
by apply: (in_prod p1 p2 (S _ _ l1) (S _ _ l2) (S _ _ h1) (S _ _ h2)).
Qed.
End Ctors.
