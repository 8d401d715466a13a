(** * DescSharp: the descent converges for all learning rates below the limit of stability. *)
From mathcomp Require Import all_ssreflect all_algebra.
From mathcomp Require Import zify.
From Verif Require Import Np DataThm DescAlg.
Set Implicit Arguments.
Unset Strict Implicit.
Unset Printing Implicit Defensive.
Import GRing.Theory Num.Theory Order.TTheory.
Local Open Scope ring_scope.

(** ** identities *)
Section Rg.
Variables (R : Type) (O I : R) (ad mu su : R -> R -> R) (op : R -> R).
Hypothesis th : ring_theory O I ad mu su op eq.
Add Ring Rring2 : th.
Local Notation "a + b" := (ad a b).
Local Notation "a * b" := (mu a b).
Local Notation "a - b" := (su a b).
Local Notation "- a" := (op a).
Lemma as_step (f a b d e h c : R) :
  (I + b) * h * a + (I + I) * (f - (h + h) * (a - b * c) + h * h * e) + (h + h) * ((a - b * c) - h * e)
    + (I - b) * h * (d + (I + I) * c + I * I * a) =
  (I + b) * h * d + (I + I) * f + (h + h) * (c - b * d). Proof. by ring. Qed.
Lemma as_pos (f b h d e x : R) :
  (I + I) * ((I + b) * h * d + (I + I) * f + (h + h) * x) =
  h * ((I + I) * (I + b) * d - h * e) + ((I + I) * (I + I) * f + (h + h) * ((I + I) * x) + h * h * e). Proof. by ring. Qed.
Lemma as_loss2 (e h c i : R) : (I + I) * ((I + I) * e + h * h * (c * ((I + I) * e * i))) = (I + I) * (I + I) * (I + h * h * c * i) * e. Proof. by ring. Qed.
Lemma as_er (b h m z y k l : R) : (I + I) * (I + b) * m - h * k = ((I + I + b) * z - h * l - y) + ((y - (z - m) - b * (z - m)) - (z - (I + b) * m - h * (l - k))). Proof. by ring. Qed.
Lemma as_fin (b h d f c : R) : (I + b) * h * d + (I + I) * f + h * (f + c * d) = ((I + b) * h + h * c) * d + (I + I + h) * f. Proof. by ring. Qed.
End Rg.
Section Id.
Variable R : comRingType.
Lemma is_step (f a b d e h c : R) :
  (1 + b) * h * a + (1 + 1) * (f - (h + h) * (a - b * c) + h * h * e) + (h + h) * ((a - b * c) - h * e)
    + (1 - b) * h * (d + (1 + 1) * c + 1 * 1 * a) =
  (1 + b) * h * d + (1 + 1) * f + (h + h) * (c - b * d).
Proof. exact: (as_step (comring_theory R)). Qed.
Lemma is_pos (f b h d e x : R) :
  (1 + 1) * ((1 + b) * h * d + (1 + 1) * f + (h + h) * x) =
  h * ((1 + 1) * (1 + b) * d - h * e) + ((1 + 1) * (1 + 1) * f + (h + h) * ((1 + 1) * x) + h * h * e).
Proof. exact: (as_pos (comring_theory R)). Qed.
Lemma is_loss2 (e h c i : R) : (1 + 1) * ((1 + 1) * e + h * h * (c * ((1 + 1) * e * i))) = (1 + 1) * (1 + 1) * (1 + h * h * c * i) * e.
Proof. exact: (as_loss2 (comring_theory R)). Qed.
Lemma is_er (b h m z y k l : R) : (1 + 1) * (1 + b) * m - h * k = ((1 + 1 + b) * z - h * l - y) + ((y - (z - m) - b * (z - m)) - (z - (1 + b) * m - h * (l - k))).
Proof. exact: (as_er (comring_theory R)). Qed.
Lemma is_fin (b h d f c : R) : (1 + b) * h * d + (1 + 1) * f + h * (f + c * d) = ((1 + b) * h + h * c) * d + (1 + 1 + h) * f.
Proof. exact: (as_fin (comring_theory R)). Qed.
End Id.

Ltac pos := repeat first [assumption | exact: ler01 | exact: nsq_ge0 | apply: mulr_ge0 | apply: addr_ge0].
Section Sharp.
Variable F : realFieldType.
Variables (m n : nat) (C : 'M[F]_(m, n)) (eta beta L : F).
Hypothesis eta0 : 0 < eta.
Hypothesis beta0 : 0 <= beta.
Hypothesis beta1 : beta < 1.
Hypothesis HL : forall r (A : 'M_(n, r)), nsq (C *m A) <= L * nsq A.
Hypothesis small : eta * L < (1 + 1) * (1 + beta).
Local Notation step := (@step F m n C eta beta _).
Local Notation state r := ('M[F]_(n, r) * 'M[F]_(n, r))%type.
Definition en r (s : state r) : F :=
  (1 + beta) * eta * nsq s.2 + (1 + 1) * nsq (C *m s.1) + (eta + eta) * ip (C *m s.1) (C *m s.2).
Let delta : F := (1 + 1) * (1 + beta) - eta * L.
Let d0 : 0 < delta. Proof. by rewrite subr_gt0. Qed.
Let two0 : (0 : F) <= 1 + 1. Proof. by rewrite addr_ge0 ?ler01. Qed.
Let two1 : (0 : F) < 1 + 1. Proof. by rewrite addr_gt0 ?ltr01. Qed.
Let e0 : 0 <= eta. Proof. exact: ltW. Qed.
Let c0 : 0 < (1 - beta) * eta. Proof. by rewrite mulr_gt0 // subr_gt0. Qed.
Lemma grad_ip r (s : state r) (A : 'M_(n, r)) : ip (C *m s.1) (C *m A) = ip (step s).2 A - beta * ip s.2 A.
Proof. by rewrite ipC ip_mul (step_grad C eta beta s) ipDr ipZr id_ip2 ![ip A _]ipC. Qed.
Lemma en_step r (s : state r) : en (step s) + (1 - beta) * eta * nsq (s.2 + (step s).2) = en s.
Proof.
set M := (step s).2; set W := s.1; set N := s.2.
have E1 : C *m (step s).1 = C *m W + (- eta) *: (C *m M) by rewrite (_ : (step s).1 = W + (- eta) *: M) // mulmxDr -scalemxAr.
have G1 : ip (C *m W) (C *m M) = nsq M - beta * ip M N by rewrite grad_ip -/M -/N [ip N M]ipC.
have G2 : ip (C *m W) (C *m N) = ip M N - beta * nsq N by rewrite grad_ip.
have V1 : nsq (C *m (step s).1) = nsq (C *m W) - (eta + eta) * (nsq M - beta * ip M N) + eta * eta * nsq (C *m M).
  by rewrite E1 nsqD G1; exact: id_loss.
have V2 : ip (C *m (step s).1) (C *m M) = nsq M - beta * ip M N - eta * nsq (C *m M).
  by rewrite E1 ipDl ipZl G1 id_ip2.
have V3 : nsq (N + M) = nsq N + (1 + 1) * ip M N + 1 * 1 * nsq M by rewrite -{1}(scale1r M) nsqD [ip N M]ipC.
rewrite /en -/M -/W -/N V1 V2 V3 G2; exact: is_step.
Qed.
Lemma en_pos r (s : state r) : eta * delta * nsq s.2 <= (1 + 1) * en s /\ nsq ((1 + 1) *: (C *m s.1) + eta *: (C *m s.2)) <= (1 + 1) * en s.
Proof.
have E : nsq ((1 + 1) *: (C *m s.1) + eta *: (C *m s.2)) =
    (1 + 1) * (1 + 1) * nsq (C *m s.1) + (eta + eta) * ((1 + 1) * ip (C *m s.1) (C *m s.2)) + eta * eta * nsq (C *m s.2).
  by rewrite nsqD ipZl /nsq ipZl ipZr mulrA.
rewrite /en (is_pos _ _ _ _ (nsq (C *m s.2))) -E.
have K : eta * delta * nsq s.2 <= eta * ((1 + 1) * (1 + beta) * nsq s.2 - eta * nsq (C *m s.2)).
  rewrite -mulrA ler_wpmul2l // mulrBl ler_add2l ler_opp2 -mulrA ler_wpmul2l //; exact: HL.
have P : 0 <= eta * delta * nsq s.2 by rewrite !mulr_ge0 ?nsq_ge0 // ltW.
by split; [apply: le_trans K _; rewrite ler_addl nsq_ge0 | rewrite ler_addr; exact: le_trans K].
Qed.
Lemma en_ge0 r (s : state r) : 0 <= en s.
Proof. by have [_ H] := en_pos s; have := le_trans (nsq_ge0 _) H; rewrite pmulr_rge0. Qed.
Lemma en_le r (s : state r) : en (step s) <= en s.
Proof. by rewrite -(en_step s) ler_addl mulr_ge0 ?nsq_ge0 // ltW. Qed.
(** the energy bounds the loss *)
Lemma loss_en : exists2 A, 0 <= A & forall r (s : state r), nsq (C *m s.1) <= A * en s.
Proof.
have K0 := nsq_ge0 C; exists ((1 + 1) * (1 + 1) * (1 + eta * eta * nsq C / (eta * delta))).
  by rewrite !mulr_ge0 ?two0 // addr_ge0 ?ler01 // divr_ge0 ?mulr_ge0 // ltW.
move=> r s; have [H1 H2] := en_pos s; set A := C *m s.1; set B := C *m s.2 in H2 *.
have ed : 0 < eta * delta by rewrite mulr_gt0.
have N1 : nsq B <= nsq C * ((1 + 1) * en s / (eta * delta)).
  apply: le_trans (nsq_mul _ _) _; rewrite ler_wpmul2l // ler_pdivl_mulr // mulrC; exact: H1.
have E : (1 + 1) *: A = ((1 + 1) *: A + eta *: B) + (- eta) *: B by rewrite scaleNr addrK.
have N2 : nsq ((1 + 1) *: A) <= (1 + 1) * ((1 + 1) * en s + eta * eta * (nsq C * ((1 + 1) * en s / (eta * delta)))).
  rewrite E; apply: le_trans (nsq_diff _ _ _) _; rewrite ler_wpmul2l //; apply: ler_add => //.
  by rewrite ler_wpmul2l // mulr_ge0.
have N3 : nsq A <= nsq ((1 + 1) *: A).
  rewrite {2}/nsq ipZl ipZr mulrA -/(nsq A) -[X in X <= _]mul1r ler_wpmul2r ?nsq_ge0 //.
  by rewrite -[X in X <= _]mul1r ler_pmul ?ler01 // ler_addl ler01.
apply: le_trans N3 _; apply: le_trans N2 _; rewrite le_eqVlt; apply/orP; left; apply/eqP.
exact: is_loss2.
Qed.
Lemma gram_lin r (A B : 'M[F]_(n, r)) a : C^T *m (C *m (A + a *: B)) = C^T *m (C *m A) + a *: (C^T *m (C *m B)).
Proof. by rewrite !mulmxDr -!scalemxAr. Qed.
Lemma er_mx r (M z y k l : 'M[F]_(n, r)) :
  (y - (z - M)) - beta *: (z - M) = z + (- (1 + beta)) *: M - eta *: (l - k) ->
  ((1 + 1) * (1 + beta)) *: M - eta *: k = ((1 + 1 + beta) *: z - eta *: l) + (-1) *: y.
Proof.
move=> Q; apply/matrixP => i j; move/matrixP/(_ i j)/eqP: Q; rewrite -subr_eq0 !mxE => /eqP Q.
rewrite (is_er beta eta (M i j) (z i j) (y i j) (k i j) (l i j)) mulN1r -[RHS]addr0; congr (_ + _).
by rewrite -Q mulNr.
Qed.
Lemma fin_le (a c u v S x y : F) : 0 <= a -> 0 <= c -> 0 <= S -> u <= x * S -> v <= y * S -> a * u + c * v <= (a * x + c * y + 1) * S.
Proof.
move=> a0 c'0 S0 Hu Hv; rewrite 2!mulrDl mul1r -!mulrA; apply: le_trans (_ : a * (x * S) + c * (y * S) <= _); last by rewrite ler_addl.
by apply: ler_add; apply: ler_wpmul2l.
Qed.
(** two steps dissipate a part of the energy *)
Lemma dissipate : exists2 B, 0 < B & forall r (s : state r),
  en s <= B * (nsq (s.2 + (step s).2) + nsq ((step s).2 + (step (step s)).2)).
Proof.
pose Y := (1 + 1 + beta)%:M - eta *: (C^T *m C); have [X EX] := gram_sub C.
have Y0 := nsq_ge0 Y; have X0 := nsq_ge0 X; have C0 := nsq_ge0 C.
pose b1 := (1 + 1) * (nsq Y + 1) / (delta * delta).
pose b2 := nsq X * ((1 + 1) * (1 + (1 + beta) * (1 + beta) * b1)).
have d0' := ltW d0.
have b10 : 0 <= b1 by apply: divr_ge0; apply: mulr_ge0 => //; apply: addr_ge0 => //; exact: ler01.
have bp : 0 <= 1 + beta by rewrite addr_ge0 ?ler01.
have b20 : 0 <= b2 by pos.
exists (((1 + beta) * eta + eta * nsq C) * b1 + (1 + 1 + eta) * b2 + 1).
  by apply: ltr_paddl; [pos | exact: ltr01].
move=> r s; set M := s.2; set W := s.1; set s1 := step s; set M1 := s1.2; set s2 := step s1; set M2 := s2.2.
set z := M + M1; set z1 := M1 + M2; set S := nsq z + nsq z1.
have S0 : 0 <= S by rewrite addr_ge0 ?nsq_ge0.
have KW : C^T *m (C *m W) = z + (- (1 + beta)) *: M.
  by rewrite (step_grad C eta beta s) -/s1 -/M1 -/M /z opprD scalerDl scaleN1r [M + M1]addrC -addrA addNKr.
have KW1 : C^T *m (C *m s1.1) = M2 - beta *: M1 by rewrite (step_grad C eta beta s1) scaleNr.
have KWs : C^T *m (C *m s1.1) = C^T *m (C *m W) - eta *: (C^T *m (C *m M1)).
  by rewrite -scaleNr -gram_lin.
have ER : ((1 + 1) * (1 + beta)) *: M - eta *: (C^T *m (C *m M)) = Y *m z + (-1) *: z1.
  have EZ : C^T *m (C *m M1) = C^T *m (C *m z) - C^T *m (C *m M) by rewrite -scaleN1r -gram_lin scaleN1r /z [M + M1]addrC addrK.
  have Q := KWs; rewrite KW1 KW EZ in Q.
  have EY : Y *m z = (1 + 1 + beta) *: z - eta *: (C^T *m (C *m z)) by rewrite /Y mulmxBl mul_scalar_mx -scalemxAl mulmxA.
  have E1 : M1 = z - M by rewrite /z [M + M1]addrC addrK.
  have E2 : M2 = z1 - (z - M) by rewrite -E1 /z1 [M1 + M2]addrC addrK.
  by rewrite EY; apply: er_mx; rewrite -E2 -E1.
have D1 : nsq M <= b1 * S.
  have H1 : delta * nsq M <= ip M (Y *m z + (-1) *: z1).
    rewrite -ER ipDr ipZr -scaleNr ipZr -[ip M (C^T *m _)]ip_mul -/(nsq M) -/(nsq (C *m M)) mulrBl mulNr ler_add2l ler_opp2 -mulrA.
    by rewrite ler_wpmul2l.
  have H2 : nsq (Y *m z + (-1) *: z1) <= (1 + 1) * (nsq Y + 1) * S.
    rewrite -mulrA; apply: le_trans (nsq_diff _ _ _) _; rewrite ler_wpmul2l // !mul1r mulrDl mul1r /S; apply: ler_add; last by rewrite ler_addr nsq_ge0.
    apply: le_trans (nsq_mul _ _) _; rewrite ler_wpmul2l // ler_addl; exact: nsq_ge0.
  rewrite /b1 mulrAC ler_pdivl_mulr ?mulr_gt0 //; apply: le_trans H2.
  have := ip_le (delta *: M) (Y *m z + (-1) *: z1); rewrite ipZl; set u := ip _ _ in H1 *.
  have -> : nsq (delta *: M) = delta * delta * nsq M by rewrite /nsq ipZl ipZr mulrA.
  rewrite [nsq M * _]mulrC => H3.
  have H4 : delta * delta * nsq M <= delta * u by rewrite -mulrA ler_pmul2l.
  rewrite -(ler_add2l (delta * delta * nsq M)); apply: le_trans H3; exact: ler_add.
have D2 : nsq (C *m W) <= b2 * S.
  rewrite {1}EX -!mulmxA; apply: le_trans (nsq_mul _ _) _; rewrite /b2 -mulrA ler_wpmul2l // KW.
  apply: le_trans (nsq_diff _ _ _) _; rewrite -[X in _ <= X]mulrA; apply: ler_wpmul2l => //; rewrite [X in _ <= X]mulrDl mul1r -[_ * b1 * S]mulrA; apply: ler_add.
    by rewrite /S ler_addl nsq_ge0.
  by apply: ler_wpmul2l => //; pos.
have D3 : (eta + eta) * ip (C *m W) (C *m M) <= eta * (nsq (C *m W) + nsq C * nsq M).
  rewrite mulrDl -mulrDr ler_wpmul2l //; apply: le_trans (ip_le _ _) _; rewrite ler_add2l; exact: nsq_mul.
rewrite /en -/M -/W; apply: le_trans (ler_add (lexx _) D3) _; rewrite is_fin; apply: fin_le => //; pos.
Qed.
Lemma contract (B c S e e' : F) : 0 < B -> 0 < c -> 0 <= S -> e' + c * S = e -> e <= B * S -> e' <= B / (B + c) * e.
Proof.
move=> B0 cp S0 E H; have Bc : 0 < B + c by rewrite addr_gt0.
have H' : e' <= B * S by apply: le_trans H; rewrite -E ler_addl mulr_ge0 // ltW.
rewrite mulrAC ler_pdivl_mulr // -E !mulrDr [e' * B]mulrC; apply: ler_add => //.
by rewrite mulrCA [e' * c]mulrC ler_pmul2l.
Qed.
Theorem sharp_rate : exists A q, [/\ 0 <= A, 0 <= q < 1 & forall r (W : 'M[F]_(n, r)) t,
  nsq (C *m (iter t (@DescAlg.step F m n C eta beta r) (W, 0)).1) <= A * q ^+ (t %/ 2) * nsq (C *m W)].
Proof.
have [A A0 HA] := loss_en; have [B B0 HB] := dissipate; set c := (1 - beta) * eta; have cp : 0 < c := c0.
have Bc : 0 < B + c by rewrite addr_gt0.
pose q := B / (B + c); have q0 : 0 <= q by rewrite divr_ge0 // ltW.
have q1 : q < 1 by rewrite ltr_pdivr_mulr // mul1r ltr_addl.
have H r (s : state r) : en (step (step s)) <= q * en s.
  set S := nsq (s.2 + (step s).2) + nsq ((step s).2 + (step (step s)).2).
  have E : en (step (step s)) + c * S = en s by rewrite -[RHS]en_step -[X in _ = X + _]en_step -/c mulrDr [c * _ + _]addrC addrA.
  by apply: (contract B0 cp _ E (HB _ s)); rewrite addr_ge0 ?nsq_ge0.
exists (A * (1 + 1)), q; split; [exact: mulr_ge0 | by rewrite q0 | move=> r W t].
have E0 : en (W, 0 : 'M_(n, r)) = (1 + 1) * nsq (C *m W).
  by rewrite /en /nsq /ip !mulmx0 !mxtrace0 !mulr0 addr0 add0r.
have EV k : en (iter (2 * k) (@DescAlg.step F m n C eta beta r) (W, 0)) <= q ^+ k * en (W, 0 : 'M_(n, r)).
  elim: k => [|k IH]; first by rewrite expr0 mul1r.
  by rewrite mulnS iterD; apply: le_trans (H _ _) _; rewrite exprS -mulrA ler_wpmul2l.
apply: le_trans (HA _ _) _; rewrite -mulrA -mulrA ler_wpmul2l // mulrCA -E0.
rewrite {1}(divn_eq t 2) addnC mulnC iterD modn2; case: (odd t) => /=; last exact: EV.
by apply: le_trans (en_le _) _; exact: EV.
Qed.
End Sharp.
