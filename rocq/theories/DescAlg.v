(** * DescAlg: gradient descent with momentum on |C W|^2, in matrices over a real field. *)
From mathcomp Require Import all_ssreflect all_algebra.
From Verif Require Import Np DataThm TrainerThm2.
Set Implicit Arguments.
Unset Strict Implicit.
Unset Printing Implicit Defensive.
Import GRing.Theory Num.Theory Order.TTheory.
Local Open Scope ring_scope.

(** ** identities *)
Section Rg.
Variables (R : Type) (O I : R) (ad mu su : R -> R -> R) (op : R -> R).
Hypothesis th : ring_theory O I ad mu su op eq.
Add Ring Rring : th.
Local Notation "a + b" := (ad a b).
Local Notation "a * b" := (mu a b).
Local Notation "a - b" := (su a b).
Local Notation "- a" := (op a).
Lemma ab_nsq (a b c d : R) : a + b * c + (b * c + b * (b * d)) = a + (b + b) * c + b * b * d. Proof. by ring. Qed.
Lemma ab_ip (a b c : R) : a + (- I + - I) * c + - I * - I * b = a + b - (c + c). Proof. by ring. Qed.
Lemma ab_diff (a b c d : R) : (I + I) * (a + b * b * d) - (a + (- b + - b) * c + - b * - b * d) = a + (b + b) * c + b * b * d. Proof. by ring. Qed.
Lemma ab_ip2 (a b c : R) : a + - b * c = a - b * c. Proof. by ring. Qed.
Lemma ab_loss (f e x y : R) : f + (- e + - e) * x + - e * - e * y = f - (e + e) * x + e * e * y. Proof. by ring. Qed.
Lemma ab_energy (f e b l a d i c : R) : e * e * (l * a - c) + e * b * (a + d - (i + i)) =
  f + e * b * d - (f - (e + e) * (a - b * i) + e * e * c + e * b * a + e * ((I + I) * (I - b) - e * l) * a). Proof. by ring. Qed.
Lemma ab_gap (x e b a c : R) : e * b * c + a + c = ((I + I) * x + e * b + I) * (a + c) - (x * ((I + I) * (c + a)) + e * b * a). Proof. by ring. Qed.
Lemma ab_last (b f l a c : R) : b * (f - l * a - l * c) + l * (b * (a + c)) = b * f. Proof. by ring. Qed.
End Rg.
Section Id.
Variable R : comRingType.
Lemma id_nsq (a b c d : R) : a + b * c + (b * c + b * (b * d)) = a + (b + b) * c + b * b * d.
Proof. exact: (ab_nsq (comring_theory R)). Qed.
Lemma id_ip (a b c : R) : a + (- 1 + - 1) * c + - 1 * - 1 * b = a + b - (c + c).
Proof. exact: (ab_ip (comring_theory R)). Qed.
Lemma id_diff (a b c d : R) : (1 + 1) * (a + b * b * d) - (a + (- b + - b) * c + - b * - b * d) = a + (b + b) * c + b * b * d.
Proof. exact: (ab_diff (comring_theory R)). Qed.
Lemma id_ip2 (a b c : R) : a + - b * c = a - b * c.
Proof. exact: (ab_ip2 (comring_theory R)). Qed.
Lemma id_loss (f e x y : R) : f + (- e + - e) * x + - e * - e * y = f - (e + e) * x + e * e * y.
Proof. exact: (ab_loss (comring_theory R)). Qed.
Lemma id_energy (f e b l a d i c : R) : e * e * (l * a - c) + e * b * (a + d - (i + i)) =
  f + e * b * d - (f - (e + e) * (a - b * i) + e * e * c + e * b * a + e * ((1 + 1) * (1 - b) - e * l) * a).
Proof. exact: (ab_energy (comring_theory R)). Qed.
Lemma id_gap (x e b a c : R) : e * b * c + a + c = ((1 + 1) * x + e * b + 1) * (a + c) - (x * ((1 + 1) * (c + a)) + e * b * a).
Proof. exact: (ab_gap (comring_theory R)). Qed.
Lemma id_last (b f l a c : R) : b * (f - l * a - l * c) + l * (b * (a + c)) = b * f.
Proof. exact: (ab_last (comring_theory R)). Qed.
End Id.

Section Alg.
Variable F : realFieldType.

(** ** the inner product of matrices *)
Definition ip n r (A B : 'M[F]_(n, r)) : F := \tr (A^T *m B).
Definition nsq n r (A : 'M[F]_(n, r)) : F := ip A A.
Lemma ipC n r (A B : 'M[F]_(n, r)) : ip A B = ip B A.
Proof. by rewrite /ip -mxtrace_tr trmx_mul trmxK. Qed.
Lemma ipDl n r (A B D : 'M[F]_(n, r)) : ip (A + B) D = ip A D + ip B D.
Proof. by rewrite /ip linearD /= mulmxDl mxtraceD. Qed.
Lemma ipZl n r a (A B : 'M[F]_(n, r)) : ip (a *: A) B = a * ip A B.
Proof. by rewrite /ip linearZ /= -scalemxAl mxtraceZ. Qed.
Lemma ipDr n r (A B D : 'M[F]_(n, r)) : ip D (A + B) = ip D A + ip D B.
Proof. by rewrite ipC ipDl ![ip _ D]ipC. Qed.
Lemma ipZr n r a (A B : 'M[F]_(n, r)) : ip B (a *: A) = a * ip B A.
Proof. by rewrite ipC ipZl ipC. Qed.
Lemma ip_mul m n r (C : 'M[F]_(m, n)) (A : 'M_(n, r)) B : ip (C *m A) B = ip A (C^T *m B).
Proof. by rewrite /ip trmx_mul mulmxA. Qed.
Lemma nsqE n r (A : 'M[F]_(n, r)) : nsq A = \sum_i \sum_j A i j ^+ 2.
Proof.
rewrite exchange_big /= /nsq /ip /mxtrace; apply: eq_bigr => j _; rewrite mxE; apply: eq_bigr => i _.
by rewrite mxE expr2.
Qed.
Lemma nsq_ge0 n r (A : 'M[F]_(n, r)) : 0 <= nsq A.
Proof. by rewrite nsqE; apply: sumr_ge0 => i _; apply: sumr_ge0 => j _; exact: sqr_ge0. Qed.
Lemma nsq_eq0 n r (A : 'M[F]_(n, r)) : nsq A = 0 -> A = 0.
Proof.
move=> E; apply/matrixP => i j; rewrite mxE; move/eqP: E; rewrite nsqE psumr_eq0; last first.
  by move=> k _; apply: sumr_ge0 => l _; exact: sqr_ge0.
move=> /allP/(_ i (mem_index_enum _))/=; rewrite psumr_eq0; last by move=> l _; exact: sqr_ge0.
by move=> /allP/(_ j (mem_index_enum _))/=; rewrite sqrf_eq0 => /eqP.
Qed.
Lemma nsqD n r (A B : 'M[F]_(n, r)) b : nsq (A + b *: B) = nsq A + (b + b) * ip A B + b * b * nsq B.
Proof. by rewrite /nsq ipDl !ipDr !ipZl !ipZr [ip B A]ipC; exact: id_nsq. Qed.
Lemma ip_le n r (A B : 'M[F]_(n, r)) : ip A B + ip A B <= nsq A + nsq B.
Proof.
have := nsq_ge0 (A + (-1) *: B); by rewrite nsqD id_ip subr_ge0.
Qed.
Lemma nsq_diff n r (A B : 'M[F]_(n, r)) b : nsq (A + (- b) *: B) <= (1 + 1) * (nsq A + b * b * nsq B).
Proof.
rewrite -subr_ge0; have := nsq_ge0 (A + b *: B); rewrite !nsqD.
by rewrite id_diff.
Qed.
Lemma nsq_mul m n r (X : 'M[F]_(m, n)) (Y : 'M_(n, r)) : nsq (X *m Y) <= nsq X * nsq Y.
Proof.
rewrite !nsqE [X in _ <= _ * X]exchange_big mulr_suml; apply: ler_sum => i _; rewrite mulr_sumr; apply: ler_sum => j _.
by rewrite mxE; exact: cauchy.
Qed.

(** ** a bound for columns is a bound for matrices *)
Lemma nsq_cols n r (A : 'M[F]_(n, r)) : nsq A = \sum_j nsq (col j A).
Proof.
rewrite nsqE exchange_big; apply: eq_bigr => j _; rewrite nsqE; apply: eq_bigr => i _.
by rewrite big_ord1 mxE.
Qed.
Lemma cols_le m n r (C : 'M[F]_(m, n)) L (A : 'M_(n, r)) : (forall v : 'M_(n, 1), nsq (C *m v) <= L * nsq v) ->
  nsq (C *m A) <= L * nsq A.
Proof.
move=> H; rewrite !nsq_cols mulr_sumr; apply: ler_sum => j _.
by rewrite (_ : col j (C *m A) = C *m col j A) ?H //; apply/matrixP => i k; rewrite !mxE; apply: eq_bigr => l _; rewrite !mxE.
Qed.

(** ** C is a multiple of C^T C *)
Lemma gram_sub m n (C : 'M[F]_(m, n)) : exists X, C = X *m (C^T *m C).
Proof.
apply/submxP; have S : (C^T *m C <= C)%MS by exact: submxMl.
rewrite -(mxrank_leqif_sup S) eqn_leq (mxrankS S) /=.
have := mxrank_mul_ker C^T C; rewrite mxrank_tr; set Z := (C^T :&: kermx C)%MS => <-.
suff -> : \rank Z = 0%N by rewrite addn0.
have [Y EY] : exists Y, Z = Y *m C^T by apply/submxP; exact: capmxSl.
have EZ : Z *m C = 0 by apply/sub_kermxP; exact: capmxSr.
suff -> : Z = 0 by rewrite mxrank0.
apply: trmx_inj; rewrite trmx0; apply: nsq_eq0.
by rewrite /nsq /ip trmxK {2}EY trmx_mul trmxK mulmxA EZ mul0mx mxtrace0.
Qed.

(** ** the descent *)
Section Descent.
Variables (m n : nat) (C : 'M[F]_(m, n)) (eta beta L : F).
Hypothesis eta0 : 0 < eta.
Hypothesis beta0 : 0 <= beta.
Hypothesis beta1 : beta <= 1.
Hypothesis HL : forall r (A : 'M_(n, r)), nsq (C *m A) <= L * nsq A.
Hypothesis small : eta * L < (1 + 1) * (1 - beta).
Definition step r (s : 'M[F]_(n, r) * 'M[F]_(n, r)) : 'M[F]_(n, r) * 'M[F]_(n, r) :=
  let M := C^T *m (C *m s.1) + beta *: s.2 in (s.1 + (- eta) *: M, M).
Definition energy r (s : 'M[F]_(n, r) * 'M[F]_(n, r)) : F := nsq (C *m s.1) + eta * beta * nsq s.2.
Definition loss_rate : F := eta * ((1 + 1) * (1 - beta) - eta * L).
Lemma rate_gt0 : 0 < loss_rate.
Proof. by rewrite /loss_rate mulr_gt0 // subr_gt0. Qed.
Lemma step_grad r (s : 'M[F]_(n, r) * 'M[F]_(n, r)) : C^T *m (C *m s.1) = (step s).2 + (- beta) *: s.2.
Proof. by rewrite /step /= scaleNr addrK. Qed.
Lemma step_energy r (s : 'M[F]_(n, r) * 'M[F]_(n, r)) : energy (step s) + loss_rate * nsq (step s).2 <= energy s.
Proof.
set M := (step s).2; set W := s.1; set N := s.2.
have E : nsq (C *m (step s).1) = nsq (C *m W) - (eta + eta) * (nsq M - beta * ip M N) + eta * eta * nsq (C *m M).
  rewrite (_ : (step s).1 = W + (- eta) *: M) // mulmxDr -scalemxAr nsqD.
  rewrite (_ : ip (C *m W) (C *m M) = nsq M - beta * ip M N); first exact: id_loss.
  by rewrite ipC ip_mul step_grad -/M -/N ipDr ipZr /nsq id_ip2.
rewrite /energy E -/M -/N -/W -subr_ge0.
have H1 := HL M; have H2 := ip_le M N.
have K1 : 0 <= eta * eta * (L * nsq M - nsq (C *m M)).
  by apply: mulr_ge0; [apply: mulr_ge0; exact: ltW | rewrite subr_ge0].
have K2 : 0 <= eta * beta * (nsq M + nsq N - (ip M N + ip M N)).
  by apply: mulr_ge0; [apply: mulr_ge0 => //; exact: ltW | rewrite subr_ge0].
apply: le_trans (addr_ge0 K1 K2) _; rewrite le_eqVlt; apply/orP; left; apply/eqP; exact: id_energy.
Qed.
Lemma energy_ge0 r (s : 'M[F]_(n, r) * 'M[F]_(n, r)) : 0 <= energy s.
Proof. by rewrite /energy addr_ge0 ?nsq_ge0 // !mulr_ge0 ?nsq_ge0 // ltW. Qed.
Lemma step_le r (s : 'M[F]_(n, r) * 'M[F]_(n, r)) : energy (step s) <= energy s.
Proof. by apply: le_trans (step_energy s); rewrite ler_addl mulr_ge0 ?nsq_ge0 // ltW // rate_gt0. Qed.
Lemma two_steps : exists2 q, 0 <= q < 1 & forall r (s : 'M[F]_(n, r) * 'M[F]_(n, r)), energy (step (step s)) <= q * energy s.
Proof.
have [X EX] := gram_sub C; pose B := (1 + 1) * nsq X + eta * beta + 1.
have two0 : (0 : F) <= 1 + 1 by rewrite addr_ge0 ?ler01.
have eb0 : 0 <= eta * beta by rewrite mulr_ge0 // ltW.
have B0 : 0 < B by rewrite /B ltr_paddl ?ltr01 // addr_ge0 // mulr_ge0 // nsq_ge0.
have r0 := rate_gt0; have d0 : 0 < B + loss_rate by rewrite addr_gt0.
exists (B / (B + loss_rate)).
  by rewrite divr_ge0 ?ltW //= ltr_pdivr_mulr // mul1r ltr_addl.
move=> r s; set s1 := step s; set s2 := step s1.
have E1 := step_energy s; have E2 := step_energy s1; rewrite -/s1 -/s2 in E1 E2.
have G : energy s1 <= B * (nsq s1.2 + nsq s2.2).
  have bb : beta * beta <= 1 by rewrite -(mulr1 1) ler_pmul.
  have N1 : nsq (C *m s1.1) <= nsq X * ((1 + 1) * (nsq s2.2 + nsq s1.2)).
    rewrite {1}EX -!mulmxA; apply: le_trans (nsq_mul _ _) _; rewrite ler_wpmul2l ?nsq_ge0 //.
    rewrite step_grad -/s2; apply: le_trans (nsq_diff _ _ _) _; rewrite ler_wpmul2l // ler_add2l.
    by rewrite -[X in _ <= X]mul1r ler_wpmul2r ?nsq_ge0.
  rewrite /energy; apply: le_trans (ler_add N1 (lexx _)) _; rewrite -subr_ge0.
  have K : 0 <= eta * beta * nsq s2.2 + nsq s1.2 + nsq s2.2 by rewrite !addr_ge0 ?mulr_ge0 ?nsq_ge0 // ltW.
  apply: le_trans K _; rewrite le_eqVlt; apply/orP; left; apply/eqP; exact: id_gap.
rewrite mulrAC ler_pdivl_mulr // mulrDr.
have H1 : energy s2 * loss_rate <= loss_rate * (B * (nsq s1.2 + nsq s2.2)).
  rewrite mulrC ler_pmul2l //; apply: le_trans G; exact: step_le.
have H2 : energy s2 * B <= B * (energy s - loss_rate * nsq s1.2 - loss_rate * nsq s2.2).
  rewrite mulrC ler_pmul2l // ler_subr_addr; apply: le_trans E2 _; by rewrite ler_subr_addr.
apply: le_trans (ler_add H2 H1) _; rewrite le_eqVlt; apply/orP; left; apply/eqP; exact: id_last.
Qed.
Theorem rate : exists2 q, 0 <= q < 1 & forall r (W : 'M[F]_(n, r)) t,
  nsq (C *m (iter t (@step r) (W, 0)).1) <= q ^+ (t %/ 2) * nsq (C *m W).
Proof.
have [q /andP[q0 q1] H] := two_steps; exists q => [|r W t]; first by rewrite q0.
have E0 : energy (W, 0 : 'M_(n, r)) = nsq (C *m W) by rewrite /energy /nsq /ip mulmx0 mxtrace0 mulr0 addr0.
rewrite -E0; apply: le_trans (_ : energy (iter t (@step r) (W, 0)) <= _).
  by rewrite /energy ler_addl !mulr_ge0 ?nsq_ge0 // ltW.
have EV k : energy (iter (2 * k) (@step r) (W, 0)) <= q ^+ k * energy (W, 0 : 'M_(n, r)).
  elim: k => [|k IH]; first by rewrite expr0 mul1r.
  by rewrite mulnS iterD; apply: le_trans (H _ _) _; rewrite exprS -mulrA ler_wpmul2l.
rewrite {1}(divn_eq t 2) addnC mulnC iterD modn2; case: (odd t) => /=; last exact: EV.
by apply: le_trans (step_le _) _; exact: EV.
Qed.
End Descent.
End Alg.
