(** * CharTrig: sums of powers of cosines. *)
From Coq Require Import Reals Lra.
From mathcomp Require Import all_ssreflect all_algebra.
From mathcomp Require Import zify.
From Verif Require Import Np Spec SpecLemmas Rstruct Expm CharSpec.
Set Implicit Arguments.
Unset Strict Implicit.
Unset Printing Implicit Defensive.
Import GRing.Theory.
Local Open Scope ring_scope.

Lemma addE (a b : RR) : a + b = Rplus a b. Proof. by []. Qed.
Lemma mulE (a b : RR) : a * b = Rmult a b. Proof. by []. Qed.
Lemma oppE (a : RR) : - a = Ropp a. Proof. by []. Qed.
Lemma natE n : (n%:R : RR) = INR n.
Proof. by elim: n => // n IH; rewrite S_INR mulrSr IH. Qed.
Lemma twoE : (2%:R : RR) = IZR 2.
Proof. by change (Rplus R1 R1 = IZR 2); lra. Qed.
Ltac rring := rewrite ?addE ?mulE ?oppE; match goal with |- ?a = ?b => change (@eq R a b) end; ring.
Definition cR (x : R) : RR := cos x.
Definition sR (x : R) : RR := sin x.
Definition th k : R := Rdiv (Rmult 2 PI) (INR k).
Section K.
Variable k : nat.
Hypothesis k0 : (0 < k)%N.
Lemma INRk : INR k <> R0. Proof. by apply: not_0_INR; lia. Qed.
Lemma INRk0 : Rlt R0 (INR k). Proof. by apply: lt_0_INR; lia. Qed.
Lemma thk : Rmult (INR k) (th k) = Rmult 2 PI.
Proof. by rewrite /th; field; exact: INRk. Qed.
Lemma per_k j q : cos (Rmult (INR (j + q * k)) (th k)) = cos (Rmult (INR j) (th k)).
Proof.
have -> : Rmult (INR (j + q * k)) (th k) = Rplus (Rmult (INR j) (th k)) (Rmult (Rmult 2 (INR q)) PI).
  by rewrite plus_INR mult_INR Rmult_plus_distr_r Rmult_assoc thk; ring.
by rewrite cos_period.
Qed.
Lemma sin_half r : (0 < r)%N -> (r < k)%N -> Rlt R0 (sin (Rdiv (Rmult (INR r) (th k)) 2)).
Proof.
move=> r0 rk; have E : Rdiv (Rmult (INR r) (th k)) 2 = Rmult (Rdiv (INR r) (INR k)) PI by rewrite /th; field; exact: INRk.
have P := PI_RGT_0; have K := INRk0; have rr : Rlt R0 (INR r) by apply: lt_0_INR; lia.
have lr : Rlt (INR r) (INR k) by apply: lt_INR; lia.
have d0 : Rlt R0 (Rdiv (INR r) (INR k)) by apply: Rdiv_lt_0_compat.
have d1 : Rlt (Rdiv (INR r) (INR k)) 1.
  by apply: (Rmult_lt_reg_r (INR k)) => //; rewrite /Rdiv Rmult_assoc Rinv_l; [lra | exact: INRk].
rewrite E; apply: sin_gt_0; first by apply: Rmult_lt_0_compat.
by rewrite -{2}(Rmult_1_l PI); apply: Rmult_lt_compat_r.
Qed.
Lemma telescope (a : R) (K : nat) : (\sum_(0 <= j < K) cR (Rmult (INR j) a)) * (2%:R * sR (Rdiv a 2)) =
  sR (Rminus (Rmult (INR K) a) (Rdiv a 2)) + sR (Rdiv a 2).
Proof.
rewrite /sR; elim: K => [|K IH].
  rewrite big_geq // mul0r /= Rmult_0_l Rminus_0_l sin_neg; change (R0 = Rplus (Ropp (sin (Rdiv a 2))) (sin (Rdiv a 2))); ring.
rewrite big_nat_recr // [X in X * _]/= mulrDl IH /cR twoE.
rewrite S_INR; set b := Rmult (INR K) a.
have -> : Rminus (Rmult (Rplus (INR K) 1) a) (Rdiv a 2) = Rplus b (Rdiv a 2) by rewrite /b; field.
rewrite sin_minus sin_plus; rring.
Qed.
Lemma cos_sum m : \sum_(0 <= j < k) cR (Rmult (INR j) (Rmult (INR m) (th k))) = if (k %| m)%N then k%:R else 0.
Proof.
have E j : cR (Rmult (INR j) (Rmult (INR m) (th k))) = cR (Rmult (INR j) (Rmult (INR (m %% k)) (th k))).
  rewrite /cR -(Rmult_assoc (INR j) (INR m)) -(Rmult_assoc (INR j) (INR (m %% k))) -!mult_INR {1}(divn_eq m k).
  have -> : (j * (m %/ k * k + m %% k))%coq_nat = (j * (m %% k) + (j * (m %/ k)) * k)%N by rewrite multE; lia.
  exact: per_k.
rewrite (eq_sum (g := fun j => cR (Rmult (INR j) (Rmult (INR (m %% k)) (th k))))) => [|j _]; last exact: E.
rewrite /dvdn; case: eqP => [->|/eqP r0].
  rewrite (eq_sum (g := fun=> 1)) => [|j _]; last by rewrite /cR /= Rmult_0_l Rmult_0_r cos_0.
  by rewrite big_const_nat subn0 iter_addr_0.
have rk : (m %% k < k)%N by rewrite ltn_mod.
have P := sin_half (r := m %% k) ltac:(by rewrite lt0n) rk.
have := telescope (Rmult (INR (m %% k)) (th k)) k; set a := Rmult (INR _) (th k) in P *; rewrite {2}/sR.
have -> : sin (Rminus (Rmult (INR k) a) (Rdiv a 2)) = Ropp (sin (Rdiv a 2)).
  have -> : Rminus (Rmult (INR k) a) (Rdiv a 2) = Rplus (Ropp (Rdiv a 2)) (Rmult (Rmult 2 (INR (m %% k))) PI).
    have -> : Rmult (INR k) a = Rmult (INR (m %% k)) (Rmult (INR k) (th k)) by rewrite /a; ring.
    by rewrite thk; ring.
  by rewrite sin_period sin_neg.
set X := \sum_(_ <= _ < _) _ => H.
have {}H : Rmult (Rmult 2 (sin (Rdiv a 2))) X = R0.
  have -> : Rmult (Rmult 2 (sin (Rdiv a 2))) X = X * (2%:R * sR (Rdiv a 2)) by rewrite twoE /sR; rring.
  rewrite H /sR; rring.
have [|->] := Rmult_integral _ _ H; last by [].
by move=> H'; exfalso; lra.
Qed.
End K.

(** (2 cos x)^n cos(a x) *)
Lemma cos_pow n (a x : R) : (2%:R * cR x) ^+ n * cR (Rmult a x) =
  \sum_(0 <= i < n.+1) 'C(n, i)%:R * cR (Rmult (Rminus (Rplus a (INR n)) (Rmult 2 (INR i))) x).
Proof.
elim: n a => [|n IH] a.
  rewrite expr0 mul1r big_nat1 bin0 mul1r; congr (cR (Rmult _ x)); by rewrite /=; ring.
have -> : (2%:R * cR x) ^+ n.+1 * cR (Rmult a x) =
  (2%:R * cR x) ^+ n * cR (Rmult (Rplus a 1) x) + (2%:R * cR x) ^+ n * cR (Rmult (Rminus a 1) x).
  rewrite -mulrDr exprSr -mulrA; congr (_ * _).
  have -> : Rmult (Rplus a 1) x = Rplus (Rmult a x) x by ring.
  have -> : Rmult (Rminus a 1) x = Rminus (Rmult a x) x by ring.
  rewrite /cR cos_plus cos_minus twoE; rring.
rewrite !IH.
set f := fun i => cR (Rmult (Rminus (Rplus a (INR n.+1)) (Rmult 2 (INR i))) x).
rewrite (eq_sum (g := fun i => 'C(n, i)%:R * f i)) => [|i _]; last first.
  by congr (_ * cR (Rmult _ x)); rewrite S_INR; ring.
rewrite (eq_sum (f := fun i => 'C(n, i)%:R * cR (Rmult (Rminus (Rplus (Rminus a 1) (INR n)) (Rmult 2 (INR i))) x)) (g := fun i => 'C(n, i)%:R * f i.+1)) => [|i _]; last first.
  by congr (_ * cR (Rmult _ x)); rewrite !S_INR; ring.
rewrite [RHS]big_nat_recl // (eq_sum (f := fun i => 'C(n.+1, i.+1)%:R * _) (g := fun i => 'C(n, i.+1)%:R * f i.+1 + 'C(n, i)%:R * f i.+1)) => [|i _]; last first.
  by rewrite binS natrD mulrDl.
rewrite big_split addrA; congr (_ + _).
rewrite big_nat_recl // -/(f 0%N) bin0; congr (1 * _ + _).
rewrite [RHS]big_nat_recr //; have -> : 'C(n, n.+1) = 0%N by apply: bin_small.
by rewrite mul0r; exact: (esym (addr0 _)).
Qed.

Theorem chars_c k n : (0 < k)%N -> \sum_(0 <= j < k) (2%:R * cR (Rmult (INR j) (th k))) ^+ n = k%:R * (balanced k n)%:R.
Proof.
move=> k0.
have E j : (2%:R * cR (Rmult (INR j) (th k))) ^+ n = \sum_(0 <= i < n.+1) 'C(n, i)%:R * cR (Rmult (INR j) (Rmult (INR ((n - 2 * i) + (2 * i - n))) (th k))).
  have := cos_pow n 0 (Rmult (INR j) (th k)); rewrite Rmult_0_l {2}/cR cos_0 mulr1 => ->.
  apply: eq_sum => i _; congr (_ * _).
  have [L|L] := leqP (2 * i)%N n.
    have -> : (2 * i - n = 0)%N by lia.
    rewrite addn0 minus_INR; last by lia.
    by rewrite mult_INR /=; congr cR; ring.
  have -> : (n - 2 * i = 0)%N by lia.
  rewrite add0n minus_INR; last by lia.
  rewrite mult_INR /= /cR -cos_neg; congr cos; ring.
rewrite (eq_sum (g := fun j => \sum_(0 <= i < n.+1) 'C(n, i)%:R * cR (Rmult (INR j) (Rmult (INR ((n - 2 * i) + (2 * i - n))) (th k))))) => [|j _]; last exact: E.
rewrite exchange_big /= /balanced natr_sum mulr_sumr; apply: eq_sum => i _.
rewrite -mulr_sumr cos_sum //.
have -> : (k %| (n - 2 * i) + (2 * i - n))%N = (2 * i == n %[mod k])%N.
  have [L|L] := leqP (2 * i)%N n.
    have -> : (2 * i - n = 0)%N by lia.
    by rewrite addn0 eq_sym eqn_mod_dvd.
  have -> : (n - 2 * i = 0)%N by lia.
  by rewrite add0n eqn_mod_dvd // ltnW.
by case: eqP => _; rewrite ?mulr0 // mulrC.
Qed.
