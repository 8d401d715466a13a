(** * Picard: local existence of solutions of differential equations with bounded Lipschitz
    right hand sides.  Vectors are functions on the indices below n. *)
From Coq Require Import Reals Lra Lia.
From Coquelicot Require Import Coquelicot.
From Coq Require Import ssreflect ssrbool.
Local Open Scope R_scope.

Lemma lt_div_mul a x y : 0 < y -> a < x / y -> a * y < x.
Proof. by move=> y0 H; have := Rmult_lt_compat_r y _ _ y0 H; rewrite /Rdiv Rmult_assoc Rinv_l; lra. Qed.
Section Picard.
Variables (n : nat) (G : nat -> (nat -> R) -> R) (K M h : R) (z0 : nat -> R).
Hypothesis K0 : 0 <= K.
Hypothesis M0 : 0 <= M.
Hypothesis h0 : 0 < h.
Hypothesis Kh : K * h <= / 2.
Hypothesis GL : forall x y d i, (forall j, (j < n)%nat -> Rabs (x j - y j) <= d) -> (i < n)%nat -> Rabs (G i x - G i y) <= K * d.
Hypothesis GB : forall x i, (i < n)%nat -> Rabs (G i x) <= M.

Fixpoint it (k : nat) (i : nat) (t : R) : R :=
  match k with
  | O => z0 i
  | S k' => z0 i + RInt (fun s => G i (fun j => it k' j s)) 0 t
  end.
Lemma mv (f df : R -> R) B s t : (forall x, Rmin s t <= x <= Rmax s t -> is_derive f x (df x)) ->
  (forall x, Rmin s t <= x <= Rmax s t -> Rabs (df x) <= B) -> Rabs (f t - f s) <= B * Rabs (t - s).
Proof.
move=> D HB; have [c [Hc ->]] := MVT_gen f s t df (fun x Hx => D x ltac:(lra))
  (fun x Hx => proj2 (continuity_pt_filterlim f x) (ex_derive_continuous f x (ex_intro _ _ (D x Hx)))).
rewrite Rabs_mult; apply: Rmult_le_compat_r; [exact: Rabs_pos | exact: HB].
Qed.
Lemma it_lip_cont k i : (i < n)%nat -> (forall j s t, (j < n)%nat -> Rabs (it k j t - it k j s) <= M * Rabs (t - s)) ->
  forall t, continuous (fun s => G i (fun j => it k j s)) t.
Proof.
move=> Hi HL t; apply/continuity_pt_filterlim => eps e0; exists (eps / (K * M + 1)).
have KM : 0 <= K * M by apply: Rmult_le_pos.
split; first by apply: Rdiv_lt_0_compat; lra.
move=> s [_ Hs]; rewrite /= /R_dist in Hs *.
apply: Rle_lt_trans (GL _ _ (M * Rabs (s - t)) i (fun j Hj => HL j t s Hj) Hi) _.
have P := Rabs_pos (s - t).
have : Rabs (s - t) * (K * M + 1) < eps.
  by have := Rmult_lt_compat_r (K * M + 1) _ _ ltac:(lra) Hs; rewrite /Rdiv Rmult_assoc Rinv_l; lra.
nra.
Qed.
Lemma it_der_of k i : (i < n)%nat -> (forall j s t, (j < n)%nat -> Rabs (it k j t - it k j s) <= M * Rabs (t - s)) ->
  forall t, is_derive (it (S k) i) t (G i (fun j => it k j t)).
Proof.
move=> Hi HL t /=; rewrite -[X in is_derive _ _ X](Rplus_0_l).
apply: (is_derive_plus (fun _ => z0 i)); first exact: is_derive_const.
have C := it_lip_cont k i Hi HL.
refine (is_derive_RInt (fun s => G i (fun j => it k j s)) (fun t => RInt (fun s => G i (fun j => it k j s)) 0 t) 0 t _ (C t)).
by apply: filter_forall => x; apply: RInt_correct; apply: ex_RInt_continuous => y _; exact: C.
Qed.
Lemma it_lip k : forall j s t, (j < n)%nat -> Rabs (it k j t - it k j s) <= M * Rabs (t - s).
Proof.
elim: k => [|k IH] j s t Hj.
  by rewrite /= Rminus_eq_0 Rabs_R0; apply: Rmult_le_pos => //; exact: Rabs_pos.
apply: (mv _ (fun t => G j (fun l => it k l t))) => x _; [exact: it_der_of | exact: GB].
Qed.
Lemma it_der k i t : (i < n)%nat -> is_derive (it (S k) i) t (G i (fun j => it k j t)).
Proof. by move=> Hi; apply: it_der_of => //; exact: it_lip. Qed.
Lemma it_0 k i : it k i 0 = z0 i.
Proof. by case: k => [|k] //=; rewrite RInt_point /zero /= Rplus_0_r. Qed.
Lemma between t x : Rabs t <= h -> Rmin 0 t <= x <= Rmax 0 t -> Rabs x <= h.
Proof. rewrite /Rmin /Rmax; move: (Rle_dec 0 t); case=> H; split_Rabs; lra. Qed.
Lemma it_step k : forall i t, (i < n)%nat -> Rabs t <= h -> Rabs (it (S k) i t - it k i t) <= M * h * (/ 2) ^ k.
Proof.
elim: k => [|k IH] i t Hi Ht.
  have := it_lip 1 i 0 t Hi; rewrite it_0 Rminus_0_r [it 0 i t]/=.
  have := Rmult_le_compat_l M _ _ M0 Ht; rewrite pow_O; lra.
have := mv (fun t => it (S (S k)) i t - it (S k) i t) (fun t => G i (fun j => it (S k) j t) - G i (fun j => it k j t)) (K * (M * h * (/ 2) ^ k)) 0 t.
rewrite !it_0 Rminus_eq_0 !Rminus_0_r => H.
apply: Rle_trans (H _ _) _.
- by move=> x _; apply: (is_derive_minus (it (S (S k)) i)); exact: it_der.
- by move=> x Hx; apply: GL => // j Hj; apply: IH => //; exact: between Ht Hx.
have P : 0 <= M * h * (/ 2) ^ k by apply: Rmult_le_pos; [apply: Rmult_le_pos; lra | apply: pow_le; lra].
set D := _ * _ ^ k in P *.
have -> : M * h * (/ 2) ^ S k = D * / 2 by rewrite /D /=; ring.
have H1 : K * D * Rabs t <= K * D * h by apply: Rmult_le_compat_l => //; exact: Rmult_le_pos.
have H2 : D * (K * h) <= D * / 2 by exact: Rmult_le_compat_l.
lra.
Qed.
Lemma it_cauchy k m i t : (i < n)%nat -> Rabs t <= h -> Rabs (it (k + m) i t - it k i t) <= 2 * (M * h) * (/ 2) ^ k.
Proof.
move=> Hi Ht; have P : 0 <= M * h * (/ 2) ^ k by apply: Rmult_le_pos; [apply: Rmult_le_pos; lra | apply: pow_le; lra].
suff : Rabs (it (k + m) i t - it k i t) <= M * h * (/ 2) ^ k * (2 - 2 * (/ 2) ^ m).
  have Q : 0 <= (/ 2) ^ m by apply: pow_le; lra.
  have := Rmult_le_pos _ _ P Q; lra.
elim: m => [|m IH]; first by rewrite Nat.add_0_r Rminus_eq_0 Rabs_R0 /=; lra.
have -> : (k + S m)%nat = S (k + m) by lia.
have := it_step (k + m) i t Hi Ht; rewrite pow_add => H.
have -> : it (S (k + m)) i t - it k i t = (it (S (k + m)) i t - it (k + m) i t) + (it (k + m) i t - it k i t) by ring.
apply: Rle_trans (Rabs_triang _ _) _; rewrite -tech_pow_Rmult; lra.
Qed.
Lemma half_small eps : 0 < eps -> exists k, forall m, (k <= m)%nat -> (/ 2) ^ m < eps.
Proof.
move=> e0; have A : Rabs (/ 2) < 1 by rewrite Rabs_pos_eq; lra.
have [k Hk] := pow_lt_1_zero (/ 2) A eps e0.
by exists k => m Hm; have := Hk m ltac:(lia); rewrite Rabs_pos_eq //; apply: pow_le; lra.
Qed.
Definition sol (i : nat) (t : R) : R := real (Lim_seq (fun k => it k i t)).
Lemma sol_lim i t : (i < n)%nat -> Rabs t <= h -> is_lim_seq (fun k => it k i t) (sol i t).
Proof.
move=> Hi Ht; apply: Lim_seq_correct'; apply/ex_lim_seq_cauchy_corr => eps.
have P : 0 <= M * h by apply: Rmult_le_pos; lra.
have [k Hk] := half_small (eps / (4 * (M * h) + 1)) ltac:(apply: Rdiv_lt_0_compat; [exact: cond_pos | lra]).
exists k => a b Ha Hb.
have E m : (k <= m)%nat -> Rabs (it m i t - it k i t) <= 2 * (M * h) * (/ 2) ^ k.
  by move=> Hm; have -> : m = (k + (m - k))%nat; [lia | exact: it_cauchy].
have -> : it a i t - it b i t = (it a i t - it k i t) - (it b i t - it k i t) by ring.
apply: Rle_lt_trans (Rabs_triang _ _) _; rewrite Rabs_Ropp.
have := E a Ha; have := E b Hb; have {}Hk := Hk k ltac:(lia).
have := Rmult_lt_compat_r (4 * (M * h) + 1) _ _ ltac:(lra) Hk; rewrite /Rdiv Rmult_assoc Rinv_l; last lra.
have Q : 0 < (/ 2) ^ k by apply: pow_lt; lra.
rewrite Rmult_1_r; nra.
Qed.
Lemma lim_le (u : nat -> R) (l B : R) : is_lim_seq u l -> (forall k, u k <= B) -> l <= B.
Proof. by move=> H E; exact: (is_lim_seq_le u (fun _ => B) l B E H (is_lim_seq_const B)). Qed.
Lemma sol_near k i t : (i < n)%nat -> Rabs t <= h -> Rabs (sol i t - it k i t) <= 2 * (M * h) * (/ 2) ^ k.
Proof.
move=> Hi Ht; have L := proj1 (is_lim_seq_incr_n (fun k => it k i t) k (sol i t)) (sol_lim i t Hi Ht).
apply: (lim_le (fun m => Rabs (it (m + k) i t - it k i t))).
  by apply: (is_lim_seq_abs _ (Finite _)); apply: (is_lim_seq_minus' _ _ _ _ L); exact: is_lim_seq_const.
by move=> m; rewrite Nat.add_comm; exact: it_cauchy.
Qed.
Lemma sol_0 i : sol i 0 = z0 i.
Proof. by rewrite /sol (Lim_seq_ext _ (fun _ => z0 i)) ?Lim_seq_const // => k; rewrite it_0. Qed.
Lemma sol_lip i s t : (i < n)%nat -> Rabs s <= h -> Rabs t <= h -> Rabs (sol i t - sol i s) <= M * Rabs (t - s).
Proof.
move=> Hi Hs Ht; apply: (lim_le (fun k => Rabs (it k i t - it k i s))); last by move=> k; exact: it_lip.
by apply: (is_lim_seq_abs _ (Finite _)); apply: is_lim_seq_minus'; exact: sol_lim.
Qed.
Lemma sol_second i s t : (i < n)%nat -> Rabs s < h -> Rabs t < h ->
  Rabs (sol i s - sol i t - G i (fun j => sol j t) * (s - t)) <= K * M * Rabs (s - t) * Rabs (s - t).
Proof.
move=> Hi Hs Ht; have P : 0 <= M * h by apply: Rmult_le_pos; lra.
have B x : Rmin t s <= x <= Rmax t s -> Rabs x <= h /\ Rabs (x - t) <= Rabs (s - t).
  by rewrite /Rmin /Rmax; move: (Rle_dec t s); case=> H [h1 h2]; split; split_Rabs; lra.
set w := G i _.
have E k : Rabs (it (S k) i s - it (S k) i t - w * (s - t)) <= (K * (2 * (M * h) * (/ 2) ^ k + M * Rabs (s - t))) * Rabs (s - t).
  have := mv (fun x => it (S k) i x - w * (x - t)) (fun x => G i (fun j => it k j x) - w) (K * (2 * (M * h) * (/ 2) ^ k + M * Rabs (s - t))) t s.
  have -> : it (S k) i s - w * (s - t) - (it (S k) i t - w * (t - t)) = it (S k) i s - it (S k) i t - w * (s - t) by ring.
  apply=> x Hx; have [Hxh Hxt] := B x Hx.
    apply: (is_derive_minus (it (S k) i)); first exact: it_der.
    by auto_derive => //; ring.
  apply: GL => // j Hj.
  have -> : it k j x - sol j t = - (sol j x - it k j x) + (sol j x - sol j t) by ring.
  apply: Rle_trans (Rabs_triang _ _) _; rewrite Rabs_Ropp; apply: Rplus_le_compat; first exact: sol_near.
  apply: Rle_trans (sol_lip j t x Hj _ _) _ => //; first by lra.
  exact: Rmult_le_compat_l.
apply: Rnot_lt_le => L.
set D := Rabs (sol i s - _ - _) in L; set d := Rabs (s - t) in L E.
have d0 : 0 <= d by exact: Rabs_pos.
have [k Hk] := half_small ((D - K * M * d * d) / (K * (2 * (M * h)) * d + 2 * (M * h) + 2 * (M * h) + 1))
  ltac:(apply: Rdiv_lt_0_compat; [lra | have := Rmult_le_pos _ _ (Rmult_le_pos _ _ K0 (Rmult_le_pos 2 _ ltac:(lra) P)) d0; lra]).
have {}Hk := Hk k ltac:(lia).
have Q : 0 < (/ 2) ^ k by apply: pow_lt; lra.
have R0 := Rmult_le_pos _ _ (Rmult_le_pos _ _ K0 (Rmult_le_pos 2 _ ltac:(lra) P)) d0.
have HH := lt_div_mul _ _ (K * (2 * (M * h)) * d + 2 * (M * h) + 2 * (M * h) + 1) ltac:(lra) Hk.
have N1 := sol_near (S k) i s Hi ltac:(lra); have N2 := sol_near (S k) i t Hi ltac:(lra).
have HE := E k.
have T : D <= Rabs (it (S k) i s - it (S k) i t - w * (s - t)) + (Rabs (sol i s - it (S k) i s) + Rabs (sol i t - it (S k) i t)).
  rewrite /D.
  have -> : sol i s - sol i t - w * (s - t) = (it (S k) i s - it (S k) i t - w * (s - t)) + ((sol i s - it (S k) i s) - (sol i t - it (S k) i t)) by ring.
  apply: Rle_trans (Rabs_triang _ _) _; apply: Rplus_le_compat_l.
  by apply: Rle_trans (Rabs_triang _ _) _; rewrite Rabs_Ropp; lra.
rewrite -tech_pow_Rmult in N1 N2; move: N1 N2 HE T HH Q {E Hk}; move: ((/ 2) ^ k) => p N1 N2 HE T HH Q.
have : D <= K * (2 * (M * h) * p + M * d) * d + 2 * (2 * (M * h) * (/ 2 * p)) by lra.
have := Rmult_le_pos _ _ P (Rlt_le _ _ Q).
nra.
Qed.
Lemma sol_der i t : (i < n)%nat -> Rabs t < h -> derivable_pt_lim (sol i) t (G i (fun j => sol j t)).
Proof.
move=> Hi Ht eps e0; have KM : 0 <= K * M by apply: Rmult_le_pos.
have d0 : 0 < Rmin (h - Rabs t) (eps / (K * M + 1)).
  by apply: Rmin_pos; [lra | apply: Rdiv_lt_0_compat; lra].
exists (mkposreal _ d0) => u u0 /= Hu.
have Hs : Rabs (t + u) < h.
  by have := Rmin_l (h - Rabs t) (eps / (K * M + 1)); have := Rabs_triang t u; lra.
have := sol_second i (t + u) t Hi Hs Ht; rewrite (_ : t + u - t = u); last by ring.
move=> H; have U : 0 < Rabs u by exact: Rabs_pos_lt.
have -> : (sol i (t + u) - sol i t) / u - G i (fun j => sol j t) = (sol i (t + u) - sol i t - G i (fun j => sol j t) * u) / u by field.
rewrite /Rdiv Rabs_mult Rabs_inv.
apply: Rle_lt_trans (Rmult_le_compat_r (/ Rabs u) _ _ _ H) _; first by apply: Rlt_le; exact: Rinv_0_lt_compat.
rewrite Rmult_assoc Rinv_r ?Rmult_1_r; last by lra.
have := Rmin_r (h - Rabs t) (eps / (K * M + 1)) => H2.
have : Rabs u * (K * M + 1) < eps.
  by have := Rmult_lt_compat_r (K * M + 1) _ _ ltac:(lra) (Rlt_le_trans _ _ _ Hu H2); rewrite /Rdiv Rmult_assoc Rinv_l; lra.
nra.
Qed.
End Picard.
