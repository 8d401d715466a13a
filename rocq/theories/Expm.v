(** * Expm: the exponential of a real matrix, and its derivative. *)
From Coq Require Import Reals Lra.
From Coquelicot Require Import Coquelicot.
From mathcomp Require Import all_ssreflect all_algebra.
From Verif Require Import Spec SpecLemmas Rstruct.
Set Implicit Arguments.
Unset Strict Implicit.
Unset Printing Implicit Defensive.
Import GRing.Theory.
Local Open Scope ring_scope.

Definition RR := R_comRingType.

(** the k-th power of a matrix of size n *)
Definition mpow (n : nat) (A : fmat RR) (k : nat) : fmat RR := iter k (fmul A) (fid RR n).
(** E is the exponential of the n x n matrix A: the sum of A^k/k! *)
Definition is_exp (n : nat) (A E : fmat RR) : Prop :=
  [/\ fr E = n, fc E = n & forall i j, (i < n)%N -> (j < n)%N ->
    infinite_sum (fun k => Rdiv (fe (mpow n A k) i j) (INR (Factorial.fact k))) (fe E i j)].

(** *** derivatives of sums *)
Lemma dl_ext (f g : R -> R) t l l' : f =1 g -> l = l' -> derivable_pt_lim f t l -> derivable_pt_lim g t l'.
Proof. by move=> E <- H e He; have [d Hd] := H e He; exists d => h; rewrite -!E; exact: Hd. Qed.
Lemma dl_sum (f : nat -> R -> R) (l : nat -> R) n t :
  (forall k, (k < n)%N -> derivable_pt_lim (f k) t (l k)) ->
  derivable_pt_lim (fun s => \sum_(0 <= k < n) f k s : RR) t (\sum_(0 <= k < n) l k : RR).
Proof.
elim: n => [|n IH] H.
  by rewrite big_geq //; apply: dl_ext (derivable_pt_lim_const R0 t) => // s; rewrite big_geq.
rewrite big_nat_recr //=; have := derivable_pt_lim_plus _ _ _ _ _ (IH _) (H n (ltnSn n)).
move=> D; apply: dl_ext (D _) => // [s|k Hk]; last by apply: H; apply: ltnW.
by rewrite big_nat_recr.
Qed.
Lemma dl_mul (f g : R -> RR) t (l m : RR) : derivable_pt_lim f t l -> derivable_pt_lim g t m ->
  derivable_pt_lim (fun s => f s * g s) t (l * g t + f t * m).
Proof. exact: derivable_pt_lim_mult. Qed.
Lemma dl_mulc (f : R -> RR) t (c l : RR) : derivable_pt_lim f t l -> derivable_pt_lim (fun s => f s * c) t (l * c).
Proof.
move=> H; have := dl_mul H (derivable_pt_lim_const c t); apply: dl_ext => //.
by rewrite mulr0 addr0.
Qed.
Lemma dl_cmul (f : R -> RR) t (c l : RR) : derivable_pt_lim f t l -> derivable_pt_lim (fun s => c * f s) t (c * l).
Proof. by move=> H; apply: dl_ext (@dl_mulc f t c l H) => [s|]; rewrite mulrC. Qed.

(** a function with zero derivative is constant *)
Lemma dl_const (f : R -> R) : (forall t, derivable_pt_lim f t R0) -> forall s t, f s = f t.
Proof.
move=> H; have pr : derivable f by move=> t; exists R0; exact: H.
have E := null_derivative_1 f pr _.
move=> s t; apply: E => x; exact: (derive_pt_eq_0 _ _ _ (pr x) (H x)).
Qed.
Lemma dl_uniq (f : R -> R) t l m : derivable_pt_lim f t l -> derivable_pt_lim f t m -> l = m.
Proof. exact: uniqueness_limite. Qed.

(** *** the power series of the entries *)
Section Exp.
Variables (n : nat) (A : fmat RR).
Hypotheses (A1 : fr A = n) (A2 : fc A = n).

Lemma mpow_sz k : fr (mpow n A k) = n /\ fc (mpow n A k) = n.
Proof. by elim: k => [|k [h1 h2]] //=; rewrite A1. Qed.

Definition cf (i j k : nat) : R := Rdiv (fe (mpow n A k) i j) (INR (Factorial.fact k)).

Lemma bnd_sum (f g : nat -> RR) m : (forall k, (k < m)%N -> Rle (Rabs (f k)) (g k)) ->
  Rle (Rabs (\sum_(0 <= k < m) f k)) (\sum_(0 <= k < m) g k).
Proof.
elim: m => [|m IH] H; first by rewrite !big_geq // Rabs_R0; apply: Rle_refl.
rewrite !big_nat_recr //=; apply: Rle_trans (Rabs_triang _ _) _.
by apply: Rplus_le_compat; [apply: IH => k Hk; apply: H; apply: ltnW | apply: H].
Qed.
Lemma sum_cst (c : RR) m : \sum_(0 <= k < m) c = Rmult (INR m) c.
Proof.
elim: m => [|m IH]; first by rewrite big_geq //= Rmult_0_l.
by rewrite S_INR big_nat_recr //= IH Rmult_plus_distr_r Rmult_1_l.
Qed.

Lemma entry_bound : exists b, Rle 0 b /\ forall i j, (i < n)%N -> (j < n)%N -> Rle (Rabs (fe A i j)) b.
Proof.
have H m : exists b, Rle 0 b /\ forall i j, (i < n)%N -> (j < m)%N -> Rle (Rabs (fe A i j)) b.
  elim: m => [|m [b [b0 Hb]]]; first by exists 0; split; [apply: Rle_refl | ].
  have [c [c0 Hc]] : exists c, Rle 0 c /\ forall i, (i < n)%N -> Rle (Rabs (fe A i m)) c.
    elim: (n) => [|k [c [c0 Hc]]]; first by exists 0; split; [apply: Rle_refl |].
    exists (Rmax c (Rabs (fe A k m))); split; first exact: Rle_trans c0 (Rmax_l _ _).
    move=> i; rewrite ltnS leq_eqVlt => /orP[/eqP ->|Hi]; first exact: Rmax_r.
    exact: Rle_trans (Hc i Hi) (Rmax_l _ _).
  exists (Rmax b c); split; first exact: Rle_trans b0 (Rmax_l _ _).
  move=> i j Hi; rewrite ltnS leq_eqVlt => /orP[/eqP ->|Hj]; first exact: Rle_trans (Hc i Hi) (Rmax_r _ _).
  exact: Rle_trans (Hb i j Hi Hj) (Rmax_l _ _).
exact: H.
Qed.

Lemma pow_bound : exists b, Rle 0 b /\ forall k i j, (i < n)%N -> (j < n)%N -> Rle (Rabs (fe (mpow n A k) i j)) (pow b k).
Proof.
have [b [b0 Hb]] := entry_bound.
have B0 : Rle 0 (Rmult (INR n) b) by apply: Rmult_le_pos => //; apply: pos_INR.
exists (Rmult (INR n) b); split=> // k; elim: k => [|k IH] i j Hi Hj.
  rewrite /=; case: eqP => _; rewrite /= ?mulr1n.
    by rewrite Rabs_R1; apply: Rle_refl.
  by rewrite Rabs_R0; apply: Rle_0_1.
rewrite /= A2.
apply: Rle_trans (bnd_sum (g := fun _ => Rmult b (pow (Rmult (INR n) b) k)) _) _.
  move=> l Hl; rewrite Rabs_mult; apply: Rmult_le_compat; try exact: Rabs_pos; [exact: Hb | exact: IH].
by rewrite sum_cst -Rmult_assoc; apply: Rle_refl.
Qed.

Lemma cf_radius i j : (i < n)%N -> (j < n)%N -> CV_radius (cf i j) = p_infty.
Proof.
move=> Hi Hj; have [b [b0 Hb]] := pow_bound.
have [ub _] := CV_radius_bounded (cf i j).
have U : forall r : R, Rbar_le r (CV_radius (cf i j)).
  move=> r; apply: ub.
  have [M [M0 HM]] := maj_by_pos _ (exist _ _ (cv_speed_pow_fact (Rmult b (Rabs r)))).
  exists M => k; apply: Rle_trans (HM k).
  rewrite /cf /Rdiv !Rabs_mult Rmult_assoc [Rmult (Rabs (Rinv _)) _]Rmult_comm -Rmult_assoc.
  apply: Rmult_le_compat_r; first exact: Rabs_pos.
  rewrite -!RPow_abs Rabs_mult Rabs_Rabsolu (Rabs_pos_eq b b0) Rpow_mult_distr.
  by apply: Rmult_le_compat_r; [apply: pow_le; apply: Rabs_pos | apply: Hb].
case E : (CV_radius (cf i j)) => [x||] //.
- by have := U (Rplus x 1); rewrite E /=; lra.
by have := U 0; rewrite E.
Qed.

(** exp(tA) *)
Definition expm (t : R) : fmat RR := FM n n (fun i j => PSeries (cf i j) t).

Lemma ex_cf i j t : (i < n)%N -> (j < n)%N -> ex_pseries (cf i j) t.
Proof. by move=> Hi Hj; apply: CV_radius_inside; rewrite cf_radius. Qed.

Lemma mpowS k i j : (i < n)%N -> (j < n)%N -> fe (mpow n A k.+1) i j = \sum_(0 <= l < n) fe (mpow n A k) i l * fe A l j.
Proof.
move=> Hi Hj; elim: k i Hi => [|k IH] i Hi.
  rewrite /= A2 (eq_sum (g := fun l => (j == l)%:R * fe A i l)); last by move=> l _; rewrite mulrC eq_sym.
  rewrite sum_delta // (eq_sum (g := fun l => (i == l)%:R * fe A l j)) ?sum_delta //.
rewrite {1}/mpow iterS -/(mpow n A k.+1) /= A2.
rewrite (eq_sum (g := fun l => \sum_(0 <= m < n) fe A i l * (fe (mpow n A k) l m * fe A m j))); last first.
  by move=> l Hl; have := IH l Hl; rewrite /= A2 => ->; rewrite mulr_sumr.
rewrite exchange_big; apply: eq_sum => m Hm.
by rewrite mulr_suml; apply: eq_sum => l Hl; rewrite mulrA.
Qed.

Lemma isum0 : is_series (fun _ : nat => R0) R0.
Proof.
apply/is_series_Reals => e He; exists 0%N => k _.
by rewrite sum_cte Rmult_0_l /R_dist Rminus_0_r Rabs_R0.
Qed.
Lemma ps_sum (c : nat -> nat -> R) (d : nat -> RR) m t : (forall l, (l < m)%N -> ex_pseries (c l) t) ->
  is_series (fun k => Rmult (\sum_(0 <= l < m) (c l k : RR) * d l : RR) (pow t k))
    (\sum_(0 <= l < m) (PSeries (c l) t : RR) * d l : RR).
Proof.
elim: m => [|m IH] H.
  rewrite big_geq //; apply: is_series_ext isum0 => k; by rewrite big_geq // Rmult_0_l.
rewrite big_nat_recr //=.
have H1 := IH (fun l Hl => H l (ltnW Hl)).
have /is_pseries_R H2 := PSeries_correct _ _ (H m (ltnSn m)).
have := is_series_plus _ _ _ _ H1 (is_series_scal_r (d m) _ _ H2).
apply: is_series_ext => k; rewrite big_nat_recr //= Rmult_plus_distr_r.
by congr Rplus; rewrite -!/(Rmult _ _) !Rmult_assoc [Rmult (d m) _]Rmult_comm.
Qed.

Lemma ps_uniq a t l : is_series (fun k => Rmult (a k) (pow t k)) l -> PSeries a t = l.
Proof. by move/is_pseries_R/is_pseries_unique. Qed.

Lemma fact_S k (x : R) : Rmult (INR k.+1) (Rdiv x (INR (Factorial.fact k.+1))) = Rdiv x (INR (Factorial.fact k)).
Proof.
rewrite -[Factorial.fact k.+1]/(Nat.mul k.+1 (Factorial.fact k)) mult_INR.
by field; split; [apply: INR_fact_neq_0 | apply: not_0_INR].
Qed.

(** the derivative of exp(tA) is exp(tA) A and A exp(tA) *)
Lemma expm_der_r i j t : (i < n)%N -> (j < n)%N ->
  derivable_pt_lim (fun s => fe (expm s) i j) t (fe (fmul (expm t) A) i j).
Proof.
move=> Hi Hj; apply/is_derive_Reals.
have -> : fe (fmul (expm t) A) i j = PSeries (PS_derive (cf i j)) t.
  symmetry; apply: ps_uniq; rewrite /=.
  have := @ps_sum (fun l => cf i l) (fun l => fe A l j) n t (fun l Hl => ex_cf t Hi Hl).
  apply: is_series_ext => k; congr Rmult.
  rewrite /PS_derive /cf fact_S mpowS //.
  rewrite /Rdiv -[RHS]/((\sum_(0 <= l < n) (fe (mpow n A k) i l) * fe A l j : RR) * _) mulr_suml; apply: eq_sum => l Hl.
  by rewrite -[Rmult _ _]/(_ * _ : RR) mulrAC.
by apply: is_derive_PSeries; rewrite cf_radius.
Qed.
Lemma expm_der_l i j t : (i < n)%N -> (j < n)%N ->
  derivable_pt_lim (fun s => fe (expm s) i j) t (fe (fmul A (expm t)) i j).
Proof.
move=> Hi Hj; apply/is_derive_Reals.
have -> : fe (fmul A (expm t)) i j = PSeries (PS_derive (cf i j)) t.
  symmetry; apply: ps_uniq; rewrite /= A2.
  rewrite (eq_sum (g := fun l => (PSeries (cf l j) t : RR) * fe A i l)); last by move=> l _; rewrite mulrC.
  have := @ps_sum (fun l => cf l j) (fun l => fe A i l) n t (fun l Hl => ex_cf t Hl Hj).
  apply: is_series_ext => k; congr Rmult.
  rewrite /PS_derive /cf fact_S [mpow n A k.+1]/= /= A2.
  rewrite /Rdiv -[RHS]/((\sum_(0 <= l < n) fe A i l * (fe (mpow n A k) l j) : RR) * _) mulr_suml; apply: eq_sum => l Hl.
  by rewrite -[Rmult _ _]/(_ * _ : RR) mulrC mulrA.
by apply: is_derive_PSeries; rewrite cf_radius.
Qed.
Lemma expm0 : meq (expm 0) (fid RR n).
Proof.
split=> //= i j Hi Hj; rewrite PSeries_0 /cf /= /Rdiv Rinv_1 Rmult_1_r //.
Qed.
Lemma mpow_scale t k i j : (i < n)%N -> (j < n)%N -> fe (mpow n (fscale t A) k) i j = Rmult (fe (mpow n A k) i j) (pow t k).
Proof.
elim: k i j => [|k IH] i j Hi Hj; first by rewrite /= Rmult_1_r.
rewrite /= A2 -[RHS]/((\sum_(0 <= l < n) fe A i l * fe (mpow n A k) l j : RR) * _) mulr_suml.
apply: eq_sum => l Hl; rewrite IH // -!/(Rmult _ _).
rewrite -[Rmult (fe (mpow n A k) l j) _]/(_ * _ : RR) -[Rmult t _]/(_ * _ : RR).
by rewrite [t * fe A i l]mulrC mulrACA.
Qed.
Lemma expm_is t : is_exp n (fscale t A) (expm t).
Proof.
split=> // i j Hi Hj /=; apply/is_series_Reals.
have /is_pseries_R := PSeries_correct _ _ (ex_cf t Hi Hj); apply: is_series_ext => k.
by rewrite mpow_scale // /cf /Rdiv !Rmult_assoc [Rmult (pow t k) _]Rmult_comm.
Qed.
End Exp.

Lemma is_exp_uniq n A E E' : is_exp n A E -> is_exp n A E' -> meq E E'.
Proof.
move=> [h1 h2 H] [k1 k2 H']; split; rewrite ?h1 ?h2 // => i j Hi Hj.
exact: uniqueness_sum (H i j Hi Hj) (H' i j Hi Hj).
Qed.
Lemma mpow_meq n A B k : meq A B -> fr A = n -> fc A = n -> meq (mpow n A k) (mpow n B k).
Proof.
move=> H S1 S2; elim: k => [|k IH] //=; apply: meq_fmul => //.
by have [-> _] := @mpow_sz n A S1 k.
Qed.
Lemma is_exp_meq n A B E F : meq A B -> meq E F -> fr A = n -> fc A = n -> is_exp n A E -> is_exp n B F.
Proof.
move=> H [e1 e2 e3] S1 S2 [h1 h2 h3]; split; [by rewrite -e1 | by rewrite -e2 |] => i j Hi Hj.
rewrite -e3 ?h1 ?h2 //; apply/is_series_Reals; have /is_series_Reals := h3 i j Hi Hj; apply: is_series_ext => k; congr Rdiv.
by have [m1 m2] := @mpow_sz n A S1 k; have [_ _ ->] := mpow_meq k H S1 S2; rewrite ?m1 ?m2.
Qed.
Lemma is_exp_expm n A E t : fr A = n -> fc A = n -> is_exp n (fscale t A) E -> meq E (expm n A t).
Proof. by move=> h1 h2 H; apply: is_exp_uniq H (expm_is h2 t). Qed.

(** derivative of a product of curves of matrices *)
Lemma dl_fmul n (X Y : R -> fmat RR) (X' Y' : fmat RR) t i j :
  (forall s, fc (X s) = n) -> fc X' = n ->
  (forall l, (l < n)%N -> derivable_pt_lim (fun s => fe (X s) i l) t (fe X' i l)) ->
  (forall l, (l < n)%N -> derivable_pt_lim (fun s => fe (Y s) l j) t (fe Y' l j)) ->
  derivable_pt_lim (fun s => fe (fmul (X s) (Y s)) i j) t (fe (fmul X' (Y t)) i j + fe (fmul (X t) Y') i j).
Proof.
move=> cX cX' HX HY.
apply: dl_ext (@dl_sum (fun l s => fe (X s) i l * fe (Y s) l j) _ n t _); last first.
- by move=> l Hl; apply: dl_mul; [apply: HX | apply: HY].
- by rewrite big_split /= cX cX'.
by move=> s /=; rewrite cX.
Qed.

Section Inv.
Variables (n : nat) (A : fmat RR).
Hypotheses (A1 : fr A = n) (A2 : fc A = n).
Local Notation E := (expm n A).
Local Notation N := (expm n (fopp A)).

Lemma mul3_opp (X Y : fmat RR) i j : fc X = n ->
  fe (fmul X (fmul (fopp A) Y)) i j = - fe (fmul X (fmul A Y)) i j.
Proof.
move=> cX; rewrite /= cX A2 -sumrN; apply: eq_sum => l Hl; rewrite -mulrN; congr (_ * _).
by rewrite -sumrN; apply: eq_sum => m _; rewrite mulNr.
Qed.
Lemma fe_meq (X Y : fmat RR) i j : meq X Y -> (i < fr X)%N -> (j < fc X)%N -> fe X i j = fe Y i j.
Proof. by case=> _ _ H; exact: H. Qed.

(** exp((t+s)A) exp(-sA) = exp(tA) *)
Lemma expm_shift t s : meq (fmul (E (Rplus t s)) (N s)) (E t).
Proof.
split=> // i j Hi Hj; rewrite /= in Hi Hj.
pose f u := fe (fmul (E (Rplus t u)) (N u)) i j.
have C : forall u, f u = f R0.
  move=> u; apply: dl_const => {}u.
  have D1 k l : (k < n)%N -> (l < n)%N ->
      derivable_pt_lim (fun s0 => fe (E (Rplus t s0)) k l) u (fe (fmul (E (Rplus t u)) A) k l).
    move=> Hk Hl.
    have d0 : derivable_pt_lim (fun s0 => Rplus t s0) u R1.
      apply: dl_ext (derivable_pt_lim_plus _ _ _ _ _ (derivable_pt_lim_const t u) (derivable_pt_lim_id u)) => //.
      by rewrite Rplus_0_l.
    have := derivable_pt_lim_comp _ _ _ _ _ d0 (expm_der_r A2 (Rplus t u) Hk Hl).
    by apply: dl_ext => //; rewrite Rmult_1_r.
  have D2 k l : (k < n)%N -> (l < n)%N -> derivable_pt_lim (fun s0 => fe (N s0) k l) u (fe (fmul (fopp A) (N u)) k l).
    by move=> Hk Hl; apply: expm_der_l.
  have := @dl_fmul n (fun v => E (Rplus t v)) N (fmul (E (Rplus t u)) A) (fmul (fopp A) (N u)) u i j
    (fun _ => erefl) A2 (fun l Hl => D1 i l Hi Hl) (fun l Hl => D2 l j Hl Hj).
  apply: dl_ext => //; rewrite mul3_opp //.
  by have [_ _ ->] := fmul_assoc (E (Rplus t u)) A (N u); rewrite /= ?subrr.
rewrite -/(f s) C /f Rplus_0_r.
have [_ _ ->] // : meq (fmul (E t) (N R0)) (E t).
apply: meq_trans (fmul_id_r (n := n) _) => //; apply: meq_fmul => //; exact: expm0.
Qed.
Lemma expm_inv_r t : meq (fmul (E t) (N t)) (fid RR n).
Proof. by have := expm_shift R0 t; rewrite Rplus_0_l => H; apply: meq_trans H (expm0 _ _). Qed.
End Inv.

Section Group.
Variables (n : nat) (A : fmat RR).
Hypotheses (A1 : fr A = n) (A2 : fc A = n).
Local Notation E := (expm n A).
Local Notation N := (expm n (fopp A)).
Lemma expm_opp t : meq (expm n (fopp (fopp A)) t) (E t).
Proof.
apply: is_exp_uniq (expm_is _ t) _ => //.
apply: is_exp_meq (expm_is A2 t) => //; rewrite //=.
by split=> //= i j _ _; rewrite opprK.
Qed.
Lemma expm_inv_l t : meq (fmul (N t) (E t)) (fid RR n).
Proof.
apply: meq_trans (@expm_inv_r n (fopp A) A2 t); apply: meq_fmul => //.
exact: meq_sym (expm_opp t).
Qed.
Lemma expm_add t s : meq (E (Rplus t s)) (fmul (E t) (E s)).
Proof.
apply: meq_sym; apply: meq_trans (meq_fmul (meq_sym (expm_shift A2 t s)) (meq_refl _) _) _ => //.
apply: meq_trans (meq_sym (fmul_assoc _ _ _)) _.
apply: meq_trans (fmul_id_r (n := n) _) => //; apply: meq_fmul => //; exact: expm_inv_l.
Qed.
End Group.
