(** * SpProofs: sparsify_basis need not return. *)
From Coq Require Import Reals Lra Psatz.
From mathcomp Require Import all_ssreflect all_algebra.
From Verif Require Import Np LinOp Rstruct Sparsify.
Set Implicit Arguments.
Unset Strict Implicit.
Unset Printing Implicit Defensive.
Local Open Scope R_scope.

Lemma RltbP x y : reflect (x < y) (Rltb x y).
Proof. by rewrite /Rltb; case: Rlt_dec => H; constructor. Qed.

Lemma Rdiv1 x : x / 1 = x.
Proof. by field. Qed.
Lemma pow_lt1 b t : 0 < b < 1 -> 0 < b ^ t.+1 <= b.
Proof.
move=> [H0 H1]; elim: t => [|t [IH1 IH2]]; first by rewrite /=; lra.
change (b ^ t.+2) with (b * b ^ t.+1); split; first by apply: Rmult_lt_0_compat.
nra.
Qed.

(** a step of adam moves an entry by less than 73 lr, whatever the gradients were *)
Lemma adam1_bound lr t m v g w : 0 <= lr -> 0 <= v -> m * m <= 53 * v ->
  let x := adam1 lr t (m, v) g w in
  [/\ 0 <= x.1.2, x.1.1 * x.1.1 <= 53 * x.1.2 & Rabs (x.2 - w) <= 73 * lr].
Proof.
move=> Hl Hv Hm; rewrite /adam1 /fst /snd.
set m' := b1 * m + _; set v' := b2 * v + _.
have Hg : 0 <= g * g by nra.
have Hv' : 0 <= v' by rewrite /v' /b2; nra.
have Hm' : m' * m' <= 53 * v'.
  rewrite /m' /v' /b1 /b2; have := Rle_0_sqr (m - 10 / 21 * g); rewrite /Rsqr.
  nra.
split=> //.
have P1 := @pow_lt1 b1 t; have P2 := @pow_lt1 b2 t.
have {}P1 : 0 < b1 ^ t.+1 <= b1 by apply: P1; rewrite /b1; lra.
have {}P2 : 0 < b2 ^ t.+1 <= b2 by apply: P2; rewrite /b2; lra.
have D1 : / 10 <= 1 - b1 ^ t.+1 by have : b1 = 9 / 10 by []; lra.
have D2 : 0 < 1 - b2 ^ t.+1 <= 1 by have : b2 = 999 / 1000 by []; lra.
set mh := m' / _; set vh := v' / _.
have S1 : sqrt v' <= sqrt vh.
  apply: sqrt_le_1_alt; rewrite /vh -{1}(Rdiv1 v'); apply: Rmult_le_compat_l => //.
  by apply: Rinv_le_contravar; lra.
have S0 := sqrt_pos v'.
have SS : sqrt v' * sqrt v' = v' by apply: sqrt_sqrt.
have Am : Rabs m' <= 73 / 10 * sqrt v'.
  by rewrite -(Rabs_pos_eq (73 / 10 * _)); [apply: Rsqr_le_abs_0; rewrite /Rsqr; nra | nra].
have Amh : Rabs mh <= 73 * sqrt v'.
  rewrite /mh /Rdiv Rabs_mult (Rabs_pos_eq (/ _)); last first.
    by apply: Rlt_le; apply: Rinv_0_lt_compat; lra.
  have I10 : / (1 - b1 ^ t.+1) <= 10.
    by rewrite -[X in _ <= X]Rinv_inv; apply: Rinv_le_contravar; lra.
  have Ip : 0 < / (1 - b1 ^ t.+1) by apply: Rinv_0_lt_compat; lra.
  have := Rabs_pos m'; nra.
have He : 0 < eps by rewrite /eps; apply: Rinv_0_lt_compat; lra.
rewrite (_ : w - lr * (mh / (sqrt vh + eps)) - w = - (lr * (mh / (sqrt vh + eps)))); last by lra.
rewrite Rabs_Ropp Rabs_mult (Rabs_pos_eq lr) // Rmult_comm.
apply: Rmult_le_compat_r => //; rewrite /Rdiv Rabs_mult (Rabs_pos_eq (/ _)); last first.
  by apply: Rlt_le; apply: Rinv_0_lt_compat; lra.
apply: (Rmult_le_reg_r (sqrt vh + eps)); first by lra.
by rewrite Rmult_assoc Rinv_l; lra.
Qed.

Lemma sp_step n r Q grad logdet lr k i s W : sp_descend n r Q grad logdet lr k.+1 i s W =
  if Rltb 100 (loss n r Q logdet W) && (100 < i)%N then None else
  sp_descend n r Q grad logdet lr k i.+1 (adam lr s (grad W) W).1 (adam lr s (grad W) W).2.
Proof. by []. Qed.
Lemma adam_one lr t mv g w : adam lr (t, [:: mv]) [:: g] [:: w] =
  let x := adam1 lr t mv g w in ((t.+1, [:: x.1]), [:: x.2]).
Proof. by []. Qed.
Lemma sp_iterE : sp_iter = (101 + 2898.+1)%N.
Proof. by vm_compute. Qed.
Opaque sp_iter.
Section One.
Variables (W0 : nat -> seq R) (grad : seq R -> seq R) (logdet : seq R -> R).
Hypothesis Hg : forall W, size (grad W) = size W.
Hypothesis HW : forall a, W0 a = [:: 1] \/ W0 a = [:: -1].
Local Notation K := 1000.
Local Notation loss := (loss 1 1 [:: K] logdet).
Local Notation sp_descend := (sp_descend 1 1 [:: K] grad logdet).
Local Notation sparsify := (sparsify 1 1 [:: K] W0 grad logdet).

Lemma loss_ge w : K * Rabs w <= loss [:: w].
Proof.
have Eq : qwt 1 1 [:: K] [:: w] = [:: K * w].
  by rewrite /qwt /wtr /tr2 /matmul /mkseq /= /rsum /= /GRing.add /GRing.mul /GRing.zero /=; congr [:: _]; lra.
rewrite /loss Eq; set y := absmean [seq _ | _ <- _].
have Hy : 0 <= y.
  rewrite /y /absmean /=; apply: Rmult_le_pos; last by rewrite /=; lra.
  by rewrite Rplus_0_r; exact: Rabs_pos.
have Hp : 0 <= logdet [:: w] ^ 2 by apply: pow2_ge_0.
have -> : absmean [:: K * w] = K * Rabs w.
  by rewrite /absmean /= Rplus_0_r Rdiv1 Rabs_mult (Rabs_pos_eq K); lra.
by nra.
Qed.

Lemma descend_div lr d i t m v w : (i + d = 101)%N -> 0 <= lr -> lr <= / 10 ^ 5 -> 0 <= v -> m * m <= 53 * v ->
  1 - 73 * lr * INR i <= Rabs w -> forall k, sp_descend lr (d + k.+1) i (t, [:: (m, v)]) [:: w] = None.
Proof.
elim: d i t m v w => [|d IH] i t m v w Ei H0 H1 Hv Hm Hw k.
  rewrite addn0 in Ei; subst i; rewrite add0n /=.
  case: RltbP => //= H; exfalso; apply: H.
  have := loss_ge w.
  have : INR 101 = 101 by rewrite /=; lra.
  move: Hw => /[swap] ->; move: H1; rewrite /=; lra.
rewrite addSn sp_step.
case Eg : (grad [:: w]) (Hg [:: w]) => [|g []] // _; rewrite adam_one.
have := adam1_bound t g w H0 Hv Hm; case: (adam1 _ _ _ _ _) => -[m1 v1] w1 [A B C]; cbv zeta; rewrite /fst /snd.
case: ifP => // _; apply: IH => //; first by rewrite addSn -addnS.
have T : Rabs w <= Rabs w1 + Rabs (w1 - w).
  rewrite -{1}(_ : w1 - (w1 - w) = w); last by lra.
  by apply: Rle_trans (Rabs_triang _ _) _; rewrite Rabs_Ropp; lra.
move: C; rewrite S_INR /snd => C; nra.
Qed.

Theorem sparsify_diverges lr : 0 <= lr <= / 10 ^ 5 -> forall fuel a, sparsify fuel a lr = None.
Proof.
move=> + fuel; elim: fuel lr => [|f IH] lr [H0 H1] a //=.
rewrite (_ : Sparsify.sp_descend _ _ _ _ _ _ _ _ _ _ = None).
  by apply: IH; split; lra.
rewrite /adam_init sp_iterE [nseq _ _]/=; move: (2898)%N => k.
by case: (HW a) => ->; apply: descend_div => //=; rewrite ?Rabs_Ropp ?Rabs_R1; lra.
Qed.
End One.

Section Pos.
Variables (n r : nat) (Q : seq R).
Variables (W0 : nat -> seq R) (grad : seq R -> seq R) (logdet : seq R -> R).
Local Notation sp_descend := (sp_descend n r Q grad logdet).
Local Notation sparsify := (sparsify n r Q W0 grad logdet).

Lemma pow3 lr b : lr / 3 / 3 ^ b = lr / 3 ^ b.+1.
Proof. by rewrite /=; field; apply: pow_nonzero; lra. Qed.

(** it returns exactly when some attempt does not diverge *)
Theorem sparsify_returns lr a :
  (exists fuel, sparsify fuel a lr <> None) <->
  (exists b, sp_descend (lr / 3 ^ b) sp_iter 0 (adam_init r) (W0 (a + b)) <> None).
Proof.
split=> [[f]|[b]].
- elim: f a lr => [|f IH] a lr //=.
  case E : (Sparsify.sp_descend _ _ _ _ _ _ _ _ _ _) => [W|].
    by move=> _; exists 0%N; rewrite addn0 /= Rdiv1 E.
  by move/IH => [b Hb]; exists b.+1; rewrite addnS -addSn -pow3.
elim: b a lr => [|b IH] a lr; first by rewrite addn0 /= Rdiv1 => H; exists 1%N => /=; case: (Sparsify.sp_descend _ _ _ _ _ _ _ _ _ _) H.
rewrite -pow3 addnS -addSn => /IH [f Hf]; exists f.+1 => /=.
by case: (Sparsify.sp_descend _ _ _ _ _ _ _ _ _ _).
Qed.

(** the entries of the result *)
Lemma rndP q : rnd q = 0 \/ rnd q = 1 \/ rnd q = -1 \/ Rabs (rnd q) = / 100.
Proof.
rewrite /rnd; case: RltbP => H1; first by left.
case: RltbP => H2; last by right; right; right; lra.
move: H2; rewrite /Rabs; case: Rcase_abs => Hq H2; right; [right; left|left]; field; lra.
Qed.
Theorem sparsify_entries fuel a lr P : sparsify fuel a lr = Some P ->
  size P = (n * r)%N /\ forall q, q \in P -> q = 0 \/ q = 1 \/ q = -1 \/ Rabs q = / 100.
Proof.
elim: fuel a lr => [|f IH] a lr //=.
case: (Sparsify.sp_descend _ _ _ _ _ _ _ _ _ _) => [W [<-]|/IH//].
by rewrite size_map /qwt /matmul size_mkseq; split=> // q /mapP[x _ ->]; exact: rndP.
Qed.
End Pos.
