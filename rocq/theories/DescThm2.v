(** * DescThm2: the same with the sharp bound on the learning rate, and beyond it. *)
From mathcomp Require Import all_ssreflect all_algebra.
From mathcomp Require Import zify.
From Verif Require Import Np NpLemmas Spec SpecLemmas LinOp SolSpec SolSvd MxBridge Krylov KrySpec KryProofs DescSpec DescAlg DescThm DescSharp DataThm.
Set Implicit Arguments.
Unset Strict Implicit.
Unset Printing Implicit Defensive.
Import GRing.Theory Num.Theory Order.TTheory.
Local Open Scope ring_scope.

Section Sharp.
Variable F : realFieldType.
Variable sc : rat -> F.
Hypothesis Hsc : sc (9%:Q / 10%:Q) = 9%:R / 10%:R.
Variables (m n : nat) (D : seq F) (lr : rat) (L : F).
Hypothesis lr0 : 0 < sc lr.
Hypothesis HL : bounded_by m n D L.
Hypothesis small : sc lr * L < 19%:R / 5%:R.
Let C := toM m n D.
Let beta : F := 9%:R / 10%:R.
Lemma sharp_ok : sc lr * L < (1 + 1) * (1 + beta).
Proof.
suff -> : (1 + 1) * (1 + beta) = 19%:R / 5%:R by [].
have n10 : (10%:R : F) != 0 by rewrite pnatr_eq0.
have -> : 1 + beta = 19%:R / 10%:R.
  by apply: (mulIf n10); rewrite mulrDl /beta !mulfVK // mul1r -natrD.
apply: (mulIf n10); rewrite -mulrA mulfVK // -(natrD _ 1 1) -[10%:R]/((5 * 2)%:R) [X in _ = _ * X]natrM mulrA mulfVK ?pnatr_eq0 //.
by rewrite mulrC.
Qed.
Lemma beta_lt : beta < 1.
Proof. by rewrite /beta ltr_pdivr_mulr ?ltr0n // mul1r ltr_nat. Qed.
Theorem descent_sharp : exists A q, [/\ 0 <= A, 0 <= q < 1 & forall r W t, size W = (n * r)%N ->
  sumsq (matmul m n r D (descent sc m n r D lr W t)) <= A * q ^+ (t %/ 2) * sumsq (matmul m n r D W)].
Proof.
have /andP[b0 b1] := beta_ok F; have [A [q [A0 q01 H]]] := sharp_rate lr0 b0 beta_lt (bounded_mx HL) sharp_ok.
exists A, q; split=> // r W t SW; rewrite !(@sumsqE _ m r) ?size_matmul // !toM_matmul descent_mx //; exact: H.
Qed.
(** the limit: the component of the start in the null space *)
Theorem sharp_limit k N : null_basis id m n D k N ->
  exists B q, [/\ 0 <= B, 0 <= q < 1 & forall r W t, size W = (n * r)%N ->
    sumsq (vadd (descent sc m n r D lr W t) (vscale (-1) (matmul n n r (flat (fmul (unflat n k N) (ftr (unflat n k N)))) W)))
      <= B * q ^+ (t %/ 2) * sumsq (matmul m n r D W)].
Proof.
move=> NB; have Hid (x : F) : id x = x by [].
have [sN NN NP] := (null_basisP _ _ _ _ _ Hid).1 NB.
have [A [q [A0 q01 H]]] := descent_sharp; set P := toM n k N in NN NP.
have CN : C *m P = 0.
  have K i : C *m col i P = 0 by apply/NP; rewrite -col_mulm -mulmxA NN mulmx1.
  by apply/matrixP=> i j; have /matrixP /(_ i 0) := K j; rewrite -col_mulm !mxE.
have [Y EY] : exists Y, 1%:M - P *m P^T = Y *m C.
  apply/submxP; rewrite submxE mulmxBl mul1mx subr_eq0; apply/eqP/matrixP => i j.
  have : C *m col j (cokermx C) = 0 by rewrite -col_mulm mulmx_coker; apply/matrixP => a b; rewrite !mxE.
  by move/NP; rewrite -col_mulm => /matrixP /(_ i 0); rewrite !mxE.
exists (nsq Y * A), q; split=> //; first by apply: mulr_ge0 => //; exact: nsq_ge0.
move=> r W t SW; set PW := matmul n n r _ W; have SP : size PW = (n * r)%N by rewrite size_matmul.
have ST := @descent_size F sc Hsc m n D lr r W t SW; have [_ EN] := iter_null sc Hid Hid lr t CN SW.
rewrite -/(descent sc m n r D lr W t) in EN; set V := descent _ _ _ _ _ _ _ _ in ST EN *.
have -> : sumsq (vadd V (vscale (-1) PW)) = nsq (Y *m (C *m toM n r V)).
  rewrite (@sumsqE _ n r) ?size_vadd ?size_vscale ?ST // toM_vadd ?size_vscale // toM_vscale // toM_matmul scaleN1r.
  by rewrite mulmxA -EY mulmxBl mul1mx -mulmxA EN mulmxA toM_flat // (@mxf_mul _ _ _ k) // mxf_tr.
apply: le_trans (nsq_mul _ _) _; rewrite -!mulrA ler_wpmul2l ?nsq_ge0 // mulrA.
by rewrite -toM_matmul -(@sumsqE _ m r) ?size_matmul //; exact: H.
Qed.
End Sharp.

Section Abs.
Variables (R : Type) (O I : R) (ad mu su : R -> R -> R) (op : R -> R).
Hypothesis th : ring_theory O I ad mu su op (@eq R).
Add Ring R_ring : th.
Local Notation "x + y" := (ad x y).
Local Notation "x * y" := (mu x y).
Local Notation "- x" := (op x).
Lemma al_L (d b w1 w2 m1 m2 x y : R) : d * (w1 * x + w2 * y) + b * (m1 * x + m2 * y) =
  (d * w1 + b * m1) * x + (d * w2 + b * m2) * y. Proof. by ring. Qed.
Lemma al_W (h w1 w2 m1 m2 x y : R) : w1 * x + w2 * y + - h * (m1 * x + m2 * y) =
  (w1 + - h * m1) * x + (w2 + - h * m2) * y. Proof. by ring. Qed.
End Abs.
Lemma sgd11 (F : comRingType) (sc : rat -> F) (d : F) lr w p : sgd id id sc 1 1 1 [:: d] lr ([:: w], [:: p]) =
  ([:: w + - sc lr * (d * (d * w) + sc (9%:Q / 10%:Q) * p)], [:: d * (d * w) + sc (9%:Q / 10%:Q) * p]).
Proof. by rewrite /sgd /ctr /matmul /vadd /vscale /tr2 /mkseq /rsum /= !addr0. Qed.
(** the 1 x 1 matrix (20) with the learning rate the routine starts with *)
Lemma mode_step (F : comRingType) (h d b q w1 w2 m1 m2 r s x y p : F) :
  h * d * d = q -> h * p = m1 * x + m2 * y -> q * w1 + b * m1 = m1 * r -> q * w2 + b * m2 = m2 * s ->
  w1 - m1 * r = w1 * r -> w2 - m2 * s = w2 * s ->
  h * (d * (d * (w1 * x + w2 * y)) + b * p) = m1 * (r * x) + m2 * (s * y) /\
  w1 * x + w2 * y + - h * (d * (d * (w1 * x + w2 * y)) + b * p) = w1 * (r * x) + w2 * (s * y).
Proof.
move=> E1 E2 E3 E4 E5 E6.
have Q : h * (d * (d * (w1 * x + w2 * y)) + b * p) = m1 * (r * x) + m2 * (s * y).
  by rewrite mulrDr [h * (b * p)]mulrCA E2 mulrA mulrA E1 (al_L (comring_theory _)) E3 E4 !mulrA.
split=> //; rewrite mulNr Q !mulrA -E5 -E6 !mulrBl opprD addrACA; congr (_ + _).
Qed.
Lemma large_iter t : exists2 p, iter t (sgd id id id 1 1 1 [:: 20%:Q] Krylov.lr0) ([:: 1], [:: 0]) =
    ([:: 8%:Q / 3%:Q * (- (3%:Q / 2%:Q)) ^+ t + - (5%:Q / 3%:Q) * (- (3%:Q / 5%:Q)) ^+ t], [:: p]) &
  Krylov.lr0 * p = - (40%:Q / 9%:Q) * (- (3%:Q / 2%:Q)) ^+ t + 40%:Q / 9%:Q * (- (3%:Q / 5%:Q)) ^+ t.
Proof.
elim: t => [|t [p IH Hp]]; first by exists 0; rewrite !expr0 !mulr1.
rewrite iterS IH !exprS sgd11; move: Hp; move: (_ ^+ t) (_ ^+ t) => y x Hp.
have [||||||Q1 Q2] := @mode_step rat_comRing Krylov.lr0 20%:Q (9%:Q / 10%:Q) 4%:Q (8%:Q / 3%:Q) (- (5%:Q / 3%:Q))
  (- (40%:Q / 9%:Q)) (40%:Q / 9%:Q) (- (3%:Q / 2%:Q)) (- (3%:Q / 5%:Q)) x y p.
- by apply/eqP; vm_compute.
- exact: Hp.
- by apply/eqP; vm_compute.
- by apply/eqP; vm_compute.
- by apply/eqP; vm_compute.
- by apply/eqP; vm_compute.
eexists; last exact: Q1.
exact: (congr1 (fun z => ([:: z], _)) Q2).
Qed.
Lemma large_value t : descent id 1 1 1 [:: 20%:Q] Krylov.lr0 [:: 1] t =
  [:: 8%:Q / 3%:Q * (- (3%:Q / 2%:Q)) ^+ t + - (5%:Q / 3%:Q) * (- (3%:Q / 5%:Q)) ^+ t].
Proof. by rewrite /descent; have [p -> _] := large_iter t. Qed.
Lemma mm11 (R : comRingType) (a w : R) : matmul 1 1 1 [:: a] [:: w] = [:: a * w].
Proof. by rewrite /matmul /mkseq /rsum /= addr0. Qed.
Lemma large_bound : bounded_by 1 1 [:: 20%:Q] 400%:Q.
Proof.
case=> [|x []] // _; rewrite matvec_matmul mm11 /sumsq !big_seq1 exprMn (_ : 20%:Q ^+ 2 = 400%:Q); [exact: lexx | by apply/eqP; vm_compute].
Qed.
Lemma large_loss b : exists t, b < sumsq (matmul 1 1 1 [:: 20%:Q] (descent id 1 1 1 [:: 20%:Q] Krylov.lr0 [:: 1] t)).
Proof.
pose k := Num.ExtraDef.archi_bound b; exists (2 * k)%N; rewrite large_value mm11 /sumsq big_seq1.
rewrite !exprM !sqrrN; set x := _ ^+ k; set y := _ ^+ k.
have y1 : y <= 1 by apply: exprn_ile1.
have x1 : 1 + k%:R * (5%:Q / 4%:Q) <= x by apply: le_trans (bernoulli k _) _.
have kx : k%:R <= x.
  apply: le_trans x1; apply: le_trans (_ : k%:R * (5%:Q / 4%:Q) <= _); last by rewrite ler_addr.
  by rewrite ler_pemulr ?ler0n.
have bk : b < k%:R.
  by have [b0|b0] := leP 0 b; [exact: archi_boundP | apply: lt_le_trans b0 _; exact: ler0n].
have x1' : 1 <= x by apply: le_trans x1; rewrite ler_addl mulr_ge0 ?ler0n.
apply: lt_le_trans bk _; apply: le_trans kx _; set w := _ + _.
have xw : x <= w.
  rewrite /w (_ : 8%:Q / 3%:Q = 1 + 5%:Q / 3%:Q) // mulrDl mul1r -addrA ler_addl mulNr subr_ge0 ler_wpmul2l //.
  exact: le_trans x1'.
have w1 := le_trans x1' xw; apply: le_trans xw _; rewrite expr2; apply: le_trans (_ : 20%:Q * w <= _).
  by rewrite ler_pemull //; exact: le_trans w1.
have p20 : 0 <= 20%:Q * w by rewrite mulr_ge0 //; exact: le_trans w1.
have w0 : 0 <= w by exact: le_trans w1.
by rewrite ler_pemulr //; apply: le_trans w1 _; rewrite ler_pemull.
Qed.
Lemma large_all : exists D L, [/\ bounded_by 1 1 D L, Krylov.lr0 * L = 4%:R,
  forall t, descent id 1 1 1 D Krylov.lr0 [:: 1] t =
    [:: 8%:Q / 3%:Q * (- (3%:Q / 2%:Q)) ^+ t + - (5%:Q / 3%:Q) * (- (3%:Q / 5%:Q)) ^+ t] &
  forall b, exists t, b < sumsq (matmul 1 1 1 D (descent id 1 1 1 D Krylov.lr0 [:: 1] t))].
Proof. by exists [:: 20%:Q], 400%:Q; split; [exact: large_bound | apply/eqP; vm_compute | exact: large_value | exact: large_loss]. Qed.
