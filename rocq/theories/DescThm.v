(** * DescThm: the descent of krylov_constraint_solve_upto_r converges. *)
From mathcomp Require Import all_ssreflect all_algebra.
From mathcomp Require Import zify.
From Verif Require Import Np NpLemmas Spec SpecLemmas LinOp SolSpec SolSvd MxBridge Krylov KrySpec KryProofs DescSpec DescAlg.
Set Implicit Arguments.
Unset Strict Implicit.
Unset Printing Implicit Defensive.
Import GRing.Theory Num.Theory Order.TTheory.
Local Open Scope ring_scope.

Section Desc.
Variable F : realFieldType.
Lemma sumsqE p q (X : seq F) : size X = (p * q)%N -> sumsq X = nsq (toM p q X).
Proof.
move=> S; rewrite /sumsq (big_nth 0) S nsqE sum_mul big_mkord; apply: eq_bigr => i _; rewrite big_mkord.
by apply: eq_bigr => j _; rewrite toME.
Qed.
Lemma sumsq_ge0 (X : seq F) : 0 <= sumsq X.
Proof. by apply: sumr_ge0 => x _; exact: sqr_ge0. Qed.
Lemma ofM_size n (v : 'M[F]_(n, 1)) : exists2 X, size X = n & toM n 1 X = v.
Proof. by exists (ofM v); rewrite ?toM_ofM // size_ofM muln1. Qed.
Lemma bounded_mx m n D L : bounded_by m n D L -> forall r (A : 'M[F]_(n, r)), nsq (toM m n D *m A) <= L * nsq A.
Proof.
move=> H r A; apply: cols_le => v; have [X SX <-] := ofM_size v.
have := H X SX; rewrite matvec_matmul (@sumsqE m 1) ?size_matmul // (@sumsqE n 1) ?SX ?muln1 // toM_matmul.
by [].
Qed.
Lemma frobenius m n (D : seq F) : size D = (m * n)%N -> bounded_by m n D (sumsq D).
Proof.
move=> SD v Sv; rewrite matvec_matmul (@sumsqE m 1) ?size_matmul // (sumsqE SD) (@sumsqE n 1) ?Sv ?muln1 // toM_matmul.
exact: nsq_mul.
Qed.

Section Run.
Variable sc : rat -> F.
Hypothesis Hsc : sc (9%:Q / 10%:Q) = 9%:R / 10%:R.
Variables (m n : nat) (D : seq F) (lr : rat) (L : F).
Hypothesis lr0 : 0 < sc lr.
Hypothesis HL : bounded_by m n D L.
Hypothesis small : sc lr * L < 5%:R^-1.
Let C := toM m n D.
Let beta : F := 9%:R / 10%:R.
Lemma beta_ok : 0 <= beta <= 1.
Proof. by rewrite /beta divr_ge0 ?ler0n //= ler_pdivr_mulr ?ltr0n // mul1r ler_nat. Qed.
Lemma small_ok : sc lr * L < (1 + 1) * (1 - beta).
Proof.
suff -> : (1 + 1) * (1 - beta) = 5%:R^-1 by [].
have n10 : (10%:R : F) != 0 by rewrite pnatr_eq0.
have -> : 1 - beta = 10%:R^-1.
  by apply: (mulIf n10); rewrite mulrBl mulVf // /beta mulfVK // mul1r -natrB.
apply: (mulIf n10); rewrite mulfVK // (_ : 10%:R = 5%:R * (1 + 1)) ?mulKf ?pnatr_eq0 //.
by rewrite -(natrD _ 1 1) -natrM.
Qed.
Lemma sgd_step r W t : size W = (n * r)%N -> let s := iter t (sgd id id sc m n r D lr) (W, nseq (n * r) 0) in
  [/\ size s.1 = (n * r)%N, size s.2 = (n * r)%N &
      (toM n r s.1, toM n r s.2) = iter t (@step F m n C (sc lr) beta r) (toM n r W, 0)].
Proof.
move=> SW; elim: t => [|t [S1 S2 E]] /=; first by rewrite size_nseq toM_nseq0.
set s := iter t _ _ in S1 S2 E *; rewrite -E /step /=.
rewrite /sgd map_id /ctr map_id; set G := matmul n m r _ _.
have SG : size G = (n * r)%N by rewrite size_matmul.
set M := vadd G _; have SM : size M = (n * r)%N by rewrite size_vadd ?size_vscale ?S2.
split=> //=; first by rewrite size_vadd ?size_vscale ?S1.
have EM : toM n r M = C^T *m (C *m toM n r s.1) + beta *: toM n r s.2.
  by rewrite /M toM_vadd ?size_vscale // toM_vscale // Hsc /G !toM_matmul toM_tr2.
by rewrite -EM toM_vadd ?size_vscale // toM_vscale.
Qed.
Lemma descent_size r W t : size W = (n * r)%N -> size (descent sc m n r D lr W t) = (n * r)%N.
Proof. by move=> SW; have [] := sgd_step t SW. Qed.
Lemma descent_mx r W t : size W = (n * r)%N ->
  toM n r (descent sc m n r D lr W t) = (iter t (@step F m n C (sc lr) beta r) (toM n r W, 0)).1.
Proof. by move=> SW; have [_ _ <-] := sgd_step t SW. Qed.
Theorem descent_rate : exists2 q, 0 <= q < 1 & forall r W t, size W = (n * r)%N ->
  sumsq (matmul m n r D (descent sc m n r D lr W t)) <= q ^+ (t %/ 2) * sumsq (matmul m n r D W).
Proof.
have /andP[b0 b1] := beta_ok; have [q q01 H] := rate lr0 b0 b1 (bounded_mx HL) small_ok.
exists q => // r W t SW; rewrite !(@sumsqE m r) ?size_matmul // !toM_matmul descent_mx //; exact: H.
Qed.
(** the limit: the component of the start in the null space *)
Theorem descent_limit k N : null_basis id m n D k N ->
  exists B q, [/\ 0 <= B, 0 <= q < 1 & forall r W t, size W = (n * r)%N ->
    sumsq (vadd (descent sc m n r D lr W t) (vscale (-1) (matmul n n r (flat (fmul (unflat n k N) (ftr (unflat n k N)))) W)))
      <= B * q ^+ (t %/ 2) * sumsq (matmul m n r D W)].
Proof.
move=> NB; have Hid (x : F) : id x = x by [].
have [sN NN NP] := (null_basisP _ _ _ _ _ Hid).1 NB.
have [q q01 H] := descent_rate; set P := toM n k N in NN NP.
have CN : C *m P = 0.
  have K i : C *m col i P = 0 by apply/NP; rewrite -col_mulm -mulmxA NN mulmx1.
  by apply/matrixP=> i j; have /matrixP /(_ i 0) := K j; rewrite -col_mulm !mxE.
have [Y EY] : exists Y, 1%:M - P *m P^T = Y *m C.
  apply/submxP; rewrite submxE mulmxBl mul1mx subr_eq0; apply/eqP/matrixP => i j.
  have : C *m col j (cokermx C) = 0 by rewrite -col_mulm mulmx_coker; apply/matrixP => a b; rewrite !mxE.
  by move/NP; rewrite -col_mulm => /matrixP /(_ i 0); rewrite !mxE.
exists (nsq Y), q; split=> //; first exact: nsq_ge0.
move=> r W t SW; set PW := matmul n n r _ W; have SP : size PW = (n * r)%N by rewrite size_matmul.
have ST := descent_size t SW; have [_ EN] := iter_null sc Hid Hid lr t CN SW.
rewrite -/(descent sc m n r D lr W t) in EN; set V := descent _ _ _ _ _ _ _ _ in ST EN *.
have -> : sumsq (vadd V (vscale (-1) PW)) = nsq (Y *m (C *m toM n r V)).
  rewrite (@sumsqE n r) ?size_vadd ?size_vscale ?ST // toM_vadd ?size_vscale // toM_vscale // toM_matmul scaleN1r.
  by rewrite mulmxA -EY mulmxBl mul1mx -mulmxA EN mulmxA toM_flat // (@mxf_mul _ _ _ k) // mxf_tr.
apply: le_trans (nsq_mul _ _) _; rewrite -mulrA ler_wpmul2l ?nsq_ge0 //.
by rewrite -toM_matmul -(@sumsqE m r) ?size_matmul //; exact: H.
Qed.
End Run.
End Desc.

Section Archi.
Variable F : archiFieldType.
Lemma bernoulli (h : F) t : 0 <= h -> 1 + t%:R * h <= (1 + h) ^+ t.
Proof.
move=> h0; elim: t => [|t IH]; first by rewrite mul0r addr0 expr0.
have P : 0 <= 1 + h by rewrite addr_ge0 // ler01.
rewrite exprS; apply: le_trans (ler_wpmul2l P IH).
rewrite mulrDl mul1r mulrDr mulr1 -addn1 natrD mulrDl mul1r addrA [_ + (h + _)]addrA ler_addl.
by rewrite mulrCA mulr_ge0 ?ler0n // mulr_ge0.
Qed.
Lemma powers (q b e : F) : 0 <= q < 1 -> 0 < e -> exists T, forall t, (T <= t)%N -> q ^+ t * b < e.
Proof.
case/andP=> q0 q1 e0; have [b0|b0] := leP b 0.
  by exists 0%N => t _; apply: le_lt_trans e0; rewrite mulr_ge0_le0 // exprn_ge0.
have [q00|qn] := eqVneq q 0.
  by exists 1%N => -[|t] // _; rewrite q00 exprS !mul0r.
have qp : 0 < q by rewrite lt_def qn.
pose h := q^-1 - 1; have h0 : 0 < h by rewrite subr_gt0 invf_gt1.
pose T := Num.ExtraDef.archi_bound (b / (e * h)); exists T => t Ht.
have TB : b < T%:R * (e * h).
  rewrite -ltr_pdivr_mulr ?mulr_gt0 //; apply: archi_boundP; rewrite divr_ge0 ?mulr_ge0 ?ltW //.
have E : q ^+ t * (1 + h) ^+ t = 1 by rewrite -exprMn /h addrC subrK divff // expr1n.
have P0 : 0 < (1 + h) ^+ t by rewrite exprn_gt0 // addr_gt0 // ltr01.
rewrite -(ltr_pmul2r P0) mulrAC E mul1r; apply: lt_le_trans TB _.
apply: le_trans (ler_wpmul2l (ltW e0) (bernoulli t (ltW h0))).
rewrite [e * (1 + _)]mulrDr mulr1 [e * (t%:R * h)]mulrCA; apply: le_trans (_ : t%:R * (e * h) <= _); last by rewrite ler_addr ltW.
have eh : 0 <= e * h by apply: mulr_ge0; exact: ltW.
by apply: (ler_wpmul2r eh); rewrite ler_nat.
Qed.
(** the loop stops at the first iterate that passes the test *)
Lemma descend_first (sc : rat -> F) (conv diverging : seq F -> bool) m n r D lr T : forall k i s,
  (forall t, (t <= T)%N -> ~~ diverging (matmul m n r D (iter t (sgd id id sc m n r D lr) s).1)) ->
  conv (matmul m n r D (iter T (sgd id id sc m n r D lr) s).1) -> (T < k)%N ->
  exists W' its, descend id id sc conv diverging m n r D lr k i s = (Converged W', its) /\ (its <= i + T.+1)%N.
Proof.
elim: T => [|T IH] [|k] i s // Hd Hc Tk /=.
  by rewrite (Hc : conv (matmul m n r D s.1)); eexists; eexists; split=> //; rewrite addn1.
case: ifP => _; first by eexists; eexists; split=> //; lia.
rewrite (negbTE (Hd 0%N isT : ~~ diverging (matmul m n r D s.1))) /=.
have [|||W' [its [E Hi]]] := IH k i.+1 (sgd id id sc m n r D lr s); [ | | exact: Tk | ].
- by move=> t Ht; rewrite -iterSr; exact: Hd.
- by rewrite -iterSr.
by exists W', its; split=> //; lia.
Qed.
Theorem descent_converges (sc : rat -> F) m n D lr L e b :
  sc (9%:Q / 10%:Q) = 9%:R / 10%:R -> 0 < sc lr -> bounded_by m n D L -> sc lr * L < 5%:R^-1 -> 0 < e ->
  exists T, forall (conv diverging : seq F -> bool) r W k, size W = (n * r)%N -> sumsq (matmul m n r D W) <= b ->
    (forall X, size X = (m * r)%N -> sumsq X < e -> conv X) ->
    (forall X, size X = (m * r)%N -> sumsq X <= sumsq (matmul m n r D W) -> ~~ diverging X) -> (T < k)%N ->
    exists W' its, descend id id sc conv diverging m n r D lr k 0 (W, nseq (n * r) 0) = (Converged W', its) /\ (its <= T.+1)%N.
Proof.
move=> Hsc l0 HL sm e0; have [q /andP[q0 q1] H] := descent_rate Hsc l0 HL sm.
have [T HT] := powers b (introT andP (conj q0 q1)) e0; exists (2 * T)%N => conv diverging r W k SW Hb Hc Hd Tk.
have RB t : sumsq (matmul m n r D (iter t (sgd id id sc m n r D lr) (W, nseq (n * r) 0)).1) <= sumsq (matmul m n r D W).
  by apply: le_trans (H r W t SW) _; rewrite ler_pimull ?sumsq_ge0 // exprn_ile1 // ltW.
have Cv t : (2 * T <= t)%N -> conv (matmul m n r D (iter t (sgd id id sc m n r D lr) (W, nseq (n * r) 0)).1).
  move=> Ht; apply: Hc; first by rewrite size_matmul.
  apply: le_lt_trans (H r W t SW) _; apply: le_lt_trans (_ : q ^+ (t %/ 2) * b < e); last by apply: HT; rewrite leq_divRL // mulnC.
  by rewrite ler_wpmul2l // exprn_ge0.
have [W' [its [E Hi]]] := @descend_first sc conv diverging m n r D lr (2 * T)%N k 0%N (W, nseq (n * r) 0)
  (fun t _ => Hd _ (size_matmul _ _ _ _ _) (RB t)) (Cv _ (leqnn _)) Tk.
by exists W', its.
Qed.
End Archi.
