(** * KryProofs: the iterative solver. *)
From mathcomp Require Import all_ssreflect all_algebra.
From mathcomp Require Import zify.
From Coq Require BinNat.
From Verif Require Import Np NpLemmas Spec SpecLemmas LinOp SolSpec SolSvd MxBridge Krylov KrySpec.
Set Implicit Arguments.
Unset Strict Implicit.
Unset Printing Implicit Defensive.
Import GRing.Theory Num.Theory.
Local Open Scope ring_scope.

Lemma mkseqS T (f : nat -> T) n : mkseq f n.+1 = f 0%N :: mkseq (fun i => f i.+1) n.
Proof. by rewrite /mkseq /= -[1%N]/(1 + 0)%N iotaDl -map_comp. Qed.

Opaque max_iter.
Section Trace.
Variable R : comRingType.
Variables (conj re : R -> R) (sc : rat -> R).
Variables (conv diverging : seq R -> bool).
Variable tsvd : nat -> nat -> seq R -> seq R * seq R * seq R.
Variables (big : pred R) (gap : R -> R -> bool).
Variable W0 : nat -> nat -> seq R.
Local Notation sgd := (sgd conj re sc).
Local Notation descend := (descend conj re sc conv diverging).
Local Notation upto := (upto conj re sc conv diverging tsvd big gap W0).
Local Notation finish := (finish tsvd big gap).

Local Notation iterate := (iterate conj re sc W0).
Local Notation residual := (residual conj re sc W0).

Lemma descendP m n r D lr k i s : let X t := matmul m n r D (iter t (sgd m n r D lr) s).1 in
  match descend m n r D lr k i s with
  | (Converged W, its) => exists t, [/\ (t < k)%N, conv (X t), W = (iter t.+1 (sgd m n r D lr) s).1 & its = (i + t).+1]
  | (Diverged, its) => exists t, [/\ (t < k)%N, diverging (X t), (100 < i + t)%N & its = (i + t).+1]
  | (Exhausted, its) => (forall t, (t < k)%N -> ~~ conv (X t)) /\ its = (i + k)%N
  end.
Proof.
elim: k i s => [|k IH] i s /=; first by rewrite addn0.
case: ifP => Hc; first by exists 0%N; rewrite addn0.
case: ifP => [/andP[Hd Hi]|_]; first by exists 0%N; rewrite addn0.
have := IH i.+1 (sgd m n r D lr s); case: (descend _ _ _ _ _ _ _ _) => -[W||] its.
- by case=> t [Ht H1 -> ->]; exists t.+1; rewrite -!iterSr addnS addSn; split=> //; rewrite iterSr.
- by case=> t [Ht H1 H2 ->]; exists t.+1; rewrite addnS -addSn; split=> //; rewrite iterSr.
case=> H ->; split; last by rewrite addnS addSn.
by case=> [|t] Ht; [rewrite /= Hc | rewrite iterSr; apply: H].
Qed.

(** the verdict of attempt a of call k *)
Inductive verdict (m n r : nat) (D : seq R) (lr : rat) (k a : nat) : res (darr R) -> Prop :=
| VConv t : (t < max_iter)%N -> conv (residual m n r D lr k a t) ->
    verdict m n r D lr k a (finish n r (iterate m n r D lr k a t.+1))
| VExh : (forall t, (t < max_iter)%N -> ~~ conv (residual m n r D lr k a t)) ->
    verdict m n r D lr k a (Err ConvergenceError)
| VDiv t : (100 < t < max_iter)%N -> diverging (residual m n r D lr k a t) -> lr < 1%:Q / 100%:Q / 100%:Q ->
    verdict m n r D lr k a (Err ConvergenceError).

Lemma uptoP f m n r D k a lr x l : upto f m n r D k a lr = Some (x, l) ->
  exists b, [/\ (b < f)%N, verdict m n r D (lr / 3%:Q ^+ b) k (a + b) x,
    map fst l = mkseq (fun i => lr / 3%:Q ^+ i) b.+1, all (fun y => y.2 <= max_iter)%N l &
    forall c, (c < b)%N -> ~~ (lr / 3%:Q ^+ c < 1%:Q / 100%:Q / 100%:Q)].
Proof.
have one lr' : [:: lr'] = mkseq (fun i => lr' / 3%:Q ^+ i) 1 by rewrite /mkseq /= expr0 divr1.
elim: f a lr x l => [|f IH] a lr x l //=.
have := descendP m n r D lr max_iter 0 (W0 k a, nseq (n * r) 0).
case: (descend _ _ _ _ _ _ _ _) => -[W||] its.
- case=> t [Ht Hc -> ->] [<- <-]; exists 0%N; rewrite expr0 divr1 addn0; split=> //.
  + exact: VConv.
  + exact: one.
  by rewrite /= andbT.
- case=> t [Ht Hd H100 ->]; case: ifP => Hlr.
    case=> <- <-; exists 0%N; rewrite expr0 divr1 addn0; split=> //.
    + by apply: (@VDiv _ _ _ _ _ _ _ t) => //; apply/andP.
    + exact: one.
    by rewrite /= andbT.
  case E : (upto _ _ _ _ _ _ _ _) => [[x' l']|//] [<- <-].
  have eL i : lr / 3%:Q / 3%:Q ^+ i = lr / 3%:Q ^+ i.+1 by rewrite exprS invfM mulrA.
  have [b [Hb Hv Hl Ha Hc]] := IH _ _ _ _ E; exists b.+1; split=> //.
  + by rewrite addnS -addSn -eL.
  + rewrite [LHS]/= Hl [RHS]mkseqS.
    by rewrite expr0 divr1; congr (_ :: _); apply: eq_mkseq.
  + by rewrite /= Ha andbT.
  case=> [_|c Hcb]; first by rewrite expr0 divr1 Hlr.
  by rewrite -eL; apply: Hc.
case=> He -> [<- <-]; exists 0%N; rewrite expr0 divr1 addn0; split=> //.
- exact: VExh.
- exact: one.
Qed.

Lemma upto_more f m n r D k a lr y : upto f m n r D k a lr = Some y ->
  forall f', (f <= f')%N -> upto f' m n r D k a lr = Some y.
Proof.
elim: f a lr y => [|f IH] a lr y //= + [|f'] //=.
case: (descend _ _ _ _ _ _ _ _) => -[W||] its //; case: ifP => // _.
case E : (upto _ _ _ _ _ _ _ _) => [[x l]|//] H Hf.
by rewrite (IH _ _ _ E f').
Qed.
Lemma upto_small f m n r D k a lr : lr / 3%:Q ^+ f < 1%:Q / 100%:Q / 100%:Q ->
  exists y, upto f.+1 m n r D k a lr = Some y.
Proof.
elim: f a lr => [|f IH] a lr.
  rewrite expr0 divr1 /= => ->.
  by case: (descend _ _ _ _ _ _ _ _) => -[W||] its; eexists.
rewrite exprS invfM mulrA => /IH H; have [[x l] E] := H a.+1.
move: (f.+1) E => f' E /=; rewrite E.
case: (descend _ _ _ _ _ _ _ _) => -[W||] its; try by eexists.
by case: ifP => _; eexists.
Qed.
End Trace.

(** ** the linear algebra *)
Section Alg.
Variable R : comRingType.
Variables (conj re : R -> R) (sc : rat -> R).
Hypothesis Hc : forall x, conj x = x.
Hypothesis Hre : forall x, re x = x.
Variable tsvd : nat -> nat -> seq R -> seq R * seq R * seq R.
Variables (big : pred R) (gap : R -> R -> bool).
Local Notation sgd := (sgd conj re sc).
Local Notation finish := (finish tsvd big gap).

Lemma map_conj X : map conj X = X. Proof. by rewrite (eq_map Hc) map_id. Qed.
Lemma map_re X : map re X = X. Proof. by rewrite (eq_map Hre) map_id. Qed.

(** the component of W in the null space of D does not change *)
Lemma sgd_null m n r D lr k (N : 'M[R]_(n, k)) s : toM m n D *m N = 0 ->
  size s.1 = (n * r)%N -> size s.2 = (n * r)%N -> N^T *m toM n r s.2 = 0 ->
  let s' := sgd m n r D lr s in
  [/\ size s'.1 = (n * r)%N, size s'.2 = (n * r)%N, N^T *m toM n r s'.2 = 0 &
      N^T *m toM n r s'.1 = N^T *m toM n r s.1].
Proof.
move=> HN S1 S2 H2; rewrite /Krylov.sgd map_re /ctr map_conj; set G := matmul n m r _ _.
have SG : size G = (n * r)%N by rewrite size_matmul.
have eG : N^T *m toM n r G = 0.
  by rewrite /G !toM_matmul toM_tr2 mulmxA -trmx_mul HN trmx0 mul0mx.
set M := vadd G _; have SM : size M = (n * r)%N by rewrite size_vadd ?size_vscale ?S2.
have eM : N^T *m toM n r M = 0.
  by rewrite toM_vadd ?size_vscale // toM_vscale // mulmxDr eG -scalemxAr H2 scaler0 addr0.
split=> //=; first by rewrite size_vadd ?size_vscale ?S1.
by rewrite toM_vadd ?size_vscale // toM_vscale // mulmxDr -scalemxAr eM scaler0 addr0.
Qed.
Lemma iter_null m n r D lr k (N : 'M[R]_(n, k)) W t : toM m n D *m N = 0 -> size W = (n * r)%N ->
  let s := iter t (sgd m n r D lr) (W, nseq (n * r) 0) in
  size s.1 = (n * r)%N /\ N^T *m toM n r s.1 = N^T *m toM n r W.
Proof.
move=> HN SW; suff : let s := iter t (sgd m n r D lr) (W, nseq (n * r) 0) in
  [/\ size s.1 = (n * r)%N, size s.2 = (n * r)%N, N^T *m toM n r s.2 = 0 &
      N^T *m toM n r s.1 = N^T *m toM n r W] by case.
elim: t => [|t [H1 H2 H3 H4]] /=; first by rewrite size_nseq toM_nseq0 mulmx0.
by have [K1 K2 K3 K4] := sgd_null lr HN H1 H2 H3; split=> //; rewrite K4.
Qed.

(** the last lines of upto_r: Q has orthonormal columns with the same span as W *)
Lemma finishP n r W : tsvd_exact conj tsvd big gap n r W ->
  exists k Q, [/\ size Q = (n * k)%N, (k <= r)%N, (k <= n)%N,
    (toM n k Q)^T *m toM n k Q = 1%:M &
    [/\ exists E, toM n k Q = toM n r W *m E, exists F, toM n r W = toM n k Q *m F &
    (finish n r W = Ok (n, k, Q) /\ ((k < r)%N -> (k < n)%N)) \/ (finish n r W = Err IndexError /\ k = n /\ (n < r)%N)]].
Proof.
rewrite /tsvd_exact /Krylov.finish; case: (tsvd n r W) => -[U s] VT.
set q := minn n r; case=> sS UU VV E [Hd Hb Hs Hg].
set k := count big s; set Q := mkseq _ _; exists k, Q.
have kq : (k <= q)%N by rewrite -sS count_size.
have kr : (k <= r)%N by apply: leq_trans kq (geq_minr _ _).
have kn : (k <= n)%N by apply: leq_trans kq (geq_minl _ _).
have bigP i : (i < q)%N -> big (nth 0 s i) = (i < k)%N by rewrite -sS; apply: count_prefix.
pose Um := toM n q U; pose Vm := toM q r VT.
have tr_conj a b (X : seq R) : mxf b a (ftr (fconj conj (unflat a b X))) = (toM a b X)^T.
  by apply/matrixP=> i j; rewrite !mxE /= Hc.
have eU : Um^T *m Um = 1%:M.
  by rewrite /Um -tr_conj -(@mxf_mul _ q q n) // -mxf_id; apply: mxf_meq.
have eV : Vm *m Vm^T = 1%:M.
  by rewrite /Vm -tr_conj -(@mxf_mul _ q q r) // -mxf_id; apply: mxf_meq.
pose I : 'M[R]_(q, k) := \matrix_(i, j) ((i : nat) == j)%:R.
pose Sg : 'M[R]_q := \matrix_(i, j) (if (i : nat) == j then nth 0 s i else 0).
pose Sk : 'M[R]_k := \matrix_(i, j) (if (i : nat) == j then nth 0 s i else 0).
have eW : toM n r W = Um *m (Sg *m Vm).
  by rewrite [LHS](mxf_meq E) // (@mxf_mul _ _ _ q) // (@mxf_mul _ _ _ q).
have eQ : toM n k Q = Um *m I.
  apply/matrixP=> i j; rewrite toME /Q nth_mkseq ?idx_lt // idx_div // idx_mod // mxE.
  have Hj : (j < q)%N by apply: leq_trans (ltn_ord j) kq.
  rewrite (bigD1 (Ordinal Hj)) //= big1 => [|l Hl]; last first.
    by rewrite [I _ _]mxE (_ : (l : nat) == j = false) ?mulr0 //; apply/negbTE.
  by rewrite addr0 [I _ _]mxE eqxx mulr1 toME.
have II : I^T *m I = 1%:M.
  apply/matrixP=> i j; rewrite !mxE.
  have Hj : (j < q)%N by apply: leq_trans (ltn_ord j) kq.
  rewrite (bigD1 (Ordinal Hj)) //= big1 => [|l Hl]; last first.
    by rewrite !mxE [X in _ * X](_ : _ = 0) ?mulr0 // (_ : (l : nat) == j = false) //; apply/negbTE.
  by rewrite addr0 !mxE eqxx mulr1 eq_sym.
have eSI : Sg *m I = I *m Sk.
  apply/matrixP=> i j; rewrite [LHS]mxE [RHS]mxE.
  have Hj : (j < q)%N by apply: leq_trans (ltn_ord j) kq.
  rewrite (bigD1 (Ordinal Hj)) //= big1 ?addr0 => [|l Hl]; last first.
    by rewrite [I _ _]mxE (_ : (l : nat) == j = false) ?mulr0 //; apply/negbTE.
  rewrite [I _ _]mxE eqxx mulr1 [Sg _ _]mxE /= [RHS](bigD1 j) //= big1 ?addr0 => [|l Hl]; last first.
    by rewrite [Sk _ _]mxE (_ : (l : nat) == j = false) ?mulr0 //; apply/negbTE.
  by rewrite [I _ _]mxE [Sk _ _]mxE eqxx; case: eqP => [->|_]; rewrite ?mul1r ?mul0r.
have eS : Sg = I *m Sk *m I^T.
  rewrite -eSI; apply/matrixP=> i j; rewrite [RHS]mxE.
  have SI (l : 'I_k) : (Sg *m I) i l = Sg i (widen_ord kq l).
    rewrite mxE (bigD1 (widen_ord kq l)) //= big1 ?addr0 => [|l' Hl]; last first.
      by rewrite [I _ _]mxE (_ : (l' : nat) == l = false) ?mulr0 //; apply/negbTE.
    by rewrite [I _ _]mxE eqxx mulr1.
  case: (ltnP j k) => Hj.
    rewrite (bigD1 (Ordinal Hj)) //= big1 ?addr0 => [|l Hl]; last first.
      rewrite [I^T _ _]mxE [I _ _]mxE (_ : (j : nat) == l = false) ?mulr0 //.
      by apply/negbTE; move: Hl; rewrite -val_eqE /= eq_sym.
    rewrite [I^T _ _]mxE [I _ _]mxE eqxx mulr1 SI; congr (Sg _ _); exact/val_inj.
  rewrite big1 => [|l _]; last first.
    rewrite [I^T _ _]mxE [I _ _]mxE (_ : (j : nat) == l = false) ?mulr0 //.
    by apply/negbTE; rewrite neq_ltn (leq_trans (ltn_ord l) Hj) orbT.
  rewrite mxE; case: eqP => // Eij; apply: Hs; first by rewrite mem_nth // sS.
  by rewrite bigP // -leqNgt Eij.
have [T eT] : exists T : 'M[R]_k, Sk *m T = 1%:M.
  have inv i : exists t, (i < k)%N -> t * nth 0 s i = 1.
    case: (ltnP i k) => Hi; last by exists 0.
    have Hq : (i < q)%N by apply: leq_trans Hi kq.
    have [||t Ht] := Hb (nth 0 s i); [by rewrite mem_nth // sS | by rewrite bigP |].
    by exists t.
  have [f Hf] : exists f : nat -> R, forall i, (i < k)%N -> f i * nth 0 s i = 1.
    suff : forall k', (k' <= k)%N -> exists f : nat -> R, forall i, (i < k')%N -> f i * nth 0 s i = 1.
      by move/(_ k (leqnn _)).
    elim=> [|k' IH] Hk; first by exists (fun _ => 0).
    have [f Hf] := IH (ltnW Hk); have [t /(_ Hk) Ht] := inv k'.
    exists (fun i => if i == k' then t else f i) => i; rewrite ltnS leq_eqVlt; case: eqP => [-> _ //|_ /= Hi].
    exact: Hf.
  exists (\matrix_(i, j) (if (i : nat) == j then f i else 0)).
  apply/matrixP=> i j; rewrite !mxE (bigD1 i) //= big1 ?addr0 => [|l Hl]; last first.
    by rewrite [Sk _ _]mxE (_ : (i : nat) == l = false) ?mul0r //; apply/negbTE; rewrite eq_sym.
  rewrite !mxE eqxx /=; case: eqP => [E'|NE].
    by rewrite mulrC Hf // (_ : i == j) //; apply/eqP/val_inj.
  by rewrite mulr0 (_ : i == j = false) //; apply/negbTE/eqP => E'; apply: NE; rewrite E'.
have eF : toM n r W = toM n k Q *m (Sk *m (I^T *m Vm)).
  by rewrite eW eQ eS !mulmxA.
split=> //; first by rewrite size_mkseq.
  by rewrite eQ trmx_mul mulmxA -(mulmxA I^T) eU mulmx1 II.
split.
- exists (Vm^T *m I *m T).
  by rewrite eF eQ !mulmxA -(mulmxA _ Vm) eV mulmx1 -(mulmxA _ I^T) II mulmx1 -(mulmxA _ Sk) eT mulmx1.
- by eexists; exact: eF.
case: ltnP => kr'; last first.
  left; split=> //; rewrite bindOk; case: eqP => //= /eqP; rewrite -lt0n => k0.
  rewrite Hg // bigP ?prednK //; exact: leq_trans kq.
rewrite sS; case: ltnP => kq'; last first.
  right; split=> //; have Ek : k = q by apply/eqP; rewrite eqn_leq kq kq'.
  have nr : (n < r)%N.
    by rewrite ltnNge; apply/negP => rn; move: kr'; rewrite Ek /q (minn_idPr rn) ltnn.
  by rewrite Ek /q (minn_idPl (ltnW nr)).
left; split; last by move=> _; apply: leq_trans kq' (geq_minl _ _).
rewrite bindOk (Hs (nth 0 s k)) ?mem_nth ?sS // ?bigP ?ltnn //; case: eqP => //= /eqP; rewrite -lt0n => k0.
by rewrite Hg // bigP ?prednK // (leq_trans _ kq).
Qed.
End Alg.
