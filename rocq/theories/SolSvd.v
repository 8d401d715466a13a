(** * SolSvd: orthogonal_complement returns a basis of the null space, given an exact
    singular value decomposition. *)
From mathcomp Require Import all_ssreflect all_algebra.
From mathcomp Require Import zify.
From Verif Require Import Np NpLemmas Spec SpecLemmas LinOp LinOpProofs LinOpMore Rep RepMat RepFun Solver SolSpec SolAlg.
Set Implicit Arguments.
Unset Strict Implicit.
Unset Printing Implicit Defensive.
Import GRing.Theory.
Local Open Scope ring_scope.

Section Svd.
Variable R : comRingType.
Variable conj : R -> R.
Hypothesis conjK : forall x, conj (conj x) = x.
Variables (svd : nat -> nat -> seq R -> seq R * seq R * seq R) (big : pred R).

Lemma count_prefix (s : seq R) : (forall i j, (i < j)%N -> (j < size s)%N -> big (nth 0 s j) -> big (nth 0 s i)) ->
  forall i, (i < size s)%N -> big (nth 0 s i) = (i < count big s)%N.
Proof.
elim: s => [|x s IH] //= H [|i] Hi /=.
  case: (boolP (big x)) => [_|N]; first by rewrite add1n.
  rewrite add0n; symmetry; apply/negbTE; rewrite -leqNgt leqn0 -[_ == _]negbK -lt0n -has_count.
  apply/negP=> /(has_nthP 0)[j Hj Bj]; move/negP: N; apply.
  by apply: (H 0%N j.+1).
rewrite IH //; last by move=> a b Hab Hb; apply: (H a.+1 b.+1).
case: (boolP (big x)) => [_|N]; first by rewrite add1n.
rewrite add0n; have -> : count big s = 0%N.
  apply/eqP; rewrite -leqn0 leqNgt -has_count; apply/negP=> /(has_nthP 0)[j Hj Bj]; move/negP: N; apply.
  by apply: (H 0%N j.+1).
by [].
Qed.

Lemma fe_oc (VH : seq R) n rank i j : (rank <= n)%N -> size VH = (n * n)%N -> (i < n)%N -> (j < n - rank)%N ->
  fe (unflat n (n - rank) (tr2 0 (n - rank) n (map conj (srows n rank n VH)))) i j =
  conj (nth 0 VH ((rank + j) * n + i)%N).
Proof.
move=> Hr S Hi Hj; rewrite /= /tr2 nth_mkseq ?(idx_lt Hi Hj) //.
rewrite idx_mod // idx_div //.
have L : (j * n + i < (n - rank) * n)%N by apply: idx_lt.
have Sz : size (srows n rank n VH) = ((n - rank) * n)%N.
  by rewrite /srows /slice size_take size_drop S -!mulnBl ltnn.
rewrite (nth_map 0) ?Sz // /srows /slice nth_take -?mulnBl // nth_drop.
by congr (conj (nth _ _ _)); rewrite mulnDl addnA.
Qed.

Lemma svd_sol m n (D : seq R) : size D = (m * n)%N -> svd_exact conj svd big m n D ->
  let Q := orthogonal_complement conj svd big m n D in
  [/\ Q.1.1 = n, size Q.2 = (n * Q.1.2)%N &
      sol conj n (fun _ : unit => unflat m n D) (unflat n Q.1.2 Q.2)].
Proof.
move=> SD; rewrite /svd_exact /orthogonal_complement; case: (svd m n D) => -[U Sv] VH.
case=> -[sS sU sV] [UU VV1 VV2] E [Hd Hb Hs] /=.
set rank := count big Sv.
have rk : (rank <= minn m n)%N by rewrite -sS count_size.
have Hr : (rank <= n)%N by apply: leq_trans rk (geq_minr _ _).
have Hm : (rank <= m)%N by apply: leq_trans rk (geq_minl _ _).
have bigP i : (i < minn m n)%N -> big (nth 0 Sv i) = (i < rank)%N by rewrite -sS; exact: count_prefix.
split=> //; first by rewrite size_mkseq.
set Q := unflat n (n - rank) _.
set U' := unflat m m U in UU E; set V := unflat n n VH in VV1 VV2 E; set W := fH conj V in VV1 VV2.
have eQ i j : (i < n)%N -> (j < n - rank)%N -> fe Q i j = fe W i (rank + j)%N.
  by move=> Hi Hj; rewrite /Q fe_oc.
have eH i j : (i < n)%N -> (j < n - rank)%N -> fe (fH conj Q) j i = fe V (rank + j)%N i.
  by move=> Hi Hj; have -> : fe (fH conj Q) j i = conj (fe Q i j) by []; rewrite eQ //= conjK.
have Wd v i : (i < n)%N -> mv W (mv V v) i = v i.
  move=> Hi; rewrite -mv_mul // (mv_eq VV2 (w := v)) // /mv /= sum_delta //.
have Vd w i : (i < n)%N -> mv V (mv W w) i = w i.
  move=> Hi; rewrite -mv_mul // (mv_eq VV1 (w := w)) // /mv /= sum_delta //.
have QH v j : (j < n - rank)%N -> mv (fH conj Q) v j = mv V v (rank + j)%N.
  by move=> Hj; rewrite /mv; apply: eq_sum => i Hi; rewrite eH.
have mvW w i : mv W w i = \sum_(0 <= j < rank) fe W i j * w j + \sum_(0 <= j < n - rank) fe W i (rank + j)%N * w (rank + j)%N.
  by rewrite /mv (_ : fc W = rank + (n - rank))%N ?subnKC // -sum_add subnKC.
have kl v : kills (fun _ : unit => unflat m n D) v <-> (forall k, (k < rank)%N -> mv V v k = 0).
  set Sg := FM m n _ in E.
  have eS w i : (i < m)%N -> mv Sg w i = if (i < minn m n)%N then nth 0 Sv i * w i else 0.
    move=> Hi; rewrite /mv /=; case: ltnP => Hn.
      have Hn' : (i < n)%N by apply: leq_trans Hn (geq_minr _ _).
      rewrite (eq_sum (g := fun j => (i == j)%:R * (nth 0 Sv i * w j))) ?sum_delta // => j Hj.
      by case: (i == j); rewrite ?mul1r ?mul0r.
    apply: sum0 => j Hj; case: eqP => [e|_]; last by rewrite mul0r.
    by move: Hn; rewrite e geq_min leqNgt -e Hi /= leqNgt e Hj.
  split=> [H k Hk|H [] i Hi].
    have Hkm : (k < minn m n)%N by apply: leq_trans rk.
    have Sg0 i : (i < m)%N -> mv Sg (mv V v) i = 0.
      move=> Hi.
      have : mv (fmul (fH conj U') U') (mv Sg (mv V v)) i = mv Sg (mv V v) i.
        by rewrite (mv_eq UU (w := mv Sg (mv V v))) // /mv /= sum_delta.
      move=> <-; rewrite mv_mul //; apply: mv0 => j Hj.
      rewrite (mv_ext (w := mv (fmul Sg V) v)); last by move=> l _; rewrite mv_mul.
      by rewrite -mv_mul // -(mv_eq E (v := v)) // (H tt).
    have := Sg0 k; rewrite eS ?Hkm ?(leq_trans Hk Hm) // => /(_ isT).
    have [t Ht] : exists t, t * nth 0 Sv k = 1.
      by apply: Hb; [rewrite mem_nth // sS | rewrite bigP].
    by move=> Z; rewrite -[mv V v k]mul1r -Ht -mulrA Z mulr0.
  rewrite (mv_eq E (w := v)) // mv_mul //; apply: mv0 => j Hj.
  rewrite mv_mul // eS //; case: ltnP => // Hn.
  case: (ltnP j rank) => Hjr; first by rewrite H ?mulr0.
  by rewrite (Hs (nth 0 Sv j)) ?mul0r ?mem_nth ?sS // bigP // -leqNgt.
split=> //.
- split=> //= a b Ha Hb'; rewrite (eq_sum (g := fun i => fe V (rank + a)%N i * fe W i (rank + b)%N)); last first.
    by move=> i Hi; rewrite -eH // -eQ.
  have [_ _ /(_ (rank + a)%N (rank + b)%N)] := VV1; rewrite /= => ->; rewrite ?eqn_add2l //; by rewrite -ltn_subRL.
move=> v; rewrite kl; split=> H.
  move=> i Hi; rewrite mv_mul // -[RHS]Wd //.
  rewrite mvW [X in _ = X + _]sum0 ?add0r; last by move=> j Hj; rewrite H // mulr0.
  by apply: eq_sum => j Hj; rewrite QH // -eQ.
move=> k Hk; have Hkn : (k < n)%N by apply: leq_trans Hk Hr.
rewrite (mv_ext (w := mv W (fun l => if (l < rank)%N then 0 else mv V v l))); first by rewrite Vd ?Hk.
move=> j Hj; rewrite -H // mv_mul // mvW [X in _ = X + _]sum0 ?add0r; last by move=> l ->; rewrite mulr0.
by apply: eq_sum => l Hl; rewrite ltnNge leq_addr [~~ _]/=; rewrite QH // -eQ.
Qed.
End Svd.
