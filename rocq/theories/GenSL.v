(** * GenSL: transvections generate the matrices of determinant 1. *)
From mathcomp Require Import all_ssreflect all_algebra.
Set Implicit Arguments.
Unset Strict Implicit.
Unset Printing Implicit Defensive.
Import GRing.Theory.
Local Open Scope ring_scope.

Section Elim.
Variables (F : fieldType) (n : nat).
Local Notation M := 'M[F]_n.+1.
(** adding t times row j to row i *)
Definition trv (i j : 'I_n.+1) (t : F) : M := 1%:M + t *: delta_mx i j.
(** diag(1,...,1,d) *)
Definition dlast (d : F) : M := \matrix_(i, j) (if i == j then (if i == ord_max then d else 1) else 0).
Lemma det_dlast d : \det (dlast d) = d.
Proof.
rewrite (_ : dlast d = diag_mx (\row_i (if i == ord_max then d else 1))) ?det_diag.
  rewrite (bigD1 ord_max) //= mxE eqxx big1 ?mulr1 // => j /negbTE Hj; by rewrite mxE Hj.
by apply/matrixP=> a b; rewrite !mxE; case: eqP => _; rewrite ?mulr1n ?mulr0n.
Qed.
Lemma trvE i j t (X : M) a b : (trv i j t *m X) a b = X a b + (if a == i then t * X j b else 0).
Proof.
rewrite mulmxDl mul1mx -scalemxAl !mxE (bigD1 j) //= big1 ?addr0 => [|k /negbTE Hk].
  by rewrite mxE eqxx andbT; case: eqP => _; rewrite ?mul1r ?mul0r ?mulr0.
by rewrite mxE Hk andbF mul0r.
Qed.
Variable H : M -> Prop.
Hypotheses (H1 : H 1%:M) (HM : forall X Y, H X -> H Y -> H (X *m Y)).
Hypothesis HT : forall (i j : 'I_n.+1) t, i != j -> H (trv i j t).
(** the first k columns are those of the identity *)
Definition std (k : nat) (X : M) : Prop := forall a b : 'I_n.+1, (b < k)%N -> X a b = (a == b)%:R.

Lemma std_trv k X (i j : 'I_n.+1) t : std k X -> (k <= j)%N -> std k (trv i j t *m X).
Proof.
move=> S Hj a b Hb; rewrite trvE S // S //.
have -> : (j == b) = false by apply/negbTE; rewrite neq_ltn (leq_trans Hb Hj) orbT.
by rewrite mulr0 if_same addr0.
Qed.
(** clear column k with the pivot on the diagonal *)
Lemma clear (c : 'I_n.+1) p X : p != 0 -> std c X -> X c c = p ->
  exists2 g, H g & [/\ std c (g *m X), (g *m X) c c = p & forall i, i != c -> (g *m X) i c = 0].
Proof.
move=> Hp S E.
suff L m : (m <= n.+1)%N -> exists2 g, H g & [/\ std c (g *m X), (g *m X) c c = p &
    forall i : 'I_n.+1, (i < m)%N -> i != c -> (g *m X) i c = 0].
  have [g Hg [g1 g2 g3]] := L n.+1 (leqnn _); exists g => //; split=> // i; exact: g3.
elim: m => [_|m IH Hm]; first by exists 1%:M => //; rewrite mul1mx.
have [g Hg [g1 g2 g3]] := IH (ltnW Hm).
have [Emc|Hc] := eqVneq (Ordinal Hm) c.
  exists g => //; split=> // i; rewrite ltnS leq_eqVlt => /orP[/eqP Ei|Hi]; last exact: g3.
  by rewrite (_ : i == c); last by rewrite -Emc -val_eqE /= Ei.
pose t := - ((g *m X) (Ordinal Hm) c / p).
exists (trv (Ordinal Hm) c t *m g); first by apply: HM => //; apply: HT.
rewrite -mulmxA; split; first exact: std_trv.
  by rewrite trvE eq_sym (negbTE Hc) addr0.
move=> i; rewrite ltnS leq_eqVlt trvE => /orP[/eqP Ei|Hi] Hic.
  have Eo : i = Ordinal Hm by apply: val_inj.
  by rewrite Eo eqxx g2 /t mulNr divfK // subrr.
rewrite g3 // (_ : (i == _) = false) ?addr0 //; apply/negbTE; rewrite neq_ltn; apply/orP; by left.
Qed.
(** a column of an invertible matrix is not a combination of the standard ones before it *)
Lemma pivot (c : 'I_n.+1) X : std c X -> \det X != 0 -> exists2 i : 'I_n.+1, (c <= i)%N & X i c != 0.
Proof.
move=> S D; have U : X \in unitmx by rewrite unitmxE unitfE.
have [/existsP[i /andP[H2 H3]]|N] := boolP [exists i : 'I_n.+1, (c <= i)%N && (X i c != 0)]; first by exists i.
have Z (i : 'I_n.+1) : (c <= i)%N -> X i c = 0.
  by move=> Hi; apply/eqP; move: N; rewrite negb_exists => /forallP/(_ i); rewrite Hi /= negbK.
pose w : 'cV[F]_n.+1 := \col_b (if (b < c)%N then X b c else 0).
have E : X *m w = w.
  apply/colP=> a; rewrite !mxE.
  rewrite (eq_bigr (fun b : 'I_n.+1 => (a == b)%:R * (if (b < c)%N then X b c else 0))) => [|b _].
    rewrite (bigD1 a) //= eqxx mul1r big1 ?addr0 // => b /negbTE; rewrite eq_sym => ->; by rewrite mul0r.
  rewrite mxE; case: ifP => [Hb|_]; last by rewrite !mulr0.
  by rewrite (S a b Hb).
have E2 : X *m delta_mx c 0 = w.
  rewrite -colE; apply/colP=> a; rewrite !mxE; case: ltnP => // /Z ->; by [].
have := mulKmx U (delta_mx c 0 : 'cV[F]_n.+1); rewrite E2 -{1}E mulKmx // => /colP/(_ c).
by rewrite !mxE ltnn !eqxx => /esym/eqP; rewrite oner_eq0.
Qed.
Lemma step (c : 'I_n.+1) X : (c < n)%N -> std c X -> \det X != 0 -> exists2 g, H g & std c.+1 (g *m X).
Proof.
move=> Hc S D.
suff [g Hg [S2 E2]] : exists2 g, H g & std c (g *m X) /\ (g *m X) c c = 1.
  have [h Hh [h1 h2 h3]] := clear (oner_neq0 F) S2 E2; exists (h *m g); first exact: HM.
  rewrite -mulmxA => a b; rewrite ltnS leq_eqVlt => /orP[/eqP Eb|Hb]; last exact: h1.
  have {b Eb}-> : b = c by apply: val_inj.
  by have [->|Ha] := eqVneq a c; rewrite ?h2 ?h3.
have A Y (i : 'I_n.+1) : std c Y -> (c < i)%N -> Y i c != 0 -> exists2 g, H g & std c (g *m Y) /\ (g *m Y) c c = 1.
  move=> SY Hi Ni; exists (trv c i ((1 - Y c c) / Y i c)).
    by apply: HT; rewrite neq_ltn Hi.
  split; first by apply: std_trv => //; apply: ltnW.
  by rewrite trvE eqxx divfK // addrC subrK.
have [i] := pivot S D; rewrite leq_eqVlt => /orP[/eqP Ei|Hi] Ni; last exact: A S Hi Ni.
have Eic : i = c by apply: val_inj.
rewrite Eic in Ni; have Hn : (c.+1 < n.+1)%N by [].
pose d : 'I_n.+1 := Ordinal Hn.
have [Z|N] := eqVneq (X d c) 0; last by apply: A S _ N.
have N2 : (trv d c 1 *m X) d c != 0 by rewrite trvE eqxx Z mul1r add0r.
have [|g Hg [g1 g2]] := A _ d (std_trv d 1 S (leqnn c)) _ N2; first by rewrite /=.
exists (g *m trv d c 1); last by rewrite -mulmxA.
by apply: HM => //; apply: HT; rewrite neq_ltn /= ltnSn orbT.
Qed.
Hypothesis HD : forall g, H g -> \det g = 1.
Theorem gen_sl X : \det X != 0 -> exists2 g, H g & g *m X = dlast (\det X).
Proof.
move=> D.
have L k : (k <= n)%N -> exists2 g, H g & std k (g *m X).
  elim: k => [_|k IH Hk]; first by exists 1%:M.
  have [g Hg Sg] := IH (ltnW Hk); have Hk' : (k < n.+1)%N by apply: leqW.
  have [|h Hh Sh] := @step (Ordinal Hk') (g *m X) Hk Sg; first by rewrite det_mulmx HD // mul1r.
  by exists (h *m g); [apply: HM | rewrite -mulmxA].
have [g Hg Sg] := L n (leqnn n).
have D2 : \det (g *m X) != 0 by rewrite det_mulmx HD // mul1r.
have [i Hi Ni] := @pivot ord_max (g *m X) Sg D2.
have Ei : i = ord_max by apply: val_inj; apply/eqP; rewrite eqn_leq Hi -ltnS ltn_ord.
rewrite Ei in Ni; have [h Hh [h1 h2 h3]] := @clear ord_max _ (g *m X) Ni Sg erefl.
have E : (h *m g) *m X = dlast ((g *m X) ord_max ord_max).
  rewrite -mulmxA; apply/matrixP=> a b; rewrite [RHS]mxE.
  have [->|Hb] := eqVneq b ord_max.
    by have [->|Ha] := eqVneq a ord_max; [rewrite h2 ?eqxx | rewrite h3].
  have Hb' : (b < n)%N by rewrite ltn_neqAle -ltnS ltn_ord andbT.
  by rewrite h1 //; case: eqP => // ->; rewrite (negbTE Hb).
exists (h *m g); first exact: HM.
by rewrite E -(det_dlast ((g *m X) _ _)) -E det_mulmx (HD (HM Hh Hg)) mul1r.
Qed.
End Elim.
