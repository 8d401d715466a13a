(** * CharSO2: the numbers of invariant tensors of SO(2) and O(2), of any rank. *)
From Coq Require Import Reals Lra String.
From mathcomp Require Import all_ssreflect all_algebra.
From mathcomp Require Import zify.
From Verif Require Import Np NpLemmas Spec SpecLemmas LinOp LinOpSpec LinOpInv MxBridge Rep RepSpec RepWf RepExpr Solver SolSpec Rstruct Expm GrpSpec.
From Verif Require Import Groups GroupsSpec GroupsSpecR GroupsInit GroupsCtor GroupsThm GroupsFlag GroupsReal GroupsTol ExactSpec GenSO GroupsExact GroupsExactD GroupsExactE.
From Verif Require Import Nn NnSpec NnThm Data DataSpec DataGroups DimTenSpec DimGrp DimTen DimThm DimOrth DimSO SvdReal SvdThm ExGrp ExNn ExData ExData2 ExDim CharSpec CharThm CharTen CharTrig CharRot.
Set Implicit Arguments.
Unset Strict Implicit.
Unset Printing Implicit Defensive.
Import GRing.Theory.
Local Open Scope ring_scope.

(** ** the number of vectors in an orthonormal basis *)
Lemma spans_in N k Q U : spans N k Q U -> forall k' Q', spans N k' Q' U ->
  toM N k Q *m ((toM N k Q)^T *m toM N k' Q') = toM N k' Q'.
Proof.
move=> [MQ HQ] k' Q' [_ HQ'].
have QQ : (toM N k Q)^T *m toM N k Q = 1%:M.
  have := mxf_meq (m := k) (n := k) MQ erefl erefl.
  by rewrite (mxf_mul _ _ (k := N)) // mxf_tr mxf_id.
suff [Z ->] : exists Z, toM N k' Q' = toM N k Q *m Z by rewrite (mulmxA _ (toM N k Q)) QQ mul1mx.
have col_fix j : exists w : 'cV_k, col j (toM N k' Q') = toM N k Q *m w.
  pose w := ofM (delta_mx j (ord0 : 'I_1) : 'cV[RR]_k').
  have Sw : size w = k' by rewrite size_ofM muln1.
  have Sv : size (matvec N k' Q' w) = N by rewrite matvec_matmul size_matmul muln1.
  have /(HQ _ Sv)[u Su Eu] : U (matvec N k' Q' w) by apply/(HQ' _ Sv); exists w.
  exists (toM k 1 u); rewrite -toM_matmul -matvec_matmul Eu matvec_matmul toM_matmul toM_ofM.
  by rewrite -colE.
have [f Hf] : exists f : 'I_k' -> 'cV_k, forall j, col j (toM N k' Q') = toM N k Q *m f j.
  by apply: (@fin_all_exists _ (fun=> 'cV_k) (fun j w => col j (toM N k' Q') = toM N k Q *m w)).
exists (\matrix_(i, j) f j i ord0); apply/matrixP => i j.
have /matrixP/(_ i ord0) := Hf j; rewrite !mxE => ->; apply: eq_bigr => l _; by rewrite !mxE.
Qed.
Lemma spans_tr N k Q U : spans N k Q U -> \tr (toM N k Q *m (toM N k Q)^T) = k%:R.
Proof.
move=> [MQ _]; rewrite mxtrace_mulC -(mxtrace1 RR k); congr (\tr _).
have := mxf_meq (m := k) (n := k) MQ erefl erefl.
by rewrite (mxf_mul _ _ (k := N)) // mxf_tr mxf_id.
Qed.
Lemma spans_uniq N k Q k' Q' U : spans N k Q U -> spans N k' Q' U -> k = k'.
Proof.
move=> S S'; apply: nat_inj; rewrite -(spans_tr S) -(spans_tr S').
have e k1 Q1 k2 Q2 : spans N k1 Q1 U -> spans N k2 Q2 U ->
  \tr (toM N k1 Q1 *m (toM N k1 Q1)^T) = \tr ((toM N k2 Q2 *m (toM N k2 Q2)^T) *m (toM N k1 Q1 *m (toM N k1 Q1)^T)).
  by move=> S1 S2; rewrite -{1}(spans_in S2 S1) !mulmxA.
by rewrite (e _ _ _ _ S S') (e _ _ _ _ S' S) mxtrace_mulC.
Qed.

(** ** trigonometric polynomials *)
Inductive trigp (n : nat) : (R -> RR) -> Prop :=
| Tcos m a c f : (m <= n)%N -> (forall s, f s = a * cR (Rplus (Rmult (INR m) s) c)) -> trigp n f
| Tadd f g h : trigp n f -> trigp n g -> (forall s, h s = f s + g s) -> trigp n h.
Lemma trigp_ext n f g : trigp n f -> (forall s, g s = f s) -> trigp n g.
Proof.
case=> [m a c f' Hm E|f1 f2 h H1 H2 E] H; first by apply: (Tcos (m := m) (a := a) (c := c)) => // s; rewrite H E.
by apply: (Tadd H1 H2) => s; rewrite H E.
Qed.
Lemma prod_cos (x y : R) : cR x * cR y = (Rinv 2 : RR) * cR (Rplus x y) + (Rinv 2 : RR) * cR (Rminus x y).
Proof. by rewrite /cR cos_plus cos_minus; rewrite !addE !mulE; match goal with |- ?a = ?b => change (@eq R a b) end; field. Qed.
Lemma trigp_mul n f (b d : R) : trigp n f -> trigp n.+1 (fun s => (b : RR) * cR (Rplus s d) * f s).
Proof.
elim=> [m a c f' Hm E|f1 f2 h _ H1 _ H2 E]; last by apply: (Tadd H1 H2) => s; rewrite E mulrDr.
apply: (@Tadd _ (fun s => (b : RR) * a * (Rinv 2 : RR) * cR (Rplus (Rmult (INR m.+1) s) (Rplus c d)))
  (fun s => (b : RR) * a * (Rinv 2 : RR) * cR (Rplus (Rmult (INR m) s) (Rminus c (Rplus s d))))).
- by apply: (@Tcos _ m.+1 ((b : RR) * a * (Rinv 2 : RR)) (Rplus c d)).
- case: m Hm E => [|m] Hm E.
    apply: (@Tcos _ 1 ((b : RR) * a * (Rinv 2 : RR)) (Rminus d c)) => // s; congr (_ * _).
    by rewrite /cR -cos_neg; congr cos; rewrite /=; ring.
  apply: (@Tcos _ m ((b : RR) * a * (Rinv 2 : RR)) (Rminus c d)) => [|s]; first by lia.
  by congr (_ * cR _); rewrite S_INR; ring.
move=> s; rewrite E mulrACA prod_cos.
have -> : Rplus (Rmult (INR m.+1) s) (Rplus c d) = Rplus (Rplus s d) (Rplus (Rmult (INR m) s) c) by rewrite S_INR; ring.
have -> : cR (Rplus (Rmult (INR m) s) (Rminus c (Rplus s d))) = cR (Rminus (Rplus s d) (Rplus (Rmult (INR m) s) c)).
  by rewrite /cR -cos_neg; congr cos; ring.
by rewrite mulrDr !mulrA.
Qed.
Section K.
Variables (k n : nat).
Hypothesis nk : (n < k)%N.
Let k0 : (0 < k)%N. Proof. by lia. Qed.
(** the mean of a trigonometric polynomial over a regular polygon with enough vertices does not
    depend on where the polygon starts *)
Lemma phase_sum (a x : R) K : (\sum_(0 <= j < K) cR (Rplus x (Rmult (INR j) a))) * (2%:R * sR (Rdiv a 2)) =
  sR (Rplus x (Rminus (Rmult (INR K) a) (Rdiv a 2))) - sR (Rminus x (Rdiv a 2)).
Proof.
rewrite /sR; elim: K => [|K IH].
  rewrite big_geq // mul0r; have -> : Rplus x (Rminus (Rmult (INR 0) a) (Rdiv a 2)) = Rminus x (Rdiv a 2) by rewrite /=; ring.
  by rewrite subrr.
rewrite big_nat_recr // [X in X * _]/= mulrDl IH /cR twoE.
rewrite S_INR; set b := Rmult (INR K) a.
have -> : Rplus x (Rminus (Rmult (Rplus (INR K) 1) a) (Rdiv a 2)) = Rplus (Rplus x b) (Rdiv a 2) by rewrite /b; field.
have -> : Rplus x (Rminus b (Rdiv a 2)) = Rminus (Rplus x b) (Rdiv a 2) by ring.
rewrite (sin_minus (Rplus x b)) (sin_plus (Rplus x b)); rring.
Qed.
Lemma mean_shift f (t : R) : trigp n f -> \sum_(0 <= j < k) f (Rplus t (Rmult (INR j) (th k))) = \sum_(0 <= j < k) f (Rmult (INR j) (th k)).
Proof.
elim=> [m a c f' Hm E|f1 f2 h _ H1 _ H2 E]; last first.
  by rewrite (eq_sum (fun j _ => E _)) (eq_sum (fun j _ => E _)) !big_split /= H1 H2.
rewrite (eq_sum (fun j _ => E _)) (eq_sum (fun j _ => E _)) -!mulr_sumr; congr (_ * _).
case: m Hm E => [|m] Hm E.
  by apply: eq_sum => j _; congr cR; rewrite /= !Rmult_0_l.
suff Z x : \sum_(0 <= j < k) cR (Rplus x (Rmult (INR j) (Rmult (INR m.+1) (th k)))) = 0.
  rewrite (eq_sum (g := fun j => cR (Rplus (Rplus (Rmult (INR m.+1) t) c) (Rmult (INR j) (Rmult (INR m.+1) (th k)))))) => [|j _]; last by congr cR; ring.
  by rewrite Z (eq_sum (g := fun j => cR (Rplus c (Rmult (INR j) (Rmult (INR m.+1) (th k)))))) ?Z // => j _; congr cR; ring.
have P := sin_half (r := m.+1) k0 isT (leq_ltn_trans Hm nk).
have := phase_sum (Rmult (INR m.+1) (th k)) x k; set b := Rmult (INR _) (th k) in P *; rewrite {2 3}/sR.
have -> : sin (Rplus x (Rminus (Rmult (INR k) b) (Rdiv b 2))) = sin (Rminus x (Rdiv b 2)).
  have -> : Rplus x (Rminus (Rmult (INR k) b) (Rdiv b 2)) = Rplus (Rminus x (Rdiv b 2)) (Rmult (Rmult 2 (INR m.+1)) PI).
    have -> : Rmult (INR k) b = Rmult (INR m.+1) (Rmult (INR k) (th k)) by rewrite /b; ring.
    by rewrite thk //; ring.
  by rewrite sin_period.
set X := \sum_(_ <= _ < _) _; rewrite addrN => H.
have {}H : Rmult (Rmult 2 (sin (Rdiv b 2))) X = R0.
  have -> : Rmult (Rmult 2 (sin (Rdiv b 2))) X = X * (2%:R * sR (Rdiv b 2)) by rewrite twoE /sR; rring.
  by rewrite H.
have [|->] := Rmult_integral _ _ H; last by [].
by move=> H'; exfalso; lra.
Qed.
End K.

(** ** the entries of the tensor power of a rotation *)
Lemma rot_ent i j : exists b d : R, forall s, fe (rot s) i j = (b : RR) * cR (Rplus s d).
Proof.
case E1 : (i == j).
  by exists R1, R0 => s; rewrite /= E1 /cR Rplus_0_r; change (cos s = Rmult R1 (cos s)); ring.
case E2 : (i == 0%N); [exists (Ropp R1) | exists R1]; exists (Rdiv PI 2) => s; rewrite /= E1 E2 /cR cos_plus cos_PI2 sin_PI2.
  by change (sin s = Rmult (Ropp R1) (Rminus (Rmult (cos s) 0) (Rmult (sin s) 1))); ring.
by change (Ropp (sin s) = Rmult R1 (Rminus (Rmult (cos s) 0) (Rmult (sin s) 1))); ring.
Qed.
Lemma ten_trig n i j : trigp n (fun s => fe (fkronl (nseq n (rot s))) i j).
Proof.
elim: n i j => [|n IH] i j.
  apply: (@Tcos _ 0 (fe (fid RR 1) i j) 0) => // s.
  by rewrite /cR /= Rmult_0_l Rplus_0_r cos_0 mulr1.
have SZ s := fkronl_sz n (erefl : fr (rot s) = 2%N) (erefl : fc (rot s) = 2%N).
have [b [d E]] := rot_ent (i %/ 2 ^ n) (j %/ 2 ^ n).
apply: trigp_ext (trigp_mul b d (IH (i %% 2 ^ n)%N (j %% 2 ^ n)%N)) _ => s.
by have [s1 s2] := SZ s; rewrite -E /= s1 s2.
Qed.

(** ** vectors fixed by C(k), with k greater than the rank, are fixed by all rotations *)
Lemma fixes_mx N X v : size v = N -> fixes N X v <-> mxf N N X *m toM N 1 v = toM N 1 v.
Proof.
move=> Sv; split=> H.
  apply/matrixP => i j; rewrite !mxE /= !ord1 muln1 addn0 -(H i (ltn_ord i)) big_mkord.
  by apply: eq_bigr => l _; rewrite !mxE /= muln1 addn0.
move=> i Hi; have /matrixP/(_ (Ordinal Hi) ord0) := H; rewrite !mxE big_mkord /= muln1 addn0 => <-.
by apply: eq_bigr => j _; rewrite !mxE /= muln1 addn0.
Qed.
Section Fix.
Variables (k n : nat).
Hypothesis nk : (n < k)%N.
Let N := (2 ^ n)%N.
Definition tp (X : fmat RR) : 'M[RR]_N := mxf N N (fkronl (nseq n X)).
Lemma tp_meq X Y : fr X = 2%N -> fc X = 2%N -> meq X Y -> tp X = tp Y.
Proof.
move=> x1 x2 E; have [s1 s2] := fkronl_sz n x1 x2.
by apply: mxf_meq; [exact: fkronl_nseq_meq | | ].
Qed.
Lemma tp_mul X Y : fr X = 2%N -> fc X = 2%N -> fr Y = 2%N -> fc Y = 2%N -> tp (fmul X Y) = tp X *m tp Y.
Proof.
move=> x1 x2 y1 y2; have [s1 s2] := fkronl_sz n x1 x2; have [t1 t2] := fkronl_sz n y1 y2.
rewrite /tp -(mxf_mul _ _ (k := N)) //; apply: esym; apply: mxf_meq => //.
exact: (kron_mulp n x1 x2 y1 y2).
Qed.
Lemma tp_mean t : \sum_(0 <= j < k) tp (rot (Rplus t (Rmult (INR j) (th k)))) = \sum_(0 <= j < k) tp (rot (Rmult (INR j) (th k))).
Proof.
apply/matrixP => a b; rewrite !summxE.
have -> : \sum_(0 <= j < k) tp (rot (Rplus t (Rmult (INR j) (th k)))) a b = \sum_(0 <= j < k) fe (fkronl (nseq n (rot (Rplus t (Rmult (INR j) (th k)))))) a b.
  by apply: eq_sum => j _; rewrite mxE.
have -> : \sum_(0 <= j < k) tp (rot (Rmult (INR j) (th k))) a b = \sum_(0 <= j < k) fe (fkronl (nseq n (rot (Rmult (INR j) (th k))))) a b.
  by apply: eq_sum => j _; rewrite mxE.
exact: (mean_shift nk t (ten_trig n a b)).
Qed.
Lemma fixed_rot (w : 'cV[RR]_N) : (forall j, (j < k)%N -> tp (rot (Rmult (INR j) (th k))) *m w = w) -> forall t, tp (rot t) *m w = w.
Proof.
move=> H t.
have cst (F : nat -> 'cV[RR]_N) u : (forall j, (j < k)%N -> F j = u) -> \sum_(0 <= j < k) F j = k%:R *: u.
  move=> HF; have -> : \sum_(0 <= j < k) F j = \sum_(0 <= j < k) u by apply: eq_big_nat => j /andP[_ Hj]; exact: HF.
  by rewrite big_const_nat subn0 iter_addr_0 scaler_nat.
have S0 : \sum_(0 <= j < k) tp (rot (Rmult (INR j) (th k))) *m w = k%:R *: w.
  by apply: cst => j; exact: H.
have S1 : \sum_(0 <= j < k) tp (rot (Rplus t (Rmult (INR j) (th k)))) *m w = k%:R *: (tp (rot t) *m w).
  apply: cst => j Hj.
  by rewrite -(tp_meq _ _ (rot_mul _ _)) // tp_mul // -mulmxA H.
have : k%:R *: (tp (rot t) *m w) = k%:R *: w :> 'cV[RR]_N by rewrite -S0 -S1 -!mulmx_suml tp_mean.
have kn : Rmult (Rinv (INR k)) (INR k) = R1 by apply: Rinv_l; apply: INRk; lia.
move/(congr1 (fun z => (Rinv (INR k) : RR) *: z)); rewrite !scalerA natE.
have -> : (Rinv (INR k) : RR) * INR k = 1 by exact: kn.
by rewrite !scale1r.
Qed.
End Fix.
Lemma on_circle (x y : R) : Rplus (Rmult x x) (Rmult y y) = R1 -> exists t, x = cos t /\ y = sin t.
Proof.
move=> E; have [t Ht] := angle x y; have := sin2_cos2 t; rewrite /Rsqr => S.
set c := cos t in Ht S; set s := sin t in Ht S.
pose l := Rplus (Rmult c x) (Rmult s y).
have e : Rmult c y = Rmult s x by lra.
have Ex : x = Rmult l c.
  have -> : Rmult l c = Rplus (Rmult (Rmult c c) x) (Rmult s (Rmult c y)) by rewrite /l; ring.
  have -> : Rplus (Rmult (Rmult c c) x) (Rmult s (Rmult c y)) = Rmult (Rplus (Rmult s s) (Rmult c c)) x by rewrite e; ring.
  by rewrite S; ring.
have Ey : y = Rmult l s.
  have -> : Rmult l s = Rplus (Rmult c (Rmult s x)) (Rmult (Rmult s s) y) by rewrite /l; ring.
  have -> : Rplus (Rmult c (Rmult s x)) (Rmult (Rmult s s) y) = Rmult (Rplus (Rmult s s) (Rmult c c)) y by rewrite -e; ring.
  by rewrite S; ring.
have [El|El] : l = R1 \/ l = Ropp R1.
  apply: sq_one; rewrite -E {2}Ex {2}Ey.
  have -> : Rplus (Rmult x (Rmult l c)) (Rmult y (Rmult l s)) = Rmult l (Rplus (Rmult c x) (Rmult s y)) by ring.
  by [].
  by exists t; split; [rewrite Ex | rewrite Ey]; rewrite El Rmult_1_l.
exists (Rplus t PI); rewrite neg_cos neg_sin; split; [rewrite Ex | rewrite Ey]; rewrite El /c /s; ring.
Qed.

Lemma o2_ents X : fr X = 2%N -> fc X = 2%N -> isometry (fid RR 2) X ->
  let a : R := fe X 0 0 in let b : R := fe X 0 1 in let c : R := fe X 1 0 in let d : R := fe X 1 1 in
  [/\ Rplus (Rmult a a) (Rmult c c) = R1, Rplus (Rmult a b) (Rmult c d) = R0 & Rplus (Rmult b b) (Rmult d d) = R1].
Proof.
move=> x1 x2 I; have [_ [_ [_ _ AA]]] := iso_invTn x1 x2 I; rewrite /= x1 x2 in AA.
have := AA 0%N 0%N isT isT; have := AA 0%N 1%N isT isT; have := AA 1%N 1%N isT isT; rewrite !sum2' /=.
by [].
Qed.
Lemma sq_zero (x y : R) : Rplus (Rmult x x) (Rmult y y) = R0 -> x = R0 /\ y = R0.
Proof.
move=> E; have hx := Rle_0_sqr x; have hy := Rle_0_sqr y; rewrite /Rsqr in hx hy.
by split; apply: Rsqr_0_uniq; rewrite /Rsqr; lra.
Qed.
Lemma o2_cases X : fr X = 2%N -> fc X = 2%N -> isometry (fid RR 2) X ->
  (fdet 2 X = 1 /\ exists t, meq X (rot t)) \/ exists t, meq X (ref t).
Proof.
move=> x1 x2 I; have [E1 E2 E3] := o2_ents x1 x2 I.
have De : fdet 2 X = Rminus (Rmult (fe X 0 0) (fe X 1 1)) (Rmult (fe X 0 1) (fe X 1 0)) by rewrite det2.
set a : R := fe X 0 0 in E1 E2 E3 De; set b : R := fe X 0 1 in E1 E2 E3 De.
set c : R := fe X 1 0 in E1 E2 E3 De; set d : R := fe X 1 1 in E1 E2 E3 De.
have [D|D] : Rminus (Rmult a d) (Rmult b c) = R1 \/ Rminus (Rmult a d) (Rmult b c) = Ropp R1.
  apply: sq_one.
  have -> : Rmult (Rminus (Rmult a d) (Rmult b c)) (Rminus (Rmult a d) (Rmult b c)) =
    Rminus (Rmult (Rplus (Rmult a a) (Rmult c c)) (Rplus (Rmult b b) (Rmult d d))) (Rmult (Rplus (Rmult a b) (Rmult c d)) (Rplus (Rmult a b) (Rmult c d))) by ring.
  by rewrite E1 E2 E3; ring.
- left; split; first by rewrite De D.
  have [H1 H2] : Rminus a d = R0 /\ Rplus b c = R0 by apply: sq_zero; lra.
  have Ed : d = a by lra.
  have Ec : c = Ropp b by lra.
  have [t [Ht1 Ht2]] : exists t, a = cos t /\ b = sin t by apply: on_circle; rewrite -E1 Ec; ring.
  exists t; apply: meq22 => //=; rewrite -/a -/b -/c -/d ?Ed ?Ec ?Ht1 ?Ht2 //.
right.
have [H1 H2] : Rplus a d = R0 /\ Rminus b c = R0 by apply: sq_zero; lra.
have Ed : d = Ropp a by lra.
have Ec : c = b by lra.
have [t [Ht1 Ht2]] : exists t, Ropp a = cos t /\ Ropp b = sin t by apply: on_circle; rewrite -E1 Ec; ring.
exists t; apply: meq22 => //=; rewrite -/a -/b -/c -/d ?Ec ?Ed -?Ht1 -?Ht2 // oppE Ropp_involutive //.
Qed.
Lemma neq1' : (-1 : RR) <> 1.
Proof. by move/esym; exact: neq1. Qed.
Lemma det_rot t X : meq X (rot t) -> fdet 2 X = 1.
Proof.
case=> e1 e2 e3; rewrite det2 !e3 ?e1 ?e2 //=; have := sin2_cos2 t; rewrite /Rsqr => S2.
change (Rplus (Rmult (cos t) (cos t)) (Ropp (Rmult (sin t) (Ropp (sin t)))) = R1); lra.
Qed.
Lemma det_ref t X : meq X (ref t) -> fdet 2 X = -1.
Proof.
case=> e1 e2 e3; rewrite det2 !e3 ?e1 ?e2 //=; have := sin2_cos2 t; rewrite /Rsqr => S2.
change (Rplus (Rmult (Ropp (cos t)) (cos t)) (Ropp (Rmult (Ropp (sin t)) (Ropp (sin t)))) = Ropp R1); lra.
Qed.
Lemma balanced_central n : balanced n.+1 n = if odd n then 0%N else 'C(n, n./2).
Proof.
rewrite /balanced.
have E i : (i < n.+1)%N -> (2 * i == n %[mod n.+1])%N = (2 * i == n)%N.
  move=> Hi; rewrite (modn_small (ltnSn n)); have [L|L] := ltnP (2 * i) n.+1; first by rewrite modn_small.
  have -> : (2 * i = (2 * i - n.+1) + n.+1)%N by lia.
  rewrite modnDr modn_small; lia.
case O : (odd n).
  rewrite big_nat big1 // => i /andP[_ Hi]; rewrite E //; case: eqP => // Ei; move: O; rewrite -Ei oddM /=; by [].
rewrite big_nat (eq_bigr (fun i => if i == n./2 then 'C(n, i) else 0%N)) => [|i /andP[_ Hi]]; last first.
  by rewrite E //; congr (if _ then _ else _); have := odd_double_half n; rewrite O -muln2; lia.
rewrite -big_nat big_mkord -big_mkcond /=.
have H : (n./2 < n.+1)%N by lia.
by rewrite (big_pred1 (Ordinal H)).
Qed.

Section Main.
Variable close : seq RR -> seq RR -> bool.
Variables (sinv : RR -> RR) (linv : nat -> seq RR -> seq RR).
Variables (crho cdrho : nat -> option gid -> gel RR -> res (op RR)).
Variables (gdim : gid -> nat) (csize : nat -> gid -> nat) (le : rel rep) (g : gid).
Variable G : gid -> group RR.
Variables (svd : nat -> nat -> seq RR -> seq RR * seq RR * seq RR) (big : pred RR).
Variable krylov : op RR -> res (darr RR).
Local Notation sz := (rsize gdim csize).
Local Notation gorth := (fun h => g_orth (G h)).
Local Notation rep_of := (rep_of gdim gorth csize le g).
Local Notation basis := (basis idR sinv linv crho cdrho gdim csize le (the_gens G) (the_lies G) svd big krylov).
Hypothesis HS : setting sinv linv crho cdrho gdim csize le g G svd big krylov.
Local Notation an k j := (Rmult (INR j) (Rdiv (Rmult 2 PI) (INR k))).

Theorem dim_so2 p q : g_so idR close 2 = Ok (G g) -> gdim g = 2%N ->
  exists r Q, [/\ rep_of (T_expr p q) r, sz r = (2 ^ (p + q))%N &
    returns (basis r) (2 ^ (p + q)) (if odd (p + q) then 0 else 'C(p + q, (p + q)./2))%N Q].
Proof.
move=> EG Ed; have I (A : fmat RR) : fr A = 2%N -> fc A = 2%N -> isometry (fid RR 2) A /\ fdet 2 A = 1 -> isometry (fid RR 2) A by move=> _ _ [].
have [r [k [Q [R1 R2 R3 R4]]]] := tensors_iso HS (@exact_so idR close 2 isT) EG Ed isT (so_basic (isT : 1 < 2)%N EG) p q I.
set n := (p + q)%N in R1 R2 R3 R4 *.
have [|G' [E' HS']] := @u_iso (g_c idR cosR sinR close n.+1) 2 _ isT (exact_c idR close (isT : 0 < n.+1)%N).
  by move=> X _ _ [j _ E]; exact: iso_rot E.
have [r' [Q' [_ _ _ S']]] := span_c HS' p q (isT : 0 < n.+1)%N E' erefl; rewrite -/n in S'.
exists r, Q; split=> //; rewrite -balanced_central; suff -> : balanced n.+1 n = k by [].
apply: spans_uniq S' (spans_iff _ R4) => v Sv; split=> H A a1 a2 PA.
  have [j Hj E] := PA; apply: H => //; split; first exact: iso_rot E.
  exact: det_rot E.
have [[_ [t E]]|[t E]] := o2_cases a1 a2 (proj1 PA); last first.
  by exfalso; have [_ D] := PA; move: D; rewrite (det_ref E); exact: neq1'.
have [s1 s2] := fkronl_sz n a1 a2.
apply/(fixes_meq _ s2 s1 (fkronl_nseq_meq n E)); apply/(fixes_mx _ Sv).
apply: (@fixed_rot n.+1 n (ltnSn n)) => j Hj; apply/(fixes_mx _ Sv); apply: H => //.
by exists j => //; exact: meq_refl.
Qed.
Theorem dim_o2 p q : (0 < p + q)%N -> g_o idR close 2 = Ok (G g) -> gdim g = 2%N ->
  exists r Q, [/\ rep_of (T_expr p q) r, sz r = (2 ^ (p + q))%N &
    returns (basis r) (2 ^ (p + q)) (if odd (p + q) then 0 else 'C(p + q, (p + q)./2)./2)%N Q].
Proof.
move=> n0 EG Ed; have B : basic_group 2 (G g).
  by have [a [h [Ea Eh B]]] := o_ok idR close 1; apply: built_basic B EG _ _; [eexists | exact: arr_items].
have [r [k [Q [R1 R2 R3 R4]]]] := tensors_iso HS (@exact_o idR close 2 isT) EG Ed isT B p q (fun A _ _ H => H).
set n := (p + q)%N in R1 R2 R3 R4 n0 *.
have [|G' [E' HS']] := @u_iso (g_dihedral idR cosR sinR close n.+1) 2 _ isT (exact_d idR close (isT : 0 < n.+1)%N).
  by move=> X _ _ [j _ [E|E]]; [exact: iso_rot E | exact: iso_ref E].
have [r' [Q' [_ _ _ S']]] := @span_d close _ _ _ _ _ _ _ _ _ _ _ _ HS' n.+1 p q (isT : 0 < n.+1)%N n0 E' erefl; rewrite -/n in S'.
exists r, Q; split=> //; suff -> : (if odd n then 0 else 'C(n, n./2)./2)%N = k by [].
have -> : (if odd n then 0 else 'C(n, n./2)./2)%N = (balanced n.+1 n)./2 by rewrite balanced_central; case: odd.
apply: spans_uniq S' (spans_iff _ R4) => v Sv; split=> H A a1 a2 PA.
  by have [j Hj [E|E]] := PA; apply: H => //; [exact: iso_rot E | exact: iso_ref E].
have [s1 s2] := fkronl_sz n a1 a2.
have F t : tp n (rot t) *m toM (2 ^ n) 1 v = toM (2 ^ n) 1 v.
  apply: (@fixed_rot n.+1 n (ltnSn n)) => j Hj; apply/(fixes_mx _ Sv); apply: H => //.
  by exists j => //; left; exact: meq_refl.
have F0 : tp n (ref 0) *m toM (2 ^ n) 1 v = toM (2 ^ n) 1 v.
  apply/(fixes_mx _ Sv); apply: H => //; exists 0%N => //; right; rewrite /= Rmult_0_l; exact: meq_refl.
have [[_ [t E]]|[t E]] := o2_cases a1 a2 PA.
  by apply/(fixes_meq _ s2 s1 (fkronl_nseq_meq n E)); apply/(fixes_mx _ Sv); exact: F.
apply/(fixes_meq _ s2 s1 (fkronl_nseq_meq n E)); apply/(fixes_mx _ Sv).
have M := ref_rot 0 t; rewrite Rplus_0_l in M.
by rewrite -/(tp n (ref t)) -(tp_meq n _ _ M) // tp_mul // -mulmxA F F0.
Qed.
End Main.

(** ** examples *)
Lemma u_cube close : exists G, usable_as (g_cube idR close) 6 G.
Proof.
apply: u_iso (exact_cube idR close) _ => // X x1 x2 [p /and3P[Pp _ _] E].
apply: meq_trans (DataCubeThm.perm_isometry Pp); apply: meq_fmul => //; first exact: meq_ftr.
by apply: meq_fmul.
Qed.
Lemma char_example close k : (0 < k)%N ->
  (exists G Es, [/\ usable_as (g_c idR cosR sinR close k) 2 G, basic_group 2 (G 0%N), size Es = k,
    enumerates 2 (fun X => exists2 j, (j < k)%N & meq X (rot (Rmult (INR j) (Rdiv (Rmult 2 PI) (INR k))))) Es &
    wfr (ndim 2) (ncs 2) RepCode.le_asc (pred1 0%N) (RBase (Some 0%N))]) /\
  exists G, usable_as (g_dihedral idR cosR sinR close k) 2 G.
Proof.
move=> k0; split; last first.
  by apply: u_iso (exact_d idR close k0) _ => // X _ _ [j _ [E|E]]; [exact: iso_rot E | exact: iso_ref E].
have [|G [E HS]] := @u_iso (g_c idR cosR sinR close k) 2 _ isT (exact_c idR close k0).
  by move=> X _ _ [j _ E]; exact: iso_rot E.
exists G, [seq flat (rot (Rmult (INR j) (Rdiv (Rmult 2 PI) (INR k)))) | j <- iota 0 k]; split=> //.
- by apply: built_basic (c_ok idR cosR sinR close k0) E _ _; [eexists | exact: arr_items].
- by rewrite size_map size_iota.
- exact: enum_c.
Qed.
