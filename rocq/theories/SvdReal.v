(** * SvdReal: every real matrix has a singular value decomposition.  The spectral theorem is
    proved by induction on the size: a symmetric matrix whose lower right block is
    diagonal has an eigenvector, by the intermediate value theorem for its secular function. *)
From Coq Require Import Reals Lra Ranalysis5.
From mathcomp Require Import all_ssreflect all_algebra.
From Verif Require Import Rstruct RField.
Set Implicit Arguments.
Unset Strict Implicit.
Unset Printing Implicit Defensive.
Import GRing.Theory.
Local Open Scope ring_scope.
Local Notation F := R_fieldType.

(** ** sums of reals *)
Lemma sumR_ge0 (I : Type) (r : seq I) (P : pred I) (f : I -> F) : (forall i, P i -> Rle R0 (f i)) -> Rle R0 (\sum_(i <- r | P i) f i).
Proof.
move=> H; elim/big_rec: _ => [|i x Pi Hx]; first exact: Rle_refl.
by rewrite -[_ + _]/(Rplus (f i) x); have := H i Pi; lra.
Qed.
Lemma sumR_le (I : Type) (r : seq I) (f h : I -> F) : (forall i, Rle (f i) (h i)) -> Rle (\sum_(i <- r) f i) (\sum_(i <- r) h i).
Proof.
move=> H; elim/big_rec2: _ => [|i x y _ Hx]; first exact: Rle_refl.
by rewrite -[f i + _]/(Rplus (f i) y) -[h i + _]/(Rplus (h i) x); have := H i; lra.
Qed.
Lemma sqR_ge0 (x : F) : Rle R0 (x * x). Proof. exact: Rle_0_sqr. Qed.
Lemma sumsq0 n (f : 'I_n -> F) : \sum_i f i * f i = 0 -> forall i, f i = 0.
Proof.
move=> H i; move: H; rewrite (bigD1 i) //= => H.
have S : Rle R0 (\sum_(j < n | j != i) f j * f j) by apply: sumR_ge0 => j _; exact: sqR_ge0.
have h : Rle R0 (Rmult (f i) (f i)) by exact: Rle_0_sqr.
have e : Rplus (Rmult (f i) (f i)) (\sum_(j < n | j != i) f j * f j) = R0 by exact: H.
have /Rmult_integral : Rmult (f i) (f i) = R0 by move: S h e; set q := (\sum_(_ < n | _) _); move: q => q; lra.
by case.
Qed.

Section Vec.
Variable n : nat.
Implicit Types u v w : 'cV[F]_n.
Definition nrm v : F := \sum_i v i 0 * v i 0.
Lemma nrmE v : v^T *m v = (nrm v)%:M.
Proof.
apply/matrixP=> i j; rewrite !ord1 !mxE eqxx mulr1n; apply: eq_bigr => k _.
by rewrite mxE.
Qed.
Lemma nrm_ge0 v : Rle R0 (nrm v). Proof. by apply: sumR_ge0 => i _; exact: sqR_ge0. Qed.
Lemma nrm0 v : nrm v = 0 -> v = 0.
Proof. by move=> H; apply/matrixP=> i j; rewrite ord1 (sumsq0 H) mxE. Qed.
Lemma nrm_gt0 v : v != 0 -> Rlt R0 (nrm v).
Proof.
move=> H; case: (Rle_lt_or_eq_dec _ _ (nrm_ge0 v)) => // E.
by case/eqP: H; apply: nrm0.
Qed.
Lemma nrmZ (a : F) v : nrm (a *: v) = a * a * nrm v.
Proof. by rewrite /nrm mulr_sumr; apply: eq_bigr => i _; rewrite !mxE -!mulrA; congr (_ * _); rewrite mulrCA. Qed.
(** a vector of length 1 in the same direction *)
Lemma unit_vec v : v != 0 -> exists2 a : F, a != 0 & nrm (a *: v) = 1.
Proof.
move=> /nrm_gt0 H; have S := sqrt_lt_R0 _ H; have E := sqrt_sqrt _ (Rlt_le _ _ H).
exists (Rinv (sqrt (nrm v))); first by apply/eqP; apply: Rinv_neq_0_compat; lra.
rewrite nrmZ -{3}E; move: (sqrt _) S => r S {E}.
change (@eq R (Rmult (Rmult (Rinv r) (Rinv r)) (Rmult r r)) R1); field; lra.
Qed.
End Vec.

Definition orthogonal n (H : 'M[F]_n) : Prop := H^T *m H = 1%:M.
Lemma orthogonalC n (H : 'M[F]_n) : orthogonal H -> H *m H^T = 1%:M. Proof. exact: mulmx1C. Qed.
Lemma orthogonalM n (A B : 'M[F]_n) : orthogonal A -> orthogonal B -> orthogonal (A *m B).
Proof. by move=> HA HB; rewrite /orthogonal trmx_mul mulmxA -(mulmxA _ A^T) HA mulmx1. Qed.
Lemma orthogonalT n (A : 'M[F]_n) : orthogonal A -> orthogonal A^T.
Proof. by move=> HA; rewrite /orthogonal trmxK; exact: orthogonalC. Qed.
Lemma orthogonal1 n : orthogonal (1%:M : 'M[F]_n). Proof. by rewrite /orthogonal trmx1 mulmx1. Qed.
Lemma orthogonal_block n (O : 'M[F]_n) : orthogonal O -> orthogonal (block_mx 1%:M 0 0 O : 'M[F]_(1 + n)).
Proof.
by move=> H; rewrite /orthogonal tr_block_mx mulmx_block !trmx0 trmx1 !(mul0mx, mulmx0) mulmx1 !addr0 !add0r H -scalar_mx_block.
Qed.

(** ** reflections *)
Definition e0 n : 'cV[F]_(1 + n) := col_mx 1%:M 0.
Lemma e0_nrm n : nrm (e0 n) = 1.
Proof.
have : (e0 n)^T *m e0 n = 1%:M by rewrite tr_col_mx mul_row_col trmx1 mulmx1 mulmx0 addr0.
by rewrite nrmE => /matrixP/(_ 0 0); rewrite !mxE.
Qed.
Lemma reflect_orth n (P : 'M[F]_n) : P^T = P -> P *m P = P + P -> orthogonal (1%:M - P).
Proof.
move=> PT PP; have T : (1%:M - P)^T = 1%:M - P by rewrite -{2}PT; apply/matrixP=> i j; rewrite !mxE eq_sym.
by rewrite /orthogonal T mulmxBl mul1mx mulmxBr mulmx1 PP opprB addrK subrK.
Qed.
Lemma householder n (u : 'cV[F]_(1 + n)) : nrm u = 1 -> exists2 H, orthogonal H & H *m e0 n = u.
Proof.
move=> Hu; case: (altP (e0 n =P u)) => [<-|ne]; first by exists 1%:M; [exact: orthogonal1 | rewrite mul1mx].
pose w := e0 n - u; have w0 : w != 0 by rewrite subr_eq0.
have c0 := nrm_gt0 w0; pose a : F := (1 + 1) / nrm w.
have cn : nrm w != 0 by apply/eqP => E; rewrite E in c0; exact: Rlt_irrefl c0.
have ac : a * nrm w = 1 + 1 by rewrite /a mulfVK.
exists (1%:M - a *: (w *m w^T)).
  set P := a *: _.
  have PT : P^T = P by rewrite /P linearZ /= trmx_mul trmxK.
  have PP : P *m P = P + P.
    rewrite /P -scalemxAr -scalemxAl mulmxA -(mulmxA w) nrmE mul_mx_scalar -scalemxAl !scalerA.
    by rewrite -mulrA ac mulrDr mulr1 scalerDl.
  exact: reflect_orth PT PP.
have we : nrm w = (1 + 1) * (w^T *m e0 n) 0 0.
  have E1 : (w^T *m w) = w^T *m e0 n - w^T *m u by rewrite -mulmxBr.
  have E2 : w^T *m e0 n = 1%:M - u^T *m e0 n by rewrite linearB /= mulmxBl nrmE e0_nrm.
  have E3 : w^T *m u = (e0 n)^T *m u - 1%:M by rewrite linearB /= mulmxBl nrmE Hu.
  have E4 : (e0 n)^T *m u = u^T *m e0 n.
    by apply: trmx_inj; rewrite trmx_mul trmxK; apply/matrixP=> i j; rewrite !ord1 !mxE; apply: eq_bigr => k _; rewrite !mxE mulrC.
  have := congr1 (fun M : 'M_1 => M 0 0) E1; rewrite nrmE mxE eqxx mulr1n => ->.
  by rewrite E3 E4 E2 mulrDl !mul1r !mxE opprB.
have we' : w^T *m e0 n = ((w^T *m e0 n) 0 0)%:M by apply/matrixP=> i j; rewrite !ord1 !mxE eqxx mulr1n.
rewrite mulmxBl mul1mx -scalemxAl -mulmxA we' mul_mx_scalar scalerA.
suff -> : a * (w^T *m e0 n) 0 0 = 1 by rewrite scale1r opprB addrC subrK.
have two : (1 + 1 : F) != 0 by apply/eqP; rewrite -[_ + _]/(Rplus 1 1); change (Rplus 1 1 <> R0); lra.
by apply: (mulfI two); rewrite mulrCA -we ac mulr1.
Qed.

(** ** the secular function *)
Lemma maxR n (b : 'I_n.+1 -> F) : exists i0, forall i, Rle (b i) (b i0).
Proof.
elim: n b => [|n IH] b; first by exists 0 => i; rewrite ord1; exact: Rle_refl.
have [i Hi] := IH (fun i => b (lift 0 i)); case: (Rle_lt_dec (b 0) (b (lift 0 i))) => H.
  by exists (lift 0 i) => j; case: (unliftP 0 j) => [k ->|->].
exists 0 => j; case: (unliftP 0 j) => [k ->|->]; last exact: Rle_refl.
by have := Hi k; lra.
Qed.
Lemma cont_ext (f h : R -> R) x : (forall y, f y = h y) -> continuity_pt f x -> continuity_pt h x.
Proof. by move=> E H e e0; have [a [a0 Ha]] := H e e0; exists a; split=> // y Hy; rewrite -!E; exact: Ha. Qed.
Lemma cont_sum (I : Type) (r : seq I) (f : I -> R -> F) x : (forall i, continuity_pt (f i) x) ->
  continuity_pt (fun y => \sum_(i <- r) f i y : R) x.
Proof.
move=> H; elim: r => [|i r IH].
  by apply: (@cont_ext (fun=> R0) _ x) => [y|]; [rewrite big_nil | apply: continuity_pt_const].
apply: (@cont_ext (fun y => Rplus (f i y) (\sum_(j <- r) f j y)) _ x) => [y|]; first by rewrite big_cons.
exact: continuity_pt_plus.
Qed.
Section Secular.
Variables (n : nat) (b c : 'I_n.+1 -> F) (d : F) (i0 : 'I_n.+1).
Hypothesis Hb : forall i, Rle (b i) (b i0).
Hypothesis c0 : c i0 <> R0.
Let t (x : R) (i : 'I_n.+1) : F := Rdiv (Rmult (c i) (c i)) (Rminus x (b i)).
Let h (x : R) : R := Rminus (Rminus x d) (\sum_i t x i).
Lemma h_cont x : Rlt (b i0) x -> continuity_pt h x.
Proof.
move=> H; apply: continuity_pt_minus.
  by apply: continuity_pt_minus; [exact: derivable_continuous_pt (derivable_pt_id x) | apply: continuity_pt_const].
apply: (@cont_sum _ _ (fun i x => t x i)) => i; rewrite /t; apply: continuity_pt_mult; first by apply: continuity_pt_const.
apply: continuity_pt_inv; last by have := Hb i; lra.
by apply: continuity_pt_minus; [exact: derivable_continuous_pt (derivable_pt_id x) | apply: continuity_pt_const].
Qed.
Lemma t_ge0 x i : Rlt (b i0) x -> Rle R0 (t x i).
Proof.
move=> H; rewrite /t; apply: Rmult_le_pos; first exact: Rle_0_sqr.
by apply: Rlt_le; apply: Rinv_0_lt_compat; have := Hb i; lra.
Qed.
Lemma secular_root : exists2 x, Rlt (b i0) x & h x = R0.
Proof.
have cc : Rlt R0 (Rmult (c i0) (c i0)) by exact: Rlt_0_sqr.
pose K := Rplus (Rabs (Rminus (b i0) d)) 2; have K0 : Rle 2 K by rewrite /K; have := Rabs_pos (Rminus (b i0) d); lra.
pose e := Rmin 1 (Rdiv (Rmult (c i0) (c i0)) K).
have e0 : Rlt 0 e by apply: Rmin_glb_lt; [lra | apply: Rdiv_lt_0_compat; lra].
have e1 : Rle e 1 by exact: Rmin_l.
have eK : Rle K (Rdiv (Rmult (c i0) (c i0)) e).
  have := Rmin_r 1 (Rdiv (Rmult (c i0) (c i0)) K); rewrite -/e => H.
  apply: (Rmult_le_reg_r e) => //; rewrite /Rdiv Rmult_assoc Rinv_l; last lra.
  have := Rmult_le_compat_l K _ _ _ H; rewrite /Rdiv => H2.
  have -> : Rmult (Rmult (c i0) (c i0)) 1 = Rmult K (Rmult (Rmult (c i0) (c i0)) (Rinv K)) by field; lra.
  by apply: H2; lra.
pose S := \sum_i (Rmult (c i) (c i) : F); have S0 : Rle R0 S by apply: sumR_ge0 => i _; exact: Rle_0_sqr.
pose x1 := Rplus (b i0) e; pose x2 := Rplus (Rplus (b i0) (Rabs (Rminus (b i0) d))) (Rplus 2 S).
have L : Rlt x1 x2 by rewrite /x1 /x2; have := Rabs_pos (Rminus (b i0) d); lra.
have h1 : Rlt (h x1) 0.
  have T : Rle K (\sum_i t x1 i).
    rewrite (bigD1 i0) //=; have P : Rle R0 (\sum_(i < n.+1 | i != i0) t x1 i).
      by apply: sumR_ge0 => i _; apply: t_ge0; rewrite /x1; lra.
    have E : t x1 i0 = Rdiv (Rmult (c i0) (c i0)) e by rewrite /t /x1; congr Rdiv; lra.
    by rewrite -[X in Rle _ X]/(Rplus (t x1 i0) (\sum_(i < n.+1 | i != i0) t x1 i)) E; lra.
  rewrite /h; move: T; set q := (\sum_i _); move: q => q T; have := Rle_abs (Rminus (b i0) d).
  by rewrite /x1; move: T; rewrite /K; lra.
have h2 : Rlt 0 (h x2).
  have T : Rle (\sum_i t x2 i) S.
    apply: sumR_le => i; rewrite /t; have P : Rle 1 (Rminus x2 (b i)).
      by have := Hb i; have := Rabs_pos (Rminus (b i0) d); rewrite /x2; lra.
    apply: (Rmult_le_reg_r (Rminus x2 (b i))); first lra.
    rewrite /Rdiv Rmult_assoc Rinv_l; last lra.
    by have := Rmult_le_compat_l _ _ _ (Rle_0_sqr (c i)) P; rewrite /Rsqr; lra.
  rewrite /h; move: T; set q := (\sum_i _); move: q => q T; have := Rle_abs (Ropp (Rminus (b i0) d)); rewrite Rabs_Ropp.
  by rewrite /x2; lra.
have Hc a : Rle x1 a /\ Rle a x2 -> continuity_pt h a by move=> [Ha _]; apply: h_cont; move: Ha; rewrite /x1; lra.
have [x [[l1 l2] E]] := IVT_interv h x1 x2 Hc L h1 h2.
by exists x => //; move: l1; rewrite /x1; lra.
Qed.
End Secular.
Lemma bordered_eigen n (b c : 'I_n -> F) (d : F) : exists lam (t : F) (v : 'I_n -> F),
  [/\ t != 0 \/ exists i, v i != 0, d * t + \sum_i c i * v i = lam * t & forall i, c i * t + b i * v i = lam * v i].
Proof.
case: n b c => [|n] b c.
  exists d, 1, (fun=> 0); split=> [||[]//]; first by left; exact: oner_neq0.
  by rewrite big_ord0 addr0.
have [i0 Hb] := maxR b; case: (altP (c i0 =P 0)) => [C|C].
  exists (b i0), 0, (fun i => (i == i0)%:R); split.
  - by right; exists i0; rewrite eqxx oner_neq0.
  - by rewrite !mulr0 add0r big1 // => i _; case: eqP => [->|_]; rewrite ?C ?mul0r ?mulr0.
  - by move=> i; rewrite mulr0 add0r; case: eqP => [->|_]; rewrite ?mulr0.
have [x Hx E] := secular_root d Hb (fun e => negP C (introT eqP e)).
exists x, 1, (fun i => Rdiv (c i) (Rminus x (b i))); split; first by left; exact: oner_neq0.
  rewrite !mulr1; have -> : \sum_i c i * (Rdiv (c i) (Rminus x (b i)) : F) = \sum_i (Rdiv (Rmult (c i) (c i)) (Rminus x (b i)) : F).
    by apply: eq_bigr => i _; rewrite -[LHS]/(Rmult (c i) (Rmult (c i) (Rinv (Rminus x (b i))))) -Rmult_assoc.
  by move: E; set q := (\sum_i _); move: q => q E; rewrite -[LHS]/(Rplus d q); lra.
move=> i; rewrite mulr1; have N : Rminus x (b i) <> R0 by have := Hb i; lra.
change (@eq R (Rplus (c i) (Rmult (b i) (Rdiv (c i) (Rminus x (b i))))) (Rmult x (Rdiv (c i) (Rminus x (b i))))).
by move: (b i) (c i) N => p q N; field.
Qed.

(** ** the spectral theorem *)
Lemma scal1 (a : 'M[F]_1) : a = (a 0 0)%:M.
Proof. by apply/matrixP=> i j; rewrite !ord1 !mxE eqxx mulr1n. Qed.
Theorem spectral n (A : 'M[F]_n) : A^T = A -> exists O d, orthogonal O /\ A = O *m diag_mx d *m O^T.
Proof.
elim: n A => [|n IH] A HA.
  by exists 1%:M, 0; split; [exact: orthogonal1 | apply/matrixP=> -[]].
change ('M[F]_(1 + n)) in A; change (A^T = A) in HA.
pose a := ulsubmx A; pose c := dlsubmx A; pose B := drsubmx A.
have EA : A = block_mx a c^T c B by rewrite -[LHS]submxK /c trmx_dlsub HA.
have HB : B^T = B by rewrite /B trmx_drsub HA.
clearbody a c B; have [O [b [HO EB]]] := IH B HB.
pose c' := O^T *m c; have [lam [t [v [Hne E1 E2]]]] := bordered_eigen (fun i => b 0 i) (fun i => c' i 0) (a 0 0).
pose P : 'M[F]_(1 + n) := block_mx 1%:M 0 0 O; have HP : orthogonal P by exact: orthogonal_block.
pose w : 'cV[F]_(1 + n) := col_mx t%:M (\col_i v i).
have w0 : w != 0.
  apply/eqP; rewrite -col_mx0 => /eq_col_mx[/matrixP/(_ 0 0) + /matrixP H]; rewrite !mxE eqxx mulr1n => T0.
  case: Hne => [/eqP//|[i /eqP]]; apply; by have := H i 0; rewrite !mxE.
have EP : P^T *m A *m P = block_mx a c'^T c' (diag_mx b).
  rewrite /P EA tr_block_mx !mulmx_block !trmx0 trmx1 !(mul0mx, mulmx0, addr0, add0r, mul1mx, mulmx1) -/c'.
  congr block_mx; first by rewrite /c' trmx_mul trmxK.
  by rewrite EB !mulmxA HO mul1mx -mulmxA HO mulmx1.
have Ew : P^T *m A *m P *m w = lam *: w.
  rewrite EP; clearbody c'; rewrite /w mul_block_col scale_col_mx; congr col_mx.
    rewrite [LHS]scal1 !mxE big_ord1 !mxE eqxx mulr1n.
    rewrite (_ : \sum_j _ = \sum_i c' i 0 * v i) ?E1; last by apply: eq_bigr => i _; rewrite !mxE.
    by apply/matrixP=> i j; rewrite !ord1 !mxE eqxx !mulr1n.
  apply/matrixP=> i j; rewrite !ord1 [LHS]mxE [RHS]mxE mul_diag_mx !mxE big_ord1 [_%:M _ _]mxE eqxx mulr1n.
  by rewrite E2.
have EAw : A *m (P *m w) = lam *: (P *m w).
  have : P *m (P^T *m A *m P *m w) = P *m (lam *: w) by rewrite Ew.
  by rewrite !mulmxA (orthogonalC HP) mul1mx -scalemxAr -mulmxA.
have Pw0 : P *m w != 0.
  apply/eqP => E; case/eqP: w0; have : P^T *m (P *m w) = P^T *m 0 by rewrite E.
  by rewrite mulmxA HP mul1mx mulmx0.
have [al _ Hu] := unit_vec Pw0; pose u := al *: (P *m w); have [H HH Eu] := householder (Hu : nrm u = 1).
have Au : A *m u = lam *: u by rewrite /u -scalemxAr EAw !scalerA mulrC.
pose A2 := H^T *m A *m H; have A2T : A2^T = A2 by rewrite /A2 !trmx_mul trmxK HA mulmxA.
have A2e : A2 *m e0 n = lam *: e0 n by rewrite /A2 -mulmxA Eu -mulmxA Au -scalemxAr -Eu mulmxA HH mul1mx.
have E2' : A2 = block_mx lam%:M 0 0 (drsubmx A2).
  have : A2 *m e0 n = col_mx (ulsubmx A2) (dlsubmx A2).
    by rewrite -{1}[A2]submxK /e0 mul_block_col !mulmx1 !mulmx0 !addr0.
  rewrite A2e /e0 scale_col_mx scaler0 scalemx1 => /eq_col_mx[e1 e2].
  by rewrite -{1}[A2]submxK -e1 -e2 -{1}A2T -trmx_dlsub -e2 trmx0.
have A3T : (drsubmx A2)^T = drsubmx A2 by rewrite trmx_drsub A2T.
have [O3 [d3 [HO3 E3]]] := IH _ A3T.
pose D : 'rV[F]_(1 + n) := row_mx lam%:M d3; pose P3 : 'M[F]_(1 + n) := block_mx 1%:M 0 0 O3.
have ED : diag_mx D = block_mx lam%:M 0 0 (diag_mx d3).
  by rewrite diag_mx_row; congr block_mx; apply/matrixP=> i j; rewrite !ord1 !mxE.
have E4 : A2 = P3 *m diag_mx D *m P3^T.
  by rewrite ED tr_block_mx !mulmx_block !trmx0 trmx1 !(mul0mx, mulmx0, addr0, add0r, mul1mx, mulmx1) -E3.
exists (H *m P3), D; split; first by apply: orthogonalM => //; exact: orthogonal_block.
have -> : A = H *m A2 *m H^T by rewrite /A2 !mulmxA (orthogonalC HH) mul1mx -mulmxA (orthogonalC HH) mulmx1.
by rewrite E4 trmx_mul !mulmxA.
Qed.

(** ** singular values *)
Definition sdiag m n (s : nat -> F) : 'M[F]_(m, n) := \matrix_(i, j) (if i == j :> nat then s i else 0).
Theorem svd_exists m n (A : 'M[F]_(m, n)) : exists U s V, [/\ orthogonal U, orthogonal V, A = U *m sdiag m n s *m V &
  forall i j, (i < j)%N -> s i = 0 -> s j = 0].
Proof.
have Triv m' n' : exists U s V, [/\ orthogonal U, orthogonal V, (0 : 'M[F]_(m', n')) = U *m sdiag m' n' s *m V &
    forall i j, (i < j)%N -> s i = 0 -> s j = 0].
  exists 1%:M, (fun=> 0), 1%:M; split; [exact: orthogonal1 | exact: orthogonal1 | | by []].
  rewrite mulmx1 mul1mx; by apply/matrixP=> i j; rewrite !mxE if_same.
elim: m n A => [|m IH] n A; first by rewrite (_ : A = 0) //; apply/matrixP=> -[].
case: n A => [|n] A; first by rewrite (_ : A = 0) //; apply/matrixP=> i [].
change ('M[F]_(1 + m, 1 + n)) in A.
case: (altP (A =P 0)) => [->|A0]; first exact: Triv.
pose S := A^T *m A; have ST : S^T = S by rewrite /S trmx_mul trmxK.
have [O [d [HO ES]]] := spectral ST.
have S0 : S != 0.
  apply: contra A0 => /eqP/matrixP E; apply/eqP/matrixP=> i j; rewrite [RHS]mxE.
  have := E j j; rewrite !mxE => H; apply: (@sumsq0 _ (fun k => A k j)); rewrite -[RHS]H.
  by apply: eq_bigr => k _; rewrite mxE.
have [k dk] : exists k, d 0 k != 0.
  case: (pickP (fun k => d 0 k != 0)) => [k|H]; first by exists k.
  case/eqP: S0; rewrite ES (_ : d = 0) ?linear0 ?mulmx0 ?mul0mx //.
  by apply/matrixP=> i j; rewrite ord1 mxE; apply/eqP; rewrite -[_ == _]negbK H.
pose v := col k O; pose lam := d 0 k.
have vn : nrm v = 1.
  have : (O^T *m O) k k = 1 by rewrite HO mxE eqxx.
  by rewrite mxE => <-; apply: eq_bigr => i _; rewrite !mxE.
have Sv : S *m v = lam *: v.
  have : S *m O = O *m diag_mx d by rewrite ES -mulmxA HO mulmx1.
  move/(congr1 (col k)); rewrite [col k (S *m O)]colE -mulmxA -colE => ->.
  by apply/matrixP=> i j; rewrite mul_mx_diag !mxE mulrC.
have AvE : nrm (A *m v) = lam.
  have : (A *m v)^T *m (A *m v) = lam%:M by rewrite trmx_mul -mulmxA (mulmxA A^T) Sv -scalemxAr nrmE vn scalemx1.
  by rewrite nrmE => /matrixP/(_ 0 0); rewrite !mxE eqxx !mulr1n.
have lam0 : Rlt R0 lam.
  case: (Rle_lt_or_eq_dec R0 lam) => //; first by rewrite -AvE; exact: nrm_ge0.
  by move=> E; case/eqP: dk; rewrite -/lam -E.
pose s := sqrt lam; have s0 : Rlt 0 s by exact: sqrt_lt_R0.
have ss : (s : F) * s = lam by exact: sqrt_sqrt (Rlt_le _ _ lam0).
have sn : (s : F) != 0 by apply/eqP => E; rewrite E in s0; exact: Rlt_irrefl s0.
pose u := (s : F)^-1 *: (A *m v).
have un : nrm u = 1 by rewrite nrmZ AvE -ss mulrACA mulVf // mulr1.
have Av : A *m v = (s : F) *: u by rewrite /u scalerA divff // scale1r.
have Atu : A^T *m u = (s : F) *: v by rewrite /u -scalemxAr mulmxA Sv scalerA -ss mulrA mulVf // mul1r.
have [H1 HH1 E1] := householder un; have [H2 HH2 E2] := householder (vn : nrm (v : 'cV_(1 + n)) = 1).
pose A2 := H1^T *m A *m H2.
have C : A2 *m e0 n = (s : F) *: e0 m by rewrite /A2 -mulmxA E2 -mulmxA Av -scalemxAr -E1 mulmxA HH1 mul1mx.
have T : A2^T *m e0 m = (s : F) *: e0 n.
  by rewrite /A2 !trmx_mul trmxK -!mulmxA E1 Atu -scalemxAr -E2 mulmxA HH2 mul1mx.
have EA2 : A2 = block_mx (s : F)%:M 0 0 (drsubmx A2).
  have : A2 *m e0 n = col_mx (ulsubmx A2) (dlsubmx A2) by rewrite -{1}[A2]submxK /e0 mul_block_col !mulmx1 !mulmx0 !addr0.
  rewrite C /e0 scale_col_mx scaler0 scalemx1 => /eq_col_mx[e1 e2].
  have : A2^T *m e0 m = col_mx (ulsubmx A2)^T (ursubmx A2)^T.
    by rewrite -{1}[A2]submxK tr_block_mx /e0 mul_block_col !mulmx1 !mulmx0 !addr0.
  rewrite T /e0 scale_col_mx scaler0 scalemx1 => /eq_col_mx[_ e3].
  by rewrite -{1}[A2]submxK -e1 -e2 -[ursubmx _]trmxK -e3 trmx0.
have [U [s3 [V [HU HV E3 M3]]]] := IH _ (drsubmx A2).
pose U3 : 'M[F]_(1 + m) := block_mx 1%:M 0 0 U; pose V3 : 'M[F]_(1 + n) := block_mx 1%:M 0 0 V.
pose s4 i : F := if i is j.+1 then s3 j else s.
have ED : (sdiag (1 + m) (1 + n) s4) = block_mx (s : F)%:M 0 0 (sdiag m n s3).
  apply/matrixP=> i j; rewrite [LHS]mxE.
  case: (splitP i) => [i' Ei|i' Ei]; case: (splitP j) => [j' Ej|j' Ej].
  - have -> : i = lshift m i' by apply: val_inj.
    have -> : j = lshift n j' by apply: val_inj.
    by rewrite block_mxEul !ord1 !mxE eqxx mulr1n.
  - have -> : i = lshift m i' by apply: val_inj.
    have -> : j = rshift 1 j' by apply: val_inj.
    by rewrite block_mxEur !ord1 !mxE.
  - have -> : i = rshift 1 i' by apply: val_inj.
    have -> : j = lshift n j' by apply: val_inj.
    by rewrite block_mxEdl !ord1 !mxE.
  - have -> : i = rshift 1 i' by apply: val_inj.
    have -> : j = rshift 1 j' by apply: val_inj.
    by rewrite block_mxEdr !mxE /= !add1n eqSS.
have E4 : A2 = U3 *m sdiag (1 + m) (1 + n) s4 *m V3.
  by rewrite ED !mulmx_block !(mul0mx, mulmx0, addr0, add0r, mul1mx, mulmx1) -E3.
exists (H1 *m U3), s4, (V3 *m H2^T); split.
- by apply: orthogonalM => //; exact: orthogonal_block.
- by apply: orthogonalM (orthogonalT HH2); exact: orthogonal_block.
- have -> : A = H1 *m A2 *m H2^T by rewrite /A2 !mulmxA (orthogonalC HH1) mul1mx -mulmxA (orthogonalC HH2) mulmx1.
  by rewrite E4 !mulmxA.
by move=> [|i] [|j] //= lt; [move=> E; case/eqP: sn | exact: M3].
Qed.
