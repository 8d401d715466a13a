(** * MxBridge: flat arrays and entry functions as mathcomp matrices, for proofs. *)
From mathcomp Require Import all_ssreflect all_algebra.
From Verif Require Import Np NpLemmas Spec SpecLemmas LinOp SolSpec.
Set Implicit Arguments.
Unset Strict Implicit.
Unset Printing Implicit Defensive.
Import GRing.Theory.
Local Open Scope ring_scope.

Section Bridge.
Variable R : comRingType.
Implicit Types (X Y : seq R) (A B : fmat R).

Definition mxf m n A : 'M[R]_(m, n) := \matrix_(i, j) fe A i j.
Definition toM m n X : 'M[R]_(m, n) := mxf m n (unflat m n X).
Definition ofM m n (A : 'M[R]_(m, n)) : seq R :=
  mkseq (fun t => if insub (t %/ n)%N is Some i then (if insub (t %% n)%N is Some j then A i j else 0) else 0) (m * n).

Lemma mxf_meq m n A B : meq A B -> fr A = m -> fc A = n -> mxf m n A = mxf m n B.
Proof. by case=> _ _ H <- <-; apply/matrixP=> i j; rewrite !mxE H. Qed.
Lemma meq_mxf A B : fr A = fr B -> fc A = fc B -> mxf (fr A) (fc A) A = mxf (fr A) (fc A) B -> meq A B.
Proof. by move=> Hr Hc /matrixP H; split=> // i j Hi Hj; have := H (Ordinal Hi) (Ordinal Hj); rewrite !mxE. Qed.
Lemma mxf_mul m n k A B : fc A = k -> mxf m n (fmul A B) = mxf m k A *m mxf k n B.
Proof.
move=> E; apply/matrixP=> i j; rewrite !mxE /= E big_mkord.
by apply: eq_bigr => l _; rewrite !mxE.
Qed.
Lemma mxf_tr m n A : mxf m n (ftr A) = (mxf n m A)^T.
Proof. by apply/matrixP=> i j; rewrite !mxE. Qed.
Lemma mxf_id n : mxf n n (fid R n) = 1%:M.
Proof. by apply/matrixP=> i j; rewrite !mxE. Qed.
Lemma mxf_zero m n : mxf m n (fzero R m n) = 0.
Proof. by apply/matrixP=> i j; rewrite !mxE. Qed.
Lemma mxf_add m n A B : mxf m n (fadd A B) = mxf m n A + mxf m n B.
Proof. by apply/matrixP=> i j; rewrite !mxE. Qed.
Lemma mxf_scale m n a A : mxf m n (fscale a A) = a *: mxf m n A.
Proof. by apply/matrixP=> i j; rewrite !mxE. Qed.
Lemma toM_flat m n A : fr A = m -> fc A = n -> toM m n (flat A) = mxf m n A.
Proof. by move=> <- <-; apply: mxf_meq => //; apply: unflat_flat. Qed.
Lemma toME m n X i j : toM m n X i j = nth 0 X (i * n + j)%N.
Proof. by rewrite !mxE. Qed.
Lemma toM_inj m n X Y : size X = (m * n)%N -> size Y = (m * n)%N -> toM m n X = toM m n Y -> X = Y.
Proof.
move=> sX sY E; rewrite -(flat_unflat sX) -(flat_unflat sY); apply: flat_meq.
by apply: meq_mxf.
Qed.
Lemma size_ofM m n (A : 'M[R]_(m, n)) : size (ofM A) = (m * n)%N. Proof. exact: size_mkseq. Qed.
Lemma toM_ofM m n (A : 'M[R]_(m, n)) : toM m n (ofM A) = A.
Proof.
apply/matrixP=> i j; rewrite toME nth_mkseq ?idx_lt // idx_div // idx_mod //.
by rewrite !valK.
Qed.

Lemma toM_matmul m n k X Y : toM m k (matmul m n k X Y) = toM m n X *m toM n k Y.
Proof.
apply/matrixP=> i j; rewrite toME /matmul nth_mkseq ?idx_lt // idx_div // idx_mod // rsumE big_mkord.
by rewrite [RHS]mxE; apply: eq_bigr => l _; rewrite !toME.
Qed.
Lemma size_matmul m n k X Y : size (matmul m n k X Y) = (m * k)%N. Proof. exact: size_mkseq. Qed.
Lemma size_vadd X Y : size X = size Y -> size (vadd X Y) = size X.
Proof. by move=> E; rewrite size_map size_zip E minnn. Qed.
Lemma size_vscale a X : size (vscale a X) = size X. Proof. exact: size_map. Qed.
Lemma toM_vadd m n X Y : size X = (m * n)%N -> size Y = (m * n)%N -> toM m n (vadd X Y) = toM m n X + toM m n Y.
Proof.
move=> sX sY; apply/matrixP=> i j; rewrite [RHS]mxE !toME (nth_map (0, 0)) ?size_zip ?sX ?sY ?minnn ?idx_lt //.
by rewrite nth_zip ?sX ?sY.
Qed.
Lemma toM_vscale m n a X : size X = (m * n)%N -> toM m n (vscale a X) = a *: toM m n X.
Proof. by move=> sX; apply/matrixP=> i j; rewrite [RHS]mxE !toME (nth_map 0) // sX idx_lt. Qed.
Lemma toM_nseq0 m n k : toM m n (nseq k 0) = 0.
Proof. by apply/matrixP=> i j; rewrite toME mxE nth_nseq if_same. Qed.
Lemma toM_tr2 m n X : toM n m (tr2 0 m n X) = (toM m n X)^T.
Proof. by apply/matrixP=> i j; rewrite [RHS]mxE !toME nth_tr2. Qed.

Lemma matvec_matmul m n (D v : seq R) : matvec m n D v = matmul m n 1 D v.
Proof.
have E : toM m 1 (matvec m n D v) = toM m n D *m toM n 1 v.
  by rewrite toM_flat // (@mxf_mul _ _ n).
by apply: (@toM_inj m 1); rewrite ?size_matmul ?toM_matmul // /matvec size_flat.
Qed.

Lemma col_mulm m n k (A : 'M[R]_(m, n)) (B : 'M[R]_(n, k)) j : col j (A *m B) = A *m col j B.
Proof. by rewrite !colE mulmxA. Qed.

(** null_basis over scalars with trivial conjugation, in terms of matrices *)
Lemma null_basisP (conj : R -> R) m n (D : seq R) k (Q : seq R) : (forall x, conj x = x) ->
  null_basis conj m n D k Q <->
  [/\ size Q = (n * k)%N, (toM n k Q)^T *m toM n k Q = 1%:M &
      forall x : 'cV[R]_n, toM m n D *m x = 0 <-> toM n k Q *m (toM n k Q)^T *m x = x].
Proof.
move=> Hc; rewrite /null_basis; set Qm := unflat n k Q; set QH := ftr _.
have eH : mxf k n QH = (toM n k Q)^T by apply/matrixP=> i j; rewrite !mxE /= Hc.
have eO : meq (fmul QH Qm) (fid R k) <-> (toM n k Q)^T *m toM n k Q = 1%:M.
  rewrite -eH -mxf_mul // -mxf_id; split=> [H|E]; first exact: mxf_meq.
  exact: meq_mxf.
have eD v : size v = n -> (matvec m n D v = nseq m 0 <-> toM m n D *m toM n 1 v = 0).
  move=> sv; rewrite matvec_matmul -toM_matmul -(toM_nseq0 m 1 m); split=> [-> //|].
  by apply: toM_inj; rewrite ?size_matmul ?size_nseq ?muln1.
have eP v : size v = n -> (matvec n n (flat (fmul Qm QH)) v = v <-> toM n k Q *m (toM n k Q)^T *m toM n 1 v = toM n 1 v).
  move=> sv; have -> : toM n k Q *m (toM n k Q)^T = toM n n (flat (fmul Qm QH)) by rewrite toM_flat // (@mxf_mul _ _ k) // eH.
  rewrite matvec_matmul -toM_matmul; split=> [-> //|].
  by apply: toM_inj; rewrite ?size_matmul ?muln1.
split=> [[H1 H2 H3]|[H1 H2 H3]]; split=> //; try exact/eO.
- move=> x; rewrite -{1 2}(toM_ofM x) -eD ?size_ofM ?muln1 // H3 ?size_ofM ?muln1 // eP ?size_ofM ?muln1 //.
  by rewrite toM_ofM.
- by move=> v sv; rewrite eD // H3 eP.
Qed.
End Bridge.
