(** * DimAlg: the number of columns of a basis of a space of real vectors, from points that
    determine the vectors of the space. *)
From Coq Require Import Reals.
From mathcomp Require Import all_ssreflect all_algebra.
From Verif Require Import Np NpLemmas Spec SpecLemmas LinOp LinOpSpec Rep SolSpec MxBridge Rstruct RField Expm.
Set Implicit Arguments.
Unset Strict Implicit.
Unset Printing Implicit Defensive.
Import GRing.Theory.
Local Open Scope ring_scope.

Lemma inj_min m k (T : 'M[RR]_(m, k)) : (forall w : 'cV_k, T *m w = 0 -> w = 0) -> (k <= m)%N.
Proof.
move=> H; pose T' : 'M[R_fieldType]_(m, k) := T.
have : row_free T'^T.
  rewrite -kermx_eq0; apply/eqP/row_matrixP => i; rewrite row0.
  have E : row i (kermx T'^T) *m T'^T = 0 by rewrite -row_mul mulmx_ker row0.
  have : (row i (kermx T'^T))^T = 0 by apply: H; apply: trmx_inj; rewrite trmx_mul trmxK E trmx0.
  by move/(congr1 trmx); rewrite trmxK trmx0.
by rewrite /row_free => /eqP <-; exact: rank_leq_col.
Qed.

Section Points.
Variables (N k : nat) (Q : seq RR) (U : seq RR -> Prop) (xs : seq nat).
Hypothesis HQ : meq (fmul (ftr (unflat N k Q)) (unflat N k Q)) (fid RR k).
Hypothesis HU : forall v, size v = N -> U v <-> exists2 w, size w = k & matvec N k Q w = v.
Hypothesis Hx : forall x, x \in xs -> (x < N)%N.
Local Notation m := (size xs).
Let Qm : 'M[RR]_(N, k) := toM N k Q.
Let S : 'M[RR]_(m, N) := \matrix_(i, l) (l == nth 0%N xs i :> nat)%:R.
Lemma SE (A : 'cV[RR]_N) i (H : (nth 0%N xs i < N)%N) (Hi : (i < m)%N) : (S *m A) (Ordinal Hi) 0 = A (Ordinal H) 0.
Proof.
rewrite mxE (bigD1 (Ordinal H)) //= mxE eqxx mul1r big1 ?addr0 // => l ne.
by rewrite mxE (negbTE ne : (l == nth 0%N xs i :> nat) = false) mul0r.
Qed.
Lemma matvecM w : toM N 1 (matvec N k Q w) = Qm *m toM k 1 w.
Proof. by rewrite matvec_matmul toM_matmul. Qed.
Lemma points_ge : (forall j, (j < m)%N -> exists2 v, size v = N & U v /\ forall i, (i < m)%N -> nth 0 v (nth 0%N xs i) = (i == j)%:R) ->
  (m <= k)%N.
Proof.
move=> H; have C (j : 'I_m) : exists w : 'cV[RR]_k, forall i : 'I_m, (S *m (Qm *m w)) i 0 = (i == j)%:R.
  have [v sv [/HU-/(_ sv)[w sw Ew] Hv]] := H j (ltn_ord j); exists (toM k 1 w) => -[i Hi].
  have Hn : (nth 0%N xs i < N)%N by apply: Hx; exact: mem_nth.
  by rewrite (SE _ Hn) -matvecM Ew toME muln1 addn0 Hv.
have [W HW] := fin_all_exists C; pose WM : 'M[RR]_(k, m) := \matrix_(i, j) W j i 0.
apply: (@mulmx1_min _ _ _ (S *m Qm) WM); apply/matrixP=> i j; rewrite [RHS]mxE -HW -mulmxA.
have -> : W j = col j WM by apply/matrixP=> a b; rewrite ord1 !mxE.
by rewrite -!col_mulm [RHS]mxE.
Qed.
Lemma points_le : (forall v, size v = N -> U v -> (forall x, x \in xs -> nth 0 v x = 0) -> forall i, (i < N)%N -> nth 0 v i = 0) ->
  (k <= m)%N.
Proof.
move=> H; apply: (@inj_min m k (S *m Qm)) => w Hw.
have QQ : Qm^T *m Qm = 1%:M by rewrite -(mxf_id RR k) -(mxf_meq HQ) // (@mxf_mul _ _ _ N) // mxf_tr.
pose v := matvec N k Q (ofM w).
have sv : size v = N by rewrite /v matvec_matmul size_matmul muln1.
have Ev : toM N 1 v = Qm *m w by rewrite /v matvecM toM_ofM.
suff Q0 : Qm *m w = 0 by rewrite -[w]mul1mx -QQ -mulmxA Q0 mulmx0.
have Z i : (i < N)%N -> nth 0 v i = 0.
  apply: H => //; first by apply/HU => //; exists (ofM w) => //; rewrite size_ofM muln1.
  move=> x Hxs; have Hi : (index x xs < m)%N by rewrite index_mem.
  have Hn : (nth 0%N xs (index x xs) < N)%N by rewrite nth_index // Hx.
  have := SE (Qm *m w) Hn Hi; rewrite mulmxA Hw mxE -Ev toME muln1 addn0 /= nth_index //.
by rewrite -Ev; apply/matrixP=> i j; rewrite ord1 toME muln1 addn0 Z ?mxE.
Qed.
Lemma points_eq :
  (forall j, (j < m)%N -> exists2 v, size v = N & U v /\ forall i, (i < m)%N -> nth 0 v (nth 0%N xs i) = (i == j)%:R) ->
  (forall v, size v = N -> U v -> (forall x, x \in xs -> nth 0 v x = 0) -> forall i, (i < N)%N -> nth 0 v i = 0) ->
  k = m.
Proof. by move=> H1 H2; apply/eqP; rewrite eqn_leq points_le // points_ge. Qed.
End Points.
