(** * LinOpThm: the operator lemmas in the form used by PropLinOp. *)
From mathcomp Require Import all_ssreflect all_algebra.
From mathcomp Require Import zify.
From Verif Require Import Np NpLemmas Spec SpecLemmas LinOp LinOpSpec LinOpProofs LinOpMM LinOpMore LinOpInv Cplx.
Set Implicit Arguments.
Unset Strict Implicit.
Unset Printing Implicit Defensive.
Import GRing.Theory.
Local Open Scope ring_scope.

Section T.
Variable R : comRingType.
Variable conj : R -> R.
Implicit Types (A B : op R) (Ms : seq (op R)).

Lemma plain_supp A : plain A -> supp true A.
Proof.
have L Ms : AllP (fun A => plain A -> supp true A) Ms -> all (@plain R) Ms -> all (supp true) Ms.
  by elim: Ms => //= M Ms IH [H1 H2] /andP[/H1 -> /(IH H2)].
elim/op_rect': A => //; try by move=> Ms IH; exact: (L Ms IH).
- by move=> Ms c IH; exact: (L Ms IH).
- by move=> m n Ms c pre post IH; exact: (L Ms IH).
- by move=> A B IA IB /= /andP[/IA -> /IB ->].
- by move=> A B IA IB /= /andP[/IA -> /IB ->].
Qed.

Lemma matmul_lem A K X : wf A -> plain A -> size X = (cols A * K)%N ->
  matmat conj A K X = Ok (flat (fmul (den A) (unflat (cols A) K X))).
Proof.
move=> W P S; have [H _] := mm_ok conj W; have [_ Ec] := shape_den W.
by rewrite /matmat H ?Ec // ?plain_supp //; [left | rewrite -Ec].
Qed.

Lemma shape_lem A : wf A -> shape A = (fr (den A), fc (den A)).
Proof. by move=> /shape_den[<- <-]; rewrite /rows /cols; case: (shape A). Qed.

Lemma todense_lem A : wf A -> plain A -> dsum_ne A ->
  to_dense conj A = Ok (fr (den A), fc (den A), flat (den A)) /\
  matmat conj A (cols A) (eye R (cols A)) = Ok (flat (den A)).
Proof.
move=> W P N; split.
  by rewrite (to_dense_ok W) ?plain_supp //; left.
rewrite matmul_lem ?size_mkseq //; congr Ok; have [_ Ec] := shape_den W; rewrite Ec.
apply: flat_meq; apply: meq_trans (meq_fmul (meq_refl _) (unflat_flat (fid R (fc (den A)))) _) _ => //.
exact: fmul_id_r.
Qed.

Section Real.
Hypothesis Hc : forall x, conj x = x.

Lemma transpose_lem A K X : wf A -> supp false A -> size X = (rows A * K)%N ->
  matmat conj (transpose A) K X = Ok (flat (fmul (ftr (den A)) (unflat (rows A) K X))).
Proof.
move=> W S SX; have [Er Ec] := shape_den W.
have [WT MT RT CT ST] := transpose_ok W; have [H _] := mm_ok conj WT.
have := H _ (or_intror Hc); rewrite ST => /(_ S) HT; have {}HT := acts_meq MT HT.
by rewrite /matmat HT /= -?Er.
Qed.

Lemma transposeK_lem A K X : is_op A -> wf A -> supp true A -> size X = (cols A * K)%N ->
  matmat conj (transpose (transpose A)) K X = matmat conj A K X /\
  matmat conj A K X = Ok (flat (fmul (den A) (unflat (cols A) K X))).
Proof.
move=> O W S SX; have [Er Ec] := shape_den W.
have ET : transpose A = OTrans A by case: (A) O.
have WT : wf (transpose A) by have [] := transpose_ok W.
have [H _] := mm_ok conj W; have HA := H S (or_intror Hc).
split; last by rewrite /matmat HA ?Ec -?Ec.
have CT : rows (transpose A) = cols A by have [] := transpose_ok W.
rewrite transpose_lem // ?CT //; last by rewrite ET.
rewrite /matmat HA -?Ec //; congr Ok; apply: flat_meq; apply: meq_fmul; try exact: meq_refl.
  by rewrite ET; split.
by rewrite ET /= Ec.
Qed.

Lemma adjoint_lem A : is_op A -> wf A -> supp false A ->
  exists B, adjoint conj A = Ok B /\
    forall K X, size X = (rows A * K)%N ->
      matmat conj B K X = Ok (flat (fmul (ftr (den A)) (unflat (rows A) K X))).
Proof.
move=> O W S; have [B E] := adjoint_ex Hc O W S; exists B; split=> // K X SX.
have [OB WB MB SB PB] := adjoint_ok Hc W E.
have [H _] := mm_ok conj WB; have HB := acts_meq MB (H (PB S) (or_intror Hc)).
by have [Er Ec] := shape_den W; rewrite /matmat HB /= -?Er.
Qed.

Lemma concatT_lem Ms K X : wf (OConcat Ms) -> all (supp false) Ms -> K != 1%N ->
  size X = (rows (OConcat Ms) * K)%N ->
  matmat conj (transpose (OConcat Ms)) K X =
  Ok (flat (fmul (ftr (den (OConcat Ms))) (unflat (rows (OConcat Ms)) K X))).
Proof.
move=> W S K1 SX.
rewrite /matmat -[LHS]/(if size X != (cols (OTrans (OConcat Ms)) * K)%N then _ else _).
rewrite SX eqxx -[LHS]/(rmap (map conj) (mm conj false (OConcat Ms) K (map conj X))).
by rewrite map_conj_id // concatT_ok //= map_conj_id.
Qed.
End Real.

Lemma raises_lem :
  [/\ forall Ms c K X, size X = (rows (ODsum Ms c) * K)%N ->
        matmat conj (transpose (ODsum Ms c)) K X = Err TypeError,
      forall Ms c, adjoint conj (ODsum Ms c) = Err TypeError,
      forall n k K X, size X = (n * n * K)%N ->
        matmat conj (transpose (ORot90 R n k)) K X =
        Err (if K == 0%N then ValueError else NotImplementedError) &
      forall Ms X, size X = rows (OConcat Ms) ->
        matmat conj (transpose (OConcat Ms)) 1 X = Err NotImplementedError].
Proof.
split.
- move=> Ms c K X S; rewrite /matmat -[LHS]/(if size X != (rows (ODsum Ms c) * K)%N then _ else _).
  rewrite S eqxx -[LHS]/(rmap (map conj) (if size (map conj X) != (rows (ODsum Ms c) * K)%N then _ else _)).
  by rewrite size_map S eqxx.
- by [].
- move=> n k K X S; rewrite /matmat -[LHS]/(if size X != (n * n * K)%N then _ else _).
  rewrite S eqxx -[LHS]/(rmap (map conj) (if size (map conj X) != (n * n * K)%N then _ else _)).
  by rewrite size_map S eqxx /=; case: ifP.
- move=> Ms X S; have {}S : size X = (rows (OConcat Ms) * 1)%N by rewrite muln1.
  rewrite /matmat -[LHS]/(if size X != (rows (OConcat Ms) * 1)%N then _ else _).
  rewrite S eqxx -[LHS]/(rmap (map conj) (if size (map conj X) != (rows (OConcat Ms) * 1)%N then _ else _)).
  by rewrite size_map S eqxx.
Qed.

Lemma wrong_height_lem A K X : is_op A -> size X != (cols A * K)%N ->
  matmat conj A K X = Err ValueError.
Proof. by case: A => //= *; rewrite /matmat /= ifT. Qed.

Lemma wrong_shapes_lem A B :
  [/\ shape A <> shape B -> mkSum A B = Err ValueError,
      cols A <> rows B -> mkProd A B = Err ValueError,
      rows A <> cols A -> forall p, mkPow A p = Err ValueError,
      is_op A -> is_op B -> shape A = shape B -> mkSum A B = Ok (OSum A B) &
      is_op A -> is_op B -> cols A = rows B -> mkProd A B = Ok (OProd A B)].
Proof.
split.
- by rewrite /mkSum => /eqP H; rewrite H; case: ifP.
- by rewrite /mkProd => /eqP H; rewrite H; case: ifP.
- by rewrite /mkPow => /eqP H p; rewrite H; case: ifP.
- by move=> OA OB E; rewrite /mkSum OA OB E eqxx.
- by move=> OA OB E; rewrite /mkProd OA OB E eqxx.
Qed.

Lemma result_size_lem A K X : wf A -> plain A -> size X = (cols A * K)%N ->
  exists Y, matmat conj A K X = Ok Y /\ size Y = (rows A * K)%N.
Proof.
move=> W P S; rewrite matmul_lem //; eexists; split; first by [].
by rewrite size_flat /=; have [-> _] := shape_den W.
Qed.
End T.

Section Inv.
Variable R : comRingType.

Lemma invT_lem (sinv : R -> R) (linv : nat -> seq R -> seq R) (good : nat -> seq R -> bool) :
  (forall n D, good n D ->
     [/\ size (linv n D) = (n * n)%N,
         meq (fmul (unflat n n D) (unflat n n (linv n D))) (fid R n) &
         meq (fmul (unflat n n (linv n D)) (unflat n n D)) (fid R n)]) ->
  forall A, wf A -> invable good A ->
  exists B, [/\ invT sinv linv A = Ok B, wf B, shape B = shape A & is_invT (den A) (den B)].
Proof.
move=> H A W I; have [B [E O WB SB V]] := invT_ok sinv H W I.
by exists B; split=> //; apply: invTn_is V.
Qed.

Lemma invT_raises_lem (sinv : R -> R) linv :
  [/\ forall Ms Bs c, mapM (invT sinv linv) Ms = Ok Bs ->
        invT sinv linv (ODsum Ms c) = Err TypeError,
      forall m n D Ms, invT sinv linv (OKron (OArr m n D :: Ms)) = Err AttributeError &
      forall Ms, invT sinv linv (OConcat Ms) = Err AttributeError].
Proof. by split=> // Ms Bs c H /=; rewrite -[sequence _]/(mapM (invT sinv linv) Ms) H. Qed.
End Inv.
