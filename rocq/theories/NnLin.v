(** * NnLin: the linear layers. *)
From mathcomp Require Import all_ssreflect all_algebra.
From mathcomp Require Import zify.
From Verif Require Import Np NpLemmas Spec SpecLemmas LinOp LinOpSpec LinOpProofs Rep RepSpec RepMat RepWf RepFun RepOps RhoProofs RepThm RepThm1 Solver SolSpec SolAlg Nn NnSpec.
Set Implicit Arguments.
Unset Strict Implicit.
Unset Printing Implicit Defensive.
Import GRing.Theory.
Local Open Scope ring_scope.

Section L.
Variable R : comRingType.
Variables (conj sinv : R -> R) (linv : nat -> seq R -> seq R).
Variables (crho cdrho : nat -> option gid -> gel R -> res (op R)).
Variables (gdim : gid -> nat) (gorth : gid -> bool) (csize : nat -> gid -> nat) (le : rel rep) (g : gid).
Variables (gens lies : gid -> seq (op R)).
Variables (svd : nat -> nat -> seq R -> seq R * seq R * seq R) (big : pred R).
Variable krylov : op R -> res (darr R).
Variable E : gel R -> Prop.
Local Notation gs := (pred1 g).
Local Notation sz := (rsize gdim csize).
Local Notation key := (key gdim csize le gs).
Local Notation wfr := (wfr gdim csize le gs).
Local Notation rho_dense := (rho_dense conj sinv linv crho).
Local Notation group_elem := (group_elem conj sinv linv crho gdim csize gs).
Local Notation orth_elem := (orth_elem crho gdim csize gorth gs).
Local Notation arho := (arho sinv linv crho).
Local Notation tr := (tr gdim gorth csize le).
Local Notation mul := (mul gdim csize le).
Local Notation projector := (projector conj sinv linv crho cdrho gdim csize le gens lies svd big krylov).
Local Notation matmat := (matmat conj).
Local Notation acts_rows := (acts_rows conj sinv linv crho gdim csize).
Local Notation equivariant := (equivariant conj sinv linv crho gdim csize E).
Local Notation mk_linear := (mk_linear conj sinv linv crho cdrho gdim gorth csize le gens lies svd big krylov).
Hypothesis O : total_order_on key le.
Hypothesis HE : forall M, E M -> group_elem M.
Hypothesis HO : forall M, E M -> orth_elem M.

Lemma rok r M : wfr r -> E M -> rho_dense r M = Ok (sz r, sz r, flat (rmat (arho M) r)).
Proof. by move=> W /HE HM; exact: (rho_dense_ok HM W). Qed.
Lemma urm r M : wfr r -> E M -> meq (unflat (sz r) (sz r) (flat (rmat (arho M) r))) (rmat (arho M) r).
Proof. by move=> W /HE HM; exact: (unflat_rmat HM W). Qed.

Definition rM (r : rep) (M : gel R) : fmat R := rmat (arho M) r.
Definition rv (n : nat) (X : seq R) (b : nat) (j : nat) : R := nth 0 X (b * n + j)%N.

Lemma rM_sqn r M : wfr r -> E M -> sqn (sz r) (rM r M).
Proof. by move=> W HM; exact: (rmat_kok (HE HM) W). Qed.

Lemma acts_rowsE r Ms bs X Y : wfr r -> (forall b, (b < bs)%N -> E (Ms b)) ->
  acts_rows r Ms bs X Y <->
  [/\ size X = (bs * sz r)%N, size Y = (bs * sz r)%N &
    forall b i, (b < bs)%N -> (i < sz r)%N -> rv (sz r) Y b i = mv (rM r (Ms b)) (rv (sz r) X b) i].
Proof.
move=> W HM.
have K b : (b < bs)%N -> rho_dense r (Ms b) = Ok (sz r, sz r, flat (rM r (Ms b))).
  by move=> Hb; apply: rok => //; exact: HM.
have Q b i j : (b < bs)%N -> (i < sz r)%N -> (j < sz r)%N -> nth 0 (flat (rM r (Ms b))) (i * sz r + j)%N = fe (rM r (Ms b)) i j.
  by move=> Hb Hi Hj; have [h1 h2] := rM_sqn W (HM b Hb); rewrite -{1}h2 nth_flat ?h1 ?h2.
split; case=> s1 s2 H; split=> // b.
  move=> i Hb Hi; have [D] := H b Hb; rewrite K // => -[<-] /(_ i Hi); rewrite /rv => ->.
  rewrite /mv; have [h1 h2] := rM_sqn W (HM b Hb); rewrite h2; apply: eq_sum => j Hj; by rewrite Q.
move=> Hb; exists (flat (rM r (Ms b))); first exact: K.
move=> i Hi; have := H b i Hb Hi; rewrite /rv => ->.
rewrite /mv; have [h1 h2] := rM_sqn W (HM b Hb); rewrite h2; apply: eq_sum => j Hj; by rewrite Q.
Qed.

(** the rows of the image exist *)
Lemma acts_ex r Ms bs X : wfr r -> (forall b, (b < bs)%N -> E (Ms b)) -> size X = (bs * sz r)%N ->
  exists Y, acts_rows r Ms bs X Y.
Proof.
move=> W HM S.
exists (mkseq (fun t => mv (rM r (Ms (t %/ sz r)%N)) (rv (sz r) X (t %/ sz r)) (t %% sz r)) (bs * sz r)).
apply/acts_rowsE => //; split=> //; first by rewrite size_mkseq.
by move=> b i Hb Hi; rewrite {1}/rv nth_mkseq ?idx_lt // idx_div // idx_mod.
Qed.

(** ** row-wise functions *)
Definition rowwise (nin nout : nat) (f : nat -> seq R -> res (seq R)) (F : (nat -> R) -> nat -> R) : Prop :=
  forall bs X, size X = (bs * nin)%N -> exists2 Y, f bs X = Ok Y &
    size Y = (bs * nout)%N /\ forall b i, (b < bs)%N -> (i < nout)%N -> rv nout Y b i = F (rv nin X b) i.

Lemma rowwise_equivariant a b f F : wfr a -> wfr b -> rowwise (sz a) (sz b) f F ->
  (forall M x y i, E M -> (forall j, (j < sz a)%N -> y j = mv (rM a M) x j) -> (i < sz b)%N ->
     F y i = mv (rM b M) (F x) i) -> equivariant a b f.
Proof.
move=> Wa Wb Hf HF bs Ms X X' HM HX.
have [s1 s2 HX'] := (proj1 (acts_rowsE _ _ Wa HM)) HX.
have [Y EY [SY RY]] := Hf bs X s1; have [Y' EY' [SY' RY']] := Hf bs X' s2.
exists Y, Y'; split=> //; apply/acts_rowsE => //; split=> // k i Hk Hi.
rewrite RY' //; have -> := HF (Ms k) (rv (sz a) X k) (rv (sz a) X' k) i (HM k Hk) _ Hi.
  by apply: mv_ext => j; have [h1 h2] := rM_sqn Wb (HM k Hk); rewrite h2 => Hj; rewrite RY.
by move=> j Hj; apply: HX'.
Qed.

Lemma rowwise_comp n1 n2 n3 f F h H : rowwise n1 n2 f F -> rowwise n2 n3 h H ->
  (forall x y i, (forall j, (j < n2)%N -> x j = y j) -> H x i = H y i) ->
  rowwise n1 n3 (fun bs X => do Y <- f bs X; h bs Y) (fun x => H (F x)).
Proof.
move=> Hf Hh Hx bs X S; have [Y EY [SY RY]] := Hf bs X S; have [Z EZ [SZ RZ]] := Hh bs Y SY.
exists Z; first by rewrite EY.
by split=> // b i Hb Hi; rewrite RZ //; apply: Hx => j Hj; apply: RY.
Qed.

(** equivariant maps compose *)
Lemma equivariant_comp a b c f h : equivariant a b f -> equivariant b c h ->
  equivariant a c (fun bs X => do Y <- f bs X; h bs Y).
Proof.
move=> Hf Hh bs Ms X X' HM HX; have [Y [Y' [E1 E2 HY]]] := Hf bs Ms X X' HM HX.
by have [Z [Z' [E3 E4 HZ]]] := Hh bs Ms Y Y' HM HY; exists Z, Z'; rewrite E1 E2.
Qed.

(** ** the projectors *)
Definition fixed (r : rep) (v : seq R) : Prop :=
  forall M, E M -> exists2 D, rho_dense r M = Ok (sz r, sz r, D) & matvec (sz r) (sz r) D v = v.
Definition solved (r : rep) : Prop := exists2 B, projector r = Ok B &
  forall v, size v = sz r -> exists2 Pv, matmat B 1 v = Ok Pv & [/\ size Pv = sz r, fixed r Pv & fixed r v <-> Pv = v].

Lemma matvec_mv n (D v : seq R) : size v = n ->
  matvec n n D v = v <-> forall i, (i < n)%N -> mv (unflat n n D) (nth 0 v) i = nth 0 v i.
Proof.
move=> S; have N i : (i < n)%N -> nth 0 (matvec n n D v) i = mv (unflat n n D) (nth 0 v) i.
  move=> Hi; rewrite /matvec /flat nth_mkseq /= ?muln1 // divn1 /mv /=.
  by apply: eq_sum => j Hj; rewrite modn1 muln1 addn0.
split=> H; first by move=> i Hi; rewrite -N // H.
apply: (@eq_from_nth _ 0); first by rewrite /matvec size_flat /= muln1.
by rewrite {1}/matvec size_flat /= muln1 => i Hi; rewrite N ?H.
Qed.

Lemma fixedE r v : wfr r -> size v = sz r ->
  fixed r v <-> forall M i, E M -> (i < sz r)%N -> mv (rM r M) (nth 0 v) i = nth 0 v i.
Proof.
move=> W S; split=> H M.
  move=> i HM Hi; have [D] := H M HM; rewrite rok //.
  case=> <- /(matvec_mv _ S) /(_ i Hi) <-; apply: mv_eq => //; last by have [-> _] := rM_sqn W HM.
  by apply: meq_sym; apply: urm.
move=> HM; exists (flat (rM r M)); first exact: rok.
apply/matvec_mv => // i Hi; rewrite -[RHS](H M i HM Hi); apply: mv_eq => //.
exact: urm.
Qed.

Lemma rshift_ok a b : wfr a -> wfr b -> exists r, [/\ rshift gdim gorth csize le a b = Ok r,
  lshift gdim gorth csize le b a = Ok r, (do t <- tr a; mul b t) = Ok r, wfr r & sz r = (sz b * sz a)%N].
Proof.
move=> Wa Wb; have [t [Et Wt St]] := tr_size gorth O Wa; have [r [Er Wr Sr]] := mul_size O Wb Wt.
exists r; rewrite /rshift /lshift Et; split=> //.
by move: Sr St; rewrite (size_py_ok Wr) (size_py_ok Wt) => -[->] [->].
Qed.

(** vec(W) is fixed iff W is equivariant *)
Lemma fixed_shift a b r w : wfr a -> wfr b -> rshift gdim gorth csize le a b = Ok r -> size w = (sz b * sz a)%N ->
  fixed r w <-> forall M, E M -> meq (fmul (rM b M) (unflat (sz b) (sz a) w)) (fmul (unflat (sz b) (sz a) w) (rM a M)).
Proof.
move=> Wa Wb Er Sw.
have Sr : sz r = (sz b * sz a)%N by have [r' [E1 _ _ _ S]] := rshift_ok Wa Wb; move: E1; rewrite Er => -[->].
have K M : E M -> (exists2 D, rho_dense r M = Ok (sz r, sz r, D) & matvec (sz r) (sz r) D w = w) <->
    meq (fmul (rM b M) (unflat (sz b) (sz a) w)) (fmul (unflat (sz b) (sz a) w) (rM a M)).
  move=> HM; have [r' [Da [Db [Dr [E1 _ [E2 E3] E4 F]]]]] := rshift_thm O Wa Wb (HE HM) (HO HM) Sw.
  move: E1; rewrite Er => -[E1]; subst r'.
  have Ua := urm Wa HM; have Ub := urm Wb HM.
  have [a1 a2] := rM_sqn Wa HM; have [b1 b2] := rM_sqn Wb HM.
  move: E2 E3; rewrite (rok Wa HM) (rok Wb HM).
  case=> E2 [E3]; subst Da Db; rewrite E4 Sr.
  have X : meq (fmul (unflat (sz b) (sz b) (flat (rM b M))) (unflat (sz b) (sz a) w)) (fmul (rM b M) (unflat (sz b) (sz a) w)).
    by apply: meq_fmul.
  have Y : meq (fmul (unflat (sz b) (sz a) w) (unflat (sz a) (sz a) (flat (rM a M)))) (fmul (unflat (sz b) (sz a) w) (rM a M)).
    by apply: meq_fmul.
  split.
    case=> D [<-] /F H; exact: meq_trans (meq_sym X) (meq_trans H Y).
  move=> H; exists Dr => //; apply/F; exact: meq_trans X (meq_trans H (meq_sym Y)).
by split=> H M HM; apply/(K M HM); exact: H.
Qed.

(** ** Linear *)
Definition aff (nin : nat) (W c : seq R) (x : nat -> R) (i : nat) : R :=
  (\sum_(0 <= j < nin) nth 0 W (i * nin + j)%N * x j) + nth 0 c i.
Lemma affine_rows nin nout W c : size c = nout -> (0 < nout)%N ->
  rowwise nin nout (fun bs => affine bs nin nout W c) (aff nin W c).
Proof.
move=> Sc n0 bs X S; rewrite /affine S eqxx; eexists; first reflexivity.
split; first by rewrite /add_rows size_mkseq /matmul size_mkseq.
move=> b i Hb Hi; rewrite /rv /add_rows nth_mkseq; last by rewrite size_mkseq idx_lt.
rewrite idx_mod // /matmul nth_mkseq ?idx_lt // idx_div // idx_mod // rsumE; congr (_ + _).
by apply: eq_sum => j Hj; rewrite nth_tr2 // mulrC.
Qed.

Lemma aff_equivariant a b W c : wfr a -> wfr b -> size W = (sz b * sz a)%N -> size c = sz b ->
  (forall M, E M -> meq (fmul (rM b M) (unflat (sz b) (sz a) W)) (fmul (unflat (sz b) (sz a) W) (rM a M))) ->
  fixed b c -> equivariant a b (fun bs => affine bs (sz a) (sz b) W c).
Proof.
move=> Wa Wb SW Sc HW Hc; refine (rowwise_equivariant Wa Wb (affine_rows (nin := sz a) W Sc (wfr_sz Wb)) _) => M x y i HM Hy Hi.
have [a1 a2] := rM_sqn Wa HM; have [b1 b2] := rM_sqn Wb HM.
rewrite /aff; have -> : nth 0 c i = mv (rM b M) (nth 0 c) i by have /(fixedE Wb Sc) H := Hc; rewrite H.
have -> : \sum_(0 <= j < sz a) nth 0 W (i * sz a + j)%N * y j = mv (fmul (unflat (sz b) (sz a) W) (rM a M)) x i.
  rewrite mv_mul ?a1 // {1}/mv /=; apply: eq_sum => j Hj; by rewrite Hy.
rewrite -(mv_eq (v := x) (w := x) (HW M HM)) ?b1 // mv_mul ?b2 // /mv -big_split /= b2.
by apply: eq_sum => j Hj; rewrite mulrDr; congr (_ + _).
Qed.

(** an equivariant affine map has equivariant coefficients *)
Lemma equivariant_aff a b W c : wfr a -> wfr b -> size W = (sz b * sz a)%N -> size c = sz b ->
  equivariant a b (fun bs => affine bs (sz a) (sz b) W c) ->
  (forall M, E M -> meq (fmul (rM b M) (unflat (sz b) (sz a) W)) (fmul (unflat (sz b) (sz a) W) (rM a M))) /\
  fixed b c.
Proof.
move=> Wa Wb SW Sc H.
have K M (x : seq R) : E M -> size x = sz a -> forall i, (i < sz b)%N ->
   aff (sz a) W c (mv (rM a M) (nth 0 x)) i = mv (rM b M) (aff (sz a) W c (nth 0 x)) i.
  move=> HM Sx i Hi; have [a1 a2] := rM_sqn Wa HM; have [b1 b2] := rM_sqn Wb HM.
  have HM1 k : (k < 1)%N -> E ((fun=> M) k) by [].
  have [X' HX] := acts_ex (r := a) (X := x) Wa HM1 (etrans Sx (esym (mul1n _))).
  have [Y [Y' [E1 E2 HY]]] := H 1%N (fun=> M) x X' HM1 HX.
  have [s1 s2 RX] := (proj1 (acts_rowsE _ _ Wa HM1)) HX; have [t1 t2 RY] := (proj1 (acts_rowsE _ _ Wb HM1)) HY.
  have [Z EZ [_ RZ]] := affine_rows W Sc (wfr_sz Wb) s1; have [Z' EZ' [_ RZ']] := affine_rows W Sc (wfr_sz Wb) s2.
  move: E1 E2; rewrite EZ EZ' => -[EY] [EY']; subst Z Z'.
  have -> : mv (rM b M) (aff (sz a) W c (nth 0 x)) i = mv (rM b M) (rv (sz b) Y 0) i.
    by apply: mv_ext => j; rewrite b2 => Hj; rewrite RZ.
  rewrite -RY // RZ' // /aff; congr (_ + _); apply: eq_sum => j Hj; rewrite RX //.
have Fc : fixed b c.
  apply/(fixedE Wb Sc) => M i HM Hi.
  have := K M (nseq (sz a) 0) HM (size_nseq _ _) i Hi; rewrite {1}/aff.
  have N k : nth 0 (nseq (sz a) (0 : R)) k = 0 by rewrite nth_nseq; case: ifP.
  rewrite [X in X + _]sum0 => [|j Hj]; last by rewrite mv0 ?mulr0.
  rewrite add0r => ->; apply: mv_ext => j Hj; rewrite /aff sum0 ?add0r // => k Hk; by rewrite N mulr0.
split=> // M HM; have [a1 a2] := rM_sqn Wa HM; have [b1 b2] := rM_sqn Wb HM.
split=> [|/=|i k]; rewrite /= ?a2 ?b1 // => Hi Hk.
have := K M (mkseq (fun j => (j == k)%:R) (sz a)) HM (size_mkseq _ _) i Hi; rewrite {1}/aff.
have -> : mv (rM b M) (aff (sz a) W c (nth 0 (mkseq (fun j => (j == k)%:R) (sz a)))) i =
    mv (rM b M) (fun j => nth 0 W (j * sz a + k)%N) i + mv (rM b M) (nth 0 c) i.
  rewrite /mv -big_split /= b2; apply: eq_sum => j Hj; rewrite -mulrDr; congr (_ * (_ + _)).
  rewrite (eq_sum (g := fun l => nth 0 W (j * sz a + l)%N * (l == k)%:R)); first by rewrite sum_delta'.
  by move=> l Hl; rewrite nth_mkseq.
have /(fixedE Wb Sc) -> // := Fc; move/addIr; rewrite /mv b2 => <-; apply: eq_sum => j Hj; congr (_ * _).
rewrite a2 (eq_sum (g := fun l => fe (rM a M) j l * (l == k)%:R)); first by rewrite sum_delta'.
by move=> l Hl; rewrite nth_mkseq.
Qed.

Theorem linear_thm a b r : wfr a -> wfr b -> rshift gdim gorth csize le a b = Ok r -> solved r -> solved b ->
  exists2 L, mk_linear a b = Ok L & [/\ l_in L = sz a, l_out L = sz b &
    forall w c, size w = (sz b * sz a)%N -> size c = sz b ->
      exists W' c', [/\ size W' = (sz b * sz a)%N /\ size c' = sz b,
        forall bs X, linear_call conj L w c bs X = affine bs (sz a) (sz b) W' c' X,
        equivariant a b (linear_call conj L w c) &
        equivariant a b (fun bs => affine bs (sz a) (sz b) w c) -> w = W' /\ c = c']].
Proof.
move=> Wa Wb Er [B EB HB] [Bb EBb HBb].
have [r' [Er' _ Em _ Sr]] := rshift_ok Wa Wb; move: Er'; rewrite Er => -[E1]; subst r'.
exists (Linear (sz a) (sz b) B Bb).
  rewrite /Nn.mk_linear (size_py_ok Wa) (size_py_ok Wb) !bindOk.
  by move: Em; case: (tr a) => [t|//]; rewrite !bindOk => ->; rewrite !bindOk EB !bindOk EBb.
split=> // w c Sw Sc.
have [Ww EW [SW FW IW]] := HB w (etrans Sw (esym Sr)); have [c' Ec [Sc' Fc Ic]] := HBb c Sc.
rewrite Sr in SW; exists Ww, c'.
have EL bs X : linear_call conj (Linear (sz a) (sz b) B Bb) w c bs X = affine bs (sz a) (sz b) Ww c' X.
  rewrite /linear_call /= EW bindOk /reshape /= SW !muln1 eqxx bindOk Ec //.
split=> //.
  move=> bs Ms X X' HM HX; rewrite !EL.
  by apply: (aff_equivariant Wa Wb SW Sc' _ Fc HM HX); apply/(fixed_shift Wa Wb Er SW).
move/(equivariant_aff Wa Wb Sw Sc) => [/(fixed_shift Wa Wb Er Sw)/IW -> /Ic ->] //.
Qed.
End L.
