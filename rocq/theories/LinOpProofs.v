(** * LinOpProofs: the lazy algorithms compute the matrix product. *)
From mathcomp Require Import all_ssreflect all_algebra.
From mathcomp Require Import zify.
From Verif Require Import Np NpLemmas Spec SpecLemmas LinOp LinOpSpec.
Set Implicit Arguments.
Unset Strict Implicit.
Unset Printing Implicit Defensive.
Import GRing.Theory.
Local Open Scope ring_scope.

(** Hereditary predicate on lists (for nested induction). *)
Fixpoint AllP {T : Type} (P : T -> Prop) (l : seq T) : Prop :=
  if l is x :: l' then P x /\ AllP P l' else True.

Lemma AllP_nth T (P : T -> Prop) x0 l i : AllP P l -> (i < size l)%N -> P (nth x0 l i).
Proof. by elim: l i => //= x l IH [|i] [Hx Hl] // Hi; apply: IH. Qed.

Lemma AllP_all T (P : T -> Prop) (Q : T -> bool) (S : T -> Prop) l :
  (forall x, P x -> Q x -> S x) -> AllP P l -> all Q l -> AllP S l.
Proof. by move=> H; elim: l => //= x l IH [Px Pl] /andP[Qx Ql]; split; auto. Qed.

Lemma AllP_sub T (P S : T -> Prop) l : (forall x, P x -> S x) -> AllP P l -> AllP S l.
Proof. by move=> H; elim: l => //= x l IH [Px Pl]; split; auto. Qed.

Section OpInd.
Variable R : comRingType.
Variable P : op R -> Prop.
Hypothesis HArr : forall m n D, P (OArr m n D).
Hypothesis HLazy : forall m n D, P (OLazy m n D).
Hypothesis HI : forall n, P (OI R n).
Hypothesis HKron : forall Ms, AllP P Ms -> P (OKron Ms).
Hypothesis HKronsum : forall Ms, AllP P Ms -> P (OKronsum Ms).
Hypothesis HConcat : forall Ms, AllP P Ms -> P (OConcat Ms).
Hypothesis HDsum : forall Ms c, AllP P Ms -> P (ODsum Ms c).
Hypothesis HCustom : forall m n Ms c pre post, AllP P Ms -> P (OCustom m n Ms c pre post).
Hypothesis HPerm : forall p, P (OPerm R p).
Hypothesis HShift : forall n k, P (OShift R n k).
Hypothesis HSwap : forall sw n, P (OSwap R sw n).
Hypothesis HRot : forall n k, P (ORot90 R n k).
Hypothesis HSum : forall A B, P A -> P B -> P (OSum A B).
Hypothesis HProd : forall A B, P A -> P B -> P (OProd A B).
Hypothesis HScaled : forall A a, P A -> P (OScaled A a).
Hypothesis HPow : forall A p, P A -> P (OPow A p).
Hypothesis HAdj : forall A, P A -> P (OAdj A).
Hypothesis HTrans : forall A, P A -> P (OTrans A).

Fixpoint op_rect' (A : op R) : P A :=
  let fix go (l : seq (op R)) : AllP P l :=
    match l with [::] => I | M :: l' => conj (op_rect' M) (go l') end in
  match A with
  | OArr m n D => HArr m n D
  | OLazy m n D => HLazy m n D
  | OI n => HI n
  | OKron Ms => HKron (go Ms)
  | OKronsum Ms => HKronsum (go Ms)
  | OConcat Ms => HConcat (go Ms)
  | ODsum Ms c => HDsum c (go Ms)
  | OCustom m n Ms c pre post => HCustom m n c pre post (go Ms)
  | OPerm p => HPerm p
  | OShift n k => HShift n k
  | OSwap sw n => HSwap sw n
  | ORot90 n k => HRot n k
  | OSum A B => HSum (op_rect' A) (op_rect' B)
  | OProd A B => HProd (op_rect' A) (op_rect' B)
  | OScaled A a => HScaled a (op_rect' A)
  | OPow A p => HPow p (op_rect' A)
  | OAdj A => HAdj (op_rect' A)
  | OTrans A => HTrans (op_rect' A)
  end.
End OpInd.

Section Acts.
Variable R : comRingType.
Implicit Types (D : fmat R) (X Y : seq R).

(** [f] computes multiplication by [D]. *)
Definition acts (D : fmat R) (f : nat -> seq R -> res (seq R)) : Prop :=
  forall K X, size X = (fc D * K)%N -> f K X = Ok (flat (fmul D (unflat (fc D) K X))).

Lemma prod_entry D K X i k : (i < fr D)%N -> (k < K)%N ->
  nth 0 (flat (fmul D (unflat (fc D) K X))) (i * K + k)%N =
  \sum_(0 <= j < fc D) fe D i j * nth 0 X (j * K + k)%N.
Proof. by move=> Hi Hk; rewrite (nth_flat (A := fmul D (unflat (fc D) K X))). Qed.

Lemma actsP D f K X : acts D f -> size X = (fc D * K)%N ->
  exists Y, [/\ f K X = Ok Y, size Y = (fr D * K)%N &
    forall i k, (i < fr D)%N -> (k < K)%N ->
      nth 0 Y (i * K + k)%N = \sum_(0 <= j < fc D) fe D i j * nth 0 X (j * K + k)%N].
Proof.
move=> H S; exists (flat (fmul D (unflat (fc D) K X))); split; first exact: H.
  by rewrite size_flat.
by move=> i k Hi Hk; rewrite prod_entry.
Qed.

Lemma flatP D K X Y : size Y = (fr D * K)%N ->
  (forall i k, (i < fr D)%N -> (k < K)%N ->
      nth 0 Y (i * K + k)%N = \sum_(0 <= j < fc D) fe D i j * nth 0 X (j * K + k)%N) ->
  Y = flat (fmul D (unflat (fc D) K X)).
Proof.
move=> S H; apply: (@mat_ext _ 0 (fr D) K) => //; first by rewrite size_flat.
by move=> i k Hi Hk; rewrite H // prod_entry.
Qed.

Lemma acts_meq D D' f : meq D D' -> acts D f -> acts D' f.
Proof.
move=> E H K X S; have [E1 E2 _] := E.
rewrite H ?E2 //; congr Ok; apply: flat_meq; apply: meq_fmul => //.
Qed.

(** One axis of a Kronecker product. *)
Lemma kron_step_ok D (M : fac R) pre post (ev : nd R) :
  acts D (fact M) -> frows M = fr D -> fcols M = fc D -> (0 < fc D)%N ->
  dims ev = pre ++ fc D :: post -> size (dat ev) = prodn (dims ev) ->
  exists ev', [/\ kron_step (size pre) M ev = Ok ev', dims ev' = pre ++ fr D :: post,
    size (dat ev') = prodn (dims ev') &
    forall a x b, (a < prodn pre)%N -> (x < fr D)%N -> (b < prodn post)%N ->
      nth 0 (dat ev') ((a * fr D + x) * prodn post + b)%N =
      \sum_(0 <= y < fc D) fe D x y * nth 0 (dat ev) ((a * fc D + y) * prodn post + b)%N].
Proof.
move=> HM Er Ec n0 Edims Sev; rewrite /kron_step.
set P := prodn pre; set Q := prodn post; set n := fc D; set m := fr D.
have Df := moveaxis_front_dims (0 : R) Edims.
set evf := moveaxis 0 ev (size pre) 0 in Df *.
have Sf : size (dat evf) = (n * (P * Q))%N.
  by rewrite size_nd_init -[[seq _ | _ <- _]]/(dims evf) Df /= prodn_cat.
have -> : infer (fcols M) (size (dat evf)) = Ok (P * Q)%N.
  by rewrite Ec /infer n0 Sf dvdn_mulr //= mulKn.
rewrite bindOk.
have [Y [-> SY HY]] := actsP (K := (P * Q)%N) HM Sf.
rewrite bindOk; set Mf := ND (m :: pre ++ post) Y.
have -> : reshape (frows M :: behead (dims evf)) (ND [:: frows M; (P * Q)%N] Y) = Ok Mf.
  by rewrite Df Er /reshape /= SY prodn_cat eqxx.
rewrite bindOk.
have Db := @moveaxis_back_dims R 0 Mf pre m post erefl.
exists (moveaxis 0 Mf 0 (size pre)); split=> //.
  by rewrite size_nd_init.
move=> a x b Ha Hx Hb.
have Va := unravel_valid Ha; have Vb := unravel_valid Hb.
have Lx z t : ((a * t + z) * Q + b)%N =
   ravel (pre ++ t :: post) (unravel pre a ++ z :: unravel post b).
  rewrite ravel_cat ?size_unravel //= !ravel_unravel // -/Q mulnDl -mulnA; lia.
rewrite Lx -[pre ++ m :: post]Db -/(get _ _ _).
rewrite (@moveaxis_back _ _ Mf pre m post) // /get /= ravel_cat ?size_unravel //.
rewrite !ravel_unravel // prodn_cat -/P -/Q.
rewrite HY //; last exact: idx_lt.
apply: eq_sum => y Hy; congr (_ * _).
rewrite Lx -Edims -/(get _ _ _) -(moveaxis_front 0 Edims Hy Va Vb) -/evf /get Df /=.
by rewrite ravel_cat ?size_unravel // !ravel_unravel // prodn_cat.
Qed.

(** Factors matching matrices. *)
Definition fmatch (M : fac R) (D : fmat R) : Prop :=
  [/\ acts D (fact M), frows M = fr D, fcols M = fc D & (0 < fc D)%N].
Fixpoint fmatchs (Ms : seq (fac R)) (Ds : seq (fmat R)) : Prop :=
  match Ms, Ds with
  | [::], [::] => True
  | M :: Ms', D :: Ds' => fmatch M D /\ fmatchs Ms' Ds'
  | _, _ => False
  end.

Lemma fr_fkronl Ds : fr (fkronl Ds) = prodn (map (@fr R) Ds).
Proof. by elim: Ds => //= D Ds ->. Qed.
Lemma fc_fkronl Ds : fc (fkronl Ds) = prodn (map (@fc R) Ds).
Proof. by elim: Ds => //= D Ds ->. Qed.

Lemma fmatchs_rows Ms Ds : fmatchs Ms Ds -> map (@frows R) Ms = map (@fr R) Ds.
Proof. by elim: Ms Ds => [|M Ms IH] [|D Ds] //= [[_ -> _ _] /IH ->]. Qed.
Lemma fmatchs_cols Ms Ds : fmatchs Ms Ds -> map (@fcols R) Ms = map (@fc R) Ds.
Proof. by elim: Ms Ds => [|M Ms IH] [|D Ds] //= [[_ _ -> _] /IH ->]. Qed.
Lemma fmatchs_pos Ms Ds : fmatchs Ms Ds -> (0 < prodn (map (@fc R) Ds))%N.
Proof. by elim: Ms Ds => [|M Ms IH] [|D Ds] //= [[_ _ _ H] /IH]; rewrite muln_gt0 H. Qed.

Lemma kron_loop_ok Ms Ds pre K (ev : nd R) :
  fmatchs Ms Ds ->
  dims ev = pre ++ rcons (map (@fc R) Ds) K -> size (dat ev) = prodn (dims ev) ->
  let D := fkronl Ds in
  exists ev', [/\ kron_loop (size pre) Ms ev = Ok ev',
    dims ev' = pre ++ rcons (map (@fr R) Ds) K, size (dat ev') = prodn (dims ev') &
    forall a x k, (a < prodn pre)%N -> (x < fr D)%N -> (k < K)%N ->
      nth 0 (dat ev') ((a * fr D + x) * K + k)%N =
      \sum_(0 <= y < fc D) fe D x y * nth 0 (dat ev) ((a * fc D + y) * K + k)%N].
Proof.
elim: Ms Ds pre ev => [|M Ms IH] [|D Ds] pre ev //=.
  move=> _ Ed Sd; exists ev; split=> // a x k Ha Hx Hk.
  by rewrite big_nat1; case: x Hx => // _; rewrite eqxx mul1r !muln1.
move=> [[HM Er Ec n0] Hs] Ed Sd.
have [ev1 [-> D1 S1 H1]] := kron_step_ok HM Er Ec n0 Ed Sd.
rewrite bindOk.
have D1' : dims ev1 = rcons pre (fr D) ++ rcons (map (@fc R) Ds) K.
  by rewrite D1 cat_rcons.
have := IH Ds (rcons pre (fr D)) ev1 Hs D1' S1; rewrite size_rcons.
move=> [ev' [-> D' S' H']]; exists ev'; split=> //.
  by rewrite D' cat_rcons.
set E := fkronl Ds in H' *.
move=> a x k Ha Hx Hk.
have E0 : (0 < fr E)%N by case: (fr E) Hx => //; rewrite muln0.
have Ex := divn_eq x (fr E).
set x1 := (x %/ fr E)%N in Ex *; set x2 := (x %% fr E)%N in Ex *.
have Hx1 : (x1 < fr D)%N by rewrite ltn_divLR.
have Hx2 : (x2 < fr E)%N by rewrite ltn_mod.
have -> : ((a * (fr D * fr E) + x) * K + k = ((a * fr D + x1) * fr E + x2) * K + k)%N.
  by rewrite {1}Ex !mulnDl !mulnA !addnA.
rewrite H' //; last by rewrite prodn_rcons idx_lt.
rewrite sum_mul exchange_big_nat /=; apply: eq_sum => y2 Hy2.
have EK : prodn (rcons (map (@fc R) Ds) K) = (fc E * K)%N by rewrite prodn_rcons fc_fkronl.
have -> : (((a * fr D + x1) * fc E + y2) * K + k =
   (a * fr D + x1) * prodn (rcons (map (@fc R) Ds) K) + (y2 * K + k))%N.
  by rewrite EK mulnDl !mulnA addnA.
rewrite H1 //; last by rewrite EK idx_lt.
rewrite big_distrr /=; apply: eq_sum => y1 Hy1.
rewrite idx_div // idx_mod // mulrA [fe E _ _ * _]mulrC; congr (_ * nth 0 _ _).
by rewrite EK; lia.
Qed.

Lemma kron_mm_ok Ms Ds : fmatchs Ms Ds -> acts (fkronl Ds) (fun _ X => kron_mm Ms X).
Proof.
move=> H K X S; rewrite /kron_mm.
have Hp := fmatchs_pos H.
rewrite (fmatchs_cols H) (fmatchs_rows H) /infer Hp S fc_fkronl dvdn_mulr // mulKn //.
rewrite bindOk.
have SX : size X = prodn (rcons (map (@fc R) Ds) K) by rewrite prodn_rcons -fc_fkronl.
have [ev' [E D' S' H']] := kron_loop_ok (pre := [::]) (ev := ND _ X) H erefl SX.
rewrite E bindOk /reshape D' [prodn _]/= last_rcons S' D' prodn_rcons muln1 eqxx /=.
congr Ok; apply: flatP; first by rewrite S' D' prodn_rcons fr_fkronl.
by move=> x k Hx Hk; have := H' 0%N x k isT Hx Hk; rewrite !mul0n !add0n.
Qed.

Lemma size_vadd (X Y : seq R) : size X = size Y -> size (vadd X Y) = size X.
Proof. by move=> H; rewrite size_map size_zip H minnn. Qed.

Lemma nth_vadd (X Y : seq R) i : size X = size Y ->
  nth 0 (vadd X Y) i = nth 0 X i + nth 0 Y i.
Proof.
move=> H; case: (ltnP i (size X)) => Hi.
  by rewrite (nth_map (0, 0)) ?size_zip -?H ?minnn // nth_zip.
by rewrite !nth_default ?addr0 -?H // size_vadd.
Qed.

Lemma nth_vscale (a : R) X i : nth 0 (vscale a X) i = a * nth 0 X i.
Proof.
case: (ltnP i (size X)) => Hi; first by rewrite (nth_map 0).
by rewrite !nth_default ?mulr0 // size_map.
Qed.

Lemma fr_fkronsuml Ds : fr (fkronsuml Ds) = prodn (map (@fr R) Ds).
Proof. by elim: Ds => //= D Ds ->. Qed.
Lemma fc_fkronsuml Ds : all (fun D => fr D == fc D) Ds ->
  fc (fkronsuml Ds) = prodn (map (@fc R) Ds).
Proof.
elim: Ds => //= D Ds IH /andP[/eqP E Hs]; rewrite fr_fkronsuml; congr (_ * prodn _)%N.
by elim: Ds Hs {IH} => //= D' Ds IH /andP[/eqP -> /IH ->].
Qed.

Fixpoint ksmatchs (Ms : seq (fac R)) (Ds : seq (fmat R)) : Prop :=
  match Ms, Ds with
  | [::], [::] => True
  | M :: Ms', D :: Ds' => [/\ fmatch M D, fr D = fc D & ksmatchs Ms' Ds']
  | _, _ => False
  end.
Lemma ksmatchs_fm Ms Ds : ksmatchs Ms Ds -> fmatchs Ms Ds.
Proof. by elim: Ms Ds => [|M Ms IH] [|D Ds] //= [? _ /IH]. Qed.
Lemma ksmatchs_sq Ms Ds : ksmatchs Ms Ds -> map (@fr R) Ds = map (@fc R) Ds.
Proof. by elim: Ms Ds => [|M Ms IH] [|D Ds] //= [_ -> /IH ->]. Qed.
Lemma ksmatchs_all Ms Ds : ksmatchs Ms Ds -> all (fun D => fr D == fc D) Ds.
Proof. by elim: Ms Ds => [|M Ms IH] [|D Ds] //= [_ -> /IH ->]; rewrite eqxx. Qed.

Lemma kronsum_loop_ok Ms Ds pre K (ev out : nd R) :
  ksmatchs Ms Ds ->
  dims ev = pre ++ rcons (map (@fc R) Ds) K -> size (dat ev) = prodn (dims ev) ->
  dims out = dims ev -> size (dat out) = prodn (dims out) ->
  let D := fkronsuml Ds in
  exists out', [/\ kronsum_loop (size pre) Ms ev out = Ok out',
    dims out' = dims ev, size (dat out') = prodn (dims ev) &
    forall a x k, (a < prodn pre)%N -> (x < fr D)%N -> (k < K)%N ->
      nth 0 (dat out') ((a * fr D + x) * K + k)%N =
      nth 0 (dat out) ((a * fr D + x) * K + k)%N +
      \sum_(0 <= y < fc D) fe D x y * nth 0 (dat ev) ((a * fc D + y) * K + k)%N].
Proof.
elim: Ms Ds pre out => [|M Ms IH] [|D Ds] pre out //=.
  move=> _ Ed Sd Do So; exists out; split=> //; first by rewrite -Do.
  by move=> a x k Ha Hx Hk; rewrite big_nat1 mul0r addr0.
move=> [[HM Er Ec n0] Esq Hs] Ed Sd Do So.
have [y [-> D1 S1 H1]] := kron_step_ok HM Er Ec n0 Ed Sd.
rewrite bindOk.
have Dy : dims y = dims ev by rewrite D1 Ed Esq.
rewrite Dy Do eqxx.
set E := fkronsuml Ds in IH *.
have Efr : fr E = prodn (map (@fc R) Ds) by rewrite fr_fkronsuml (ksmatchs_sq Hs).
have Efc : fc E = fr E by rewrite fc_fkronsuml ?(ksmatchs_all Hs).
have Ed' : dims ev = rcons pre (fr D) ++ rcons (map (@fc R) Ds) K by rewrite Ed Esq cat_rcons.
have Soy : size (dat out) = size (dat y) by rewrite So S1 Do Dy.
have := IH Ds (rcons pre (fr D)) (ND (dims ev) (vadd (dat out) (dat y))) Hs Ed' Sd erefl.
rewrite size_rcons /= size_vadd //.
case; first by rewrite So Do.
move=> out' [-> D' S' H']; exists out'; split=> //.
move=> a x k Ha Hx Hk.
have E0 : (0 < fr E)%N by case: (fr E) Hx => //; rewrite muln0.
have Ex := divn_eq x (fr E).
set x1 := (x %/ fr E)%N in Ex *; set x2 := (x %% fr E)%N in Ex *.
have Hx1 : (x1 < fr D)%N by rewrite ltn_divLR.
have Hx2 : (x2 < fr E)%N by rewrite ltn_mod.
have Ei : ((a * (fr D * fr E) + x) * K + k = ((a * fr D + x1) * fr E + x2) * K + k)%N.
  by rewrite {1}Ex !mulnDl !mulnA !addnA.
rewrite Ei H' //; last by rewrite prodn_rcons idx_lt.
rewrite nth_vadd // -addrA; congr (_ + _).
have EK : prodn (rcons (map (@fc R) Ds) K) = (fr E * K)%N by rewrite prodn_rcons Efr.
have -> : (((a * fr D + x1) * fr E + x2) * K + k =
   (a * fr D + x1) * prodn (rcons (map (@fc R) Ds) K) + (x2 * K + k))%N.
  by rewrite EK mulnDl !mulnA addnA.
rewrite H1 //; last by rewrite EK idx_lt.
rewrite sum_mul.
pose W i j := nth 0 (dat ev) ((a * (fc D * fc E) + (i * fc E + j)) * K + k)%N.
transitivity (\sum_(0 <= i < fc D) (\sum_(0 <= j < fc E) fe D x1 i * (x2 == j)%:R * W i j +
                \sum_(0 <= j < fc E) (x1 == i)%:R * fe E x2 j * W i j)); last first.
  apply: eq_sum => i Hi; rewrite -big_split /W Efc; apply: eq_sum => j Hj /=.
  by rewrite idx_div // idx_mod // -mulrDl.
rewrite -/E Efc; rewrite Efc in W *.
rewrite big_split /=; congr (_ + _).
  apply: eq_sum => y1 Hy1.
  rewrite (sum_only (i := x2)) //.
    by rewrite eqxx mulr1; congr (_ * nth 0 _ _); rewrite EK; lia.
  by move=> j Hj Nj; rewrite eq_sym (negbTE Nj) mulr0 mul0r.
rewrite [RHS](sum_only (i := x1)) -?Esq //.
  apply: eq_sum => y2 Hy2; rewrite eqxx mul1r; congr (_ * nth 0 _ _); rewrite -Esq; lia.
move=> j Hj Nj; rewrite sum0 // => y2 Hy2.
by rewrite eq_sym (negbTE Nj) mul0r mul0r.
Qed.

Lemma kronsum_mm_ok Ms Ds : ksmatchs Ms Ds -> acts (fkronsuml Ds) (fun _ X => kronsum_mm Ms X).
Proof.
move=> Hk K X; have H := ksmatchs_fm Hk; have Hsq := ksmatchs_all Hk.
rewrite (fc_fkronsuml Hsq) => S; rewrite /kronsum_mm.
have Hp := fmatchs_pos H.
rewrite (fmatchs_cols H) (fmatchs_rows H) /infer Hp S dvdn_mulr // mulKn //.
rewrite bindOk.
have SX : size X = prodn (rcons (map (@fc R) Ds) K) by rewrite prodn_rcons.
have S0 : size (vscale 0 X) = prodn (rcons (map (@fc R) Ds) K) by rewrite size_map.
have [out [E D' S' H']] :=
  kronsum_loop_ok (pre := [::]) (ev := ND _ X) (out := ND _ (vscale 0 X)) Hk erefl SX erefl S0.
rewrite E bindOk /reshape [prodn [:: _; _]]/= last_rcons S' prodn_rcons muln1.
rewrite (ksmatchs_sq Hk) eqxx /= -(fc_fkronsuml Hsq).
congr Ok; apply: flatP; first by rewrite S' prodn_rcons fr_fkronsuml (ksmatchs_sq Hk).
move=> x k Hx Hk'; have := H' 0%N x k isT Hx Hk'; rewrite !mul0n !add0n => ->.
by rewrite nth_vscale mul0r add0r.
Qed.

(** ** Direct sums *)
Lemma fr_fdsuml Ds : fr (fdsuml Ds) = sumn (map (@fr R) Ds).
Proof. by elim: Ds => //= D Ds ->. Qed.
Lemma fc_fdsuml Ds : fc (fdsuml Ds) = sumn (map (@fc R) Ds).
Proof. by elim: Ds => //= D Ds ->. Qed.
Lemma fr_nseq c D : fr (fdsuml (nseq c D)) = (c * fr D)%N.
Proof. by elim: c => //= c ->; rewrite mulSn. Qed.
Lemma fc_nseq c D : fc (fdsuml (nseq c D)) = (c * fc D)%N.
Proof. by elim: c => //= c ->; rewrite mulSn. Qed.

Lemma fe_nseq c D t s x y : (t < c)%N -> (s < c)%N -> (x < fr D)%N -> (y < fc D)%N ->
  fe (fdsuml (nseq c D)) (t * fr D + x)%N (s * fc D + y)%N = (t == s)%:R * fe D x y.
Proof.
elim: c t s => //= c IH [|t] [|s] Ht Hs Hx Hy.
- by rewrite !mul0n !add0n Hx Hy mul1r.
- by rewrite !mul0n !add0n Hx mulSn ltnNge -addnA leq_addr mul0r.
- by rewrite !mul0n !add0n Hy mulSn ltnNge -addnA leq_addr mul0r.
- by rewrite !mulSn -!addnA !ltnNge !leq_addr /= !addKn IH.
Qed.

Lemma fdsuml_cat (l1 l2 : seq (fmat R)) : meq (fdsuml (l1 ++ l2)) (fdsum (fdsuml l1) (fdsuml l2)).
Proof.
elim: l1 => [|D l1 IH] /=.
  by split=> //= i j Hi Hj; rewrite !subn0.
apply: meq_trans (fdsum_assoc _ _ _).
by apply: meq_fdsum => //; apply: meq_refl.
Qed.

Lemma block_ok D f c k sl : acts D f -> size sl = (c * fc D * k)%N ->
  exists el, f (k * c)%N (tr2 0 (k * c) (fc D) (tr2 0 (c * fc D) k sl)) = Ok el /\
    tr2 0 k (c * fr D) (tr2 0 (fr D) (k * c) el) =
    flat (fmul (fdsuml (nseq c D)) (unflat (c * fc D) k sl)).
Proof.
set n := fc D; set m := fr D => Hf S.
set blk := tr2 0 _ _ _.
have Sb : size blk = (n * (k * c))%N by rewrite size_tr2.
have [el [-> Sel Hel]] := actsP Hf Sb; exists el; split=> //.
rewrite -fc_nseq; apply: flatP; first by rewrite size_tr2 fr_nseq.
rewrite fr_nseq fc_nseq -/m -/n => r kk Hr Hk.
have m0 : (0 < m)%N by case: (m) Hr => //; rewrite muln0.
rewrite nth_tr2 //.
have [t [x [Ht Hx ->]]] : exists t x, [/\ (t < c)%N, (x < m)%N & r = (t * m + x)%N].
  by exists (r %/ m)%N, (r %% m)%N; rewrite ltn_divLR // ltn_mod -divn_eq.
have -> : (kk * (c * m) + (t * m + x) = (kk * c + t) * m + x)%N by lia.
rewrite nth_tr2 //; last by rewrite idx_lt.
rewrite Hel //; last by rewrite idx_lt.
rewrite sum_mul [RHS](sum_only (i := t)) //; last first.
  move=> s Hs Ns; apply: sum0 => y Hy.
  by rewrite fe_nseq // eq_sym (negbTE Ns) !mul0r.
apply: eq_sum => y Hy; rewrite fe_nseq // eqxx mul1r; congr (_ * _).
rewrite /blk nth_tr2 //; last by rewrite idx_lt.
have -> : ((kk * c + t) * n + y = kk * (c * n) + (t * n + y))%N by lia.
by rewrite nth_tr2 // idx_lt.
Qed.

Lemma flat_fdsum A B K X : size X = ((fc A + fc B) * K)%N ->
  flat (fmul (fdsum A B) (unflat (fc A + fc B) K X)) =
  flat (fmul A (unflat (fc A) K (take (fc A * K) X))) ++
  flat (fmul B (unflat (fc B) K (drop (fc A * K) X))).
Proof.
move=> S; apply/esym.
rewrite -[(fc A + fc B)%N]/(fc (fdsum A B)).
apply: flatP; first by rewrite size_cat !size_flat /= mulnDl.
move=> i k Hi Hk; rewrite nth_cat size_flat /= sum_add /=.
case: (ltnP i (fr A)) => Hi'.
  rewrite idx_lt // prod_entry // [X in _ = _ + X]sum0 ?addr0.
    apply: eq_sum => j Hj; rewrite Hj; congr (_ * _).
    by rewrite nth_take // idx_lt.
  by move=> j Hj; rewrite ltnNge leq_addr /= mul0r.
have -> : (i * K + k < fr A * K)%N = false by apply/negbTE; rewrite -leqNgt; nia.
rewrite [X in _ = X + _]sum0 ?add0r; last by move=> j ->; rewrite mul0r.
have -> : (i * K + k - fr A * K = (i - fr A) * K + k)%N.
  by rewrite mulnBl; have := leq_mul Hi' (leqnn K); lia.
rewrite prod_entry //; last by move: Hi => /=; lia.
apply: eq_sum => j Hj; rewrite ltnNge leq_addr /= addKn; congr (_ * _).
by rewrite nth_drop; congr (nth _ _ _); lia.
Qed.

Fixpoint dmatchs (Ms : seq (fac R)) (Ds : seq (fmat R)) : Prop :=
  match Ms, Ds with
  | [::], [::] => True
  | M :: Ms', D :: Ds' => [/\ acts D (fact M), frows M = fr D & fcols M = fc D] /\ dmatchs Ms' Ds'
  | _, _ => False
  end.

Lemma direct_loop_ok Ms Ds cs k i v : dmatchs Ms Ds -> size cs = size Ms ->
  let D := fdsuml (expand Ds cs) in
  size v = ((i + fc D) * k)%N ->
  direct_loop k i Ms cs v = Ok (flat (fmul D (unflat (fc D) k (drop (i * k) v)))).
Proof.
elim: Ms Ds cs i => [|M Ms IH] [|D Ds] [|c cs] i //=.
move=> [[HM Er Ec] Hs] [Sc].
rewrite -[expand (D :: Ds) (c :: cs)]/(nseq c D ++ expand Ds cs).
have HD := fdsuml_cat (nseq c D) (expand Ds cs).
set F := fdsuml (nseq c D ++ _) in HD *; set E := fdsuml (expand Ds cs) in HD *.
have [_ EF _] := HD; rewrite EF /= fc_nseq => Sv.
rewrite Er Ec; set n := fc D in EF Sv *.
have Ssl : size (srows k i (i + c * n) v) = (c * n * k)%N.
  rewrite /srows size_slice; first by rewrite -mulnBl addKn.
    by rewrite leq_mul2r leq_addr orbT.
  by rewrite Sv leq_mul2r leq_add2l leq_addr orbT.
rewrite Ssl eqxx /=.
have [el [-> Eel]] := block_ok (c := c) (k := k) HM Ssl.
rewrite bindOk Eel (IH Ds cs) // -/E; last by rewrite Sv addnA.
rewrite bindOk; congr Ok.
have -> : flat (fmul F (unflat (c * n + fc E) k (drop (i * k) v))) =
  flat (fmul (fdsum (fdsuml (nseq c D)) E) (unflat (c * n + fc E) k (drop (i * k) v))).
  by apply: flat_meq; apply: meq_fmul => //; rewrite EF /= fc_nseq.
have := @flat_fdsum (fdsuml (nseq c D)) E k (drop (i * k) v).
rewrite fc_nseq => ->; last by rewrite size_drop Sv -mulnBl; congr (_ * _)%N; lia.
congr (flat (fmul _ (unflat _ _ _)) ++ flat (fmul _ (unflat _ _ _))).
  by rewrite /srows /slice -mulnBl addKn.
by rewrite drop_drop; congr drop; lia.
Qed.

Lemma direct_mm_ok Ms Ds cs : dmatchs Ms Ds -> size cs = size Ms -> (0 < size Ms)%N ->
  acts (fdsuml (expand Ds cs)) (fun k => direct_mm k Ms cs).
Proof.
move=> H S N K X SX; rewrite /direct_mm.
have -> : nilp Ms || nilp cs = false by case: (Ms) (cs) S N => [|? ?] [|? ?].
by rewrite (direct_loop_ok (Ds := Ds)) ?add0n // mul0n drop0.
Qed.
End Acts.
