(** * RepDefer: deferred representations, built from V without a group, and their
    instantiation. *)
From mathcomp Require Import all_ssreflect all_algebra.
From mathcomp Require Import zify.
From Verif Require Import Np NpLemmas Spec LinOp SpecLemmas LinOpInv Rep RepMat RepWf RepProd RepAlg RepDist RepMul RepFun RepOps RepExpr RepExprProofs.
Set Implicit Arguments.
Unset Strict Implicit.
Unset Printing Implicit Defensive.
Import GRing.Theory.

(** a leaf of a deferred representation, or its dual *)
Definition dleaf (r : rep) : bool :=
  match r with
  | RBase None | RCustom _ None | RDual (RBase None) | RDual (RCustom _ None) => true
  | _ => false
  end.

Section D.
Variables (gdim : gid -> nat) (gorth : gid -> bool) (csize : nat -> gid -> nat).
Variable le : rel rep.
Variable g : gid.
Local Notation sz := (rsize gdim csize).
Local Notation gs := (pred1 g).
Local Notation atomic := (atomic gdim csize gs).
Local Notation key := (key gdim csize le gs).
Local Notation wfr := (wfr gdim csize le gs).
(** representations without any group: Scalar and sums of it *)
Local Notation wfr0 := (RepWf.wfr gdim csize le pred0).
Local Notation ta := (ta gorth).
Hypothesis O : total_order_on key le.
Hypothesis G0 : 0 < gdim g.
Hypothesis C0 : forall c, 0 < csize c g.
Let Hgs : forall h, gs h -> h = g. Proof. by move=> h /eqP. Qed.
Let Hgs0 : forall h, (pred0 : pred gid) h -> h = g. Proof. by []. Qed.

Lemma atomic0 r : ~~ RepWf.atomic gdim csize pred0 r.
Proof. by case: r => // [[h|]|c [h|]|[|[h|]|c [h|]|?|? ?|? ?|? ?|?|?]] //=; rewrite ?andbF. Qed.
Lemma nonsum0 r : nonsum gdim csize le pred0 r -> r = RScalar.
Proof.
case/(nonsum1 Hgs0) => // /andP[/orP[A|P] _]; first by move: (atomic0 r); rewrite A.
case: r P => // [[|[k c] d]] p // /andP[/and3P[/and5P[_ /= /andP[A _] _ _ _] _ _] _].
by move: (atomic0 k); rewrite A.
Qed.
Lemma O0 : total_order_on (RepWf.key gdim csize le pred0) le.
Proof.
by apply: (to_sub _ O) => r /andP[/nonsum0 -> _].
Qed.

Lemma wfr0_wfr r : wfr0 r -> wfr r.
Proof.
case/orP=> [/nonsum0 -> //|]; case: r => // d p /andP[/and5P[H1 H2 H3 H4 H5] P].
apply: issum_wfr; rewrite /issum P andbT; apply/and5P; split=> //.
by apply/allP=> k /(allP H2) /andP[/nonsum0 -> _].
Qed.

Section Mat.
Variable R : comRingType.
Implicit Types A : rep -> fmat R.

Lemma wfr0_mat A r : wfr0 r -> meq (rmat A r) (fid R (sz r)).
Proof. by move=> W; apply: (rmat_id W) => k; move/negP: (atomic0 k). Qed.

(** well-formed deferred values *)
Fixpoint dwf (r : rep) : bool :=
  match r with
  | RDefSum l | RDefProd l => ~~ nilp l && all dwf l
  | RScalar | RSum _ _ => wfr0 r
  | _ => dleaf r
  end.

(** their meaning, given the matrices of the leaves *)
Fixpoint dden A (r : rep) : fmat R :=
  match r with
  | RDefSum l => fdsuml (map (dden A) l)
  | RDefProd l => fkronl (map (dden A) l)
  | RScalar | RSum _ _ => fid R (sz r)
  | _ => A r
  end.

Lemma dwf_ind (P : rep -> Prop) :
  (forall r, wfr0 r -> P r) -> (forall r, dleaf r -> P r) ->
  (forall l, ~~ nilp l -> (forall k, k \in l -> dwf k /\ P k) -> P (RDefSum l)) ->
  (forall l, ~~ nilp l -> (forall k, k \in l -> dwf k /\ P k) -> P (RDefProd l)) ->
  forall r, dwf r -> P r.
Proof.
move=> H0 HL HS HP.
have L l : foldr (fun x Q => (dwf x -> P x) /\ Q) True l -> all dwf l -> forall k, k \in l -> dwf k /\ P k.
  elim: l => [|x l IH] //= [Hx Hl] /andP[Wx Wl] k; rewrite inE => /orP[/eqP ->|]; first by split; auto.
  exact: IH.
elim/rep_ind' => //=.
- by move=> _; apply: H0.
- by move=> G D; apply: HL.
- by move=> c G D; apply: HL.
- by move=> r _ D; apply: HL.
- by move=> d p _ W; apply: H0.
- by move=> l Hl /andP[N W]; apply: HS => //; apply: L.
- by move=> l Hl /andP[N W]; apply: HP => //; apply: L.
Qed.

Lemma dden_wfr0 A r : wfr0 r -> dden A r = fid R (sz r).
Proof. by case/orP=> [/nonsum0 -> //|]; case: r. Qed.
Lemma dwf_wfr0 r : wfr0 r -> dwf r.
Proof. by move=> W; case/orP: (W) => [/nonsum0 -> //|]; case: r W. Qed.
Lemma dden_leaf A r : dleaf r -> dden A r = A r.
Proof. by case: r. Qed.
Lemma dwf_leaf r : dleaf r -> dwf r.
Proof. by case: r. Qed.
Lemma dwf_concrete r : dwf r -> concrete r = wfr0 r.
Proof. by case: r => // [[]|c []|[|[]|c []|?|? ?|? ?|? ?|?|?]] //=; move=> ? ? ->. Qed.

(** instantiation of a leaf *)
Definition inst (r : rep) : rep :=
  match r with
  | RBase _ => RBase (Some g)
  | RCustom c _ => RCustom c (Some g)
  | RDual (RBase _) => ta (RBase (Some g))
  | RDual (RCustom c _) => ta (RCustom c (Some g))
  | _ => r
  end.

Lemma inst_atomic r : dleaf r -> atomic (inst r) /\ call gdim gorth csize le r (Some g) = Ok (inst r).
Proof.
have AB := @leaf_atomic gdim csize g G0 C0 None; have AC c := @leaf_atomic gdim csize g G0 C0 (Some c).
case: r => [|[h|]|c [h|]|[|[h|]|c [h|]|?|? ?|? ?|? ?|?|?]|? ?|? ?|? ?|?|?] //= _; split=> //; try exact: (AC c).
  by have [] := ta_atomic gorth AB.
by have [] := ta_atomic gorth (AC c).
Qed.

Lemma dict_of_uniq d : uniq (keys d) -> dict_of d = d.
Proof.
rewrite /dict_of => U.
have gen pre : uniq (keys (pre ++ d)) -> foldl (fun d0 x => dset d0 x.1 x.2) pre d = pre ++ d.
  elim: d pre {U} => [|[k c] d IH] pre /=; first by rewrite cats0.
  move=> U; have Nk : k \notin keys pre.
    by move: U; rewrite /keys map_cat cat_uniq /= => /and3P[_ /norP[]].
  by rewrite /dset /= (negbTE Nk) IH ?cat_rcons.
exact: (gen [::]).
Qed.

Lemma call_wfr0 r : wfr0 r -> call gdim gorth csize le r (Some g) = Ok r.
Proof.
case/orP=> [/nonsum0 -> //|]; case: r => // d p /andP[D P].
have [_ A U _ _] := and5P D.
have H : forall d', all (RepWf.key gdim csize le pred0) (keys d') ->
  (fix calld (d : seq (rep * nat)) : res (seq (rep * nat)) :=
    match d with
    | [::] => Ok [::]
    | (k, c) :: d' => do k' <- call gdim gorth csize le k (Some g); do l <- calld d'; Ok ((k', c) :: l)
    end) d' = Ok d'.
  by elim=> [|[k c] d' IH] //= /andP[/andP[/nonsum0 -> _] /IH ->].
rewrite /= H //= dict_of_uniq //; congr Ok.
exact: (sum_coll_self' O0).
Qed.

(** ** calling *)
Section Call.
Variable atom : rep -> fmat R.
Hypothesis HA : forall r, atomic r -> kok atom sz r.

Definition calls := fix calll (l : seq rep) : res (seq rep) :=
    match l with [::] => Ok [::] | k :: l' => do k' <- call gdim gorth csize le k (Some g); do l'' <- calll l'; Ok (k' :: l'') end.

Lemma calls_ok l : (forall k, k \in l -> dwf k /\ exists2 r', call gdim gorth csize le k (Some g) = Ok r' &
    wfr r' /\ meq (rmat atom r') (dden (atom \o inst) k)) ->
  exists2 rs, calls l = Ok rs & [/\ size rs = size l, all wfr rs,
    meq (fdsuml (map (rmat atom) rs)) (fdsuml (map (dden (atom \o inst)) l)) &
    meq (fkronl (map (rmat atom) rs)) (fkronl (map (dden (atom \o inst)) l))].
Proof.
elim: l => [|k l IH] H.
  by exists [::] => //; split=> //; apply: meq_refl.
have [_ [r' E [W M]]] := H k (mem_head _ _).
have [|rs E' [S A M1 M2]] := IH; first by move=> x Hx; apply: H; rewrite inE Hx orbT.
exists (r' :: rs); first by rewrite /= E /= E'.
by split; rewrite /= ?S ?W //; [apply: meq_fdsum | apply: meq_fkron].
Qed.

Lemma foldM_mul rs r : wfr r -> all wfr rs ->
  exists2 r', foldM (mul gdim csize le) r rs = Ok r' &
    wfr r' /\ meq (rmat atom r') (fkron (rmat atom r) (fkronl (map (rmat atom) rs))).
Proof.
elim: rs r => [|x rs IH] r W.
  by move=> _; exists r => //; split=> //; apply: meq_sym; apply: fkron_1_r.
move=> /= /andP[Wx Wr]; have [r' -> [W' S' M']] := mul_ok Hgs O HA W Wx; rewrite bindOk.
have [r'' -> [W'' M'']] := IH r' W' Wr; exists r'' => //; split=> //.
apply: meq_trans M'' _; apply: meq_trans (meq_fkron M' (meq_refl _)) _.
exact: meq_sym (fkron_assoc _ _ _).
Qed.

Theorem call_ok r : dwf r ->
  exists2 r', call gdim gorth csize le r (Some g) = Ok r' &
    wfr r' /\ meq (rmat atom r') (dden (atom \o inst) r).
Proof.
move=> W; elim/dwf_ind: W => {r} [r W|r L|l N H|l N H].
- exists r; first exact: call_wfr0.
  by split; [apply: wfr0_wfr | rewrite dden_wfr0 //; apply: wfr0_mat].
- have [A E] := inst_atomic L; exists (inst r) => //; split.
    exact: nonsum_wfr (atomic_sub _ A).
  by rewrite dden_leaf //= (rmat_atomic _ A); apply: meq_refl.
- have [rs E [S A M _]] := calls_ok H.
  rewrite -[call _ _ _ _ _ _]/(do l' <- calls l; sum_rep gdim csize le l' None) E bindOk.
  have [|r -> [H1 H2 H3 _]] := @sum_rep_ok gdim csize le gs O R atom HA rs None _ A isT.
    by move: N; rewrite /nilp -S.
  by exists r => //; split; [apply: issum_wfr | apply: meq_trans H3 M].
- have [rs E [S A _ M]] := calls_ok H.
  rewrite -[call _ _ _ _ _ _]/(do l' <- calls l; reduce_mul (mul gdim csize le) l') E bindOk.
  case: rs S A M {E} => [|x rs] S A M; first by move: N; rewrite /nilp -S.
  have /andP[Wx Wr] := A; have [r' E [W' M']] := foldM_mul Wx Wr; rewrite /reduce_mul E.
  by exists r' => //; split=> //; apply: meq_trans M' M.
Qed.
End Call.

(** ** flattening *)
Lemma fdsuml1' (X : fmat R) : meq (fdsuml [:: X]) X. Proof. exact: fdsuml1. Qed.
Lemma fkronl1' (X : fmat R) : meq (fkronl [:: X]) X. Proof. exact: fkron_1_r. Qed.

Lemma defsum_ok A rs : ~~ nilp rs -> all dwf rs ->
  dwf (defsum rs) /\ meq (dden A (defsum rs)) (fdsuml (map (dden A) rs)).
Proof.
move=> N W; rewrite /defsum /=; set F := fun r => _.
have gen l : all dwf l -> all dwf (flatten (map F l)) /\
    (~~ nilp l -> ~~ nilp (flatten (map F l))) /\
    meq (fdsuml (map (dden A) (flatten (map F l)))) (fdsuml (map (dden A) l)).
  elim: l => [|x l IH] /=; first by split=> //; split=> //; apply: meq_refl.
  case/andP=> Wx /IH[W1 [N1 M1]].
  have [W2 N2 M2] : [/\ all dwf (F x), ~~ nilp (F x) & meq (fdsuml (map (dden A) (F x))) (dden A x)].
    have [-> |[k Ex]] : F x = [:: x] \/ exists k, x = RDefSum k.
      by rewrite /F; case: (x); do ?[by left | by move=> k; right; exists k | move=> ?].
    - by split; rewrite /= ?andbT //; apply: fdsuml1'.
    - by move: Wx; rewrite Ex => /andP[Nk Wk]; split=> //; apply: meq_refl.
  split; first by rewrite all_cat W2.
  split; first by rewrite /nilp size_cat addn_eq0 negb_and N2.
  rewrite map_cat; apply: meq_trans (fdsuml_cat _ _) _; exact: meq_fdsum.
by have [W1 [N1 M1]] := gen rs W; rewrite W1 N1.
Qed.

Lemma no_prod rs : all dwf rs -> has (fun r => match r with RProd _ _ | RDir _ _ => true | _ => false end) rs = false.
Proof. by elim: rs => [|x rs IH] //= /andP[W /IH ->]; case: x W. Qed.

Lemma defprod_ok A rs : ~~ nilp rs -> all dwf rs ->
  exists2 r, defprod rs = Ok r & dwf r /\ meq (dden A r) (fkronl (map (dden A) rs)).
Proof.
move=> N W; rewrite /defprod no_prod //; eexists; first by [].
set F := fun r => _; rewrite /=.
have gen l : all dwf l -> all dwf (flatten (map F l)) /\
    (~~ nilp l -> ~~ nilp (flatten (map F l))) /\
    meq (fkronl (map (dden A) (flatten (map F l)))) (fkronl (map (dden A) l)).
  elim: l => [|x l IH] /=; first by split=> //; split=> //; apply: meq_refl.
  case/andP=> Wx /IH[W1 [N1 M1]].
  have [W2 N2 M2] : [/\ all dwf (F x), ~~ nilp (F x) & meq (fkronl (map (dden A) (F x))) (dden A x)].
    have [-> |[k Ex]] : F x = [:: x] \/ exists k, x = RDefProd k.
      by rewrite /F; case: (x); do ?[by left | by move=> k; right; exists k | move=> ?].
    - by split; rewrite /= ?andbT //; apply: fkronl1'.
    - by move: Wx; rewrite Ex => /andP[Nk Wk]; split=> //; apply: meq_refl.
  split; first by rewrite all_cat W2.
  split; first by rewrite /nilp size_cat addn_eq0 negb_and N2.
  rewrite map_cat; apply: meq_trans (fkronl_cat _ _) _; exact: meq_fkron.
by have [W1 [N1 M1]] := gen rs W; rewrite /= W1 N1.
Qed.

(** ** operators *)
Let noatom (r : rep) : RepWf.atomic gdim csize pred0 r -> kok (fun _ => fzero R 0 0) sz r.
Proof. by move/negP: (atomic0 r). Qed.

Lemma dadd_ok A a b : dwf a -> dwf b ->
  exists2 r, add gdim csize le a b = Ok r & dwf r /\ meq (dden A r) (fdsum (dden A a) (dden A b)).
Proof.
move=> Wa Wb; rewrite /add /both_concrete !dwf_concrete //.
case: ifP => [/andP[Wa0 Wb0]|_].
  have [r E [H1 H2 H3]] := add_ok O0 noatom Wa0 Wb0.
  have Wr := issum_wfr H1.
  exists r; first by move: E; rewrite /add /both_concrete !dwf_concrete // Wa0 Wb0.
  split; first exact: dwf_wfr0.
  rewrite !dden_wfr0 // H2; exact: meq_sym (fdsum_id _ _ _).
have [|W M] := @defsum_ok A [:: a; b] isT; first by rewrite /= Wa Wb.
eexists; first by []. split=> //; apply: meq_trans M _; apply: meq_fdsum; first exact: meq_refl.
exact: fdsum_0r.
Qed.

Lemma dmul_ok A a b : dwf a -> dwf b ->
  exists2 r, mul gdim csize le a b = Ok r & dwf r /\ meq (dden A r) (fkron (dden A a) (dden A b)).
Proof.
move=> Wa Wb.
case E : (a == RScalar).
  by move/eqP: E => ->; exists b => //; split=> //; apply: meq_sym; apply: fkron_1_l.
have [rp Ep [Wp Mp]] := @defprod_ok A [:: a; b] isT ltac:(by rewrite /= Wa Wb).
have Mp' : meq (dden A rp) (fkron (dden A a) (dden A b)).
  apply: meq_trans Mp _; apply: meq_fkron; first exact: meq_refl. exact: fkron_1_r.
case Bc : (both_concrete a b).
  move: (Bc); rewrite /both_concrete !dwf_concrete // => /andP[Wa0 Wb0].
  have C : compat gdim csize le pred0 (fun _ => fzero R 0 0) a b by apply: (compat1 Hgs0 O0 noatom).
  have [r Er [H1 H2 H3]] := mul_ok_gen O0 noatom Wa0 Wb0 C.
  exists r => //; split; first exact: dwf_wfr0.
  rewrite !dden_wfr0 // H2; exact: meq_sym (fkron_id _ _ _).
have -> : mul gdim csize le a b = if is_sum a || is_sum b then defprod [:: a; b] else mul_base gdim csize le a b.
  by rewrite /mul Bc; case: (a) E.
case: ifP => [_|Ns]; first by exists rp.
case F : (b == RScalar).
  move/eqP: F => F; rewrite F; exists a; first by case: (a) E.
  by split=> //; apply: meq_sym; apply: fkron_1_r.
exists rp => //; rewrite -Ep /mul_base Bc /=.
by case: (a) E => //; case: (b) F.
Qed.

Lemma dmul_int_ok A a n : dwf a ->
  exists2 r, mul_int gdim csize le a (Posz n.+1) = Ok (VRep r) & dwf r /\ meq (dden A r) (fdsuml (nseq n.+1 (dden A a))).
Proof.
move=> W; case: n => [|n].
  by exists a => //; split=> //; apply: meq_sym; apply: fdsuml1.
case Ca : (concrete a).
  have Wa0 : wfr0 a by rewrite -dwf_concrete.
  have [r E [H1 H2 H3]] := @mul_int_ok gdim csize le pred0 O0 R _ noatom a n.+2 Wa0 isT.
  exists r => //; split; first exact: dwf_wfr0.
  rewrite !dden_wfr0 // H2; apply: meq_sym.
  elim: {E H2} (n.+2) => [|m IH]; first by split.
  apply: meq_trans (meq_fdsum (meq_refl _) IH) _; rewrite mulSn; exact: fdsum_id.
have [|Wd M] := @defsum_ok A (nseq n.+2 a) isT; first by rewrite all_nseq W orbT.
eexists; first by rewrite /mul_int Ca.
by split=> //; move: M; rewrite map_nseq.
Qed.

Lemma dpow_ok A a n : dwf a ->
  exists2 r, pow gdim csize le a n = Ok r & dwf r /\ meq (dden A r) (fkronl (nseq n (dden A a))).
Proof.
move=> W; elim: n => [|n [r E [H1 H3]]].
  by exists RScalar => //; split=> //; apply: meq_refl.
have [r' E' [K1 K3]] := dmul_ok A H1 W.
exists r'.
  have foldM_rcons (T S : Type) (f : S -> T -> res S) l x s :
      foldM f s (rcons l x) = do y <- foldM f s l; f y x.
    elim: l s => [|y l IH] s /=; first by case: (f s x).
    by case: (f s y).
  have -> : pow gdim csize le a n.+1 = do y <- pow gdim csize le a n; mul gdim csize le y a.
    by rewrite /pow -foldM_rcons; congr foldM; elim: (n) => //= m ->.
  by rewrite E.
split=> //.
apply: meq_trans K3 _; apply: meq_trans (meq_fkron H3 (meq_refl _)) _.
exact: fkronl_nseqS.
Qed.

(** .T *)
Definition td (r : rep) : rep := if r is RDual s then s else RDual r.
Definition trls := fix trl (l : seq rep) : res (seq rep) :=
    match l with [::] => Ok [::] | k :: l' => do k' <- tr gdim gorth csize le k; do l'' <- trl l'; Ok (k' :: l'') end.

Lemma dtr_ok A r : dwf r ->
  exists2 r', tr gdim gorth csize le r = Ok r' & dwf r' /\ meq (dden A r') (dden (A \o td) r).
Proof.
have L l : (forall k, k \in l -> dwf k /\ exists2 r', tr gdim gorth csize le k = Ok r' & dwf r' /\ meq (dden A r') (dden (A \o td) k)) ->
    exists2 rs, trls l = Ok rs & [/\ size rs = size l, all dwf rs,
    meq (fdsuml (map (dden A) rs)) (fdsuml (map (dden (A \o td)) l)) &
    meq (fkronl (map (dden A) rs)) (fkronl (map (dden (A \o td)) l))].
  elim: l => [|k l IH] H; first by exists [::] => //; split=> //; apply: meq_refl.
  have [_ [r' E [W M]]] := H k (mem_head _ _).
  have [|rs E' [S W' M1 M2]] := IH; first by move=> x Hx; apply: H; rewrite inE Hx orbT.
  exists (r' :: rs); first by rewrite /= E /= E'.
  by split; rewrite /= ?S ?W //; [apply: meq_fdsum | apply: meq_fkron].
move=> W; elim/dwf_ind: W => {r} [r W|r D|l N /L[rs E [S W M _]]|l N /L[rs E [S W _ M]]].
- have [r' E [H1 H2 H3]] := tr_ok gorth Hgs0 O0 noatom W.
  exists r' => //; split; first exact: dwf_wfr0.
  by rewrite !dden_wfr0 // H2; apply: meq_refl.
- exists (td r); first by case: r D => // [[]|c []].
  have Dt : dleaf (td r) by case: r D => [|[h|]|c [h|]|[|[h|]|c [h|]|?|? ?|? ?|? ?|?|?]|? ?|? ?|? ?|?|?].
  by split; [apply: dwf_leaf | rewrite !dden_leaf //=; apply: meq_refl].
- rewrite -[tr _ _ _ _ _]/(do l' <- trls l; Ok (defsum l')) E bindOk.
  have N' : ~~ nilp rs by move: N; rewrite /nilp -S.
  have [Wd Md] := @defsum_ok A rs N' W.
  by eexists; [by [] | split=> //; apply: meq_trans Md M].
- rewrite -[tr _ _ _ _ _]/(do l' <- trls l; defprod l') E bindOk.
  have N' : ~~ nilp rs by move: N; rewrite /nilp -S.
  have [r -> [Wd Md]] := @defprod_ok A rs N' W.
  by exists r => //; split=> //; apply: meq_trans Md M.
Qed.

(** ** expressions *)
Definition drel (A : rep -> fmat R) (s : sval R) (v : val) : Prop :=
  match s, v with
  | SInt n, VInt z => z = Posz n
  | SMat X, VRep r => dwf r /\ meq (dden A r) X
  | _, _ => False
  end.

Theorem evalN_ok e : forall (L : rep -> fmat R) (A B : option nat -> fmat R) s,
  (forall l, A l = L (leafrep None l)) ->
  (forall l, B l = L (RDual (leafrep None l))) ->
  espec A B e = Some s ->
  exists2 v, eval gdim gorth csize le None e = Ok v & drel L s v.
Proof.
elim: e => [|c||n|a IHa b IHb|a IHa b IHb|a IHa|a IHa n] L A B s EA EB.
- by move=> [<-]; exists (VRep (RBase None)) => //; split=> //=; rewrite EA; apply: meq_refl.
- by move=> [<-]; exists (VRep (RCustom c None)) => //; split=> //=; rewrite EA; apply: meq_refl.
- by move=> [<-]; exists (VRep RScalar) => //; split=> //; apply: meq_refl.
- by move=> [<-]; exists (VInt (Posz n)).
- rewrite /=; case Ea : (espec A B a) => [sa|] //; case Eb : (espec A B b) => [sb|] //; last by case: sa {Ea}.
  have [va -> Va] := IHa L A B sa EA EB Ea; have [vb -> Vb] := IHb L A B sb EA EB Eb.
  have Sc n : exists2 r, mul_int gdim csize le RScalar (Posz n.+1) = Ok (VRep r) & dwf r /\ meq (dden L r) (fid R n.+1).
    have [r E [W M]] := @dmul_int_ok L RScalar n isT; exists r => //; split=> //.
    apply: meq_trans M _; exact: fdsuml_fid1.
  case: sa va Va {Ea} => [m|X] [z|ra] // Va; case: sb vb Vb {Eb} => [n|Y] [z'|rb] // Vb; rewrite !bindOk.
  + by case=> <-; rewrite Va Vb; exists (VInt (Posz (m + n))) => //=; rewrite PoszD.
  + case=> <-; rewrite Va; case: Vb => Wb Mb.
    case: m {Va} => [|m].
      by exists (VRep rb) => //; split=> //; apply: meq_trans Mb (meq_sym (fdsum_0l _)).
    have [s' E' [Ws Ms]] := Sc m.
    rewrite /add_val E' bindOk.
    have [r -> [H1 H3]] := dadd_ok L Ws Wb.
    by exists (VRep r) => //; split=> //; apply: meq_trans H3 (meq_fdsum Ms Mb).
  + case=> <-; rewrite Vb; case: Va => Wa Ma.
    case: n {Vb} => [|n].
      by exists (VRep ra) => //; split=> //; apply: meq_trans Ma _; apply: meq_sym;
         apply: meq_trans (fdsum_0r X); apply: meq_fdsum.
    have [s' E' [Ws Ms]] := Sc n.
    rewrite /add_val E' bindOk.
    have [r -> [H1 H3]] := dadd_ok L Wa Ws.
    by exists (VRep r) => //; split=> //; apply: meq_trans H3 (meq_fdsum Ma Ms).
  + case=> <-; case: Va Vb => Wa Ma [Wb Mb].
    have [r E [H1 H3]] := dadd_ok L Wa Wb.
    exists (VRep r); first by rewrite /= E.
    by split=> //; apply: meq_trans H3 (meq_fdsum Ma Mb).
- rewrite /=; case Ea : (espec A B a) => [sa|] //; case Eb : (espec A B b) => [sb|] //; last by case: sa {Ea}.
  have [va -> Va] := IHa L A B sa EA EB Ea; have [vb -> Vb] := IHb L A B sb EA EB Eb.
  have Hint n r X (z : int) : z = Posz n -> dwf r /\ meq (dden L r) X -> exists2 v, mul_int gdim csize le r z = Ok v &
      drel L (if n is 0 then SInt R 0 else SMat (fdsuml (nseq n X))) v.
    move=> -> [W M]; case: n => [|n]; first by exists (VInt 0).
    have [r' -> [W' M']] := @dmul_int_ok L r n W.
    by exists (VRep r') => //; split=> //; apply: meq_trans M' _; apply: meq_nseq_sum.
  case: sa va Va {Ea} => [m|X] [z|ra] // Va; case: sb vb Vb {Eb} => [n|Y] [z'|rb] // Vb; rewrite !bindOk.
  + by case=> <-; rewrite Va Vb; exists (VInt (Posz (m * n))) => //=; rewrite PoszM.
  + by case=> <-; apply: Hint.
  + by case=> <-; apply: Hint.
  + case=> <-; case: Va Vb => Wa Ma [Wb Mb].
    have [r E [H1 H3]] := dmul_ok L Wa Wb.
    exists (VRep r); first by rewrite /= E.
    by split=> //; apply: meq_trans H3 (meq_fkron Ma Mb).
- rewrite /=; case Ea : (espec B A a) => [[m|X]|] // [<-].
  have [||v -> V] := IHa (L \o td) B A (SMat X) _ _ Ea.
  + by move=> [c|] /=; rewrite EB.
  + by move=> [c|] /=; rewrite EA.
  case: v V => // r [W M]; rewrite bindOk.
  have [r' -> [W' M']] := dtr_ok L W.
  by exists (VRep r') => //; split=> //; apply: meq_trans M' M.
- rewrite /=; case Ea : (espec A B a) => [sa|] //.
  have [va -> Va] := IHa L A B sa EA EB Ea.
  case: sa va Va {Ea} => [m|X] [z|ra] // Va; rewrite bindOk => -[<-].
    exists (VInt (z ^+ n)%R) => //=; rewrite Va; elim: (n) => [|k IH] //.
    by rewrite exprS expnS PoszM IH.
  case: Va => W M; have [r -> [H1 H3]] := dpow_ok L n W.
  by exists (VRep r) => //; split=> //; apply: meq_trans H3 _; apply: meq_nseq_kron.
Qed.

(** building from V and instantiating = building from V(G) *)
Theorem deferred_ok e (atom : rep -> fmat R) (A B : option nat -> fmat R) X :
  (forall r, atomic r -> kok atom sz r) ->
  (forall l, A l = atom (leafrep (Some g) l)) ->
  (forall l, B l = atom (ta (leafrep (Some g) l))) ->
  espec A B e = Some (SMat X) ->
  exists v r, [/\ eval gdim gorth csize le None e = Ok v,
    call_val gdim gorth csize le v (Some g) = Ok (VRep r), wfr r & meq (rmat atom r) X].
Proof.
move=> HA EA EB E.
have [||v Ev V] := @evalN_ok e (atom \o inst) A B (SMat X) _ _ E.
- by move=> [c|]; rewrite EA.
- by move=> [c|]; rewrite EB.
case: v Ev V => // d Ed [Wd Md].
have [r Er [Wr Mr]] := call_ok HA Wd.
exists (VRep d), r; split=> //; first by rewrite /= Er.
exact: meq_trans Mr Md.
Qed.
End Mat.
End D.
