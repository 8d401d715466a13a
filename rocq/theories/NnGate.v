(** * NnGate: gated, gate_indices and the gated nonlinearity. *)
From mathcomp Require Import all_ssreflect all_algebra.
From mathcomp Require Import zify.
From Verif Require Import Np NpLemmas Spec SpecLemmas LinOp LinOpSpec LinOpProofs Rep RepSpec RepMat RepWf RepFun RepAlg RepMul RepOps RhoProofs RepThm RepThm1 Solver SolSpec SolAlg Nn NnSpec NnLin.
Set Implicit Arguments.
Unset Strict Implicit.
Unset Printing Implicit Defensive.
Import GRing.Theory.
Local Open Scope ring_scope.

(** ** positions in a direct sum *)
Section Off.
Variable sz : rep -> nat.
Local Notation off := (off sz).
Lemma offS k ks t : off (k :: ks) t.+1 = (sz k + off ks t)%N. Proof. by []. Qed.
Lemma off_lt ks t j : (t < size ks)%N -> (j < sz (nth RScalar ks t))%N -> (off ks t + j < sumn (map sz ks))%N.
Proof.
elim: ks t => [//|k ks IH] [|t] /=; first by rewrite /off /= add0n => _ H; rewrite ltn_addr.
by move=> Ht Hj; rewrite offS -addnA ltn_add2l; apply: IH.
Qed.
Lemma off_ex ks i : (i < sumn (map sz ks))%N ->
  exists t j, [/\ (t < size ks)%N, (j < sz (nth RScalar ks t))%N & i = (off ks t + j)%N].
Proof.
elim: ks i => [//|k ks IH] i /=; case: (ltnP i (sz k)) => Hi H; first by exists 0%N, i.
have [|t [j [Ht Hj E]]] := IH (i - sz k)%N; first by rewrite ltn_subLR.
by exists t.+1, j; split=> //; rewrite offS -addnA -E subnKC.
Qed.

Variable R : comRingType.
Variable A : rep -> fmat R.
Lemma mv_dsuml ks (x : nat -> R) t j : (forall k, k \in ks -> sqn (sz k) (A k)) ->
  (t < size ks)%N -> (j < sz (nth RScalar ks t))%N ->
  mv (fdsuml (map A ks)) x (off ks t + j) = mv (A (nth RScalar ks t)) (fun l => x (off ks t + l)%N) j.
Proof.
elim: ks t x => [//|k ks IH] t x HA Ht Hj /=; rewrite mv_fdsum.
have [h1 h2] := HA k (mem_head _ _); rewrite h1.
case: t Ht Hj => [|t] /= Ht Hj; first by rewrite /off /= add0n Hj.
rewrite offS -addnA ltnNge leq_addr /= addKn IH //; last by move=> k' H; apply: HA; rewrite inE H orbT.
by rewrite h2; apply: mv_ext => l _; rewrite addnA.
Qed.
End Off.

Section G.
Variables (gdim : gid -> nat) (csize : nat -> gid -> nat) (le : rel rep) (g : gid).
Variables (gperm : gid -> bool) (cperm : nat -> bool).
Local Notation gs := (pred1 g).
Local Notation sz := (rsize gdim csize).
Local Notation key := (key gdim csize le gs).
Local Notation wfr := (wfr gdim csize le gs).
Local Notation atomic := (atomic gdim csize gs).
Local Notation needs_gate := (needs_gate gperm cperm).
Local Notation isperm := (isperm gperm cperm).
Local Notation gated := (gated gdim csize le gperm cperm).
Hypothesis O : total_order_on key le.

(** ** gate_indices *)
Lemma slice_iota N i n : (i + n <= N)%N -> slice i (i + n) (iota 0 N) = iota i n.
Proof.
move=> H; apply: (@eq_from_nth _ 0%N); rewrite size_slice ?size_iota ?leq_addr ?addKn // => t Ht.
by rewrite nth_slice ?ltn_add2l // !nth_iota ?add0n //; lia.
Qed.

Lemma gate_loopP ch N ks : forall i n idx, size idx = N -> (i + sumn (map sz ks) <= N)%N ->
  exists2 l, gate_loop gdim csize gperm cperm ch (iota 0 N) ks i n idx = Ok l &
  [/\ size l = N, forall x, (x < i)%N -> nth 0%N l x = nth 0%N idx x &
      forall t j, (t < size ks)%N -> (j < sz (nth RScalar ks t))%N ->
        nth 0%N l (i + off sz ks t + j) =
        if needs_gate (nth RScalar ks t) then (ch + (n + count needs_gate (take t ks)))%N
        else nth 0%N idx (i + off sz ks t + j)].
Proof.
elim: ks => [|k ks IH] i n idx S H /=; first by exists idx.
rewrite /= in H.
case NG : (needs_gate k).
  rewrite slice_iota; last lia.
  rewrite /set_at S (_ : all _ _ = true) ?bindOk; last first.
    by apply/allP=> x; rewrite mem_iota; lia.
  set idx' := mkseq _ _.
  have [||l E [S' L1 L2]] := IH (i + sz k)%N n.+1 idx'; rewrite ?size_mkseq //; first lia.
  have ND x : (x < N)%N -> nth 0%N idx' x = if (i <= x < i + sz k)%N then (ch + n)%N else nth 0%N idx x.
    by move=> Hx; rewrite nth_mkseq // mem_iota.
  exists l => //; split=> // [x Hx|t j Ht Hj].
    rewrite L1; last lia. rewrite ND; last lia. by rewrite leqNgt Hx.
  case: t Ht Hj => [|t] /= Ht Hj.
    rewrite NG /off /= !addn0 L1 ?ND; [|lia..]; by rewrite leq_addr ltn_add2l Hj.
  rewrite offS NG !addnA L2 // -addnA; case: ifP => _; first lia.
  by rewrite ND; [case: ifP => //; lia | have := off_lt Ht Hj; lia].
have [||l E [S' L1 L2]] := IH (i + sz k)%N n idx => //; first lia.
exists l => //; split=> // [x Hx|t j Ht Hj]; first by rewrite L1 //; lia.
case: t Ht Hj => [|t] /= Ht Hj.
  by rewrite NG /off /= !addn0 L1 //; lia.
by rewrite offS NG add0n addnA L2.
Qed.

Theorem gate_indices_ok d : exists2 l,
  gate_indices gdim csize gperm cperm (RSum d (iota 0 (sz (RSum d [::])))) = Ok (IntIdx l) &
  size l = sz (RSum d [::]) /\
  forall t j, (t < size (dexp d))%N -> (j < sz (nth RScalar (dexp d) t))%N ->
    nth 0%N l (off sz (dexp d) t + j) =
    if needs_gate (nth RScalar (dexp d) t) then (sz (RSum d [::]) + count needs_gate (take t (dexp d)))%N
    else (off sz (dexp d) t + j)%N.
Proof.
set N := sz _.
have SN : sumn (map sz (dexp d)) = N by rewrite sumn_dexp.
have [||l E [S _ L]] := @gate_loopP N N (dexp d) 0%N 0%N (arange N); rewrite ?size_iota ?add0n ?SN //.
exists l; last first.
  split=> // t j Ht Hj; have := L t j Ht Hj; rewrite !add0n => ->; case: ifP => // _.
  by rewrite nth_iota ?add0n // -SN off_lt.
by rewrite /gate_indices /= size_iota eqxx /= -/N E.
Qed.

(** ** gated *)
Local Notation gates := (gates gperm cperm).

Lemma gattr_key k : key k -> exists x, gattr k = Some x.
Proof.
case/andP=> /(@nonsum1 gdim csize le g gs (fun h H => eqP H))[-> _|]; first by exists None.
by rewrite /pfactor; case: (gattr k) => [x|]; [exists x | rewrite andbF].
Qed.

Variable R : comRingType.
Variable atom : rep -> fmat R.
Hypothesis HA : forall r, atomic r -> kok atom sz r.
Local Notation rmat := (rmat atom).

Lemma scalar_wfr : wfr RScalar. Proof. by []. Qed.

Lemma sum_scalars n r m : wfr r -> sz r = m -> meq (rmat r) (fid R m) ->
  exists2 s, foldM (add_val gdim csize le) (VRep r) (nseq n (VRep RScalar)) = Ok (VRep s) &
  [/\ wfr s, sz s = (m + n)%N & meq (rmat s) (fid R (m + n))].
Proof.
elim: n r m => [|n IH] r m W S M /=; first by exists r; rewrite ?addn0.
have [s -> [Ws Ss Ms]] := add_ok O HA W scalar_wfr.
have [|||s' E' [Ws' Ss' Ms']] := IH s m.+1; first exact: issum_wfr.
- by rewrite Ss S addn1.
- apply: meq_trans Ms _; apply: meq_trans (meq_fdsum M (meq_refl _)) _; rewrite -addn1; exact: fdsum_id.
by exists s' => //; rewrite addnS -addSn.
Qed.

Theorem gated_ok r : wfr r ->
  exists2 r', gated r = Ok (VRep r') &
  [/\ wfr r', sz r' = (sz r + gates r)%N, meq (rmat r') (fdsum (rmat r) (fid R (gates r))) &
      (if r is RSum _ _ then issum gdim csize le gs r' else true)].
Proof.
move=> W.
have plus0 : meq (rmat r) (fdsum (rmat r) (fid R 0)).
  have [h1 h2] := rmat_sqn W HA.
  split=> /=; rewrite ?addn0 // => i j Hi Hj; by rewrite Hi Hj.
have plus1 : exists2 r', rmap VRep (add gdim csize le r RScalar) = Ok (VRep r') &
  [/\ issum gdim csize le gs r', sz r' = (sz r + 1)%N & meq (rmat r') (fdsum (rmat r) (fid R 1))].
  by have [s -> [Ws Ss Ms]] := add_ok O HA W scalar_wfr; exists s.
have nonsum_case : ~~ issum gdim csize le gs r ->
   (forall d p, r <> RSum d p) -> exists2 r', gated r = Ok (VRep r') &
   [/\ wfr r', sz r' = (sz r + gates r)%N & meq (rmat r') (fdsum (rmat r) (fid R (gates r)))].
  move=> NS ND; have -> : gates r = ~~ isperm r by case: (r) ND => // d p /(_ d p).
  have -> : gated r = if isperm r then Ok (VRep r) else do s <- scalar_of r; add_val gdim csize le (VRep r) s.
    by case: (r) ND => // d p /(_ d p).
  case IP : (isperm r); first by exists r => //; rewrite addn0.
  have [x Ex] : exists x, gattr r = Some x.
    case/orP: W => [W|]; last by rewrite (negbTE NS).
    case: (nonsum1 (fun h H => eqP H) W) => [->|]; first by exists None.
    by rewrite /pfactor; case: (gattr r) => [x|]; [exists x | rewrite andbF].
  rewrite /scalar_of Ex bindOk /=.
  by have [s -> [Ws Ss Ms]] := plus1; exists s => //; split=> //; exact: issum_wfr.
case: r W plus0 plus1 nonsum_case => [|G|c G|q|d p|d p|d p|l|l] W plus0 plus1 nonsum_case; try
  (by have [//|r' E [H1 H2 H3]] := nonsum_case isT; exists r').
have Wk : all key (keys d) by case/orP: W => // /andP[/and5P[]].
have EM : mapM scalar_of [seq k <- dexp d | needs_gate k] = Ok (nseq (count needs_gate (dexp d)) (VRep RScalar)).
  rewrite (@mapM_ok_in _ _ scalar_of (fun=> VRep RScalar)).
    by rewrite -size_filter; congr Ok; elim: (filter _ _) => //= k l ->.
  move=> k; rewrite mem_filter => /andP[_ /flattenP[s /mapP[x Hx ->] /nseqP[-> _]]].
  have /gattr_key[y E] : key x.1 by apply: (allP Wk); apply: map_f.
  by rewrite /scalar_of E.
rewrite /Nn.gated EM bindOk /gates; case C : (count needs_gate (dexp d)) => [|n] /=.
  exists (RSum d p); rewrite ?addn0 //; split=> //.
rewrite /sum_vals /=.
have [s -> [Ws Ss Ms]] := @sum_scalars n RScalar 1 scalar_wfr erefl (meq_refl _).
rewrite bindOk /=; have [s' -> [Ws' Ss' Ms']] := add_ok O HA W Ws.
exists s' => //; split=> //; first exact: issum_wfr.
- by rewrite Ss' Ss.
by apply: meq_trans Ms' _; apply: meq_fdsum.
Qed.
End G.

(** ** the gated nonlinearity *)
Section E.
Variable R : comRingType.
Variables (conj sinv : R -> R) (linv : nat -> seq R -> seq R).
Variables (crho : nat -> option gid -> gel R -> res (op R)).
Variables (gdim : gid -> nat) (csize : nat -> gid -> nat) (le : rel rep) (g : gid).
Variables (gperm : gid -> bool) (cperm : nat -> bool).
Variable E : gel R -> Prop.
Variable act : R -> R.
Local Notation gs := (pred1 g).
Local Notation sz := (rsize gdim csize).
Local Notation key := (key gdim csize le gs).
Local Notation wfr := (wfr gdim csize le gs).
Local Notation group_elem := (group_elem conj sinv linv crho gdim csize gs).
Local Notation arho := (arho sinv linv crho).
Local Notation rM := (rM sinv linv crho).
Local Notation equivariant := (equivariant conj sinv linv crho gdim csize E).
Local Notation needs_gate := (needs_gate gperm cperm).
Local Notation isperm := (isperm gperm cperm).
Local Notation gated := (gated gdim csize le gperm cperm).
Local Notation gates := (gates gperm cperm).
Local Notation gated_call := (gated_call gdim csize gperm cperm act).
Local Notation acts_by_permutations := (acts_by_permutations conj sinv linv crho gdim csize E).
Hypothesis O : total_order_on key le.
Hypothesis HE : forall M, E M -> group_elem M.

Lemma key_wfr k : key k -> wfr k. Proof. by case/andP=> H _; rewrite /RepWf.wfr H. Qed.
Lemma sum_keys d p : wfr (RSum d p) -> all key (keys d).
Proof. by case/orP=> // /andP[/and5P[]]. Qed.
Lemma sum_perm d p : wfr (RSum d p) -> is_perm (sz (RSum d p)) p.
Proof. by case/orP=> // /andP[]. Qed.
Lemma dexp_mem d k : k \in dexp d -> k \in keys d.
Proof. by case/flattenP=> s /mapP[x Hx ->] /nseqP[-> _]; apply: map_f. Qed.
Lemma dexp_key d p t : wfr (RSum d p) -> (t < size (dexp d))%N -> key (nth RScalar (dexp d) t).
Proof. by move=> W Ht; apply: (allP (sum_keys W)); apply: dexp_mem; apply: mem_nth. Qed.

(** the coordinates of one summand are transformed by its own matrix *)
Lemma mv_sum d p M (x : nat -> R) t j : wfr (RSum d p) -> E M ->
  (t < size (dexp d))%N -> (j < sz (nth RScalar (dexp d) t))%N ->
  mv (rM (RSum d p) M) x (nth 0%N p (off sz (dexp d) t + j)) =
  mv (rM (nth RScalar (dexp d) t) M) (fun l => x (nth 0%N p (off sz (dexp d) t + l))) j.
Proof.
move=> W HM Ht Hj; rewrite /NnLin.rM /= dexp_rmat.
have P := sum_perm W; have SN : sumn (map sz (dexp d)) = sz (RSum d p) by rewrite sumn_dexp.
have HK k : k \in dexp d -> sqn (sz k) (rmat (arho M) k).
  move=> /dexp_mem Hk; apply: (rM_sqn HE (le := le) (g := g)) => //; apply: key_wfr; exact: (allP (sum_keys W)).
have L := off_lt Ht Hj; rewrite SN in L.
have SQ : sqn (sz (RSum d p)) (fdsuml [seq rmat (arho M) r | r <- dexp d]).
  by rewrite -SN; split; [apply: (fr_fdsuml HK) | apply: (fc_fdsuml HK)].
rewrite (mv_fscat _ P SQ (is_perm_nth P L)) index_uniq ?(is_perm_size P) ?(is_perm_uniq P) //.
by rewrite (mv_dsuml _ HK).
Qed.

(** gated keeps the representation and adds invariant coordinates *)
Lemma gated_rM r r' M : wfr r -> gated r = Ok (VRep r') -> E M ->
  [/\ wfr r', sz r' = (sz r + gates r)%N & meq (rM r' M) (fdsum (rM r M) (fid R (gates r)))].
Proof.
move=> W Er HM.
have HA k Hk := @arho_kok R conj sinv linv crho gdim csize gs M k (HE HM) Hk.
have [s Es [h1 h2 h3 _]] := gated_ok gperm cperm O HA W.
by move: Er; rewrite Es => -[<-].
Qed.

Definition gfun (l : seq nat) (x : nat -> R) (i : nat) : R := act (x (nth 0%N l i)) * x i.

Theorem gated_call_equivariant d p r' : wfr (RSum d p) -> p = iota 0 (sz (RSum d p)) ->
  gated (RSum d p) = Ok (VRep r') ->
  (forall k, k \in keys d -> isperm k -> acts_by_permutations k) ->
  equivariant r' (RSum d p) (fun bs => gated_call (RSum d p) bs (sz r')).
Proof.
set r := RSum d p => W Ep Er Htruth.
have [l El [Sl Hl]] := gate_indices_ok gdim csize gperm cperm d.
rewrite -[sz (RSum d [::])]/(sz r) -Ep -/r in El Sl Hl.
have [s Es [Wr' Sr' _ _]] := gated_ok (R := R) (atom := fun k => fid R (sz k)) gperm cperm O (fun k _ => Logic.conj erefl erefl) W.
move: Er; rewrite Es => -[E1]; subst s.
have SN : sumn (map sz (dexp d)) = sz r by rewrite sumn_dexp.
have Llt i : (i < sz r)%N -> (nth 0%N l i < sz r')%N.
  rewrite -SN => /off_ex[t [j [Ht Hj ->]]]; rewrite Hl //; case: ifP => NG; rewrite Sr'; last first.
    by rewrite ltn_addr // -SN off_lt.
  rewrite ltn_add2l /gates /r -[X in (_ < count _ X)%N](cat_take_drop t) count_cat -{1}[count _ _]addn0 ltn_add2l.
  rewrite (drop_nth RScalar Ht) /=; by move: NG; rewrite /Nn.needs_gate => ->.
have RW : rowwise (sz r') (sz r) (fun bs => gated_call r bs (sz r')) (gfun l).
  move=> bs X S; rewrite /Nn.gated_call S eqxx /= El bindOk Sl eqxx Sr' ltnNge leq_addr /=; eexists; first reflexivity.
  split; first by rewrite size_mkseq.
  move=> b i Hb Hi; rewrite /rv nth_mkseq ?idx_lt // idx_div // idx_mod // /gfun.
  have := Llt i Hi; rewrite Sr' => Li.
  by rewrite (minn_idPl _) // -ltnS prednK //; apply: leq_ltn_trans Li.
apply: (rowwise_equivariant HE Wr' W RW) => M x y i HM Hy Hi.
have [_ _ EM] := gated_rM W Es HM.
have [r1 r2] := rM_sqn HE W HM; have [q1 q2] := rM_sqn HE Wr' HM.
have Hy1 i' : (i' < sz r)%N -> y i' = mv (rM r M) x i'.
  move=> Hi'; have L' : (i' < sz r')%N by rewrite Sr' ltn_addr.
  by rewrite Hy // (mv_eq (v := x) (w := x) EM) ?q1 // mv_fdsum r1 Hi'.
have Hy2 i' : (sz r <= i')%N -> (i' < sz r')%N -> y i' = x i'.
  move=> Hi' L'; rewrite Hy // (mv_eq (v := x) (w := x) EM) ?q1 // mv_fdsum r1 r2 ltnNge Hi' /=.
  rewrite /mv /= (sum_delta (fun j => x (sz r + j)%N)); first by rewrite subnKC.
  by move: L'; rewrite Sr' /gates /=; move: Hi'; rewrite /=; clear; lia.
rewrite -SN in Hi; have [t [j [Ht Hj Ei]]] := off_ex Hi; rewrite SN in Hi.
set k := nth RScalar (dexp d) t in Hj *.
have Hk : k \in keys d by apply: dexp_mem; apply: mem_nth.
have Wk : wfr k by apply: key_wfr; exact: (allP (sum_keys W)).
have pE c : (c < sz r)%N -> nth 0%N p c = c by move=> Hc; rewrite Ep nth_iota ?add0n.
have Lj c : (c < sz k)%N -> (off sz (dexp d) t + c < sz r)%N by move=> Hc; rewrite -SN off_lt.
have mvE z c : (c < sz k)%N -> mv (rM r M) z (off sz (dexp d) t + c) = mv (rM k M) (fun l => z (off sz (dexp d) t + l)%N) c.
  move=> Hc; rewrite -{1}[(_ + c)%N]pE ?Lj // mv_sum //; apply: mv_ext => b.
  have [_ ->] := rM_sqn HE Wk HM; by move=> Hb; rewrite pE ?Lj.
rewrite Ei mvE // /gfun Hl // -/k; case NG : (needs_gate k).
  rewrite (Hy1 (off sz (dexp d) t + j)%N) ?Lj // mvE // Hy2 ?leq_addr //; last first.
    by have := Llt _ (Lj _ Hj); rewrite Hl // -/k NG.
  rewrite /mv big_distrr /=; have [_ ->] := rM_sqn HE Wk HM.
  by apply: eq_sum => b Hb; rewrite Hl // -/k NG mulrCA.
have AP : acts_by_permutations k.
  move: NG; rewrite /needs_gate => /negbT; rewrite negb_and !negbK => /orP[/eqP Ek|IP]; last exact: Htruth.
  move=> M' HM'; exists [:: 1], [:: 0%N]; rewrite Ek; split=> //.
  by move=> [|?] [|?].
have [D [s [ED Ps HD]]] := AP M HM.
have DE c b : (c < sz k)%N -> (b < sz k)%N -> fe (rM k M) c b = (b == nth 0%N s c)%:R.
  move=> Hc Hb; rewrite -HD //; move: ED; rewrite (rok HE Wk HM) => -[<-].
  by have [h1 h2] := rM_sqn HE Wk HM; rewrite -{1}h2 nth_flat ?h1 ?h2.
have mvK z : mv (rM k M) z j = z (nth 0%N s j).
  rewrite /mv; have [_ ->] := rM_sqn HE Wk HM.
  rewrite (eq_sum (g := fun b => (nth 0%N s j == b)%:R * z b)) => [|b Hb]; last by rewrite DE // eq_sym.
  by rewrite sum_delta // (is_perm_nth Ps).
by rewrite (Hy1 (off sz (dexp d) t + j)%N) ?Lj // mvE // !mvK Hl ?(is_perm_nth Ps) // -/k NG.
Qed.
End E.
