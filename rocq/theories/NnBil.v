(** * NnBil: bilinear_weights and the bilinear layer. *)
From mathcomp Require Import all_ssreflect all_algebra.
From mathcomp Require Import zify.
From Verif Require Import Np NpLemmas Spec SpecLemmas LinOp LinOpSpec LinOpProofs LinOpInv Rep RepSpec RepMat RepWf RepFun RepAlg RepMul RepOps RhoProofs RepThm RepThm1 Solver SolSpec SolAlg Nn NnSpec NnLin NnGate.
Set Implicit Arguments.
Unset Strict Implicit.
Unset Printing Implicit Defensive.
Import GRing.Theory.
Local Open Scope ring_scope.

(** ** more on positions *)
Section Off.
Variable sz : rep -> nat.
Local Notation off := (off sz).
Lemma off_inj ks t j t' j' : (t < size ks)%N -> (j < sz (nth RScalar ks t))%N ->
  (t' < size ks)%N -> (j' < sz (nth RScalar ks t'))%N -> (off ks t + j = off ks t' + j')%N -> t = t' /\ j = j'.
Proof.
elim: ks t t' => [//|k ks IH] [|t] [|t'] /= Ht Hj Ht' Hj'; rewrite ?offS /off /= ?add0n.
- by [].
- by move=> E; move: Hj; rewrite E -addnA ltnNge leq_addr.
- by move=> E; move: Hj'; rewrite -E -addnA ltnNge leq_addr.
by rewrite -!addnA => /addnI /(IH t t' Ht Hj Ht' Hj')[-> ->].
Qed.
Lemma off_nseq c k a : (a <= c)%N -> off (nseq c k) a = (a * sz k)%N.
Proof. by move=> H; rewrite /off take_nseq // map_nseq sumn_nseq mulnC. Qed.
Lemma off_cat ks ks' t : off (ks ++ ks') (size ks + t) = (sumn (map sz ks) + off ks' t)%N.
Proof. by elim: ks => [|k ks IH] //=; rewrite offS IH addnA. Qed.
Lemma off_cat_lt ks ks' t : (t <= size ks)%N -> off (ks ++ ks') t = off ks t.
Proof. by move=> H; rewrite /off takel_cat. Qed.

(** as_dict gives the coordinates of the summands *)
Lemma as_dictP (gdim : gid -> nat) (csize : nat -> gid -> nat) d : forall i p k c a,
  sz =1 rsize gdim csize -> uniq (keys d) -> (k, c) \in d -> (a < c)%N ->
  exists s, [/\ (s < size (dexp d))%N, nth RScalar (dexp d) s = k &
    nth [::] (nth [::] [seq x.2 | x <- as_dict gdim csize i p d] (index k (keys d))) a =
    slice (i + off (dexp d) s) (i + off (dexp d) s + sz k) p].
Proof.
elim: d => [//|[k0 c0] d IH] i p k c a Hsz /= /andP[N U]; rewrite inE => /orP[/eqP[-> ->]|H] Ha.
  exists a; rewrite /= eqxx size_cat size_nseq ltn_addr // nth_cat size_nseq Ha nth_nseq Ha; split=> //.
  rewrite nth_mkseq // off_cat_lt ?size_nseq ?off_nseq ?(ltnW Ha) // -!Hsz; congr slice.
  by rewrite /= mulSn [(sz k0 + _)%N]addnC addnA.
have Nk : (k0 == k) = false.
  by apply/negbTE; apply: contraNneq N => ->; apply/mapP; exists (k, c).
have [s [Hs Es E]] := IH (i + c0 * sz k0)%N p k c a Hsz U H Ha.
exists (c0 + s)%N; rewrite Nk /= -Hsz; split.
- by rewrite size_cat size_nseq ltn_add2l.
- by rewrite nth_cat size_nseq ltnNge leq_addr /= addKn.
have EO : off (dexp ((k0, c0) :: d)) (c0 + s) = (c0 * sz k0 + off (dexp d) s)%N.
  by rewrite -{2}(size_nseq c0 k0) [LHS]off_cat map_nseq sumn_nseq mulnC.
by rewrite E EO !addnA.
Qed.
Lemma as_dict_keys (gdim : gid -> nat) (csize : nat -> gid -> nat) d : forall i p,
  [seq x.1 | x <- as_dict gdim csize i p d] = keys d.
Proof. by elim: d => [//|[k c] d IH] i p /=; rewrite IH. Qed.
End Off.

Section Loop.
Variable R : comRingType.
Variables (gdim : gid -> nat) (csize : nat -> gid -> nat).
Local Notation sz := (rsize gdim csize).
Variable B : bilinear.
Variables (params : seq R).

(** the number of parameters read for one summand k of the weights *)
Definition rd (k : rep) : nat := if k \in keys (bl_x B) then nelems gdim csize (cnt (bl_x B) k) k else 0%N.

(** the projected weights, in canonical order, as a function of one row x *)
Fixpoint browi (i : nat) (ks : seq rep) (x : nat -> R) : seq R :=
  match ks with
  | [::] => [::]
  | k :: ks' =>
      mkseq (fun j => \sum_(0 <= q < rd k) nth 0 params (i + q)%N * x (nth 0%N (bl_ids B k) (q * sz k + j)))
        (sz k) ++ browi (i + rd k) ks' x
  end.
Lemma size_browi i ks x : size (browi i ks x) = sumn (map sz ks).
Proof. by elim: ks i => [|k ks IH] i //=; rewrite size_cat size_mkseq IH. Qed.
Lemma nth_browi ks x t j : (t < size ks)%N -> (j < sz (nth RScalar ks t))%N -> forall i,
  nth 0 (browi i ks x) (off sz ks t + j)%N =
  \sum_(0 <= q < rd (nth RScalar ks t)) nth 0 params (i + off rd ks t + q)%N *
    x (nth 0%N (bl_ids B (nth RScalar ks t)) (q * sz (nth RScalar ks t) + j)).
Proof.
elim: ks t => [//|k ks IH] [|t] /= Ht Hj i; rewrite nth_cat size_mkseq.
  by rewrite {1}/off /= add0n Hj nth_mkseq //; apply: eq_sum => q Hq; rewrite /off /= addn0.
by rewrite !offS -addnA ltnNge leq_addr /= addKn IH //; apply: eq_sum => q Hq; rewrite addnA.
Qed.
Lemma browi_cat ks ks' x : forall i,
  browi i (ks ++ ks') x = browi i ks x ++ browi (i + sumn (map rd ks)) ks' x.
Proof. by elim: ks => [|k ks IH] i /=; rewrite ?addn0 // IH catA addnA. Qed.

Variables (bs : nat) (X : seq R).
Hypothesis SX : size X = (bs * bl_in B)%N.


Lemma flatten_uniform (T : Type) (x0 : T) (f : nat -> seq T) (l : seq nat) m : (forall b, b \in l -> size (f b) = m) ->
  size (flatten (map f l)) = (size l * m)%N /\
  (forall t j, (t < size l)%N -> (j < m)%N -> nth x0 (flatten (map f l)) (t * m + j) = nth x0 (f (nth 0%N l t)) j).
Proof.
elim: l => [|b l IH] H //=.
have [|IH1 IH2] := IH; first by move=> c Hc; apply: H; rewrite inE Hc orbT.
have Hb := H b (mem_head _ _); split; first by rewrite size_cat Hb IH1 mulSn.
case=> [|t] j Ht Hj; rewrite nth_cat Hb ?mul0n ?add0n ?Hj //.
by rewrite mulSn -addnA ltnNge leq_addr /= addKn; apply: IH2.
Qed.
Lemma gcolsP n (Y : seq R) ids : size (gcols bs n Y ids) = (bs * size ids)%N /\
  forall b j, (b < bs)%N -> (j < size ids)%N ->
    nth 0 (gcols bs n Y ids) (b * size ids + j)%N = nth 0 Y (b * n + nth 0%N ids j)%N.
Proof.
have [|h1 h2] := @flatten_uniform R 0 (fun b => [seq nth 0 Y (b * n + i)%N | i <- ids]) (iota 0 bs) (size ids).
  by move=> b _; rewrite size_map.
rewrite size_iota in h1 h2; split=> // b j Hb Hj.
by rewrite /gcols h2 // nth_iota // add0n (nth_map 0%N).
Qed.

(** one group of summands *)
Lemma bl_blockP i k c : k \in keys (bl_x B) -> (i + c * rd k <= size params)%N ->
  size (bl_ids B k) = (rd k * sz k)%N ->
  forall b, (b < bs)%N ->
  let bids := bl_ids B k in
  let y := tr2 0 (c * sz k) bs (matmul c (rd k) (sz k * bs) (slice i (i + c * rd k) params)
             (tr2 0 bs (size bids) (gcols bs (bl_in B) X bids))) in
  slice (b * (c * sz k))%N (b.+1 * (c * sz k))%N y = browi i (nseq c k) (fun j => nth 0 X (b * bl_in B + j)%N).
Proof.
move=> Hk Hp Sb b Hb bids y.
have Sy : size y = (bs * (c * sz k))%N by rewrite size_tr2.
have SS : size (slice (b * (c * sz k))%N (b.+1 * (c * sz k))%N y) = (c * sz k)%N.
  by rewrite size_slice ?Sy ?leq_mul2r ?Hb ?leqnSn ?orbT // mulSn addnK.
apply: (@eq_from_nth _ 0); first by rewrite SS size_browi map_nseq sumn_nseq mulnC.
rewrite SS => s Hs.
have K0 : (0 < sz k)%N by case: (sz k) Hs => //; rewrite muln0.
have Ha : (s %/ sz k < c)%N by rewrite ltn_divLR.
have Hj : (s %% sz k < sz k)%N by rewrite ltn_pmod.
rewrite (divn_eq s (sz k)) in Hs *.
set a := (s %/ sz k)%N in Ha Hs *; set j := (s %% sz k)%N in Hj Hs *.
rewrite nth_slice; last by rewrite mulSn addnC ltn_add2r.
rewrite nth_tr2 //.
have -> : ((a * sz k + j) * bs + b = a * (sz k * bs) + (j * bs + b))%N by rewrite mulnDl mulnA addnA.
have Hjb : (j * bs + b < sz k * bs)%N by rewrite idx_lt.
rewrite nth_mkseq ?idx_lt // rsumE idx_div // idx_mod //.
rewrite -(@off_nseq sz c k a (ltnW Ha)) nth_browi ?size_nseq ?nth_nseq ?Ha //.
apply: eq_sum => q Hq.
have Hqr : (a * rd k + q < c * rd k)%N by rewrite idx_lt.
rewrite nth_slice ?ltn_add2l // off_nseq ?(ltnW Ha) // addnA; congr (_ * _).
have -> : (q * (sz k * bs) + (j * bs + b) = (q * sz k + j) * bs + b)%N by rewrite mulnDl mulnA addnA.
have Hqj : (q * sz k + j < size bids)%N by rewrite Sb idx_lt.
by rewrite nth_tr2 //; have [_ ->] := gcolsP (bl_in B) X bids.
Qed.

Hypothesis Hids : forall k, k \in keys (bl_x B) -> size (bl_ids B k) = (rd k * sz k)%N.

Lemma bl_loopP W : forall i, (i + sumn (map rd (dexp W)) <= size params)%N ->
  exists l, [/\ bl_loop gdim csize B params bs X i W = Ok l, nilp l = nilp W,
    sumn (map fst l) = sumn (map sz (dexp W)) &
    forall b, (b < bs)%N -> flatten [seq slice (b * y.1)%N (b.+1 * y.1)%N y.2 | y <- l] =
      browi i (dexp W) (fun j => nth 0 X (b * bl_in B + j)%N)].
Proof.
elim: W => [|[k c] W IH] i; first by move=> _; exists [::].
rewrite dexp_cons map_cat sumn_cat map_nseq sumn_nseq /= => H.
case: (boolP (k \in keys (bl_x B))) => Hk /=; last first.
  have R0 : rd k = 0%N by rewrite /rd (negbTE Hk).
  have [|l [-> h1 h2 h3]] := IH i; first by move: H; rewrite R0 mul0n add0n.
  exists (((c * sz k)%N, nseq (bs * (c * sz k))%N 0) :: l); split=> //=.
    by rewrite h2 map_cat sumn_cat map_nseq sumn_nseq mulnC.
  move=> b Hb; rewrite h3 // browi_cat map_nseq sumn_nseq R0 mul0n addn0; congr (_ ++ _).
  have SS : size (slice (b * (c * sz k))%N (b.+1 * (c * sz k))%N (nseq (bs * (c * sz k)) (0 : R))) = (c * sz k)%N.
    by rewrite size_slice ?size_nseq ?leq_mul2r ?Hb ?leqnSn ?orbT // mulSn addnK.
  apply: (@eq_from_nth _ 0); first by rewrite SS size_browi map_nseq sumn_nseq mulnC.
  rewrite SS => s Hs.
  rewrite nth_slice; last by rewrite mulSn addnC ltn_add2r.
  rewrite nth_nseq if_same.
  have [|t [j [Ht Hj ->]]] := @off_ex sz (nseq c k) s; first by rewrite map_nseq sumn_nseq mulnC.
  rewrite nth_browi //; rewrite size_nseq in Ht; rewrite nth_nseq Ht R0 big_nil //.
have Rk : rd k = nelems gdim csize (cnt (bl_x B) k) k by rewrite /rd Hk.
rewrite -Rk mulnC in H *.
have H1 : (i + c * rd k <= size params)%N by apply: leq_trans H; rewrite leq_add2l leq_addr.
rewrite size_slice ?leq_addr // addKn eqxx /= Hids // -mulnA eqxx /=.
have [|l [E h1 h2 h3]] := IH (i + c * rd k)%N; first by rewrite -addnA.
rewrite -/(slice _ _ _) -Hids // E /=; eexists; split; first by [].
- by [].
- by rewrite /= h2 map_cat sumn_cat map_nseq sumn_nseq mulnC.
move=> b Hb; rewrite /= h3 // browi_cat map_nseq sumn_nseq [(rd k * c)%N]mulnC; congr (_ ++ _).
by apply: bl_blockP => //; exact: Hids.
Qed.

(** too few parameters *)
Lemma bl_loop_err W : forall i, (i <= size params)%N -> (size params < i + sumn (map rd (dexp W)))%N ->
  bl_loop gdim csize B params bs X i W = Err TypeError.
Proof.
elim: W => [|[k c] W IH] i; first by rewrite addn0 => H; rewrite ltnNge H.
rewrite dexp_cons map_cat sumn_cat map_nseq sumn_nseq /= => Hi H.
case: (boolP (k \in keys (bl_x B))) => Hk /=; last first.
  by rewrite IH //; move: H; rewrite /rd (negbTE Hk) mul0n add0n.
have Rk : rd k = nelems gdim csize (cnt (bl_x B) k) k by rewrite /rd Hk.
rewrite -Rk; case: (leqP (i + c * rd k) (size params)) => H1; last first.
  rewrite ifT //; apply/negP=> /eqP S; move: (size_take (i + c * rd k - i) (drop i params)).
  rewrite /slice in S; rewrite S addKn size_drop; move: (c * rd k)%N (size params) H1 Hi; clear => u v H1 Hi; case: ltnP => H2; lia.
rewrite size_slice ?leq_addr // addKn eqxx /= Hids // -mulnA eqxx /=.
by rewrite IH //; rewrite -addnA [(c * _)%N]mulnC.
Qed.
End Loop.

(** ** the parameters are counted right *)
Section Count.
Variables (gdim : gid -> nat) (csize : nat -> gid -> nat).
Lemma cnt_mem (d : dict) k c : uniq (keys d) -> (k, c) \in d -> cnt d k = c.
Proof.
elim: d => [//|[k0 c0] d IH] /= /andP[N U]; rewrite inE /cnt /= => /orP[/eqP[-> ->]|H]; first by rewrite eqxx.
have -> : (k0 == k) = false by apply/negbTE; apply: contraNneq N => ->; apply/mapP; exists (k, c).
by apply: IH.
Qed.
Lemma cnt_sum (d : dict) k : uniq (keys d) -> cnt d k = (\sum_(x <- d) x.2 * (x.1 == k))%N.
Proof.
elim: d => [|[k0 c0] d IH]; first by rewrite big_nil.
case/andP=> N U; rewrite big_cons -IH //= {1}/cnt /=; case: eqP => [E|]; last by rewrite muln0.
by rewrite muln1 cnt_notin ?addn0 // -E.
Qed.
Lemma keys_filter (d : dict) (P : pred rep) : keys [seq y <- d | P y.1] = [seq k <- keys d | P k].
Proof. by elim: d => [//|[k c] d IH] /=; case: (P k); rewrite /= IH. Qed.
Lemma sumn_dexp_gen (f : rep -> nat) d : sumn (map f (dexp d)) = (\sum_(x <- d) f x.1 * x.2)%N.
Proof.
by elim: d => [|x d IH]; rewrite ?big_nil // big_cons dexp_cons map_cat sumn_cat IH map_nseq sumn_nseq.
Qed.
Lemma sum_key (d : dict) (f : rep * nat -> nat) k : uniq (keys d) ->
  (\sum_(y <- d) (k == y.1) * f y)%N = if k \in keys d then f (k, cnt d k) else 0%N.
Proof.
elim: d => [|[k0 c0] d IH]; first by rewrite big_nil.
case/andP=> N U; rewrite big_cons IH //= inE /cnt /=; case: (eqVneq k k0) => [->|H] /=.
  by rewrite (negbTE N) addn0 mul1n.
by rewrite mul0n add0n.
Qed.

Lemma active_dim B : uniq (keys (bl_x B)) -> uniq (keys (bl_W B)) ->
  sumn [seq (cnt (bl_W B) y.1 * nelems gdim csize y.2 y.1)%N | y <- bl_x B] =
  sumn (map (rd gdim csize B) (dexp (bl_W B))).
Proof.
move=> Ux UW; rewrite sumn_dexp_gen sumnE big_map.
rewrite (eq_bigr (fun y => \sum_(x <- bl_W B) x.2 * ((x.1 == y.1) * nelems gdim csize y.2 y.1))%N); last first.
  by move=> y _; rewrite cnt_sum // big_distrl /=; apply: eq_bigr => x _; rewrite mulnA.
rewrite exchange_big /=; apply: eq_bigr => x _; rewrite -big_distrr /= mulnC; congr muln.
by rewrite (sum_key (fun y => nelems gdim csize y.2 y.1) x.1 Ux) /rd.
Qed.
End Count.

Section Eq.
Variable R : comRingType.
Variables (conj sinv : R -> R) (linv : nat -> seq R -> seq R).
Variables (crho : nat -> option gid -> gel R -> res (op R)).
Variables (gdim : gid -> nat) (gorth : gid -> bool) (csize : nat -> gid -> nat) (le : rel rep) (g : gid).
Variable tenth : R.
Variable E : gel R -> Prop.
Local Notation gs := (pred1 g).
Local Notation sz := (rsize gdim csize).
Local Notation key := (key gdim csize le gs).
Local Notation wfr := (wfr gdim csize le gs).
Local Notation group_elem := (group_elem conj sinv linv crho gdim csize gs).
Local Notation orth_elem := (orth_elem crho gdim csize gorth gs).
Local Notation arho := (arho sinv linv crho).
Local Notation rM := (rM sinv linv crho).
Local Notation tr := (tr gdim gorth csize le).
Local Notation mul := (mul gdim csize le).
Local Notation equivariant := (equivariant conj sinv linv crho gdim csize E).
Local Notation mk_bilinear := (mk_bilinear gdim gorth csize le).
Local Notation bilinear_call := (bilinear_call gdim csize tenth).
Hypothesis O : total_order_on key le.
Hypothesis HE : forall M, E M -> group_elem M.
Hypothesis HO : forall M, E M -> orth_elem M.

Lemma sum_rep_sum rs ex r : sum_rep gdim csize le rs ex = Ok r -> is_sum r.
Proof.
rewrite /sum_rep; case: (mapM _ _) => //= c; case: nilp => //; case: sum_canonical => d p [<-] //.
Qed.
Lemma mul_sum a b r : wfr a -> wfr b -> is_sum b -> mul a b = Ok r -> is_sum r.
Proof.
move=> Wa Wb Sb; rewrite /mul Sb orbT /both_concrete (concrete_wfr Wa) (concrete_wfr Wb) /=.
have K : distribute_product gdim csize le [:: a; b] None = Ok r -> is_sum r.
  rewrite /distribute_product; case: (mapM _ _) => //= c; case: (mapM _ _) => //= l; exact: sum_rep_sum.
by case: a Wa K => // _ _ [<-].
Qed.

Lemma rshift_data d p b : wfr (RSum d p) -> wfr b -> exists dW pW,
  [/\ rshift gdim gorth csize le (RSum d p) b = Ok (RSum dW pW), wfr (RSum dW pW),
      sz (RSum dW pW) = (sz b * sz (RSum d p))%N &
      forall M, E M -> exists2 Ai, invTn (sz (RSum d p)) (rM (RSum d p) M) Ai &
        meq (rM (RSum dW pW) M) (fkron (rM b M) Ai)].
Proof.
move=> Wa Wb; set a := RSum d p in Wa *.
have [t [Et Wt St]] := tr_size gorth O Wa; have [r [Er Wr Sr]] := mul_size O Wb Wt.
have : is_sum r.
  apply: mul_sum Er => //; move: Et; rewrite /a /=; set X := (X in (do l <- X; _)); case: X => //= l; exact: sum_rep_sum.
case: r Er Wr Sr => // dW pW Er Wr Sr _; exists dW, pW; rewrite /rshift Et; split=> //.
  by move: Sr St; rewrite (size_py_ok Wr) (size_py_ok Wt); case=> E1 [E2]; apply: etrans E1 _; congr muln; exact: E2.
move=> M HM.
have HA k Hk := @arho_kok R conj sinv linv crho gdim csize gs M k (HE HM) Hk.
have Hgs : forall h : gid, gs h -> h = g by move=> h /eqP.
have [t' Et' [Wt' St' Mt]] := tr_ok gorth Hgs O HA Wa.
have I := rmat_tr_invT Wa (HE HM) (HO HM) Mt.
have [r' E' [H1 H2 H3]] := mul_ok Hgs O HA Wb Wt'.
move: Et'; rewrite Et => -[Et']; subst t'; move: E'; rewrite Er => -[Er']; subst r'.
by exists (rmat (arho M) t).
Qed.

Definition ch_ok (d : dict) (choice : rep -> seq nat) : Prop :=
  forall k c, (k, c) \in d -> size (choice k) = minn c (sz k) /\ all (fun j => (j < c)%N) (choice k).
(** the coordinates gathered for a key *)
Lemma reducedP d p choice k c : wfr (RSum d p) -> ch_ok d choice -> (k, c) \in d ->
  size (reduced gdim csize d p choice k) = (minn c (sz k) * sz k)%N /\
  forall q, (q < minn c (sz k))%N -> exists s, [/\ (s < size (dexp d))%N, nth RScalar (dexp d) s = k &
    forall j, (j < sz k)%N ->
      nth 0%N (reduced gdim csize d p choice k) (q * sz k + j) = nth 0%N p (off sz (dexp d) s + j)].
Proof.
move=> W HC Hk; have [SC AC] := HC k c Hk.
have U : uniq (keys d) by case/orP: W => // /andP[/and5P[]].
rewrite /reduced as_dict_keys; set ids := nth [::] _ _.
have HR a : (a < c)%N -> exists s, [/\ (s < size (dexp d))%N, nth RScalar (dexp d) s = k &
    nth [::] ids a = slice (off sz (dexp d) s) (off sz (dexp d) s + sz k) p].
  by move=> Ha; have [s [h1 h2 h3]] := @as_dictP sz gdim csize d 0%N p k c a (frefl _) U Hk Ha; exists s.
have SR a : a \in choice k -> size (nth [::] ids a) = sz k.
  move=> Ha; have [s [h1 h2 ->]] := HR a (allP AC a Ha).
  rewrite size_slice ?leq_addr ?addKn // (is_perm_size (sum_perm W)) /= -sumn_dexp.
  by rewrite -h2 /off -[X in (_ <= sumn (map sz X))%N](cat_take_drop s) map_cat sumn_cat leq_add2l (drop_nth RScalar h1) /= leq_addr.
have [h1 h2] := flatten_uniform 0%N SR; rewrite SC in h1 h2; split=> // q Hq.
have Hc : (nth 0%N (choice k) q < c)%N by apply: (allP AC); rewrite mem_nth // SC.
have [s [e1 e2 e3]] := HR _ Hc; exists s; split=> // j Hj.
by rewrite h2 // e3 nth_slice // ltn_add2l.
Qed.

(** the weight matrices as a function of the input *)
Definition wt (B : bilinear) (params : seq R) (pW : seq nat) (x : nat -> R) (m : nat) : R :=
  nth 0 (browi gdim csize B params 0 (dexp (bl_W B)) x) (index m pW).
Definition bfun (B : bilinear) (params : seq R) (pW : seq nat) (x : nat -> R) (i : nat) : R :=
  tenth * \sum_(0 <= j < bl_in B) wt B params pW x (i * bl_in B + j)%N * x j.

Definition bl_fits d p b choice B dW pW : Prop :=
  [/\ wfr (RSum dW pW), sz (RSum dW pW) = (sz b * sz (RSum d p))%N &
  [/\ bl_in B = sz (RSum d p), bl_out B = sz b, bl_W B = dW, bl_x B = [seq y <- d | y.1 != RScalar] &
   [/\ bl_ids B = reduced gdim csize d p choice, bl_inv B = argsort pW & bl_dim B = sumn (map (rd gdim csize B) (dexp dW))]]].

Definition chf (d : dict) (choice : rep -> nat -> nat -> seq nat) (k : rep) : seq nat :=
  choice k (cnt d k) (nelems gdim csize (cnt d k) k).
Lemma chf_ok d choice : uniq (keys d) -> choice_ok choice -> ch_ok d (chf d choice).
Proof. by move=> U HC k c Hk; rewrite /chf (cnt_mem U Hk); apply: HC; rewrite /nelems geq_minl. Qed.

Lemma mk_bilinear_ok d p b choice : wfr (RSum d p) -> wfr b ->
  exists B dW pW, [/\ mk_bilinear b (RSum d p) choice = Ok B,
    rshift gdim gorth csize le (RSum d p) b = Ok (RSum dW pW),
    bl_fits d p b (chf d choice) B dW pW &
    forall M, E M -> exists2 Ai, invTn (sz (RSum d p)) (rM (RSum d p) M) Ai &
        meq (rM (RSum dW pW) M) (fkron (rM b M) Ai)].
Proof.
move=> Wa Wb; have [dW [pW [Er WW SW HM]]] := rshift_data Wa Wb.
rewrite /mk_bilinear Er.
set B := Bilinear (sz (RSum d p)) (sz b) (sumn [seq (cnt dW y.1 * nelems gdim csize y.2 y.1)%N | y <- [seq y <- d | y.1 != RScalar]])
  dW [seq y <- d | y.1 != RScalar] (reduced gdim csize d p (chf d choice)) (argsort pW).
exists B, dW, pW; split=> //.
  by rewrite /bind (canonicalizeE O WW) (size_py_ok Wa) (size_py_ok Wb).
split=> //; split=> //; split=> //.
rewrite -(@active_dim gdim csize B) //.
  rewrite /= (keys_filter d (fun k => k != RScalar)) filter_uniq //.
  by case/orP: Wa => // /andP[/and5P[]].
by case/orP: WW => // /andP[/and5P[]].
Qed.

Section Fits.
Variables (d : dict) (p : seq nat) (b : rep) (choice : rep -> seq nat) (B : bilinear) (dW : dict) (pW : seq nat).
Hypothesis Wa : wfr (RSum d p).
Hypothesis Wb : wfr b.
Hypothesis HC : ch_ok d choice.
Hypothesis HB : bl_fits d p b choice B dW pW.

Lemma ukeys d' p' : wfr (RSum d' p') -> uniq (keys d'). Proof. by case/orP=> // /andP[/and5P[]]. Qed.

Lemma xkey k : k \in keys (bl_x B) -> exists2 c, (k, c) \in d & rd gdim csize B k = minn c (sz k).
Proof.
case: HB => _ _ [_ _ _ Ex _] Hk; rewrite /rd Hk /nelems Ex.
move: (Hk); rewrite Ex => /mapP[[k' c] H /= ->]; exists c; first by move: H; rewrite mem_filter => /andP[].
rewrite (@cnt_mem _ k' c) // (keys_filter d (fun k => k != RScalar)) filter_uniq //; exact: ukeys Wa.
Qed.
Lemma ids_size k : k \in keys (bl_x B) -> size (bl_ids B k) = (rd gdim csize B k * sz k)%N.
Proof.
move=> Hk; have [c Hc ->] := xkey Hk; case: HB => _ _ [_ _ _ _ [-> _ _]].
by have [] := reducedP Wa HC Hc.
Qed.

Lemma perm_W : is_perm (sz (RSum dW pW)) pW. Proof. by case: HB => /sum_perm. Qed.

(** lazy_projection and the layer, row by row *)
Lemma lazy_projection_ok params bs X : (bl_dim B <= size params)%N -> (0 < sz b * sz (RSum d p))%N ->
  size X = (bs * sz (RSum d p))%N ->
  exists2 W, lazy_projection gdim csize B params bs X = Ok W &
    size W = (bs * (sz b * sz (RSum d p)))%N /\
    forall r m, (r < bs)%N -> (m < sz b * sz (RSum d p))%N ->
      nth 0 W (r * (sz b * sz (RSum d p)) + m)%N = wt B params pW (rv (sz (RSum d p)) X r) m.
Proof.
case: (HB) => WW SW [Bi Bo BW Bx [Bids Binv Bdim]] Hp Z SX.
rewrite /lazy_projection Bi SX eqxx.
have SX' : size X = (bs * bl_in B)%N by rewrite Bi.
have [|l [-> h1 h2 h3]] := @bl_loopP R gdim csize B params bs X ids_size (bl_W B) 0%N.
  by rewrite add0n BW -Bdim.
have NW : nilp (bl_W B) = false.
  by rewrite BW; apply/negP=> /nilP E0; move: Z; rewrite -SW /= E0.
rewrite /bind h1 NW; set N := sumn [seq i.1 | i <- l].
have EN : N = (sz b * sz (RSum d p))%N by rewrite /N h2 BW sumn_dexp -SW.
have P := perm_W; have PA := argsort_perm P; rewrite SW in P PA.
have SI : size (bl_inv B) = (sz b * sz (RSum d p))%N by rewrite Binv (is_perm_size PA).
have [g1 g2] := gcolsP bs N (hcat bs l) (bl_inv B).
have -> : reshape [:: bs; bl_out B; sz (RSum d p)] (ND [:: bs; size (bl_inv B)] (gcols bs N (hcat bs l) (bl_inv B))) =
    Ok (ND [:: bs; bl_out B; sz (RSum d p)] (gcols bs N (hcat bs l) (bl_inv B))).
  by rewrite /reshape g1 SI Bo /prodn [foldr _ _ _]/= muln1 eqxx.
exists (gcols bs N (hcat bs l) (bl_inv B)) => //; split; first by rewrite g1 SI.
move=> r m Hr Hm; rewrite -{1}SI g2 ?SI // Binv.
have Hi : (nth 0%N (argsort pW) m < N)%N by rewrite EN; apply: is_perm_nth PA _.
have [|_ h4] := @flatten_uniform R 0 (fun b => flatten [seq slice (b * y.1)%N (b.+1 * y.1)%N y.2 | y <- l]) (iota 0 bs) N.
  by move=> r'; rewrite mem_iota add0n => /andP[_ Hr']; rewrite h3 // size_browi /N h2.
rewrite size_iota in h4; rewrite /hcat h4 // nth_iota // add0n h3 // /wt (nth_argsort P) ?Bi //.
Qed.

Lemma bilinear_rowwise params : (bl_dim B <= size params)%N -> (0 < sz b * sz (RSum d p))%N ->
  rowwise (sz (RSum d p)) (sz b) (bilinear_call B params) (bfun B params pW).
Proof.
move=> Hp Z bs X SX; have [W E1 [SW HW]] := lazy_projection_ok Hp Z SX.
case: (HB) => _ _ [Bi Bo _ _ _].
rewrite /bilinear_call E1 /= Bi Bo; eexists; first by [].
rewrite size_mkseq; split=> // r i Hr Hi.
rewrite /rv nth_mkseq ?idx_lt // rsumE idx_div // /bfun Bi; congr (_ * _).
apply: eq_sum => j Hj; rewrite -HW //; last by rewrite idx_lt.
by congr (nth _ _ _ * _); rewrite mulnDl mulnA addnA.
Qed.

Lemma bilinear_few params bs X : (size params < bl_dim B)%N -> bilinear_call B params bs X = Err TypeError.
Proof.
case: (HB) => _ _ [Bi Bo BW _ [_ _ Bdim]] Hp.
rewrite /bilinear_call /lazy_projection; case: eqP => //= SX.
by rewrite (bl_loop_err bs X ids_size) //= add0n BW -Bdim.
Qed.

(** the weights are equivariant in the input *)
Lemma wt_equiv params M x y m : E M -> (forall j, (j < sz (RSum d p))%N -> y j = mv (rM (RSum d p) M) x j) ->
  (m < sz (RSum dW pW))%N -> wt B params pW y m = mv (rM (RSum dW pW) M) (wt B params pW x) m.
Proof.
move=> HM Hy Hm; case: (HB) => WW SW [Bi Bo BW Bx [Bids Binv Bdim]].
have P := perm_W.
have Hi : (index m pW < sumn (map sz (dexp dW)))%N.
  by rewrite sumn_dexp -[sumn _]/(sz (RSum dW pW)) -(is_perm_size P) index_mem (is_perm_mem _ P).
have [t [j [Ht Hj Ei]]] := off_ex Hi.
have Em : m = nth 0%N pW (off sz (dexp dW) t + j) by rewrite -Ei nth_index // (is_perm_mem _ P).
rewrite [in RHS]Em (mv_sum HE _ WW HM) //.
have HP j' : (j' < sz (nth RScalar (dexp dW) t))%N -> index (nth 0%N pW (off sz (dexp dW) t + j')) pW = (off sz (dexp dW) t + j')%N.
  move=> Hj'; rewrite index_uniq ?(is_perm_uniq P) // (is_perm_size P).
  by have := off_lt Ht Hj'; rewrite sumn_dexp.
rewrite /wt BW Ei nth_browi //; set k := nth RScalar (dexp dW) t in Hj HP *.
have Wk : wfr k by apply: key_wfr; exact: dexp_key WW Ht.
have [k1 k2] := rM_sqn HE Wk HM.
transitivity (mv (rM k M) (fun l => \sum_(0 <= q < rd gdim csize B k) nth 0 params (0 + off (rd gdim csize B) (dexp dW) t + q)%N *
    x (nth 0%N (bl_ids B k) (q * sz k + l))) j); last first.
  by apply: mv_ext => l; rewrite k2 => Hl; rewrite HP // nth_browi.
case: (boolP (k \in keys (bl_x B))) => Hk; last first.
  rewrite {1}/rd (negbTE Hk) big_nil /mv big1_seq // => l _.
  by rewrite /rd (negbTE Hk) big_nil mulr0.
have [c Hc Er] := xkey Hk; have [_ HR] := reducedP Wa HC Hc.
rewrite /mv [RHS](eq_sum (g := fun l => \sum_(0 <= q < rd gdim csize B k) fe (rM k M) j l * (nth 0 params (0 + off (rd gdim csize B) (dexp dW) t + q)%N *
    x (nth 0%N (bl_ids B k) (q * sz k + l))))); last by move=> l _; rewrite big_distrr.
rewrite exchange_big_nat /=; apply: eq_sum => q Hq.
rewrite Er in Hq; have [s [s1 s2 s3]] := HR q Hq.
rewrite Bids s3 // Hy; last first.
  by apply: (is_perm_nth (sum_perm Wa)); have := @off_lt sz (dexp d) s j s1; rewrite s2 sumn_dexp => ->.
rewrite (mv_sum HE _ Wa HM s1) ?s2 // /mv k2 big_distrr /=.
by apply: eq_sum => l Hl; rewrite s3 // mulrCA.
Qed.

Lemma bfun_equiv params M x y i : (forall M, E M -> exists2 Ai, invTn (sz (RSum d p)) (rM (RSum d p) M) Ai &
        meq (rM (RSum dW pW) M) (fkron (rM b M) Ai)) ->
  E M -> (forall j, (j < sz (RSum d p))%N -> y j = mv (rM (RSum d p) M) x j) ->
  (i < sz b)%N -> bfun B params pW y i = mv (rM b M) (bfun B params pW x) i.
Proof.
move=> HW HM Hy Hi; case: (HB) => WW SW [Bi Bo _ _ _].
have [Ai [[a1 a2 i1 i2] [AA AI]] MW] := HW M HM.
have [b1 b2] := rM_sqn HE Wb HM.
rewrite /bfun Bi; set n := sz (RSum d p) in Hy *.
have Hw j : (j < n)%N -> wt B params pW y (i * n + j)%N =
    \sum_(0 <= k < sz b) \sum_(0 <= l < n) fe (rM b M) i k * fe Ai j l * wt B params pW x (k * n + l)%N.
  move=> Hj; rewrite (wt_equiv params HM Hy) ?SW ?idx_lt //.
  rewrite (@mv_eq R _ _ _ (wt B params pW x) _ MW) //; last by case: MW => -> _ _; rewrite /= b1 i1 idx_lt.
  rewrite /mv /= b2 i2 -/n sum_mul; apply: eq_sum => k Hk; apply: eq_sum => l Hl.
  by rewrite i1 -/n !idx_div // !idx_mod.
rewrite (eq_sum (g := fun j => \sum_(0 <= k < sz b) fe (rM b M) i k * \sum_(0 <= l < n) fe Ai j l * y j * wt B params pW x (k * n + l)%N)); last first.
  move=> j Hj; rewrite Hw // big_distrl /=; apply: eq_sum => k _; rewrite big_distrl big_distrr /=.
  by apply: eq_sum => l _; rewrite -!mulrA; congr (_ * (_ * _)); rewrite mulrC.
rewrite exchange_big_nat /= /mv b2 big_distrr /=; apply: eq_sum => k Hk.
rewrite -big_distrr /= [RHS]mulrCA; congr (_ * (_ * _)).
rewrite exchange_big_nat /=; apply: eq_sum => l Hl.
rewrite -big_distrl /= mulrC; congr (_ * _).
rewrite (eq_sum (g := fun j => fe (ftr Ai) l j * mv (rM (RSum d p) M) x j)); last by move=> j Hj; rewrite Hy.
have -> : \sum_(0 <= j < n) fe (ftr Ai) l j * mv (rM (RSum d p) M) x j = mv (fmul (ftr Ai) (rM (RSum d p) M)) x l.
  by rewrite mv_mul /= ?i1 ?a1 // {2}/mv /= i1.
rewrite (@mv_eq R _ _ _ x _ AI) //=; last by rewrite i2.
by rewrite /mv /= sum_delta.
Qed.
End Fits.

Theorem bilinear_thm d p b choice : wfr (RSum d p) -> wfr b ->
  choice_ok choice ->
  exists B dW pW, [/\ mk_bilinear b (RSum d p) choice = Ok B,
    rshift gdim gorth csize le (RSum d p) b = Ok (RSum dW pW),
    bl_fits d p b (chf d choice) B dW pW,
    forall params, (bl_dim B <= size params)%N ->
      rowwise (sz (RSum d p)) (sz b) (bilinear_call B params) (bfun B params pW) /\
      equivariant (RSum d p) b (bilinear_call B params) &
    forall params bs X, (size params < bl_dim B)%N -> bilinear_call B params bs X = Err TypeError].
Proof.
move=> Wa Wb HC0; have HC := chf_ok (ukeys Wa) HC0; have Z : (0 < sz b * sz (RSum d p))%N by rewrite muln_gt0 (wfr_sz Wa) (wfr_sz Wb).
 have [B [dW [pW [E1 E2 F HW]]]] := mk_bilinear_ok choice Wa Wb.
exists B, dW, pW; split=> //.
  move=> params Hp; have RW := bilinear_rowwise Wa HC F Hp Z; split=> //.
  apply: (rowwise_equivariant HE Wa Wb RW) => M x y i; exact: (bfun_equiv Wa Wb HC F).
by move=> params bs X; exact: (bilinear_few Wa HC F).
Qed.

(** how the parameters enter the weights *)
Lemma lazy_formula d p b choice B dW pW : wfr (RSum d p) -> wfr b -> ch_ok d choice -> bl_fits d p b choice B dW pW ->
  forall (params : seq R) bs X, (bl_dim B <= size params)%N -> size X = (bs * sz (RSum d p))%N ->
  exists2 W, lazy_projection gdim csize B params bs X = Ok W &
    size W = (bs * (sz b * sz (RSum d p)))%N /\
    forall r t j, (r < bs)%N -> (t < size (dexp dW))%N -> let k := nth RScalar (dexp dW) t in (j < sz k)%N ->
      nth 0 W (r * (sz b * sz (RSum d p)) + nth 0%N pW (off sz (dexp dW) t + j))%N =
      \sum_(0 <= q < rd gdim csize B k) nth 0 params (off (rd gdim csize B) (dexp dW) t + q)%N *
        nth 0 X (r * sz (RSum d p) + nth 0%N (bl_ids B k) (q * sz k + j))%N.
Proof.
move=> Wa Wb HC HB params bs X Hp SX.
have Z : (0 < sz b * sz (RSum d p))%N by rewrite muln_gt0 (wfr_sz Wa) (wfr_sz Wb).
have [W EW [SW HW]] := lazy_projection_ok Wa HC HB Hp Z SX.
exists W => //; split=> // r t j Hr Ht k Hj.
have P := perm_W HB; case: (HB) => WW SWW [Bi Bo BW Bx _]; rewrite SWW in P.
have L : (off sz (dexp dW) t + j < sz b * sz (RSum d p))%N.
  by rewrite -SWW; have := off_lt Ht Hj; rewrite sumn_dexp.
rewrite HW ?(is_perm_nth P) // /wt index_uniq ?(is_perm_size P) ?(is_perm_uniq P) // BW nth_browi //.
Qed.

Theorem bilinear_params d p b choice : wfr (RSum d p) -> wfr b -> choice_ok choice ->
  exists B, [/\ mk_bilinear b (RSum d p) choice = Ok B,
    forall (params : seq R) bs X, size X = (bs * sz (RSum d p))%N ->
      (bl_dim B <= size params)%N = is_ok (lazy_projection gdim csize B params bs X) ,
    forall (params extra : seq R) bs X, (bl_dim B <= size params)%N -> size X = (bs * sz (RSum d p))%N ->
      lazy_projection gdim csize B (params ++ extra) bs X = lazy_projection gdim csize B params bs X &
    forall (params params' : seq R) i, (i < bl_dim B)%N -> (bl_dim B <= size params)%N -> (bl_dim B <= size params')%N ->
      nth 0 params i <> nth 0 params' i -> (forall i', i' <> i -> nth 0 params i' = nth 0 params' i') ->
      lazy_projection gdim csize B params 1 (nseq (sz (RSum d p)) 1) <>
      lazy_projection gdim csize B params' 1 (nseq (sz (RSum d p)) 1)].
Proof.
move=> Wa Wb HC0; have HC := chf_ok (ukeys Wa) HC0.
have [B [dW [pW [E1 E2 F HW]]]] := mk_bilinear_ok choice Wa Wb.
have LF := lazy_formula Wa Wb HC F; case: (F) => WW SWW [Bi Bo BW Bx [Bids Binv Bdim]].
exists B; split=> //.
- move=> params bs X SX; case: leqP => Hp; first by have [W -> _] := LF params bs X Hp SX.
  rewrite /lazy_projection; case: eqP => //= SX'.
  by rewrite (bl_loop_err bs X (ids_size Wa HC F)) //= add0n BW -Bdim.
- move=> params extra bs X Hp SX.
  have Hp' : (bl_dim B <= size (params ++ extra))%N by rewrite size_cat; apply: leq_trans Hp (leq_addr _ _).
  have [W -> [SW H1]] := LF params bs X Hp SX; have [W' -> [SW' H2]] := LF _ bs X Hp' SX.
  congr Ok; apply: (@eq_from_nth _ 0); first by rewrite SW SW'.
  rewrite SW' => i Hi; set N := (sz b * sz (RSum d p))%N in Hi H1 H2.
  have N0 : (0 < N)%N by move: Hi; case: N {H1 H2} => //; rewrite muln0.
  have Hr : (i %/ N < bs)%N by rewrite ltn_divLR.
  have P := perm_W F; rewrite SWW -/N in P.
  have Hm : (i %% N < N)%N by rewrite ltn_pmod.
  have : (index (i %% N) pW < sumn (map sz (dexp dW)))%N.
    by rewrite sumn_dexp -[sumn _]/(sz (RSum dW pW)) SWW -/N -{2}(is_perm_size P) index_mem (is_perm_mem _ P).
  move/off_ex=> [t [j [Ht Hj Ei]]].
  have Em : (i %% N)%N = nth 0%N pW (off sz (dexp dW) t + j) by rewrite -Ei nth_index // (is_perm_mem _ P).
  rewrite (divn_eq i N) Em H1 // H2 //; apply: eq_sum => q Hq; congr (_ * _).
  by rewrite nth_cat (leq_trans _ Hp) // Bdim off_lt.
move=> params params' i Hi Hp Hp' Ni Ne.
have S1 : size (nseq (sz (RSum d p)) (1 : R)) = (1 * sz (RSum d p))%N by rewrite size_nseq mul1n.
have [W -> [SW H1]] := LF params 1%N _ Hp S1; have [W' -> [SW' H2]] := LF params' 1%N _ Hp' S1.
case=> EW; rewrite -EW in H2; rewrite Bdim in Hi.
have [t [q [Ht Hq Ei]]] := off_ex Hi.
have Wk : wfr (nth RScalar (dexp dW) t) by apply: key_wfr; exact: dexp_key WW Ht.
have Z := wfr_sz Wk.
have := H1 0%N t 0%N (ltn0Sn _) Ht Z; rewrite (H2 0%N t 0%N (ltn0Sn _) Ht Z).
set k := nth RScalar (dexp dW) t in Hq Wk Z *.
have Hk : k \in keys (bl_x B) by move: Hq; rewrite /rd; case: ifP.
have ON q' : (q' < rd gdim csize B k)%N ->
    nth 0 (nseq (sz (RSum d p)) 1) (0 * sz (RSum d p) + nth 0%N (bl_ids B k) (q' * sz k + 0))%N = 1 :> R.
  move=> Hq'; rewrite mul0n add0n nth_nseq ifT //.
  have [c Hc Er] := xkey Wa F Hk; have [_ HR] := reducedP Wa HC Hc.
  rewrite Er in Hq'; have [s [s1 s2 s3]] := HR q' Hq'; rewrite Bids s3 //.
  by apply: (is_perm_nth (sum_perm Wa)); have := @off_lt sz (dexp d) s 0%N s1; rewrite s2 sumn_dexp => ->.
rewrite (eq_sum (g := fun q => nth 0 params' (off (rd gdim csize B) (dexp dW) t + q)%N)); last by move=> q' Hq'; rewrite ON ?mulr1.
rewrite [RHS](eq_sum (g := fun q => nth 0 params (off (rd gdim csize B) (dexp dW) t + q)%N)); last by move=> q' Hq'; rewrite ON ?mulr1.
have Mq : q \in index_iota 0 (rd gdim csize B k) by rewrite mem_index_iota.
rewrite !(bigD1_seq q Mq (iota_uniq _ _)) /= -Ei.
rewrite (eq_bigr (fun q => nth 0 params (off (rd gdim csize B) (dexp dW) t + q)%N)); last first.
  by move=> q' /eqP Nq; rewrite Ne // Ei => /addnI.
by move/addIr => Ex; apply: Ni.
Qed.
End Eq.
