(** * GroupsEmb: Embed(G,d,slice). *)
From Coq Require Import String.
From mathcomp Require Import all_ssreflect all_algebra.
From mathcomp Require Import zify.
From Verif Require Import Np NpLemmas Spec SpecLemmas LinOp LinOpSpec LinOpProofs.
From Verif Require Import Cplx Groups GroupsSpec GroupsLoop GroupsLie GroupsU GroupsInit GroupsCtor GroupsPerm GroupsThm.
Set Implicit Arguments.
Unset Strict Implicit.
Unset Printing Implicit Defensive.
Import GRing.Theory Num.Theory Order.Theory.
Local Open Scope ring_scope.

(** ** slices *)
Lemma slice_ok d s ix : slice_ix d s = Ok ix -> uniq ix /\ all (fun i => i < d)%N ix.
Proof.
rewrite /slice_ix; set st := odflt 1 _; case: eqP => // st0.
have P : forall a b, 
  (0 < st -> [/\ 0 <= a, a <= Posz d, 0 <= b & b <= Posz d]) -> (st < 0 -> [/\ -1 <= a, a <= Posz d - 1, -1 <= b & b <= Posz d - 1]) ->
  uniq (map absz (pyrange a b st)) /\ all (fun i => i < d)%N (map absz (pyrange a b st)).
  move=> a b H1 H2.
  have R k : (k < size (pyrange a b st))%N -> 0 <= a + Posz k * st < Posz d.
    rewrite size_mkseq; case: ltrP => Hs.
      have [a0 a1 b0 b1] := H1 Hs; case: ltrP => // Hab.
      have := lez_floor (b - a - 1) (lt0r_neq0 Hs); have : 0 <= ((b - a - 1) %/ st)%Z by rewrite divz_ge0 //; clear -Hab; lia.
      move: ((b - a - 1) %/ st)%Z => q q0 Hq Hk.
      have : Posz k * st <= q * st by apply: ler_wpmul2r; [exact: ltW | clear -Hk q0; lia].
      have : 0 <= Posz k * st by apply: mulr_ge0; [by [] | exact: ltW].
      move: (Posz k * st) (q * st) Hq => x y; clear -a0 a1 b0 b1 Hab; lia.
    have Hs' : st < 0 by rewrite lt_neqAle Hs andbT; apply/eqP.
    have [a0 a1 b0 b1] := H2 Hs'; case: ltrP => // Hab.
    have n0 : 0 < - st by clear -Hs'; lia.
    have := lez_floor (a - b - 1) (lt0r_neq0 n0); have : 0 <= ((a - b - 1) %/ - st)%Z by rewrite divz_ge0 //; clear -Hab; lia.
    move: ((a - b - 1) %/ - st)%Z => q q0 Hq Hk.
    have : Posz k * - st <= q * - st by apply: ler_wpmul2r; [exact: ltW | clear -Hk q0; lia].
    have : 0 <= Posz k * - st by apply: mulr_ge0; [by [] | exact: ltW].
    move: Hq; rewrite !mulrN; move: (Posz k * st) (q * st) => x y; clear -a0 a1 b0 b1 Hab; lia.
  move: R; rewrite size_mkseq /pyrange; set len := (if 0 < st then _ else _) => R.
  split; last first.
    apply/allP => x /mapP[y /mapP[k]]; rewrite mem_iota add0n => /andP[_ Hk] -> ->.
    by have := R k Hk; move: (a + _); clear; lia.
  rewrite -map_comp map_inj_in_uniq ?iota_uniq // => k l; rewrite !mem_iota !add0n => /andP[_ Hk] /andP[_ Hl] /= E.
  have E2 : Posz k * st = Posz l * st.
    have := R k Hk; have := R l Hl; move: E; move: (Posz k * st) (Posz l * st); clear; lia.
  by move: E2 => /(mulIf (introN eqP st0)) [].
have C1 x : 0 <= clip d 0 (Posz d) x <= Posz d by rewrite /clip /Order.max /Order.min; repeat case: ifP; clear; lia.
have C2 x : -1 <= clip d (-1) (Posz d - 1) x <= Posz d - 1 by rewrite /clip /Order.max /Order.min; repeat case: ifP; clear; lia.
case: ltrP => Hs; case=> <-; apply: P => Hs2.
- case: (s_start s) => [x|]; case: (s_stop s) => [y|]; (try have /andP[? ?] := C1 x); (try have /andP[? ?] := C1 y); by split.
- by move: Hs Hs2; clear; lia.
- by move: Hs Hs2; clear; lia.
case: (s_start s) => [x|]; case: (s_stop s) => [y|]; (try have /andP[? ?] := C2 x); (try have /andP[? ?] := C2 y); split=> //; clear; lia.
Qed.

Section Embed.
Variables (R : comRingType) (conj re : R -> R) (close : seq R -> seq R -> bool).
Local Notation g_embed := (g_embed conj re close).

(** entry i, j of the k-th matrix of an array *)
Lemma den_item k d (a : nd R) t i j : arr3 k d a -> (t < k)%N -> (i < d)%N -> (j < d)%N ->
  fe (nth (fzero R 0 0) (map (@den R) (gitems (GArr a))) t) i j = get 0 a [:: t; i; j].
Proof.
move=> [Ed Es] Ht Hi Hj; rewrite (nth_map (OI R 0)); last by rewrite /gitems Ed /= size_mkseq.
rewrite /gitems Ed nth_mkseq //= /slice mulSnr addnC addnK nth_take; last first.
  by apply: leq_trans (_ : (i.+1 * d <= _)%N); [rewrite mulSnr ltn_add2l | rewrite leq_mul2r Hi orbT].
by rewrite nth_drop /get Ed /= !muln1 addn0 addnA.
Qed.
Lemma size_item k d (a : nd R) : arr3 k d a -> size (gitems (GArr a)) = k.
Proof. by move=> [Ed _]; rewrite /gitems Ed /= size_mkseq. Qed.

Lemma nth_rep (base : seq R) m k q : size base = m -> (k * m + q < k.+1 * m)%N -> forall D, (k < D)%N -> nth 0 (flatten (nseq D base)) (k * m + q) = nth 0 base q.
Proof.
move=> S; elim: k => [|k IH] H [|D] //= Hk; rewrite nth_cat S.
  by rewrite mul0n add0n in H *; rewrite mul1n in H; rewrite H.
have L : (m <= k.+1 * m + q)%N by rewrite mulSn -addnA leq_addr.
rewrite ltnNge L /= mulSn -addnA addKn; apply: IH => //; move: H; rewrite !mulSn; clear; lia.
Qed.
Lemma embed_arr_ok (base : seq R) d sl k g (a : nd R) ix : arr3 k g a -> (forall x, x \in dat a -> re x = x) -> slice_ix d sl = Ok ix -> size ix = g -> size base = (d * d)%N ->
  exists2 b, embed_arr re base d sl (GArr a) = Ok b & arr3 k d b /\
    forall t i j, (t < k)%N -> (i < d)%N -> (j < d)%N ->
      get 0 b [:: t; i; j] = if (i \in ix) && (j \in ix) then get 0 a [:: t; index i ix; index j ix] else nth 0 base (i * d + j).
Proof.
move=> [Ed Es] Hre Ei Si Sb; rewrite /embed_arr /gshape Ed /= Ei /= /put_block /= /bcast1 size_iota Si !eqxx /=.
eexists; first by []; split; first by split=> //; rewrite size_nd_init /= !muln1 mulnA.
move=> t i j Ht Hi Hj; rewrite get_init /=; last by rewrite /valid /= Ht Hi Hj.
rewrite mem_iota Ht /= andbT; case: ifP => [/andP[Mi Mj]|_]; last first.
  rewrite /get /= !muln1 addn0.
  have L : (i * d + j < d * d)%N.
    by apply: leq_trans (_ : (i.+1 * d <= _)%N); [rewrite mulSnr ltn_add2l | rewrite leq_mul2r Hi orbT].
  by apply: (nth_rep Sb) => //; rewrite mulSnr ltn_add2l.
have It : index t (iota 0 k) = t by rewrite -{1}[t]add0n -(nth_iota 0 0 Ht) index_uniq ?iota_uniq ?size_iota.
have e1 : (if k == 1%N then 0 else index t (iota 0 k))%N = t by rewrite It; case: eqP Ht => // ->; case: (t).
have e2 x : x \in ix -> (if g == 1%N then 0 else index x ix)%N = index x ix.
  by rewrite -index_mem Si; case: eqP => // ->; case: (index x ix).
rewrite /= e1 !e2 // /get Ed /=; move: (_ + _)%N => q; case: (ltnP q (size (dat a))) => Hq.
  by rewrite (nth_map 0) // Hre // mem_nth.
by rewrite !nth_default ?size_map.
Qed.

(** E acts on the coordinates ix as M does, and multiplies the others by c *)
Definition acts_on (d : nat) (ix : seq nat) (c : R) (M E : fmat R) : Prop :=
  [/\ fr E = d, fc E = d & forall (v : nat -> R) i, (i < d)%N ->
    \sum_(0 <= j < d) fe E i j * v j =
    if i \in ix then \sum_(0 <= b < size ix) fe M (index i ix) b * v (nth 0%N ix b) else c * v i].

Lemma sum_ix d ix (F : nat -> R) : uniq ix -> all (fun i => i < d)%N ix ->
  \sum_(0 <= j < d) (if j \in ix then F j else 0) = \sum_(0 <= b < size ix) F (nth 0%N ix b).
Proof.
move=> U /allP A; rewrite -big_mkcond -(big_nth 0%N xpredT F) -big_filter; apply: perm_big.
apply: uniq_perm; [by apply/filter_uniq/iota_uniq | by [] | ].
by move=> x; rewrite mem_filter mem_index_iota andb_idr // => /A.
Qed.
Lemma den_item_sz k d (a : nd R) t : arr3 k d a -> (t < k)%N ->
  fr (nth (fzero R 0 0) (map (@den R) (gitems (GArr a))) t) = d /\ fc (nth (fzero R 0 0) (map (@den R) (gitems (GArr a))) t) = d.
Proof.
move=> [Ed Es] Ht; rewrite (nth_map (OI R 0)); last by rewrite /gitems Ed /= size_mkseq.
by rewrite /gitems Ed nth_mkseq.
Qed.
Lemma acts_item d ix c k (a b : nd R) t : uniq ix -> all (fun i => i < d)%N ix -> arr3 k (size ix) a -> arr3 k d b ->
  (forall t i j, (t < k)%N -> (i < d)%N -> (j < d)%N ->
      get 0 b [:: t; i; j] = if (i \in ix) && (j \in ix) then get 0 a [:: t; index i ix; index j ix] else if i == j then c else 0) ->
  (t < k)%N -> acts_on d ix c (nth (fzero R 0 0) (map (@den R) (gitems (GArr a))) t) (nth (fzero R 0 0) (map (@den R) (gitems (GArr b))) t).
Proof.
move=> U A Ha Hb H Ht; have [s1 s2] := den_item_sz Hb Ht; split=> // v i Hi.
rewrite (@eq_sum _ d _ (fun j => (if (i \in ix) && (j \in ix) then get 0 a [:: t; index i ix; index j ix] else if i == j then c else 0) * v j)); last by move=> j Hj; rewrite (den_item Hb Ht Hi Hj) H.
case: (boolP (i \in ix)) => Mi /=; last first.
  by rewrite (sum_only Hi) ?eqxx // => j _ /negbTE; rewrite eq_sym => ->; rewrite mul0r.
rewrite -(@eq_sum _ d (fun j => if j \in ix then get 0 a [:: t; index i ix; index j ix] * v j else 0)); last first.
  move=> j Hj; case: (boolP (j \in ix)) => // Nj; case: eqP Nj => [<-|_ _]; by rewrite ?Mi ?mul0r.
rewrite sum_ix //; apply: eq_sum => b0 Hb0; rewrite index_uniq //.
by rewrite (den_item Ha Ht) // index_mem.
Qed.

(** G is a group whose generators are k1 and k2 matrices of size g x g, stored as real arrays *)
Definition arrays (G : group R) (g k1 k2 : nat) : Prop :=
  exists la ha, [/\ g_lie G = GArr la, g_gens G = GArr ha, arr3 k1 g la, arr3 k2 g ha &
                    forall x, (x \in dat la) || (x \in dat ha) -> re x = x].
Lemma embed_arrs G d sl ix g k1 k2 : arrays G g k1 k2 -> slice_ix d sl = Ok ix -> size ix = g ->
  exists a h, [/\ arr3 k1 d a, arr3 k2 d h,
     g_embed G d sl = group_init conj close (cat (g_repr G) (cat "_R" (show d))) (with_both (GArr a) (GArr h)) &
     (forall t, (t < k1)%N -> acts_on d ix 0 (nth (fzero R 0 0) (lmats G) t) (nth (fzero R 0 0) (map (@den R) (gitems (GArr a))) t)) /\
     (forall t, (t < k2)%N -> acts_on d ix 1 (nth (fzero R 0 0) (gmats G) t) (nth (fzero R 0 0) (map (@den R) (gitems (GArr h))) t))].
Proof.
move=> [la [ha [El Eh Al Ah Hre]]] Ei Si; have [U A] := slice_ok Ei; subst g.
have [|a Ea [Ba Ga]] := @embed_arr_ok (nseq (d * d) 0) d sl k1 _ la ix Al _ Ei erefl (size_nseq _ _).
  by move=> x Hx; apply: Hre; rewrite Hx.
have [|h E2 [Bh Gh]] := @embed_arr_ok (eye R d) d sl k2 _ ha ix Ah _ Ei erefl (size_mkseq _ _).
  by move=> x Hx; apply: Hre; rewrite Hx orbT.
exists a, h; split=> //; first by rewrite /Groups.g_embed El Eh /= Ea /= E2.
split=> t Ht; rewrite /lmats /gmats ?El ?Eh.
  apply: (acts_item U A Al Ba _ Ht) => t' i j Ht' Hi Hj; rewrite Ga //.
  by rewrite nth_nseq !if_same.
apply: (acts_item U A Ah Bh _ Ht) => t' i j Ht' Hi Hj; rewrite Gh //.
by rewrite nth_eye // /dl; case: ifP => // _; case: eqP.
Qed.
Theorem embed_ok G d sl ix g k1 k2 : arrays G g k1 k2 -> (0 < k1 + k2)%N -> slice_ix d sl = Ok ix -> size ix = g ->
  exists2 G', g_embed G d sl = Ok G' & [/\ g_d G' = Some d, size (lmats G') = k1, size (gmats G') = k2 &
     (forall t, (t < k1)%N -> acts_on d ix 0 (nth (fzero R 0 0) (lmats G) t) (nth (fzero R 0 0) (lmats G') t)) /\
     (forall t, (t < k2)%N -> acts_on d ix 1 (nth (fzero R 0 0) (gmats G) t) (nth (fzero R 0 0) (gmats G') t))].
Proof.
move=> HG K Ei Si; have [a [h [Ba Bh -> [H1 H2]]]] := embed_arrs HG Ei Si.
have [|||||G' -> [E1 E2 E3 _]] := @built_one _ conj close (cat (g_repr G) (cat "_R" (show d))) d (GArr a) (GArr h).
- by rewrite (glen_arr Bh); case: (k2) Bh => // k Bh _; exact: last_arr Bh.
- by rewrite (glen_arr Ba); case: (k1) Ba => // k Ba _; exact: last_arr Ba.
- by rewrite (glen_arr Ba) (glen_arr Bh); move: K; case: (k1) (k2) => [|?] [|?].
- exact: gok_arr Ba.
- exact: gok_arr Bh.
have SM k (b : nd R) : arr3 k d b -> size (map (@den R) (gitems (GArr b))) = k by move=> Bb; rewrite [LHS]size_map; exact: size_item Bb.
by exists G' => //; rewrite /lmats /gmats E2 E3 (SM _ _ Ba) (SM _ _ Bh).
Qed.
(** a group without generators: the embedding is built, but its dimension is never set *)
Theorem embed_none G d sl ix g : arrays G g 0 0 -> slice_ix d sl = Ok ix -> size ix = g ->
  exists2 G', g_embed G d sl = Ok G' & g_d G' = None.
Proof.
move=> HG Ei Si; have [a [h [[Ba _] [Bh _] -> _]]] := embed_arrs HG Ei Si.
rewrite /group_init /init_d /= Ba Bh /= /check_skew /check_orth /= Ba Bh /= /check_ones /= Bh /=.
by eexists.
Qed.
(** the slice must have the size of the group, unless the group acts on one coordinate *)
Theorem embed_size G d sl ix g k1 k2 : arrays G g k1 k2 -> slice_ix d sl = Ok ix -> size ix <> g -> g <> 1%N ->
  g_embed G d sl = Err ValueError.
Proof.
move=> [la [ha [El Eh [Al _] _ _]]] Ei /eqP Si /eqP G1.
rewrite /Groups.g_embed El Eh /= /embed_arr /= Ei /= /put_block /= Al /= /bcast1 [g == _]eq_sym (negbTE Si) (negbTE G1) /=.
by rewrite andbF.
Qed.
Theorem embed_step0 G d sl g k1 k2 : arrays G g k1 k2 -> s_step sl = Some 0 -> g_embed G d sl = Err ValueError.
Proof.
move=> [la [ha [El Eh [Al _] _ _]]] E; by rewrite /Groups.g_embed El Eh /= /embed_arr /= /slice_ix E.
Qed.
(** groups whose generators are a list of operators (S, Z, Cube, products): a list has no shape *)
Theorem embed_list G d sl l : g_gens G = GOps l \/ g_lie G = GOps l -> g_embed G d sl = Err AttributeError.
Proof.
rewrite /Groups.g_embed; case=> ->; first by case: (g_lie G).
by [].
Qed.
End Embed.

Lemma init_fields (R : comRingType) (conj : R -> R) close r lie gens (G : group R) :
  group_init conj close r (with_both lie gens) = Ok G -> [/\ g_repr G = r, g_lie G = lie & g_gens G = gens].
Proof. by rewrite /group_init /=; do 2 case: (X in bind X _) => //= ?; case=> <-. Qed.
Lemma embed_repr (R : comRingType) (conj re : R -> R) close (G H : group R) d sl :
  g_embed conj re close G d sl = Ok H -> g_repr H = cat (g_repr G) (cat "_R" (show d)).
Proof.
rewrite /g_embed; case: (gshape (g_lie G)) => // ?; case: (gshape (g_gens G)) => // ?.
case: (embed_arr _ _ _ _ (g_lie G)) => // ?; case: (embed_arr _ _ _ _ (g_gens G)) => // ?.
by case/init_fields.
Qed.

(** ** where the claim fails *)
Section Bad.
Variables (R : comRingType) (conj : R -> R) (close : seq R -> seq R -> bool).
Local Notation g_embed := (g_embed conj id close).
Definition s_mid (a b : nat) : pyslice := Slice (Some (Posz a)) (Some (Posz b)) None.

Lemma so2_arrays G : g_so conj close 2 = Ok G -> arrays id G 2 1 0.
Proof.
have [a E [G' -> [_ H1 H2 _]]] := so_ok conj close (isT : 1 < 2)%N; case=> <-.
have Ha : arr3 1 2 a by move: (so_filled R 2); rewrite E => -[_ [<-] /filled_arr3].
exists a, (zeros R [:: 0; 2; 2]%N); rewrite H1 H2; split=> //.
Qed.
Lemma acts_fun d ix c M E (v : nat -> R) i : acts_on d ix c M E -> (i < d)%N ->
  \sum_(0 <= j < d) fe E i j * v j =
    if i \in ix then \sum_(0 <= b < size ix) fe M (index i ix) b * v (nth 0%N ix b) else c * v i.
Proof. by move=> [_ _ H] Hi; apply: H. Qed.
(** SO(2) embedded in R^3 on the first two and on the last two coordinates: equal groups,
    although the first moves the first basis vector and the second does not *)
Theorem embed_same_name : exists G G1 G2, [/\ g_so conj close 2 = Ok G, g_embed G 3 (s_upto 2) = Ok G1, g_embed G 3 (s_mid 1 3) = Ok G2,
   g_eq G1 G2 & fe (nth (fzero R 0 0) (lmats G1) 0) 1 0 = 1 /\ fe (nth (fzero R 0 0) (lmats G2) 0) 1 0 = 0].
Proof.
have [a Ea [G EG [_ H1 H2 _]]] := so_ok conj close (isT : 1 < 2)%N; have HG := so2_arrays EG.
have [|G1 E1 [_ _ _ [A1 _]]] := @embed_ok _ conj id close G 3 (s_upto 2) [:: 0; 1]%N 2 1 0 HG isT _ erefl; first by vm_compute.
have [|G2 E2 [_ _ _ [A2 _]]] := @embed_ok _ conj id close G 3 (s_mid 1 3) [:: 1; 2]%N 2 1 0 HG isT _ erefl; first by vm_compute.
have M10 : fe (nth (fzero R 0 0) (lmats G) 0) 1 0 = 1.
  rewrite /lmats H1; move: Ea; vm_compute; case=> <-; by [].
have pick (E : fmat R) : \sum_(0 <= j < 3) fe E 1%N j * (j == 0%N)%:R = fe E 1%N 0%N.
  by rewrite (sum_only (isT : 0 < 3)%N) ?mulr1 // => j _ /negbTE ->; rewrite mulr0.
exists G, G1, G2; split=> //; last first.
  have := acts_fun (fun j => (j == 0%N)%:R) (A1 0%N isT) (isT : 1 < 3)%N.
  have := acts_fun (fun j => (j == 0%N)%:R) (A2 0%N isT) (isT : 1 < 3)%N.
  rewrite !pick /= => -> ->; rewrite !big_nat_recl // !big_nil /= !mulr0 !addr0 !mulr1 M10; by [].
by rewrite /g_eq (embed_repr E1) (embed_repr E2) String.eqb_refl.
Qed.

(** O(1) on a slice of two coordinates: -1 is broadcast over the block, the generator is singular *)
Theorem embed_broadcast : exists G G1 h, [/\ g_o conj close 1 = Ok G, g_embed G 3 (s_upto 2) = Ok G1, gmats G1 = [:: h] &
  forall i, (i < 3)%N -> \sum_(0 <= j < 3) fe h i j * nth 0 [:: 1; -1; 0] j = 0].
Proof.
have [a [h [Ea Eh [G EG [_ H1 H2 _]]]]] := o_ok conj close 0.
have Ea' : so_lie R 1 = Ok (ND [:: 0; 1; 1]%N [::]) by [].
have Eh' : put (eye1 R 1) [:: 0; 0; 0]%N (-1) = Ok (ND [:: 1; 1; 1]%N [:: -1]) by [].
move: Ea Eh; rewrite Ea' Eh' => -[?] [?]; subst a h.
have [a Ea] : exists2 a, embed_arr id (nseq (3 * 3) 0) 3 (s_upto 2) (g_lie G) = Ok a & arr3 0 3 a.
  by rewrite H1; eexists.
have [h Eh] : exists2 h, embed_arr id (eye R 3) 3 (s_upto 2) (g_gens G) = Ok h & h = ND [:: 1; 3; 3]%N [:: -1; -1; 0; -1; -1; 0; 0; 0; 1].
  by rewrite H2; eexists.
move=> ? Ba; subst h.
have [|||||G1 E1 [_ _ E3 _]] := @built_one _ conj close (cat (g_repr G) (cat "_R" (show 3))) 3 (GArr a) (GArr (ND [:: 1; 3; 3]%N [:: -1; -1; 0; -1; -1; 0; 0; 0; 1])) => //.
- by rewrite (glen_arr Ba).
- exact: gok_arr Ba.
- exact: (@gok_arr _ _ 1).
exists G, G1, (den (OArr 3 3 [:: -1; -1; 0; -1; -1; 0; 0; 0; 1])); split=> //.
- by rewrite /Groups.g_embed {1}H1 {1}H2 /= Ea /= Eh /= E1.
- by rewrite /gmats E3.
case=> [|[|[|//]]] _; rewrite !big_nat_recl // big_nil /= ?mulr1 ?mulrN1 ?mulr0 ?addr0 ?opprK ?oppr0 ?addNr ?addr0 //.
Qed.
End Bad.

Section BadC.
Variables (F : comRingType) (close : seq (cplx_comRingType F) -> seq (cplx_comRingType F) -> bool).
Local Notation C := (cplx_comRingType F).
Definition creal (z : C) : C := Cx (Cplx.re z) 0.
(** U(1) on the whole of C^1: the imaginary parts are dropped, the generator becomes zero *)
Theorem embed_complex : exists G G1 A B, [/\ g_u (@cconj F) (cI F) close 1 = Ok G, g_embed (@cconj F) creal close G 1 s_all = Ok G1,
  lmats G = [:: A] /\ lmats G1 = [:: B] & fe A 0 0 = cI F /\ fe B 0 0 = 0].
Proof.
have [a Ea [G EG [_ H1 H2 _]]] := u_ok close (isT : 0 < 1)%N.
have Ea' : u_lie (cI F) 1 = Ok (ND [:: 1; 1; 1]%N [:: 0 + 1 * cI F]) by [].
move: Ea; rewrite Ea' => -[?]; subst a.
have Ra : embed_arr creal (nseq (1 * 1) 0) 1 s_all (g_lie G) = Ok (ND [:: 1; 1; 1]%N [:: creal (0 + 1 * cI F)]) by rewrite H1.
have Rh : embed_arr creal (eye C 1) 1 s_all (g_gens G) = Ok (ND [:: 0; 1; 1]%N [::]) by rewrite H2.
have [|||||G1 E1 [_ E2 _ _]] := @built_one _ (@cconj F) close (cat (g_repr G) (cat "_R" (show 1))) 1 (GArr (ND [:: 1; 1; 1]%N [:: creal (0 + 1 * cI F)])) (GArr (ND [:: 0; 1; 1]%N [::])) => //.
- exact: (@gok_arr _ _ 1).
exists G, G1, (den (OArr 1 1 [:: 0 + 1 * cI F])), (den (OArr 1 1 [:: creal (0 + 1 * cI F)])); split=> //.
- by rewrite /g_embed {1}H1 {1}H2 /= Ra /= Rh /= E1.
- by rewrite /lmats H1 E2.
by rewrite /= add0r mul1r.
Qed.
End BadC.
