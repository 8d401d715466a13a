(** * NpLemmas: facts about the array primitives of [Np]. *)
From mathcomp Require Import all_ssreflect.
From mathcomp Require Import zify.
From Verif Require Import Np.
Set Implicit Arguments.
Unset Strict Implicit.
Unset Printing Implicit Defensive.

(** ** Results *)

Lemma bindOk T U (x : T) (f : T -> res U) : bind (Ok x) f = f x. Proof. by []. Qed.

Lemma sequence_ok T (l : seq (res T)) v :
  sequence l = Ok v -> l = map Ok v.
Proof.
elim: l v => [|m l IH] v /=; first by case=> <-.
case: m => //= x; case E: (sequence l) => [xs|e] //= [<-] /=.
by rewrite (IH _ E).
Qed.

Lemma sequence_map_ok T (v : seq T) : sequence (map Ok v) = Ok v.
Proof. by elim: v => //= x v ->. Qed.

Lemma mapM_ok T U (f : T -> res U) (g : T -> U) l :
  (forall x, List.In x l -> f x = Ok (g x)) -> mapM f l = Ok (map g l).
Proof.
rewrite /mapM; elim: l => //= x l IH H.
rewrite H; last by left.
by rewrite /= IH // => y Hy; apply: H; right.
Qed.

Lemma mapM_ok_in (T : eqType) U (f : T -> res U) (g : T -> U) l :
  {in l, forall x, f x = Ok (g x)} -> mapM f l = Ok (map g l).
Proof.
rewrite /mapM; elim: l => //= x l IH H.
rewrite H ?mem_head //= IH // => y Hy; apply: H; by rewrite inE Hy orbT.
Qed.

Lemma mapM_nth T U (f : T -> res U) l v t0 u0 :
  mapM f l = Ok v -> size v = size l /\
  forall i, i < size l -> f (nth t0 l i) = Ok (nth u0 v i).
Proof.
rewrite /mapM => /sequence_ok; elim: l v => [|x l IH] [|y v] //= [E /IH [-> H]].
by split=> // -[|i] //= Hi; apply: H.
Qed.

(** ** Shapes *)

Lemma prodn_cons n s : prodn (n :: s) = n * prodn s. Proof. by []. Qed.

Lemma prodn_cat s t : prodn (s ++ t) = prodn s * prodn t.
Proof. by elim: s => [|n s IH] /=; rewrite ?mul1n // IH mulnA. Qed.

Lemma prodn_rcons s n : prodn (rcons s n) = prodn s * n.
Proof. by rewrite -cats1 prodn_cat /= muln1. Qed.

Lemma prodn_gt0 s : (0 < prodn s) = all (fun n => 0 < n) s.
Proof. by elim: s => //= n s <-; rewrite muln_gt0. Qed.

Lemma perm_prodn s t : perm_eq s t -> prodn s = prodn t.
Proof.
move=> H; have F u : prodn u = \prod_(i <- u) i.
  by elim: u => [|n u IH] /=; rewrite ?big_nil // big_cons -IH.
by rewrite !F; apply: perm_big.
Qed.

Lemma valid_size s i : valid s i -> size i = size s.
Proof. by elim: s i => [|n s IH] [|x i] //= /andP[_ /IH ->]. Qed.

Lemma validP s i : reflect (size i = size s /\ forall j, j < size s -> nth 0 i j < nth 0 s j)
                           (valid s i).
Proof.
apply: (iffP idP).
  elim: s i => [|n s IH] [|x i] //= /andP[H /IH [E F]]; split; first by rewrite E.
  by move=> [|j] //= Hj; apply: F.
elim: s i => [|n s IH] [|x i] //= [] // [E] F.
by rewrite (F 0) //= IH //; split=> // j Hj; apply: (F j.+1).
Qed.

Lemma valid_cat s t i j : size i = size s -> valid (s ++ t) (i ++ j) = valid s i && valid t j.
Proof. by elim: s i => [|n s IH] [|x i] //= [/IH ->]; rewrite andbA. Qed.

Lemma ravel_lt s i : valid s i -> ravel s i < prodn s.
Proof.
elim: s i => [|n s IH] [|x i] //= /andP[Hx /IH Hi].
apply: (@leq_trans (x.+1 * prodn s)); first by rewrite mulSn addnC ltn_add2r.
by rewrite leq_mul2r Hx orbT.
Qed.

Lemma ravel_cat s t i j : size i = size s ->
  ravel (s ++ t) (i ++ j) = ravel s i * prodn t + ravel t j.
Proof.
elim: s i => [|n s IH] [|x i] //= [/IH ->]; rewrite prodn_cat mulnDl !mulnA; lia.
Qed.

Lemma size_unravel s k : size (unravel s k) = size s.
Proof. by elim: s k => //= n s IH k; rewrite IH. Qed.

Lemma unravel_valid s k : k < prodn s -> valid s (unravel s k).
Proof.
elim: s k => [|n s IH] k //= Hk.
have P0 : 0 < prodn s by case: (prodn s) Hk => //; rewrite muln0.
by rewrite ltn_divLR // Hk IH // ltn_mod.
Qed.

Lemma ravel_unravel s k : k < prodn s -> ravel s (unravel s k) = k.
Proof.
elim: s k => [|n s IH] k /=; first by case: k.
move=> Hk; have P0 : 0 < prodn s by case: (prodn s) Hk => //; rewrite muln0.
by rewrite IH ?ltn_mod // -divn_eq.
Qed.

Lemma unravel_ravel s i : valid s i -> unravel s (ravel s i) = i.
Proof.
elim: s i => [|n s IH] [|x i] //= /andP[_ Hi].
have L := ravel_lt Hi; have P0 : 0 < prodn s by exact: leq_ltn_trans L.
by rewrite divnMDl // divn_small // addn0 modnMDl modn_small // IH.
Qed.

Lemma ravel_inj s i j : valid s i -> valid s j -> ravel s i = ravel s j -> i = j.
Proof. by move=> Hi Hj E; rewrite -(unravel_ravel Hi) E unravel_ravel. Qed.

Lemma unravel_cat s t k : k < prodn (s ++ t) ->
  unravel (s ++ t) k = unravel s (k %/ prodn t) ++ unravel t (k %% prodn t).
Proof.
move=> Hk; apply: (@ravel_inj (s ++ t)).
- exact: unravel_valid.
- have P0 : 0 < prodn t by move: Hk; rewrite prodn_cat; case: (prodn t) => //; rewrite muln0.
  rewrite valid_cat ?size_unravel // !unravel_valid ?ltn_mod //.
  by rewrite ltn_divLR // -prodn_cat.
- have P0 : 0 < prodn t by move: Hk; rewrite prodn_cat; case: (prodn t) => //; rewrite muln0.
  rewrite ravel_unravel // ravel_cat ?size_unravel // !ravel_unravel ?ltn_mod -?divn_eq //.
  by rewrite ltn_divLR // -prodn_cat.
Qed.

Lemma index_in_iota m n j : m <= j < m + n -> index j (iota m n) = j - m.
Proof.
elim: n m => [|n IH] m /=; first by lia.
case: eqP => [->|]; first by rewrite subnn.
move=> Hm Hj; rewrite IH; lia.
Qed.

(** ** [nd] *)
Section Nd.
Variables (T : Type) (x0 : T).
Local Notation get := (get x0).

Lemma size_nd_init s (f : seq nat -> T) : size (dat (nd_init s f)) = prodn s.
Proof. exact: size_mkseq. Qed.

Lemma get_init s (f : seq nat -> T) i : valid s i -> get (nd_init s f) i = f i.
Proof. by move=> H; rewrite /Np.get /= nth_mkseq ?ravel_lt // unravel_ravel. Qed.

Lemma nth_init s (f : seq nat -> T) k :
  k < prodn s -> nth x0 (dat (nd_init s f)) k = f (unravel s k).
Proof. by move=> H; rewrite nth_mkseq. Qed.

Lemma nth_get (a : nd T) k : k < prodn (dims a) ->
  nth x0 (dat a) k = get a (unravel (dims a) k).
Proof. by move=> H; rewrite /Np.get ravel_unravel. Qed.

Lemma get_transpose (a : nd T) axes i :
  valid [seq nth 0 (dims a) ax | ax <- axes] i ->
  get (np_transpose x0 a axes) i =
  get a (mkseq (fun m => nth 0 i (index m axes)) (size (dims a))).
Proof. by move=> H; rewrite get_init. Qed.

Lemma moveaxis_order_front p q :
  moveaxis_order (p + q.+1) p 0 = p :: iota 0 p ++ iota p.+1 q.
Proof.
rewrite /moveaxis_order take0 drop0 /= iotaD filter_cat /= add0n eqxx /=.
congr (_ :: _ ++ _); apply/all_filterP; apply/allP => x; rewrite mem_iota; lia.
Qed.

Lemma moveaxis_order_back p q :
  moveaxis_order (p + q).+1 0 p = iota 1 p ++ 0 :: iota p.+1 q.
Proof.
rewrite /moveaxis_order -addn1 addnC iotaD /=.
have -> : [seq k <- iota (0 + 1) (p + q) | k != 0] = iota 1 (p + q).
  by apply/all_filterP; apply/allP => x; rewrite mem_iota; lia.
rewrite iotaD take_size_cat ?size_iota // drop_size_cat ?size_iota //.
Qed.

Lemma map_nth_iota_pre (pre post : seq nat) :
  [seq nth 0 (pre ++ post) ax | ax <- iota 0 (size pre)] = pre.
Proof.
apply: (@eq_from_nth _ 0); first by rewrite size_map size_iota.
move=> j; rewrite size_map size_iota => Hj.
by rewrite (nth_map 0) ?size_iota // nth_iota // add0n nth_cat Hj.
Qed.

Lemma map_nth_iota_post (pre post : seq nat) n :
  [seq nth 0 (pre ++ n :: post) ax | ax <- iota (size pre).+1 (size post)] = post.
Proof.
apply: (@eq_from_nth _ 0); first by rewrite size_map size_iota.
move=> j; rewrite size_map size_iota => Hj.
rewrite (nth_map 0) ?size_iota // nth_iota // nth_cat.
have -> : ((size pre).+1 + j < size pre) = false by lia.
by have -> : (size pre).+1 + j - size pre = j.+1 by lia.
Qed.

Lemma moveaxis_front_dims (a : nd T) pre n post :
  dims a = pre ++ n :: post ->
  dims (moveaxis x0 a (size pre) 0) = n :: pre ++ post.
Proof.
move=> E; rewrite /moveaxis /= E size_cat /= moveaxis_order_front.
rewrite /= map_cat nth_cat ltnn subnn /=.
by rewrite map_nth_iota_pre map_nth_iota_post.
Qed.

Lemma moveaxis_front (a : nd T) pre n post y u w :
  dims a = pre ++ n :: post ->
  y < n -> valid pre u -> valid post w ->
  get (moveaxis x0 a (size pre) 0) (y :: u ++ w) = get a (u ++ y :: w).
Proof.
move=> E Hy Hu Hw; have Su := valid_size Hu; have Sw := valid_size Hw.
rewrite /moveaxis get_transpose; last first.
  have := moveaxis_front_dims E; rewrite /moveaxis /= => ->.
  by rewrite /= Hy valid_cat // Hu Hw.
congr (Np.get x0 a _).
rewrite E size_cat /= moveaxis_order_front.
apply: (@eq_from_nth _ 0); first by rewrite size_mkseq size_cat /= Su Sw.
move=> j; rewrite size_mkseq => Hj; rewrite nth_mkseq // nth_cat Su /=.
case: (ltngtP j (size pre)) => Hjp.
- rewrite index_cat mem_iota Hjp /= index_in_iota ?subn0 ?nth_cat ?Su ?Hjp //.
- rewrite index_cat mem_iota.
  have -> : (0 <= j < 0 + size pre) = false by lia.
  rewrite size_iota index_in_iota; last by lia.
  rewrite [nth 0 (y :: _) _]/= nth_cat Su.
  have -> : (size pre + (j - (size pre).+1) < size pre) = false by lia.
  case Ejp: (j - size pre) => [|k] /=; first by lia.
  by congr (nth _ _ _); lia.
- by rewrite Hjp subnn.
Qed.

Lemma moveaxis_back_dims (a : nd T) pre m post :
  dims a = m :: pre ++ post ->
  dims (moveaxis x0 a 0 (size pre)) = pre ++ m :: post.
Proof.
move=> E; rewrite /moveaxis /= E /= size_cat moveaxis_order_back.
rewrite map_cat /=; congr (_ ++ _ :: _).
  rewrite -[1]addn0 iotaDl -map_comp -[RHS](map_nth_iota_pre pre post).
  by apply: eq_map.
rewrite -[RHS](map_nth_iota_post pre post m) -[(size pre).+1]addn1.
apply: (@eq_from_nth _ 0); first by rewrite !size_map !size_iota.
move=> j; rewrite size_map size_iota => Hj.
rewrite !(nth_map 0) ?size_iota // !nth_iota // addn1 /= !nth_cat.
have -> : (size pre + j < size pre) = false by lia.
have -> : ((size pre).+1 + j < size pre) = false by lia.
have -> : (size pre).+1 + j - size pre = j.+1 by lia.
by rewrite /=; congr nth; lia.
Qed.

Lemma moveaxis_back (a : nd T) pre m post x u w :
  dims a = m :: pre ++ post ->
  x < m -> valid pre u -> valid post w ->
  get (moveaxis x0 a 0 (size pre)) (u ++ x :: w) = get a (x :: u ++ w).
Proof.
move=> E Hx Hu Hw; have Su := valid_size Hu; have Sw := valid_size Hw.
rewrite /moveaxis get_transpose; last first.
  have := moveaxis_back_dims E; rewrite /moveaxis /= => ->.
  by rewrite valid_cat //= Hx Hu Hw.
congr (Np.get x0 a _).
rewrite E /= size_cat moveaxis_order_back.
apply: (@eq_from_nth _ 0); first by rewrite size_mkseq /= size_cat Su Sw.
move=> [|j]; rewrite size_mkseq => Hj; rewrite nth_mkseq //.
  rewrite index_cat mem_iota /= size_iota addn0 nth_cat Su ltnn subnn //.
rewrite index_cat mem_iota /=.
case: (ltnP j (size pre)) => Hjp.
  have -> : j.+1 < 1 + size pre by lia.
  rewrite index_in_iota /=; last by lia.
  by rewrite nth_cat Su subSS subn0 Hjp nth_cat Su Hjp.
have -> : (j.+1 < 1 + size pre) = false by lia.
rewrite size_iota index_in_iota; last by lia.
rewrite nth_cat Su.
have -> : (size pre + (j.+1 - (size pre).+1).+1 < size pre) = false by lia.
rewrite nth_cat Su.
have -> : (j < size pre) = false by lia.
by have -> : size pre + (j.+1 - (size pre).+1).+1 - size pre = (j - size pre).+1 by lia.
Qed.

(** ** Gathering *)
Lemma size_gather (v : seq T) p : size (gather x0 v p) = size p.
Proof. exact: size_map. Qed.

Lemma nth_gather y (v : seq T) p i : i < size p ->
  nth y (gather x0 v p) i = nth x0 v (nth 0 p i).
Proof. by move=> H; rewrite (nth_map 0). Qed.

Lemma gather_cat (v : seq T) p q : gather x0 v (p ++ q) = gather x0 v p ++ gather x0 v q.
Proof. exact: map_cat. Qed.

Lemma gather_flatten (v : seq T) ps :
  gather x0 v (flatten ps) = flatten [seq gather x0 v p | p <- ps].
Proof. exact: map_flatten. Qed.

Lemma gather_iota (v : seq T) : gather x0 v (iota 0 (size v)) = v.
Proof.
apply: (@eq_from_nth _ x0); first by rewrite size_gather size_iota.
move=> i; rewrite size_gather size_iota => Hi.
by rewrite nth_gather ?size_iota // nth_iota.
Qed.

Lemma gather_gather (v : seq T) p q : all (fun i => i < size p) q ->
  gather x0 (gather x0 v p) q = gather x0 v (gather 0 p q).
Proof.
move=> /allP H; rewrite /gather -map_comp; apply/eq_in_map => i /H Hi /=.
by rewrite (nth_map 0).
Qed.

Lemma gather_slice (v : seq T) a b p :
  gather x0 v (slice a b p) = slice a b (gather x0 v p).
Proof. by rewrite /gather /slice map_take map_drop. Qed.

Lemma nth_grows K (X : seq T) p i k : i < size p -> k < K ->
  nth x0 (grows x0 K X p) (i * K + k) = nth x0 X (nth 0 p i * K + k).
Proof.
move=> Hi Hk; rewrite /grows.
elim: p i Hi => [|r p IH] i //= Hi.
rewrite nth_cat size_mkseq; case: i Hi => [|i] Hi.
  by rewrite mul0n add0n Hk nth_mkseq.
rewrite (_ : (i.+1 * K + k < K) = false); last by rewrite mulSn -addnA ltnNge leq_addr.
by rewrite (_ : i.+1 * K + k - K = i * K + k) ?IH //; rewrite mulSn -addnA addKn.
Qed.

Lemma size_grows K (X : seq T) p : size (grows x0 K X p) = size p * K.
Proof. by rewrite /grows; elim: p => //= r p IH; rewrite size_cat size_mkseq IH mulSn. Qed.

Lemma size_tr2 m n (X : seq T) : size (tr2 x0 m n X) = n * m.
Proof. exact: size_mkseq. Qed.

Lemma nth_tr2 m n (X : seq T) i j : i < m -> j < n ->
  nth x0 (tr2 x0 m n X) (j * m + i) = nth x0 X (i * n + j).
Proof.
move=> Hi Hj; rewrite nth_mkseq; last first.
  apply: (@leq_trans (j.+1 * m)); first by rewrite mulSn addnC ltn_add2r.
  by rewrite leq_mul2r Hj orbT.
have m0 : 0 < m by exact: leq_ltn_trans Hi.
by rewrite modnMDl modn_small // divnMDl // divn_small // addn0.
Qed.

Lemma nth_slice a b (v : seq T) i : a + i < b -> nth x0 (slice a b v) i = nth x0 v (a + i).
Proof. by move=> H; rewrite /slice nth_take ?nth_drop //; lia. Qed.

Lemma size_slice a b (v : seq T) : a <= b -> b <= size v -> size (slice a b v) = b - a.
Proof.
move=> Hab Hb; rewrite /slice size_take size_drop.
by case: ltnP => // H; apply/eqP; rewrite eqn_leq H leq_sub2r.
Qed.

(** Two flat 2-d arrays are equal when their entries are. *)
Lemma mat_ext m K (X Y : seq T) : size X = m * K -> size Y = m * K ->
  (forall i k, i < m -> k < K -> nth x0 X (i * K + k) = nth x0 Y (i * K + k)) -> X = Y.
Proof.
move=> SX SY H; apply: (@eq_from_nth _ x0); first by rewrite SX SY.
move=> t; rewrite SX => Ht.
have K0 : 0 < K by case: (K) Ht => //; rewrite muln0.
by rewrite (divn_eq t K) H ?ltn_mod // ltn_divLR.
Qed.

End Nd.

Lemma idx_lt i m K k : i < m -> k < K -> i * K + k < m * K.
Proof.
move=> Hi Hk; apply: (@leq_trans (i.+1 * K)); first by rewrite mulSn addnC ltn_add2r.
by rewrite leq_mul2r Hi orbT.
Qed.

Lemma idx_div i K k : k < K -> (i * K + k) %/ K = i.
Proof. by move=> H; rewrite divnMDl ?divn_small ?addn0 //; exact: leq_ltn_trans H. Qed.

Lemma idx_mod i K k : k < K -> (i * K + k) %% K = k.
Proof. by move=> H; rewrite modnMDl modn_small. Qed.

(** ** Permutations of [iota 0 n] *)

Lemma is_perm_size n p : is_perm n p -> size p = n.
Proof. by move/perm_size; rewrite size_iota. Qed.

Lemma is_perm_uniq n p : is_perm n p -> uniq p.
Proof. by move/perm_uniq => ->; apply: iota_uniq. Qed.

Lemma is_perm_mem n p i : is_perm n p -> (i \in p) = (i < n).
Proof. by move/perm_mem => ->; rewrite mem_iota. Qed.

Lemma is_perm_nth n p i : is_perm n p -> i < n -> nth 0 p i < n.
Proof.
by move=> H Hi; rewrite -(is_perm_mem _ H) mem_nth // (is_perm_size H).
Qed.

Lemma is_perm_all n p : is_perm n p -> all (fun i => i < n) p.
Proof. by move=> H; apply/allP => i; rewrite (is_perm_mem _ H). Qed.

Lemma is_perm_iota n : is_perm n (iota 0 n). Proof. exact: perm_refl. Qed.

Lemma is_permP n p : size p = n -> uniq p -> all (fun i => i < n) p -> is_perm n p.
Proof.
move=> S U /allP A; rewrite /is_perm perm_sym uniq_perm ?iota_uniq //.
have := uniq_min_size U (s2 := iota 0 n).
case.
- by move=> x /A; rewrite mem_iota.
- by rewrite size_iota S.
- by move=> _ H x; rewrite H.
Qed.

Lemma is_perm_inj n p i j : is_perm n p -> i < n -> j < n -> nth 0 p i = nth 0 p j -> i = j.
Proof.
move=> H Hi Hj /eqP; rewrite nth_uniq ?(is_perm_size H) ?(is_perm_uniq H) //.
by move/eqP.
Qed.

Lemma argsort_index n p : is_perm n p -> argsort p = [seq index v p | v <- iota 0 n].
Proof.
move=> H; have U := is_perm_uniq H; have S := is_perm_size H.
rewrite /argsort S.
pose leT i j := nth 0 p i <= nth 0 p j.
have Ptot : {in iota 0 n &, total leT} by move=> x y _ _; exact: leq_total.
have Ptr : {in iota 0 n & &, transitive leT} by move=> x y z _ _ _; exact: leq_trans.
have Pas : {in iota 0 n &, antisymmetric leT}.
  move=> x y; rewrite !mem_iota /= add0n => Hx Hy /anti_leq; exact: (is_perm_inj H).
have P1 : perm_eq (sort leT (iota 0 n)) (iota 0 n) by rewrite perm_sort.
have P2 : perm_eq [seq index v p | v <- iota 0 n] (iota 0 n).
  apply: is_permP; first by rewrite size_map size_iota.
    rewrite map_inj_in_uniq ?iota_uniq // => x y; rewrite !mem_iota /= add0n => Hx Hy E.
    by rewrite -(@nth_index _ 0 x p) ?(is_perm_mem _ H) // E nth_index // (is_perm_mem _ H).
  apply/allP => y /mapP[v Hv ->]; move: Hv; rewrite mem_iota => Hv.
  by rewrite -[X in _ < X]S index_mem (is_perm_mem _ H).
apply: (@sorted_eq_in _ leT).
- by move=> x y z; rewrite !(perm_mem P1) => Hx Hy Hz; apply: Ptr.
- by move=> x y; rewrite !(perm_mem P1) => Hx Hy; apply: Pas.
- by apply: (sort_sorted_in Ptot); apply/allP.
- rewrite sorted_map /=.
  apply: (@path.sub_in_sorted _ (mem (iota 0 n)) (fun x y => x <= y)).
  + move=> x y; rewrite !mem_iota /= add0n => Hx Hy Hxy.
    by rewrite /relpre /leT /= !nth_index ?(is_perm_mem _ H).
  + exact/allP.
  + exact: iota_sorted.
- by rewrite (permPl P1) perm_sym.
Qed.

Lemma argsort_perm n p : is_perm n p -> is_perm n (argsort p).
Proof.
by move=> H; rewrite /argsort (is_perm_size H) /is_perm perm_sort.
Qed.

Lemma size_argsort p : size (argsort p) = size p.
Proof. by rewrite /argsort size_sort size_iota. Qed.

Lemma nth_argsort n p v : is_perm n p -> v < n -> nth 0 (argsort p) v = index v p.
Proof.
by move=> H Hv; rewrite (argsort_index H) (nth_map 0) ?size_iota // nth_iota.
Qed.

(** perm[invperm[i]] = i and invperm[perm[i]] = i *)
Lemma perm_argsort n p i : is_perm n p -> i < n -> nth 0 p (nth 0 (argsort p) i) = i.
Proof. by move=> H Hi; rewrite (nth_argsort H) // nth_index // (is_perm_mem _ H). Qed.

Lemma argsort_perm_nth n p i : is_perm n p -> i < n -> nth 0 (argsort p) (nth 0 p i) = i.
Proof.
move=> H Hi; rewrite (nth_argsort H) ?(is_perm_nth H) //.
by rewrite index_uniq ?(is_perm_size H) ?(is_perm_uniq H).
Qed.

Lemma argsort_iota n : argsort (iota 0 n) = iota 0 n.
Proof.
rewrite (argsort_index (is_perm_iota n)) -[RHS]map_id; apply/eq_in_map => i.
by rewrite mem_iota add0n => Hi; rewrite index_in_iota ?subn0.
Qed.

Lemma argsortK n p : is_perm n p -> argsort (argsort p) = p.
Proof.
move=> H; apply: (@eq_from_nth _ 0); first by rewrite !size_argsort.
move=> i; rewrite !size_argsort (is_perm_size H) => Hi.
have H' := argsort_perm H.
apply: (is_perm_inj H'); rewrite ?(is_perm_nth (argsort_perm H')) ?(is_perm_nth H) //.
by rewrite (perm_argsort H') // (argsort_perm_nth H).
Qed.

Lemma is_perm_gather n p q : is_perm n p -> is_perm n q -> is_perm n (gather 0 p q).
Proof.
move=> Hp Hq; apply: is_permP; first by rewrite size_gather (is_perm_size Hq).
  rewrite /gather map_inj_in_uniq ?(is_perm_uniq Hq) // => i j.
  rewrite !(is_perm_mem _ Hq) => Hi Hj; exact: (is_perm_inj Hp).
apply/allP => y /mapP[i Hi ->]; move: Hi; rewrite (is_perm_mem _ Hq) => Hi; exact: (is_perm_nth Hp).
Qed.

Lemma argsort_gather n p q : is_perm n p -> is_perm n q ->
  argsort (gather 0 p q) = gather 0 (argsort q) (argsort p).
Proof.
move=> Hp Hq; have Hg := is_perm_gather Hp Hq.
apply: (@eq_from_nth _ 0).
  by rewrite size_argsort !size_gather size_argsort (is_perm_size Hp) (is_perm_size Hq).
move=> i; rewrite size_argsort size_gather (is_perm_size Hq) => Hi.
have Hap := argsort_perm Hp; have Haq := argsort_perm Hq.
rewrite nth_gather ?size_argsort ?(is_perm_size Hp) //.
apply: (is_perm_inj Hg); rewrite ?(is_perm_nth (argsort_perm Hg)) //.
  by rewrite (is_perm_nth Haq) // (is_perm_nth Hap).
rewrite (perm_argsort Hg) // nth_gather ?(is_perm_size Hq) ?(is_perm_nth Haq) ?(is_perm_nth Hap) //.
by rewrite (perm_argsort Hq) ?(perm_argsort Hp) // (is_perm_nth Hap).
Qed.
