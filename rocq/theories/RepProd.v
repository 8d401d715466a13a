(** * RepProd: the combinatorics of ProductRep.compute_canonical. *)
From mathcomp Require Import all_ssreflect all_algebra.
From mathcomp Require Import zify.
From Verif Require Import Np NpLemmas Spec LinOp SpecLemmas Rep RepMat RepWf.
Set Implicit Arguments.
Unset Strict Implicit.
Unset Printing Implicit Defensive.
Import GRing.Theory.

(** ** Permuting every axis of an index array *)
Definition outer (p q : seq nat) : seq nat := [seq x * size q + y | x <- p, y <- q].
Definition pmapi (ps : seq (seq nat)) (i : seq nat) : seq nat := [seq nth 0 x.1 x.2 | x <- zip ps i].

Lemma size_outer p q : size (outer p q) = size p * size q.
Proof. by rewrite size_allpairs. Qed.

Lemma nth_outer p q a b : a < size p -> b < size q ->
  nth 0 (outer p q) (a * size q + b) = nth 0 p a * size q + nth 0 q b.
Proof.
rewrite /outer; move: {2 3 4}(size q) (erefl (size q)) => n En Ha Hb; subst n.
elim: p a Ha => [|x p IH] [|a] //= Ha.
  by rewrite mul0n add0n nth_cat size_map Hb (nth_map 0).
rewrite nth_cat size_map; have -> : (a.+1 * size q + b < size q) = false by nia.
by rewrite mulSn -addnA addKn IH.
Qed.

Lemma mem_outer_lt n m p q : is_perm n p -> is_perm m q -> all (fun x => x < n * m) (outer p q).
Proof.
move=> P Q; apply/allP=> z /allpairsP[[x y] /= [Hx Hy ->]].
rewrite (is_perm_mem _ P) in Hx; rewrite (is_perm_mem _ Q) in Hy.
by rewrite (is_perm_size Q) idx_lt.
Qed.

Lemma outer_perm n m p q : is_perm n p -> is_perm m q -> is_perm (n * m) (outer p q).
Proof.
move=> P Q; apply: is_permP; last exact: mem_outer_lt.
  by rewrite size_outer (is_perm_size P) (is_perm_size Q).
apply: allpairs_uniq; [exact: is_perm_uniq P | exact: is_perm_uniq Q |].
move=> [x y] [x' y'] /allpairsP[[a b] /= [Ha Hb [-> ->]]] /allpairsP[[a' b'] /= [Ha' Hb' [-> ->]]].
rewrite !(is_perm_mem _ Q) in Hb Hb'; rewrite (is_perm_size Q) => E.
have E1 : a = a' by have := congr1 (divn^~ m) E; rewrite /= !idx_div.
by have := congr1 (modn^~ m) E; rewrite /= !idx_mod // E1 => ->.
Qed.

Definition outers (ps : seq (seq nat)) : seq nat := foldr outer [:: 0] ps.

Lemma size_outers ps : size (outers ps) = prodn (map size ps).
Proof. by elim: ps => //= p ps IH; rewrite size_outer IH. Qed.

Lemma outers_perm ns ps : size ns = size ps ->
  (forall m, m < size ps -> is_perm (nth 0 ns m) (nth [::] ps m)) -> is_perm (prodn ns) (outers ps).
Proof.
elim: ps ns => [|p ps IH] [|n ns] //= [S] H.
apply: outer_perm; first exact: (H 0).
by apply: IH => // m Hm; apply: (H m.+1).
Qed.

Lemma nth_outers ps i : valid (map size ps) i ->
  nth 0 (outers ps) (ravel (map size ps) i) = ravel (map size ps) (pmapi ps i).
Proof.
elim: ps i => [|p ps IH] [|x i] //= /andP[Hx Hi].
by rewrite -size_outers nth_outer // ?size_outers ?ravel_lt // IH.
Qed.

Lemma valid_pmapi (ns : seq nat) ps i : size ns = size ps -> (forall m, m < size ps -> is_perm (nth 0 ns m) (nth [::] ps m)) ->
  valid (map size ps) i -> valid (map size ps) (pmapi ps i).
Proof.
elim: ps ns i => [|p ps IH] [|n ns] [|x i] //= [S] H /andP[Hx Hi].
have P := H 0 isT; rewrite /= in P.
rewrite (is_perm_size P) (is_perm_nth P) -?(is_perm_size P) //=.
by apply: (IH ns) => // m Hm; apply: (H m.+1).
Qed.

(** one step of the loop *)
Lemma axis_step (o : nd nat) pre n post p :
  dims o = pre ++ n :: post -> is_perm n p ->
  let o' := moveaxis 0 (take_ax0 0 (moveaxis 0 o (size pre) 0) p) 0 (size pre) in
  dims o' = pre ++ n :: post /\
  forall u x w, valid pre u -> x < n -> valid post w ->
    get 0 o' (u ++ x :: w) = get 0 o (u ++ nth 0 p x :: w).
Proof.
move=> E P o'.
have D1 := moveaxis_front_dims 0 E.
set o1 := moveaxis 0 o (size pre) 0 in D1 o' *.
have D2 : dims (take_ax0 0 o1 p) = n :: pre ++ post.
  by rewrite -[LHS]/(size p :: behead (dims o1)) D1 (is_perm_size P).
split; first by rewrite /o' (moveaxis_back_dims 0 D2).
move=> u x w Hu Hx Hw.
rewrite /o' (moveaxis_back 0 D2) // {1}/take_ax0 get_init.
  by rewrite -[head 0 _]/x -[behead _]/(u ++ w) (moveaxis_front 0 E) ?(is_perm_nth P).
by rewrite D1 (is_perm_size P) /= Hx valid_cat ?(valid_size Hu) // Hu.
Qed.

Lemma permute_axes_loop s pre ps (o : nd nat) :
  dims o = s -> s = map size (pre ++ ps) ->
  (forall p, p \in pre ++ ps -> is_perm (size p) p) ->
  (forall i, valid s i -> get 0 o i = ravel s (pmapi pre (take (size pre) i) ++ drop (size pre) i)) ->
  let o' := foldl (fun o x => moveaxis 0 (take_ax0 0 (moveaxis 0 o x.1 0) x.2) 0 x.1)
        o (zip (iota (size pre) (size ps)) ps) in
  dims o' = s /\ forall i, valid s i -> get 0 o' i = ravel s (pmapi (pre ++ ps) i).
Proof.
elim: ps pre o => [|p ps IH] pre o Ed Es HP Hg /=.
  split=> // i Vi; rewrite Hg // cats0 drop_oversize ?cats0 ?take_oversize //;
  by rewrite (valid_size Vi) Es size_map cats0.
have Ed' : dims o = map size pre ++ size p :: map size ps by rewrite Ed Es map_cat.
have [|D G] := @axis_step o (map size pre) (size p) (map size ps) p Ed'.
  by apply: HP; rewrite mem_cat mem_head orbT.
rewrite size_map in D G.
set o1 := moveaxis 0 _ 0 (size pre) in D G *.
have Hp : is_perm (size p) p by apply: HP; rewrite mem_cat mem_head orbT.
rewrite -cat_rcons; have -> : (size pre).+1 = size (rcons pre p) by rewrite size_rcons.
apply: IH.
- by rewrite D -Ed'.
- by rewrite Es cat_rcons.
- by move=> q; rewrite cat_rcons; apply: HP.
move=> i Vi; have Vi' := Vi; rewrite Es map_cat /= in Vi'.
have Si : size i = size pre + (size ps).+1 by rewrite (valid_size Vi') size_cat /= !size_map.
have Ei : i = take (size pre) i ++ nth 0 i (size pre) :: drop (size pre).+1 i.
  by rewrite -drop_nth ?cat_take_drop // Si addnS ltnS leq_addr.
have St : size (take (size pre) i) = size pre by rewrite size_takel // Si leq_addr.
move: Vi'; rewrite {1}Ei valid_cat ?size_map // => /andP[Vu] /= /andP[Hx Vw].
rewrite {1}Ei G //.
have Vi2 : valid s (take (size pre) i ++ nth 0 p (nth 0 i (size pre)) :: drop (size pre).+1 i).
  by rewrite Es map_cat /= valid_cat ?size_map // Vu /= Vw (is_perm_nth Hp) // .
rewrite Hg // take_size_cat // drop_size_cat // size_rcons.
rewrite (take_nth 0) ?Si; last by rewrite addnS ltnS leq_addr.
rewrite -!cats1 /pmapi zip_cat //= map_cat /= -catA //.
Qed.

Lemma size_moveaxis T (x0 : T) a i j : size (dat (moveaxis x0 a i j)) = prodn (dims (moveaxis x0 a i j)).
Proof. exact: size_nd_init. Qed.

Lemma permute_axes_ok ps : (forall p, p \in ps -> is_perm (size p) p) ->
  let s := map size ps in
  let o := permute_axes ps (ND s (arange (prodn s))) in
  dims o = s /\ (ps != [::] -> dat o = outers ps).
Proof.
move=> HP s.
have H0 i : valid s i -> get 0 (ND s (arange (prodn s))) i = ravel s (pmapi [::] (take 0 i) ++ drop 0 i).
  by move=> Vi; rewrite /get /= drop0 nth_iota ?ravel_lt //; case: (i).
have [D G] := @permute_axes_loop s [::] ps (ND s (arange (prodn s))) erefl erefl HP H0.
rewrite /= -/(permute_axes ps _) in D G *; split=> // NE.
set o := permute_axes _ _ in D G *.
have So : size (dat o) = prodn s.
  rewrite -D /o /permute_axes; case/lastP: ps NE {HP H0 D G o} @s => // l p _ s.
  rewrite size_rcons -cats1 -addn1 iotaD zip_cat ?size_iota // foldl_cat.
  exact: size_moveaxis.
apply: (@eq_from_nth _ 0); rewrite So ?size_outers // => k Hk.
rewrite nth_get ?D // G ?unravel_valid // -nth_outers ?unravel_valid //.
by rewrite ravel_unravel.
Qed.

Local Open Scope ring_scope.

Section Fac.
Variable R : comRingType.
Implicit Types (A B : fmat R) (Ks : seq (fmat R)).
Local Notation K0 := (fzero R 0 0).

Definition kprod Ks (i j : seq nat) : R :=
  \prod_(m <- iota 0 (size Ks)) fe (nth K0 Ks m) (nth 0%N i m) (nth 0%N j m).

(** A, read in the order p, is the Kronecker product of the matrices Ks. *)
Definition mfac (n : nat) A Ks (p : seq nat) : Prop :=
  let s := map (@fr R) Ks in
  [/\ [/\ fr A = n, fc A = n & is_perm n p], prodn s = n,
      (forall k, (k < size Ks)%N -> fc (nth K0 Ks k) = fr (nth K0 Ks k)) &
      forall i j, valid s i -> valid s j ->
        fe A (nth 0%N p (ravel s i)) (nth 0%N p (ravel s j)) = kprod Ks i j].

Lemma kprod_cons K Ks x y i j : kprod (K :: Ks) (x :: i) (y :: j) = fe K x y * kprod Ks i j.
Proof.
rewrite /kprod /= big_cons /= (iotaDl 1 0) big_map; congr (_ * _).
Qed.

Lemma kprod_cat Ks Ls i i' j j' : size i = size Ks -> size j = size Ks ->
  kprod (Ks ++ Ls) (i ++ i') (j ++ j') = kprod Ks i j * kprod Ls i' j'.
Proof.
elim: Ks i j => [|K Ks IH] [|x i] [|y j] //= => [_ _|[Si] [Sj]].
  by rewrite {2}/kprod big_nil mul1r.
by rewrite !kprod_cons IH // mulrA.
Qed.

Lemma mfac_meq n A B Ks p : meq A B -> mfac n A Ks p -> mfac n B Ks p.
Proof.
case=> h1 h2 h [[k1 k2 P] S Q H]; split=> //; first by rewrite -h1 -h2.
move=> i j Vi Vj; rewrite -H // h // ?k1 ?k2 (is_perm_nth P) // -S ravel_lt //.
Qed.

Lemma mfac_uniq n A B Ks p : mfac n A Ks p -> mfac n B Ks p -> meq A B.
Proof.
move=> [[h1 h2 P] S Q H] [[k1 k2 _] _ _ H']; split; rewrite ?h1 ?h2 ?k1 ?k2 // => x y Hx Hy.
have E z : (z < n)%N -> exists2 i, valid (map (@fr R) Ks) i & z = nth 0%N p (ravel (map (@fr R) Ks) i).
  move=> Hz; have Hi : (index z p < n)%N by rewrite -(is_perm_size P) index_mem (is_perm_mem _ P).
  exists (unravel (map (@fr R) Ks) (index z p)); first by apply: unravel_valid; rewrite S.
  by rewrite ravel_unravel ?S // nth_index // (is_perm_mem _ P).
have [i Vi ->] := E x Hx; have [j Vj ->] := E y Hy.
by rewrite H // H'.
Qed.

Lemma mfac_nil : mfac 1 (fid R 1) [::] [:: 0%N].
Proof.
split=> // i j; case: i => // _; case: j => // _ /=.
by rewrite /kprod big_nil.
Qed.

Lemma mfac_one A : fc A = fr A -> mfac (fr A) A [:: A] (iota 0 (fr A)).
Proof.
move=> E; split=> //=; first by split=> //; exact: is_perm_iota.
- by rewrite muln1.
- by case.
move=> [|x [|??]] [|y [|??]] //=; rewrite ?andbF // !andbT !muln1 !addn0 => Hx Hy.
by rewrite !nth_iota // kprod_cons /kprod big_nil mulr1.
Qed.

Lemma mfac_cat n m A B Ks Ls p q : mfac n A Ks p -> mfac m B Ls q ->
  mfac (n * m) (fkron A B) (Ks ++ Ls) (outer p q).
Proof.
move=> [[h1 h2 P] S Q H] [[k1 k2 P'] S' Q' H']; split=> /=.
- by rewrite h1 h2 k1 k2; split=> //; apply: outer_perm.
- by rewrite map_cat prodn_cat S S'.
- move=> k; rewrite size_cat !nth_cat => Hk; case: ltnP => Hk'; first exact: Q.
  by apply: Q'; rewrite ltn_subLR.
move=> i j Vi Vj.
have Sp := is_perm_size P; have Sq := is_perm_size P'.
have Cut t : valid (map (@fr R) (Ks ++ Ls)) t -> exists u v, [/\ t = u ++ v, valid (map (@fr R) Ks) u,
    valid (map (@fr R) Ls) v & size u = size Ks].
  move=> Vt; exists (take (size Ks) t), (drop (size Ks) t); rewrite cat_take_drop.
  have St : size (take (size Ks) t) = size Ks.
    by rewrite size_takel // (valid_size Vt) size_map size_cat leq_addr.
  move: Vt; rewrite -{1}(cat_take_drop (size Ks) t) map_cat valid_cat ?size_map //.
  by case/andP.
have [u [v [-> Vu Vv Su]]] := Cut i Vi; have [u' [v' [-> Vu' Vv' Su']]] := Cut j Vj.
rewrite map_cat !ravel_cat ?size_map // S'.
have L t : valid (map (@fr R) Ks) t -> (ravel (map (@fr R) Ks) t < n)%N by rewrite -S; apply: ravel_lt.
have L' t : valid (map (@fr R) Ls) t -> (ravel (map (@fr R) Ls) t < m)%N by rewrite -S'; apply: ravel_lt.
have NO a b : (a < n)%N -> (b < m)%N -> nth 0%N (outer p q) (a * m + b) = (nth 0%N p a * m + nth 0%N q b)%N.
  by move=> Ha Hb; rewrite -[X in (_ * X + _)%N]Sq nth_outer ?Sp ?Sq.
rewrite !NO ?L ?L' // k1 k2.
rewrite !idx_div ?idx_mod ?(is_perm_nth P') ?L' //.
by rewrite kprod_cat // H // H'.
Qed.

Lemma mfac_fkronl Ks : (forall k, (k < size Ks)%N -> fc (nth K0 Ks k) = fr (nth K0 Ks k)) ->
  mfac (prodn (map (@fr R) Ks)) (fkronl Ks) Ks (iota 0 (prodn (map (@fr R) Ks))).
Proof.
elim: Ks => [|K Ks IH] Q /=; first exact: mfac_nil.
have H1 := mfac_one (Q 0%N isT).
have H2 := IH (fun k Hk => Q k.+1 Hk).
have := mfac_cat H1 H2; rewrite cat1s.
have -> // : outer (iota 0 (fr K)) (iota 0 (prodn (map (@fr R) Ks))) =
  iota 0 (fr K * prodn (map (@fr R) Ks)).
set N := prodn _; apply: (@eq_from_nth _ 0%N); rewrite size_outer !size_iota // => t Ht.
have N0 : (0 < N)%N by case: (N) Ht => //; rewrite muln0.
have := @nth_outer (iota 0 (fr K)) (iota 0 N) (t %/ N) (t %% N).
rewrite !size_iota ltn_mod ltn_divLR // => /(_ Ht N0).
by rewrite -divn_eq => ->; rewrite !nth_iota ?ltn_mod ?ltn_divLR // !add0n -divn_eq.
Qed.

Lemma mfac_scat n A Ks p q : is_perm n q -> mfac n A Ks p -> mfac n (fscat q A) Ks (gather 0%N q p).
Proof.
move=> Q [[h1 h2 P] S HQ H]; split=> //.
  by rewrite /= (is_perm_size Q); split=> //; apply: is_perm_gather.
move=> i j Vi Vj; have L t : valid (map (@fr R) Ks) t -> (ravel (map (@fr R) Ks) t < n)%N.
  by rewrite -S; apply: ravel_lt.
rewrite /= !(@nth_gather _ 0%N 0%N) ?(is_perm_size P) ?L //.
by rewrite !index_uniq ?(is_perm_uniq Q) ?(is_perm_size Q) ?(is_perm_nth P) ?L // H.
Qed.

Lemma mfac_kron_scat Ks p : (forall k, (k < size Ks)%N -> fc (nth K0 Ks k) = fr (nth K0 Ks k)) ->
  is_perm (prodn (map (@fr R) Ks)) p -> mfac (prodn (map (@fr R) Ks)) (fscat p (fkronl Ks)) Ks p.
Proof.
move=> Q P; have := mfac_scat P (mfac_fkronl Q).
by rewrite -[X in iota 0 X](is_perm_size P) gather_iota.
Qed.

(** Transposing the axes. *)
Lemma mfac_transpose n A Ks p axes : is_perm (size Ks) axes -> mfac n A Ks p ->
  mfac n A [seq nth K0 Ks a | a <- axes] (dat (np_transpose 0%N (ND (map (@fr R) Ks) p) axes)).
Proof.
move=> PA [[h1 h2 P] S Q H].
set s := map _ Ks in S H *; have Ss : size s = size Ks by rewrite size_map.
have Sa := is_perm_size PA.
have Es : map (@fr R) [seq nth K0 Ks a | a <- axes] = [seq nth 0%N s a | a <- axes].
  rewrite -map_comp; apply/eq_in_map => a; rewrite (is_perm_mem _ PA) => Ha /=.
  by rewrite /s (nth_map K0).
have PS : perm_eq [seq nth 0%N s a | a <- axes] s.
  rewrite -{2}[s](mkseq_nth 0%N) Ss; apply: perm_map; exact: PA.
pose sg (i : seq nat) := mkseq (fun m => nth 0%N i (index m axes)) (size Ks).
have Vsg i : valid [seq nth 0%N s a | a <- axes] i -> valid s (sg i).
  move=> /validP[Si Hi]; apply/validP; rewrite size_mkseq Ss; split=> // j Hj.
  rewrite nth_mkseq //.
  have Hj' : (index j axes < size axes)%N by rewrite index_mem (is_perm_mem _ PA).
  rewrite size_map in Hi; have := Hi _ Hj'; rewrite (nth_map 0%N) // nth_index //.
  by rewrite (is_perm_mem _ PA).
have Isg i j : valid [seq nth 0%N s a | a <- axes] i -> valid [seq nth 0%N s a | a <- axes] j ->
    sg i = sg j -> i = j.
  move=> Vi Vj E; have Si := valid_size Vi; have Sj := valid_size Vj; rewrite size_map in Si Sj.
  apply: (@eq_from_nth _ 0%N); rewrite ?Si ?Sj // => m Hm.
  have Hm' : (nth 0%N axes m < size Ks)%N by apply: (is_perm_nth PA); rewrite -Sa.
  have := congr1 (fun l => nth 0%N l (nth 0%N axes m)) E; rewrite /sg !nth_mkseq //.
  by rewrite !index_uniq ?(is_perm_uniq PA).
set p' := dat _.
have Sp' : size p' = n by rewrite size_nd_init (perm_prodn PS).
have Np' i : valid [seq nth 0%N s a | a <- axes] i ->
    nth 0%N p' (ravel [seq nth 0%N s a | a <- axes] i) = nth 0%N p (ravel s (sg i)).
  move=> Vi; rewrite -[LHS]/(get 0%N (np_transpose 0%N (ND s p) axes) i) get_transpose //=.
  by rewrite Ss.
have Pp' : is_perm n p'.
  apply: is_permP => //.
    apply/(uniqP 0%N) => x y; rewrite !inE Sp' => Hx Hy.
    rewrite -S -(perm_prodn PS) in Hx Hy.
    rewrite -(ravel_unravel Hx) -(ravel_unravel Hy) !Np' ?unravel_valid //.
    move=> /(is_perm_inj P); rewrite -S !ravel_lt ?Vsg ?unravel_valid // => /(_ isT isT).
    move=> /(ravel_inj (Vsg _ (unravel_valid Hx)) (Vsg _ (unravel_valid Hy))).
    by move/(Isg _ _ (unravel_valid Hx) (unravel_valid Hy)) ->.
  apply/(all_nthP 0%N) => x; rewrite Sp' -S -(perm_prodn PS) => Hx.
  rewrite -(ravel_unravel Hx) Np' ?unravel_valid // (perm_prodn PS) S.
  by rewrite (is_perm_nth P) // -S ravel_lt // Vsg // unravel_valid.
split=> //.
- by rewrite Es (perm_prodn PS).
- move=> k; rewrite size_map => Hk; rewrite !(nth_map 0%N) //; apply: Q.
  by apply: (is_perm_nth PA); rewrite -Sa.
rewrite Es => i j Vi Vj; rewrite !Np' // H ?Vsg // /kprod size_map.
rewrite -(perm_big _ PA) /= [RHS](_ : _ = \prod_(m <- iota 0 (size axes)) 
  fe (nth K0 Ks (nth 0%N axes m)) (nth 0%N i m) (nth 0%N j m)); last first.
  apply: eq_big_seq => m; rewrite mem_iota add0n => /andP[_ Hm].
  by rewrite (nth_map 0%N).
rewrite -{1}[axes](mkseq_nth 0%N) /mkseq big_map.
apply: eq_big_seq => m; rewrite mem_iota add0n => /andP[_ Hm].
rewrite /sg !nth_mkseq ?index_uniq ?(is_perm_uniq PA) //.
- by apply: (is_perm_nth PA); rewrite -Sa.
- by apply: (is_perm_nth PA); rewrite -Sa.
Qed.
End Fac.
Local Close Scope ring_scope.

(** ** The axes permutation *)
Section AxesPerm.
Implicit Types (c : dict) (r : rep) (L : seq rep).

Definition pos n L r : seq nat := [seq m <- iota n (size L) | nth RScalar L (m - n) == r].

Lemma pos_cat n L M r : pos n (L ++ M) r = pos n L r ++ pos (n + size L) M r.
Proof.
rewrite /pos size_cat iotaD filter_cat; congr cat.
  apply: eq_in_filter => m; rewrite mem_iota => /andP[H1 H2].
  by rewrite nth_cat; have -> : m - n < size L by lia.
apply: eq_in_filter => m; rewrite mem_iota => /andP[H1 H2].
by rewrite nth_cat subnDA; have -> : (m - n < size L) = false by lia.
Qed.

Lemma pos_nseq n k e r : pos n (nseq e k) r = if k == r then iota n e else [::].
Proof.
rewrite /pos size_nseq; case: ifP => E.
  apply/all_filterP/allP=> m; rewrite mem_iota => /andP[H1 H2].
  by rewrite nth_nseq; have -> : m - n < e by lia.
apply/eqP; rewrite -(negbK (_ == [::])) -has_filter; apply/hasPn=> m; rewrite mem_iota => /andP[H1 H2].
rewrite nth_nseq; have -> : m - n < e by lia.
by rewrite E.
Qed.

Lemma pos_notin n L r : r \notin L -> pos n L r = [::].
Proof.
move=> H; apply/eqP; rewrite -(negbK (_ == [::])) -has_filter; apply/hasPn=> m; rewrite mem_iota => /andP[H1 H2].
by apply: contra H => /eqP <-; apply: mem_nth; rewrite ltn_subLR.
Qed.

Lemma size_dexp c : size (dexp c) = sumn (vals c).
Proof. by elim: c => [|x c IH] //=; rewrite size_cat size_nseq IH. Qed.

Lemma aget_idsi n c r : uniq (keys c) -> aget (axis_idsi n c) r = pos n (dexp c) r.
Proof.
elim: c n => [|[k e] c IH] n //= /andP[Hk U].
rewrite dexp_cons pos_cat pos_nseq size_nseq /aget /=; case: eqP => [<-|_] /=.
  by rewrite pos_notin ?cats0 //; apply: contra Hk => /mem_dexp.
by rewrite -IH.
Qed.

Lemma axis_ids_pos n cs r : all (fun c => uniq (keys c)) cs ->
  flatten [seq aget a r | a <- axis_ids n cs] = pos n (flatten (map dexp cs)) r.
Proof.
elim: cs n => [|c cs IH] n //= /andP[U H].
by rewrite aget_idsi // pos_cat IH // size_dexp.
Qed.

Lemma nth_pos L r : [seq nth RScalar L m | m <- pos 0 L r] = nseq (count_mem r L) r.
Proof.
have -> : [seq nth RScalar L m | m <- pos 0 L r] = [seq x <- L | x == r].
  rewrite /pos -[in RHS](mkseq_nth RScalar L) /mkseq filter_map; congr map.
  by apply: eq_filter => m /=; rewrite subn0.
by rewrite -size_filter; apply/all_pred1P/allP=> x; rewrite mem_filter => /andP[].
Qed.
End AxesPerm.

Section ProdCanon.
Variables (gdim : gid -> nat) (csize : nat -> gid -> nat).
Variable le : rel rep.
Local Notation sz := (rsize gdim csize).

Lemma prodn_dexp d : prodn (map sz (dexp d)) = prodn [seq sz x.1 ^ x.2 | x <- d].
Proof.
elim: d => [|x d IH] //=; rewrite map_cat prodn_cat IH; congr muln.
by rewrite map_nseq; elim: (x.2) => //= n ->; rewrite expnS.
Qed.

Lemma count_dexp c r : uniq (keys c) -> count_mem r (dexp c) = cnt c r.
Proof.
elim: c => [|[k e] c IH] //= /andP[Hk U]; rewrite dexp_cons count_cat count_nseq /= {}IH //.
rewrite /cnt /=; case: eqP => [<-|_] //=; rewrite mul1n.
have -> : nth 0 (vals c) (index k (keys c)) = 0 by apply: (@cnt_notin c).
by rewrite addn0.
Qed.

Lemma count_dexps cs r : all (fun c => uniq (keys c)) cs ->
  count_mem r (flatten (map dexp cs)) = sumn [seq cnt c r | c <- cs].
Proof.
elim: cs => [|c cs IH] //= /andP[U H]; by rewrite count_cat count_dexp // IH.
Qed.

Lemma sumn_map0 (T : eqType) (f : T -> nat) s : (forall x, x \in s -> f x = 0) -> sumn (map f s) = 0.
Proof.
elim: s => [|x s IH] //= H; rewrite H ?mem_head // IH // => y Hy; apply: H; by rewrite inE Hy orbT.
Qed.
Lemma sumn_map_gt0 (T : eqType) (f : T -> nat) s x : x \in s -> 0 < f x -> 0 < sumn (map f s).
Proof.
elim: s => [|y s IH] //=; rewrite inE addn_gt0 => /orP[/eqP <- ->|H1 H2] //.
by rewrite IH ?orbT.
Qed.

Variable D : pred rep.
Hypothesis O : total_order_on D le.


Lemma merged_dict cs : ~~ nilp cs -> all (okdict le D) cs ->
  let d := [seq (r, sumn [seq cnt c r | c <- cs]) | r <- unique_reps le cs] in
  okdict le D d /\ forall r, cnt d r = sumn [seq cnt c r | c <- cs].
Proof.
move=> NE W d.
have AK : all (fun c => all D (keys c)) cs.
  by apply/allP=> c /(allP W) /and5P[].
have [U S A M] := unique_repsP O AK; set us := unique_reps le cs in U S A M d *.
have Kd : keys d = us by rewrite /d /keys -map_comp map_id.
split; last first.
  move=> r; have [Hr|Hr] := boolP (r \in us); last first.
    rewrite cnt_notin ?Kd // sumn_map0 // => c Hc; rewrite cnt_notin //.
    by apply: contra Hr => Hr; rewrite M; apply/hasP; exists c.
  rewrite /cnt Kd /d /vals -map_comp /= (nth_map RScalar) ?index_mem // nth_index //=.
rewrite /okdict Kd A U S /=; apply/andP; split.
  have : ~~ nilp us; last by rewrite -Kd; case: (d).
  case: (cs) NE W M => [|c l] // _ W M; have /and5P[Nx _ _ _ _] := allP W c (mem_head _ _).
  case: c Nx W M => [|[k e] c] //= _ _ M; have : k \in us by rewrite M /= inE eqxx.
  by case: (us).
apply/allP=> v /mapP[x Hx ->]; move: Hx => /mapP[r Hr ->] /=.
move: Hr; rewrite M => /hasP[c Hc Hr].
have /and5P[_ _ _ _ P] := allP W c Hc.
apply: (sumn_map_gt0 Hc).
by apply: (allP P); apply: mem_nth; rewrite size_map -(size_map fst) index_mem.
Qed.

Lemma axes_perm_ok cs : all (okdict le D) cs ->
  let us := unique_reps le cs in
  let L := flatten (map dexp cs) in
  is_perm (size L) (axes_perm us cs) /\
  [seq nth RScalar L a | a <- axes_perm us cs] =
  dexp [seq (r, sumn [seq cnt c r | c <- cs]) | r <- us].
Proof.
move=> W us L.
have AK : all (fun c => all D (keys c)) cs by apply/allP=> c /(allP W) /and5P[].
have [U S A M] := unique_repsP O AK; rewrite -/us in U S A M.
have UK : all (fun c => uniq (keys c)) cs by apply/allP=> c /(allP W) /and5P[].
have -> : axes_perm us cs = flatten [seq pos 0 L r | r <- us].
  by rewrite /axes_perm; congr flatten; apply: eq_map => r; rewrite axis_ids_pos.
split.
  have -> : [seq pos 0 L r | r <- us] = [seq [seq m <- iota 0 (size L) | nth RScalar L m == r] | r <- us].
    by apply: eq_map => r; apply: eq_filter => m; rewrite subn0.
  apply: perm_trans (perm_group _ _ U) _; apply: perm_refl_eq.
  apply/all_filterP/allP=> m; rewrite mem_iota add0n => /andP[_ Hm].
  have /flattenP[s /mapP[c Hc ->] Hs] := mem_nth RScalar Hm.
  by rewrite M; apply/hasP; exists c => //; apply: mem_dexp.
rewrite map_flatten /dexp -!map_comp; congr flatten; apply: eq_map => r /=.
by rewrite nth_pos count_dexps.
Qed.

Variable R : comRingType.
Variable K : rep -> fmat R.
Hypothesis HK : forall r, D r -> kok K sz r.

Lemma kok_map L : (forall r, r \in L -> kok K sz r) -> map (@fr R) (map K L) = map sz L.
Proof. by move=> H; rewrite -map_comp; apply/eq_in_map=> r /H[]. Qed.

Lemma kok_sq L : (forall r, r \in L -> kok K sz r) ->
  forall k, k < size (map K L) -> fc (nth (fzero R 0 0) (map K L) k) = fr (nth (fzero R 0 0) (map K L) k).
Proof.
move=> H k; rewrite size_map => Hk; rewrite (nth_map RScalar) //.
by have [-> ->] := H _ (mem_nth RScalar Hk).
Qed.

Definition pfac (x : dict * seq nat) (A : fmat R) : Prop :=
  okdict le D x.1 /\ mfac (sz (RProd x.1 [::])) A (map K (dexp x.1)) x.2.

Lemma mfac_outers cps As : size As = size cps ->
  (forall m, m < size cps -> pfac (nth ([::],[::]) cps m) (nth (fzero R 0 0) As m)) ->
  mfac (prodn [seq sz (RProd x.1 [::]) | x <- cps]) (fkronl As)
       (map K (flatten (map dexp (map fst cps)))) (outers (map snd cps)).
Proof.
elim: cps As => [|x cps IH] [|A As] //= => [_ _|[S] H]; first exact: mfac_nil.
rewrite map_cat; apply: mfac_cat; first by have [] := H 0 isT.
by apply: IH => // m Hm; apply: (H m.+1).
Qed.

Lemma prod_canonical_ok cps As : ~~ nilp cps -> size As = size cps ->
  (forall m, m < size cps -> pfac (nth ([::],[::]) cps m) (nth (fzero R 0 0) As m)) ->
  let N := prodn [seq sz (RProd x.1 [::]) | x <- cps] in
  exists d p, [/\ prod_canonical gdim csize le (map fst cps) (map snd cps) = Ok (d, p),
    okdict le D d, perm_eq (dexp d) (flatten (map dexp (map fst cps))),
    sz (RProd d [::]) = N & mfac N (fkronl As) (map K (dexp d)) p].
Proof.
move=> NE S H N.
have HF := mfac_outers S H.
set cs := map fst cps in HF *; set ps := map snd cps in HF *.
have W : all (okdict le D) cs.
  apply/(all_nthP [::]) => m; rewrite size_map => Hm; rewrite (nth_map ([::],[::])) //.
  by have [] := H m Hm.
have NEc : ~~ nilp cs by rewrite /cs; case: (cps) NE.
have [Wd Cd] := merged_dict NEc W.
have [PA EA] := axes_perm_ok W.
set us := unique_reps le cs in Wd Cd PA EA *; set d := [seq _ | r <- us] in Wd Cd EA *.
set L := flatten (map dexp cs) in HF PA EA *.
have DL r : r \in L -> kok K sz r.
  case/flattenP=> s /mapP[c Hc ->] /mem_dexp Hr; apply: HK.
  by have /and5P[_ /allP/(_ _ Hr)] := allP W c Hc.
have PP p : p \in ps -> is_perm (size p) p.
  move=> /(nthP [::])[m]; rewrite size_map => Hm <-; rewrite (nth_map ([::],[::])) //.
  have [_ [[_ _ P] _ _ _]] := H m Hm; by rewrite (is_perm_size P).
have [DO HO] := permute_axes_ok PP.
have {}HO : dat (permute_axes ps (ND (map size ps) (arange (prodn (map size ps))))) = outers ps.
  by apply: HO; rewrite /ps; case: (cps) NE.
have [[h1 h2 P] h3 h4 _] := HF.
have SL : prodn [seq sz r | r <- L] = N by rewrite -(kok_map DL) h3.
have PL : perm_eq (dexp d) L.
  rewrite -EA -{2}[L](mkseq_nth RScalar) /mkseq; apply: perm_map; exact: PA.
exists d, (dat (np_transpose 0 (ND (map sz L) (outers ps)) (axes_perm us cs))); split=> //.
- by rewrite /prod_canonical /reshape HO size_outers -size_outers (is_perm_size P) -/L SL eqxx.
- by rewrite /= -prodn_dexp -SL; apply: perm_prodn; apply: perm_map.
have := mfac_transpose (axes := axes_perm us cs) _ HF; rewrite size_map => /(_ PA).
rewrite kok_map // -EA; congr mfac.
rewrite -map_comp; apply/eq_in_map => a; rewrite (is_perm_mem _ PA) => Ha /=.
by rewrite (nth_map RScalar).
Qed.

(** a dictionary already in canonical form is left alone *)
Lemma okdict_unique' d : okdict le D d -> unique_reps le [:: d] = keys d.
Proof.
move=> /and5P[_ A U S _].
have [|U1 S1 A1 M] := unique_repsP O (cs := [:: d]); first by rewrite /= A.
symmetry; apply: (etrans (sub_keys O U1 S1 A1 U S _)).
  by move=> r Hr; rewrite M /= Hr.
by apply/all_filterP/allP=> r; rewrite M /= orbF.
Qed.

Lemma axes_perm_self n d : uniq (keys d) ->
  flatten [seq aget (axis_idsi n d) r | r <- keys d] = iota n (size (dexp d)).
Proof.
elim: d n => [|[k e] d IH] n //= /andP[Hk U].
rewrite {1}/aget /= eqxx size_cat size_nseq iotaD -IH //; congr (_ ++ flatten _).
apply/eq_in_map => r Hr; rewrite /aget /=; case: eqP => // E.
by rewrite E Hr in Hk.
Qed.

Lemma transpose_id T (x0 : T) s v : size v = prodn s ->
  dat (np_transpose x0 (ND s v) (iota 0 (size s))) = v.
Proof.
move=> S; have Es : [seq nth 0 s ax | ax <- iota 0 (size s)] = s by apply: mkseq_nth.
rewrite /np_transpose; apply: (@eq_from_nth _ x0); rewrite size_nd_init Es ?S // => k Hk.
rewrite nth_init // /get /=; congr nth.
rewrite -[RHS](ravel_unravel Hk); congr ravel.
have Su : size (unravel s k) = size s by rewrite size_unravel.
apply: (@eq_from_nth _ 0); rewrite size_mkseq ?Su // => m Hm.
by rewrite nth_mkseq // index_in_iota ?subn0.
Qed.

Lemma prod_canonical_self d : okdict le D d -> 
  let N := prodn [seq sz x.1 ^ x.2 | x <- d] in
  forall p, is_perm N p -> prod_canonical gdim csize le [:: d] [:: p] = Ok (d, p).
Proof.
move=> W N p P; have /and5P[_ _ Ud _ _] := W.
rewrite /prod_canonical okdict_unique' //.
have PP q : q \in [:: p] -> is_perm (size q) q by rewrite inE => /eqP ->; rewrite (is_perm_size P).
have [DO HO] := permute_axes_ok PP.
have EL : flatten (map dexp [:: d]) = dexp d by rewrite /= cats0.
have Eo : outers [:: p] = p.
  by rewrite /= /outer /=; elim: (p) => //= x q ->; rewrite muln1 addn0.
rewrite /reshape HO // Eo EL prodn_dexp (is_perm_size P) eqxx /bind.
rewrite /axes_perm (_ : [seq flatten _ | r <- _] = [seq aget (axis_idsi 0 d) r | r <- keys d]); last first.
  by apply: eq_map => r /=; rewrite cats0.
rewrite axes_perm_self // -(size_map sz) transpose_id; last first.
  by rewrite prodn_dexp (is_perm_size P).
congr (Ok (_, _)).
rewrite -[RHS]map_id /keys -map_comp; apply/eq_in_map => -[k e] Hx /=.
rewrite addn0; congr pair.
have Hi : index (k, e) d < size d by rewrite index_mem.
rewrite /cnt; have -> : index k (keys d) = index (k, e) d.
  rewrite -[k]/((k, e).1) -{1}(nth_index (RScalar, 0) Hx) -(nth_map _ RScalar) // index_uniq //.
  by rewrite size_map.
by rewrite (nth_map (RScalar, 0)) // nth_index.
Qed.
End ProdCanon.
