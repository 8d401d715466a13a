(** * RepMul: products of representations, integer multiples, powers. *)
From mathcomp Require Import all_ssreflect all_algebra.
From mathcomp Require Import zify.
From Verif Require Import Np NpLemmas Spec LinOp SpecLemmas Rep RepMat RepWf RepProd RepAlg RepDist.
Set Implicit Arguments.
Unset Strict Implicit.
Unset Printing Implicit Defensive.
Import GRing.Theory.

Section Fm.
Variable R : comRingType.
Local Open Scope ring_scope.
Implicit Types (A B : fmat R) (l : seq (fmat R)).

Lemma fdsum_0l A : meq (fdsum (fzero R 0 0) A) A.
Proof. by split=> //= i j Hi Hj; rewrite !subn0. Qed.
Lemma fdsum_0r A : meq (fdsum A (fzero R 0 0)) A.
Proof. by split=> /=; rewrite ?addn0 // => i j -> ->. Qed.

Lemma meq_fdsuml (T : eqType) (f g : T -> fmat R) s : (forall x, x \in s -> meq (f x) (g x)) ->
  meq (fdsuml (map f s)) (fdsuml (map g s)).
Proof.
elim: s => [|x s IH] //= H; apply: meq_fdsum; first by apply: H; rewrite mem_head.
by apply: IH => y Hy; apply: H; rewrite inE Hy orbT.
Qed.
Lemma meq_fkronl (T : eqType) (f g : T -> fmat R) s : (forall x, x \in s -> meq (f x) (g x)) ->
  meq (fkronl (map f s)) (fkronl (map g s)).
Proof.
elim: s => [|x s IH] //= H; apply: meq_fkron; first by apply: H; rewrite mem_head.
by apply: IH => y Hy; apply: H; rewrite inE Hy orbT.
Qed.

Lemma fdsuml_cat l1 l2 : meq (fdsuml (l1 ++ l2)) (fdsum (fdsuml l1) (fdsuml l2)).
Proof.
elim: l1 => [|A l1 IH] /=; first by apply: meq_sym; apply: fdsum_0l.
by apply: meq_trans (meq_fdsum (meq_refl A) IH) (fdsum_assoc _ _ _).
Qed.
Lemma fdsuml_flatten ls : meq (fdsuml (flatten ls)) (fdsuml (map (@fdsuml R) ls)).
Proof.
elim: ls => [|l ls IH] //=; apply: meq_trans (fdsuml_cat _ _) _.
exact: meq_fdsum (meq_refl _) IH.
Qed.
Lemma fkronl_cat l1 l2 : meq (fkronl (l1 ++ l2)) (fkron (fkronl l1) (fkronl l2)).
Proof.
elim: l1 => [|A l1 IH] /=; first by apply: meq_sym; apply: fkron_1_l.
by apply: meq_trans (meq_fkron (meq_refl A) IH) (fkron_assoc _ _ _).
Qed.

Lemma fdsuml_nseq c A : fc A = fr A -> meq (fdsuml (nseq c A)) (fkron (fid R c) A).
Proof.
move=> E; elim: c => [|c IH] /=; first by split; rewrite /= ?mul0n.
apply: meq_trans (meq_fdsum (meq_refl A) IH) _; split; rewrite /= ?E ?mulSn //.
move=> i j Hi Hj; have A0 : (0 < fr A)%N by case: (fr A) Hi; rewrite ?muln0.
case: (ltnP i (fr A)) => H1; case: (ltnP j (fr A)) => H2.
- by rewrite !divn_small // !modn_small // eqxx mul1r.
- rewrite divn_small //; suff -> : (0 == j %/ fr A)%N = false by rewrite mul0r.
  by apply/negbTE; rewrite eq_sym -lt0n divn_gt0.
- rewrite [X in _ == X]divn_small //; suff -> : (i %/ fr A == 0)%N = false by rewrite mul0r.
  by apply/negbTE; rewrite -lt0n divn_gt0.
rewrite -{3 4}(subnK H1) -{3 4}(subnK H2) !divnDr // !modnDr !divnn A0 !addn1.
by rewrite eqSS.
Qed.

Lemma fdsuml1 A : meq (fdsuml [:: A]) A.
Proof. exact: fdsum_0r. Qed.

Lemma outer_iota n m : outer (iota 0 n) (iota 0 m) = iota 0 (n * m).
Proof.
apply: (@eq_from_nth _ 0%N); rewrite size_outer !size_iota // => t Ht.
have N0 : (0 < m)%N by case: (m) Ht => //; rewrite muln0.
rewrite -outermE nth_outerm ?size_iota // !nth_iota ?ltn_mod ?ltn_divLR //.
by rewrite !add0n -divn_eq.
Qed.

(** the perm of lines 211-214 of product_sum_reps.py *)
Lemma mul_perm_ok ca cb A B : fc A = fr A -> fc B = fr B ->
  let s := [:: ca; fr A; cb; fr B] in
  let T := dat (np_transpose 0%N (ND s (iota 0 (prodn s))) [:: 0; 2; 1; 3]%N) in
  is_perm (ca * fr A * (cb * fr B)) T /\
  meq (fkron (fkron (fid R ca) A) (fkron (fid R cb) B))
      (fscat T (fkron (fid R (ca * cb)) (fkron A B))).
Proof.
move=> EA EB s T; set N := (ca * fr A * (cb * fr B))%N.
have EN : prodn s = N by rewrite /s /N /= muln1 mulnA.
have one (C : fmat R) : fc C = fr C -> mfac (fr C) C [:: C] (iota 0 (fr C)) by apply: mfac_one.
have H1 : mfac N (fkron (fkron (fid R ca) A) (fkron (fid R cb) B)) [:: fid R ca; A; fid R cb; B] (iota 0 N).
  have := mfac_cat (mfac_cat (one (fid R ca) erefl) (one A EA)) (mfac_cat (one (fid R cb) erefl) (one B EB)).
  by rewrite !outer_iota.
have PA : is_perm (size [:: fid R ca; A; fid R cb; B]) [:: 0; 2; 1; 3]%N by [].
have H2 := mfac_transpose PA H1; rewrite /= -/T -EN -/s in H2.
have H2' : mfac N (fkron (fkron (fid R ca) A) (fkron (fid R cb) B)) [:: fid R ca; fid R cb; A; B] T.
  by rewrite -EN.
have [[_ _ PT] _ _ _] := H2'; split=> //.
apply: (mfac_uniq H2').
have H3 : mfac N (fkron (fkron (fid R ca) (fid R cb)) (fkron A B)) [:: fid R ca; fid R cb; A; B] (iota 0 N).
  have := mfac_cat (mfac_cat (one (fid R ca) erefl) (one (fid R cb) erefl)) (mfac_cat (one A EA) (one B EB)).
  rewrite !outer_iota /=; suff -> : (ca * cb * (fr A * fr B) = N)%N by [].
  by rewrite /N mulnACA.
have H4 := mfac_scat PT H3.
rewrite -[X in iota 0 X](is_perm_size PT) gather_iota in H4.
apply: mfac_meq H4; apply: meq_fscat.
- exact: meq_fkron (fkron_id _ _ _) (meq_refl _).
- by rewrite /= -/N; move: PT; rewrite /N mulnACA.
- by rewrite /= EA EB.
Qed.
End Fm.

Section Mul.
Variables (gdim : gid -> nat) (csize : nat -> gid -> nat).
Variable le : rel rep.
Variable gs : pred gid.
Local Notation sz := (rsize gdim csize).
Local Notation blocks := (blocks sz).
Local Notation atomic := (atomic gdim csize gs).
Local Notation key := (key gdim csize le gs).
Local Notation wfr := (wfr gdim csize le gs).
Local Notation nonsum := (nonsum gdim csize le gs).
Local Notation isprod := (isprod gdim csize le gs).
Local Notation isdir := (isdir gdim csize le gs).
Local Notation issum := (issum gdim csize le gs).
Local Notation canon := (canon gdim csize).
Local Notation cpm := (cpm gdim csize).
Hypothesis O : total_order_on key le.
Variable R : comRingType.
Variable atom : rep -> fmat R.
Hypothesis HA : forall r, atomic r -> kok atom sz r.
Local Notation rmat := (rmat atom).

Lemma concrete_wfr a : wfr a -> concrete a.
Proof.
case/orP; first case/or4P=> [/eqP -> //|A|P|P].
- by have [g E _] := atomic_gattr A; case: a A E => //= [[]|c []|r] //= _ ->.
- by case: a P.
- by case: a P.
by case: a.
Qed.

(** n*rep *)
Lemma mul_int_ok a n : wfr a -> 0 < n ->
  exists2 r, mul_int gdim csize le a (Posz n) = Ok (VRep r) &
  [/\ wfr r, sz r = n * sz a & meq (rmat r) (fdsuml (nseq n (rmat a)))].
Proof.
move=> W N0; case: n N0 => [//|[|n]] _.
  by exists a => //=; split=> //; rewrite ?mul1n //; apply: meq_sym; apply: fdsuml1.
rewrite /mul_int concrete_wfr //.
have [|r -> [H1 H2 H3 _]] := @sum_rep_ok gdim csize le gs O R atom HA (nseq n.+2 a) None isT _ isT.
  by rewrite all_nseq W orbT.
exists r => //; split; first exact: issum_wfr.
  by rewrite H2 map_nseq sumn_nseq mulnC.
by move: H3; rewrite /fext map_nseq.
Qed.

(** ** grouped blocks *)
Definition gr (x : rep * nat) : rep := RSum [:: x] (iota 0 (sz x.1 * x.2)).

Lemma gr_sz x : sz (gr x) = sz x.1 * x.2. Proof. by rewrite /= addn0. Qed.
Lemma gr_issum x : key x.1 -> 0 < x.2 -> issum (gr x).
Proof. by move=> H H'; rewrite /= /okdict /= H H' addn0 is_perm_iota. Qed.
Lemma gr_mat x : key x.1 -> meq (rmat (gr x)) (fdsuml (nseq x.2 (rmat x.1))).
Proof.
move=> H; rewrite /= cats0.
have HK r : r \in nseq x.2 x.1 -> kok rmat sz r by case/nseqP=> -> _; exact: (key_kok HA H).
have h1 := fr_fdsuml HK; have h2 := fc_fdsuml HK.
rewrite !map_nseq sumn_nseq in h1 h2.
by rewrite -h1; apply: fscat_id; rewrite h1 h2.
Qed.

Lemma sum_form a : wfr a ->
  meq (rmat a) (fscat (cpm a) (fdsuml (map rmat (dexp (sum_counter (canon a)))))).
Proof.
move=> W; have [/and5P[_ A _ _ _] S] := counter_ok W.
apply: (dec_uniq (dec_wf HA W)).
rewrite -S /= -sumn_dexp; apply: dec_blocks; first exact: (keys_kok HA A).
by rewrite sumn_dexp -/(sz (RSum _ [::])) S; apply: (is_perm_cpm W).
Qed.

Lemma dec_grouped a : wfr a ->
  dec rmat sz (sz a) (rmat a) (blocks (map gr (sum_counter (canon a))) (cpm a)).
Proof.
move=> W; have [/and5P[_ A _ _ C] S] := counter_ok W.
set d := sum_counter _ in A C S *.
have HK r : r \in map gr d -> kok rmat sz r.
  case/mapP=> x Hx ->; apply: (rmat_sz (le := le) HA); apply: issum_wfr; apply: gr_issum.
    by apply: (allP A); apply: map_f.
  by apply: (allP C); apply: map_f.
have Es : sumn (map sz (map gr d)) = sz a.
  by rewrite -S -map_comp; congr sumn; apply: eq_map => x /=; rewrite addn0.
have P : is_perm (sumn (map sz (map gr d))) (cpm a) by rewrite Es; apply: (is_perm_cpm W).
have := dec_blocks HK P; rewrite Es; apply: dec_meq.
apply: meq_sym; apply: meq_trans (sum_form W) _.
have HKd := keys_kok HA A.
apply: meq_fscat.
- rewrite -dexp_rmat; apply: meq_trans (fdsuml_flatten _) _.
  rewrite -!map_comp; apply: meq_fdsuml => x Hx; apply: meq_sym; apply: gr_mat.
  by apply: (allP A); apply: map_f.
- by rewrite (fr_fdsuml HKd) sumn_dexp -/(sz (RSum d [::])) S; apply: (is_perm_cpm W).
by rewrite (fr_fdsuml HKd) (fc_fdsuml HKd).
Qed.

(** ** one item of distribute_product *)
Definition mulb_ok (a b : rep) : Prop :=
  exists2 r, mul_base gdim csize le a b = Ok r &
  [/\ wfr r, sz r = sz a * sz b & meq (rmat r) (fkron (rmat a) (rmat b))].

Lemma dist_item_ok x y : key x.1 -> key y.1 -> 0 < x.2 -> 0 < y.2 -> mulb_ok x.1 y.1 ->
  exists r q, [/\ dist_item gdim csize le [:: x; y] = Ok (r, q),
    wfr r, sz r = (sz x.1 * x.2) * (sz y.1 * y.2),
    is_perm ((sz x.1 * x.2) * (sz y.1 * y.2)) q &
    meq (fkron (rmat (gr x)) (rmat (gr y))) (fscat q (rmat r))].
Proof.
move=> Kx Ky X0 Y0 [r Er [Wr Sr Mr]].
have E1 : reduce_mul (mul_base gdim csize le) (map fst [:: x; y]) = Ok r by rewrite /= Er.
have E2 : prodn (map snd [:: x; y]) = x.2 * y.2 by rewrite /= muln1.
have C0 : 0 < x.2 * y.2 by rewrite muln_gt0 X0.
have [r' Em [Wr' Sr' Mr']] := mul_int_ok Wr C0.
rewrite /dist_item E1 E2 bindOk Em bindOk (canonicalizeE O Wr') bindOk.
have P := is_perm_cpm Wr'.
pose s := [:: x.2; sz x.1; y.2; sz y.1]; rewrite -[flatten _]/s -[_ ++ _]/[:: 0; 2; 1; 3]; set N := sz x.1 * x.2 * (sz y.1 * y.2).
have EN : sz r' = N by rewrite Sr' Sr /N [RHS]mulnACA mulnC.
have Es : prodn s = size (cpm r').
  by rewrite (is_perm_size P) EN /s /N /= muln1 !mulnA [x.2 * _]mulnC -!mulnA [y.2 * _]mulnC.
rewrite /reshape size_iota -Es eqxx bindOk /arange.
have [fx cx] := key_kok HA Kx; have [fy cy] := key_kok HA Ky.
have Ex : fc (rmat x.1) = fr (rmat x.1) by rewrite fx.
have Ey : fc (rmat y.1) = fr (rmat y.1) by rewrite fy.
have := mul_perm_ok x.2 y.2 Ex Ey; rewrite fx fy -/s.
set T := dat _ => -[PT MT].
have EN' : x.2 * sz x.1 * (y.2 * sz y.1) = N by rewrite /N [x.2 * _]mulnC [y.2 * _]mulnC.
rewrite EN' in PT.
exists (canon r'), (gather 0 T (cpm r')); split=> //.
- exact: canon_wfr.
- by rewrite sz_canon.
- by apply: is_perm_gather => //; rewrite -EN.
have W1 : meq (fkron (rmat (gr x)) (rmat (gr y)))
   (fkron (fkron (fid R x.2) (rmat x.1)) (fkron (fid R y.2) (rmat y.1))).
  by apply: meq_fkron; apply: meq_trans (gr_mat _) _ => //; apply: fdsuml_nseq.
apply: meq_trans W1 _; apply: meq_trans MT _.
rewrite -EN in PT.
apply: meq_trans (fscat_fscat _ PT P); apply: meq_fscat.
- apply: meq_sym; apply: meq_trans (meq_sym (canon_mat HA Wr')) _.
  apply: meq_trans Mr' _; apply: meq_trans (fdsuml_nseq _ _) _.
    by have [-> ->] := rmat_sz HA Wr.
  exact: meq_fkron (meq_refl _) Mr.
- by rewrite /= fx fy -Sr -Sr'.
by rewrite /= fx fy cx cy.
Qed.

Definition rrf (b c : rep) : rep :=
  if dist_item gdim csize le [:: head (RScalar, 0) (sum_counter b); head (RScalar, 0) (sum_counter c)]
     is Ok z then z.1 else RScalar.
Definition qqf (b c : rep) : seq nat :=
  if dist_item gdim csize le [:: head (RScalar, 0) (sum_counter b); head (RScalar, 0) (sum_counter c)]
     is Ok z then z.2 else [::].

Lemma pairing_ok x y : key x.1 -> key y.1 -> 0 < x.2 -> 0 < y.2 -> mulb_ok x.1 y.1 ->
  pairing rmat sz rrf qqf (gr x) (gr y) /\
  dist_item gdim csize le [:: x; y] = Ok (rrf (gr x) (gr y), qqf (gr x) (gr y)) /\
  wfr (rrf (gr x) (gr y)).
Proof.
move=> Kx Ky X0 Y0 M; have [r [q [E W S P H]]] := dist_item_ok Kx Ky X0 Y0 M.
rewrite /pairing /rrf /qqf /= E /=; split=> //; split=> //; rewrite ?addn0 //.
- by rewrite !muln_gt0 X0 Y0 (key_sz Kx) (key_sz Ky).
- exact: (rmat_sz HA W).
Qed.

(** gathering through a concatenation of blocks *)
Lemma gather_dist_cat pre (Ls : seq (seq nat)) (items : seq (rep * seq nat)) :
  size Ls = size items ->
  (forall m, m < size items -> size (nth [::] Ls m) = size (nth (RScalar, [::]) items m).2 /\
      all (fun k => k < size (nth [::] Ls m)) (nth (RScalar, [::]) items m).2) ->
  gather 0 (pre ++ flatten Ls) (dist_cat (size pre) items) =
  flatten [seq gather 0 z.1 z.2.2 | z <- zip Ls items].
Proof.
elim: items Ls pre => [|[r q] items IH] [|L Ls] pre //= [S] H.
have [E A] := H 0 isT; rewrite /= in E A.
rewrite /gather map_cat; congr cat.
  rewrite -map_comp; apply/eq_in_map=> k Hk /=; have Hk' := allP A _ Hk.
  by rewrite nth_cat ltnNge leq_addr /= addKn nth_cat Hk'.
rewrite -E -size_cat -/(gather 0 _ _) catA IH //.
by move=> m Hm; apply: (H m.+1).
Qed.

Lemma blocks_flatten rs (Ls : seq (seq nat)) : map size Ls = map sz rs -> blocks rs (flatten Ls) = zip rs Ls.
Proof. by rewrite /RepMat.blocks => <-; rewrite -/(seq.shape Ls) flattenK. Qed.

Lemma counter_self r : wfr r ->
  (if canon r is RSum d _ then d
   else if sum_coll gdim csize le [:: (canon r, 1)] None is RSum d _ then d else [::]) =
  sum_counter (canon r).
Proof.
move=> W; case/orP: (W) => H; last by case: (r) H.
have E := sum_coll_self O (d := [:: (canon r, 1)]).
rewrite (nonsum_counter H) E; last by rewrite /okdict /= canon_key.
by case: (r) H.
Qed.

Lemma cartesian2' (d e : dict) : cartesian [:: d; e] = [seq [:: z.1; z.2] | z <- [seq (x, y) | x <- d, y <- e]].
Proof.
rewrite map_allpairs /cartesian /=; congr flatten; apply: eq_map => x /=.
by elim: e => //= y l ->.
Qed.

Lemma allpairs_inds (T S U : Type) (x0 : T) (y0 : S) (f : T -> S -> U) xs ys :
  [seq f x y | x <- xs, y <- ys] =
  [seq f (nth x0 xs ij.1) (nth y0 ys ij.2) |
     ij <- [seq (i, j) | i <- iota 0 (size xs), j <- iota 0 (size ys)]].
Proof.
rewrite map_allpairs /= -{1}[xs](mkseq_nth x0) -{1}[ys](mkseq_nth y0) /mkseq.
by rewrite allpairs_mapl allpairs_mapr.
Qed.

Lemma zip_map2 (T U V : Type) (f : T -> U) (g : T -> V) s : zip (map f s) (map g s) = [seq (f x, g x) | x <- s].
Proof. by elim: s => //= x s ->. Qed.

Lemma gather_outer n m p q X Y : is_perm n p -> is_perm m q ->
  all (fun x => x < n) X -> all (fun y => y < m) Y ->
  gather 0 (outer p q) (outerm m X Y) = outerm m (gather 0 p X) (gather 0 q Y).
Proof.
move=> P Q AX AY; rewrite /gather /outerm map_allpairs allpairs_mapl allpairs_mapr.
apply/eq_in_allpairs => x y Hx Hy; have := allP AX _ Hx; have := allP AY _ Hy => Ly Lx.
by rewrite -{1}(is_perm_size Q) nth_outer ?(is_perm_size P) ?(is_perm_size Q).
Qed.

Theorem distribute_ok a b : wfr a -> wfr b ->
  (forall x y, x \in keys (sum_counter (canon a)) -> y \in keys (sum_counter (canon b)) -> mulb_ok x y) ->
  exists2 r, distribute_product gdim csize le [:: a; b] None = Ok r &
  [/\ issum r, sz r = sz a * sz b & meq (rmat r) (fkron (rmat a) (rmat b))].
Proof.
move=> Wa Wb HM.
rewrite /distribute_product (mapM_canon O (rs := [:: a; b])) /= ?Wa ?Wb // !counter_self //.
set da := sum_counter (canon a) in HM *; set db := sum_counter (canon b) in HM *.
have [/and5P[NEa Aa _ _ Ca] Sa] := counter_ok Wa; rewrite -/da in NEa Aa Ca Sa.
have [/and5P[NEb Ab _ _ Cb] Sb] := counter_ok Wb; rewrite -/db in NEb Ab Cb Sb.
set xy := [seq (x, y) | x <- da, y <- db].
have Pxy z : z \in xy -> [/\ z.1 \in da, z.2 \in db, key z.1.1 & key z.2.1] /\
    [/\ 0 < z.1.2, 0 < z.2.2 & mulb_ok z.1.1 z.2.1].
  case/allpairsP=> -[x y] /= [Hx Hy ->] /=.
  have Kx : x.1 \in keys da by apply: map_f.
  have Ky : y.1 \in keys db by apply: map_f.
  split; split=> //; [exact: (allP Aa) | exact: (allP Ab) | | | exact: HM].
  + by apply: (allP Ca); apply: map_f.
  + by apply: (allP Cb); apply: map_f.
pose itm (z : (rep * nat) * (rep * nat)) := (rrf (gr z.1) (gr z.2), qqf (gr z.1) (gr z.2)).
have Hit : mapM (dist_item gdim csize le) (cartesian [:: da; db]) = Ok (map itm xy).
  rewrite cartesian2' -/xy (mapM_ok_in (g := fun l => itm (head (RScalar, 0) l, nth (RScalar, 0) l 1))).
    by rewrite -map_comp; congr Ok; apply: eq_map => -[x y].
  move=> l /mapP[z Hz ->]; have [[_ _ Kx Ky] [X0 Y0 M]] := Pxy z Hz.
  by have [_ [-> _]] := pairing_ok Kx Ky X0 Y0 M.
rewrite Hit /=.
(* the blocks *)
pose BA := blocks (map gr da) (cpm a); pose BB := blocks (map gr db) (cpm b).
have DA : dec rmat sz (sz a) (rmat a) BA := dec_grouped Wa.
have DB : dec rmat sz (sz b) (rmat b) BB := dec_grouped Wb.
have HP p q : p \in BA -> q \in BB -> pairing rmat sz rrf qqf p.1 q.1.
  move=> Hp Hq.
  have : p.1 \in map gr da by rewrite -[map gr da](blocks_keys sz _ (cpm a)); apply: map_f.
  have : q.1 \in map gr db by rewrite -[map gr db](blocks_keys sz _ (cpm b)); apply: map_f.
  case/mapP=> y Hy -> /mapP[x Hx ->].
  have [|[_ _ Kx Ky] [X0 Y0 M]] := Pxy (x, y); first by apply: allpairs_f.
  by have [] := pairing_ok Kx Ky X0 Y0 M.
have DK := dec_kron DA DB HP.
set total := gather 0 _ _.
have Pa := is_perm_cpm Wa; have Pb := is_perm_cpm Wb.
have Es (d : dict) : [seq x.2 * sz x.1 | x <- d] = map sz (map gr d).
  by rewrite -map_comp; apply: eq_map => x; rewrite /= addn0 mulnC.
have Ssa : sumn (map sz (map gr da)) = sz a by rewrite -Sa -Es; congr sumn; apply: eq_map => x; rewrite mulnC.
have Ssb : sumn (map sz (map gr db)) = sz b by rewrite -Sb -Es; congr sumn; apply: eq_map => x; rewrite mulnC.
pose I := [seq (i, j) | i <- iota 0 (size da), j <- iota 0 (size db)].
pose BI := blocks (map gr da) (iota 0 (sz a)); pose BJ := blocks (map gr db) (iota 0 (sz b)).
have EBA : BA = map (bmap (cpm a)) BI.
  by rewrite map_bmap_blocks -(is_perm_size Pa) gather_iota.
have EBB : BB = map (bmap (cpm b)) BJ.
  by rewrite map_bmap_blocks -(is_perm_size Pb) gather_iota.
have SBI : size BI = size da by rewrite size_blocks size_map.
have SBJ : size BJ = size db by rewrite size_blocks size_map.
pose e0 : rep * seq nat := (RScalar, [::]).
have Exy : xy = [seq (nth (RScalar, 0) da ij.1, nth (RScalar, 0) db ij.2) | ij <- I].
  exact: allpairs_inds.
have Eprs : prs BA BB = [seq (bmap (cpm a) (nth e0 BI ij.1), bmap (cpm b) (nth e0 BJ ij.2)) | ij <- I].
  by rewrite /prs EBA EBB allpairs_mapl allpairs_mapr (allpairs_inds e0 e0) SBI SBJ.
have HI ij : ij \in I -> ij.1 < size da /\ ij.2 < size db.
  by case/allpairsP=> -[i j] /= [Hi Hj ->]; rewrite !mem_iota in Hi Hj.
have Ebl : map (bl (map sz (map gr da)) (map sz (map gr db)))
               (inds (map sz (map gr da)) (map sz (map gr db))) =
           [seq outerm (sz b) (nth e0 BI ij.1).2 (nth e0 BJ ij.2).2 | ij <- I].
  rewrite /inds !size_map -/I; apply/eq_in_map => ij /HI[Hi Hj].
  rewrite /bl Ssa Ssb /chunks.
  have gen (d : dict) n i : i < size d ->
     nth [::] (seq.reshape (map sz (map gr d)) (iota 0 n)) i = (nth e0 (blocks (map gr d) (iota 0 n)) i).2.
    move=> H; rewrite /RepMat.blocks nth_zip /= ?size_reshape ?size_map //.
  by rewrite !gen.
have LBI i : i < size da -> all (fun x => x < sz a) (nth e0 BI i).2.
  move=> Hi; apply/allP=> x Hx; have : x \in flatten (map snd BI).
    by apply/flattenP; exists (nth e0 BI i).2 => //; apply: map_f; apply: mem_nth; rewrite SBI.
  by rewrite flatten_blocks ?size_iota // mem_iota.
have LBJ i : i < size db -> all (fun x => x < sz b) (nth e0 BJ i).2.
  move=> Hi; apply/allP=> x Hx; have : x \in flatten (map snd BJ).
    by apply/flattenP; exists (nth e0 BJ i).2 => //; apply: map_f; apply: mem_nth; rewrite SBJ.
  by rewrite flatten_blocks ?size_iota // mem_iota.
have LBI1 i : i < size da -> (nth e0 BI i).1 = gr (nth (RScalar, 0) da i).
  move=> Hi; rewrite /BI /RepMat.blocks nth_zip ?size_reshape ?size_map //=.
  by rewrite (nth_map (RScalar, 0)).
have LBJ1 i : i < size db -> (nth e0 BJ i).1 = gr (nth (RScalar, 0) db i).
  move=> Hi; rewrite /BJ /RepMat.blocks nth_zip ?size_reshape ?size_map //=.
  by rewrite (nth_map (RScalar, 0)).
have HPI ij : ij \in I -> [/\ size (nth e0 BI ij.1).2 = sz (nth e0 BI ij.1).1,
    size (nth e0 BJ ij.2).2 = sz (nth e0 BJ ij.2).1 &
    pairing rmat sz rrf qqf (nth e0 BI ij.1).1 (nth e0 BJ ij.2).1].
  move=> /HI[Hi Hj].
  have [_ _ _ hA _] := DA; have [_ _ _ hB _] := DB.
  have Ha : nth e0 BA ij.1 \in BA by apply: mem_nth; rewrite EBA size_map SBI.
  have Hb : nth e0 BB ij.2 \in BB by apply: mem_nth; rewrite EBB size_map SBJ.
  have [sa _ _] := hA _ Ha; have [sb _ _] := hB _ Hb; have := HP _ _ Ha Hb.
  move: sa sb; rewrite EBA EBB !(nth_map e0) ?SBI ?SBJ //= !size_gather //.
have key_total : total = flatten (map snd (map (kitem rrf qqf (sz b)) (prs BA BB))).
  rewrite /total !Es rep_permutation2 Ebl Exy Eprs -!map_comp.
  rewrite dist_order2 ?(is_perm_size Pa) ?(is_perm_size Pb) //.
  rewrite (@gather_dist_cat [::]) ?size_map //; last first.
    move=> m Hm; rewrite !(nth_map (0, 0)) //.
    have Hin := mem_nth (0, 0) Hm; set ij := nth (0, 0) I m in Hin *.
    have [s1 s2 [_ _ _ P _]] := HPI _ Hin; have [Hi Hj] := HI _ Hin.
    rewrite size_outerm s1 s2 /= -LBI1 // -LBJ1 //.
    rewrite (is_perm_size P); split=> //; apply/allP=> k; by rewrite (is_perm_mem _ P).
  rewrite zip_map2 -!map_comp gather_flatten -map_comp; congr flatten.
  apply/eq_in_map => ij Hin /=; have [s1 s2 [_ _ _ P _]] := HPI _ Hin; have [Hi Hj] := HI _ Hin.
  rewrite /kitem /= -(gather_outer Pa Pb) ?LBI ?LBJ // LBI1 // LBJ1 //.
  rewrite LBI1 // LBJ1 // in P s1 s2.
  rewrite gather_gather //; apply/allP=> k; rewrite (is_perm_mem _ P) => Hk.
  by rewrite size_outerm s1 s2.
have Ernk : map fst (map itm xy) = map fst (map (kitem rrf qqf (sz b)) (prs BA BB)).
  rewrite Exy Eprs -!map_comp; apply/eq_in_map => ij /HI[Hi Hj] /=.
  by rewrite LBI1 // LBJ1.
set rs := map fst (map itm xy) in Ernk *.
have [_ _ d3 d4 _] := DK.
have Esz : map size (map snd (map (kitem rrf qqf (sz b)) (prs BA BB))) = map sz rs.
  rewrite Ernk -!map_comp; apply/eq_in_map => z Hz /=.
  by have [-> _ _] := d4 _ (map_f _ Hz).
have Wrs : all wfr rs.
  apply/allP=> r; rewrite /rs -map_comp => /mapP[z Hz ->] /=.
  have [[_ _ Kx Ky] [X0 Y0 M]] := Pxy z Hz.
  by have [_ [_ ]] := pairing_ok Kx Ky X0 Y0 M.
have Ssum : sumn (map sz rs) = sz a * sz b.
  by rewrite -Esz -/(seq.shape _) -size_flatten (perm_size d3) size_iota.
have PT : is_perm (sz a * sz b) total by rewrite key_total.
have NEr : ~~ nilp rs.
  rewrite /rs /xy; case: (da) NEa => // x l _; case: (db) NEb => // y l' _ //.
have [|r -> [H1 H2 H3 _]] := @sum_rep_ok gdim csize le gs O R atom HA rs (Some total) NEr Wrs.
  by rewrite /= Ssum.
exists r => //; split=> //; first by rewrite H2.
apply: meq_trans H3 _; rewrite /fext.
have HKr r' : r' \in rs -> kok rmat sz r' by move=> Hr; apply: (rmat_sz HA (allP Wrs _ Hr)).
have PT' : is_perm (sumn (map sz rs)) total by rewrite Ssum.
have := dec_blocks HKr PT'; rewrite Ssum => D1.
apply: (dec_uniq D1); rewrite key_total blocks_flatten //.
rewrite Ernk zip_map2; set L := map _ (prs BA BB); rewrite (_ : [seq _ | x <- L] = L) //.
by rewrite -[RHS]map_id; apply: eq_map => -[].
Qed.
End Mul.
