(** * RepAlg: what the constructors SumRep and ProductRep build. *)
From mathcomp Require Import all_ssreflect all_algebra.
From mathcomp Require Import zify.
From Verif Require Import Np NpLemmas Spec LinOp SpecLemmas Rep RepMat RepWf RepProd.
Set Implicit Arguments.
Unset Strict Implicit.
Unset Printing Implicit Defensive.
Import GRing.Theory.

Lemma to_sub (D E : pred rep) le : {subset D <= E} -> total_order_on E le -> total_order_on D le.
Proof.
move=> S [T1 T2 T3]; split.
- by move=> x y Hx Hy; apply: T1; apply: S.
- by move=> x y z Hx Hy Hz; apply: T2; apply: S.
- by move=> x y Hx Hy; apply: T3; apply: S.
Qed.

Lemma undup_nseqS (T : eqType) n (x : T) : undup (nseq n.+1 x) = [:: x].
Proof. by elim: n => [|n IH] //; rewrite [nseq _ _]/= /= mem_head -IH. Qed.

Section Alg.
Variables (gdim : gid -> nat) (csize : nat -> gid -> nat).
Variable le : rel rep.
Variable gs : pred gid.
Local Notation sz := (rsize gdim csize).
Local Notation blocks := (blocks sz).
Local Notation atomic := (atomic gdim csize gs).
Local Notation key := (key gdim csize le gs).
Local Notation dkey := (dkey gdim csize le gs).
Local Notation wfr := (wfr gdim csize le gs).
Local Notation nonsum := (nonsum gdim csize le gs).
Local Notation isprod := (isprod gdim csize le gs).
Local Notation isdir := (isdir gdim csize le gs).
Local Notation issum := (issum gdim csize le gs).
Local Notation pdict := (pdict gdim csize le gs).
Local Notation ddict := (ddict gdim csize le gs).
Local Notation canon := (canon gdim csize).
Local Notation cpm := (cpm gdim csize).
Hypothesis O : total_order_on key le.

Lemma sub_atomic : {subset atomic <= key}.
Proof. by move=> r; apply: atomic_key. Qed.
Lemma sub_dkey : {subset dkey <= key}.
Proof.
move=> r /orP[H|/andP[H1 H2]]; first exact: atomic_key.
by rewrite /in_mem /= /RepWf.key /RepWf.nonsum H1 H2 !orbT.
Qed.
Let OA := to_sub sub_atomic O.
Let OD := to_sub sub_dkey O.

Lemma atomic_gattr r : atomic r -> exists2 g, gattr r = Some (Some g) & gs g.
Proof.
by case: r => // [[g|]|c [g|]|[|[g|]|c [g|]|?|? ?|? ?|? ?|?|?]] //= /andP[H _]; exists g.
Qed.

Lemma pdict_one_group d : pdict d -> one_group d = Ok tt.
Proof.
case/and3P=> /and5P[NE A _ _ _] _ G; rewrite /one_group.
case: ifP => [/hasP[x Hx]|_].
  have Hk : x.1 \in keys d by apply: map_f.
  by have [g -> _] := atomic_gattr (allP A _ Hk).
have -> : [seq gattr x.1 | x <- d] = nseq (size d) (gattr (head RScalar (keys d))).
  rewrite -(size_map (fun x => gattr x.1)); apply/all_pred1P/allP=> a /mapP[x Hx ->].
  by apply: (allP G); apply: map_f.
by case: d NE {A G} => // x d _; rewrite (undup_nseqS (size d)).
Qed.

Lemma isprod_sub r : isprod r -> nonsum r.
Proof. by move=> H; rewrite /RepWf.nonsum H !orbT. Qed.
Lemma isdir_sub r : isdir r -> nonsum r.
Proof. by move=> H; rewrite /RepWf.nonsum H !orbT. Qed.
Lemma atomic_sub r : atomic r -> nonsum r.
Proof. by move=> H; rewrite /RepWf.nonsum H !orbT. Qed.
Lemma nonsum_wfr r : nonsum r -> wfr r.
Proof. by move=> H; rewrite /RepWf.wfr H. Qed.
Lemma issum_wfr r : issum r -> wfr r.
Proof. by move=> H; rewrite /RepWf.wfr H orbT. Qed.

(** canonicalize succeeds and does what it says *)
Lemma sz_canon r : sz (canon r) = sz r. Proof. by case: r. Qed.
Lemma atomic_canon r : atomic r -> canon r = r. Proof. by case: r. Qed.
Lemma atomic_cpm r : atomic r -> cpm r = iota 0 (sz r). Proof. by case: r. Qed.
Lemma atomic_size r : atomic r -> size_py gdim csize r = Ok (sz r).
Proof. by case: r => // [[g|]|c [g|]|[]] //= => [[g|]|c [g|]]. Qed.

Lemma canonicalizeE r : wfr r -> canonicalize gdim csize le r = Ok (canon r, cpm r).
Proof.
case/orP; first case/or4P => [/eqP -> //|A|P|P].
- have := atomic_size A; case: r A => //= [G|c G|s] _ -> //.
- case: r P => //= d p /andP[Hd _]; have /and3P[Wd _ _] := Hd.
  rewrite /prod_coll (prod_canonical_self OA Wd) ?is_perm_iota //=.
  by rewrite pdict_one_group.
- case: r P => //= d p /andP[/and4P[Wd C _ _] _].
  rewrite /dir_coll (prod_canonical_self OD Wd) ?is_perm_iota //=.
  by move: C; rewrite /vals all_map => ->.
case: r => //= d p /andP[Wd _].
by rewrite (sum_coll_self O Wd).
Qed.

Lemma is_perm_cpm r : wfr r -> is_perm (sz r) (cpm r).
Proof.
case/orP; first case/or4P => [/eqP -> //|A|P|P].
- by rewrite atomic_cpm // is_perm_iota.
- by case: r P => //= d p /andP[_].
- by case: r P => //= d p /andP[_].
by case: r => //= d p /andP[_].
Qed.

Lemma canon_key r : nonsum r -> key (canon r).
Proof.
move=> H; rewrite /RepWf.key; apply/andP; split; last by case: r H => //= *; rewrite eqxx.
case/or4P: H => [/eqP ->|A|P|P]; rewrite /RepWf.nonsum ?eqxx //.
- by rewrite atomic_canon // A orbT.
- by case: r P => //= d p /andP[-> _]; rewrite is_perm_iota ?orbT.
- by case: r P => //= d p /andP[-> _]; rewrite is_perm_iota ?orbT.
Qed.

Lemma canon_wfr r : wfr r -> wfr (canon r).
Proof.
case/orP=> [/canon_key/andP[H _]|H]; first by rewrite /RepWf.wfr H.
case: r H => //= d p /andP[H _]; rewrite /RepWf.wfr /= H is_perm_iota ?orbT //.
Qed.

Lemma nonsum_counter r : nonsum r -> sum_counter (canon r) = [:: (canon r, 1)].
Proof. by case: r. Qed.

Lemma counter_ok r : wfr r -> okdict le key (sum_counter (canon r)) /\
  sz (RSum (sum_counter (canon r)) [::]) = sz r.
Proof.
case/orP=> H.
  rewrite nonsum_counter // /okdict /= canon_key //=; split=> //.
  by rewrite muln1 addn0 sz_canon.
by case: r H => //= d p /andP[-> _].
Qed.

Variable R : comRingType.
Variable atom : rep -> fmat R.
Hypothesis HA : forall r, atomic r -> kok atom sz r.
Local Notation rmat := (rmat atom).

Lemma rmat_atomic r : atomic r -> rmat r = atom r. Proof. by case: r. Qed.

Lemma rmat_sz r : wfr r -> kok rmat sz r.
Proof.
case/orP; first case/or4P => [/eqP -> //|A|P|P].
- by rewrite /kok rmat_atomic //; apply: HA.
- by case: r P => //= d p /andP[_] P; rewrite /kok /= (is_perm_size P).
- by case: r P => //= d p /andP[_] P; rewrite /kok /= (is_perm_size P).
by case: r => //= d p /andP[_] P; rewrite /kok /= (is_perm_size P).
Qed.
Lemma key_kok r : key r -> kok rmat sz r.
Proof. by case/andP=> /nonsum_wfr /rmat_sz. Qed.

Lemma keys_kok d : all key (keys d) -> forall r, r \in dexp d -> kok rmat sz r.
Proof. by move=> A r /mem_dexp Hr; apply: key_kok; apply: (allP A). Qed.

Lemma size_fkronl (L : seq rep) : (forall r, r \in L -> kok rmat sz r) ->
  fr (fkronl (map rmat L)) = prodn (map sz L) /\ fc (fkronl (map rmat L)) = prodn (map sz L).
Proof.
elim: L => [|r L IH] //= H; have [-> ->] := H r (mem_head _ _).
by have [|-> ->] := IH; first by move=> s Hs; apply: H; rewrite inE Hs orbT.
Qed.

Lemma canon_mat r : wfr r -> meq (rmat r) (fscat (cpm r) (rmat (canon r))).
Proof.
have gen d p (F : fmat R) : is_perm (fr F) p -> fc F = fr F ->
    meq (fscat p F) (fscat p (fscat (iota 0 (fr F)) F)).
  by move=> P E; apply: meq_fscat => //; apply: meq_sym; apply: fscat_id.
case/orP; first case/or4P => [/eqP ->|A|P|P].
- by apply: meq_sym; exact: (@fscat_id _ (fid R 1)).
- have [E1 E2] := HA A.
  rewrite atomic_cpm // atomic_canon // rmat_atomic // -E1.
  by apply: meq_sym; apply: fscat_id; rewrite E1 E2.
- case: r P => // d p /andP[/and3P[/and5P[_ A _ _ _] _ _] P].
  have A' : all key (keys d) by apply/allP=> k /(allP A); apply: sub_atomic.
  have [h1 h2] := size_fkronl (keys_kok A'); rewrite prodn_dexp in h1 h2.
  by rewrite /= -h1 !dexp_rmat; apply: gen => //; rewrite h1 // h2.
- case: r P => // d p /andP[/and4P[/and5P[_ A _ _ _] _ _] _ P].
  have A' : all key (keys d) by apply/allP=> k /(allP A); apply: sub_dkey.
  have [h1 h2] := size_fkronl (keys_kok A'); rewrite prodn_dexp in h1 h2.
  by rewrite /= -h1 !dexp_rmat; apply: gen => //; rewrite h1 // h2.
case: r => // d p /andP[/and5P[_ A _ _ _] P].
have h1 := fr_fdsuml (keys_kok A); have h2 := fc_fdsuml (keys_kok A); rewrite sumn_dexp in h1 h2.
by rewrite /= -h1 !dexp_rmat; apply: gen => //; rewrite h1 // h2.
Qed.

Lemma dec_wf r : wfr r ->
  dec rmat sz (sz r) (rmat r) (blocks (dexp (sum_counter (canon r))) (cpm r)).
Proof.
move=> W; case/orP: (W) => H.
  rewrite nonsum_counter // -[dexp _]/[:: canon r].
  have KK s : s \in [:: canon r] -> kok rmat sz s.
    by rewrite inE => /eqP ->; apply: key_kok; apply: canon_key.
  have P : is_perm (sumn (map sz [:: canon r])) (cpm r).
    by rewrite /= addn0 sz_canon is_perm_cpm.
  have := dec_blocks KK P; rewrite /= addn0 sz_canon.
  apply: dec_meq; apply: meq_sym; apply: meq_trans (canon_mat W) _.
  have [E1 E2] := key_kok (canon_key H).
  apply: meq_fscat; rewrite ?E1 ?E2 ?sz_canon ?is_perm_cpm //.
  by split; rewrite /= ?addn0 // => i j Hi Hj; rewrite Hi Hj.
case: r W H => //= d p _ /andP[/and5P[_ A _ _ _] P].
rewrite dexp_rmat -sumn_dexp; apply: dec_blocks; first exact: keys_kok.
by rewrite sumn_dexp.
Qed.

(** blocks of a direct sum *)
Lemma shifted_shift n m ps : shifted (n + m) ps = [seq [seq n + x | x <- p] | p <- shifted m ps].
Proof.
elim: ps m => [|p ps IH] m //=; rewrite -addnA IH; congr cons.
by rewrite -map_comp; apply: eq_map => x /=; rewrite addnA.
Qed.

Lemma dec_shifted rs : all wfr rs ->
  dec rmat sz (sumn (map sz rs)) (fdsuml (map rmat rs))
    (flatten [seq blocks (dexp x.1) x.2 |
       x <- zip [seq sum_counter (canon r) | r <- rs] (shifted 0 (map cpm rs))]).
Proof.
elim: rs => [|r rs IH] /=; first by move=> _; apply: dec_nil.
case/andP=> W /IH {IH}; set l := map cpm rs => H.
have := dec_cat (dec_wf W) H; congr dec; congr cat.
  by congr (blocks _ _); rewrite -[LHS]map_id; apply: eq_map.
have -> : shifted (0 + size (cpm r)) l = [seq [seq sz r + x | x <- p] | p <- shifted 0 l].
  by rewrite add0n (is_perm_size (is_perm_cpm W)) -[sz r in LHS]addn0 shifted_shift.
rewrite map_flatten -map_comp; congr flatten.
elim: (rs) (shifted 0 l) => [|s ss IH] [|p ps] //=.
by rewrite map_bshift_blocks IH.
Qed.

Lemma mapM_canon rs : all wfr rs ->
  mapM (canonicalize gdim csize le) rs = Ok [seq (canon r, cpm r) | r <- rs].
Proof. by move=> W; apply: mapM_ok_in => r Hr; apply: canonicalizeE; apply: (allP W). Qed.

Definition ext_ok (n : nat) (e : option (seq nat)) : bool := if e is Some p then is_perm n p else true.
Definition fext (e : option (seq nat)) (A : fmat R) : fmat R := if e is Some p then fscat p A else A.

Lemma sum_rep_ok rs e : ~~ nilp rs -> all wfr rs -> ext_ok (sumn (map sz rs)) e ->
  exists2 r, sum_rep gdim csize le rs e = Ok r &
  [/\ issum r, sz r = sumn (map sz rs), meq (rmat r) (fext e (fdsuml (map rmat rs))) &
      forall k, cnt (sum_counter r) k = sumn [seq cnt (sum_counter (canon s)) k | s <- rs]].
Proof.
move=> NE W X; rewrite /sum_rep mapM_canon //= -!map_comp.
have -> : nilp [seq (canon r, cpm r) | r <- rs] = false by case: (rs) NE.
set cps := [seq (sum_counter (canon r), cpm r) | r <- rs].
rewrite [sum_canonical _ _ _ _ _](_ : _ = sum_canonical gdim csize le (map fst cps) (map snd cps)); last first.
  by rewrite /cps -!map_comp.
have NEc : ~~ nilp cps by rewrite /cps; case: (rs) NE.
have Hc x : x \in cps -> okdict le key x.1 /\ size x.2 = sz (RSum x.1 [::]).
  case/mapP=> r Hr ->; have Wr := allP W _ Hr; have [H1 H2] := counter_ok Wr.
  by rewrite H2 (is_perm_size (is_perm_cpm Wr)).
have := sum_canonical_ok O NEc Hc.
case: (sum_canonical _ _ _ _ _) => d p /= [Wd Sp Cd PB].
have D0 := dec_shifted W.
have D1 : dec rmat sz (sumn (map sz rs)) (fdsuml (map rmat rs)) (blocks (dexp d) p).
  by apply: dec_perm D0; rewrite perm_sym; apply: perm_trans PB _; rewrite /cps -!map_comp.
have /and5P[_ Ad _ _ _] := Wd.
have Sp' : size p = sumn (map sz (dexp d)) by rewrite sumn_dexp.
have [h1 h2 h3 _ _] := D1; rewrite flatten_blocks // in h3.
have Sz : sz (RSum d p) = sumn (map sz rs) by rewrite -[LHS]Sp (is_perm_size h3).
have D2 : dec rmat sz (sumn (map sz rs)) (rmat (RSum d p)) (blocks (dexp d) p).
  rewrite /= dexp_rmat -Sz /= -sumn_dexp; apply: dec_blocks; first exact: keys_kok.
  by rewrite sumn_dexp -/(sz (RSum d p)) Sz.
have M := dec_uniq D2 D1.
exists (RSum d (with_extra e p)) => //; split.
- rewrite /= Wd /=; change (is_perm (sz (RSum d p)) (with_extra e p)); rewrite Sz.
  by case: e X => //= q Q; apply: is_perm_gather.
- exact: Sz.
- case: e X => //= q Q.
  have M2 := fscat_fscat (fdsuml (flatten [seq nseq x.2 (rmat x.1) | x <- d])) Q h3.
  apply: meq_trans (meq_sym M2) _; apply: meq_fscat => //=.
    by rewrite (is_perm_size h3).
- by move=> k; rewrite Cd -map_comp.
Qed.

(** ** ProductRep *)
Definition pfactor (g : gid) (r : rep) : bool :=
  (atomic r || isprod r) && (gattr r == Some (Some g)).

Lemma pfactor_nonsum g r : pfactor g r -> nonsum r.
Proof. by case/andP=> /orP[/atomic_sub|/isprod_sub]. Qed.

Lemma pfactor_counter g r : pfactor g r ->
  let c := prod_counter (canon r) in
  [/\ pfac gdim csize le atomic rmat (c, cpm r) (rmat r), sz (RProd c [::]) = sz r,
      0 < size (dexp c) & all (fun k => gattr k == Some (Some g)) (keys c)].
Proof.
case/andP=> /orP[A|P] G c.
  have -> : c = [:: (r, 1)] by rewrite /c atomic_canon //; case: (r) A.
  have Es : sz (RProd [:: (r, 1)] [::]) = sz r by rewrite /= expn1 muln1.
  split=> //; last by rewrite /= G.
  split; first by rewrite /okdict /= A.
  rewrite Es /= atomic_cpm //.
  have [E1 E2] := rmat_sz (nonsum_wfr (atomic_sub A)).
  by rewrite -E1; apply: mfac_one; rewrite E1.
case: r P G @c => //= d p /andP[/and3P[Wd S2 Gd] P] G.
have /and5P[NE Ad _ _ _] := Wd.
have Ak : all key (keys d) by apply/allP=> k /(allP Ad); apply: sub_atomic.
split=> //; last 1 first.
- apply/allP=> k Hk; rewrite (eqP (allP Gd k Hk)).
  by case: (d) NE G => [|[]].
- split=> //=; rewrite dexp_rmat -prodn_dexp -(kok_map (keys_kok Ak)).
  apply: mfac_kron_scat; first exact: kok_sq (keys_kok Ak).
  by rewrite (kok_map (keys_kok Ak)) prodn_dexp.
- by rewrite size_dexp (ltn_trans _ S2).
Qed.

Lemma prod_rep_ok g rs e : 1 < size rs -> all (pfactor g) rs -> ext_ok (prodn (map sz rs)) e ->
  exists2 r, prod_rep gdim csize le rs e = Ok r &
  [/\ isprod r, sz r = prodn (map sz rs), gattr r = Some (Some g) &
      meq (rmat r) (fext e (fkronl (map rmat rs)))].
Proof.
move=> S2 F X.
have W : all wfr rs by apply/allP=> r /(allP F) /pfactor_nonsum/nonsum_wfr.
have NE : ~~ nilp rs by case: (rs) S2.
rewrite /prod_rep mapM_canon //= -!map_comp.
have -> : nilp [seq (canon r, cpm r) | r <- rs] = false by case: (rs) NE.
set cps := [seq (prod_counter (canon r), cpm r) | r <- rs].
rewrite [prod_canonical _ _ _ _ _](_ : _ = prod_canonical gdim csize le (map fst cps) (map snd cps)); last first.
  by rewrite /cps -!map_comp.
have NEc : ~~ nilp cps by rewrite /cps; case: (rs) NE.
have SA : size (map rmat rs) = size cps by rewrite !size_map.
have HP m : m < size cps ->
    pfac gdim csize le atomic rmat (nth ([::],[::]) cps m) (nth (fzero R 0 0) (map rmat rs) m).
  rewrite size_map => Hm; rewrite !(nth_map RScalar) //.
  by have [] := pfactor_counter (allP F _ (mem_nth RScalar Hm)).
have HK r : atomic r -> kok rmat sz r by move=> A; apply/key_kok/atomic_key.
have [d [p [-> Wd PL Sz M]]] := prod_canonical_ok OA HK NEc SA HP.
have EN : prodn [seq sz (RProd x.1 [::]) | x <- cps] = prodn (map sz rs).
  rewrite /cps -map_comp; congr prodn; apply/eq_in_map=> r Hr /=.
  by have [_ H _ _] := pfactor_counter (allP F _ Hr).
rewrite EN in Sz M.
have Gd : all (fun k => gattr k == Some (Some g)) (keys d).
  apply/allP=> k Hk; have : k \in dexp d.
    have /and5P[_ _ _ _ V] := Wd; case/mapP: Hk => x Hx ->.
    apply/flattenP; exists (nseq x.2 x.1); first by apply: map_f.
    by rewrite mem_nseq eqxx andbT; apply: (allP V); apply: map_f.
  rewrite (perm_mem PL) /cps -map_comp => /flattenP[s /mapP[c /mapP[r Hr ->] ->] /mem_dexp].
  by have [_ _ _ /allP H] := pfactor_counter (allP F _ Hr) => /H.
have NEd : ~~ nilp d by case/and5P: Wd.
have GH : gattr (head RScalar (keys d)) = Some (Some g).
  by apply/eqP; case: (d) NEd Gd => //= x l _ /andP[].
have PD : pdict d.
  rewrite /RepWf.pdict Wd /=; apply/andP; split; last by rewrite GH.
  rewrite -size_dexp (perm_size PL) size_flatten /seq.shape /cps -!map_comp.
  have Gen l : all (pfactor g) l -> size l <= sumn [seq size (dexp (prod_counter (canon r))) | r <- l].
    elim: l => [|r l IH] //= /andP[Fr /IH]; have [_ _ H _] := pfactor_counter Fr.
    by rewrite -add1n; apply: leq_add.
  by apply: leq_trans S2 _; apply: Gen.
rewrite /= pdict_one_group //=.
exists (RProd d (with_extra e p)) => //.
have [[_ _ P] _ _ _] := M.
split.
- rewrite /= PD /=; change (is_perm (sz (RProd d [::])) (with_extra e p)); rewrite Sz.
  by case: e X => //= q Q; apply: is_perm_gather.
- exact: Sz.
- by case: (d) NEd GH => [|[]].
have /and5P[_ Ad _ _ _] := Wd.
have Ak : all key (keys d) by apply/allP=> k /(allP Ad); apply: sub_atomic.
have EK : prodn (map (@fr R) (map rmat (dexp d))) = prodn (map sz rs).
  by rewrite (kok_map (keys_kok Ak)) prodn_dexp.
have M0 : meq (rmat (RProd d p)) (fkronl (map rmat rs)).
  apply: mfac_uniq M; rewrite /= dexp_rmat -EK; apply: mfac_kron_scat.
    exact: kok_sq (keys_kok Ak).
  by rewrite EK.
case: e X => //= q Q.
have M2 := fscat_fscat (fkronl (flatten [seq nseq x.2 (rmat x.1) | x <- d])) Q P.
apply: meq_trans (meq_sym M2) _; apply: meq_fscat => //=.
by rewrite (is_perm_size P).
Qed.
End Alg.
