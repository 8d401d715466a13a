(** * RepDir: products of representations of different groups (DirectProduct). *)
From mathcomp Require Import all_ssreflect all_algebra.
From mathcomp Require Import zify.
From Verif Require Import Np NpLemmas Spec LinOp SpecLemmas Rep RepMat RepWf RepProd RepAlg RepDist RepMul RepFun RepOps.
Set Implicit Arguments.
Unset Strict Implicit.
Unset Printing Implicit Defensive.
Import GRing.Theory.

Section Dir.
Variables (gdim : gid -> nat) (csize : nat -> gid -> nat).
Variable le : rel rep.
Variable gs : pred gid.
Local Notation sz := (rsize gdim csize).
Local Notation atomic := (atomic gdim csize gs).
Local Notation key := (key gdim csize le gs).
Local Notation dkey := (dkey gdim csize le gs).
Local Notation wfr := (wfr gdim csize le gs).
Local Notation nonsum := (nonsum gdim csize le gs).
Local Notation isprod := (isprod gdim csize le gs).
Local Notation isdir := (isdir gdim csize le gs).
Local Notation issum := (issum gdim csize le gs).
Local Notation canon := (canon gdim csize).
Local Notation cpm := (cpm gdim csize).
Hypothesis O : total_order_on key le.
Variable R : comRingType.
Variable atom : rep -> fmat R.
Hypothesis HA : forall r, atomic r -> kok atom sz r.
Local Notation rmat := (rmat atom).

Let OD : total_order_on dkey le.
Proof. by apply: to_sub O; apply: sub_dkey. Qed.

Definition dgroups (r : rep) := [seq gattr k | k <- keys (dir_counter (canon r))].

Lemma dfactor_counter r : nonsum r -> r <> RScalar ->
  let c := dir_counter (canon r) in
  [/\ pfac gdim csize le dkey rmat (c, cpm r) (rmat r), sz (RProd c [::]) = sz r,
      all (fun v => v == 1) (vals c), uniq (dgroups r) & 0 < size c].
Proof.
move=> N NS c; rewrite /dgroups -/c.
have single : (atomic r || isprod r) -> c = [:: (canon r, 1)] -> dkey (canon r) ->
  [/\ pfac gdim csize le dkey rmat (c, cpm r) (rmat r), sz (RProd c [::]) = sz r,
      all (fun v => v == 1) (vals c), uniq [seq gattr k | k <- keys c] & 0 < size c].
  move=> H E D.
  have W := nonsum_wfr N; have [E1 E2] := rmat_sz HA (canon_wfr W); rewrite sz_canon in E1 E2.
  have Es : sz (RProd c [::]) = sz r by rewrite E /= expn1 muln1 sz_canon.
  split=> //; try by rewrite E.
  split; first by rewrite /= E /okdict /= D.
  rewrite Es E /=.
  have P := is_perm_cpm W.
  apply: mfac_meq (meq_sym (canon_mat HA W)) _.
  have G : gather 0 (cpm r) (iota 0 (sz r)) = cpm r.
    by rewrite -{2}[cpm r](mkseq_nth 0) (is_perm_size P).
  rewrite -{2}G; apply: (mfac_scat P); rewrite -{1 2}E1; apply: mfac_one; by rewrite E1.
case/or4P: (N) => [/eqP //|A|P|D].
- apply: single; rewrite ?A //; first by rewrite /c (atomic_canon A); case: (r) A.
  by rewrite (atomic_canon A) /RepWf.dkey A.
- apply: single; rewrite ?P ?orbT //; first by rewrite /c; case: (r) P.
  rewrite /RepWf.dkey; case: (r) P => // d p /andP[H1 H2] /=.
  by rewrite H1 eqxx /is_perm perm_refl.
clear single; case: r N NS D @c => // d p N _ /andP[/and4P[Wd V1 S U] P] /=.
have /and5P[NE Ad _ _ _] := Wd.
have Ak : all key (keys d) by apply/allP=> k /(allP Ad); apply: sub_dkey.
split=> //; last by case: (d) S.
split=> //=; rewrite dexp_rmat -prodn_dexp -(kok_map (keys_kok HA Ak)).
apply: mfac_kron_scat; first exact: kok_sq (keys_kok HA Ak).
by rewrite (kok_map (keys_kok HA Ak)) prodn_dexp.
Qed.

Lemma perm_uniq_map (T S : eqType) (f : T -> S) s t : perm_eq s t -> uniq (map f s) = uniq (map f t).
Proof. by move=> H; apply: perm_uniq; apply: perm_map. Qed.

(** grouping does nothing when the factors have different groups *)
Lemma group_steps (d : dict) (gd : seq (option gid * rep)) :
  all (fun v => v == 1) (vals d) -> all (fun k => isSome (gattr k)) (keys d) ->
  uniq (map fst gd ++ [seq odflt None (gattr k) | k <- keys d]) ->
  foldM (group_step gdim csize le) gd d = Ok (gd ++ [seq (odflt None (gattr k), k) | k <- keys d]).
Proof.
elim: d gd => [|[k c] d IH] gd /=; first by move=> _ _ _; rewrite cats0.
case/andP=> /eqP -> Hv /andP[Hk Hd].
case E : (gattr k) Hk => [G|] // _ /=.
rewrite -cat_rcons => U.
rewrite /group_step E /=.
have N : has (fun x : option gid * rep => x.1 == G) gd = false.
  move: U; rewrite cat_uniq => /andP[]; rewrite rcons_uniq => /andP[H _] _.
  by apply: contraNF H => /hasP[x Hx /eqP <-]; apply: map_f.
rewrite /gd_get /gd_set N /= IH //; last by rewrite map_rcons.
by rewrite cat_rcons.
Qed.

Lemma dict_of_ones ks : uniq ks -> dict_of [seq (k, 1) | k <- ks] = [seq (k, 1) | k <- ks].
Proof.
suff H pre : uniq (pre ++ ks) -> foldl (fun d x => dset d x.1 x.2) [seq (k, 1) | k <- pre] [seq (k, 1) | k <- ks] =
    [seq (k, 1) | k <- pre ++ ks] by apply: (H [::]).
elim: ks pre => [|k ks IH] pre /=; first by rewrite !cats0.
rewrite -cat_rcons => U; rewrite /dset.
have -> : keys [seq (k0, 1) | k0 <- pre] = pre by rewrite /keys -map_comp map_id.
have -> : (k \in pre) = false.
  by move: U; rewrite cat_uniq rcons_uniq => /andP[/andP[/negbTE]].
by rewrite -map_rcons IH.
Qed.

Lemma dkey_gattr k : dkey k -> exists2 g, gattr k = Some (Some g) & gs g.
Proof.
case/orP=> [/atomic_gattr //|/andP[H _]].
case: k H => // d p /andP[/and3P[/and5P[_ A _ _ _] S _] _].
by case: d A S => [|[k c] d] //= /andP[/atomic_gattr].
Qed.

Lemma dkey_hashable k : dkey k -> hashable k.
Proof.
case/orP; first by case: k.
by case: k => // d p /andP[_ /eqP] /= ->; rewrite argsort_iota.
Qed.

Lemma dir_rep_ok rs e : 1 < size rs -> all nonsum rs -> RScalar \notin rs ->
  uniq (flatten (map dgroups rs)) -> ext_ok (prodn (map sz rs)) e ->
  exists2 r, dir_rep gdim csize le rs e = Ok r &
  [/\ isdir r, sz r = prodn (map sz rs) & meq (rmat r) (fext e (fkronl (map rmat rs)))].
Proof.
move=> S2 F NS UG X.
have W : all wfr rs by apply/allP=> r /(allP F) /nonsum_wfr.
have NE : ~~ nilp rs by case: (rs) S2.
have HF r : r \in rs -> let c := dir_counter (canon r) in
  [/\ pfac gdim csize le dkey rmat (c, cpm r) (rmat r), sz (RProd c [::]) = sz r,
      all (fun v => v == 1) (vals c), uniq (dgroups r) & 0 < size c].
  move=> Hr; apply: dfactor_counter; first exact: (allP F).
  by move=> E; rewrite E (negbTE NS) in Hr.
rewrite /dir_rep (mapM_canon O W) /= -!map_comp.
have -> : nilp [seq (canon r, cpm r) | r <- rs] = false by case: (rs) NE.
set cps := [seq (dir_counter (canon r), cpm r) | r <- rs].
rewrite [prod_canonical _ _ _ _ _](_ : _ = prod_canonical gdim csize le (map fst cps) (map snd cps)); last first.
  by rewrite /cps -!map_comp.
have NEc : ~~ nilp cps by rewrite /cps; case: (rs) NE.
have SA : size (map rmat rs) = size cps by rewrite !size_map.
have HP m : m < size cps ->
    pfac gdim csize le dkey rmat (nth ([::],[::]) cps m) (nth (fzero R 0 0) (map rmat rs) m).
  rewrite size_map => Hm; rewrite !(nth_map RScalar) //.
  by have [] := HF _ (mem_nth RScalar Hm).
have HK r : dkey r -> kok rmat sz r by move=> A; apply: (key_kok HA (sub_dkey A)).
have [d [p [-> Wd PL Sz M]]] := prod_canonical_ok OD HK NEc SA HP.
have EN : prodn [seq sz (RProd x.1 [::]) | x <- cps] = prodn (map sz rs).
  rewrite /cps -map_comp; congr prodn; apply/eq_in_map=> r Hr /=.
  by have [_ H _ _ _] := HF _ Hr.
rewrite EN in Sz M.
have dexp1 c : all (fun v => v == 1) (vals c) -> dexp c = keys c.
  by elim: c => [|[k v] c IH] //= /andP[/eqP -> /IH]; rewrite /dexp /= => ->.
have EL : flatten (map dexp (map fst cps)) = flatten [seq keys (dir_counter (canon r)) | r <- rs].
  rewrite /cps -!map_comp; congr flatten; apply/eq_in_map => r Hr /=; apply: dexp1.
  by have [] := HF _ Hr.
rewrite EL in PL.
have UGd : uniq [seq gattr k | k <- dexp d].
  rewrite (perm_uniq_map _ PL) map_flatten -map_comp; exact: UG.
have /and5P[NEd Ad Ud Sd Vd] := Wd.
have V1 : all (fun v => v == 1) (vals d).
  apply/allP=> v /mapP[[k c] Hx ->] /=.
  have := map_uniq UGd => U; have := count_uniq_mem k U.
  rewrite count_dexp // => H.
  have : 0 < c by apply: (allP Vd); apply: map_f Hx.
  have -> : c = cnt d k.
    have Hi : index (k, c) d < size d by rewrite index_mem.
    rewrite /cnt; have -> : index k (keys d) = index (k, c) d.
      rewrite -[k]/((k, c).1) -{1}(nth_index (RScalar, 0) Hx) -(nth_map _ RScalar) // index_uniq //.
      by rewrite size_map.
    by rewrite (nth_map (RScalar, 0)) // nth_index.
  by rewrite H; case: (k \in _).
have Ed : dexp d = keys d := dexp1 _ V1.
have Ed1 : d = [seq (k, 1) | k <- keys d].
  by move: V1; elim: (d) => [|[k v] l IH] //= /andP[/eqP -> /IH {1}->].
have GK k : k \in keys d -> exists2 g, gattr k = Some (Some g) & gs g.
  by move=> /(allP Ad) /dkey_gattr.
rewrite /bind (@group_steps d [::]) //; last 2 first.
- by apply/allP=> k /GK[g ->].
- rewrite /= -(map_inj_uniq (f := @Some (option gid))); last by move=> x y [].
  rewrite -map_comp; rewrite Ed in UGd; move: UGd; congr (is_true (uniq _)).
  by apply/eq_in_map=> k /GK[g E _] /=; rewrite E.
rewrite cat0s all_map (_ : all _ (keys d)); last by apply/allP=> k /(allP Ad) /dkey_hashable.
rewrite -map_comp -[[seq _ | k <- keys d]]/[seq (k, 1) | k <- keys d] dict_of_ones // -Ed1.
rewrite (prod_canonical_self OD) ?is_perm_iota //=.
have -> : all (fun x : rep * nat => x.2 == 1) d by move: V1; rewrite /vals all_map.
have [[_ _ P] _ _ _] := M.
have -> : gather 0 p (arange (prodn [seq sz x.1 ^ x.2 | x <- d])) = p.
  by rewrite -[RHS](mkseq_nth 0) (is_perm_size P) -Sz.
exists (RDir d (with_extra e p)) => //.
split.
- rewrite /= /ddict Wd V1 -Ed UGd /= -(size_map fst) -/(keys d) -Ed (perm_size PL).
  apply/andP; split; last first.
    change (is_perm (sz (RProd d [::])) (with_extra e p)); rewrite Sz.
    by case: e X => //= q Q; apply: is_perm_gather.
  rewrite andbT size_flatten /seq.shape -map_comp.
  have Gen l : {subset l <= rs} -> size l <= sumn [seq size (keys (dir_counter (canon r))) | r <- l].
    elim: l => [|r l IH] //= Sub; rewrite -add1n; apply: leq_add.
      by have [_ _ _ _] := HF r (Sub _ (mem_head _ _)); rewrite size_map.
    by apply: IH => x Hx; apply: Sub; rewrite inE Hx orbT.
  by apply: leq_trans S2 _; apply: Gen.
- exact: Sz.
have Ak : all key (keys d) by apply/allP=> k /(allP Ad); apply: sub_dkey.
have EK : prodn (map (@fr R) (map rmat (dexp d))) = prodn (map sz rs).
  by rewrite (kok_map (keys_kok HA Ak)) prodn_dexp.
have M0 : meq (rmat (RDir d p)) (fkronl (map rmat rs)).
  apply: mfac_uniq M; rewrite /= dexp_rmat -EK; apply: mfac_kron_scat.
    exact: kok_sq (keys_kok HA Ak).
  by rewrite EK.
case: e X => //= q Q.
have M2 := fscat_fscat (fkronl (flatten [seq nseq x.2 (rmat x.1) | x <- d])) Q P.
apply: meq_trans (meq_sym M2) _; apply: meq_fscat => //=.
by rewrite (is_perm_size P).
Qed.
End Dir.

(** ** the class of representations grows with the set of groups *)
Section Mono.
Variables (gdim : gid -> nat) (csize : nat -> gid -> nat).
Variable le : rel rep.
Variables gs1 gs2 : pred gid.
Hypothesis Sub : subpred gs1 gs2.

Lemma atomic_mono r : atomic gdim csize gs1 r -> atomic gdim csize gs2 r.
Proof.
by case: r => // [[h|]|c [h|]|[|[h|]|c [h|]|?|? ?|? ?|? ?|?|?]] //= /andP[/Sub ->].
Qed.
Lemma okdict_mono D1 D2 d : subpred D1 D2 -> okdict le D1 d -> okdict le D2 d.
Proof. by move=> H /and5P[a b c e f]; rewrite /okdict a c e f (sub_all H b). Qed.
Lemma isprod_mono r : isprod gdim csize le gs1 r -> isprod gdim csize le gs2 r.
Proof.
case: r => // d p /andP[/and3P[a b c] e] /=; rewrite e /pdict b c (okdict_mono atomic_mono a) //.
Qed.
Lemma dkey_mono r : dkey gdim csize le gs1 r -> dkey gdim csize le gs2 r.
Proof.
case/orP=> [/atomic_mono H|/andP[/isprod_mono H C]]; first by rewrite /dkey H.
by rewrite /dkey H C orbT.
Qed.
Lemma isdir_mono r : isdir gdim csize le gs1 r -> isdir gdim csize le gs2 r.
Proof.
case: r => // d p /andP[/and4P[a b c f] e] /=; rewrite e /ddict b c f (okdict_mono dkey_mono a) //.
Qed.
Lemma nonsum_mono r : nonsum gdim csize le gs1 r -> nonsum gdim csize le gs2 r.
Proof.
by rewrite /nonsum => /or4P[->|/atomic_mono ->|/isprod_mono ->|/isdir_mono ->]; rewrite ?orbT.
Qed.
Lemma key_mono r : key gdim csize le gs1 r -> key gdim csize le gs2 r.
Proof. by case/andP=> /nonsum_mono a b; rewrite /key a b. Qed.
Lemma wfr_mono r : wfr gdim csize le gs1 r -> wfr gdim csize le gs2 r.
Proof.
case/orP=> [/nonsum_mono H|]; first by rewrite /wfr H.
case: r => // d p /andP[a b]; apply/orP; right; rewrite /= b (okdict_mono key_mono a) //.
Qed.
End Mono.

Section Disjoint.
Variables (gdim : gid -> nat) (csize : nat -> gid -> nat).
Variable le : rel rep.
Variables gs1 gs2 : pred gid.
Local Notation gs := (predU gs1 gs2).
Hypothesis Dis : forall g, gs1 g -> ~~ gs2 g.
Local Notation sz := (rsize gdim csize).
Hypothesis O : total_order_on (key gdim csize le gs) le.
Variable R : comRingType.
Variable atom : rep -> fmat R.
Hypothesis HA : forall r, atomic gdim csize gs r -> kok atom sz r.
Local Notation rmat := (rmat atom).

Let s1 : subpred gs1 gs. Proof. by move=> g H; rewrite /= /= H. Qed.
Let s2 : subpred gs2 gs. Proof. by move=> g H; rewrite /= /= H orbT. Qed.

Lemma dgroups_in gs' r G : nonsum gdim csize le gs' r -> r <> RScalar ->
  G \in dgroups gdim csize r -> exists2 g, G = Some (Some g) & gs' g.
Proof.
move=> N NS /mapP[k Hk ->]; have Dk : dkey gdim csize le gs' k.
  case/or4P: N => [/eqP //|A|P|D].
  - move: Hk; rewrite (atomic_canon A); have -> : dir_counter r = [:: (r, 1)] by case: (r) A.
    by rewrite inE => /eqP ->; rewrite /dkey A.
  - have Ec : dir_counter (canon gdim csize r) = [:: (canon gdim csize r, 1)] by case: (r) P.
    move: Hk; rewrite Ec inE => /eqP ->; rewrite /dkey; case: (r) P => // d p /andP[H1 H2] /=.
    by rewrite H1 eqxx /is_perm perm_refl.
  by case: r D Hk {NS} => // d p /andP[/and4P[/and5P[_ A _ _ _] _ _ _] _] /(allP A).
exact: dkey_gattr Dk.
Qed.

Lemma mul_base_dis a b : nonsum gdim csize le gs1 a -> nonsum gdim csize le gs2 b ->
  mulb_ok gdim csize le gs atom a b.
Proof.
move=> N1 N2; have Na := nonsum_mono s1 N1; have Nb := nonsum_mono s2 N2.
have Wa := nonsum_wfr Na; have Wb := nonsum_wfr Nb.
case: (a =P RScalar) => [->|Sa].
  by exists b => //; split; rewrite ?mul1n //; apply: meq_sym; apply: fkron_1_l.
case: (b =P RScalar) => [->|Sb].
  exists a; first by case: (a) Sa.
  by split; rewrite ?muln1 //; apply: meq_sym; apply: fkron_1_r.
have U : uniq (flatten (map (dgroups gdim csize) [:: a; b])).
  have [_ _ _ Ua _] := dfactor_counter HA Na Sa.
  have [_ _ _ Ub _] := dfactor_counter HA Nb Sb.
  rewrite /= cats0 cat_uniq Ua Ub andbT; apply/hasPn => G /(dgroups_in N2 Sb)[g -> H2].
  by apply/negP=> /(dgroups_in N1 Sa)[g' [<-]] /Dis; rewrite H2.
have GA gs' x g : nonsum gdim csize le gs' x -> gattr x = Some (Some g) -> gs' g.
  case/or4P=> [/eqP ->|A|P|D] // E.
  - by have [g' E' Hg] := atomic_gattr A; move: E; rewrite E' => -[<-].
  - case: x P E => // d p /andP[/and3P[/and5P[_ A _ _ _] S _] _].
    by case: d A S => [|[k c] d] //= /andP[/atomic_gattr[g' -> Hg] _] _ [<-].
  by case: x D E.
have GS gs' x : nonsum gdim csize le gs' x -> x <> RScalar -> gattr x = None \/ exists g, gattr x = Some (Some g).
  case/or4P=> [/eqP ->|A|P|D] // _.
  - by have [g' E' Hg] := atomic_gattr A; right; exists g'.
  - right; case: x P => // d p /andP[/and3P[/and5P[_ A _ _ _] S _] _].
    by case: d A S => [|[k c] d] //= /andP[/atomic_gattr[g' -> Hg] _] _; exists g'.
  by case: x D; left.
rewrite /RepMul.mulb_ok; have -> : mul_base gdim csize le a b = dir_rep gdim csize le [:: a; b] None.
  have E : (if ~~ both_concrete a b then defprod [:: a; b] else
      match gattr a, gattr b with
      | Some G, Some H => if G == H then prod_rep gdim csize le [:: a; b] None else dir_rep gdim csize le [:: a; b] None
      | _, _ => dir_rep gdim csize le [:: a; b] None
      end) = dir_rep gdim csize le [:: a; b] None.
    rewrite /both_concrete (concrete_wfr Wa) (concrete_wfr Wb) /=.
    case: (GS _ _ N1 Sa) => [-> //|[g Eg]]; rewrite Eg.
    case: (GS _ _ N2 Sb) => [-> //|[h Eh]]; rewrite Eh.
    case: eqP => // -[E]; have := Dis (GA _ _ _ N1 Eg).
    by rewrite E (GA _ _ _ N2 Eh).
  by rewrite -[RHS]E /mul_base; case: (a) Sa => //; case: (b) Sb.
have [| |r Er [H1 H2 H3]] := @dir_rep_ok gdim csize le gs O R atom HA [:: a; b] None isT _ _ U isT.
- by rewrite /= Na Nb.
- by rewrite !inE negb_or !(eq_sym RScalar); apply/andP; split; apply/eqP.
exists r => //; split; [by apply: nonsum_wfr; apply: isdir_sub | by rewrite H2 /= muln1 |].
apply: meq_trans H3 _; apply: meq_fkron; first exact: meq_refl.
exact: fkron_1_r.
Qed.

Lemma mul_dis a b : wfr gdim csize le gs1 a -> wfr gdim csize le gs2 b ->
  exists2 r, mul gdim csize le a b = Ok r &
  [/\ wfr gdim csize le gs r, sz r = sz a * sz b & meq (rmat r) (fkron (rmat a) (rmat b))].
Proof.
move=> W1 W2; apply: (mul_ok_gen O HA) (wfr_mono s1 W1) (wfr_mono s2 W2) _.
have dom gs' x k : wfr gdim csize le gs' x -> k \in keys (sum_counter (canon gdim csize x)) -> nonsum gdim csize le gs' k.
  case/orP=> [N|].
    by rewrite (nonsum_counter N) inE => /eqP ->; have /andP[] := canon_key N.
  by case: x => // d p /andP[/and5P[_ A _ _ _] _] /(allP A) /andP[].
rewrite /compat; case: ifP => [_|/norP[Sa Sb]].
  by move=> x y Hx Hy; apply: mul_base_dis; [apply: dom Hx | apply: dom Hy].
apply: mul_base_dis; first by case/orP: W1 => //; case: (a) Sa.
by case/orP: W2 => //; case: (b) Sb.
Qed.
End Disjoint.
