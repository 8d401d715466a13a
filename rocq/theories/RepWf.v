(** * RepWf: well-formed representations, and the direct sum constructor. *)
From mathcomp Require Import all_ssreflect all_algebra.
From mathcomp Require Import zify.
From Verif Require Import Np NpLemmas Spec LinOp SpecLemmas Rep RepMat.
Set Implicit Arguments.
Unset Strict Implicit.
Unset Printing Implicit Defensive.
Import GRing.Theory.

(** [le] is a total order on the representations in [D]. *)
Record total_order_on (D : pred rep) (le : rel rep) : Prop := TotalOn {
  to_total : {in D &, total le};
  to_trans : {in D & &, transitive le};
  to_anti  : {in D &, antisymmetric le} }.

Section Order.
Variables (D : pred rep) (le : rel rep).
Hypothesis O : total_order_on D le.

Lemma unique_repsP cs : all (fun c => all D (keys c)) cs ->
  let us := unique_reps le cs in
  [/\ uniq us, sorted le us, all D us & forall r, (r \in us) = has (fun c => r \in keys c) cs].
Proof.
move=> H us.
have M r : (r \in us) = has (fun c => r \in keys c) cs.
  rewrite /us /unique_reps mem_sort mem_undup; apply/flattenP/hasP => [[s /mapP[c Hc ->] Hr]|[c Hc Hr]].
    by exists c.
  by exists (keys c) => //; apply: map_f.
have A : all D us.
  apply/allP=> r; rewrite M => /hasP[c Hc Hr].
  by have /allP/(_ _ Hr) := allP H _ Hc.
split=> //; first by rewrite /us /unique_reps sort_uniq undup_uniq.
have A' : all D (undup (flatten (map keys cs))) by rewrite -(all_sort _ le).
apply: (sort_sorted_in (P := D)) => //; exact: (to_total O).
Qed.

Lemma sub_keys us ks : uniq us -> sorted le us -> all D us ->
  uniq ks -> sorted le ks -> {subset ks <= us} -> ks = [seq r <- us | r \in ks].
Proof.
move=> U S A Uk Sk Sub.
have AK : all D ks by apply/allP=> r /Sub Hr; apply: (allP A).
have Af : all D [seq r <- us | r \in ks].
  by apply/allP=> r; rewrite mem_filter => /andP[_ Hr]; apply: (allP A).
apply: (sorted_eq_in (leT := le)) => //.
- by move=> x y z Hx Hy Hz; apply: (to_trans O); apply: (allP AK).
- by move=> x y Hx Hy; apply: (to_anti O); apply: (allP AK).
- by apply: (sorted_filter_in (P := D)) => //; exact: (to_trans O).
apply: uniq_perm => //; first exact: filter_uniq.
move=> r; rewrite mem_filter andb_idr //; exact: Sub.
Qed.
End Order.

Lemma perm_refl_eq (T : eqType) (s t : seq T) : s = t -> perm_eq s t.
Proof. by move->. Qed.

Lemma perm_group (T S : eqType) (f : T -> S) (B : seq T) us : uniq us ->
  perm_eq (flatten [seq [seq b <- B | f b == r] | r <- us]) [seq b <- B | f b \in us].
Proof.
elim: us => [|r us IH] /=; first by rewrite (eq_filter (a2 := pred0)) ?filter_pred0.
case/andP=> Hr U.
rewrite perm_sym -(perm_filterC (fun b => f b == r) [seq b <- B | f b \in r :: us]).
rewrite -!filter_predI; apply: perm_cat.
  by rewrite (eq_filter (a2 := fun b => f b == r)) // => b; rewrite /= inE; case: eqP.
rewrite perm_sym; apply: perm_trans (IH U) _; rewrite perm_sym.
rewrite (eq_filter (a2 := fun b => f b \in us)) // => b /=; rewrite inE.
by case: eqP => //= ->; rewrite (negbTE Hr).
Qed.

Section Wf.
Variables (gdim : gid -> nat) (gorth : gid -> bool) (csize : nat -> gid -> nat).
Variable le : rel rep.
Variable gs : pred gid.       (* the groups considered *)
Local Notation sz := (rsize gdim csize).
Local Notation blocks := (blocks sz).

(** V(G), a user-defined representation of G, or the dual of one of these *)
Definition atomic (r : rep) : bool :=
  match r with
  | RBase (Some g) | RDual (RBase (Some g)) => gs g && (0 < gdim g)
  | RCustom c (Some g) | RDual (RCustom c (Some g)) => gs g && (0 < csize c g)
  | _ => false
  end.

(** a sorted dictionary with keys in [D] and positive counts *)
Definition okdict (D : pred rep) (d : dict) : bool :=
  [&& ~~ nilp d, all D (keys d), uniq (keys d), sorted le (keys d) & all (leq 1) (vals d)].

(** the dictionary of a ProductRep: atoms of one group *)
Definition pdict (d : dict) : bool :=
  [&& okdict atomic d, 1 < sumn (vals d) &
      all (fun k => gattr k == gattr (head RScalar (keys d))) (keys d)].
Definition isprod (r : rep) : bool :=
  if r is RProd d p then pdict d && is_perm (sz r) p else false.
Definition canonp (r : rep) : bool :=
  match r with
  | RSum _ p | RProd _ p | RDir _ p => p == iota 0 (sz r)
  | _ => true
  end.
(** a factor of a DirectProduct *)
Definition dkey (r : rep) : bool := atomic r || (isprod r && canonp r).
Definition ddict (d : dict) : bool :=
  [&& okdict dkey d, all (fun c => c == 1) (vals d), 1 < size d &
      uniq [seq gattr k | k <- keys d]].
Definition isdir (r : rep) : bool :=
  if r is RDir d p then ddict d && is_perm (sz r) p else false.
(** a summand of a SumRep *)
Definition nonsum (r : rep) : bool :=
  [|| r == RScalar, atomic r, isprod r | isdir r].
Definition key (r : rep) : bool := nonsum r && canonp r.
Definition issum (r : rep) : bool :=
  if r is RSum d p then okdict key d && is_perm (sz r) p else false.
Definition wfr (r : rep) : bool := nonsum r || issum r.

Lemma atomic_sz r : atomic r -> 0 < sz r.
Proof. by case: r => // [[g|]|c [g|]|[]] //=; [case/andP.. | move=> [g|] // /andP[] | move=> c [g|] // /andP[]]. Qed.

Lemma prodn_expn_gt0 d : all (fun k => 0 < sz k) (keys d) -> 0 < prodn [seq sz x.1 ^ x.2 | x <- d].
Proof. by elim: d => [|x d IH] //= /andP[H /IH H']; rewrite muln_gt0 expn_gt0 H. Qed.

Lemma isprod_sz r : isprod r -> 0 < sz r.
Proof.
case: r => //= d p /andP[/and3P[/and5P[_ A _ _ _] _ _] _].
by apply: prodn_expn_gt0; apply/allP=> k /(allP A) /atomic_sz.
Qed.
Lemma dkey_sz r : dkey r -> 0 < sz r.
Proof. by case/orP=> [/atomic_sz|/andP[/isprod_sz]]. Qed.
Lemma isdir_sz r : isdir r -> 0 < sz r.
Proof.
case: r => //= d p /andP[/and4P[/and5P[_ A _ _ _] _ _ _] _].
by apply: prodn_expn_gt0; apply/allP=> k /(allP A) /dkey_sz.
Qed.
Lemma nonsum_sz r : nonsum r -> 0 < sz r.
Proof. by case/or4P=> [/eqP ->|/atomic_sz|/isprod_sz|/isdir_sz]. Qed.
Lemma key_sz r : key r -> 0 < sz r.
Proof. by case/andP=> /nonsum_sz. Qed.

Lemma atomic_key r : atomic r -> key r.
Proof. by move=> H; rewrite /key /nonsum H orbT /=; case: r H. Qed.

(** ** canonicalize *)
Definition canon (r : rep) : rep :=
  match r with
  | RSum d _ => RSum d (iota 0 (sz r))
  | RProd d _ => RProd d (iota 0 (sz r))
  | RDir d _ => RDir d (iota 0 (sz r))
  | _ => r
  end.
Definition cpm (r : rep) : seq nat :=
  match r with RSum _ p | RProd _ p | RDir _ p => p | _ => iota 0 (sz r) end.

Section Ord.
Hypothesis O : total_order_on key le.

Lemma okdict_unique D d : {subset D <= key} -> okdict D d -> unique_reps le [:: d] = keys d.
Proof.
move=> HD /and5P[_ A U S _].
have A' : all key (keys d) by apply/allP=> k /(allP A) /HD.
have [|U1 S1 A1 M] := @unique_repsP key le O [:: d]; first by rewrite /= A'.
symmetry; apply: (etrans (sub_keys O U1 S1 A1 U S _)).
  by move=> r Hr; rewrite M /= Hr.
by apply/all_filterP/allP=> r; rewrite M /= orbF.
Qed.

Lemma sum_loop_self pre d i p : uniq (keys (pre ++ d)) ->
  size (drop i p) = sumn [seq sz x.1 * x.2 | x <- d] ->
  sum_loop gdim csize (keys d) [:: (pre ++ d, i, p)] = (d, drop i p).
Proof.
elim: d pre i => [|[r c] d IH] pre i U S /=; first by rewrite (size0nil S).
have E : cnt (pre ++ (r, c) :: d) r = c.
  rewrite cnt_catr ?(cnt_head (r, c)) //; move: U.
  by rewrite /keys map_cat cat_uniq /= => /and3P[_ /norP[]].
rewrite E -cat_rcons IH ?cat_rcons //.
  congr pair; first by rewrite addn0.
  rewrite cats0 /slice addKn.
  by rewrite -{2}(cat_take_drop (c * sz r) (drop i p)) drop_drop addnC.
by rewrite size_drop subnDA -size_drop S /= mulnC addKn.
Qed.

Lemma sum_coll_self d : okdict key d ->
  sum_coll gdim csize le d None = RSum d (iota 0 (sz (RSum d [::]))).
Proof.
move=> W; rewrite /sum_coll /sum_canonical (okdict_unique _ W) //=.
have -> : [seq 0 + x | x <- iota 0 (sumn [seq sz x.1 * x.2 | x <- d])] =
          iota 0 (sumn [seq sz x.1 * x.2 | x <- d]) by rewrite -iotaDl.
rewrite (@sum_loop_self [::]) ?drop0 ?size_iota //.
by case/and5P: W.
Qed.

Lemma sum_coll_self' d p : okdict key d -> is_perm (sz (RSum d p)) p ->
  sum_coll gdim csize le d (Some p) = RSum d p.
Proof.
move=> W P; rewrite /sum_coll /sum_canonical (okdict_unique _ W) //=.
have -> : [seq 0 + x | x <- p] = p by rewrite -[RHS]map_id; apply: eq_map.
rewrite (@sum_loop_self [::]) ?drop0 ?size_iota ?(is_perm_size P) //.
by case/and5P: W.
Qed.

(** what sum_canonical computes *)
Lemma sum_canonical_ok (cps : seq (dict * seq nat)) :
  ~~ nilp cps ->
  (forall x, x \in cps -> okdict key x.1 /\ size x.2 = sz (RSum x.1 [::])) ->
  let dp := sum_canonical gdim csize le (map fst cps) (map snd cps) in
  [/\ okdict key dp.1, size dp.2 = sz (RSum dp.1 [::]),
      forall r, cnt dp.1 r = sumn [seq cnt x.1 r | x <- cps] &
      perm_eq (blocks (dexp dp.1) dp.2)
              (flatten [seq blocks (dexp x.1) x.2 | x <- zip (map fst cps) (shifted 0 (map snd cps))])].
Proof.
move=> NE H; rewrite /sum_canonical.
set us := unique_reps _ _.
pose ss := [seq ((x.1, 0, x.2), x.1) | x <- zip (map fst cps) (shifted 0 (map snd cps))].
have -> : [seq (x.1, 0, x.2) | x <- zip (map fst cps) (shifted 0 (map snd cps))] = map fst ss.
  by rewrite /ss -map_comp.
have AK : all (fun c => all key (keys c)) (map fst cps).
  by apply/allP=> c /mapP[x Hx ->]; have [/and5P[]] := H x Hx.
have [U S A M] := unique_repsP O AK; rewrite -/us in U S A M.
have Ssh n ps : size (shifted n ps) = size ps by elim: ps n => //= p ps IH n; rewrite IH.
have Hz x : x \in zip (map fst cps) (shifted 0 (map snd cps)) ->
    exists2 y, y \in cps & x.1 = y.1 /\ size x.2 = size y.2.
  move: {1}0 => n; move: (cps) n; elim=> [|y l IH] n //=; rewrite inE => /orP[/eqP ->|Hx] /=.
    by exists y; rewrite ?mem_head // size_map.
  by have [z Hz E] := IH _ Hx; exists z; rewrite ?inE ?Hz ?orbT.
have I x : x \in ss -> sinv gdim csize us x.1 x.2.
  case/mapP=> z /Hz[y Hy [E1 E2]] ->; have [W Sy] := H y Hy.
  have /and5P[_ _ Uk Sk _] := W.
  split=> /=; rewrite ?E1 //; first by exists [::].
    by apply: (sub_keys O) => // r Hr; rewrite M; apply/hasP; exists y.1 => //; apply: map_f.
  by rewrite drop0 E2 Sy /= sumn_dexp.
have [H1 H2 H3] := sum_loop_ok U I.
have Ef : map fst (zip (map fst cps) (shifted 0 (map snd cps))) = map fst cps.
  by rewrite -/unzip1 unzip1_zip // Ssh !size_map.
have Ec r : [seq cnt x.1.1.1 r | x <- ss] = [seq cnt x.1 r | x <- cps].
  rewrite /ss -map_comp /= (map_comp (cnt^~ r) fst) Ef -map_comp //.
set dp := sum_loop _ _ _ _ in H1 H2 H3 *.
have Kd : keys dp.1 = us by rewrite H1 /keys -map_comp map_id.
have Cd r : cnt dp.1 r = sumn [seq cnt x.1 r | x <- cps].
  have [Hr|Hr] := boolP (r \in us); last first.
    rewrite cnt_notin ?Kd //; symmetry; apply/eqP.
    have /allP Z : all (fun c => cnt c r == 0) (map fst cps).
      apply/allP=> c Hc; rewrite cnt_notin //; apply: contra Hr => Hr.
      by rewrite M; apply/hasP; exists c.
    elim: (cps) Z => [|x l IH] //= Z; rewrite (eqP (Z _ (mem_head _ _))) add0n.
    by apply: IH => c Hc; apply: Z; rewrite inE Hc orbT.
  rewrite /cnt Kd H1 /vals -map_comp /= (nth_map RScalar) ?index_mem // nth_index //=.
  by rewrite Ec.
split=> //.
- rewrite /okdict Kd A U S /=; apply/andP; split.
    have : ~~ nilp us; last by rewrite -Kd; case: (dp.1).
    case: (cps) NE H M => [|x l] // _ H M; have [/and5P[Nx _ _ _ _] _] := H x (mem_head _ _).
    case E: (x.1) Nx => [|[k c] x1] //= _; have : k \in us by rewrite M /= E /keys /= inE eqxx.
    by case: (us).
  apply/allP=> v /mapP[x Hx ->]; move: Hx; rewrite H1 => /mapP[r Hr ->] /=.
  rewrite Ec; move: Hr; rewrite M => /hasP[c /mapP[y Hy ->] Hr].
  have [/and5P[_ _ _ _ P] _] := H y Hy.
  have C : 0 < cnt y.1 r by apply: (allP P); apply: mem_nth; rewrite size_map -(size_map fst) index_mem.
  elim: (cps) Hy => [|z l IH] //=; rewrite inE => /orP[/eqP <-|/IH H0]; first by rewrite addn_gt0 C.
  by rewrite addn_gt0 H0 orbT.
- by rewrite H2 sumn_dexp.
rewrite H3; apply: perm_trans (_ : perm_eq _ [seq b <- flatten [seq blocks (dexp x.1) x.2 | x <- zip (map fst cps) (shifted 0 (map snd cps))] | b.1 \in us]) _.
  apply: perm_trans (perm_group _ _ U); apply: perm_refl_eq; congr flatten.
  apply: eq_map => r; rewrite filter_flatten /ss -!map_comp; congr flatten.
  by apply: eq_map => x /=; rewrite drop0.
apply: perm_refl_eq; apply/all_filterP/allP=> b /flattenP[s /mapP[x Hx ->] Hb].
have [y Hy [E1 _]] := Hz x Hx; rewrite M; apply/hasP; exists y.1; first exact: map_f.
rewrite -E1; apply: mem_dexp; rewrite -[dexp x.1](blocks_keys sz _ x.2); exact: map_f.
Qed.
End Ord.
End Wf.
