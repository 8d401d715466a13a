(** * TrainerThm3: lemmas about Trainer.v: the loss of equivariant models, equivariance_err, argmax and
      the items of the data sets of trajectories. *)
From mathcomp Require Import all_ssreflect all_algebra.
From mathcomp Require Import zify.
From Verif Require Import Np SpecLemmas LinOp Rep Nn NnSpec Data DataThm Trainer TrainerSpec TrainerThm2.
Set Implicit Arguments.
Unset Strict Implicit.
Unset Printing Implicit Defensive.
Import Order.TTheory GRing.Theory Num.Theory.
Local Open Scope ring_scope.

Section Rows.
Variable R : fieldType.
Lemma mapM_size (T U : Type) (f : T -> res U) l r : mapM f l = Ok r -> size r = size l.
Proof.
rewrite /mapM; elim: l r => [|x l IH] r /=; first by move=> [<-].
by case: (f x) => //= y; case: (sequence _) IH => //= s IH [<-] /=; rewrite (IH s).
Qed.
Lemma mapM_nth (T U : Type) (f : T -> res U) l r x0 y0 : mapM f l = Ok r ->
  forall i, (i < size l)%N -> f (nth x0 l i) = Ok (nth y0 r i).
Proof.
rewrite /mapM; elim: l r => [|x l IH] r //=.
by case E: (f x) => [y|] //=; case: (sequence _) IH => //= s IH [<-] [|i] //= Hi; exact: (IH s).
Qed.
Lemma mapM_ex (T U : Type) (f : T -> res U) l x0 : (forall i, (i < size l)%N -> exists y, f (nth x0 l i) = Ok y) ->
  exists r, mapM f l = Ok r.
Proof.
rewrite /mapM; elim: l => [|x l IH] H /=; first by exists [::].
have [y ->] := H 0%N isT; have [|r ->] := IH; first by move=> i Hi; exact: (H i.+1 Hi).
by exists (y :: r).
Qed.
Lemma flatten_nth (T : Type) (x0 : T) n (f : nat -> seq T) k : (forall b, (b < k)%N -> size (f b) = n) ->
  size (flatten [seq f b | b <- iota 0 k]) = (k * n)%N /\
  forall b i, (b < k)%N -> (i < n)%N -> nth x0 (flatten [seq f b | b <- iota 0 k]) (b * n + i) = nth x0 (f b) i.
Proof.
elim: k => [|k IH] H; first by [].
have [|S N] := IH; first by move=> b Hb; apply: H; rewrite ltnS ltnW.
rewrite -addn1 iotaD map_cat flatten_cat /= cats0 add0n size_cat S H //; split=> [|b i]; first by rewrite mulnDl mul1n.
rewrite addn1 ltnS leq_eqVlt nth_cat S => /orP[/eqP->|h] Hi; first by rewrite ltnNge leq_addr /= addKn.
have -> : (b * n + i < k * n)%N by nia.
exact: N.
Qed.
Lemma act_rowsP (rs : seq (seq R)) n x :
  size (act_rows rs n x) = (size rs * n)%N /\
  forall b i, (b < size rs)%N -> (i < n)%N ->
    nth 0 (act_rows rs n x) (b * n + i) = \sum_(0 <= j < n) nth 0 (nth [::] rs b) (i * n + j)%N * nth 0 x (b * n + j)%N.
Proof.
have [|S N] := @flatten_nth R 0 n (fun b => matmul n n 1 (nth [::] rs b) (take n (drop (b * n) x))) (size rs).
  by move=> b _; rewrite size_mkseq muln1.
split=> // b i Hb Hi; rewrite /act_rows N // nth_mkseq ?muln1 // rsumE divn1 modn1.
rewrite !big_nat; apply: eq_bigr => j /andP[_ Hj]; congr (_ * _).
by rewrite muln1 addn0 nth_take // nth_drop.
Qed.
Lemma row_ext n k (u v : seq R) : size u = (k * n)%N -> size v = (k * n)%N ->
  (forall b i, (b < k)%N -> (i < n)%N -> nth 0 u (b * n + i) = nth 0 v (b * n + i)) -> u = v.
Proof.
move=> Su Sv H; apply: (@eq_from_nth _ 0); first by rewrite Su.
move=> t; rewrite Su => Ht; have n0 : (0 < n)%N by case: (n) Ht => //; rewrite muln0.
by rewrite (divn_eq t n) H // ?ltn_mod // ltn_divLR.
Qed.
Lemma nth_vsub (a b : seq R) i : size a = size b -> nth 0 (vsub a b) i = nth 0 a i - nth 0 b i.
Proof.
move=> E; case: (ltnP i (size a)) => H; last by rewrite !nth_default ?subr0 // ?size_map ?size_zip -?E ?minnn.
by rewrite (nth_map (0, 0)) ?size_zip -?E ?minnn // nth_zip.
Qed.
Lemma act_rows_vsub (rs : seq (seq R)) n p y : size p = (size rs * n)%N -> size y = (size rs * n)%N ->
  vsub (act_rows rs n p) (act_rows rs n y) = act_rows rs n (vsub p y).
Proof.
move=> Sp Sy; have [S1 N1] := act_rowsP rs n p; have [S2 N2] := act_rowsP rs n y; have [S3 N3] := act_rowsP rs n (vsub p y).
apply: (@row_ext n (size rs)) => //; first by rewrite size_map size_zip S1 S2 minnn.
move=> b i Hb Hi; rewrite nth_vsub ?S1 // N1 // N2 // N3 // -sumrB.
by apply: eq_bigr => j _; rewrite nth_vsub ?Sp // mulrBr.
Qed.
End Rows.

Section Loss.
Variable F : realFieldType.
Lemma ssq_rows n k (v : seq F) : size v = (k * n)%N ->
  ssq v = \sum_(0 <= b < k) \sum_(0 <= i < n) (nth 0 v (b * n + i)) ^+ 2.
Proof.
elim: k v => [|k IH] v S; first by rewrite (size0nil S) /ssq big_nil big_geq.
rewrite -{1}(cat_take_drop n v) /ssq big_cat -!/(ssq _) big_nat_recl // (IH (drop n v)); last by rewrite size_drop S mulSn addKn.
congr (_ + _).
  rewrite ssq_nth big_mkord size_take S.
  have -> : (if (n < k.+1 * n)%N then n else (k.+1 * n)%N) = n by case: ltnP => // h; nia.
  by apply: eq_bigr => i _; rewrite nth_take // mul0n.
by apply: eq_bigr => b _; apply: eq_bigr => i _; rewrite nth_drop mulSn addnA.
Qed.
Lemma ortho_sum n Q (x : nat -> F) : ortho_rows n Q ->
  \sum_(0 <= i < n) (\sum_(0 <= j < n) nth 0 Q (i * n + j)%N * x j) ^+ 2 = \sum_(0 <= i < n) x i ^+ 2.
Proof.
move=> O; under eq_bigr do rewrite expr2 big_distrlr /=.
rewrite exchange_big /= !big_nat; apply: eq_bigr => j /andP[_ Hj].
rewrite exchange_big /= (eq_big_nat _ _ (F2 := fun l => (j == l)%:R * (x j * x l))); last first.
  by move=> l /andP[_ Hl]; rewrite -O // mulr_suml; apply: eq_bigr => i _; rewrite mulrACA.
rewrite (bigD1_seq j) ?mem_index_iota ?iota_uniq //= eqxx mul1r expr2 big1 ?addr0 // => l nl.
by rewrite eq_sym (negbTE nl) mul0r.
Qed.
Lemma ssq_act (rs : seq (seq F)) n x : (forall b, (b < size rs)%N -> ortho_rows n (nth [::] rs b)) ->
  size x = (size rs * n)%N -> ssq (act_rows rs n x) = ssq x.
Proof.
move=> O S; have [S1 N1] := act_rowsP rs n x; rewrite (ssq_rows S1) (ssq_rows S) !big_nat.
apply: eq_bigr => b /andP[_ Hb].
rewrite -(ortho_sum (fun j => nth 0 x (b * n + j)) (O b Hb)) !big_nat; apply: eq_bigr => i /andP[_ Hi].
by rewrite N1.
Qed.
Theorem mse_ortho (rs : seq (seq F)) n p y : (forall b, (b < size rs)%N -> ortho_rows n (nth [::] rs b)) ->
  size p = (size rs * n)%N -> size y = (size rs * n)%N ->
  mse (act_rows rs n p) (act_rows rs n y) = mse p y.
Proof.
move=> O Sp Sy; rewrite !mseE act_rows_vsub // ssq_act //; last by rewrite size_vsub // Sp.
by rewrite (act_rowsP rs n p).1 Sp.
Qed.
Theorem loss_ortho model (rin rout : seq (seq F)) nin nout x y p :
  (forall b, (b < size rout)%N -> ortho_rows nout (nth [::] rout b)) ->
  model (size rout) x = Ok p -> size p = (size rout * nout)%N -> size y = (size rout * nout)%N ->
  model (size rout) (act_rows rin nin x) = Ok (act_rows rout nout p) ->
  regressor_loss model (size rout) (act_rows rin nin x) (act_rows rout nout y) = regressor_loss model (size rout) x y.
Proof.
move=> O E Sp Sy E'; rewrite /regressor_loss E E' /= Sp Sy eqxx.
by rewrite !(act_rowsP rout nout _).1 eqxx mse_ortho.
Qed.
End Loss.

Section EqErr.
Variable F : rcfType.
Local Notation rms := (root_mean_square (@Num.sqrt F)).
Lemma mean_abs_eq0 (l : seq F) : 0 <= foldr +%R 0 [seq `|c| | c <- l] / (size l)%:R /\
  (foldr +%R 0 [seq `|c| | c <- l] / (size l)%:R = 0 <-> l = nseq (size l) 0).
Proof.
have P : 0 <= foldr +%R 0 [seq `|c| | c <- l] by elim: l => //= c l IH; rewrite addr_ge0.
split; first by rewrite divr_ge0 // ler0n.
split=> [/eqP|E].
  case: l P => // c l P; rewrite mulf_eq0 invr_eq0 pnatr_eq0 orbF {P} => /eqP.
  move: (c :: l) => {c}{}l; elim: l => //= c l IH /eqP.
  have P : 0 <= foldr +%R 0 [seq `|c| | c <- l] by elim: (l) => //= c' l' IH'; rewrite addr_ge0.
  by rewrite paddr_eq0 // normr_eq0 => /andP[/eqP-> /eqP/IH {1}->].
rewrite E; have -> : foldr +%R 0 [seq `|c| | c <- nseq (size l) (0 : F)] = 0; last by rewrite mul0r.
by elim: (size l) => //= k ->; rewrite normr0 addr0.
Qed.
Lemma zero_flatten (ls : seq (seq F)) : flatten ls = nseq (size (flatten ls)) 0 <-> forall l, l \in ls -> l = nseq (size l) 0.
Proof.
split=> [E l Hl|H].
  apply/all_pred1P/allP => x Hx; have : x \in flatten ls by apply/flattenP; exists l.
  by rewrite E => /nseqP[-> _] /=.
apply/all_pred1P/allP => x /flattenP[l Hl Hx]; move: Hx; by rewrite (H l Hl) => /nseqP[-> _] /=.
Qed.
(** the number computed from the two predictions *)
Theorem sare_thm (a b : seq F) d gs : size a = size b -> (forall h, h \in gs -> size h = (d * d)%N) ->
  let r := scale_adjusted_rel_err (@Num.sqrt F) (fun c => `|c|) a b d gs in
  [/\ r = None <-> [/\ a = nseq (size a) 0, b = nseq (size b) 0 & forall h, h \in gs -> h = eye F d] &
      forall e, r = Some e -> [/\ 0 <= e, e <= 1 & e = 0 <-> a = b]].
Proof.
move=> E Hg /=; rewrite /scale_adjusted_rel_err.
set devs := flatten _; set dev := foldr _ _ _ / _.
have [dev0 dev1] : 0 <= dev /\ (dev = 0 <-> forall h, h \in gs -> h = eye F d).
  have ED : devs = [seq `|c| | c <- flatten [seq vsub h (eye F d) | h <- gs]].
    by rewrite /devs map_flatten -map_comp.
  rewrite /dev ED size_map; have [h1 h2] := mean_abs_eq0 (flatten [seq vsub h (eye F d) | h <- gs]); split=> //.
  rewrite h2 zero_flatten; split=> [H h Hh|H l /mapP[h Hh ->]].
    have Sz : size h = size (eye F d) by rewrite Hg // size_mkseq.
    have := H (vsub h (eye F d)) (map_f _ Hh); rewrite size_vsub //; by move/(vsub_eq0 Sz).
  have Sz : size h = size (eye F d) by rewrite Hg // size_mkseq.
  by rewrite size_vsub //; apply/(vsub_eq0 Sz); exact: H.
have r0 l : 0 <= rms l := rms_ge0 l.
have NE : (fdiv (rms (vsub a b)) (rms a + rms b + dev) = None) <-> [/\ a = nseq (size a) 0, b = nseq (size b) 0 & forall h, h \in gs -> h = eye F d].
  rewrite /fdiv; case: eqP => H; split=> //.
    move=> _; move/eqP: H; rewrite !paddr_eq0 ?addr_ge0 // => /andP[/andP[/eqP h1 /eqP h2] /eqP h3].
    by split; [exact/rms_eq0 | exact/rms_eq0 | exact/dev1].
  by move=> [/rms_eq0 h1 /rms_eq0 h2 /dev1 h3]; case: H; rewrite h1 h2 h3 !addr0.
split=> // e; rewrite /fdiv; case: eqP => // /eqP H [<-].
have D : 0 < rms a + rms b + dev by rewrite lt_def H !addr_ge0.
split; first by rewrite divr_ge0 // ltW.
  by rewrite ler_pdivr_mulr // mul1r; apply: le_trans (rms_triangle E) _; rewrite ler_addl.
rewrite -rms_vsub //; split=> [/eqP|->]; last by rewrite mul0r.
by rewrite mulf_eq0 invr_eq0 (negbTE H) orbF => /eqP.
Qed.
Variables (conj sinv : F -> F) (linv : nat -> seq F -> seq F).
Variables (crho : nat -> option gid -> gel F -> res (op F)).
Local Notation rho r D := (rho_dense conj sinv linv crho r D).
Local Notation eqerr := (equivariance_err conj sinv linv crho (@Num.sqrt F) (fun c => `|c|)).
Theorem eqerr_thm repin repout predict nin nout d gs x (Ain Aout : seq (seq F)) y1 y :
  let bs := size gs in
  (forall h, h \in gs -> size h = (d * d)%N) -> size Ain = bs -> size Aout = bs ->
  (forall b, (b < bs)%N -> rho repin (GMat (OArr d d (nth [::] gs b))) = Ok (nin, nin, nth [::] Ain b)) ->
  (forall b, (b < bs)%N -> rho repout (GMat (OArr d d (nth [::] gs b))) = Ok (nout, nout, nth [::] Aout b)) ->
  predict bs (act_rows Ain nin x) = Ok y1 -> predict bs x = Ok y -> size y1 = (bs * nout)%N ->
  let y2 := act_rows Aout nout y in
  exists2 r, eqerr repin repout predict nin nout d gs x = Ok r &
   [/\ r = None <-> [/\ y1 = nseq (bs * nout) 0, y2 = nseq (bs * nout) 0 & forall h, h \in gs -> h = eye F d] &
      forall e, r = Some e -> [/\ 0 <= e, e <= 1 & e = 0 <-> y1 = y2]].
Proof.
move=> bs Hg Si So Hi Ho P1 P S1 y2.
have MM r A n : size A = bs -> (forall b, (b < bs)%N -> rho r (GMat (OArr d d (nth [::] gs b))) = Ok (n, n, nth [::] A b)) ->
    mapM (fun D => rho r (GMat (OArr d d D))) gs = Ok [seq (n, n, B) | B <- A].
  move=> SA HA; have [|l El] := @mapM_ex _ _ (fun D => rho r (GMat (OArr d d D))) gs [::].
    by move=> i Hi'; eexists; exact: HA.
  rewrite El; congr Ok; have Sl := mapM_size El; apply: (@eq_from_nth _ (0%N, 0%N, [::])); first by rewrite size_map SA Sl.
  move=> i; rewrite Sl => Hi'; have := mapM_nth [::] (0%N, 0%N, [::]) El Hi'.
  by rewrite HA // (nth_map [::]) ?SA // => -[<-].
rewrite /equivariance_err (MM _ _ _ Si Hi) /= (MM _ _ _ So Ho) /= -!map_comp.
rewrite (eq_map (_ : _ =1 id)) // map_id P1 /= P /= (eq_map (_ : _ =1 id)) // map_id -/y2.
have S2 : size y2 = (bs * nout)%N by rewrite (act_rowsP _ _ _).1 So.
eexists; first by []. 
by have := sare_thm (etrans S1 (esym S2)) Hg; rewrite S1 S2.
Qed.
Theorem eqerr_equivariant gdim csize E repin repout predict d gs x :
  let bs := size gs in let nin := rsize gdim csize repin in let nout := rsize gdim csize repout in
  equivariant conj sinv linv crho gdim csize E repin repout predict ->
  (forall h, h \in gs -> size h = (d * d)%N /\ E (GMat (OArr d d h))) ->
  (forall h, h \in gs -> exists D, rho repin (GMat (OArr d d h)) = Ok (nin, nin, D)) ->
  size x = (bs * nin)%N ->
  exists2 r, eqerr repin repout predict nin nout d gs x = Ok r & r = None \/ r = Some 0.
Proof.
move=> bs nin nout EQ Hg Hr Sx.
have HG b : (b < bs)%N -> E (GMat (OArr d d (nth [::] gs b))) by move=> Hb; case: (Hg (nth [::] gs b)); rewrite ?mem_nth.
have [l El] : exists l, mapM (fun D => rho repin (GMat (OArr d d D))) gs = Ok l.
  by apply: (mapM_ex (x0 := [::])) => i Hi; have [|D ->] := Hr (nth [::] gs i); rewrite ?mem_nth //; exists (nin, nin, D).
have Sl := mapM_size El; pose Ain := [seq A.2 | A <- l].
have Si : size Ain = bs by rewrite size_map.
have HAin b : (b < bs)%N -> rho repin (GMat (OArr d d (nth [::] gs b))) = Ok (nin, nin, nth [::] Ain b).
  move=> Hb; have [|D ED] := Hr (nth [::] gs b); first by rewrite mem_nth.
  have := mapM_nth [::] (0%N, 0%N, [::]) El Hb; rewrite ED (nth_map (0%N, 0%N, [::])) ?Sl // => -[<-] //.
have [|Y [Y' [P P1 A2]]] := EQ bs (fun b => GMat (OArr d d (nth [::] gs b))) x (act_rows Ain nin x) HG.
  have [S1 N1] := act_rowsP Ain nin x; split=> //; first by rewrite S1 Si.
  move=> b Hb; exists (nth [::] Ain b); first exact: HAin.
  by move=> i Hi; rewrite N1 ?Si.
have [SY SY' HB] := A2.
have [l' El'] : exists l, mapM (fun D => rho repout (GMat (OArr d d D))) gs = Ok l.
  by apply: (mapM_ex (x0 := [::])) => i Hi; have [D -> _] := HB i Hi; eexists.
have Sl' := mapM_size El'; pose Aout := [seq A.2 | A <- l'].
have So : size Aout = bs by rewrite size_map.
have HAout b : (b < bs)%N -> rho repout (GMat (OArr d d (nth [::] gs b))) = Ok (nout, nout, nth [::] Aout b).
  move=> Hb; have [D ED _] := HB b Hb.
  have := mapM_nth [::] (0%N, 0%N, [::]) El' Hb; rewrite ED (nth_map (0%N, 0%N, [::])) ?Sl' // => -[<-] //.
have [r Er [_ K]] := eqerr_thm (fun h Hh => (Hg h Hh).1) Si So HAin HAout P1 P SY'.
exists r => //; case: r {Er} K => [e|] K; [right; congr Some | by left].
have [_ _ ->] := K e erefl; have [S2 N2] := act_rowsP Aout nout Y.
apply: (@row_ext _ nout bs) => //; first by rewrite S2 So.
move=> b i Hb Hi; have [D ED HD] := HB b Hb; rewrite HD // N2 ?So //.
by move: ED; rewrite HAout // => -[->].
Qed.
End EqErr.

(** ** argmax *)
Section Argmax.
Variable F : realDomainType.
Theorem argmax_thm (row : seq F) : row <> [::] -> let a := argmax row in
  [/\ (a < size row)%N, forall j, (j < size row)%N -> nth 0 row j <= nth 0 row a &
      forall j, (j < a)%N -> nth 0 row j < nth 0 row a].
Proof.
move=> H a; have HF : has (fun u => all (fun b => b <= u) row) row.
  elim: row H {a} => // x [|y row] IH _; first by rewrite /= lexx.
  have /hasP[m Hm /allP Am] := IH (fun h => ltac:(discriminate h)).
  apply/hasP; case: (leP x m) => h.
    by exists m; [rewrite inE Hm orbT | apply/allP => b; rewrite inE => /orP[/eqP->//|/Am]].
  exists x; [by rewrite inE eqxx | apply/allP => b; rewrite inE => /orP[/eqP->//|/Am/le_trans-> //]].
  exact: ltW.
have La : (a < size row)%N by rewrite -has_find.
have Ma j : (j < size row)%N -> nth 0 row j <= nth 0 row a.
  by move=> Hj; have /allP/(_ (nth 0 row j)) := nth_find 0 HF; rewrite mem_nth //; exact.
split=> // j Hj; rewrite lt_def Ma ?(ltn_trans Hj) // andbT; apply/eqP => E.
have := before_find 0 Hj; rewrite -E => /negbT/allPn[b /(nthP 0)[i Hi <-]]; by rewrite Ma.
Qed.
End Argmax.

(** ** an item of the data set is the trajectory that starts at its initial condition *)
Section Item.
Variables (F : numFieldType) (S : Type) (phi : F -> S -> S) (dt : F).
Hypothesis phi0 : forall z, phi 0 z = z.
Hypothesis phiD : forall s t z, phi (s + t) z = phi s (phi t z).
Local Notation rollout := (rollout phi dt).
Theorem item_thm (z0s : seq S) s0 len c draw : (0 < c <= len)%N -> (len %/ c %| len)%N ->
  (forall i, (i < size z0s)%N -> (nth 0%N draw i < len %/ c)%N) ->
  exists2 cs, chunk_training_data [seq rollout len z | z <- z0s] len c draw = Ok cs &
   size cs = size z0s /\ forall i, (i < size z0s)%N -> exists z, nth [::] cs i = rollout (len %/ (len %/ c)) z /\ 
      z = phi ((nth 0%N draw i * (len %/ (len %/ c)))%:R * dt) (nth s0 z0s i) /\ nth s0 (nth [::] cs i) 0 = z.
Proof.
move=> H D Hd; have [||cs Ec [Sc K]] := @chunk_thm S [seq rollout len z | z <- z0s] len c draw H D.
- by move=> i; rewrite size_map => Hi; rewrite (nth_map s0) // size_mkseq.
- by move=> i; rewrite size_map; exact: Hd.
exists cs => //; rewrite size_map in Sc K; split=> // i Hi; have [E1 _ B] := K i Hi.
set z := phi _ (nth s0 z0s i); exists z.
suff E2 : nth [::] cs i = rollout (len %/ (len %/ c)) z.
  split=> //; split=> //; rewrite E2 nth_mkseq ?mul0r ?phi0 // divn_gt0 ?leq_div //.
  by case/andP: H => c0 h; rewrite divn_gt0.
rewrite {}/z.
rewrite E1 (nth_map s0) //; set L := (_ %/ _)%N in B *; set o := (nth _ _ _ * L)%N in B *.
apply: (@eq_from_nth _ s0).
  by rewrite size_take size_drop !size_mkseq; case: ltnP => // h; apply/eqP; rewrite eqn_leq h leq_subRL ?(leq_trans _ B) ?leq_addr.
move=> k; rewrite size_take size_drop size_mkseq => Hk.
have Hk' : (k < L)%N by apply: leq_trans Hk _; case: (ltnP L).
rewrite nth_take // nth_drop !nth_mkseq //; last by apply: leq_trans B; rewrite ltn_add2l.
by rewrite -phiD -mulrDl -natrD addnC.
Qed.
Theorem target_thm (z0s : seq S) s0 len c draw : (0 < c <= len)%N -> (len %/ c %| len)%N ->
  (forall i, (i < size z0s)%N -> (nth 0%N draw i < len %/ c)%N) ->
  exists2 cs, chunk_training_data [seq rollout len z | z <- z0s] len c draw = Ok cs &
   size cs = size z0s /\ forall i, (i < size z0s)%N ->
     (ham_item s0 dt c cs i).2 = [seq phi t (ham_item s0 dt c cs i).1.1 | t <- (ham_item s0 dt c cs i).1.2] <-> (c %| len)%N.
Proof.
move=> H D Hd; have [cs Ec [Sc K]] := item_thm s0 H D Hd; exists cs => //; split=> // i Hi.
have [z [E1 [_ E2]]] := K i Hi; have [_ CL] := chunk_length H D; rewrite /ham_item /= E2 E1 -CL -map_comp.
split=> [/(congr1 size)|/eqP->]; last by [].
by rewrite size_mkseq size_map size_iota => ->.
Qed.
End Item.
