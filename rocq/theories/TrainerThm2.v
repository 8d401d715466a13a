(** * TrainerThm2: lemmas about Trainer.v: checkpoints, chunks of trajectories, losses and error metrics. *)
From mathcomp Require Import all_ssreflect all_algebra.
From mathcomp Require Import zify.
From Verif Require Import Np LinOp Rep Nn Data DataThm Trainer TrainerSpec.
Set Implicit Arguments.
Unset Strict Implicit.
Unset Printing Implicit Defensive.
Import Order.TTheory GRing.Theory Num.Theory.
Local Open Scope ring_scope.

(** ** the checkpoint *)
Section Ckpt.
Variable F : realDomainType.
Lemma foldl_max (a c : F) l : (foldl Num.max a l <= c) = (a <= c) && all (fun u => u <= c) l.
Proof. by elim: l a => [|u l IH] a /=; rewrite ?andbT // IH le_maxl andbA. Qed.
Lemma signed_le m (u v : F) : ((if m then 1 else -1) * u <= (if m then 1 else -1) * v) = as_good m v u.
Proof. by case: m; rewrite /= ?mul1r // !mulN1r ler_opp2. Qed.
Lemma logs_vals early (vs : seq F) : l_vals (logs early vs) = vs.
Proof. by elim/last_ind: vs => //= vs v IH; rewrite /logs foldl_rcons -/(logs early vs) /log_stuff; case: early IH => [b|] /= ->. Qed.
Lemma as_good_trans m (a b c : F) : as_good m a b -> as_good m b c -> as_good m a c.
Proof. by case: m => /= h1 h2; [apply: le_trans h1 | apply: le_trans h2]. Qed.
Lemma as_goodNP m (a b : F) : as_good m a b = ~~ better m b a.
Proof. by case: m; rewrite /= -leNgt. Qed.
Lemma betterW m (a b : F) : better m a b -> as_good m a b.
Proof. by case: m => /=; apply: ltW. Qed.
Lemma best_le m v vs : let s : F := if m then 1 else -1 in
  (foldl Num.max (s * head v (rcons vs v)) [seq s * u | u <- behead (rcons vs v)] <= s * v) = all (as_good m v) vs.
Proof.
move=> s; rewrite {}/s foldl_max all_map /=.
have E : (fun u => ((if m then 1 else -1) * u <= (if m then 1 else -1) * v)) =1 as_good m v by move=> u; exact: signed_le.
have V : as_good m v v by case: (m) => /=.
case: vs => [|u vs] /=; first by rewrite lexx.
by rewrite signed_le; congr andb; rewrite (eq_all E) all_rcons V.
Qed.
Theorem ckpt_thm m (vs : seq F) : vs <> [::] -> exists i, [/\ l_ckpt (logs (Some m) vs) = Some i, (i < size vs)%N,
   (forall j, (j < size vs)%N -> as_good m (nth 0 vs i) (nth 0 vs j)) &
   forall j, (i < j < size vs)%N -> better m (nth 0 vs i) (nth 0 vs j)].
Proof.
elim/last_ind: vs => // vs v IH _.
have V : as_good m v v by case: (m) => /=.
rewrite /logs foldl_rcons -/(logs (Some m) vs) {1}/log_stuff logs_vals best_le size_rcons.
case: allP => H.
  exists (size vs); split=> // [j|j /andP[h1]]; last by rewrite ltnS leqNgt h1.
  rewrite ltnS leq_eqVlt nth_rcons ltnn eqxx nth_rcons => /orP[/eqP->|h]; first by rewrite ltnn eqxx.
  by rewrite h; apply: H; rewrite mem_nth.
case: vs IH H => [_ []//|u0 vs0]; set vs := u0 :: vs0 => IH H.
have [//|i [E Hi G B]] := IH; exists i; split=> //; first by rewrite ltnS ltnW.
  move=> j; rewrite ltnS leq_eqVlt !nth_rcons Hi => /orP[/eqP->|h]; last by rewrite h; exact: G.
  rewrite ltnn eqxx as_goodNP; apply/negP => K; apply: H => u /(nthP 0)[k Hk <-].
  by apply: as_good_trans (G k Hk); exact: betterW.
move=> j /andP[h1]; rewrite ltnS leq_eqVlt !nth_rcons Hi => /orP[/eqP E'|h]; last by rewrite h; apply: B; rewrite h1.
rewrite E' ltnn eqxx; apply/negPn/negP; rewrite -as_goodNP => K; apply: H => u /(nthP 0)[k Hk <-].
by apply: as_good_trans (G k Hk).
Qed.
Theorem ckpt_last (vs : seq F) : vs <> [::] -> l_ckpt (logs None vs) = Some (size vs).-1.
Proof. by elim/last_ind: vs => // vs v _ _; rewrite /logs foldl_rcons /= -/(logs None vs) logs_vals size_rcons. Qed.
End Ckpt.

(** ** chunks *)
Section Chunks.
Variable T : Type.
Theorem chunk_err (zs : seq (seq T)) len c draw :
  [/\ c = 0%N -> chunk_training_data zs len c draw = Err ZeroDivisionError,
      (len < c)%N -> chunk_training_data zs len c draw = Err ValueError &
      (0 < c <= len)%N -> ~~ (len %/ c %| len)%N -> chunk_training_data zs len c draw = Err ValueError].
Proof.
rewrite /chunk_training_data; split=> [->//|H|/andP[c0 H] D].
  by rewrite (gtn_eqF (leq_ltn_trans _ H)) // divn_small.
by rewrite (gtn_eqF c0) (gtn_eqF (_ : 0 < len %/ c)%N) ?divn_gt0 // /dvdn D.
Qed.
Theorem chunk_thm (zs : seq (seq T)) len c draw : (0 < c <= len)%N -> (len %/ c %| len)%N ->
  (forall i, (i < size zs)%N -> size (nth [::] zs i) = len) -> (forall i, (i < size zs)%N -> (nth 0%N draw i < len %/ c)%N) ->
  let L := (len %/ (len %/ c))%N in
  exists2 cs, chunk_training_data zs len c draw = Ok cs &
   size cs = size zs /\ forall i, (i < size zs)%N ->
     [/\ nth [::] cs i = take L (drop (nth 0%N draw i * L) (nth [::] zs i)), size (nth [::] cs i) = L &
         (nth 0%N draw i * L + L <= len)%N].
Proof.
move=> /andP[c0 H] D Z R L; have n0 : (0 < len %/ c)%N by rewrite divn_gt0.
rewrite /chunk_training_data (gtn_eqF c0) (gtn_eqF n0) (eqP D) /=; eexists; first by [].
rewrite size_mkseq; split=> // i Hi; rewrite nth_mkseq // (nth_map [::]) // /np_split nth_mkseq ?R // Z //.
have B : (nth 0%N draw i * L + L <= len)%N.
  have E : (len %/ c * L)%N = len by rewrite mulnC divnK.
  by rewrite -[X in (_ <= X)%N]E addnC -mulSn leq_mul2r R // orbT.
by split=> //; rewrite size_take size_drop Z //; case: ltnP => //; move: B; rewrite -/L; lia.
Qed.
Theorem chunk_length len c : (0 < c <= len)%N -> (len %/ c %| len)%N ->
  (c <= len %/ (len %/ c))%N /\ ((len %/ (len %/ c) == c) = (c %| len))%N.
Proof.
move=> /andP[c0 H] D; have n0 : (0 < len %/ c)%N by rewrite divn_gt0.
have E : (len %/ (len %/ c) * (len %/ c))%N = len by rewrite divnK.
split; first by rewrite leq_divRL // mulnC leq_trunc_div.
apply/eqP/idP => [K|K]; first by rewrite -E K dvdn_mulr.
by apply/eqP; rewrite -(eqn_pmul2r n0) E mulnC divnK.
Qed.
(** generate_trajectory_data *)
Lemma gen_loopP fuel (flow : nat -> nat -> seq (seq T)) n bs n_gen k : (0 < bs)%N -> (n <= n_gen + fuel * bs)%N ->
  gen_loop fuel n_gen n bs k flow = Some (flatten (mkseq (fun j => flow (k + j)%N bs) ((n - n_gen + bs.-1) %/ bs))).
Proof.
move=> b0; elim: fuel n_gen k => [|f IH] g k H /=; case: ltnP => h.
- by move: H; rewrite mul0n addn0 leqNgt h.
- by rewrite (eqP h) add0n divn_small ?prednK.
- rewrite IH /=; last by move: H; rewrite mulSn addnA.
  have -> : ((n - g + bs.-1) %/ bs = ((n - (g + bs)) + bs.-1) %/ bs + 1)%N.
    case: (leqP n (g + bs)) => h2; last first.
      have -> : (n - g + bs.-1 = (n - (g + bs) + bs.-1) + bs)%N by lia.
      by rewrite divnDr ?dvdnn // divnn b0.
    have -> : (n - (g + bs))%N = 0%N by lia.
    rewrite [X in _ = (X + _)%N]divn_small ?prednK // add0n.
    have -> : (n - g + bs.-1 = (n - g).-1 + bs)%N by lia.
    by rewrite divnDr ?dvdnn // divnn b0 divn_small //; lia.
  rewrite addn1 /mkseq /= addn0; congr (Some (_ ++ flatten _)).
  by rewrite (iotaDl 1 0) -map_comp; apply: eq_map => j /=; rewrite addSnnS.
- by rewrite (eqP h) add0n divn_small ?prednK.
Qed.
Theorem generate_thm n bs0 (flow : nat -> nat -> seq (seq T)) : (0 < n)%N -> (0 < bs0)%N ->
  (forall k bs, size (flow k bs) = bs) ->
  let bs := minn bs0 n in
  exists2 l, forall fuel, (n <= fuel)%N -> generate_trajectory_data fuel n bs0 flow = Some (Ok l) &
    size l = n /\ l = take n (flatten (mkseq (fun j => flow j bs) ((n + bs.-1) %/ bs))).
Proof.
move=> n0 b0 HF bs; have bs_gt0 : (0 < bs)%N by rewrite leq_min b0.
eexists; first move=> fuel Hf.
  by rewrite /generate_trajectory_data (gtn_eqF n0) gen_loopP //= ?add0n; last by apply: leq_trans Hf _; rewrite leq_pmulr.
rewrite subn0; split=> //; rewrite size_take size_flatten.
have -> : seq.shape (mkseq (fun j => flow (0 + j)%N (minn bs0 n)) ((n + (minn bs0 n).-1) %/ minn bs0 n)) = nseq ((n + bs.-1) %/ bs) bs.
  apply: (@eq_from_nth _ 0%N); rewrite size_map size_mkseq ?size_nseq // => i Hi.
  by rewrite (nth_map [::]) ?size_mkseq // nth_mkseq // HF nth_nseq Hi.
rewrite sumn_nseq; case: ltnP => // K; apply/eqP; rewrite eqn_leq K /=.
have := divn_eq (n + bs.-1) bs; have := ltn_pmod (n + bs.-1) bs_gt0.
by rewrite [(bs * _)%N]mulnC; move: (_ %/ _)%N ((_ %% _)%N) => q r; move: (q * bs)%N; lia.
Qed.
Theorem generate_zero fuel bs0 (flow : nat -> nat -> seq (seq T)) : generate_trajectory_data fuel 0 bs0 flow = Some (Err ValueError).
Proof. by []. Qed.
Theorem generate_stuck fuel n (flow : nat -> nat -> seq (seq T)) : (0 < n)%N -> generate_trajectory_data fuel n 0 flow = None.
Proof.
move=> n0; rewrite /generate_trajectory_data (gtn_eqF n0) min0n.
suff H k : gen_loop fuel 0 n 0 k flow = None by rewrite H.
by elim: fuel k => [|f IH] k /=; rewrite n0 // addn0 IH.
Qed.
End Chunks.

(** ** sums of squares *)
Section Ssq.
Variable F : realFieldType.
Definition ssq (l : seq F) : F := \sum_(x <- l) x ^+ 2.
Lemma foldr_ssq l : foldr +%R 0 [seq a ^+ 2 | a <- l] = ssq l.
Proof. by rewrite /ssq; elim: l => [|x l IH]; rewrite ?big_nil ?big_cons //= IH. Qed.
Lemma ssq_ge0 l : 0 <= ssq l. Proof. by apply: sumr_ge0 => x _; exact: sqr_ge0. Qed.
Lemma ssq_eq0 l : ssq l = 0 <-> l = nseq (size l) 0.
Proof.
split=> [|->]; last by rewrite /ssq big1_seq // => x /andP[_ /nseqP[-> _]]; rewrite expr0n.
elim: l => // x l IH; rewrite /ssq big_cons -/(ssq l) => /eqP.
by rewrite paddr_eq0 ?sqr_ge0 ?ssq_ge0 // sqrf_eq0 => /andP[/eqP-> /eqP/IH {1}->].
Qed.
Lemma size_vsub (a b : seq F) : size a = size b -> size (vsub a b) = size a.
Proof. by move=> E; rewrite size_map size_zip E minnn. Qed.
Lemma vsub_eq0 (a b : seq F) : size a = size b -> (vsub a b = nseq (size a) 0 <-> a = b).
Proof.
elim: a b => [|x a IH] [|y b] //= [E]; split=> [[/eqP]|[<- <-]]; last by rewrite /vsub /= subrr; congr cons; apply/(IH _ erefl).
by rewrite subr_eq0 => /eqP-> /(IH _ E)->.
Qed.
Lemma ssq_vsub (a b : seq F) : size a = size b -> (ssq (vsub a b) = 0 <-> a = b).
Proof. by move=> E; rewrite ssq_eq0 size_vsub // vsub_eq0. Qed.
Lemma ssq_nth l : ssq l = \sum_(i < size l) (nth 0 l i) ^+ 2.
Proof. by rewrite /ssq (big_nth 0) big_mkord. Qed.
(** the mean squared error *)
Theorem mseE (p y : seq F) : mse p y = ssq (vsub p y) / (size p)%:R.
Proof. by rewrite /mse -foldr_ssq -map_comp. Qed.
Theorem mse_average (p y : seq F) : size p = size y ->
  mse p y = average (fun i => (nth 0 p i - nth 0 y i) ^+ 2) (iota 0 (size p)).
Proof.
move=> E; rewrite /mse /average size_iota; congr (_ / _).
have FE (l : seq F) : foldr +%R 0 l = \sum_(x <- l) x by elim: l => [|x l IH]; rewrite ?big_nil ?big_cons //= IH.
rewrite -[RHS](big_map (fun i => (nth 0 p i - nth 0 y i) ^+ 2) xpredT id) -FE.
congr foldr; apply: (@eq_from_nth _ 0); rewrite !size_map size_zip -E minnn ?size_iota // => i Hi.
by rewrite (nth_map (0, 0)) ?size_zip -?E ?minnn // (nth_map 0%N) ?size_iota // nth_iota // nth_zip.
Qed.
Theorem mse_ge0 (p y : seq F) : 0 <= mse p y.
Proof. by rewrite mseE divr_ge0 ?ssq_ge0 ?ler0n. Qed.
Theorem mse_eq0 (p y : seq F) : size p = size y -> (0 < size p)%N -> (mse p y = 0 <-> p = y).
Proof.
move=> E H; rewrite mseE -ssq_vsub //; split=> [/eqP|->]; last by rewrite mul0r.
by rewrite mulf_eq0 invr_eq0 pnatr_eq0 (gtn_eqF H) orbF => /eqP.
Qed.
(** Cauchy-Schwarz and Minkowski *)
Lemma cauchy n (a b : 'I_n -> F) :
  (\sum_i a i * b i) ^+ 2 <= (\sum_i a i ^+ 2) * (\sum_i b i ^+ 2).
Proof.
set A := \sum_i a i ^+ 2; set B := \sum_i b i ^+ 2; set C := \sum_i a i * b i.
have A0 : 0 <= A by apply: sumr_ge0 => i _; exact: sqr_ge0.
case: (eqVneq A 0) => [EA|nA].
  suff -> : C = 0 by rewrite expr0n EA mul0r.
  apply: big1 => i _; have /eqP := EA; rewrite psumr_eq0; last by move=> j _; exact: sqr_ge0.
  by move=> /allP/(_ i (mem_index_enum _))/=; rewrite sqrf_eq0 => /eqP->; rewrite mul0r.
have : 0 <= \sum_i (A * b i - C * a i) ^+ 2 by apply: sumr_ge0 => i _; exact: sqr_ge0.
have -> : \sum_i (A * b i - C * a i) ^+ 2 = A * (A * B - C ^+ 2).
  transitivity (A ^+ 2 * B - (A * C *+ 2) * C + C ^+ 2 * A); last first.
    rewrite mulrBr mulrnAl -mulrA -expr2 mulrA -expr2 [C ^+ 2 * A]mulrC mulr2n opprD -!addrA; congr (_ + _).
    by rewrite addNr addr0.
  rewrite /A /B /C; rewrite !mulr_sumr -sumrB -big_split /=; apply: eq_bigr => i _.
  rewrite -/A -/C sqrrB !exprMn; congr (_ - _ + _).
  by rewrite -mulr_sumr -/C mulrnAl; congr (_ *+ 2); rewrite mulrACA [b i * a i]mulrC.
by rewrite pmulr_rge0 ?subr_ge0 // lt_def nA.
Qed.
End Ssq.
Section Rms.
Variable F : rcfType.
Local Notation rms := (root_mean_square (@Num.sqrt F)).
Lemma rmsE l : rms l = Num.sqrt (ssq l / (size l)%:R). Proof. by rewrite /root_mean_square foldr_ssq. Qed.
Lemma rms_ge0 l : 0 <= rms l. Proof. by rewrite rmsE sqrtr_ge0. Qed.
Lemma rms_eq0 l : (rms l = 0) <-> l = nseq (size l) 0.
Proof.
rewrite -ssq_eq0 rmsE; split=> [/eqP|->]; last by rewrite mul0r sqrtr0.
rewrite sqrtr_eq0 => H; case: l H => [|x l] H; first by rewrite /ssq big_nil.
apply/eqP; rewrite eq_le ssq_ge0 andbT.
by move: H; rewrite pmulr_lle0 // invr_gt0 ltr0n.
Qed.
Lemma rms_vsub (a b : seq F) : size a = size b -> (rms (vsub a b) = 0 <-> a = b).
Proof. by move=> E; rewrite rms_eq0 size_vsub // vsub_eq0. Qed.
Lemma ssq_vsubC (a b : seq F) : ssq (vsub a b) = ssq (vsub b a).
Proof.
elim: a b => [|x a IH] [|y b] //; rewrite /ssq !big_cons -!/(ssq _).
by rewrite (IH b) -[y - x]opprB sqrrN.
Qed.
Lemma rms_vsubC (a b : seq F) : size a = size b -> rms (vsub a b) = rms (vsub b a).
Proof. by move=> E; rewrite !rmsE ssq_vsubC !size_vsub // E. Qed.
Lemma minkowski (a b : seq F) : size a = size b -> Num.sqrt (ssq (vsub a b)) <= Num.sqrt (ssq a) + Num.sqrt (ssq b).
Proof.
move=> E; rewrite -(@ler_pexpn2r _ 2) ?nnegrE ?addr_ge0 ?sqrtr_ge0 //.
rewrite sqrrD !sqr_sqrtr ?ssq_ge0 //.
rewrite !ssq_nth size_vsub // -E.
have -> : \sum_(i < size a) nth 0 (vsub a b) i ^+ 2 =
    \sum_(i < size a) nth 0 a i ^+ 2 - (\sum_(i < size a) nth 0 a i * nth 0 b i) *+ 2 + \sum_(i < size a) nth 0 b i ^+ 2.
  rewrite -sumrMnl -sumrB -big_split /=; apply: eq_bigr => i _.
  by rewrite (nth_map (0, 0)) ?size_zip -?E ?minnn // nth_zip //= sqrrB.
rewrite ler_add2r ler_add2l -mulNrn ler_muln2r /=.
set A := \sum_(i < _) nth 0 a i ^+ 2; set B := \sum_(i < _) nth 0 b i ^+ 2; set C := \sum_(i < _) _.
rewrite -sqrtrM; last by apply: sumr_ge0 => i _; exact: sqr_ge0.
apply: le_trans (ler_norm _) _; rewrite normrN -sqrtr_sqr ler_wsqrtr //; exact: cauchy.
Qed.
Lemma rms_triangle (a b : seq F) : size a = size b -> rms (vsub a b) <= rms a + rms b.
Proof.
move=> E; rewrite !rmsE size_vsub // -E !sqrtrM ?ssq_ge0 // -mulrDl ler_wpmul2r ?sqrtr_ge0 //; exact: minkowski.
Qed.
(** ** rel_err *)
Local Notation rel_err := (rel_err (@Num.sqrt F)).
Theorem rel_err_thm (a b : seq F) : size a = size b ->
  [/\ rel_err a b = rel_err b a,
      rel_err a b = None <-> a = nseq (size a) 0 /\ b = nseq (size b) 0 &
      forall e, rel_err a b = Some e -> [/\ 0 <= e, e <= 1 & e = 0 <-> a = b]].
Proof.
move=> E; rewrite /Trainer.rel_err /fdiv [rms b + _]addrC rms_vsubC //; split=> //.
  case: eqP => H; split=> //; last by move=> [/rms_eq0 h1 /rms_eq0 h2]; case: H; rewrite h1 h2 addr0.
  by move=> _; move/eqP: H; rewrite paddr_eq0 ?rms_ge0 // => /andP[/eqP h1 /eqP h2]; split; apply/rms_eq0.
case: eqP => // /eqP H e [<-].
have D : 0 < rms a + rms b by rewrite lt_def H addr_ge0 ?rms_ge0.
split; first by rewrite divr_ge0 ?rms_ge0 // ltW.
  by rewrite ler_pdivr_mulr // mul1r rms_vsubC ?E // rms_triangle.
rewrite rms_vsubC ?E // -rms_vsub //; split=> [/eqP|->]; last by rewrite mul0r.
by rewrite mulf_eq0 invr_eq0 (negbTE H) orbF => /eqP.
Qed.
(** ** log_rollout_error *)
Variables (log : F -> F) (tiny : F).
Hypothesis log_mono : forall x y, 0 < x -> x <= y -> log x <= log y.
Hypothesis tiny0 : 0 < tiny.
Hypothesis tiny1 : tiny <= 1.
Local Notation lre := (log_rollout_error (@Num.sqrt F) log tiny).
Lemma mean_bounds (l : seq F) (lo hi : F) : (0 < size l)%N -> all (fun x => lo <= x <= hi) l ->
  lo <= foldr +%R 0 l / (size l)%:R <= hi.
Proof.
move=> s0 H; rewrite ler_pdivl_mulr ?ltr0n // ler_pdivr_mulr ?ltr0n //.
elim: l H {s0} => [|x l IH] /=; first by rewrite !mulr0 lexx.
move=> /andP[/andP[h1 h2] /IH/andP[h3 h4]]; rewrite -addn1 natrD !mulrDr !mulr1 ![_ + lo]addrC ![_ + hi]addrC.
by rewrite !ler_add.
Qed.
Theorem rollout_thm n (pred gt : seq (seq F)) : size pred = size gt -> (0 < size pred)%N ->
  (forall i, (i < size pred)%N -> size (nth [::] pred i) = n /\ size (nth [::] gt i) = n) ->
  [/\ lre pred gt = None <-> exists2 i, (i < size pred)%N & nth [::] pred i = nseq n 0 /\ nth [::] gt i = nseq n 0,
      forall e, lre pred gt = Some e -> log tiny <= e <= log 1 &
      forall e, lre pred gt = Some e -> pred = gt -> e = log tiny].
Proof.
move=> E s0 Hn; rewrite /log_rollout_error.
set errs := [seq Trainer.rel_err _ _ _ | _ <- _].
have SE : size errs = size pred by rewrite size_map size_zip E minnn.
have NE i : (i < size pred)%N -> nth None errs i = rel_err (nth [::] pred i) (nth [::] gt i).
  by move=> Hi; rewrite (nth_map ([::], [::])) ?size_zip -?E ?minnn // nth_zip.
have KE i (Hi : (i < size pred)%N) : size (nth [::] pred i) = size (nth [::] gt i) by have [-> ->] := Hn i Hi.
split.
- case: ifP => A; split=> //.
    move=> [i Hi [h1 h2]]; have /allP/(_ (nth None errs i)) := A; rewrite mem_nth ?SE // NE // => /(_ isT).
    have [_ [_ K] _] := rel_err_thm (KE i Hi); by rewrite K // h1 h2 size_nseq.
  move=> _; have /negbT/allPn[x /(nthP None)[i Hi <-]] := A; rewrite SE in Hi; rewrite NE // => N.
  exists i => //; have [_ [K _] _] := rel_err_thm (KE i Hi).
  have [s1 s2] := Hn i Hi; move: K; rewrite s1 s2; case: (Trainer.rel_err _ _ _) N => // _; exact.
- move=> e; case: ifP => // A [<-]; apply: mean_bounds; first by rewrite size_map SE.
  apply/allP => x /mapP[o /(nthP None)[i Hi <-] ->]; rewrite SE in Hi; have := allP A (nth None errs i); rewrite mem_nth ?SE // NE // => /(_ isT).
  have [_ _] := rel_err_thm (KE i Hi); case: (Trainer.rel_err _ _ _) => //= r /(_ _ erefl)[h1 h2 _] _.
  by rewrite !log_mono // ?lt_maxr ?tiny0 // ?le_maxr ?lexx ?le_maxl ?tiny1 ?h2.
- move=> e; case: ifP => // A [<-] EP; have t0 := ltW tiny0.
  apply/eqP; rewrite eq_le andbC; apply: mean_bounds; first by rewrite size_map SE.
  apply/allP => x /mapP[o /(nthP None)[i Hi <-] ->]; rewrite SE in Hi; have := allP A (nth None errs i); rewrite mem_nth ?SE // NE // => /(_ isT).
  have [_ _] := rel_err_thm (KE i Hi); case: (Trainer.rel_err _ _ _) => //= r /(_ _ erefl)[_ _ h] _.
  by have -> : r = 0; [apply/h; rewrite EP | rewrite max_l ?lexx].
Qed.
End Rms.
