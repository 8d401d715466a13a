(** * RolloutThm: batches of rollouts; losses and errors of moved initial conditions. *)
From Coq Require Import Reals Lra.
From mathcomp Require Import all_ssreflect all_algebra.
From mathcomp Require Import zify.
From Verif Require Import Np Spec SpecLemmas LinOp LinOpSpec Rep RepSpec Rstruct Expm RField RNum GrpSpec GroupsSpec GroupsFlag Nn NnSpec Data DataSpec DataAlg DataThm DataHamSpec DataHam Trainer TrainerThm2 TrainerThm3 TrainerFlow FlowSpec FlowThm FlowGlobal Rollout RolloutSpec.
Set Implicit Arguments.
Unset Strict Implicit.
Unset Printing Implicit Defensive.
Import GRing.Theory.
Local Open Scope ring_scope.

(** ** Batches *)
Lemma row_solves a b n F bs c i : field_on n F -> (i < bs)%N ->
  solves_on a b (bs * n) (rowwise n F bs) c -> solves_on a b n F (fun t => row_of n i (c t)).
Proof.
move=> FO Hi S t at_ tb; have [Sz [w]] := S t at_ tb; rewrite /rowwise Sz eqxx.
case E: (mapM _ _) => [ws|] //= [Ew] D; split; first by rewrite size_mkseq.
have R j : (j < bs)%N -> F (row_of n j (c t)) = Ok (nth [::] ws j).
  move=> Hj; have := TrainerThm3.mapM_nth [::] [::] E (i := j); rewrite size_map size_iota (nth_map 0%N) ?size_iota // nth_iota // add0n; exact.
have Sw : size ws = bs by rewrite (TrainerThm3.mapM_size E) size_map size_iota.
have Z j : (j < bs)%N -> size (nth [::] ws j) = n by move=> Hj; apply: FO (R j Hj); rewrite size_mkseq.
exists (nth [::] ws i); first exact: R.
move=> k Hk; have Hik : (i * n + k < bs * n)%N by nia.
have := D _ Hik.
have -> : nth 0 w (i * n + k) = nth 0 (nth [::] ws i) k.
  rewrite -Ew -(nth_rows (f := nth [::] ws) Z Hi Hk); congr (nth 0 (flatten _) _).
  by apply: (@eq_from_nth _ [::]); rewrite ?size_map ?size_iota // => j; rewrite Sw => Hj; rewrite (nth_map 0%N) ?size_iota // nth_iota.
by apply: dl_ext => // s; rewrite nth_row.
Qed.
Lemma row_exact n F bs z0 ts zs i : field_on n F -> (i < bs)%N ->
  exact_rollout (bs * n) (rowwise n F bs) z0 ts zs -> exact_rollout n F (row_of n i z0) ts [seq row_of n i z | z <- zs].
Proof.
move=> FO Hi [a [b [c [S T E0 ->]]]]; exists a, b, (fun t => row_of n i (c t)); split=> //; first exact: row_solves S.
  by rewrite E0.
by rewrite -map_comp.
Qed.
(** two rollouts over the same times *)
Lemma rollouts_related n F P z0 z0' ts zs zs' : flow_preserves n F P -> P z0 z0' ->
  exact_rollout n F z0 ts zs -> exact_rollout n F z0' ts zs' ->
  size zs = size zs' /\ forall k, (k < size zs)%N -> P (nth [::] zs k) (nth [::] zs' k).
Proof.
move=> HP P0 [a [b [c [S T E0 ->]]]] [a' [b' [c' [S' T' E0' ->]]]]; rewrite !size_map; split=> // k Hk.
rewrite !(nth_map 0) //.
have H0 : head 0 ts \in ts by case: (ts) Hk => // t l _; rewrite mem_head.
have Hm : nth 0 ts k \in ts by rewrite mem_nth.
have [h1 h2] := T _ H0; have [h3 h4] := T' _ H0; have [h5 h6] := T _ Hm; have [h7 h8] := T' _ Hm.
apply: (HP (Rmax a a') (Rmin b b') c c' (head 0 ts)).
- by apply: solves_sub S; [exact: Rmax_l | exact: Rmin_l].
- by apply: solves_sub S'; [exact: Rmax_r | exact: Rmin_r].
- exact: Rmax_lub_lt.
- exact: Rmin_glb_lt.
- exact: Rmax_lub_lt.
- exact: Rmin_glb_lt.
by rewrite E0 E0'.
Qed.
Lemma rollouts_equal n F z0 ts zs zs' : uniquely_solvable n F -> exact_rollout n F z0 ts zs -> exact_rollout n F z0 ts zs' -> zs = zs'.
Proof.
move=> U X Y; have [||S H] := @rollouts_related n F eq z0 z0 ts zs zs' _ _ X Y => //.
exact: (@eq_from_nth _ [::]).
Qed.
(** the states of a batch *)
Lemma states_nth n bs (zs : seq (seq RR)) i k : (i < bs)%N -> (k < size zs)%N ->
  nth [::] [seq row_of n b z | b <- iota 0 bs, z <- zs] (i * size zs + k) = row_of n i (nth [::] zs k).
Proof.
move=> Hi Hk; have [|_ H] := @NnBil.flatten_uniform (seq RR) [::] (fun b => [seq row_of n b z | z <- zs]) (iota 0 bs) (size zs).
  by move=> b _; rewrite size_map.
by rewrite H ?size_iota // nth_iota // add0n (nth_map [::]).
Qed.
Lemma states_size n bs (zs : seq (seq RR)) : size [seq row_of n b z | b <- iota 0 bs, z <- zs] = (bs * size zs)%N.
Proof. by rewrite size_allpairs size_iota. Qed.
Lemma states_row n bs (zs : seq (seq RR)) t : (t < bs * size zs)%N ->
  nth [::] [seq row_of n b z | b <- iota 0 bs, z <- zs] t = row_of n (t %/ size zs) (nth [::] zs (t %% size zs)).
Proof.
move=> Ht; have S0 : (0 < size zs)%N by case: (size zs) Ht => //; rewrite muln0.
by rewrite [in LHS](divn_eq t (size zs)) states_nth // ?ltn_mod // ltn_divLR.
Qed.
Theorem vmap_thm odeint n F bs z0 ts P Q : size z0 = (bs * n)%N -> field_on n F -> uniquely_solvable n F ->
  exact n F odeint -> exact (bs * n) (rowwise n F bs) odeint ->
  b_ode_flow odeint n F bs z0 ts = Ok P -> (forall b, (b < bs)%N -> odeint F (row_of n b z0) ts = Ok (Q b)) ->
  P = flatten [seq Q b | b <- iota 0 bs].
Proof.
move=> Sz FO U X XB; rewrite /b_ode_flow; case E: (odeint _ _ _) => [zs|] //= [<-] HQ; congr flatten.
apply/eq_in_map => b; rewrite mem_iota add0n => /= Hb.
by apply: (rollouts_equal U) (X _ _ _ _ (HQ b Hb)); rewrite ?size_mkseq //; exact: row_exact FO Hb (XB _ _ _ Sz E).
Qed.

(** ** The losses *)
Lemma mse_sum (p y : seq RR) : size p = size y -> mse (F := R_fieldType) p y =
  (\sum_(0 <= i < size p) (nth 0 p i - nth 0 y i) ^+ 2) * ((size p)%:R : R_fieldType)^-1.
Proof. by move=> S; rewrite (mse_average (F := R_realFieldType) S) /TrainerSpec.average size_iota /index_iota subn0. Qed.
Lemma orth_sq n A (v w : nat -> RR) : orthm n A -> (forall i, (i < n)%N -> w i = \sum_(0 <= j < n) fe A i j * v j) ->
  \sum_(0 <= i < n) w i ^+ 2 = \sum_(0 <= i < n) v i ^+ 2.
Proof.
move=> [a1 a2 _ [_ _ H]] E.
have O j k : (j < n)%N -> (k < n)%N -> \sum_(0 <= i < n) fe A i j * fe A i k = (j == k)%:R.
  by move=> Hj Hk; have := H j k; rewrite /= a1 a2 => <-.
rewrite (eq_sum (g := fun i => \sum_(0 <= j < n) \sum_(0 <= k < n) v j * v k * (fe A i j * fe A i k))); last first.
  move=> i Hi; rewrite E // expr2 mulr_suml; apply: eq_sum => j Hj; rewrite mulr_sumr; apply: eq_sum => k Hk.
  by rewrite mulrACA mulrC.
rewrite exchange_big_nat /=; apply: eq_sum => j Hj; rewrite exchange_big_nat /= (sum_only (i := j)) //.
  by rewrite -mulr_sumr O // eqxx mulr1 expr2.
by move=> k Hk ne; rewrite -mulr_sumr O // eq_sym (negbTE ne) mulr0.
Qed.
Section Acts.
Variables (sinv : RR -> RR) (linv : nat -> seq RR -> seq RR).
Variables (crho : nat -> option gid -> gel RR -> res (op RR)).
Variables (gdim : gid -> nat) (csize : nat -> gid -> nat).
Local Notation sz := (rsize gdim csize).
Local Notation acts_rows := (acts_rows idR sinv linv crho gdim csize).
Local Notation rho_dense := (rho_dense idR sinv linv crho).
Variables (r : rep) (Ms : nat -> gel RR) (bs : nat).
Local Notation n := (sz r).
Hypothesis HO : forall b D, (b < bs)%N -> rho_dense r (Ms b) = Ok (n, n, D) -> orthm n (unflat n n D).
Lemma acts_sq N Ks (X X' Y Y' : seq RR) t : (forall t, (t < N)%N -> exists2 b, (b < bs)%N & Ks t = Ms b) ->
  acts_rows r Ks N X X' -> acts_rows r Ks N Y Y' -> (t < N)%N ->
  \sum_(0 <= i < n) (nth 0 X' (t * n + i) - nth 0 Y' (t * n + i)%N) ^+ 2 =
  \sum_(0 <= i < n) (nth 0 X (t * n + i) - nth 0 Y (t * n + i)%N) ^+ 2.
Proof.
move=> HK [_ _ H1] [_ _ H2] Ht; have [b Hb E] := HK t Ht; have [D ED HD] := H1 t Ht.
have [D' ED' HD'] := H2 t Ht; move: ED'; rewrite ED => -[ED']; rewrite -{D'}ED' in HD'.
apply: (orth_sq (HO Hb _)); first by rewrite -E; exact: ED.
by move=> i Hi; rewrite HD // HD' // -sumrB; apply: eq_sum => j Hj; rewrite mulrBr.
Qed.
Lemma mse_acts N Ks (X X' Y Y' : seq RR) : (forall t, (t < N)%N -> exists2 b, (b < bs)%N & Ks t = Ms b) ->
  acts_rows r Ks N X X' -> acts_rows r Ks N Y Y' -> mse (F := R_fieldType) X' Y' = mse (F := R_fieldType) X Y.
Proof.
move=> HK A1 A2; have [s1 s1' _] := A1; have [s2 s2' _] := A2.
rewrite !mse_sum ?s1' ?s2' ?s1 ?s2 //; congr (_ * _); rewrite !sum_mul; apply: eq_sum => t Ht.
exact: (acts_sq HK A1 A2 Ht).
Qed.
Lemma acts_states (p p' : seq (seq RR)) Ks : size p = size p' ->
  (forall t, (t < size p)%N -> acts_rows r (fun=> Ks t) 1 (nth [::] p t) (nth [::] p' t)) ->
  acts_rows r Ks (size p) (flatten p) (flatten p').
Proof.
move=> S H.
have Z t : (t < size p)%N -> size (nth [::] p t) = n by case/H => + _ _; rewrite mul1n.
have Z' t : (t < size p)%N -> size (nth [::] p' t) = n by case/H => _ + _; rewrite mul1n.
have E (q : seq (seq RR)) : flatten q = flatten [seq nth [::] q b | b <- iota 0 (size q)] by rewrite map_nth_iota0 // take_size.
rewrite (E p) (E p') -S; split; [exact: size_rows | exact: size_rows |].
move=> t Ht; have [_ _ /(_ 0%N isT)[D ED HD]] := H t Ht; exists D => // i Hi.
rewrite nth_rows //; have := HD i Hi; rewrite mul0n add0n => ->; apply: eq_sum => j Hj.
by rewrite add0n nth_rows.
Qed.
(** the states of two batches whose initial conditions are moved *)
Lemma batch_acts odeint F z0 z0' ts P P' : field_on n F -> (forall b, (b < bs)%N -> flow_preserves n F (acts_rows r (fun=> Ms b) 1)) ->
  exact (bs * n) (rowwise n F bs) odeint -> acts_rows r Ms bs z0 z0' ->
  b_ode_flow odeint n F bs z0 ts = Ok P -> b_ode_flow odeint n F bs z0' ts = Ok P' ->
  [/\ size P = (bs * size ts)%N, size P' = size P &
   forall t, (t < size P)%N -> acts_rows r (fun=> Ms (t %/ size ts)) 1 (nth [::] P t) (nth [::] P' t)].
Proof.
move=> FO HP X A; rewrite /b_ode_flow; case E: (odeint _ _ _) => [zs|] //= [<-]; case E': (odeint _ _ _) => [zs'|] //= [<-].
have [s1 s2 _] := A; have Ez := X _ _ _ s1 E; have Ez' := X _ _ _ s2 E'.
have [S S'] : size zs = size ts /\ size zs' = size ts by case: Ez => a [b [c [_ _ _ ->]]]; case: Ez' => a' [b' [c' [_ _ _ ->]]]; rewrite !size_map.
rewrite !states_size S S'; split=> // t Ht.
have T0 : (0 < size ts)%N by case: (size ts) Ht => //; rewrite muln0.
have Hb : (t %/ size ts < bs)%N by rewrite ltn_divLR.
rewrite !states_row ?S ?S' //.
have [_ H] := rollouts_related (HP _ Hb) (acts_row A Hb) (row_exact FO Hb Ez) (row_exact FO Hb Ez').
have := H (t %% size ts)%N; rewrite size_map !(nth_map [::]) ?S ?S' ?ltn_mod //; exact.
Qed.
Theorem loss_thm odeint F z0 z0' ts zs zs' l l' : let T := size (nth [::] ts 0) in
  field_on n F -> (forall b, (b < bs)%N -> flow_preserves n F (acts_rows r (fun=> Ms b) 1)) ->
  exact (bs * n) (rowwise n F bs) odeint ->
  acts_rows r Ms bs z0 z0' -> acts_rows r (fun t => Ms (t %/ T)) (bs * T) zs zs' ->
  ode_loss (F := R_fieldType) odeint n F bs z0 ts zs = Ok l -> ode_loss (F := R_fieldType) odeint n F bs z0' ts zs' = Ok l' -> l' = l.
Proof.
move=> T FO HP X A AZ; rewrite /ode_loss; case E: (b_ode_flow _ _ _ _ _ _) => [P|] //=; case: ifP => // _ [<-].
case E': (b_ode_flow _ _ _ _ _ _) => [P'|] //=; case: ifP => // _ [<-].
have [S S' H] := batch_acts FO HP X A E E'.
have AP := acts_states (esym S') H; rewrite S in AP.
apply: (mse_acts _ AP AZ) => t Ht.
have T0 : (0 < T)%N by move: Ht; rewrite -/T; case: (T) => //; rewrite muln0.
by exists (t %/ T)%N => //; rewrite ltn_divLR.
Qed.
(** the relative errors *)
Lemma ssq_sum (l : seq RR) m : size l = m -> ssq (F := R_realFieldType) l = \sum_(0 <= i < m) nth 0 l i ^+ 2.
Proof. by move=> <-; rewrite ssq_nth big_mkord. Qed.
Lemma ssq_acts b (x x' : seq RR) : (b < bs)%N -> acts_rows r (fun=> Ms b) 1 x x' -> ssq (F := R_realFieldType) x' = ssq (F := R_realFieldType) x.
Proof.
move=> Hb [s1 s2 H]; rewrite mul1n in s1 s2; rewrite !(@ssq_sum _ n) //.
have [D ED HD] := H 0%N isT; apply: (orth_sq (HO Hb ED)) => i Hi; have := HD i Hi; rewrite mul0n add0n => ->.
by apply: eq_sum => j Hj; rewrite add0n.
Qed.
Lemma vsub_acts b (x x' y y' : seq RR) : acts_rows r (fun=> Ms b) 1 x x' -> acts_rows r (fun=> Ms b) 1 y y' ->
  acts_rows r (fun=> Ms b) 1 (vsub x y) (vsub x' y').
Proof.
have N (u v : seq RR) m i : size u = m -> size v = m -> (i < m)%N -> nth 0 (vsub u v) i = nth 0 u i - nth 0 v i.
  by move=> e1 e2 Hi; rewrite /vsub (nth_map (0, 0)) ?size_zip ?e1 ?e2 ?minnn // nth_zip ?e1.
move=> [s1 s1' H] [s2 s2' H']; split; rewrite ?size_map ?size_zip ?s1 ?s2 ?s1' ?s2' ?minnn //.
case=> // _; have [D ED HD] := H 0%N isT; have [D' ED' HD'] := H' 0%N isT.
move: ED'; rewrite ED => -[ED']; rewrite -{D'}ED' in HD'; exists D => // i Hi.
rewrite mul1n in s1 s2 s1' s2'; have := HD i Hi; have := HD' i Hi; rewrite mul0n !add0n (N _ _ n) // => -> ->.
by rewrite -sumrB; apply: eq_sum => j Hj; rewrite !add0n (N _ _ n) // mulrBr.
Qed.
Lemma rel_err_acts (sq : RR -> RR) b (x x' y y' : seq RR) : (b < bs)%N ->
  acts_rows r (fun=> Ms b) 1 x x' -> acts_rows r (fun=> Ms b) 1 y y' ->
  rel_err (F := R_fieldType) sq x' y' = rel_err (F := R_fieldType) sq x y.
Proof.
move=> Hb A1 A2; have A3 := vsub_acts A1 A2.
have R u u' : acts_rows r (fun=> Ms b) 1 u u' -> root_mean_square (F := R_fieldType) sq u' = root_mean_square (F := R_fieldType) sq u.
  move=> A; have [s1 s2 _] := A; rewrite /root_mean_square s1 s2; congr (sq (_ * _)).
  by rewrite !(foldr_ssq (F := R_realFieldType)); exact: ssq_acts Hb A.
by rewrite /rel_err (R _ _ A1) (R _ _ A2) (R _ _ A3).
Qed.
Theorem rollout_thm odeint (sq log : RR -> RR) (tiny : RR) F gr z0 z0' ts e e' : let G := hamiltonian_dynamics gr in
  field_on n F -> (forall b, (b < bs)%N -> flow_preserves n F (acts_rows r (fun=> Ms b) 1)) -> exact (bs * n) (rowwise n F bs) odeint ->
  field_on n G -> (forall b, (b < bs)%N -> flow_preserves n G (acts_rows r (fun=> Ms b) 1)) -> exact (bs * n) (rowwise n G bs) odeint ->
  acts_rows r Ms bs z0 z0' ->
  rollout_error_ode (F := R_realFieldType) odeint sq log tiny n F gr bs z0 ts = Ok e ->
  rollout_error_ode (F := R_realFieldType) odeint sq log tiny n F gr bs z0' ts = Ok e' -> e' = e.
Proof.
move=> G FO FP FX GO GP GX A; rewrite /rollout_error_ode.
case E1: (b_ode_flow _ _ _ _ _ _) => [P|] //=; case E2: (b_hamiltonian_flow _ _ _ _ _ _) => [Q|] //= [<-].
case E1': (b_ode_flow _ _ _ _ _ _) => [P'|] //=; case E2': (b_hamiltonian_flow _ _ _ _ _ _) => [Q'|] //= [<-].
have [S1 S1' H1] := batch_acts FO FP FX A E1 E1'; have [S2 S2' H2] := batch_acts GO GP GX A E2 E2'.
rewrite /log_rollout_error.
have -> // : [seq rel_err (F := R_fieldType) sq ab.1 ab.2 | ab <- zip P' Q'] = [seq rel_err (F := R_fieldType) sq ab.1 ab.2 | ab <- zip P Q].
apply: (@eq_from_nth _ None); rewrite !size_map !size_zip S1' S2' S1 S2 ?minnn // => t Ht.
rewrite !(nth_map ([::], [::])) ?size_zip ?S1' ?S2' ?S1 ?S2 ?minnn // !nth_zip ?S1' ?S2' ?S1 ?S2 //=.
have T0 : (0 < size ts)%N by case: (size ts) Ht => //; rewrite muln0.
apply: (@rel_err_acts sq (t %/ size ts)); first by rewrite ltn_divLR.
  by apply: H1; rewrite S1.
by apply: H2; rewrite S2.
Qed.
End Acts.

(** ** The loss of the true dynamics *)
Theorem zero_thm odeint n F bs z0 ts zs Q l : size z0 = (bs * n)%N -> field_on n F -> uniquely_solvable n F -> exact (bs * n) (rowwise n F bs) odeint ->
  (forall b, (b < bs)%N -> exact_rollout n F (row_of n b z0) (nth [::] ts 0) (Q b)) ->
  (0 < bs * size (nth [::] ts 0) * n)%N ->
  ode_loss (F := R_fieldType) odeint n F bs z0 ts zs = Ok l -> (l = 0 <-> zs = flatten (flatten [seq Q b | b <- iota 0 bs])).
Proof.
move=> Sz FO U X HQ S0; rewrite /ode_loss; case E: (b_ode_flow _ _ _ _ _ _) => [P|] //=; case: ifP => // /eqP SP [<-].
have EP : P = flatten [seq Q b | b <- iota 0 bs].
  move: E; rewrite /b_ode_flow; case E: (odeint _ _ _) => [zs0|] //= [<-]; congr flatten.
  apply/eq_in_map => b; rewrite mem_iota add0n => /= Hb.
  by apply: (rollouts_equal U) (HQ b Hb); exact: row_exact FO Hb (X _ _ _ Sz E).
have SZ : (0 < size (flatten P))%N.
  move: E; rewrite /b_ode_flow; case E: (odeint _ _ _) => [zs0|] //= [<-].
  have S : size zs0 = size (nth [::] ts 0) by have [a [b [c [_ _ _ ->]]]] := X _ _ _ Sz E; rewrite size_map.
  set P0 := [seq row_of n b z | b <- iota 0 bs, z <- zs0].
  have -> : flatten P0 = flatten [seq nth [::] P0 b | b <- iota 0 (size P0)] by rewrite map_nth_iota0 // take_size.
  rewrite (size_rows (n := n)) ?states_size ?S // => t Ht; rewrite states_row ?S // size_mkseq //.
have := mse_eq0 (F := R_realFieldType) SP SZ; rewrite EP => H; split=> h; first by symmetry; exact: H.1.
by apply: H.2; rewrite h.
Qed.
