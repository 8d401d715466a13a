(** * PropTrainer: C65 to C72, experiments/trainer. *)
From Coq Require Import Reals.
From mathcomp Require Import all_ssreflect all_algebra.
From Verif Require Import Np Spec LinOp LinOpSpec Rep RepSpec Rstruct Expm GrpSpec GroupsSpec Nn NnSpec Data DataSpec DataHamSpec ExData2.
From Verif Require Import Trainer TrainerSpec TrainerThm TrainerThm2 TrainerThm3 TrainerAlign TrainerFlow ExTrainer.
Set Implicit Arguments.
Unset Strict Implicit.
Unset Printing Implicit Defensive.
Import GRing.Theory Num.Theory.
Local Open Scope ring_scope.

(** C65.  train(n), n > 0: n*spe steps with consecutive numbers from epoch*spe on, the
    minibatches of n runs of the loader in order, the schedule evaluated at step/spe; train(a)
    and train(b) do the same as train(a+b).  upd is any update of model and optimiser. *)
Section C65.
Variables (F : numFieldType) (B S : Type) (upd : F -> B -> S -> S) (loader : nat -> seq B) (spe : nat).
Hypothesis len : forall k, size (loader k) = spe.
Local Notation train := (train upd loader spe).
Local Notation train_to := (train_to upd loader spe).
Theorem C65_train n (t : trainer F B S) : (0 < n)%N -> exists evs,
  [/\ train n t = TrainerSt (t_epoch t + n) (t_pass t + n) (steps_state upd (t_state t) evs) (t_events t ++ evs)
        (rcons (t_logs t) ((t_epoch t + n) * spe).-1),
      map (@ev_step F B) evs = iota (t_epoch t * spe) (n * spe),
      map (@ev_batch F B) evs = flatten (map loader (iota (t_pass t) n)) & numbered spe evs].
Proof. exact: train_thm. Qed.
Theorem C65_compose n m (t : trainer F B S) : (0 < n)%N -> (0 < m)%N ->
  let a := train m (train n t) in let b := train (n + m) t in
  [/\ t_epoch a = t_epoch b, t_pass a = t_pass b, t_state a = t_state b & t_events a = t_events b].
Proof. exact: train_compose. Qed.
Theorem C65_train_to f (t : trainer F B S) :
  ((f < t_epoch t)%N -> train_to f t = Err AssertionError) /\
  ((t_epoch t < f)%N -> exists2 t', train_to f t = Ok t' &
     t_epoch t' = f /\ map (@ev_step F B) (t_events t') =
       map (@ev_step F B) (t_events t) ++ iota (t_epoch t * spe) ((f - t_epoch t) * spe)).
Proof. by have [h1 h2 _] := train_to_thm upd len f t. Qed.
(** train_to(f) does not always leave the epoch at f: at epoch f it makes no step and
    moves the epoch to f+1, so that the same call again raises *)
Theorem C65_train_to_refuted (t : trainer F B S) : exists2 t', train_to (t_epoch t) t = Ok t' &
  [/\ t_state t' = t_state t, t_events t' = t_events t, t_epoch t' = (t_epoch t).+1 & train_to (t_epoch t) t' = Err AssertionError].
Proof. by have [_ _] := train_to_thm upd len (t_epoch t) t; exact. Qed.
End C65.
Print Assumptions C65_train.
Print Assumptions C65_compose.
Print Assumptions C65_train_to.
Print Assumptions C65_train_to_refuted.
Example C65_example : let t := train (fun (e : rat_fieldType) b s => s + b) (fun k => [:: k%:R; 1 : rat]) 2 2 (TrainerSt 1 0 0 [::] [::]) in
  [/\ t_epoch t = 3%N, [seq ev_step e | e <- t_events t] = [:: 2; 3; 4; 5]%N, [seq ev_batch e | e <- t_events t] == [:: 0; 1; 1; 1],
      t_state t == 3%:R & [seq ev_epoch e | e <- t_events t] == [:: 1; 3%:R / 2%:R; 2%:R; 5%:R / 2%:R]].
Proof. by vm_compute. Qed.

(** C66.  evalAverageMetrics: the mean of the metric of the batches, KeyError without
    batches; the mean over the data set if all batches have the same size *)
Theorem C66_mean (F : numFieldType) (B : Type) bs (l : seq B) (metric : B -> F) :
  eval_average bs l metric = if (weight bs == 0)%N || (size l == 0)%N then Err KeyError else Ok (average metric l).
Proof. exact: eval_thm. Qed.
Theorem C66_even (F : numFieldType) (T : Type) (f : T -> F) bs (data : seq T) : (0 < bs)%N -> (0 < size data)%N ->
  (bs %| size data)%N -> eval_average (Some bs) (batches_of bs data) (mean_of f) = Ok (average f data).
Proof. by move=> h1 h2 h3; rewrite average_even // mean_ofE. Qed.
(** otherwise it is the mean over the data set exactly if the last batch has the same mean as the
    others together *)
Theorem C66_uneven (F : numFieldType) (T : Type) (f : T -> F) bs (data : seq T) :
  let full := (size data %/ bs * bs)%N in (0 < size data %/ bs)%N -> (0 < size data %% bs)%N ->
  exists e, eval_average (Some bs) (batches_of bs data) (mean_of f) = Ok e /\
   (e = average f data <-> average f (take full data) = average f (drop full data)).
Proof.
move=> full h1 h2; have [e [E K]] := average_uneven f h1 h2; exists e; split=> //.
by rewrite !mean_ofE in K.
Qed.
(** "getAccuracy (full dataset)" of the docstrings: false with a smaller last batch *)
Theorem C66_average_refuted : exists (bs : nat) (data : seq rat) e,
  [/\ eval_average (Some bs) (batches_of bs data) (mean_of id) = Ok e, e == 1 / 2%:R & average id data == 1 / 3%:R].
Proof. by exists 2%N, [:: 0; 0; 1], (1 / 2%:R); split; [congr Ok; apply/eqP; vm_compute | vm_compute | rewrite /average !big_cons big_nil; vm_compute]. Qed.
Print Assumptions C66_mean.
Print Assumptions C66_even.
Print Assumptions C66_uneven.
Print Assumptions C66_average_refuted.
Example C66_example : batches_of 2 [:: 1; 2; 3; 4; 5]%N = [:: [:: 1; 2]; [:: 3; 4]; [:: 5]]%N /\ every5 (iota 0 12) = [:: 0; 5; 10]%N.
Proof. by []. Qed.

(** C67.  The checkpoint kept by logStuff is the latest of the best ones (of the last one
    without early_stop_metric) *)
Theorem C67_checkpoint (F : realDomainType) maximize (vs : seq F) : vs <> [::] ->
  exists i, [/\ l_ckpt (logs (Some maximize) vs) = Some i, (i < size vs)%N,
     (forall j, (j < size vs)%N -> as_good maximize (nth 0 vs i) (nth 0 vs j)) &
     forall j, (i < j < size vs)%N -> better maximize (nth 0 vs i) (nth 0 vs j)].
Proof. exact: ckpt_thm. Qed.
Theorem C67_last (F : realDomainType) (vs : seq F) : vs <> [::] -> l_ckpt (logs None vs) = Some (size vs).-1.
Proof. exact: ckpt_last. Qed.
Print Assumptions C67_checkpoint.
Print Assumptions C67_last.
Example C67_example : let vs := [:: 1; 3%:Z; 2%:Z; 3%:Z; 1; 2%:Z] in
  l_ckpt (logs (Some true) vs) = Some 3%N /\ l_ckpt (logs (Some false) vs) = Some 4%N.
Proof. by vm_compute. Qed.

(** C68.  HamiltonianDataset.  chunk_training_data raises unless chunk_len divides into the
    trajectories a number of times that divides their length; then it returns contiguous pieces ... *)
Theorem C68_errors (T : Type) (zs : seq (seq T)) len c draw :
  [/\ c = 0%N -> chunk_training_data zs len c draw = Err ZeroDivisionError,
      (len < c)%N -> chunk_training_data zs len c draw = Err ValueError &
      (0 < c <= len)%N -> ~~ (len %/ c %| len)%N -> chunk_training_data zs len c draw = Err ValueError].
Proof. exact: chunk_err. Qed.
Theorem C68_chunks (T : Type) (zs : seq (seq T)) len c draw : (0 < c <= len)%N -> (len %/ c %| len)%N ->
  (forall i, (i < size zs)%N -> size (nth [::] zs i) = len) -> (forall i, (i < size zs)%N -> (nth 0%N draw i < len %/ c)%N) ->
  let L := (len %/ (len %/ c))%N in
  [/\ (c <= L)%N, (L == c) = (c %| len)%N & exists2 cs, chunk_training_data zs len c draw = Ok cs &
     size cs = size zs /\ forall i, (i < size zs)%N ->
     [/\ nth [::] cs i = take L (drop (nth 0%N draw i * L) (nth [::] zs i)), size (nth [::] cs i) = L &
         (nth 0%N draw i * L + L <= len)%N]].
Proof. by move=> h1 h2 h3 h4 L; have [k1 k2] := chunk_length h1 h2; split=> //; exact: chunk_thm. Qed.
(** ... and the target of an item is the solution through its initial condition at its times
    exactly if chunk_len divides the length *)
Theorem C68_item (F : numFieldType) (S : Type) (phi : F -> S -> S) (dt : F) (z0s : seq S) s0 len c draw :
  (forall z, phi 0 z = z) -> (forall s t z, phi (s + t) z = phi s (phi t z)) -> (0 < c <= len)%N -> (len %/ c %| len)%N ->
  (forall i, (i < size z0s)%N -> (nth 0%N draw i < len %/ c)%N) ->
  exists2 cs, chunk_training_data [seq rollout phi dt len z | z <- z0s] len c draw = Ok cs &
   size cs = size z0s /\ forall i, (i < size z0s)%N -> let item := ham_item s0 dt c cs i in
     item.2 = [seq phi t item.1.1 | t <- item.1.2] <-> (c %| len)%N.
Proof. by move=> p0 pD; exact: target_thm. Qed.
(** the docstring (the target has one state for each time) is false for chunk_len = 5 and
    trajectories of length 12: targets of length 6 for 5 times *)
Theorem C68_length_refuted : exists (len c : nat) (zs : seq (seq nat)) (draw : seq nat) cs,
  [/\ all (fun z => size z == len) zs, chunk_training_data zs len c draw = Ok cs & let item := ham_item 0%N (1 : rat) c cs 0 in
      (size item.1.2, size item.2) = (5, 6)%N].
Proof. by exists 12%N, 5%N, [:: iota 0 12], [:: 1]%N, [:: [:: 6; 7; 8; 9; 10; 11]]%N. Qed.
(** generate_trajectory_data: n_systems trajectories *)
Theorem C68_generate (T : Type) n bs0 (flow : nat -> nat -> seq (seq T)) : (0 < n)%N -> (0 < bs0)%N ->
  (forall k bs, size (flow k bs) = bs) ->
  let bs := minn bs0 n in
  exists2 l, forall fuel, (n <= fuel)%N -> generate_trajectory_data fuel n bs0 flow = Some (Ok l) &
    size l = n /\ l = take n (flatten (mkseq (fun j => flow j bs) ((n + bs.-1) %/ bs))).
Proof. exact: generate_thm. Qed.
Theorem C68_generate_bad (T : Type) fuel n bs0 (flow : nat -> nat -> seq (seq T)) :
  generate_trajectory_data fuel 0 bs0 flow = Some (Err ValueError) /\
  ((0 < n)%N -> generate_trajectory_data fuel n 0 flow = None).
Proof. by split; [exact: generate_zero | exact: generate_stuck]. Qed.
Print Assumptions C68_errors.
Print Assumptions C68_chunks.
Print Assumptions C68_item.
Print Assumptions C68_length_refuted.
Print Assumptions C68_generate.
Print Assumptions C68_generate_bad.
Example C68_example :
  chunk_training_data [:: iota 0 10; iota 10 10] 10 5 [:: 1; 0]%N = Ok [:: [:: 5; 6; 7; 8; 9]; [:: 10; 11; 12; 13; 14]]%N /\
  generate_trajectory_data 5 5 2 (fun k bs => nseq bs [:: k]) = Some (Ok [:: [:: 0]; [:: 0]; [:: 1]; [:: 1]; [:: 2]]%N).
Proof. by vm_compute. Qed.
(** the translations of the line *)
Example C68_example_flow : (forall z : rat, 0 + z = z) /\ forall s t z : rat, s + t + z = s + (t + z).
Proof. by split=> *; rewrite ?add0r ?addrA. Qed.

(** C69.  rel_err is symmetric, lies in [0,1], is 0 exactly for equal arrays and nan exactly if
    both are zero; log_rollout_error lies between log(1e-7) and log(1), is log(1e-7) for equal trajectories
    and nan exactly if both are zero at the same time *)
Theorem C69_rel_err (F : rcfType) (a b : seq F) : size a = size b ->
  let rel_err := rel_err (@Num.sqrt F) in
  [/\ rel_err a b = rel_err b a,
      rel_err a b = None <-> a = nseq (size a) 0 /\ b = nseq (size b) 0 &
      forall e, rel_err a b = Some e -> [/\ 0 <= e, e <= 1 & e = 0 <-> a = b]].
Proof. exact: rel_err_thm. Qed.
Theorem C69_rollout (F : rcfType) (log : F -> F) (tiny : F) n (pred gt : seq (seq F)) :
  (forall x y, 0 < x -> x <= y -> log x <= log y) -> 0 < tiny -> tiny <= 1 -> size pred = size gt -> (0 < size pred)%N ->
  (forall i, (i < size pred)%N -> size (nth [::] pred i) = n /\ size (nth [::] gt i) = n) ->
  let lre := log_rollout_error (@Num.sqrt F) log tiny in
  [/\ lre pred gt = None <-> exists2 i, (i < size pred)%N & nth [::] pred i = nseq n 0 /\ nth [::] gt i = nseq n 0,
      forall e, lre pred gt = Some e -> log tiny <= e <= log 1 &
      forall e, lre pred gt = Some e -> pred = gt -> e = log tiny].
Proof. by move=> h0 t0 t1 h1 h2 h3; exact: rollout_thm. Qed.
Print Assumptions C69_rel_err.
Print Assumptions C69_rollout.
Example C69_example (F : rcfType) : rel_err (@Num.sqrt F) [:: 1; 1] [:: 0; 0] = Some 1 /\ rel_err (@Num.sqrt F) [:: 0] [:: 0] = None.
Proof. exact: ex_rel_err. Qed.

(** C70.  The losses and equivariance_err.  The mean squared error is 0 exactly for equal arrays; for
    an equivariant model it does not change if the group acts on the minibatch *)
Theorem C70_mse (F : realFieldType) (p y : seq F) : 0 <= mse p y /\ (size p = size y -> (0 < size p)%N -> (mse p y = 0 <-> p = y)).
Proof. by split; [exact: mse_ge0 | exact: mse_eq0]. Qed.
Theorem C70_mean_square (F : realFieldType) (p y : seq F) : size p = size y ->
  mse p y = average (fun i => (nth 0 p i - nth 0 y i) ^+ 2) (iota 0 (size p)).
Proof. exact: mse_average. Qed.
Theorem C70_loss (F : realFieldType) model (rin rout : seq (seq F)) nin nout x y p :
  (forall b, (b < size rout)%N -> ortho_rows nout (nth [::] rout b)) ->
  model (size rout) x = Ok p -> size p = (size rout * nout)%N -> size y = (size rout * nout)%N ->
  model (size rout) (act_rows rin nin x) = Ok (act_rows rout nout p) ->
  regressor_loss model (size rout) (act_rows rin nin x) (act_rows rout nout y) = regressor_loss model (size rout) x y.
Proof. exact: loss_ortho. Qed.
(** equivariance_err: in [0,1], 0 exactly if the two predictions agree, nan exactly if
    both are 0 and all samples are the identity *)
Theorem C70_equivariance_err (F : rcfType) conj sinv linv crho repin repout predict nin nout d gs x (Ain Aout : seq (seq F)) y1 y :
  let rho := rho_dense conj sinv linv crho in let bs := size gs in
  (forall h, h \in gs -> size h = (d * d)%N) -> size Ain = bs -> size Aout = bs ->
  (forall b, (b < bs)%N -> rho repin (GMat (OArr d d (nth [::] gs b))) = Ok (nin, nin, nth [::] Ain b)) ->
  (forall b, (b < bs)%N -> rho repout (GMat (OArr d d (nth [::] gs b))) = Ok (nout, nout, nth [::] Aout b)) ->
  predict bs (act_rows Ain nin x) = Ok y1 -> predict bs x = Ok y -> size y1 = (bs * nout)%N ->
  let y2 := act_rows Aout nout y in
  exists2 r, equivariance_err conj sinv linv crho (@Num.sqrt F) (fun c => `|c|) repin repout predict nin nout d gs x = Ok r &
   (r = None <-> [/\ y1 = nseq (bs * nout) 0, y2 = nseq (bs * nout) 0 & forall h, h \in gs -> h = eye F d]) /\
   forall e, r = Some e -> [/\ 0 <= e, e <= 1 & e = 0 <-> y1 = y2].
Proof. by move=> rho bs h1 h2 h3 h4 h5 h6 h7 h8 y2; have [r Er []] := eqerr_thm h1 h2 h3 h4 h5 h6 h7 h8; exists r. Qed.
(** so it is 0 or nan for every equivariant model *)
Theorem C70_equivariant (F : rcfType) conj sinv linv crho gdim csize E repin repout predict d gs (x : seq F) :
  let rho := rho_dense conj sinv linv crho in
  let bs := size gs in let nin := rsize gdim csize repin in let nout := rsize gdim csize repout in
  equivariant conj sinv linv crho gdim csize E repin repout predict ->
  (forall h, h \in gs -> size h = (d * d)%N /\ E (GMat (OArr d d h))) ->
  (forall h, h \in gs -> exists D, rho repin (GMat (OArr d d h)) = Ok (nin, nin, D)) ->
  size x = (bs * nin)%N ->
  exists2 r, equivariance_err conj sinv linv crho (@Num.sqrt F) (fun c => `|c|) repin repout predict nin nout d gs x = Ok r &
    r = None \/ r = Some 0.
Proof. exact: eqerr_equivariant. Qed.
(** argmax, used for the accuracy: the first of the largest entries *)
Theorem C70_argmax (F : realDomainType) (row : seq F) : row <> [::] -> let a := argmax row in
  [/\ (a < size row)%N, forall j, (j < size row)%N -> nth 0 row j <= nth 0 row a &
      forall j, (j < a)%N -> nth 0 row j < nth 0 row a].
Proof. exact: argmax_thm. Qed.
Print Assumptions C70_mse.
Print Assumptions C70_mean_square.
Print Assumptions C70_loss.
Print Assumptions C70_equivariance_err.
Print Assumptions C70_equivariant.
Print Assumptions C70_argmax.
(** a quarter turn is orthogonal; the model 2x commutes with it *)
Example C70_example : ortho_rows 2 ([:: 0; -1; 1; 0] : seq rat) /\
  let model bs (x : seq rat) := Ok [seq 2%:R * a | a <- x] in
  let Q := [:: [:: 0; -1; 1; 0]] in let x := [:: 1; 3%:R] in
  [/\ model 1%N (act_rows Q 2 x) = rmap (act_rows Q 2) (model 1%N x), act_rows Q 2 x = [:: - 3%:R; 1] &
      argmax [:: 1; 3%:Z; 2%:Z; 3%:Z] = 1%N].
Proof. exact: ex_quarter. Qed.
Example C70_example_err (F : rcfType) :
  equivariance_err id id (fun _ x => x) (fun _ _ _ => Err KeyError) (@Num.sqrt F) (fun c => `|c|) (RBase None) (RBase None) (fun _ x => Ok x) 1 1 1
    [:: [:: -1]] [:: 1] = Ok (Some 0).
Proof. exact: ex_eqerr. Qed.

(** C71.  align2ref turns and stretches: the vector (0,0,1) is taken to the reference and
    scalar products are those of the vectors stretched along z; nan exactly if the reference is zero or points
    straight down *)
Theorem C71_align (F : rcfType) (r : seq F) vecs : size r = 3%N -> let align := align_one (@Num.sqrt F) in
  (align r vecs = None <-> exists2 t : F, 0 <= t & r = [:: 0; 0; - t]) /\
  forall out, align r vecs = Some out -> [/\ size out = size vecs,
      forall i j, (i < size vecs)%N -> (j < size vecs)%N -> let u := nth [::] vecs i in let v := nth [::] vecs j in
        dot3 (nth [::] out i) (nth [::] out j) = nth 0 u 0%N * nth 0 v 0%N + nth 0 u 1%N * nth 0 v 1%N + dot3 r r * (nth 0 u 2%N * nth 0 v 2%N) &
      forall i, (i < size vecs)%N -> nth [::] vecs i = [:: 0; 0; 1] -> nth [::] out i = r].
Proof. by move=> S; case: (align_thm vecs S). Qed.
(** so a pendulum at rest, with its first mass at (0,0,-1), is not drawn *)
Theorem C71_rest_refuted : forall F : rcfType, exists r : seq F, [/\ size r = 3%N, nth 0 r 2%N != 0 & forall vecs, align_one (@Num.sqrt F) r vecs = None].
Proof.
move=> F; exists [:: 0; 0; -1]; split=> //; first by rewrite /= oppr_eq0 oner_eq0.
by move=> vecs; have [//|[_ K] _] := @align_thm F [:: 0; 0; -1] vecs; apply: K; exists 1; rewrite ?ler01.
Qed.
Print Assumptions C71_align.
Print Assumptions C71_rest_refuted.
Example C71_example : align_M (1 : rat) [:: 1; 0; 0] = [:: 0; 0; 1; 0; 1; 0; -1; 0; 0].
Proof. by apply/eqP; vm_compute. Qed.

(** C72.  Exact solutions of z' = hamiltonian_dynamics(z): symplectic symmetries of the Hamiltonian
    map solutions to solutions; two solutions that agree at one time agree, and so the flow commutes with
    the symmetries *)
Theorem C72_solution m A H gr c : let n := (2 * m)%N in fr A = n -> fc A = n -> isometry (sympl RR m) A -> unchanged n A H ->
  (forall t, gradient_at n H (c t) (gr (c t))) ->
  (forall t, gradient_at n H (apply_mat n A (c t)) (gr (apply_mat n A (c t)))) ->
  solves n (hamiltonian_dynamics gr) c -> solves n (hamiltonian_dynamics gr) (fun t => apply_mat n A (c t)).
Proof. by move=> n h1 h2 h3 h4; exact: (solution_moved h1 h2 h3 h4). Qed.
Theorem C72_unique n F L (D : seq RR -> Prop) c1 c2 :
  (forall z z' w w', D z -> D z' -> F z = Ok w -> F z' = Ok w' -> Rle (dist2 n w w') (Rmult L (dist2 n z z'))) ->
  solves n F c1 -> solves n F c2 -> (forall t, D (c1 t)) -> (forall t, D (c2 t)) -> c1 R0 = c2 R0 -> forall t, c1 t = c2 t.
Proof. exact: solutions_unique. Qed.
(** on a set D of states on which the gradient is Lipschitz and that flow and symmetry preserve *)
Theorem C72_flow m A H gr L (D : seq RR -> Prop) phi z t : let n := (2 * m)%N in
  fr A = n -> fc A = n -> isometry (sympl RR m) A -> unchanged n A H ->
  (forall z, D z -> size z = n /\ gradient_at n H z (gr z)) ->
  (forall z z', D z -> D z' -> Rle (dist2 n (gr z) (gr z')) (Rmult L (dist2 n z z'))) ->
  (forall z, D z -> D (apply_mat n A z)) -> (forall z, D z -> phi R0 z = z) ->
  (forall z, D z -> solves n (hamiltonian_dynamics gr) (fun t => phi t z)) -> (forall z t, D z -> D (phi t z)) ->
  D z -> phi t (apply_mat n A z) = apply_mat n A (phi t z).
Proof. by move=> n h1 h2 h3 h4 h5 h6 h7 h8 h9 h10; exact: (flow_equivariant h1 h2 h3 h4 h5 h6 h7 h8 h9 h10). Qed.
Print Assumptions C72_solution.
Print Assumptions C72_unique.
Print Assumptions C72_flow.
(** the harmonic oscillator, its flow, and the quarter turn J of phase space *)
Example C72_example : let D (z : seq RR) := size z = 2%N in
  [/\ fr quarter = 2%N /\ fc quarter = 2%N, isometry (sympl RR 1) quarter /\ unchanged 2 quarter (half_norm 2),
      (forall z, D z -> size z = 2%N /\ gradient_at 2 (half_norm 2) z (id z)) /\
      (forall z z', D z -> D z' -> Rle (dist2 2 z z') (Rmult R1 (dist2 2 z z'))),
      (forall z, D z -> D (apply_mat 2 quarter z)) /\ (forall z, D z -> turn R0 z = z) &
      (forall z, D z -> solves 2 (hamiltonian_dynamics id) (fun t => turn t z)) /\ (forall z t, D z -> D (turn t z))].
Proof. exact: ex_oscillator. Qed.
