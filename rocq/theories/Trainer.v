(** * Trainer: experiments/trainer/trainer.py, the losses and metrics of classifier.py and
      model_trainer.py, and the data sets of trajectories of hamiltonian_dynamics.py.  The optimiser, the
      networks, the integrator and the logger are parameters: what is modelled is which batches are used at which
      step, the bookkeeping of epochs, the averaging of metrics, the choice of the checkpoint, and
      the cutting of trajectories into chunks. *)
From mathcomp Require Import all_ssreflect all_algebra.
From Verif Require Import Np LinOp Rep Nn Data.
Set Implicit Arguments.
Unset Strict Implicit.
Unset Printing Implicit Defensive.
Import GRing.Theory.
Local Open Scope ring_scope.

(** ** Trainer.train, train_to, step: trainer.py:51-73 *)
Section Train.
Variable F : fieldType.
Variables B S : Type.
(** self.step(epoch,minibatch), trainer.py:70-73: the new state of model and optimiser *)
Variable upd : F -> B -> S -> S.
(** the minibatches of the k-th time the loader is iterated over; len(loader) is [spe] *)
Variable loader : nat -> seq B.
Variable spe : nat.
(** one call of self.step with the variable step of the loop *)
Record event := Event { ev_step : nat; ev_epoch : F; ev_batch : B }.
(** the attribute epoch, how often the loader has been used, the state of model and optimiser, all
    calls of self.step so far, the arguments of logStuff(step) at the end of train.  The calls of logStuff
    in the loop depend on the logger and the clock and are not recorded. *)
Record trainer := TrainerSt { t_epoch : nat; t_pass : nat; t_state : S; t_events : seq event; t_logs : seq nat }.
(** for i, minibatch in enumerate(self.dataloaders['train']): (i/steps_per_epoch is evaluated only if there
    is a minibatch) *)
Definition epoch_events (e : nat) (l : seq B) : seq event :=
  [seq Event (ib.1 + e * spe)%N (e%:R + ib.1%:R / spe%:R) ib.2 | ib <- zip (iota 0 (size l)) l].
Definition one_epoch (e : nat) (t : trainer) : trainer :=
  let evs := epoch_events e (loader (t_pass t)) in
  TrainerSt e (t_pass t).+1 (foldl (fun s ev => upd (ev_epoch ev) (ev_batch ev) s) (t_state t) evs)
    (t_events t ++ evs) (t_logs t).
(** for self.epoch in range(e, e+n) *)
Fixpoint epochs (n e : nat) (t : trainer) : trainer :=
  if n is n'.+1 then epochs n' e.+1 (one_epoch e t) else t.
(** num_epochs < 0 gives an empty range like 0 *)
Definition train (n : nat) (t : trainer) : trainer :=
  let t' := epochs n (t_epoch t) t in
  let step := last 0%N (map ev_step (drop (size (t_events t)) (t_events t'))) in
  TrainerSt (t_epoch t').+1 (t_pass t') (t_state t') (t_events t') (rcons (t_logs t') step).
Definition train_to (final_epoch : nat) (t : trainer) : res trainer :=
  if (final_epoch < t_epoch t)%N then Err AssertionError else Ok (train (final_epoch - t_epoch t) t).
End Train.

(** ** Trainer.evalAverageMetrics, trainer.py:99-107 *)
Section Eval.
Variable F : fieldType.
Variable B : Type.
(** [bs] is loader.batch_size, None if the loader has no such attribute *)
Definition eval_average (bs : option nat) (batches : seq B) (metric : B -> F) : res F :=
  let mb := if bs is Some k then k else 1%N in
  let tot := foldl (fun (s : nat * F) b => ((s.1 + mb)%N, s.2 + mb%:R * metric b)) (0%N, 0) batches in
  if tot.1 == 0%N then Err KeyError else Ok (tot.2 / tot.1%:R).
End Eval.
(** torch DataLoader(ds,batch_size=bs) without drop_last over data given in the order of the sampler *)
Definition batches_of (T : Type) (bs : nat) (data : seq T) : seq (seq T) :=
  mkseq (fun k => take bs (drop (k * bs) data)) ((size data + bs.-1) %/ bs).
(** islice(loader,0,None,5), model_trainer.py:53,70: an iterator, without batch_size *)
Definition every5 (T : Type) (l : seq T) : seq T :=
  flatten (mkseq (fun k => take 1 (drop (k * 5) l)) ((size l + 4) %/ 5)).
(** jnp.mean of the numbers f(b) over the examples of a minibatch; [None] for the empty one (nan) is left
    out since no loader yields it *)
Definition mean_of (F : fieldType) (T : Type) (f : T -> F) (l : seq T) : F := foldr +%R 0 (map f l) / (size l)%:R.

(** ** the checkpoint kept by logStuff, trainer.py:88-97 *)
Section Ckpt.
Variable F : numDomainType.
(** the column early_stop_metric of the logger so far, and the number of the log whose state is in
    self.ckpt *)
Record logst := LogSt { l_vals : seq F; l_ckpt : option nat }.
(** [maximize] is guess_metric_sign(early_stop_metric); early is None if early_stop_metric is None.
    nan values are not modelled. *)
Definition log_stuff (early : option bool) (st : logst) (v : F) : logst :=
  let vals := rcons (l_vals st) v in
  let now := Some (size (l_vals st)) in
  if early is Some maximize then
    let sign : F := if maximize then 1 else -1 in
    let best := foldl Num.max (sign * head v vals) [seq sign * u | u <- behead vals] in
    LogSt vals (if best <= sign * v then now else l_ckpt st)
  else LogSt vals now.
End Ckpt.

(** ** the losses: Regressor.loss and the metric of Regressor.metrics, classifier.py:32-42 *)
Section Loss.
Variable F : fieldType.
(** jnp.mean((p-y)**2) for arrays of one shape *)
Definition mse (p y : seq F) : F := foldr +%R 0 [seq (ab.1 - ab.2) ^+ 2 | ab <- zip p y] / (size p)%:R.
(** the loss of a model on a minibatch; an array y of another size than the prediction broadcasts or raises:
    TypeError here *)
Definition regressor_loss (model : nat -> seq F -> res (seq F)) (bs : nat) (x y : seq F) : res F :=
  do p <- model bs x;
  if size p == size y then Ok (mse p y) else Err TypeError.
End Loss.
(** jnp.argmax(row) == label, classifier.py:24: the first largest entry *)
Section Acc.
Variable F : numDomainType.
Definition argmax (row : seq F) : nat := find (fun a => all (fun b => b <= a) row) row.
(** jnp.mean(argmax(logits,axis=-1)==labels) for logits of shape (bs,k) *)
Definition correct (k : nat) (logits : seq F) (labels : seq nat) : seq bool :=
  [seq argmax (take k (drop (b * k) logits)) == nth 0%N labels b | b <- iota 0 (size labels)].
End Acc.

(** ** equivariance_err, model_trainer.py:13-31 *)
Section EqErr.
Variable F : fieldType.
Variables (conj sinv : F -> F) (linv : nat -> seq F -> seq F).
Variables (crho : nat -> option gid -> gel F -> res (op F)).
Variables (sqrt abs : F -> F).
Definition root_mean_square (l : seq F) : F := sqrt (foldr +%R 0 [seq a ^+ 2 | a <- l] / (size l)%:R).
(** None is nan: 0/0 *)
Definition fdiv (a b : F) : option F := if b == 0 then None else Some (a / b).
Definition scale_adjusted_rel_err (a b : seq F) (d : nat) (gs : seq (seq F)) : option F :=
  let gdev := flatten [seq [seq abs c | c <- vsub h (eye F d)] | h <- gs] in
  fdiv (root_mean_square (vsub a b))
    (root_mean_square a + root_mean_square b + foldr +%R 0 gdev / (size gdev)%:R).
(** (rho_g@x[...,None])[...,0] for rho_g of shape (bs,n,n), x of shape (bs,n) *)
Definition act_rows (rs : seq (seq F)) (n : nat) (x : seq F) : seq F :=
  flatten [seq matmul n n 1 (nth [::] rs b) (take n (drop (b * n) x)) | b <- iota 0 (size rs)].
(** [gs]: group.samples(x.shape[0]) as (d,d) arrays, [predict] the model without training *)
Definition equivariance_err (repin repout : rep) (predict : nat -> seq F -> res (seq F)) (nin nout d : nat)
    (gs : seq (seq F)) (x : seq F) : res (option F) :=
  let bs := size gs in
  do ring <- mapM (fun D => rho_dense conj sinv linv crho repin (GMat (OArr d d D))) gs;
  do routg <- mapM (fun D => rho_dense conj sinv linv crho repout (GMat (OArr d d D))) gs;
  do y1 <- predict bs (act_rows [seq A.2 | A <- ring] nin x);
  do y <- predict bs x;
  let y2 := act_rows [seq A.2 | A <- routg] nout y in
  Ok (scale_adjusted_rel_err y1 y2 d gs).
(** ** rel_err and log_rollout_error, hamiltonian_dynamics.py:249-263 *)
Definition rel_err (a b : seq F) : option F :=
  fdiv (root_mean_square (vsub a b)) (root_mean_square a + root_mean_square b).
End EqErr.
(** pred and gt of shape (bs,T,n): the states in order; clamp(1e-7,e,inf) is max(e,tiny) *)
Section Rollout.
Variable F : realFieldType.
Variables (sqrt log : F -> F) (tiny : F).
Definition log_rollout_error (pred gt : seq (seq F)) : option F :=
  let errs := [seq rel_err sqrt ab.1 ab.2 | ab <- zip pred gt] in
  if all isSome errs then
    let l := [seq log (Num.max tiny (odflt 0 e)) | e <- errs] in
    Some (foldr +%R 0 l / (size l)%:R)
  else None.
End Rollout.

(** ** HamiltonianDataset, hamiltonian_dynamics.py:72-131 *)
Section Chunks.
Variable T : Type.
(** np.split(zs,k,axis=1) for one system: k pieces of equal length *)
Definition np_split (k : nat) (traj : seq T) : seq (seq T) :=
  mkseq (fun c => take (size traj %/ k) (drop (c * (size traj %/ k)) traj)) k.
(** chunk_training_data, 124-131; zs of shape (batch_size,traj_len,..) is a list of trajectories of length
    [len], [draw] are the random integers.  traj_len//0 raises ZeroDivisionError, np.random.randint(0,0,..)
    ValueError, np.split raises ValueError unless n_chunks divides traj_len. *)
Definition chunk_training_data (zs : seq (seq T)) (len chunk_len : nat) (draw : seq nat) : res (seq (seq T)) :=
  if chunk_len == 0%N then Err ZeroDivisionError else
  let n_chunks := (len %/ chunk_len)%N in
  if n_chunks == 0%N then Err ValueError else
  if (len %% n_chunks != 0)%N then Err ValueError else
  let chunked := [seq np_split n_chunks z | z <- zs] in
  Ok (mkseq (fun i => nth [::] (nth [::] chunked i) (nth 0%N draw i)) (size zs)).
(** ds[i] = ((Zs[i,0],T),Zs[i]), 102-109, with T = arange(0,chunk_len*dt,dt) *)
Definition ham_item (F : fieldType) (t0 : T) (dt : F) (chunk_len : nat) (Zs : seq (seq T)) (i : nat) : (T * seq F) * seq T :=
  ((nth t0 (nth [::] Zs i) 0, mkseq (fun k => k%:R * dt) chunk_len), nth [::] Zs i).
(** generate_trajectory_data, 110-122: [flow k bs] are the trajectories of the k-th batch of initial
    conditions; while n_gen < n_systems.  n_systems=0: concatenate of no arrays raises ValueError. *)
Fixpoint gen_loop (fuel n_gen n_systems bs k : nat) (flow : nat -> nat -> seq (seq T)) : option (seq (seq T)) :=
  if (n_gen < n_systems)%N then
    if fuel is fuel'.+1 then omap (cat (flow k bs)) (gen_loop fuel' (n_gen + bs)%N n_systems bs k.+1 flow) else None
  else Some [::].
Definition generate_trajectory_data (fuel n_systems bs0 : nat) (flow : nat -> nat -> seq (seq T)) : option (res (seq (seq T))) :=
  let bs := minn bs0 n_systems in
  if n_systems == 0%N then Some (Err ValueError) else
  omap (fun l => Ok (take n_systems l)) (gen_loop fuel 0 n_systems bs 0 flow).
End Chunks.

(** ** align2ref, hamiltonian_dynamics.py:394-408, used by the animation of the springs *)
Section Align.
Variable F : fieldType.
Variable sqrt : F -> F.
(** A = zeros; A[:,2] += v; A[2,:] -= v *)
Definition align_A (v : seq F) : seq F :=
  mkseq (fun t => ((t %% 3)%N == 2%N)%:R * nth 0 v (t %/ 3) - ((t %/ 3)%N == 2%N)%:R * nth 0 v (t %% 3)) 9.
(** np.eye(3)+A+(A@A)/(1+v[2]); [k] is 1/(1+v[2]) *)
Definition align_M (k : F) (v : seq F) : seq F :=
  vadd (vadd (eye F 3) (align_A v)) (vscale k (matmul 3 3 3 (align_A v) (align_A v))).
(** the row of one reference vector; None for nan: 0/0 if the reference is zero or points along -z *)
Definition align_one (r : seq F) (vecs : seq (seq F)) : option (seq (seq F)) :=
  let norm := sqrt (foldr +%R 0 [seq a ^+ 2 | a <- r]) in
  let v := [seq a / norm | a <- r] in
  if (norm == 0) || (1 + nth 0 v 2%N == 0) then None else
  Some [seq matmul 3 3 1 (align_M (1 + nth 0 v 2%N)^-1 v) [:: nth 0 u 0%N; nth 0 u 1%N; nth 0 u 2%N * norm] | u <- vecs].
(** one entry per reference: nan in one row does not touch the others *)
Definition align2ref (refs vecs : seq (seq F)) : seq (option (seq (seq F))) := [seq align_one r vecs | r <- refs].
End Align.
