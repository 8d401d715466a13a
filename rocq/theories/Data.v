(** * Data: emlp/datasets.py, Standardize, equivariance_error and the Hamiltonian system of
    the experiments.

    An array of shape (bs,n) is its flat row-major data.  Random inputs (np.random.randn,
    G.samples) are arguments.  sqrt, sin and division are parameters, so that the
    functions run over any ring; a division by zero, which gives nan or inf in numpy, is
    for [div] to decide.  float32 rounding is not modelled. *)
From mathcomp Require Import all_ssreflect all_algebra.
From Verif Require Import Np LinOp Rep RepExpr Nn.
Set Implicit Arguments.
Unset Strict Implicit.
Unset Printing Implicit Defensive.
Import GRing.Theory.
Local Open Scope ring_scope.

Section Rows.
Variable R : comRingType.
(** X[b] for X of shape (-1,n) *)
Definition row_of (n b : nat) (X : seq R) : seq R := mkseq (fun i => nth 0 X (b * n + i)%N) n.
(** a computation done on the last axis of an array of shape (bs,n) *)
Definition rowwise (n : nat) (f : seq R -> res (seq R)) (bs : nat) (X : seq R) : res (seq R) :=
  if size X == (bs * n)%N then rmap flatten (mapM f [seq row_of n b X | b <- iota 0 bs]) else Err TypeError.
(** (v1*v2).sum(-1) for vectors of length d starting at i and j *)
Definition dot (d : nat) (x : seq R) (i : nat) (y : seq R) (j : nat) : R :=
  rsum d (fun a => nth 0 x (i + a)%N * nth 0 y (j + a)%N).
End Rows.

(** ** Inertia, datasets.py:11-45 *)
Section Inertia.
Variable R : comRingType.
(** lines 19-23, one row: masses x[:k], positions x[k:].reshape(k,3), then
    (mi*(r2*I-ri[:,:,None]*ri[:,None,:])).sum(1).reshape(9).  (The masses have been made positive in
    X itself before, so that the target is this function of the row.) *)
Definition inertia_row (k : nat) (x : seq R) : res (seq R) :=
  Ok (mkseq (fun t => rsum k (fun i =>
        nth 0 x i * (dot 3 x (k + i * 3) x (k + i * 3) * ((t %/ 3 == t %% 3)%N)%:R
                     - nth 0 x (k + i * 3 + t %/ 3)%N * nth 0 x (k + i * 3 + t %% 3)%N))) 9).
Definition inertia (k : nat) : nat -> seq R -> res (seq R) := rowwise (k + k * 3) (inertia_row k).
End Inertia.
(** self.rep_in=k*Scalar+k*Vector, self.rep_out=T(2), lines 24-25; T(2)=V**2*V.T**0 *)
Definition inertia_in (k : nat) : expr := EAdd (EMul (EInt k) EScalar) (EMul (EInt k) EV).
Definition T_expr (p q : nat) : expr := EMul (EPow EV p) (EPow (ET EV) q).

(** ** O5Synthetic, datasets.py:47-72 *)
Section O5.
Variable R : comRingType.
Variables (sqrt sin : R -> R) (div : R -> R -> res R) (half : R).
(** line 56, one row: sin(|r1|)-.5*|r2|**3+(r1*r2).sum(-1)/(|r1|*|r2|) *)
Definition o5_row (x : seq R) : res (seq R) :=
  let n1 := sqrt (dot 5 x 0 x 0) in let n2 := sqrt (dot 5 x 5 x 5) in
  do q <- div (dot 5 x 0 x 5) (n1 * n2);
  Ok [:: sin n1 - half * n2 ^+ 3 + q].
Definition o5 : nat -> seq R -> res (seq R) := rowwise (2 * 5) o5_row.
End O5.
Definition o5_in : expr := EMul (EInt 2) EV.

(** ** ParticleInteraction, datasets.py:74-103 *)
Section Particle.
Variable R : comRingType.
(** np.diag([1,-1,-1,-1]), line 85 *)
Definition eta (i j : nat) : R := if (i == j)%N then (if (i == 0)%N then 1 else -1) else 0.
(** (v@eta)[a] and dot, line 86, for vectors starting at i and j *)
Definition lower (x : seq R) (i a : nat) : R := rsum 4 (fun c => nth 0 x (i + c)%N * eta c a).
Definition mdot (x : seq R) (i j : nat) : R := rsum 4 (fun a => lower x i a * nth 0 x (j + a)%N).
(** lines 83-90, one row x.reshape(4,4) *)
Definition particle_row (x : seq R) : res (seq R) :=
  let Le a c := nth 0 x (0 + a)%N * nth 0 x (8 + c)%N - (mdot x 0 8 - mdot x 0 0) * eta a c in
  let Lmu a c := lower x 4 a * lower x 12 c - (mdot x 4 12 - mdot x 4 4) * eta a c in
  Ok [:: 4%:R * rsum 4 (fun a => rsum 4 (fun c => Le a c * Lmu a c))].
Definition particle : nat -> seq R -> res (seq R) := rowwise (4 * 4) particle_row.
End Particle.
Definition particle_in : expr := EMul (EInt 4) EV.

(** ** The statistics self.stats *)
(** a statistic: a number or a vector *)
Inductive stat (R : Type) : Type := SNum (c : R) | SVec (v : seq R).
Section Stats.
Variable R : comRingType.
Variables (sqrt abs : R -> R) (divn : R -> nat -> R).
(** mean of n numbers *)
Definition mean (n : nat) (f : nat -> R) : R := divn (rsum n f) n.
(** (s[:,None]+zeros((m,d))).reshape(m*d): s repeated d times *)
Definition spread (m d : nat) (s : nat -> R) : seq R := mkseq (fun t => s (t %/ d)%N) (m * d).
(** Y.mean(axis=0), Y.std(axis=0) for Y of shape (N,1) *)
Definition ymean (N : nat) (Y : seq R) : stat R := SVec [:: mean N (fun b => nth 0 Y b)].
Definition ystd (N : nat) (Y : seq R) : stat R :=
  SVec [:: sqrt (mean N (fun b => (nth 0 Y b - mean N (fun b => nth 0 Y b)) ^+ 2))].
(** Inertia, line 38: the computed statistics are not used *)
Definition inertia_stats : stat R * stat R * stat R * stat R := (SNum 0, SNum 1, SNum 0, SNum 1).
(** O5Synthetic, lines 64-65: sqrt((X.reshape(N,2,d)**2).mean((0,2))), for N >= 1 (ri[0] raises
    otherwise) *)
Definition o5_scale (N : nat) (X : seq R) : res (seq R) :=
  if (N == 0)%N then Err IndexError
  else Ok (spread 2 5 (fun v => sqrt (divn (rsum N (fun b => rsum 5 (fun a => nth 0 X (b * 10 + (v * 5 + a))%N ^+ 2))) (N * 5)))).
Definition o5_stats (N : nat) (X Y : seq R) : res (stat R * stat R * stat R * stat R) :=
  do s <- o5_scale N X; Ok (SNum 0, SVec s, ymean N Y, ystd N Y).
(** ParticleInteraction, lines 95-97: sqrt(abs((X.reshape(N,4,4)@eta)*X.reshape(N,4,4)).mean(-1).mean(0)) *)
Definition particle_scale (N : nat) (X : seq R) : seq R :=
  spread 4 4 (fun v => sqrt (mean N (fun b => mean 4 (fun a =>
    abs (lower X (b * 16 + v * 4) a * nth 0 X (b * 16 + v * 4 + a)%N))))).
Definition particle_stats (N : nat) (X Y : seq R) : stat R * stat R * stat R * stat R :=
  (SNum 0, SVec (particle_scale N X), ymean N Y, ystd N Y).
End Stats.

(** ** Standardize, nn/objax.py:230-255 (nn/pytorch.py:197-220 has the same text; the models it is
    given there are called differently, see NnNets.v) *)
Section Standardize.
Variable R : comRingType.
Variable div : R -> R -> R.
(** op(X,s) for X of shape (bs,n) and a number or a vector of length 1 or n.  (numpy also
    broadcasts n=1 to longer vectors; then the shape is no longer that of X and the model
    raises, as this does.) *)
Definition bcast (op : R -> R -> R) (bs n : nat) (X : seq R) (s : stat R) : res (seq R) :=
  match s with
  | SNum c => Ok [seq op x c | x <- X]
  | SVec v =>
      if size v == n then Ok (mkseq (fun t => op (nth 0 X t) (nth 0 v (t %% n))) (size X))
      else if size v == 1%N then Ok [seq op x (head 0 v) | x <- X]
      else Err TypeError
  end.
(** [model training bs x]; [n] and [m] are the widths of the input and the output of the
    model *)
Definition standardize2 (model : bool -> nat -> seq R -> res (seq R)) (n : nat) (muin sin : stat R)
    (training : bool) (bs : nat) (x : seq R) : res (seq R) :=
  do y <- bcast (fun a b => a - b) bs n x muin;
  do z <- bcast div bs n y sin;
  model training bs z.
Definition standardize4 (model : bool -> nat -> seq R -> res (seq R)) (n m : nat) (st : stat R * stat R * stat R * stat R)
    (training : bool) (bs : nat) (x : seq R) : res (seq R) :=
  let: (muin, sin, muout, sout) := st in
  do y <- standardize2 model n muin sin training bs x;
  do z <- bcast (fun a b => b * a) bs m y sout;
  bcast +%R bs m z muout.
End Standardize.

(** ** GroupAugmentation, datasets.py:105-121 *)
Section Aug.
Variable R : comRingType.
Variables (conj sinv : R -> R) (linv : nat -> seq R -> seq R).
Variables (crho : nat -> option gid -> gel R -> res (op R)).
(** jit(vmap(rep.rho))(gs): rho of every sample.  The result of a function under vmap has to be
    an array; a LinearOperator is not one and raises TypeError *)
Definition vrho (r : rep) (M : gel R) : res (darr R) :=
  do A <- rho sinv linv crho r M;
  if A is OArr m n D then Ok (m, n, D) else Err TypeError.
(** A[b]@x[b] for every b, x of shape (bs,n) *)
Definition apply_rows (As : seq (darr R)) (bs n : nat) (x : seq R) : res (seq R) :=
  rmap flatten (mapM (fun bA : nat * darr R =>
    if bA.2.1.2 == n then Ok (matmul bA.2.1.1 n 1 bA.2.2 (row_of n bA.1 x)) else Err TypeError) (zip (iota 0 bs) As)).
(** jnp.linalg.inv *)
Definition inv_all (As : seq (darr R)) : res (seq (darr R)) :=
  mapM (fun A : darr R => if A.1.1 == A.1.2 then Ok (A.1, linv A.1.1 A.2) else Err ValueError) As.
(** __call__: [gs] are the samples, [n] and [m] the widths of the input and of the model's
    output *)
Definition augment (model : bool -> nat -> seq R -> res (seq R)) (rep_in rep_out : rep) (gs : nat -> gel R) (n m : nat)
    (training : bool) (bs : nat) (x : seq R) : res (seq R) :=
  if training then
    do Ro <- mapM (fun b => vrho rep_out (gs b)) (iota 0 bs);
    do Rinv <- inv_all Ro;
    do Ri <- mapM (fun b => vrho rep_in (gs b)) (iota 0 bs);
    do x' <- apply_rows Ri bs n x;
    do y <- model training bs x';
    apply_rows Rinv bs m y
  else model false bs x.
End Aug.

(** ** equivariance_error, reps/representation.py:478-497 (tests/equivariance_tests.py:22-39) *)
Section EqErr.
Variable R : comRingType.
Variables (conj sinv : R -> R) (linv : nat -> seq R -> seq R).
Variables (crho : nat -> option gid -> gel R -> res (op R)).
Variables (gdim : gid -> nat) (csize : nat -> gid -> nat).
Variables (sqrt abs : R -> R) (max div : R -> R -> R) (divn : R -> nat -> R) (tiny : R).
(** sqrt(mean(abs(t)**2)) *)
Definition rms (t : seq R) : R := sqrt (divn (rsum (size t) (fun i => abs (nth 0 t i) ^+ 2)) (size t)).
Definition vsub (a b : seq R) : seq R := [seq p.1 - p.2 | p <- zip a b].
(** t1, t2 of the same shape, g of shape (N,d,d) *)
Definition scale_adjusted_rel_error (t1 t2 : seq R) (d : nat) (g : seq (seq R)) : R :=
  let error := rms (vsub t1 t2) in
  let tscale := rms t1 + rms t2 in
  let gscale := rms (flatten [seq vsub h (eye R d) | h <- g]) in
  div error (max (max tscale gscale) tiny).
(** W.reshape(nout,nin,-1).transpose((2,0,1)): matrix number c *)
Definition slice_of (nout nin r : nat) (W : seq R) (c : nat) : seq R :=
  mkseq (fun t => nth 0 W (t * r + c)%N) (nout * nin).
(** [gs] are the five samples as (d,d) arrays; -1 is the size of W divided by nout*nin, which has
    to divide it *)
Definition equivariance_error (W : seq R) (repin repout : rep) (d : nat) (gs : seq (seq R)) : res R :=
  do nin <- size_py gdim csize repin;
  do nout <- size_py gdim csize repout;
  if (nout * nin == 0)%N || (size W %% (nout * nin) != 0)%N then Err TypeError
  else
    let r := (size W %/ (nout * nin))%N in
    do ring <- mapM (fun D => rho_dense conj sinv linv crho repin (GMat (OArr d d D))) gs;
    do routg <- mapM (fun D => rho_dense conj sinv linv crho repout (GMat (OArr d d D))) gs;
    let t1 := flatten [seq flatten [seq matmul nout nin nin (slice_of nout nin r W c) A.2 | c <- iota 0 r] | A <- ring] in
    let t2 := flatten [seq flatten [seq matmul nout nout nin A.2 (slice_of nout nin r W c) | c <- iota 0 r] | A <- routg] in
    Ok (scale_adjusted_rel_error t1 t2 d gs).
End EqErr.

(** ** Hamiltonian systems, experiments/trainer/hamiltonian_dynamics.py:29-49,167-187 *)
Section Ham.
Variable R : comRingType.
Variables (sqrt : R -> R) (half : R).
(** unpack, lines 29-34, of one state vector *)
Definition unpack (z : seq R) : res (seq R * seq R) :=
  if (size z %% 2 == 0)%N then Ok (take (size z %/ 2) z, drop (size z %/ 2) z) else Err AssertionError.
(** pack, lines 36-37 *)
Definition pack (q p : seq R) : seq R := q ++ p.
(** symplectic_form, lines 39-42 *)
Definition symplectic_form (z : seq R) : res (seq R) :=
  do qp <- unpack z; Ok (pack qp.2 (map -%R qp.1)).
(** hamiltonian_dynamics, lines 44-49; [gradient] is grad(hamiltonian) *)
Definition hamiltonian_dynamics (gradient : seq R -> seq R) (z : seq R) : res (seq R) :=
  symplectic_form (gradient z).
(** DoubleSpringPendulum.H, lines 175-186, for one state vector.  (For a batch it returns the
    sum over the rows.) *)
Definition pendulum_H (z : seq R) : res R :=
  do xp <- unpack z;
  do pp <- unpack xp.2;
  do xx <- unpack xp.1;
  let: (x1, x2) := xx in let: (p1, p2) := pp in
  let sq v := rsum (size v) (fun i => nth 0 v i ^+ 2) in
  let ke := half * sq p1 + half * sq p2 in
  let pe := half * (sqrt (sq x1) - 1) ^+ 2 in
  let pe := pe + (sqrt (sq [seq q.1 - q.2 | q <- zip x1 x2]) - 1) ^+ 2 in
  if (size x1 <= 2)%N then Err IndexError
  else Ok (ke + (pe + (nth 0 x1 2 + nth 0 x2 2))).
End Ham.
(** rep_in=4*T(1), rep_out=T(0), lines 171-172 *)
Definition pendulum_in : expr := EMul (EInt 4) (T_expr 1 0).
