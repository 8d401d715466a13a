(** * Np: exceptions and the numpy array primitives used by emlp.

    An ndarray is its shape and its flat row-major data.  Nothing here is
    specific to /repo: these are the numpy / jax.numpy functions that the cited
    files call ([np.reshape], [np.transpose], [np.moveaxis], [np.swapaxes],
    fancy indexing on axis 0, [np.argsort], [np.arange], slicing, [np.roll],
    [np.rot90]).  Element type arbitrary; floats are not modelled. *)
From mathcomp Require Import all_ssreflect.
Set Implicit Arguments.
Unset Strict Implicit.
Unset Printing Implicit Defensive.

(** Python exception classes, as values. *)
Inductive exn : Type :=
| ValueError | TypeError | AttributeError | NotImplementedError
| AssertionError | IndexError | KeyError | RecursionError
| ConvergenceError | GenericException | UnboundLocalError | ZeroDivisionError | RuntimeError.

Inductive res (T : Type) : Type := Ok of T | Err of exn.
Arguments Ok {T} _.
Arguments Err {T} _.

Definition bind {T U} (m : res T) (f : T -> res U) : res U :=
  match m with Ok x => f x | Err e => Err e end.
Definition rmap {T U} (f : T -> U) (m : res T) : res U :=
  match m with Ok x => Ok (f x) | Err e => Err e end.
Notation "'do' x <- m ; f" := (bind m (fun x => f))
  (at level 200, x pattern, m at level 100, f at level 200).

(** Evaluate a list of computations left to right (a Python list comprehension
    whose body may raise). *)
Fixpoint sequence {T} (l : seq (res T)) : res (seq T) :=
  match l with
  | [::] => Ok [::]
  | m :: l' => do x <- m; do xs <- sequence l'; Ok (x :: xs)
  end.
Definition mapM {T U} (f : T -> res U) (l : seq T) : res (seq U) :=
  sequence (map f l).
(** Left fold whose step may raise ([functools.reduce]). *)
Fixpoint foldM {T U} (f : U -> T -> res U) (z : U) (l : seq T) : res U :=
  match l with
  | [::] => Ok z
  | x :: l' => do z' <- f z x; foldM f z' l'
  end.

Definition is_ok {T} (m : res T) : bool := if m is Ok _ then true else false.
Definition okP {T} (m : res T) (P : T -> Prop) : Prop :=
  match m with Ok x => P x | Err _ => False end.

(** ** Shapes and multi-indices (C order) *)

Definition prodn (s : seq nat) : nat := foldr muln 1 s.

(** np.ravel_multi_index *)
Fixpoint ravel (s i : seq nat) : nat :=
  match s, i with
  | n :: s', x :: i' => x * prodn s' + ravel s' i'
  | _, _ => 0
  end.

(** np.unravel_index *)
Fixpoint unravel (s : seq nat) (k : nat) : seq nat :=
  match s with
  | [::] => [::]
  | n :: s' => (k %/ prodn s') :: unravel s' (k %% prodn s')
  end.

(** [i] is a valid multi-index of an array of shape [s]. *)
Fixpoint valid (s i : seq nat) : bool :=
  match s, i with
  | [::], [::] => true
  | n :: s', x :: i' => (x < n) && valid s' i'
  | _, _ => false
  end.

Record nd (T : Type) := ND { dims : seq nat; dat : seq T }.
Arguments ND {T} _ _.

Section Nd.
Variables (T : Type) (x0 : T).

Definition get (a : nd T) (i : seq nat) : T := nth x0 (dat a) (ravel (dims a) i).

Definition nd_init (s : seq nat) (f : seq nat -> T) : nd T :=
  ND s (mkseq (fun k => f (unravel s k)) (prodn s)).

(** a.reshape(s): raises ValueError when the sizes differ. *)
Definition reshape (s : seq nat) (a : nd T) : res (nd T) :=
  if prodn s == size (dat a) then Ok (ND s (dat a)) else Err ValueError.

(** The length numpy infers for the [-1] axis of a reshape whose other axes
    multiply to [known]: ValueError if [known] is 0 or does not divide. *)
Definition infer (known total : nat) : res nat :=
  if (0 < known) && (known %| total) then Ok (total %/ known) else Err ValueError.

(** np.transpose(a, axes) *)
Definition np_transpose (a : nd T) (axes : seq nat) : nd T :=
  nd_init [seq nth 0 (dims a) ax | ax <- axes]
          (fun i => get a (mkseq (fun m => nth 0 i (index m axes)) (size (dims a)))).

(** The axis order built by np.moveaxis(a, src, dst). *)
Definition moveaxis_order (n src dst : nat) : seq nat :=
  let o := [seq k <- iota 0 n | k != src] in take dst o ++ src :: drop dst o.
Definition moveaxis (a : nd T) (src dst : nat) : nd T :=
  np_transpose a (moveaxis_order (size (dims a)) src dst).

(** np.swapaxes(a, i, j) *)
Definition swapaxes (a : nd T) (i j : nat) : nd T :=
  np_transpose a (mkseq (fun k => if k == i then j else if k == j then i else k)
                        (size (dims a))).

(** a[p, ...] : fancy indexing along axis 0 *)
Definition take_ax0 (a : nd T) (p : seq nat) : nd T :=
  nd_init (size p :: behead (dims a))
          (fun i => get a (nth 0 p (head 0 i) :: behead i)).

(** v[p] for a 1-d array *)
Definition gather (v : seq T) (p : seq nat) : seq T := [seq nth x0 v k | k <- p].

(** v[a:b] *)
Definition slice (a b : nat) (v : seq T) : seq T := take (b - a) (drop a v).

(** Rows of a 2-d array of [K] columns stored flat: X[p] and X[a:b]. *)
Definition grows (K : nat) (X : seq T) (p : seq nat) : seq T :=
  flatten [seq mkseq (fun k => nth x0 X (r * K + k)) K | r <- p].
Definition srows (K a b : nat) (X : seq T) : seq T := slice (a * K) (b * K) X.

(** X.T for a 2-d array of shape (m, n) *)
Definition tr2 (m n : nat) (X : seq T) : seq T :=
  mkseq (fun t => nth x0 X ((t %% m) * n + t %/ m)) (n * m).

End Nd.
Arguments nd_init {T} s f.

(** np.arange *)
Definition arange (n : nat) : seq nat := iota 0 n.

(** np.argsort (all keys distinct in every use, so the choice of algorithm is
    irrelevant). *)
Definition argsort (p : seq nat) : seq nat :=
  sort (fun i j => nth 0 p i <= nth 0 p j) (iota 0 (size p)).

(** np.cumsum *)
Fixpoint cumsum_from (a : nat) (s : seq nat) : seq nat :=
  match s with [::] => [::] | x :: s' => (a + x) :: cumsum_from (a + x) s' end.

(** [p] is a permutation of range(n). *)
Definition is_perm (n : nat) (p : seq nat) : bool := perm_eq p (iota 0 n).
