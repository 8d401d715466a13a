(** * Sparsify: sparsify_basis (emlp/reps/representation.py:383-415), with the optimiser
    optax.adam.

    Simplifications.
    - Arithmetic in the real numbers of the standard library instead of float32.
    - The random orthogonal start of attempt a is the oracle [W0 a]; the gradient of the
      loss and log|det| are the oracles [grad] and [logdet].
    - The progress bar, the warning, and the check of lines 410-413, which only logs, are
      left out.
    - The recursion of line 405 is not bounded by the code: it takes fuel, and [None] means
      that the fuel was not enough. *)
From Coq Require Import Reals.
From mathcomp Require Import all_ssreflect all_algebra.
From Verif Require Import Np LinOp Rstruct.
Set Implicit Arguments.
Unset Strict Implicit.
Unset Printing Implicit Defensive.
Local Open Scope R_scope.
Local Notation RR := R_comRingType.

Definition Rltb (x y : R) : bool := if Rlt_dec x y then true else false.
Definition rsumR (l : seq R) : R := foldr Rplus R0 l.
(** jnp.abs(A).mean() *)
Definition absmean (l : seq R) : R := rsumR (map Rabs l) / INR (size l).

(** optax.adam(lr): b1=0.9, b2=0.999, eps=1e-8.  State: the step count, and per entry the
    first and second moment; [adam1] is the step on one entry: the new moments and value. *)
Definition b1 : R := 9 / 10.
Definition b2 : R := 999 / 1000.
Definition eps : R := / (10 ^ 8).
Definition adam1 (lr : R) (t : nat) (mv : R * R) (g w : R) : R * R * R :=
  let m := b1 * mv.1 + (1 - b1) * g in
  let v := b2 * mv.2 + (1 - b2) * (g * g) in
  let mh := m / (1 - b1 ^ t.+1) in
  let vh := v / (1 - b2 ^ t.+1) in
  ((m, v), w - lr * (mh / (sqrt vh + eps))).
Definition adam_state : Type := (nat * seq (R * R))%type.
Definition adam (lr : R) (s : adam_state) (G W : seq R) : adam_state * seq R :=
  let xs := [seq adam1 lr s.1 x.1.1 x.1.2 x.2 | x <- zip (zip s.2 G) W] in
  ((s.1.+1, map fst xs), map snd xs).

Section Sparsify.
(** Q of shape n x r *)
Variables (n r : nat) (Q : seq R).
Variables (W0 : nat -> seq R) (grad : seq R -> seq R) (logdet : seq R -> R).

(** loss(W), representation.py:394-395 *)
Definition wtr (W : seq R) : seq R := tr2 R0 r r W.
Definition qwt (W : seq R) : seq R := matmul (R := RR) n r r Q (wtr W).
Definition loss (W : seq R) : R :=
  absmean (qwt W)
  + / 10 * absmean [seq x.1 - x.2 | x <- zip (matmul (R := RR) r r r (wtr W) W) (eye RR r)]
  + / 100 * (logdet W) ^ 2.

(** the loop of representation.py:399-405, k of 3000 iterations left, at iteration i: None
    is the return on line 405 *)
Fixpoint sp_descend (lr : R) (k i : nat) (s : adam_state) (W : seq R) : option (seq R) :=
  match k with
  | O => Some W
  | k'.+1 =>
      let: (s', W') := adam lr s (grad W) W in
      if Rltb 100 (loss W) && (100 < i)%N then None else sp_descend lr k' i.+1 s' W'
  end.
Definition sp_iter : nat := (30 * 100)%N.
Definition adam_init : adam_state := (0%N, nseq (r * r) (R0, R0)).

(** representation.py:407-409, entry by entry *)
Definition rnd (q : R) : R :=
  if Rltb (Rabs q) (/ 100) then R0 else if Rltb (/ 100) (Rabs q) then q / Rabs q else q.

(** sparsify_basis(Q,lr): the result of the first attempt that does not diverge *)
Fixpoint sparsify (fuel a : nat) (lr : R) : option (seq R) :=
  match fuel with
  | O => None
  | f.+1 =>
      match sp_descend lr sp_iter 0 adam_init (W0 a) with
      | Some W => Some (map rnd (qwt W))
      | None => sparsify f a.+1 (lr / 3)
      end
  end.
End Sparsify.
