(** * KrySpec: vocabulary for the statements about the iterative solver. *)
From mathcomp Require Import all_ssreflect all_algebra.
From Verif Require Import Np Spec LinOp SolSpec Krylov.
Set Implicit Arguments.
Unset Strict Implicit.
Unset Printing Implicit Defensive.
Import GRing.Theory.
Local Open Scope ring_scope.
Opaque max_iter.

Section S.
Variable R : comRingType.
Variable conj : R -> R.

(** the contract of np.linalg.svd(W,full_matrices=False) on one n x r array, and of the rank
    decision: W = U diag(s) VT with orthonormal columns of U and rows of VT, s in
    descending order, the entries of s that do not pass the threshold exactly zero *)
Definition tsvd_exact (tsvd : nat -> nat -> seq R -> seq R * seq R * seq R) (big : pred R)
    (gap : R -> R -> bool) (n r : nat) (W : seq R) : Prop :=
  let: (U, s, VT) := tsvd n r W in
  let q := minn n r in
  let Um := unflat n q U in let Vm := unflat q r VT in
  let H A := ftr (fconj conj A) in
  [/\ size s = q,
      meq (fmul (H Um) Um) (fid R q), meq (fmul Vm (H Vm)) (fid R q),
      meq (unflat n r W) (fmul Um (fmul (FM q q (fun i j => if i == j then nth 0 s i else 0)) Vm)) &
      [/\ forall i j, (i < j)%N -> (j < size s)%N -> big (nth 0 s j) -> big (nth 0 s i),
          forall x, x \in s -> big x -> exists t, t * x = 1,
          forall x, x \in s -> ~~ big x -> x = 0 &
          forall x, big x -> gap 0 x]].

(** the null space of D is spanned by the orthonormal columns of N, and the component of W
    in it, N^H W, has full rank: a left or a right inverse *)
Definition generic (n r k : nat) (N W : seq R) : Prop :=
  let X := fmul (ftr (fconj conj (unflat n k N))) (unflat n r W) in
  exists B, meq (fmul X (unflat r k B)) (fid R k) \/ meq (fmul (unflat r k B) X) (fid R r).

(** Q has orthonormal columns, all solutions of D x = 0 *)
Definition solutions (m n : nat) (D : seq R) (k : nat) (Q : seq R) : Prop :=
  [/\ size Q = (n * k)%N, meq (fmul (ftr (fconj conj (unflat n k Q))) (unflat n k Q)) (fid R k) &
      meq (fmul (unflat m n D) (unflat n k Q)) (fzero R m k)].
End S.

Section Runs.
Variable R : comRingType.
Variables (conj re : R -> R) (sc : rat -> R).
Variables (conv diverging : seq R -> bool).
Variable tsvd : nat -> nat -> seq R -> seq R * seq R * seq R.
Variables (big : pred R) (gap : R -> R -> bool).
Variable W0 : nat -> nat -> seq R.
Local Notation sgd := (sgd conj re sc).

(** iterate t of attempt a of call k *)
Definition iterate (m n r : nat) (D : seq R) (lr : rat) (k a t : nat) : seq R :=
  (iter t (sgd m n r D lr) (W0 k a, nseq (n * r) 0)).1.
Definition residual m n r D lr k a t : seq R := matmul m n r D (iterate m n r D lr k a t).

(** attempt a of call k with rank r: the random start has the right shape and a component
    of full rank in the null space, spanned by N; if the loop stops the result solves the
    equations exactly, and its decomposition is exact *)
Definition exact_attempt (m n : nat) (D : seq R) (v : nat) (N : seq R) (k r a : nat) : Prop :=
  [/\ size (W0 k a) = (n * r)%N, generic conj n r v N (W0 k a) &
  forall t, (t < max_iter)%N -> conv (residual m n r D (lr0 / 3%:Q ^+ a) k a t) ->
    residual m n r D (lr0 / 3%:Q ^+ a) k a t.+1 = nseq (m * r) 0 /\
    tsvd_exact conj tsvd big gap n r (iterate m n r D (lr0 / 3%:Q ^+ a) k a t.+1)].
(** ways in which call k with rank r may raise: an attempt exhausts its iterations, the
    sixth attempt diverges; or r exceeds n and every vector is a solution *)
Definition call_fails (m n : nat) (D : seq R) (k r : nat) (e : exn) : Prop :=
  (e = ConvergenceError /\ exists a, (a < 6)%N /\
     ((forall t, (t < max_iter)%N -> ~~ conv (residual m n r D (lr0 / 3%:Q ^+ a) k a t)) \/
      (a = 5 /\ exists2 t, (100 < t < max_iter)%N & diverging (residual m n r D (lr0 / 3%:Q ^+ a) k a t)))%N) \/
  (e = IndexError /\ (n < r)%N /\ forall x, size x = n -> matvec m n D x = nseq m 0).

(** what the outer routine delivers *)
Definition outer_ok (m n : nat) (D : seq R) (fails : nat -> nat -> exn -> Prop) (x : res (darr R * bool)) : Prop :=
  match x with
  | Ok ((n', c, Q), false) => [/\ n' = n, (c < n)%N & null_basis conj m n D c Q]
  | Ok ((n', c, Q), true) => [/\ n' = n, solutions conj m n D c Q & gt2e9 (m * (2 * c))]
  | Err e => (e = GenericException /\ gt2e9 (m * 10)) \/
             exists k, ~~ gt2e9 (m * (5 * 2 ^ k.+1)) /\ fails k (5 * 2 ^ k.+1)%N e
  end.
End Runs.
