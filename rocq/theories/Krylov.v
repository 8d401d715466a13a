(** * Krylov: krylov_constraint_solve and krylov_constraint_solve_upto_r
    (emlp/reps/representation.py:310-379).

    Simplifications.
    - Exact arithmetic.  The tests sqrt(lossval)<tol and lossval>2e3 are the parameters
      [conv] and [diverging], functions of the array C@W from which lossval is computed;
      S>10*tol is [big]; the comparison of singular values in the last assertion is [gap].
    - The operator enters by its dense array: C@W is the product with it (C01), and the
      reverse-mode derivative of loss(W)=sum|C@W|^2/2 is C^H(C@W).  W is an array of
      reals, so its gradient is the real part [re] of that; for real C, re is the identity.
    - The learning rate is an exact rational, [sc] its value as an array element.
    - np.random.randn is an oracle: [W0 a k] is the initial array of the a-th attempt of
      the k-th call.
    - The progress bar, the warnings and the loss of the normalised basis (only logged)
      are left out.
    - A loop or recursion that is not bounded by the code takes fuel; [None] means that
      the fuel was not enough.  It is proved how much is enough. *)
From mathcomp Require Import all_ssreflect all_algebra.
From Coq Require BinNat.
From Verif Require Import Np LinOp.
Set Implicit Arguments.
Unset Strict Implicit.
Unset Printing Implicit Defensive.
Import GRing.Theory Num.Theory.
Local Open Scope ring_scope.

(** for i in range(20000), representation.py:345 *)
Definition max_iter : nat := (200 * 100)%N.

Section Krylov.
Variable R : comRingType.
Variables (conj re : R -> R) (sc : rat -> R).
Variables (conv diverging : seq R -> bool).
(** np.linalg.svd(W,full_matrices=False) of an n x r array: U of shape n x min(n,r), S, VT *)
Variable tsvd : nat -> nat -> seq R -> seq R * seq R * seq R.
Variables (big : pred R) (gap : R -> R -> bool).
Variable W0 : nat -> nat -> seq R.

(** C^H as an n x m array *)
Definition ctr (m n : nat) (D : seq R) : seq R := tr2 0 m n (map conj D).

(** one iteration, representation.py:347-349: value and gradient at W, then the update of
    optax.sgd(lr,.9): M <- G + .9 M, W <- W - lr M *)
Definition sgd (m n r : nat) (D : seq R) (lr : rat) (s : seq R * seq R) : seq R * seq R :=
  let G := map re (matmul n m r (ctr m n D) (matmul m n r D s.1)) in
  let M := vadd G (vscale (sc (9%:Q / 10%:Q)) s.2) in
  (vadd s.1 (vscale (- sc lr) M), M).

(** how the for loop ends: break (with the W after the update), divergence, or exhaustion *)
Inductive ending : Type := Converged (W : seq R) | Diverged | Exhausted.

(** the loop of representation.py:345-365 with k iterations left, at iteration i; also the
    number of iterations made *)
Fixpoint descend (m n r : nat) (D : seq R) (lr : rat) (k i : nat) (s : seq R * seq R) : ending * nat :=
  match k with
  | 0%N => (Exhausted, i)
  | k'.+1 =>
      let CW := matmul m n r D s.1 in
      let s' := sgd m n r D lr s in
      if conv CW then (Converged s'.1, i.+1)
      else if diverging CW && (100 < i)%N then (Diverged, i.+1)
      else descend m n r D lr k' i.+1 s'
  end.

(** representation.py:366-379: Q=U[:,:rank]; S[rank] raises IndexError when all min(n,r)
    singular values are above the threshold and min(n,r)<r *)
Definition finish (n r : nat) (W : seq R) : res (darr R) :=
  let: (U, Sv, VT) := tsvd n r W in
  let rank := count big Sv in
  let q := minn n r in
  let Q := mkseq (fun t => nth 0 U ((t %/ rank)%N * q + t %% rank)%N) (n * rank) in
  do scutoff <- (if (rank < r)%N then (if (rank < size Sv)%N then Ok (nth 0 Sv rank) else Err IndexError) else Ok 0);
  if (rank == 0%N) || gap scutoff (nth 0 Sv rank.-1) then Ok (n, rank, Q) else Err AssertionError.

(** krylov_constraint_solve_upto_r(C,r,tol,lr), representation.py:325-379: the k-th call,
    attempt a.  Also the log of the attempts: learning rate and number of iterations. *)
Fixpoint upto (fuel : nat) (m n r : nat) (D : seq R) (k a : nat) (lr : rat) : option (res (darr R) * seq (rat * nat)) :=
  match fuel with
  | 0%N => None
  | f.+1 =>
      let W := W0 k a in
      let: (e, its) := descend m n r D lr max_iter 0 (W, nseq (n * r) 0) in
      match e with
      | Exhausted => Some (Err ConvergenceError, [:: (lr, its)])
      | Converged W' => Some (finish n r W', [:: (lr, its)])
      | Diverged =>
          if lr < 1%:Q / 100%:Q / 100%:Q then Some (Err ConvergenceError, [:: (lr, its)])
          else if upto f m n r D k a.+1 (lr / 3%:Q) is Some (x, l) then Some (x, (lr, its) :: l) else None
      end
  end.
(** the default learning rate *)
Definition lr0 : rat := 1%:Q / 100%:Q.

(** x>2e9, representation.py:314,318 *)
Definition gt2e9 (x : nat) : bool :=
  BinNat.N.ltb (BinNat.N.mul (BinNat.N.of_nat 2) (BinNat.N.pow (BinNat.N.of_nat 10) (BinNat.N.of_nat 9)))
               (BinNat.N.of_nat x).

Section Doubling.
(** krylov_constraint_solve_upto_r as seen by the outer loop: the k-th call with rank r *)
Variable inner : nat -> nat -> res (darr R).

(** the while loop of representation.py:316-323: k calls were made, Q is the result of the
    last one.  The flag says whether the memory limit was hit (and logged). *)
Fixpoint doubling (fuel : nat) (m k r found : nat) (Q : option (darr R)) : option (res (darr R * bool)) :=
  match fuel with
  | 0%N => None
  | f.+1 =>
      let out b := Some (if Q is Some Q' then Ok (Q', b) else Err UnboundLocalError) in
      if found != r then out false else
      let r' := (r * 2)%N in
      if gt2e9 (m * r') then out true else
      match inner k r' with
      | Err e => Some (Err e)
      | Ok Q' => doubling f m k.+1 r' Q'.1.2 (Some Q')
      end
  end.

(** krylov_constraint_solve(C), representation.py:310-323, C with m rows *)
Definition krylov_with (fuel m : nat) : option (res (darr R * bool)) :=
  if gt2e9 (m * 5 * 2) then Some (Err GenericException) else doubling fuel m 0 5 5 None.
End Doubling.

(** with the inner routine above; six attempts are enough (C31), 29 rounds too (C30) *)
Definition inner_upto (m n : nat) (D : seq R) (k r : nat) : res (darr R) :=
  if upto 6 m n r D k 0 lr0 is Some (x, _) then x else Err RecursionError.
Definition krylov_solve (C : op R) : option (res (darr R * bool)) :=
  match to_dense conj C with
  | Err e => Some (Err e)
  | Ok (m, n, D) => krylov_with (inner_upto m n D) 30 m
  end.
End Krylov.
