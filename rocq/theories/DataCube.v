(** * DataCube: the data sets InvertedCube and BrokenRubiksCube of emlp/datasets.py.

    An array of shape (a,b,..) is its flat row-major data; the shapes are arguments.  The
    random inputs (G.samples(N) and np.random.permutation(N)) are arguments.  The list
    [transforms] of BrokenRubiksCube (lines 198-200) is not used by the code and left out. *)
From mathcomp Require Import all_ssreflect all_algebra.
From Verif Require Import Np LinOp RepExpr Data.
Set Implicit Arguments.
Unset Strict Implicit.
Unset Printing Implicit Defensive.
Import GRing.Theory.
Local Open Scope ring_scope.

(** parity_perm, lines 127 and 207 *)
Definition parity_perm : seq nat := [:: 5; 3; 4; 1; 2; 0]%N.
(** np.roll(a,i): entry k of the result is a[(k-i) mod n] *)
Definition roll (T : Type) (x0 : T) (i : nat) (a : seq T) : seq T :=
  mkseq (fun k => nth x0 a ((k + (size a - i %% size a)) %% size a)%N) (size a).

Section Cubes.
Variable R : comRingType.
(** np.repeat(A,m,axis=0) for A of shape (r,n) *)
Definition repeat0 (m n r : nat) (A : seq R) : seq R :=
  mkseq (fun t => nth 0 A (t %/ n %/ m * n + t %% n)%N) (r * m * n).
(** A[p] for A of shape (N,n) and an array p of integers *)
Definition take_rows (n : nat) (p : seq nat) (A : seq R) : seq R := flatten [seq row_of n i A | i <- p].
(** X@gs for X of shape (N,c,k) and gs of shape (N,k,k) *)
Definition batch_mul (N c k : nat) (X gs : seq R) : res (seq R) :=
  if size gs == (N * (k * k))%N then
    Ok (mkseq (fun t => let b := (t %/ (c * k))%N in let i := (t %% (c * k) %/ k)%N in let j := (t %% (c * k) %% k)%N in
                 rsum k (fun l => nth 0 X (b * (c * k) + (i * k + l))%N * nth 0 gs (b * (k * k) + (l * k + j))%N)) (N * (c * k)))
  else Err ValueError.
(** lines 139-146 and 214-221: gs=symmetry.samples(r*m); X=repeat(X,m,axis=0).reshape(r*m,c,k)@gs,
    Y=repeat(Y,m,axis=0); then both are permuted by p *)
Definition scramble (r m c k : nat) (X Y gs : seq R) (p : seq nat) : res (seq R * seq R) :=
  do X1 <- batch_mul (r * m) c k (repeat0 m (c * k) r X) gs;
  Ok (take_rows (c * k) p X1, take_rows 1 p (repeat0 m 1 r Y)).

(** ** InvertedCube, lines 122-152 *)
(** np.eye(6) and eye(6)[:,parity_perm], flattened, lines 126-133 *)
Definition inverted_X : seq R :=
  mkseq (fun t => ((t %/ 6)%N == (t %% 6)%N)%:R) 36 ++ mkseq (fun t => ((t %/ 6)%N == nth 0%N parity_perm (t %% 6))%:R) 36.
Definition inverted_Y : seq R := [:: 1; 0].
(** the test set, with gs=Cube().samples(100) *)
Definition inverted_test : seq R -> seq nat -> res (seq R * seq R) := scramble 2 50 6 6 inverted_X inverted_Y.

(** ** BrokenRubiksCube, lines 180-227 *)
(** lines 193-195: solved_state[i,8*i:8*(i+1)]=1 *)
Definition solved_state : seq R := mkseq (fun t => (t %/ 48 == t %% 48 %/ 8)%N%:R) 288.
(** line 208: solved_state.reshape(6,6,8)[:,parity_perm].reshape(-1) *)
Definition parity_state : seq R :=
  mkseq (fun t => nth 0 solved_state (t %/ 48 * 48 + (nth 0 parity_perm (t %% 48 %/ 8) * 8 + t %% 48 %% 8))%N) 288.
(** lines 202-208: 11 copies of both *)
Definition broken_X : seq R := flatten (nseq 11 solved_state) ++ flatten (nseq 11 parity_state).
Definition broken_Y : seq R := nseq 11 1 ++ nseq 11 0.
(** the test set, with gs=RubiksCube().samples(440) *)
Definition broken_test : seq R -> seq nat -> res (seq R * seq R) := scramble 22 20 6 48 broken_X broken_Y.

(** ** the ways of constructing invalid cubes, lines 158-177, for a state of shape (r,48) *)
(** s=state.copy(); s[:,ids]=s[:,np.roll(ids,i)] *)
Definition roll_cols (ids : seq nat) (i : nat) (S : seq R) : seq R :=
  mkseq (fun t => let j := (t %% 48)%N in
    if j \in ids then nth 0 S (t %/ 48 * 48 + nth 0 (roll 0 i ids) (index j ids))%N else nth 0 S t) (size S).
Definition UBedge_flip : seq R -> seq R := roll_cols [:: 1; 3 * 8 + 1]%N 1.
Definition ULBcorner_rot (i : nat) : seq R -> seq R := roll_cols [:: 0; 4 * 8; 3 * 8 + 2]%N i.
Definition LBface_swap : seq R -> seq R := roll_cols [:: 4 * 8 + 1; 3 * 8 + 1]%N 1.
End Cubes.
(** rep_in=6*Vector, rep_out=2*Scalar, lines 136-137 and 211-212 *)
Definition cube_in : expr := EMul (EInt 6) EV.
Definition cube_out : expr := EMul (EInt 2) EScalar.
