(** * DimTenSpec: vocabulary for the number of equivariant basis elements of tensor
    representations of group objects. *)
From Coq Require Import Reals.
From mathcomp Require Import all_ssreflect all_algebra.
From Verif Require Import Np Spec LinOp LinOpSpec LinOpInv Rep RepSpec RepWf Solver SolSpec Rstruct Expm GrpSpec Groups GroupsSpec GroupsSpecR GroupsThm GroupsFlag GroupsReal NnSpec.
Set Implicit Arguments.
Unset Strict Implicit.
Unset Printing Implicit Defensive.
Import GRing.Theory.
Local Open Scope ring_scope.

(** the Lie algebra generators of G are d x d arrays, the discrete generators are d x d arrays,
    LazyPerm or LazyShift operators *)
Definition basic_group (d : nat) (G : group RR) : Prop :=
  (forall A, List.In A (gitems (g_lie G)) -> exists2 D, A = OArr d d D & size D = (d * d)%N) /\
  (forall A, List.In A (gitems (g_gens G)) -> gop idR d A /\
     match A with OArr _ _ _ | OPerm _ | OShift _ _ => True | _ => False end).

(** A^{(x)p} (x) B^{(x)q}: with B the inverse transpose of A, the action of A on tensors with
    p upper and q lower indices *)
Definition tensor (p q : nat) (A B : fmat RR) : fmat RR := fkron (fkronl (nseq p A)) (fkronl (nseq q B)).
(** the matrix X of size N x N fixes the vector v *)
Definition fixes (N : nat) (X : fmat RR) (v : seq RR) : Prop :=
  forall i, (i < N)%N -> \sum_(0 <= j < N) fe X i j * nth 0 v j = nth 0 v i.
(** b returns an operator with the N x k array Q *)
Definition returns (b : res (op RR)) (N k : nat) (Q : seq RR) : Prop :=
  exists2 B, b = Ok B & to_dense idR B = Ok (N, k, Q).
(** the columns of Q are orthonormal and span the set U of vectors of length N *)
Definition spans (N k : nat) (Q : seq RR) (U : seq RR -> Prop) : Prop :=
  meq (fmul (ftr (unflat N k Q)) (unflat N k Q)) (fid RR k) /\
  forall v, size v = N -> U v <-> exists2 w, size w = k & matvec N k Q w = v.

(** multiples of the identity matrix *)
Definition scalar_tensor (n : nat) (v : seq RR) : Prop :=
  exists c : RR, forall i j, (i < n)%N -> (j < n)%N -> nth 0 v (i * n + j)%N = c * (i == j)%:R.
(** a I + b J with J the rotation by a quarter turn *)
Definition complex_tensor (v : seq RR) : Prop := exists a b : RR, v = [:: a; b; - b; a].
(** multiples of the Levi-Civita tensor: the sign of the permutation i, j, k of 0, 1, 2 *)
Definition levi (i j k : nat) : RR :=
  if [:: i; j; k] \in [:: [:: 0; 1; 2]; [:: 1; 2; 0]; [:: 2; 0; 1]]%N then 1
  else if [:: i; j; k] \in [:: [:: 2; 1; 0]; [:: 1; 0; 2]; [:: 0; 2; 1]]%N then -1 else 0.
Definition levi_tensor (v : seq RR) : Prop := exists c : RR, forall i j k, (i < 3)%N -> (j < 3)%N -> (k < 3)%N ->
  nth 0 v (i * 9 + (j * 3 + k))%N = c * levi i j k.

Section Setting.
Variables (sinv : RR -> RR) (linv : nat -> seq RR -> seq RR).
Variables (crho cdrho : nat -> option gid -> gel RR -> res (op RR)).
Variables (gdim : gid -> nat) (csize : nat -> gid -> nat) (le : rel rep) (g : gid).
Variable G : gid -> group RR.
Variables (svd : nat -> nat -> seq RR -> seq RR * seq RR * seq RR) (big : pred RR).
Variable krylov : op RR -> res (darr RR).
(** jnp.linalg.inv inverts, user-defined representations are representations, orthogonal ones
    where the group is flagged so, the comparison of representations is a total order and the
    numerical solvers are exact *)
Definition setting : Prop :=
  [/\ linv_ok linv, customs_ok sinv linv crho cdrho gdim csize (pred1 g),
      forall c C M, element sinv linv gdim (the_gens G) (the_lies G) g M -> crho c (Some g) M = Ok C ->
        g_orth (G g) -> orthm (csize c g) (den C),
      total_order_on (key gdim csize le (pred1 g)) le &
      (forall c, (0 < csize c g)%N) /\
      forall c, solver_ok idR gdim sinv linv crho cdrho csize (the_gens G) (the_lies G) svd big krylov c].
End Setting.
