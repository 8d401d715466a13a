(** * DataSpec: vocabulary for the statements about data sets. *)
From Coq Require Import Reals.
From mathcomp Require Import all_ssreflect all_algebra.
From Verif Require Import Np Spec LinOp LinOpSpec Rep RepSpec RepExpr GroupsSpec Nn Rstruct Expm GrpSpec NnSpec Data.
Set Implicit Arguments.
Unset Strict Implicit.
Unset Printing Implicit Defensive.
Import GRing.Theory.
Local Open Scope ring_scope.

Section S.
Variable R : comRingType.
Variables (conj sinv : R -> R) (linv : nat -> seq R -> seq R).
Variables (crho : nat -> option gid -> gel R -> res (op R)).
Variables (gdim : gid -> nat) (gorth : gid -> bool) (csize : nat -> gid -> nat) (le : rel rep) (g : gid).

(** r is e(G), e written without group *)
Definition rep_of (e : expr) (r : rep) : Prop :=
  exists2 v, eval gdim gorth csize le None e = Ok v & call_val gdim gorth csize le v (Some g) = Ok (VRep r).
(** the elements E of the group g preserve the form J: h^T J h = J *)
Definition isometries (J : fmat R) (E : gel R -> Prop) : Prop :=
  forall M, E M -> [/\ group_elem conj sinv linv crho gdim csize (pred1 g) M,
    orth_elem crho gdim csize gorth (pred1 g) M & forall A, glook M (Some g) = Ok A -> isometry J (den A)].
End S.

(** ** Statistics *)
Section St.
Variable F : fieldType.
Variables (conj sinv : F -> F) (linv : nat -> seq F -> seq F).
Variables (crho : nat -> option gid -> gel F -> res (op F)).
Variables (gdim : gid -> nat) (csize : nat -> gid -> nat).
Local Notation sz := (rsize gdim csize).
Local Notation rho_dense := (rho_dense conj sinv linv crho).
(** the statistic is a number or a vector of length 1 or n; its i-th entry *)
Definition stat_fits (n : nat) (s : stat F) : bool := if s is SVec v then (size v == n) || (size v == 1%N) else true.
Definition entry (n : nat) (s : stat F) (i : nat) : F :=
  match s with SNum c => c | SVec v => if size v == n then nth 0 v i else nth 0 v 0 end.
Variable E : gel F -> Prop.
(** the vector s is invariant under r.rho(M) *)
Definition invariant_stat (r : rep) (s : stat F) : Prop :=
  stat_fits (sz r) s /\ forall M, E M -> exists2 D, rho_dense r M = Ok (sz r, sz r, D) &
    forall i, (i < sz r)%N -> \sum_(0 <= j < sz r) nth 0 D (i * sz r + j)%N * entry (sz r) s j = entry (sz r) s i.
(** the diagonal matrix of s commutes with r.rho(M) *)
Definition commuting_stat (r : rep) (s : stat F) : Prop :=
  stat_fits (sz r) s /\ forall M, E M -> exists2 D, rho_dense r M = Ok (sz r, sz r, D) &
    forall i j, (i < sz r)%N -> (j < sz r)%N ->
      nth 0 D (i * sz r + j)%N * entry (sz r) s j = entry (sz r) s i * nth 0 D (i * sz r + j)%N.
Definition nonzero_stat (n : nat) (s : stat F) : Prop := forall i, (i < n)%N -> entry n s i != 0.
End St.

(** ** equivariance_error *)
Section Err.
Variables (sinv : RR -> RR) (linv : nat -> seq RR -> seq RR).
Variables (crho : nat -> option gid -> gel RR -> res (op RR)).
Variables (gdim : gid -> nat) (csize : nat -> gid -> nat).
Local Notation sz := (rsize gdim csize).
Local Notation rho_dense := (rho_dense idR sinv linv crho).
(** W is an array of shape (repout.size(),repin.size(),r); W[:,:,c] repin.rho(h) =
    repout.rho(h) W[:,:,c] for all c *)
Definition intertwines (W : seq RR) (repin repout : rep) (r : nat) (h : gel RR) : Prop :=
  exists A B, [/\ rho_dense repin h = Ok (sz repin, sz repin, A), rho_dense repout h = Ok (sz repout, sz repout, B) &
    forall i j c, (i < sz repout)%N -> (j < sz repin)%N -> (c < r)%N ->
      \sum_(0 <= k < sz repin) nth 0 W ((i * sz repin + k) * r + c)%N * nth 0 A (k * sz repin + j)%N =
      \sum_(0 <= k < sz repout) nth 0 B (i * sz repout + k)%N * nth 0 W ((k * sz repin + j) * r + c)%N].
(** the functions of numpy on exact real numbers *)
Definition equivariance_error_R (tiny : RR) : seq RR -> rep -> rep -> nat -> seq (seq RR) -> res RR :=
  equivariance_error idR sinv linv crho gdim csize R_sqrt.sqrt Rabs Rmax Rdiv (fun x n => Rdiv x (INR n)) tiny.
End Err.
