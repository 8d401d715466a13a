(** * NnSpec: vocabulary for the statements about layers. *)
From Coq Require Import Reals.
From mathcomp Require Import all_ssreflect all_algebra.
From Verif Require Import Np Spec LinOp LinOpSpec Rep RepSpec RepWf Solver SolSpec Rstruct Expm GrpSpec Nn.
Set Implicit Arguments.
Unset Strict Implicit.
Unset Printing Implicit Defensive.
Import GRing.Theory.
Local Open Scope ring_scope.

Section S.
Variable R : comRingType.
Variables (conj sinv : R -> R) (linv : nat -> seq R -> seq R).
Variables (crho : nat -> option gid -> gel R -> res (op R)).
Variables (gdim : gid -> nat) (csize : nat -> gid -> nat).
Local Notation sz := (rsize gdim csize).
Local Notation rho_dense := (rho_dense conj sinv linv crho).

(** X and Y consist of bs rows of length r.size(), and row b of Y is r.rho(Ms b) times row b
    of X *)
Definition acts_rows (r : rep) (Ms : nat -> gel R) (bs : nat) (X Y : seq R) : Prop :=
  let n := sz r in
  [/\ size X = (bs * n)%N, size Y = (bs * n)%N &
      forall b, (b < bs)%N -> exists2 D, rho_dense r (Ms b) = Ok (n, n, D) &
        forall i, (i < n)%N ->
          nth 0 Y (b * n + i)%N = \sum_(0 <= j < n) nth 0 D (i * n + j)%N * nth 0 X (b * n + j)%N].

(** [E]: the group elements *)
Variable E : gel R -> Prop.
(** f maps rows of length rin.size() to rows of length rout.size() without raising and
    commutes with the group acting on each row by an element of its own *)
Definition equivariant (rin rout : rep) (f : nat -> seq R -> res (seq R)) : Prop :=
  forall bs Ms X X', (forall b, (b < bs)%N -> E (Ms b)) -> acts_rows rin Ms bs X X' ->
    exists Y Y', [/\ f bs X = Ok Y, f bs X' = Ok Y' & acts_rows rout Ms bs Y Y'].

(** rho of k permutes the coordinates *)
Definition acts_by_permutations (k : rep) : Prop :=
  forall M, E M -> exists D s, [/\ rho_dense k M = Ok (sz k, sz k, D), is_perm (sz k) s &
    forall i j, (i < sz k)%N -> (j < sz k)%N -> nth 0 D (i * sz k + j)%N = (j == nth 0%N s i)%:R].
(** the parameters of a block and of the blocks of a network have the sizes of its variables
    (more than bl_dim parameters of the bilinear layer do no harm) *)
Definition fits (K : block R) (P : bparams R) : Prop :=
  [/\ size (p_w P) = (l_out (b_lin K) * l_in (b_lin K))%N, size (p_b P) = l_out (b_lin K) &
      (bl_dim (b_bil K) <= size (p_bi P))%N].
Fixpoint fits_all (Ks : seq (block R)) (Ps : seq (bparams R)) : Prop :=
  match Ks, Ps with
  | [::], [::] => True
  | K :: Ks', P :: Ps' => fits K P /\ fits_all Ks' Ps'
  | _, _ => False
  end.
End S.

(** first coordinate of summand number t, the summands having the sizes sz *)
Definition off (sz : rep -> nat) (ks : seq rep) (t : nat) : nat := sumn (map sz (take t ks)).
(** the number of gates: one for each summand that is neither Scalar nor flagged is_permutation *)
Definition gates (gperm : gid -> bool) (cperm : nat -> bool) (r : rep) : nat :=
  if r is RSum d _ then count (fun k => (k != RScalar) && ~~ isperm gperm cperm k) (dexp d)
  else (~~ isperm gperm cperm r).

(** possible values of np.random.choice(c,n), n <= c, drawn for the key k *)
Definition choice_ok (choice : rep -> nat -> nat -> seq nat) : Prop :=
  forall k c n, (n <= c)%N -> size (choice k c n) = n /\ all (fun j => (j < c)%N) (choice k c n).
(** possible values of np.random.binomial(rank,.5,n) *)
Definition draw_ok (draw : nat -> nat -> seq nat) : Prop :=
  forall rank n, size (draw rank n) = n /\ all (fun j => (j <= rank)%N) (draw rank n).

Section G.
Variables (sinv : RR -> RR) (linv : nat -> seq RR -> seq RR).
Variables (gdim : gid -> nat) (gens lies : gid -> seq (op RR)).
(** M is an element of the group g: of the group generated by its discrete generators and
    the exponentials of its Lie algebra *)
Definition element (g : gid) (M : gel RR) : Prop :=
  exists2 X, generated gdim (pred1 g) gens lies X & elem_is sinv linv gdim (pred1 g) M X.
End G.

(** hidden representations: a number of channels, or a representation that gives a
    canonical sum for the group g; the number of channels bounds the loops of uniform_rep *)
Section H.
Variables (gdim : gid -> nat) (gorth : gid -> bool) (csize : nat -> gid -> nat) (le : rel rep) (g : gid).
Definition canonical_sum (r : rep) : Prop := exists d, r = RSum d (iota 0 (rsize gdim csize r)).
Definition chan_ok (c : chan) : Prop :=
  match c with
  | ChInt n => (1 < n)%N
  | ChRep r => exists2 r', call gdim gorth csize le r (Some g) = Ok r' & wfr gdim csize le (pred1 g) r' /\ canonical_sum r'
  end.
Definition chans_ok (c : chans) : Prop :=
  match c with ChOne c => chan_ok c | ChList l => forall c, List.In c l -> chan_ok c end.
End H.
Definition width (c : chan) : nat := if c is ChInt n then n else 0.
Definition widths (c : chans) : nat :=
  match c with ChOne c => width c | ChList l => \max_(c <- l) width c end.
(** r is the argument ch of a network with n layers, or an item of the list *)
Definition asked (ch : chans) (n : nat) (r : rep) : Prop :=
  match ch with
  | ChOne c => c = ChRep r /\ (0 < n)%N
  | ChList l => List.In (ChRep r) l
  end.
