(** * NnGate2: gated and gate_indices in the terms of the claims. *)
From mathcomp Require Import all_ssreflect all_algebra.
From mathcomp Require Import zify.
From Verif Require Import Np NpLemmas Spec SpecLemmas LinOp LinOpSpec LinOpProofs Rep RepSpec RepMat RepWf RepFun RepAlg RepOps RhoProofs RepThm RepThm1 Solver SolSpec SolAlg Nn NnSpec NnLin NnGate.
Set Implicit Arguments.
Unset Strict Implicit.
Unset Printing Implicit Defensive.
Import GRing.Theory.
Local Open Scope ring_scope.

Theorem gated_rho (R : comRingType) (conj sinv : R -> R) (linv : nat -> seq R -> seq R) (crho : nat -> option gid -> gel R -> res (op R))
    (gdim : gid -> nat) (csize : nat -> gid -> nat) (le : rel rep) (gperm : gid -> bool) (cperm : nat -> bool) (g : gid) :
  let sz := rsize gdim csize in
  forall r, total_order_on (key gdim csize le (pred1 g)) le -> wfr gdim csize le (pred1 g) r ->
  exists2 r', gated gdim csize le gperm cperm r = Ok (VRep r') &
  [/\ wfr gdim csize le (pred1 g) r', sz r' = (sz r + gates gperm cperm r)%N &
    forall M, group_elem conj sinv linv crho gdim csize (pred1 g) M ->
      exists2 D, rho_dense conj sinv linv crho r M = Ok (sz r, sz r, D) &
        rho_dense conj sinv linv crho r' M = Ok (sz r', sz r', bdiag (sz r) D (gates gperm cperm r) (flat (fid R (gates gperm cperm r))))].
Proof.
move=> sz r O W.
have [r' E [W' S' _ _]] := gated_ok (R := R) (atom := fun k => fid R (sz k)) gperm cperm O (fun k _ => Logic.conj erefl erefl) W.
exists r' => //; split=> // M HM; exists (flat (rmat (arho sinv linv crho M) r)); first exact: (rho_dense_ok HM W).
rewrite (rho_dense_ok HM W'); congr (Ok (_, _, _)).
have HA k Hk := @arho_kok R conj sinv linv crho gdim csize (pred1 g) M k HM Hk.
have [s Es [_ _ h3 _]] := gated_ok gperm cperm O HA W; move: Es; rewrite E => -[Es]; subst s.
rewrite (flat_meq h3) /bdiag; apply: flat_meq; apply: meq_sym; apply: meq_fdsum; first exact: (unflat_rmat HM W).
by have := unflat_flat (fid R (gates gperm cperm r)).
Qed.

Theorem gate_indices_range (gdim : gid -> nat) (csize : nat -> gid -> nat) (gperm : gid -> bool) (cperm : nat -> bool) (d : dict) :
  let sz := rsize gdim csize in let r := RSum d (iota 0 (sz (RSum d [::]))) in
  let gate k := (k != RScalar) && ~~ isperm gperm cperm k in
  exists2 l, gate_indices gdim csize gperm cperm r = Ok (IntIdx l) &
  [/\ size l = sz r,
      forall t j, (t < size (dexp d))%N -> (j < sz (nth RScalar (dexp d) t))%N ->
        nth 0%N l (off sz (dexp d) t + j) =
        if gate (nth RScalar (dexp d) t) then (sz r + count gate (take t (dexp d)))%N else (off sz (dexp d) t + j)%N &
      all (fun i => i < sz r + gates gperm cperm r)%N l].
Proof.
move=> sz r gate; have [l El [Sl Hl]] := gate_indices_ok gdim csize gperm cperm d.
exists l => //; split=> //.
have SN : sumn (map sz (dexp d)) = sz r by rewrite sumn_dexp.
apply/allP=> x /(nthP 0%N)[i Hi <-]; rewrite Sl in Hi.
have [t [j [Ht Hj ->]]] : exists t j, [/\ (t < size (dexp d))%N, (j < sz (nth RScalar (dexp d) t))%N & i = (off sz (dexp d) t + j)%N].
  by apply: off_ex; rewrite SN.
have := off_lt Ht Hj; rewrite SN => L.
rewrite Hl //; case: ifP => G; last exact: ltn_addr.
rewrite ltn_add2l /= -{2}(cat_take_drop t (dexp d)) count_cat (drop_nth RScalar Ht) /=.
move: G; rewrite /needs_gate => ->; rewrite add1n addnS ltnS; exact: leq_addr.
Qed.
