(** * ExRep: concrete group elements for the examples beside the theorems. *)
From mathcomp Require Import all_ssreflect all_algebra.
From Verif Require Import Np Spec SpecLemmas LinOp LinOpSpec LinOpMore Rep RepSpec RepWf RepExpr RepThm DrhoThm DualNum RepCode.
Set Implicit Arguments.
Unset Strict Implicit.
Unset Printing Implicit Defensive.
Import GRing.Theory.
Local Open Scope ring_scope.

(** inverse of a 2x2 (or 1x1) matrix of determinant 1 *)
Definition linv2 (R : ringType) (n : nat) (D : seq R) : seq R :=
  if D is [:: a; b; c; d] then [:: d; - b; - c; a] else D.
(** all groups have dimension 2; every user-defined class is the determinant, i.e. 1x1,
    trivial on the elements below *)
Definition gd2 (g : gid) : nat := 2.
Definition cs1 (c : nat) (g : gid) : nat := 1.
Definition cr1 (R : comRingType) (c : nat) (G : option gid) (M : gel R) : res (op R) := Ok (OArr 1 1 [:: 1]).
Definition cd1 (R : comRingType) (c : nat) (G : option gid) (M : gel R) : res (op R) := Ok (OArr 1 1 [:: 0]).
Definition noorth (g : gid) := false.

Section Gen.
Variable R : comRingType.
(** the shear (1 x; 0 1) *)
Definition shear (x : R) : gel R := GMat (OArr 2 2 [:: 1; x; 0; 1]).
Definition nilp2 (x : R) : gel R := GMat (OArr 2 2 [:: 0; x; 0; 0]).

Lemma inv11 (conj sinv : R -> R) : invertible conj sinv (@linv2 R) 1 (OArr 1 1 [:: 1]).
Proof.
apply: invertible_arr => //; split=> // [[|i]] [|j] //= _ _; by rewrite big_nat1 mulr1.
Qed.
Lemma inv_shear (conj sinv : R -> R) x : invertible conj sinv (@linv2 R) 2 (OArr 2 2 [:: 1; x; 0; 1]).
Proof.
apply: invertible_arr => //; split=> // [[|[|i]]] [|[|j]] //= _ _;
  rewrite !big_nat_recr //= big_geq // ?(mul1r, mulr1, mul0r, mulr0, add0r, addr0, oppr0, mulr0) //.
- by rewrite addNr.
- by rewrite subrr.
Qed.

Lemma shear_elem (conj sinv : R -> R) gs x :
  group_elem conj sinv (@linv2 R) (@cr1 R) gd2 cs1 gs (shear x).
Proof.
move=> g _; exists (OArr 2 2 [:: 1; x; 0; 1]) => //; split; first exact: inv_shear.
by move=> c; exists (OArr 1 1 [:: 1]) => //; split=> //; apply: inv11.
Qed.
Lemma nilp_lie (conj : R -> R) gs x : lie_elem conj (@cd1 R) gd2 cs1 gs (nilp2 x).
Proof.
move=> g _; exists (OArr 2 2 [:: 0; x; 0; 0]) => //; split; first exact: lie_arr.
by move=> c; exists (OArr 1 1 [:: 0]) => //; split=> //; apply: lie_arr.
Qed.
Lemma shear_noorth gs x : orth_elem (@cr1 R) gd2 cs1 noorth gs (shear x).
Proof. by []. Qed.

(** the quarter turn, in an orthogonal group *)
Definition allorth (g : gid) := true.
Definition turn : gel R := GMat (OArr 2 2 [:: 0; 1; -1; 0]).
Definition infrot : gel R := GMat (OArr 2 2 [:: 0; 1; -1; 0]).
Lemma turn_elem (conj sinv : R -> R) gs :
  group_elem conj sinv (@linv2 R) (@cr1 R) gd2 cs1 gs turn.
Proof.
move=> g _; exists (OArr 2 2 [:: 0; 1; -1; 0]) => //; split.
  apply: invertible_arr => //; split=> // [[|[|i]]] [|[|j]] //= _ _;
    by rewrite !big_nat_recr //= big_geq // ?(mul1r, mulr1, mul0r, mulr0, add0r, addr0, oppr0, mulr0, mulrN1, mulN1r, opprK).
by move=> c; exists (OArr 1 1 [:: 1]) => //; split=> //; apply: inv11.
Qed.
Lemma turn_orth gs : orth_elem (@cr1 R) gd2 cs1 allorth gs turn.
Proof.
move=> g _ _; split=> [A [<-]|c C [<-]]; split; split=> //.
- case=> [|[|i]] [|[|j]] //= _ _;
    by rewrite !big_nat_recr //= big_geq // ?(mul1r, mulr1, mul0r, mulr0, add0r, addr0, mulrN1, mulN1r, opprK).
- case=> [|[|i]] [|[|j]] //= _ _;
    by rewrite !big_nat_recr //= big_geq // ?(mul1r, mulr1, mul0r, mulr0, add0r, addr0, mulrN1, mulN1r, opprK).
- by case=> [|i] [|j] //= _ _; rewrite big_nat1 mulr1.
- by case=> [|i] [|j] //= _ _; rewrite big_nat1 mulr1.
Qed.
Lemma infrot_lie (conj : R -> R) gs : lie_elem conj (@cd1 R) gd2 cs1 gs infrot.
Proof.
move=> g _; exists (OArr 2 2 [:: 0; 1; -1; 0]) => //; split; first exact: lie_arr.
by move=> c; exists (OArr 1 1 [:: 0]) => //; split=> //; apply: lie_arr.
Qed.
Lemma infrot_orth gs : orth_lie (@cd1 R) allorth gs infrot.
Proof.
move=> g _ _; split=> [A [<-]|c C [<-]]; split=> //.
  by case=> [|[|i]] [|[|j]] //= _ _; rewrite ?oppr0 ?opprK.
by case=> [|i] [|j] //= _ _; rewrite oppr0.
Qed.
End Gen.

(** V, V*, and some compound representations of the group 0 *)
Definition V0 : rep := RBase (Some 0%N).
Definition the (A : Type) (d : A) (x : res A) : A := if x is Ok a then a else d.
Definition tr0 := tr gd2 noorth cs1 le_asc.
Definition add0 := add gd2 cs1 le_asc.
Definition mul0 := mul gd2 cs1 le_asc.
Definition Vd : rep := the V0 (tr0 V0).
(** 1 + V* + V, and V (x) V* *)
Definition exS : rep := the V0 (do x <- add0 RScalar Vd; add0 x V0).
Definition exP : rep := the V0 (mul0 V0 Vd).
Definition wf0 := wfr gd2 cs1 le_asc (pred1 0%N).
Lemma exS_wf : wf0 exS. Proof. by vm_compute. Qed.
Lemma exP_wf : wf0 exP. Proof. by vm_compute. Qed.
Definition idz (x : int) : int := x.
Definition rho_z := rho_dense idz idz (@linv2 int_comRing) (@cr1 int_comRing).
Definition drho_z := drho_dense idz (@cd1 int_comRing).
Definition ord0 : Prop := total_order_on (key gd2 cs1 le_asc (pred1 0%N)) le_asc.
Definition elem0 : gel int_comRing -> Prop := group_elem idz idz (@linv2 int_comRing) (@cr1 int_comRing) gd2 cs1 (pred1 0%N).
Definition lie0 : gel int_comRing -> Prop := lie_elem idz (@cd1 int_comRing) gd2 cs1 (pred1 0%N).
Lemma ord0_ok : ord0. Proof. exact: le_asc_total. Qed.
Lemma shear0_ok (x : int) : elem0 (@shear int_comRing x). Proof. exact: shear_elem. Qed.
Lemma nilp0_ok (x : int) : lie0 (@nilp2 int_comRing x). Proof. exact: nilp_lie. Qed.
