(** * FlowExist: local existence of solutions. *)
From Coq Require Import Reals Lra.
From mathcomp Require Import all_ssreflect all_algebra.
From mathcomp Require Import zify.
From Verif Require Import Np Spec SpecLemmas LinOp Rstruct Expm Data DataSpec DataHamSpec DataHam TrainerFlow FlowSpec Smooth FlowThm.
From Verif Require Picard.
Set Implicit Arguments.
Unset Strict Implicit.
Unset Printing Implicit Defensive.
Import GRing.Theory.
Local Open Scope ring_scope.

(** the largest absolute value, plus one *)
Definition bound (z : seq RR) : R := foldr (fun x y => Rplus (Rabs x) y) R1 z.
Lemma bound_ge (z : seq RR) i : Rle (Rplus (Rabs (nth 0 z i)) R1) (bound z).
Proof.
have P (l : seq RR) : Rle R1 (bound l) by elim: l => [|x l IH] /=; [lra | have := Rabs_pos x; lra].
elim: z i => [|x z IH] [|i] /=; rewrite ?Rabs_R0; try lra.
- by have := P z; lra.
- change (Rle (Rplus (Rabs (nth 0 z i)) R1) (Rplus (Rabs x) (bound z))).
  by move: (IH i) (Rabs_pos x); move: (Rabs (nth 0 z i)) => a h1 h2; lra.
Qed.
Definition clip (B x : R) : R := Rmax (Ropp B) (Rmin B x).
Lemma clip_in B x : Rle R0 B -> Rle (Rabs (clip B x)) B.
Proof.
by move=> B0; rewrite /clip /Rmax /Rmin; case: (Rle_dec B x) => h1; case: Rle_dec => h2; apply: Rabs_le; lra.
Qed.
Lemma clip_id B x : Rle (Rabs x) B -> clip B x = x.
Proof.
move=> H; have [h1 h2] : Rle (Ropp B) x /\ Rle x B by split_Rabs; lra.
by rewrite /clip Rmin_right // Rmax_right.
Qed.
Lemma clip_lip B x y : Rle R0 B -> Rle (Rabs (Rminus (clip B x) (clip B y))) (Rabs (Rminus x y)).
Proof.
move=> B0; rewrite /clip /Rmax /Rmin.
by case: (Rle_dec B x) => h1; case: (Rle_dec B y) => h2; repeat case: Rle_dec => ?; split_Rabs; lra.
Qed.
Section Ex.
Variables (n : nat) (F : seq RR -> res (seq RR)).
Hypothesis FT : forall z, size z = n -> exists2 w, F z = Ok w & size w = n.
Hypothesis FL : locally_lipschitz n F.
(** solutions in the box of radius B up to the time h *)
Lemma box_exists z0 w0 B L h : size z0 = n -> F z0 = Ok w0 -> Rle R0 B ->
  (forall z z' w w' d, size z = n -> size z' = n -> in_box B z -> in_box B z' ->
    F z = Ok w -> F z' = Ok w' -> (forall i, (i < n)%N -> Rle (Rabs (nth 0 z i - nth 0 z' i)) d) ->
    forall i, (i < n)%N -> Rle (Rabs (nth 0 w i - nth 0 w' i)) (Rmult L d)) ->
  Rlt R0 h -> Rle (Rmult (Rabs L) h) (Rinv 2) ->
  (forall i, Rle (Rmult (Rplus (bound w0) (Rmult (Rabs L) (Rmult 2 B))) h) (Rminus B (Rabs (nth 0 z0 i)))) ->
  exists2 c, c R0 = z0 & solves_on (Ropp h) h n F c.
Proof.
move=> Sz0 Ew0 B0 HL h0 Kh Mh.
pose v (x : nat -> R) : seq RR := mkseq (fun j => clip B (x j)) n.
pose G i (x : nat -> R) : R := if F (v x) is Ok w then nth 0 w i else 0.
pose K := Rabs L; pose M := Rplus (bound w0) (Rmult K (Rmult 2 B)).
have Sv x : size (v x) = n by rewrite size_mkseq.
have vi x i : (i < n)%N -> nth 0 (v x) i = clip B (x i) by move=> Hi; rewrite nth_mkseq.
have vb x : in_box B (v x).
  move=> i; case: (ltnP i n) => Hi; first by rewrite vi //; exact: clip_in.
  by rewrite nth_default ?Sv // Rabs_R0.
have K0 : Rle R0 K := Rabs_pos L.
have M1 : Rle R1 M.
  by have := bound_ge w0 0; have := Rabs_pos (nth 0 w0 0); have := Rmult_le_pos K (Rmult 2 B) K0 ltac:(lra); rewrite /M; lra.
have M0 : Rle R0 M by lra.
have zb : in_box B z0 by move=> i; have := Mh i; have := Rmult_le_pos M h M0 ltac:(lra); rewrite -/K -/M; lra.
have KL d : Rle R0 d -> Rle (Rmult L d) (Rmult K d) by move=> d0; apply: Rmult_le_compat_r => //; exact: Rle_abs.
have GL x y d i : (forall j, (j < n)%coq_nat -> Rle (Rabs (Rminus (x j) (y j))) d) -> (i < n)%coq_nat ->
    Rle (Rabs (Rminus (G i x) (G i y))) (Rmult K d).
  move=> H Hi; have [w Ew _] := FT (Sv x); have [w' Ew' _] := FT (Sv y).
  rewrite /G Ew Ew'; have d0 : Rle R0 d by apply: Rle_trans (H i Hi); exact: Rabs_pos.
  apply: Rle_trans (KL d d0); apply: (HL _ _ _ _ d (Sv x) (Sv y) (vb x) (vb y) Ew Ew'); last exact/ltP.
  by move=> j Hj; rewrite !vi //; apply: Rle_trans (clip_lip _ _ B0) (H j _); exact/ltP.
have GB x i : (i < n)%coq_nat -> Rle (Rabs (G i x)) M.
  move=> Hi; have [w Ew _] := FT (Sv x); rewrite /G Ew.
  have D : Rle (Rabs (Rminus (nth 0 w i) (nth 0 w0 i))) (Rmult L (Rmult 2 B)).
    apply: (HL _ _ _ _ (Rmult 2 B) (Sv x) Sz0 (vb x) zb Ew Ew0); last exact/ltP.
    move=> j Hj; have h1 := vb x j; have h2 := zb j.
    by apply: Rle_trans (Rabs_triang _ _) _; rewrite Rabs_Ropp; lra.
  have D2 := KL (Rmult 2 B) ltac:(lra); have := bound_ge w0 i; rewrite /M.
  have T := Rabs_triang (Rminus (nth 0 w i) (nth 0 w0 i)) (nth 0 w0 i).
  have E : Rplus (Rminus (nth 0 w i) (nth 0 w0 i)) (nth 0 w0 i) = nth 0 w i by rewrite /Rminus; ring.
  by move: T; rewrite E; lra.
pose s := Picard.sol G (nth 0 z0); pose c t : seq RR := mkseq (fun j => s j t) n.
exists c.
  apply: (@eq_from_nth _ 0); rewrite size_mkseq ?Sz0 // => i Hi; rewrite nth_mkseq //.
  exact: Picard.sol_0.
move=> t t1 t2; split; first by rewrite size_mkseq.
have Ht : Rlt (Rabs t) h by apply: Rabs_def1; lra.
have E : v (fun j => s j t) = c t.
  apply: (@eq_from_nth _ 0); rewrite !size_mkseq // => i Hi; rewrite !nth_mkseq //; apply: clip_id.
  have := Picard.sol_lip _ _ _ _ _ (nth 0 z0) K0 M0 h0 Kh GL GB i R0 t (elimT ltP Hi) _ _.
  rewrite Picard.sol_0 Rminus_0_r Rabs_R0 => /(_ ltac:(lra) ltac:(lra)) H.
  have H2 : Rle (Rmult M (Rabs t)) (Rmult M h) by apply: Rmult_le_compat_l => //; lra.
  have := Mh i; rewrite -/K -/M; have := Rabs_triang (Rminus (s i t) (nth 0 z0 i)) (nth 0 z0 i).
  have -> : Rplus (Rminus (s i t) (nth 0 z0 i)) (nth 0 z0 i) = s i t by rewrite /Rminus; ring.
  by move: H; rewrite -/(s i t); lra.
have [w Ew _] : exists2 w, F (c t) = Ok w & size w = n by apply: FT; rewrite size_mkseq.
exists w => // i Hi.
have := Picard.sol_der _ _ _ _ _ (nth 0 z0) K0 M0 h0 Kh GL GB i t (elimT ltP Hi) Ht.
have -> : G i (fun j => s j t) = nth 0 w i by rewrite /G E Ew.
by apply: dl_ext => // x; rewrite nth_mkseq.
Qed.
Theorem local_exists z0 : size z0 = n ->
  exists2 h, Rlt R0 h & exists2 c, c R0 = z0 & solves_on (Ropp h) h n F c.
Proof.
move=> Sz0; pose B := bound z0; have Bz i : Rle (Rplus (Rabs (nth 0 z0 i)) R1) B := bound_ge z0 i.
have B0 : Rle R0 B by have := Bz 0%N; have := Rabs_pos (nth 0 z0 0); lra.
have [L HL] := FL B; have [w0 Ew0 Sw0] := FT Sz0; have K0 := Rabs_pos L.
pose M := Rplus (bound w0) (Rmult (Rabs L) (Rmult 2 B)).
have M1 : Rle R1 M.
  by have := bound_ge w0 0; have := Rabs_pos (nth 0 w0 0); have := Rmult_le_pos (Rabs L) (Rmult 2 B) K0 ltac:(lra); rewrite /M; lra.
pose h := Rinv (Rplus (Rmult 2 (Rabs L)) M).
have h0 : Rlt R0 h by apply: Rinv_0_lt_compat; lra.
have hE : Rmult h (Rplus (Rmult 2 (Rabs L)) M) = R1 by rewrite Rinv_l //; lra.
exists h => //; apply: (box_exists Sz0 Ew0 B0 HL h0).
  by have := Rmult_le_pos h M ltac:(lra) ltac:(lra); lra.
by move=> i; have := Rmult_le_pos h (Rabs L) ltac:(lra) ltac:(lra); have := Bz i; rewrite -/M; lra.
Qed.
(** the time does not depend on the state if F is Lipschitz *)
Definition glip (L : R) : Prop := forall z z' w w' d, size z = n -> size z' = n ->
  F z = Ok w -> F z' = Ok w' -> (forall i, (i < n)%N -> Rle (Rabs (nth 0 z i - nth 0 z' i)) d) ->
  forall i, (i < n)%N -> Rle (Rabs (nth 0 w i - nth 0 w' i)) (Rmult L d).
Lemma uniform_exists L : glip L -> exists2 h, Rlt R0 h & forall z0, size z0 = n -> exists2 c, c R0 = z0 & solves_on (Ropp h) h n F c.
Proof.
move=> HL; have K0 := Rabs_pos L; pose h := Rinv (Rplus (Rmult 4 (Rabs L)) 4).
have h0 : Rlt R0 h by apply: Rinv_0_lt_compat; lra.
have hE : Rmult h (Rplus (Rmult 4 (Rabs L)) 4) = R1 by rewrite Rinv_l //; lra.
have Kh := Rmult_le_pos h (Rabs L) ltac:(lra) K0.
exists h => // z0 Sz0; have [w0 Ew0 Sw0] := FT Sz0.
have bp (x : seq RR) : Rle R1 (bound x) by have := bound_ge x 0; have := Rabs_pos (nth 0 x 0); lra.
have b1 := bp z0; have b2 := bp w0.
apply: (@box_exists z0 w0 (Rmult 2 (Rplus (bound w0) (bound z0))) L h Sz0 Ew0) => //.
- by lra.
- by move=> z z' w w' d h1 h2 _ _; exact: HL.
- by lra.
move=> i; have := bound_ge z0 i; set B := Rplus (bound w0) (bound z0).
have BE : B = Rplus (bound w0) (bound z0) by [].
move: B BE => B BE.
have q1 : Rle (Rmult (bound w0) h) (Rmult (bound w0) (Rinv 4)) by apply: Rmult_le_compat_l; lra.
have q2 : Rle (Rmult (Rmult (Rabs L) h) B) (Rmult (Rinv 4) B) by apply: Rmult_le_compat_r; lra.
lra.
Qed.
End Ex.
