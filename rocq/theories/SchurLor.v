(** * SchurLor: the Lorentz groups are irreducible. *)
From Coq Require Import Reals String ClassicalEpsilon Lra.
From mathcomp Require Import all_ssreflect all_algebra all_fingroup.
From mathcomp Require Import zify.
From Verif Require Import Np NpLemmas Spec SpecLemmas LinOp LinOpSpec LinOpInv LinOpProofs MxBridge Rep SolSpec Rstruct Expm.
From Verif Require Import Groups GroupsSpec GroupsPerm GroupsSpecR GroupsDet ExactSpec DataAlg DimSpec DimAlg DimThm DimOrth DimForm SchurSpec SchurAlg SchurGrp.
Set Implicit Arguments.
Unset Strict Implicit.
Unset Printing Implicit Defensive.
Import GRing.Theory.
Local Open Scope ring_scope.

(** ** the Lorentz groups *)
Lemma iso_mul n (J A B : fmat RR) : fr J = n -> fc J = n -> fr A = n -> fc A = n -> fr B = n -> fc B = n ->
  isometry J A -> isometry J B -> isometry J (fmul A B).
Proof.
move=> j1 j2 a1 a2 b1 b2 IA IB.
have M X : fr X = n -> fc X = n -> isometry J X <-> (mxf n n X)^T *m mxf n n J *m mxf n n X = mxf n n J.
  move=> x1 x2; have E : mxf n n (fmul (ftr X) (fmul J X)) = (mxf n n X)^T *m mxf n n J *m mxf n n X.
    by rewrite !(@mxf_mul _ _ _ n) //= mxf_tr mulmxA.
  rewrite -E; split=> [/mxf_meq|H]; first by apply.
  by apply: meq_mxf; rewrite /= ?x1 ?x2 ?j1 ?j2.
apply/M => //; rewrite (@mxf_mul _ _ _ n) // trmx_mul.
have /M-/(_ a1 a2) EA := IA; have /M-/(_ b1 b2) EB := IB.
by rewrite -[RHS]EB -[in RHS]EA !mulmxA.
Qed.
Lemma iso_det n (J K A : fmat RR) : fr J = n -> fc J = n -> fc K = n -> fr K = n -> meq (fmul K J) (fid RR n) ->
  fr A = n -> fc A = n -> isometry J A -> fdet n A * fdet n A = 1.
Proof.
move=> j1 j2 k2 k1 KJ a1 a2 I.
have E1 : fdet n K * fdet n J = 1 by rewrite -fdet_mul // (fdet_meq KJ) // fdet_id.
have E2 : fdet n A * (fdet n J * fdet n A) = fdet n J.
  rewrite -{2}(fdet_meq I) //= ?a2 // !fdet_mul //= ?a1 //; congr (_ * _).
  by rewrite /fdet mxf_tr det_tr.
by rewrite -[RHS]E1 -{1}E2 [fdet n J * _]mulrC [fdet n A * (_ * _)]mulrA mulrCA E1 mulr1.
Qed.
Definition ch : RR := Rdiv (IZR 5) (IZR 4).
Definition sh : RR := Rdiv (IZR 3) (IZR 4).
(** the boost in the direction j *)
Definition boost (n j : nat) : fmat RR := FM n n (fun a b =>
  if (a == 0%N) && (b == 0%N) || (a == j) && (b == j) then ch
  else if (a == 0%N) && (b == j) || (a == j) && (b == 0%N) then sh else (a == b)%:R).
Lemma ch_sh : ch * ch - sh * sh = 1.
Proof. by rewrite /ch /sh; change (@eq R (Rminus (Rmult (Rdiv 5 4) (Rdiv 5 4)) (Rmult (Rdiv 3 4) (Rdiv 3 4))) R1); field. Qed.
Lemma sh_ch : sh * sh - ch * ch = -1.
Proof. by rewrite -opprB ch_sh. Qed.
Ltac mink := split=> //= -[|[|[|[|?]]]] [|[|[|[|?]]]] //= _ _; rewrite !big_nat_recr //= !big_geq //= !(mul0r, mulr0, mul1r, mulr1, add0r, addr0, mulN1r, mulrN1, mulrN, oppr0) ?ch_sh ?sh_ch // ?[sh * ch]mulrC ?subrr ?addNr //.
Lemma boost2_iso : isometry (minkowski RR 2) (boost 2 1).
Proof. mink. Qed.
Lemma boost4_iso j : (0 < j < 4)%N -> isometry (minkowski RR 4) (boost 4 j).
Proof. case: j => [|[|[|[|j]]]] // _; mink. Qed.
Lemma boost_sh n j : (0 < j)%N -> fe (boost n j) 0 j = sh.
Proof. by case: j => // j _; rewrite /= eqxx. Qed.
Lemma sh_ne : sh <> 0.
Proof. by move=> E; have : @eq R (Rdiv 3 4) R0 := E; lra. Qed.
Definition special (X : fmat RR) : Prop := [/\ isometry (minkowski RR 4) X, fdet 4 X = 1 & Rlt R0 (fe X 0 0)].
(** two boosts in the same direction *)
Lemma boosts j : (0 < j < 4)%N -> special (fmul (boost 4 j) (boost 4 j)) /\ fe (fmul (boost 4 j) (boost 4 j)) 0 j <> 0.
Proof.
move=> Hj; have I := boost4_iso Hj; split.
  split; first exact: (@iso_mul 4).
    by rewrite fdet_mul //; apply: (@iso_det 4 (minkowski RR 4) (minkowski RR 4)) => //; exact: mink_sq.
  have -> : fe (fmul (boost 4 j) (boost 4 j)) 0 0 = ch * ch + sh * sh.
    by case: j Hj {I} => [|[|[|[|j]]]] //= _; rewrite !big_nat_recr //= !big_geq //= !(mul0r, mulr0, add0r, addr0).
  rewrite /ch /sh; change (Rlt R0 (Rplus (Rmult (Rdiv 5 4) (Rdiv 5 4)) (Rmult (Rdiv 3 4) (Rdiv 3 4)))); lra.
have -> : fe (fmul (boost 4 j) (boost 4 j)) 0 j = ch * sh + sh * ch.
  by case: j Hj {I} => [|[|[|[|j]]]] //= _; rewrite !big_nat_recr //= !big_geq //= !(mul0r, mulr0, add0r, addr0).
by rewrite /ch /sh => E; have : @eq R (Rplus (Rmult (Rdiv 5 4) (Rdiv 3 4)) (Rmult (Rdiv 3 4) (Rdiv 5 4))) R0 := E; lra.
Qed.
(** half turns in space *)
Definition turn (i j k : nat) : RR := flip (if i == 0%N then j else i) k *
  flip (if (1 != i) && (1 != j) then 1 else if (2 != i) && (2 != j) then 2 else 3)%N k.
Lemma turn_ok i j : (i < 4)%N -> (j < 4)%N -> i != j ->
  special (smat 4 (turn i j) (iota 0 4)) /\ turn i j i <> turn i j j.
Proof.
move=> Hi Hj ne.
have S k : turn i j k * turn i j k = 1 by rewrite /turn mulrACA !flip_sq mulr1.
split.
  split.
  - apply: mono_iso (is_perm_iota 4) _ => // a b Ha Hb; rewrite !nth_iota // !add0n /=.
    by case: eqP => [->|_]; rewrite ?mulr0 // S mul1r.
  - rewrite det_smat det_pid mulr1 !big_ord_recl big_ord0 /turn /flip.
    by case: i j Hi Hj ne {S} => [|[|[|[|?]]]] [|[|[|[|?]]]] //= _ _ _; rewrite !(mulr1, mul1r, mulrN1, opprK).
  - have -> : fe (smat 4 (turn i j) (iota 0 4)) 0 0 = 1; last exact: Rlt_0_1.
    by rewrite diag_on // /turn /flip; case: i j Hi Hj ne {S} => [|[|[|[|?]]]] [|[|[|[|?]]]] //= _ _ _; rewrite mulr1.
have N1 : (1 : RR) <> -1 by move=> E; have : @eq R R1 (Ropp R1) := E; lra.
have N2 : (-1 : RR) <> 1 by move=> E; have : @eq R (Ropp R1) R1 := E; lra.
by rewrite /turn /flip; case: i j Hi Hj ne {S} => [|[|[|[|?]]]] [|[|[|[|?]]]] //= _ _ _; rewrite !(mulr1, mul1r).
Qed.
Lemma irr_so13p : irreducible_on 4 special.
Proof.
have n4 : (0 < 4)%N by [].
have S1 : special (smat 4 (fun=> 1) (iota 0 4)).
  split; [exact: one_elt | by rewrite det_smat big1 // det_pid mulr1 | by rewrite diag_on //; exact: Rlt_0_1].
apply: commutes_scalar => [i j Hi Hj ne|j Hj].
  have [T N] := turn_ok Hi Hj ne.
  by exists (smat 4 (turn i j) (iota 0 4)); split=> //; [exact: diag_off | rewrite !diag_on].
exists j => //; split; last by exists (smat 4 (fun=> 1) (iota 0 4)); split=> //; rewrite diag_on //; exact: one_ne.
case: j Hj => [|j] Hj; first by exists (smat 4 (fun=> 1) (iota 0 4)); split=> //; rewrite diag_on //; exact: one_ne.
have [B N] := boosts (Hj : (0 < j.+1 < 4)%N); by exists (fmul (boost 4 j.+1) (boost 4 j.+1)).
Qed.
Lemma irr_so13 : irreducible_on 4 (fun X => isometry (minkowski RR 4) X /\ fdet 4 X = 1).
Proof. by apply: irreducible_sub irr_so13p => A _ _ []. Qed.
Lemma irr_o13 : irreducible_on 4 (isometry (minkowski RR 4)).
Proof. by apply: irreducible_sub irr_so13p => A _ _ []. Qed.
Lemma irr_o11 : irreducible_on 2 (isometry (minkowski RR 2)).
Proof.
have N1 : (1 : RR) <> -1 by move=> E; have : @eq R R1 (Ropp R1) := E; lra.
apply: commutes_scalar => [i j Hi Hj ne|j Hj].
  exists (smat 2 (flip 0) (iota 0 2)); split=> //.
  - apply: mono_iso (is_perm_iota 2) _ => // a b Ha Hb; rewrite !nth_iota // !add0n /=.
    by case: eqP => [->|_]; rewrite ?mulr0 // flip_sq mul1r.
  - exact: diag_off.
  - rewrite !diag_on // /flip; case: i j Hi Hj ne => [|[|?]] [|[|?]] //= _ _ _; first by move=> E; apply: N1.
exists j => //; split; last by exists (smat 2 (fun=> 1) (iota 0 2)); split=> //; [exact: one_elt | rewrite diag_on //; exact: one_ne].
case: j Hj => [|[|j]] // Hj; first by exists (smat 2 (fun=> 1) (iota 0 2)); split=> //; [exact: one_elt | rewrite diag_on //; exact: one_ne].
by exists (boost 2 1); split=> //; [exact: boost2_iso | rewrite boost_sh //; exact: sh_ne].
Qed.
