(** * GroupsExactS: the groups generated by Sp(m), Scaling(n) and Trivial(n). *)
From Coq Require Import Reals Lra String.
From Coquelicot Require Import Coquelicot.
From mathcomp Require Import all_ssreflect all_algebra.
From mathcomp Require Import zify.
From Verif Require Import Np NpLemmas Spec SpecLemmas LinOp LinOpSpec LinOpInv MxBridge RepSpec RhoProofs Rstruct Expm GrpSpec RField GenSL GenSO GenSp.
From Verif Require Import Groups GroupsSpec GroupsSpecR ExactSpec GroupsLoop GroupsLie GroupsInit GroupsCtor GroupsThm GroupsFlag GroupsReal GroupsForm GroupsDet GroupsGen GroupsExact.
From Verif Require GroupsSp.
Set Implicit Arguments.
Unset Strict Implicit.
Unset Printing Implicit Defensive.
Import GRing.Theory.
Local Open Scope ring_scope.


Section Symp.
Variable k : nat.
Local Notation m := k.+1.
Local Notation N := (k + (k.+1 + 0)).+1.
Local Notation I := 'I_N.
Local Notation M := 'M[RR]_N.
Definition sg (a : I) : I := inord (if (a < m)%N then a + m else a - m)%N.
Definition sv (a : I) : RR := if (a < m)%N then 1 else -1.
Lemma sgE a : (sg a : nat) = (if (a < m)%N then a + m else a - m)%N.
Proof. by rewrite inordK //; have := ltn_ord a; case: ifP; lia. Qed.
Lemma sgK : involutive sg.
Proof. by move=> a; apply: val_inj; rewrite /= sgE sgE; have := ltn_ord a; case: (ltnP a m) => H; case: ifP; lia. Qed.
Lemma sv0 a : (sv a : R_fieldType) != 0.
Proof. by rewrite /sv; case: ifP => _; rewrite ?oppr_eq0 oner_eq0. Qed.
Lemma svN a : sv (sg a) = - sv a.
Proof.
rewrite /sv sgE; have := ltn_ord a; case: (ltnP a m) => H Ha; case: ifP => // H'; rewrite ?opprK //; exfalso; move: H H' Ha; lia.
Qed.
Lemma two0 : (2%:R : R_fieldType) != 0.
Proof. by apply/eqP => /(@char2R 1); apply/eqP; rewrite oner_eq0. Qed.
Local Notation JJ := (J (F := R_fieldType) sg sv).
Lemma mxf_symp : mxf N N (sympl RR m) = JJ.
Proof.
apply/matrixP=> i j; rewrite !mxE /= -val_eqE /= sgE /sv; have := ltn_ord i; have := ltn_ord j.
case: (ltnP i m) => H Hj Hi; case: eqP => E1.
- by case: eqP => //; lia.
- by case: eqP => E2; case: eqP => //; lia.
- by lia.
by case: eqP => E2; case: eqP => //; lia.
Qed.
Lemma JN : (JJ : M)^T = - JJ.
Proof. exact: (JT (F := R_fieldType) sgK svN). Qed.
Lemma J2 : (JJ : M) *m (- JJ) = 1%:M.
Proof.
apply/matrixP=> a b; rewrite mxE (bigD1 (sg a)) //= big1 ?addr0 => [|c /negbTE Hc]; last by rewrite mxE Hc mul0r.
rewrite !mxE eqxx sgK svN eq_sym; case: eqP => _; last by rewrite oppr0 mulr0.
by rewrite opprK /sv; case: ifP; rewrite ?mulrNN mulr1.
Qed.
Variable As : seq (fmat RR).
Hypothesis Ib : is_basis id N (preserves (sympl RR m)) As.
Hypothesis S0 : (0 < size As)%N.
Lemma sp_pres A : List.In A As -> pres N (sympl RR m) A.
Proof. by case: Ib => H _ _ /H[a1 a2 P]; split=> //; apply/presE. Qed.
Lemma sp_traceless A : List.In A As -> [/\ fr A = N, fc A = N & traceless A].
Proof.
move=> /sp_pres P; have [a1 a2 _] := P; split=> //.
by apply: (@pres_traceless N (sympl RR m) (- JJ) A) => //; rewrite mxf_symp; exact: J2.
Qed.
Lemma ing_tv hs (u : 'cV[R_fieldType]_N) (t : R) : ing As hs (tv (F := R_fieldType) sg sv u t).
Proof.
pose Bu : M := u *m (u^T *m JJ).
have L : lie_span As (fM Bu).
  apply: (basis_span Ib) => //; apply/(@presE _ N) => //; rewrite fMK mxf_symp /Bu !trmx_mul trmxK JN.
  by rewrite !mulNmx -!mulmxA addNr.
have B2 : Bu *m Bu = 0.
  rewrite /Bu -!mulmxA (mulmxA JJ) (mulmxA u^T) (mulmxA u^T).
  have -> : u^T *m JJ *m u = 0.
    by apply/matrixP=> i j; rewrite !ord1 -[LHS]/(om sg sv u u) om0 ?mxE //; [exact: sgK | exact: svN | exact: two0].
  by rewrite mul0mx mulmx0.
apply: (@ing_exp _ As hs Bu (fun t => tv (F := R_fieldType) sg sv u t) t L) => [|{}t a b]; first by rewrite /tv scale0r addr0.
have -> : (Bu *m tv (F := R_fieldType) sg sv u t) = Bu by rewrite /tv mulmxDr mulmx1 -scalemxAr -/Bu B2 scaler0 addr0.
apply: dl_ext (derivable_pt_lim_plus _ _ _ _ _ (derivable_pt_lim_const (a == b)%:R t)
  (@dl_mulc id t (Bu a b) 1 (derivable_pt_lim_id t))) => [s|]; last by rewrite mul1r Rplus_0_l.
by rewrite /tv -/Bu [RHS]mxE [1%:M _ _]mxE [X in _ + X]mxE.
Qed.
Lemma iso_sp (X : fmat RR) : fr X = N -> fc X = N -> isometry (sympl RR m) X <-> sp (F := R_fieldType) sg sv (mxf N N X).
Proof. by move=> h1 h2; rewrite (isoE (J := sympl RR m)) // mxf_symp /sp mulmxA. Qed.
Lemma sp_exact (X : fmat RR) : in_group N As [::] X <-> [/\ fr X = N, fc X = N & isometry (sympl RR m) X].
Proof.
have F (Y : fmat RR) : in_group N As [::] Y -> isometry (sympl RR m) Y.
  by apply: group_iso => // A; exact: sp_pres.
split=> [G|[x1 x2 O]]; first by have [//|x1 x2] := in_sz _ G; split=> //; exact: F.
apply: ing_iff => //.
have HS (g : M) : ing As [::] g -> sp (F := R_fieldType) sg sv g by move/F/iso_sp; rewrite fMK; apply.
have [|g1 g2||g Hg Eg] := @gen_sp R_fieldType N sg sv sgK sv0 svN two0 (@ing _ As [::]) _ _ (ing_tv [::]) HS (mxf N N X) _.
- exact: ing1.
- exact: ingM.
- exact/iso_sp.
by apply: (ing_div (ing_unit sp_traceless Hg) Hg); rewrite Eg; exact: ing1.
Qed.
End Symp.

Section Ctors.
Variables (conj : RR -> RR) (recip : nat -> RR) (close : seq RR -> seq RR -> bool).
Lemma exact_sp m : (0 < m)%N -> exact_group (g_sp conj close m) (2 * m) (isometry (sympl RR m)).
Proof.
case: m => // k _; have [a E B] := sp_ok conj close k; have [b E2 [Ed S1 Ib]] := GroupsSp.sp_basis RR k.+1.
move: E2; rewrite E => -[Eb]; rewrite -Eb in S1 Ib.
apply: (built_exact B); rewrite no_items -/(mats a) => HA _ X.
by apply: sp_exact; first exact: Ib; rewrite S1 muln_gt0 addn1.
Qed.
End Ctors.
