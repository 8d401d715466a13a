(** * SchurThm: invariant tensors of rank two of irreducible groups. *)
From Coq Require Import Reals String ClassicalEpsilon Lra.
From mathcomp Require Import all_ssreflect all_algebra all_fingroup.
From mathcomp Require Import zify.
From Verif Require Import Np NpLemmas Spec SpecLemmas LinOp LinOpSpec LinOpInv LinOpProofs MxBridge Rep RepSpec RepMat RepWf RepAlg RepMul RepFun RepExpr RhoProofs RepThm RepThm1 Solver SolSpec Rstruct Expm GrpSpec GrpProofs.
From Verif Require Import Groups GroupsSpec GroupsPerm GroupsSpecR GroupsInit GroupsCtor GroupsThm GroupsFlag GroupsReal GroupsForm ExactSpec GroupsExact GroupsExactL GroupsExactD.
From Verif Require Import Nn NnSpec NnThm Data DataSpec DataAlg DataThm DataGroups DataCubeThm DimSpec DimAlg DimComb DimTenSpec DimGrp DimTen DimPerm DimThm DimOrth DimForm SchurSpec SchurAlg.
Set Implicit Arguments.
Unset Strict Implicit.
Unset Printing Implicit Defensive.
Import GRing.Theory.
Local Open Scope ring_scope.

(** ** multiples of a matrix *)
Lemma form_mx n (J : fmat RR) v : form_tensor n J v <-> exists c, toM n n v = c *: mxf n n J.
Proof.
split=> -[c H]; exists c.
  by apply/matrixP => i j; rewrite toME H // !mxE.
by move=> i j Hi Hj; have := congr1 (fun M : 'M_n => M (Ordinal Hi) (Ordinal Hj)) H; rewrite toME !mxE.
Qed.
Lemma form_one n k Q (J : fmat RR) a b : (a < n)%N -> (b < n)%N -> fe J a b = 1 -> spans (n * n) k Q (form_tensor n J) -> k = 1%N.
Proof.
move=> Ha Hb J1 [HQ HU]; have I2 i j : (i < n)%N -> (j < n)%N -> (i * n + j < n * n)%N by move=> Hi Hj; nia.
have n0 : (0 < n)%N by case: (n) Ha.
apply: (@points_eq (n * n)%N k Q (form_tensor n J) [:: (a * n + b)%N] HQ HU).
- by move=> y; rewrite inE => /eqP ->; exact: I2.
- case=> // _; exists (mkseq (fun i => fe J (i %/ n) (i %% n)) (n * n)); first by rewrite size_mkseq.
  have E i j : (i < n)%N -> (j < n)%N -> nth 0 (mkseq (fun i => fe J (i %/ n) (i %% n)) (n * n)) (i * n + j)%N = fe J i j.
    by move=> Hi Hj; rewrite nth_mkseq ?I2 // divnMDl // modnMDl divn_small // modn_small // addn0.
  split; first by exists 1 => i j Hi Hj; rewrite E // mul1r.
  by case=> // _; rewrite /= E.
- move=> v Sv [c Hc] H i Hi.
  have c0 : c = 0 by have := Hc a b Ha Hb; rewrite H ?inE // J1 mulr1.
  by rewrite (divn_eq i n) Hc ?c0 ?mul0r // ?ltn_mod // ltn_divLR.
Qed.

(** ** the fixed tensors *)
Section Fixed.
Variables (n : nat) (P : fmat RR -> Prop).
Hypothesis HI : irreducible_on n P.
Hypothesis HP : forall A, fr A = n -> fc A = n -> P A -> exists B, invTn n A B.
Local Notation fixed p q v := (forall A B, invTn n A B -> P A -> fixes (n ^ 2) (tensor p q A B) v).
Lemma fixed11 v : fixed 1%N 1%N v <-> form_tensor n (fid RR n) v.
Proof.
rewrite form_mx mxf_id; split=> [H|[c E] A B I PA].
  have [|c ->] := scalar_mx (M := toM n n v) HI; last by exists c; rewrite scale_scalar_mx mulr1.
  move=> A a1 a2 PA; have [B I] := HP a1 a2 PA; have [[_ _ b1 b2] _] := I; have [AB BA] := inv_mx I.
  by have /(fixes2 v (erefl : 1 + 1 = 2)%N a1 a2 b1 b2) E := H A B I PA; rewrite -{2}E -!mulmxA BA mulmx1.
have [[a1 a2 b1 b2] _] := I; have [AB BA] := inv_mx I.
by apply/(fixes2 v (erefl : 1 + 1 = 2)%N a1 a2 b1 b2); rewrite E -scalemxAr mulmx1 -scalemxAl AB.
Qed.
Variables J K : fmat RR.
Hypotheses (j1 : fr J = n) (j2 : fc J = n) (k1 : fr K = n) (k2 : fc K = n).
Hypothesis KJ : meq (fmul K J) (fid RR n).
Hypothesis HJ : forall A, fr A = n -> fc A = n -> P A -> isometry J A.
Let Jm := mxf n n J.
Let Km := mxf n n K.
Lemma KJm : Km *m Jm = 1%:M.
Proof. by rewrite -(@mxf_mul _ _ _ n) // (mxf_meq KJ) //= mxf_id. Qed.
Lemma JKm : Jm *m Km = 1%:M.
Proof. exact: mulmx1C KJm. Qed.
Lemma iso_mx A : fr A = n -> fc A = n -> P A -> (mxf n n A)^T *m Jm *m mxf n n A = Jm.
Proof.
move=> a1 a2 PA; rewrite -[RHS](@mxf_meq _ n n _ _ (HJ a1 a2 PA)) ?(@mxf_mul _ _ _ n) //=.
by rewrite mxf_tr mulmxA.
Qed.
Lemma iso_mx2 A : fr A = n -> fc A = n -> P A -> mxf n n A *m Km *m (mxf n n A)^T = Km.
Proof.
move=> a1 a2 PA; have E := iso_mx a1 a2 PA; set X := mxf n n A in E *.
have L : Km *m X^T *m Jm *m X = 1%:M by rewrite -!mulmxA [X^T *m _]mulmxA E KJm.
have L2 := mulmx1C L.
by rewrite -[RHS]mul1mx -L2 -!mulmxA JKm mulmx1.
Qed.
Lemma fixed20 v : fixed 2%N 0%N v <-> form_tensor n K v.
Proof.
rewrite form_mx -/Km; split=> [H|[c E] A B I PA].
  have [|c E] := scalar_mx (M := toM n n v *m Jm) HI; last first.
    by exists c; rewrite -[LHS]mulmx1 -JKm mulmxA E mul_scalar_mx.
  move=> A a1 a2 PA; have [B I] := HP a1 a2 PA; have [[_ _ b1 b2] _] := I.
  have /(fixes2 v (erefl : 2 + 0 = 2)%N a1 a2 b1 b2) /= E := H A B I PA; have E2 := iso_mx a1 a2 PA.
  by rewrite -{1}E2 -{2}E -!mulmxA.
have [[a1 a2 b1 b2] _] := I.
by apply/(fixes2 v (erefl : 2 + 0 = 2)%N a1 a2 b1 b2); rewrite E -scalemxAr -scalemxAl iso_mx2.
Qed.
Lemma fixed02 v : fixed 0%N 2%N v <-> form_tensor n J v.
Proof.
rewrite form_mx -/Jm; split=> [H|[c E] A B I PA].
  have [|c E] := scalar_mx (M := Km *m toM n n v) HI; last first.
    by exists c; rewrite -[LHS]mul1mx -JKm -mulmxA E mul_mx_scalar.
  move=> A a1 a2 PA; have [B I] := HP a1 a2 PA; have [[_ _ b1 b2] _] := I; have [AB BA] := inv_mx I.
  have /(fixes2 v (erefl : 0 + 2 = 2)%N a1 a2 b1 b2) /= E := H A B I PA; have E2 := iso_mx2 a1 a2 PA.
  set X := mxf n n A in AB BA E2 *; set Y := mxf n n B in AB BA E.
  have YX : X^T *m Y = 1%:M by rewrite -[Y]trmxK -trmx_mul BA trmx1.
  have EV : toM n n v = X^T *m toM n n v *m X by rewrite -{2}E !mulmxA YX mul1mx -mulmxA BA mulmx1.
  by rewrite {1}EV -{2}E2 -!mulmxA.
have [[a1 a2 b1 b2] _] := I; have [AB BA] := inv_mx I; have E2 := iso_mx a1 a2 PA.
apply/(fixes2 v (erefl : 0 + 2 = 2)%N a1 a2 b1 b2); rewrite E /= -scalemxAr -scalemxAl -{1}E2; congr (_ *: _).
by rewrite -!mulmxA AB mulmx1 mulmxA -[mxf n n B]trmxK -trmx_mul AB trmx1 mul1mx.
Qed.
End Fixed.

Section Main.
Variables (sinv : RR -> RR) (linv : nat -> seq RR -> seq RR).
Variables (crho cdrho : nat -> option gid -> gel RR -> res (op RR)).
Variables (gdim : gid -> nat) (csize : nat -> gid -> nat) (le : rel rep) (g : gid).
Variable G : gid -> group RR.
Variables (svd : nat -> nat -> seq RR -> seq RR * seq RR * seq RR) (big : pred RR).
Variable krylov : op RR -> res (darr RR).
Local Notation sz := (rsize gdim csize).
Local Notation gorth := (fun h => g_orth (G h)).
Local Notation rep_of := (rep_of gdim gorth csize le g).
Local Notation basis := (basis idR sinv linv crho cdrho gdim csize le (the_gens G) (the_lies G) svd big krylov).
Hypothesis HS : setting sinv linv crho cdrho gdim csize le g G svd big krylov.
Variables (x : res (group RR)) (n : nat) (P : fmat RR -> Prop).
Hypothesis HX : exact_group x n P.
Hypothesis EG : x = Ok (G g).
Hypothesis Ed : gdim g = n.
Hypothesis n0 : (0 < n)%N.
Hypothesis HB : basic_group n (G g).
Hypothesis HT : tested n (G g).
Hypothesis HP : forall A, fr A = n -> fc A = n -> P A -> exists B, invTn n A B.
Let one (p q : nat) (J : fmat RR) : Prop :=
  exists r Q, [/\ rep_of (T_expr p q) r, sz r = (n * n)%N, returns (basis r) (n * n) 1 Q & spans (n * n) 1 Q (form_tensor n J)].
Lemma one_form p q J a b : (p + q = 2)%N -> (a < n)%N -> (b < n)%N -> fe J a b = 1 ->
  (forall v, (forall A B, invTn n A B -> P A -> fixes (n ^ 2) (tensor p q A B) v) <-> form_tensor n J v) -> one p q J.
Proof.
move=> E2 Ha Hb J1 HF; have [r [k [Q [R1 R2 R3]]]] := tensors HS HX EG Ed n0 HB p q HP (tested_orth HX EG HT).
rewrite E2 in R2 R3 *; set U := (X in spans _ _ _ X) => HU.
have HU' := spans_iff (fun v _ => HF v) HU; rewrite expnS expn1 in R2 R3 HU'.
by have E1 := form_one Ha Hb J1 HU'; rewrite E1 in R3 HU'; exists r, Q.
Qed.
Theorem schur_maps : irreducible_on n P -> one 1 1 (fid RR n).
Proof. by move=> HI; apply: (@one_form 1 1 _ 0%N 0%N) => //= v; exact: fixed11. Qed.
Theorem schur_forms J a b : irreducible_on n P -> fr J = n -> fc J = n -> (exists s : RR, s * s = 1 /\ meq (fmul (fscale s J) J) (fid RR n)) ->
  (a < n)%N -> (b < n)%N -> fe J a b = 1 ->
  (forall A, fr A = n -> fc A = n -> P A -> isometry J A) -> one 2 0 J /\ one 0 2 J.
Proof.
move=> HI j1 j2 [s [ss KJ]] Ha Hb J1 HJ; split; apply: (one_form _ Ha Hb J1) => // v; last exact: (@fixed02 n P HI HP J (fscale s J)).
rewrite (@fixed20 n P HI HP J (fscale s J) j2 j1 j2 KJ HJ); split=> -[c H]; exists (c * s) => i j Hi Hj.
  by rewrite H //= mulrA.
by rewrite H //= mulrA -[_ * s * s]mulrA ss mulr1.
Qed.
End Main.
