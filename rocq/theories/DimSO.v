(** * DimSO: the invariant matrices of SO(2), the invariant rank three tensors of SO(3), and the
    groups that contain -I. *)
From Coq Require Import Reals String ClassicalEpsilon Lra.
From mathcomp Require Import all_ssreflect all_algebra all_fingroup.
From mathcomp Require Import zify.
From Verif Require Import Np NpLemmas Spec SpecLemmas LinOp LinOpSpec LinOpInv LinOpProofs MxBridge Rep RepSpec RepMat RepWf RepAlg RepMul RepFun RepExpr RhoProofs RepThm RepThm1 Solver SolSpec Rstruct Expm GrpSpec GrpProofs.
From Verif Require Import Groups GroupsSpec GroupsPerm GroupsSpecR GroupsInit GroupsCtor GroupsThm GroupsFlag GroupsReal GroupsForm ExactSpec GroupsExact GroupsExactL GroupsExactD GroupsExactS.
From Verif Require Import Nn NnSpec NnThm Data DataSpec DataAlg DataThm DataGroups DataCubeThm DimSpec DimAlg DimComb DimTenSpec DimGrp DimTen DimPerm DimThm DimOrth.
Set Implicit Arguments.
Unset Strict Implicit.
Unset Printing Implicit Defensive.
Import GRing.Theory.
Local Open Scope ring_scope.

Ltac rr := rewrite /GRing.add /GRing.mul /GRing.opp /GRing.one /GRing.zero /=; ring.

Lemma det2 (X : fmat RR) : fdet 2 X = fe X 0 0 * fe X 1 1 - fe X 0 1 * fe X 1 0.
Proof.
rewrite /fdet (expand_det_row _ 0) !big_ord_recl big_ord0 /cofactor !det_mx11 !mxE /= addr0 /fintype.bump /=.
by rewrite expr0 expr1 mul1r mulN1r mulrN.
Qed.
Lemma det3 (X : fmat RR) : fdet 3 X =
  fe X 0 0 * (fe X 1 1 * fe X 2 2 - fe X 1 2 * fe X 2 1) - fe X 0 1 * (fe X 1 0 * fe X 2 2 - fe X 1 2 * fe X 2 0)
  + fe X 0 2 * (fe X 1 0 * fe X 2 1 - fe X 1 1 * fe X 2 0).
Proof.
rewrite /fdet (expand_det_row _ 0) !big_ord_recl big_ord0 /cofactor.
rewrite !(expand_det_row _ 0) !big_ord_recl !big_ord0 /cofactor !det_mx11 !mxE /= !addr0 /fintype.bump /=.
rewrite !expr0 !expr1 ?expr2 ?mulrNN ?mul1r ?mulN1r ?mulrN.
by rewrite -!addrA.
Qed.

Lemma sum3 (F : nat -> RR) : \sum_(0 <= e < 3) F e = F 0%N + F 1%N + F 2%N.
Proof. by rewrite !big_nat_recr //= big_geq // add0r. Qed.
Lemma sum2' (F : nat -> RR) : \sum_(0 <= e < 2) F e = F 0%N + F 1%N.
Proof. by rewrite !big_nat_recr //= big_geq // add0r. Qed.
Lemma act_one v : act (fid RR 1) v 0 = v 0%N.
Proof. by rewrite /act /= big_nat1 eqxx mul1r. Qed.
Lemma act3 (A : fmat RR) v i j k : fr A = 3%N -> fc A = 3%N -> (i < 3)%N -> (j < 3)%N -> (k < 3)%N ->
  act (fkronl (nseq 3 A)) v (i * 9 + (j * 3 + k))%N =
  \sum_(0 <= e < 3) fe A i e * \sum_(0 <= f < 3) fe A j f * \sum_(0 <= h < 3) fe A k h * v (e * 9 + (f * 3 + h))%N.
Proof.
move=> a1 a2 Hi Hj Hk; have [s1 s2] := fkronl_sz 2 a1 a2; have [r1 r2] := fkronl_sz 1 a1 a2.
rewrite (@act_fkron A (fkronl (nseq 2 A)) 3 9) //; last by lia.
apply: eq_sum => e He; congr (_ * _); rewrite (@act_fkron A (fkronl (nseq 1 A)) 3 3) //.
apply: eq_sum => f Hf; congr (_ * _); rewrite -[X in act _ _ X](addn0 k) -{1}(muln1 k) (@act_fkron A (fid RR 1) 3 1) //.
by apply: eq_sum => h Hh; rewrite act_one muln1 addn0.
Qed.
Lemma act2 (A : fmat RR) v i j : fr A = 2%N -> fc A = 2%N -> (i < 2)%N -> (j < 2)%N ->
  act (fkronl (nseq 2 A)) v (i * 2 + j)%N =
  \sum_(0 <= e < 2) fe A i e * \sum_(0 <= f < 2) fe A j f * v (e * 2 + f)%N.
Proof.
move=> a1 a2 Hi Hj; have [r1 r2] := fkronl_sz 1 a1 a2.
rewrite (@act_fkron A (fkronl (nseq 1 A)) 2 2) //.
apply: eq_sum => f Hf; congr (_ * _); rewrite -[X in act _ _ X](addn0 j) -{1}(muln1 j) (@act_fkron A (fid RR 1) 2 1) //.
by apply: eq_sum => h Hh; rewrite act_one muln1 addn0.
Qed.
Lemma num3 i j k : num 3 [:: i; j; k] = (i * 9 + (j * 3 + k))%N.
Proof. by rewrite /= !expnS expn0; lia. Qed.
Lemma lt3 i : (i < 3)%N -> [\/ i = 0, i = 1 | i = 2]%N.
Proof. by case: i => [|[|[|]]] // _; [constructor 1 | constructor 2 | constructor 3]. Qed.

Section Main.
Variables (close : seq RR -> seq RR -> bool) (recip : nat -> RR).
Variables (sinv : RR -> RR) (linv : nat -> seq RR -> seq RR).
Variables (crho cdrho : nat -> option gid -> gel RR -> res (op RR)).
Variables (gdim : gid -> nat) (csize : nat -> gid -> nat) (le : rel rep) (g : gid).
Variable G : gid -> group RR.
Variables (svd : nat -> nat -> seq RR -> seq RR * seq RR * seq RR) (big : pred RR).
Variable krylov : op RR -> res (darr RR).
Local Notation sz := (rsize gdim csize).
Local Notation gorth := (fun h => g_orth (G h)).
Local Notation rep_of := (rep_of gdim gorth csize le g).
Local Notation basis := (basis idR sinv linv crho cdrho gdim csize le (the_gens G) (the_lies G) svd big krylov).
Hypothesis HS : setting sinv linv crho cdrho gdim csize le g G svd big krylov.
Lemma so_basic n : (1 < n)%N -> g_so idR close n = Ok (G g) -> basic_group n (G g).
Proof.
move=> n1 EG; have [a Ea B] := so_ok idR close n1.
by apply: built_basic B EG _ _; [eexists | exact: arr_items].
Qed.
Lemma levi_fixed (A : fmat RR) v : fr A = 3%N -> fc A = 3%N -> fdet 3 A = 1 -> levi_tensor v -> fixes 27 (fkronl (nseq 3 A)) v.
Proof.
move=> a1 a2 D [c Hc] t Ht; have [s1 s2] := fkronl_sz 3 a1 a2.
have -> : t = (t %/ 9 * 9 + ((t %% 9) %/ 3 * 3 + t %% 3))%N by lia.
have : (t %/ 9 < 3)%N by lia.
have : (t %% 9 %/ 3 < 3)%N by lia.
have : (t %% 3 < 3)%N by lia.
move: (t %/ 9)%N (t %% 9 %/ 3)%N (t %% 3)%N => i j k Hk Hj Hi; rewrite Hc //.
have := act3 (nth 0 v) a1 a2 Hi Hj Hk; rewrite {1}/act s2 => ->.
rewrite (eq_sum (g := fun e => fe A i e * \sum_(0 <= f < 3) fe A j f * \sum_(0 <= h < 3) fe A k h * (c * levi e f h))); last first.
  by move=> e He; congr (_ * _); apply: eq_sum => f Hf; congr (_ * _); apply: eq_sum => h Hh; rewrite Hc.
transitivity (c * (levi i j k * fdet 3 A)); last by rewrite D mulr1.
rewrite !sum3 det3.
by case: (lt3 Hi) => ->; case: (lt3 Hj) => ->; case: (lt3 Hk) => ->; rewrite /levi /=; rr.
Qed.
Lemma fixed_levi v : (forall A : fmat RR, fr A = 3%N -> fc A = 3%N -> isometry (fid RR 3) A /\ fdet 3 A = 1 -> fixes 27 (fkronl (nseq 3 A)) v) -> levi_tensor v.
Proof.
move=> H.
have H' s w : is_perm 3 w -> (forall i, (i < 3)%N -> s i * s i = 1) -> fdet 3 (smat 3 s w) = 1 -> forall i j k, (i < 3)%N -> (j < 3)%N -> (k < 3)%N ->
    s i * (s j * s k) * nth 0 v (nth 0%N w i * 9 + (nth 0%N w j * 3 + nth 0%N w k))%N = nth 0 v (i * 9 + (j * 3 + k))%N.
  move=> W S D i j k Hi Hj Hk; have OK : tuple_ok 3 3 [:: i; j; k] by split=> //=; rewrite Hi Hj Hk.
  have F : fixes (3 ^ 3) (fkronl (nseq 3 (smat 3 s w))) v by apply: H => //; split=> //; exact: smat_isometry.
  by have := fixes_smat W F OK; rewrite !big_cons big_nil mulr1 !num3.
have Z l i j k : (l < 3)%N -> (i < 3)%N -> (j < 3)%N -> (k < 3)%N -> odd ((i != l) + ((j != l) + (k != l))) -> nth 0 v (i * 9 + (j * 3 + k))%N = 0.
  move=> Hl Hi Hj Hk OD; apply: opp_zero.
  have E : - flip l i * (- flip l j * - flip l k) * nth 0 v (i * 9 + (j * 3 + k))%N = nth 0 v (i * 9 + (j * 3 + k))%N.
    have := H' (fun a => - flip l a) (iota 0 3) (is_perm_iota 3) _ _ i j k Hi Hj Hk; rewrite !nth_iota // !add0n; apply.
      by move=> a _; rewrite mulrNN flip_sq.
    rewrite det_smat det_pid mulr1 !big_ord_recl big_ord0 /flip /=.
    by case: (lt3 Hl) => -> /=; rewrite ?opprK ?mulr1 ?mul1r ?mulrNN ?mulr1.
  have c : - flip l i * (- flip l j * - flip l k) = -1.
    by move: OD; rewrite /flip; (repeat case: eqP => _ //=); move=> _; rewrite ?opprK ?mulr1 ?mul1r ?mulrNN ?mulr1.
  by rewrite c mulN1r in E.
have W a b i j k : (a < 3)%N -> (b < 3)%N -> a != b -> (i < 3)%N -> (j < 3)%N -> (k < 3)%N ->
    nth 0 v (i * 9 + (j * 3 + k))%N = - nth 0 v (nth 0%N (swap 3 a b) i * 9 + (nth 0%N (swap 3 a b) j * 3 + nth 0%N (swap 3 a b) k))%N.
  move=> Ha Hb ne Hi Hj Hk; rewrite -(H' (fun=> -1) (swap 3 a b) (swap_perm Ha Hb) _ _ i j k) //.
  - by rewrite mulrNN mulr1 mulr1 mulN1r.
  - by move=> *; rewrite mulrNN mulr1.
  - by rewrite det_smat det_swap // !big_ord_recl big_ord0 mulr1 mulrNN !mulr1 mulrNN mulr1.
exists (nth 0 v 5) => i j k Hi Hj Hk.
have e1 : nth 0 v 15 = nth 0 v 5 by rewrite (W 0%N 1%N 1%N 2%N 0%N) //= (W 1%N 2%N 0%N 2%N 1%N) //= opprK.
have e2 : nth 0 v 19 = nth 0 v 5 by rewrite (W 0%N 2%N 2%N 0%N 1%N) //= (W 1%N 2%N 0%N 2%N 1%N) //= opprK.
have e3 : nth 0 v 7 = - nth 0 v 5 by rewrite (W 1%N 2%N 0%N 2%N 1%N).
have e4 : nth 0 v 11 = - nth 0 v 5 by rewrite (W 0%N 1%N 1%N 0%N 2%N).
have e5 : nth 0 v 21 = - nth 0 v 5 by rewrite (W 0%N 2%N 2%N 1%N 0%N).
case: (lt3 Hi) => ?; case: (lt3 Hj) => ?; case: (lt3 Hk) => ?; subst i j k; rewrite /levi /= ?mulr0 ?mulrN1 ?mulr1 ?e1 ?e2 ?e3 ?e4 ?e5 //;
  first [by apply: (Z 0%N) | by apply: (Z 1%N) | by apply: (Z 2%N)].
Qed.
Theorem levi_so3 p q : g_so idR close 3 = Ok (G g) -> gdim g = 3%N -> (p + q = 3)%N ->
  exists r Q, [/\ rep_of (T_expr p q) r, sz r = 27%N, returns (basis r) 27 1 Q & spans 27 1 Q levi_tensor].
Proof.
move=> EG Ed E3; have I (A : fmat RR) : fr A = 3%N -> fc A = 3%N -> isometry (fid RR 3) A /\ fdet 3 A = 1 -> isometry (fid RR 3) A by move=> _ _ [].
have [r [k [Q [R1 R2 R3]]]] := tensors_iso HS (@exact_so idR close 3 isT) EG Ed isT (so_basic (isT : 1 < 3)%N EG) p q I.
rewrite E3 in R2 R3 *; rewrite (_ : 3 ^ 3 = 27)%N // in R2 R3 *; set U := (X in spans _ _ _ X) => HU.
have UE v : size v = 27%N -> U v <-> levi_tensor v.
  move=> Sv; split; first exact: fixed_levi.
  by move=> L A a1 a2 [_ D]; exact: levi_fixed.
have SU := spans_iff UE HU; have [HQ' HU'] := SU.
have E1 : k = 1%N.
  apply: (@points_eq 27 k Q levi_tensor [:: 5%N] HQ' HU').
  - by move=> y; rewrite inE => /eqP ->.
  - case=> // _; exists (mkseq (fun t => levi (t %/ 9) (t %% 9 %/ 3) (t %% 3)) 27); first by rewrite size_mkseq.
    split; last by case=> // _; rewrite /= /levi.
    exists 1 => i j l Hi Hj Hl; rewrite mul1r.
    by case: (lt3 Hi) => ->; case: (lt3 Hj) => ->; case: (lt3 Hl) => ->.
  - move=> v Sv [c Hc] H i Hi.
    have c0 : c = 0 by have := Hc 0%N 1%N 2%N isT isT isT; rewrite /= H ?inE // /levi /= mulr1.
    have -> : i = (i %/ 9 * 9 + ((i %% 9) %/ 3 * 3 + i %% 3))%N by lia.
    by rewrite Hc ?c0 ?mul0r //; lia.
by subst k; exists r, Q.
Qed.
Theorem complex_so2 p q : g_so idR close 2 = Ok (G g) -> gdim g = 2%N -> (p + q = 2)%N ->
  exists r Q, [/\ rep_of (T_expr p q) r, sz r = 4%N, returns (basis r) 4 2 Q & spans 4 2 Q complex_tensor].
Proof.
move=> EG Ed E3; have I (A : fmat RR) : fr A = 2%N -> fc A = 2%N -> isometry (fid RR 2) A /\ fdet 2 A = 1 -> isometry (fid RR 2) A by move=> _ _ [].
have [r [k [Q [R1 R2 R3]]]] := tensors_iso HS (@exact_so idR close 2 isT) EG Ed isT (so_basic (isT : 1 < 2)%N EG) p q I.
rewrite E3 in R2 R3 *; rewrite (_ : 2 ^ 2 = 4)%N // in R2 R3 *; set U := (X in spans _ _ _ X) => HU.
have UE v : size v = 4%N -> U v <-> complex_tensor v.
  move=> Sv; split=> [Hv|[a [b ->]] A a1 a2 [IA D]].
    pose s := flip 0.
    have F : fixes (2 ^ 2) (fkronl (nseq 2 (smat 2 s (swap 2 0 1)))) v.
      apply: Hv => //; split; first by apply: smat_isometry => [|l _]; [exact: swap_perm | exact: flip_sq].
      by rewrite det_smat prod_flip // det_swap // mulrNN mulr1.
    have E i j : (i < 2)%N -> (j < 2)%N -> s i * s j * nth 0 v (nth 0%N (swap 2 0 1) i * 2 + nth 0%N (swap 2 0 1) j)%N = nth 0 v (i * 2 + j)%N.
      move=> Hi Hj; have OK : tuple_ok 2 2 [:: i; j] by split=> //=; rewrite Hi Hj.
      by have := fixes_smat (swap_perm (isT : 0 < 2)%N (isT : 1 < 2)%N) F OK; rewrite !big_cons big_nil mulr1 !num2.
    case: v Sv Hv F E => [|x0 [|x1 [|x2 [|x3 [|]]]]] // _ _ _ E; exists x0, x1.
    have := E 1%N 0%N isT isT; have := E 1%N 1%N isT isT.
    by rewrite /s /flip /= !mul1r mulN1r => -> <-.
  have [_ [[_ _ AA] _]] := iso_invTn a1 a2 IA; rewrite /= a1 a2 in AA.
  have := AA 0%N 0%N isT isT; have := AA 0%N 1%N isT isT; have := AA 1%N 1%N isT isT; rewrite !sum2' /= det2 in D * => q11 q01 q00.
  have [s1 s2] := fkronl_sz 2 a1 a2 => t Ht.
  have -> : t = (t %/ 2 * 2 + t %% 2)%N by lia.
  have : (t %/ 2 < 2)%N by lia.
  have : (t %% 2 < 2)%N by lia.
  move: (t %/ 2)%N (t %% 2)%N => i j Hj Hi.
  have := act2 (nth 0 [:: a; b; - b; a]) a1 a2 Hi Hj; rewrite {1}/act s2 => ->; rewrite !sum2'.
  transitivity (a * (fe A i 0 * fe A j 0 + fe A i 1 * fe A j 1) + b * (fe A i 0 * fe A j 1 - fe A i 1 * fe A j 0)); first by rewrite /=; rr.
  case: i Hi => [|[|]] // _; case: j Hj => [|[|]] // _ /=.
  - by rewrite q00 mulr1 [fe A 0 1 * fe A 0 0]mulrC subrr mulr0 addr0.
  - by rewrite q01 D mulr0 mulr1 add0r.
  - by rewrite [fe A 1 0 * _]mulrC [fe A 1 1 * fe A 0 1]mulrC q01 -[fe A 1 0 * fe A 0 1 - _]opprK opprB [fe A 1 1 * _]mulrC [fe A 1 0 * _]mulrC D mulr0 mulrN mulr1 add0r.
  - by rewrite q11 mulr1 [fe A 1 1 * fe A 1 0]mulrC subrr mulr0 addr0.
have SU := spans_iff UE HU; have [HQ' HU'] := SU.
have E1 : k = 2%N.
  apply: (@points_eq 4 k Q complex_tensor [:: 0; 1]%N HQ' HU').
  - by move=> y; rewrite !inE => /orP[] /eqP ->.
  - case=> [|[|]] // _.
      by exists [:: 1; 0; - 0; 1] => //; split; [exists 1, 0 | case=> [|[|]]].
    by exists [:: 0; 1; - 1; 0] => //; split; [exists 0, 1 | case=> [|[|]]].
  - move=> v Sv [a [b Ev]] H i Hi; have := H 0%N (isT); have := H 1%N (isT); rewrite Ev /= => -> ->.
    by case: i Hi => [|[|[|[|]]]] //= _; rewrite oppr0.
by subst k; exists r, Q.
Qed.
End Main.
