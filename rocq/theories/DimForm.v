(** * DimForm: groups of isometries of a form that contain -I have no invariant tensors of odd rank. *)
From Coq Require Import Reals String ClassicalEpsilon Lra.
From mathcomp Require Import all_ssreflect all_algebra all_fingroup.
From mathcomp Require Import zify.
From Verif Require Import Np NpLemmas Spec SpecLemmas LinOp LinOpSpec LinOpInv LinOpProofs MxBridge Rep RepSpec RepMat RepWf RepAlg RepMul RepFun RepExpr RhoProofs RepThm RepThm1 Solver SolSpec Rstruct Expm GrpSpec GrpProofs.
From Verif Require Import Groups GroupsSpec GroupsPerm GroupsSpecR GroupsInit GroupsCtor GroupsThm GroupsFlag GroupsReal GroupsForm ExactSpec GroupsExact GroupsExactL GroupsExactD GroupsExactS.
From Verif Require Import Nn NnSpec NnThm Data DataSpec DataAlg DataThm DataGroups DataCubeThm DimSpec DimAlg DimComb DimTenSpec DimGrp DimTen DimPerm DimThm DimOrth DimSO.
Set Implicit Arguments.
Unset Strict Implicit.
Unset Printing Implicit Defensive.
Import GRing.Theory.
Local Open Scope ring_scope.

Lemma form_invTn d (J K A : fmat RR) : fr J = d -> fc J = d -> fr K = d -> fc K = d -> meq (fmul K J) (fid RR d) ->
  fr A = d -> fc A = d -> isometry J A -> exists B, invTn d A B.
Proof.
move=> j1 j2 k1 k2 KJ a1 a2 I; pose B := fmul K (fmul (ftr A) J).
have BA : meq (fmul B A) (fid RR d).
  apply: meq_trans (_ : meq _ (fmul K (fmul (ftr A) (fmul J A)))) _.
    apply: meq_trans (meq_sym (fmul_assoc _ _ _)) _.
    by apply: meq_fmul; [exact: meq_refl | apply: meq_sym; exact: fmul_assoc | rewrite /= k2 a2].
  by apply: meq_trans KJ; apply: meq_fmul; [exact: meq_refl | exact: I | rewrite /= k2 a2].
exists (ftr B); split; first by rewrite /= a1 a2 k1 j2.
split; last by [].
by apply: (@one_sided RR d B A) => //=.
Qed.
Lemma tested_orth d G (P : fmat RR -> Prop) x : exact_group x d P -> x = Ok G -> tested d G -> g_orth G ->
  forall A, fr A = d -> fc A = d -> P A -> isometry (fid RR d) A.
Proof.
move=> [G0 E [_ H]] EG T O A a1 a2 PA; move: E; rewrite EG => -[?]; subst G0.
have [_ _ _ L] := proj1 (orth_iff T) O A (proj2 (H A) (And3 a1 a2 PA)).
apply: meq_trans L; apply: meq_fmul => //; rewrite -{1}a1; exact: fmul_id_l.
Qed.
Lemma opp_iso d (J A : fmat RR) : fr J = d -> fc J = d -> meq A (fopp (fid RR d)) -> isometry J A.
Proof.
move=> j1 j2 [/= e1 e2 E]; rewrite e1 e2 in E; split=> /=; rewrite ?e1 ?e2 ?j1 ?j2 // => i j Hi Hj.
rewrite (sum_only (i := i)) //; last by move=> k Hk ne; rewrite E //= (negbTE ne) oppr0 mul0r.
rewrite (sum_only (i := j)) //; last by move=> k Hk ne; rewrite E //= (negbTE ne) oppr0 mulr0.
by rewrite !E //= !eqxx mulN1r mulrN1 opprK.
Qed.
Lemma mink_sq n : meq (fmul (minkowski RR n) (minkowski RR n)) (fid RR n).
Proof.
split=> //= i j Hi Hj; rewrite (sum_only (i := i)) //; last by move=> k Hk; rewrite eq_sym => /negbTE ->; rewrite mul0r.
by rewrite eqxx; case: (i == j); case: (i == 0%N); rewrite ?mulr0 ?mulrNN ?mulr1.
Qed.
Lemma sympl_sq m : meq (fmul (ftr (sympl RR m)) (sympl RR m)) (fid RR (2 * m)).
Proof.
split=> //= i j Hi Hj; case: (ltnP i m) => h.
  rewrite (sum_only (i := (m + i)%N)); first last.
  - by move=> k Hk ne; case: eqP => [?|_]; [lia | case: eqP => [?|_]; [lia | rewrite mul0r]].
  - lia.
  case: eqP => [?|_]; first lia; rewrite eqxx.
  by repeat (case: eqP => ? //=; try lia); rewrite ?mulrNN ?mulr1 ?mulr0.
rewrite (sum_only (i := (i - m)%N)); first last.
- by move=> k Hk ne; case: eqP => [?|_]; [lia | case: eqP => [?|_]; [lia | rewrite mul0r]].
- lia.
case: eqP => [_|?]; last lia.
by repeat (case: eqP => ? //=; try lia); rewrite ?mulr1 ?mulr0.
Qed.

Section Main.
Variables (close : seq RR -> seq RR -> bool) (recip : nat -> RR).
Variables (sinv : RR -> RR) (linv : nat -> seq RR -> seq RR).
Variables (crho cdrho : nat -> option gid -> gel RR -> res (op RR)).
Variables (gdim : gid -> nat) (csize : nat -> gid -> nat) (le : rel rep) (g : gid).
Variable G : gid -> group RR.
Variables (svd : nat -> nat -> seq RR -> seq RR * seq RR * seq RR) (big : pred RR).
Variable krylov : op RR -> res (darr RR).
Local Notation sz := (rsize gdim csize).
Local Notation gorth := (fun h => g_orth (G h)).
Local Notation rep_of := (rep_of gdim gorth csize le g).
Local Notation basis := (basis idR sinv linv crho cdrho gdim csize le (the_gens G) (the_lies G) svd big krylov).
Hypothesis HS : setting sinv linv crho cdrho gdim csize le g G svd big krylov.
Variables p q : nat.
Hypothesis OD : odd (p + q).
Let none (d : nat) : Prop := exists r Q, [/\ rep_of (T_expr p q) r, sz r = (d ^ (p + q))%N & returns (basis r) (d ^ (p + q)) 0 Q].

Theorem odd_o n : (0 < n)%N -> g_o idR close n = Ok (G g) -> gdim g = n -> none n.
Proof.
move=> n0 EG Ed; have B : basic_group n (G g).
  case: n n0 EG {Ed} => // n _ EG; have [a [h [Ea Eh B]]] := o_ok idR close n.
  by apply: built_basic B EG _ _; [eexists | exact: arr_items].
apply: (dim_odd HS (exact_o idR close n0) EG Ed n0 B) => //.
- by move=> A a1 a2 PA; exists A; exact: iso_invTn.
- by move=> A E; exact: (@opp_iso n (fid RR n)).
Qed.
Theorem odd_so m : (0 < m)%N -> g_so idR close (2 * m) = Ok (G g) -> gdim g = (2 * m)%N -> none (2 * m).
Proof.
move=> m0 EG Ed; have n1 : (1 < 2 * m)%N by lia.
have n0 : (0 < 2 * m)%N by lia.
apply: (dim_odd HS (exact_so idR close n1) EG Ed n0 (so_basic n1 EG)) => //.
- by move=> A a1 a2 [PA _]; exists A; exact: iso_invTn.
- by move=> _ A _ _ [].
- move=> A E; split; first exact: (@opp_iso _ (fid RR (2 * m))).
  rewrite /fdet (_ : mxf _ _ A = (-1)%:M); first by rewrite det_scalar mul2n -muln2 mulnC exprM sqrrN expr1n expr1n.
  apply/matrixP => i j; have [e1 e2 E'] := E; rewrite !mxE E' /= ?e1 ?e2 //.
  by rewrite -(inj_eq val_inj); case: eqP => _ /=; rewrite ?mulr1n ?mulr0n ?oppr0.
Qed.
Theorem odd_sp m : (0 < m)%N -> g_sp idR (@same RR) m = Ok (G g) -> gdim g = (2 * m)%N -> none (2 * m).
Proof.
case: m => // m _ EG Ed; have n0 : (0 < 2 * m.+1)%N by lia.
have [a Ea B] := sp_ok idR (@same RR) m.
have T : tested (2 * m.+1) (G g).
  by move: B EG; rewrite /g_sp Ea bindOk => B EG; exact: built_tested B erefl erefl EG.
have X := exact_sp idR (@same RR) (isT : (0 < m.+1)%N).
apply: (dim_odd HS X EG Ed n0) => //.
- by apply: built_basic B EG _ _; [eexists | exact: arr_items].
- by move=> A a1 a2 PA; apply: (@form_invTn _ (sympl RR m.+1) (ftr (sympl RR m.+1))) => //; exact: sympl_sq.
- by move=> O; exact: tested_orth X EG T O.
- by move=> A E; exact: opp_iso E.
Qed.
Lemma lor_inv (A : fmat RR) : fr A = 4%N -> fc A = 4%N -> isometry (minkowski RR 4) A -> exists B, invTn 4 A B.
Proof. by move=> a1 a2 I; apply: (@form_invTn _ (minkowski RR 4) (minkowski RR 4)) => //; exact: mink_sq. Qed.
Lemma lor_opp (A : fmat RR) : meq A (fopp (fid RR 4)) -> isometry (minkowski RR 4) A /\ fdet 4 A = 1.
Proof.
move=> E; split; first exact: opp_iso E.
rewrite /fdet (_ : mxf _ _ A = (-1)%:M); first by rewrite det_scalar (exprM _ 2 2) sqrrN expr1n expr1n.
apply/matrixP => i j; have [e1 e2 E'] := E; rewrite !mxE E' /= ?e1 ?e2 //.
by rewrite -(inj_eq val_inj); case: eqP => _ /=; rewrite ?mulr1n ?mulr0n ?oppr0.
Qed.
Theorem odd_so13 : g_so13 idR recip (@same RR) = Ok (G g) -> gdim g = 4%N -> none 4.
Proof.
move=> EG Ed; have [a Ea B] := so13_ok idR recip (@same RR).
have T : tested 4 (G g).
  move: (B) (EG); rewrite /g_so13 Ea bindOk => B' EG'; exact: built_tested B' erefl erefl EG'.
have X := exact_so13 idR recip (@same RR).
have HB := built_basic B EG (ex_intro _ a erefl) (@arr_items _).
refine (dim_odd HS X EG Ed isT HB _ _ _ OD).
- move=> A a1 a2 [PA _]; exact: lor_inv.
- move=> O; exact: tested_orth X EG T O.
- exact: lor_opp.
Qed.
Theorem odd_o13 s : g_o13_as idR recip (@same RR) s = Ok (G g) -> gdim g = 4%N -> none 4.
Proof.
move=> EG Ed; have [a [h [Ea Eh B]]] := o13_ok idR recip (@same RR) s.
have T := lor_tested EG; have X := exact_o13 idR recip (@same RR) s.
have HB := built_basic B EG (ex_intro _ a erefl) (@arr_items _).
refine (dim_odd HS X EG Ed isT HB _ _ _ OD).
- exact: lor_inv.
- move=> O; exact: tested_orth X EG T O.
- move=> A /lor_opp[I _]; exact: I.
Qed.
End Main.
