(** * SchurScal: all balanced tensors are invariant under Scaling(n). *)
From Coq Require Import Reals String ClassicalEpsilon Lra.
From mathcomp Require Import all_ssreflect all_algebra all_fingroup.
From mathcomp Require Import zify.
From Verif Require Import Np NpLemmas Spec SpecLemmas LinOp LinOpSpec LinOpInv LinOpProofs MxBridge Rep RepSpec RepMat RepWf RepAlg RepMul RepFun RepExpr RhoProofs RepThm RepThm1 Solver SolSpec Rstruct Expm GrpSpec GrpProofs.
From Verif Require Import Groups GroupsSpec GroupsPerm GroupsSpecR GroupsInit GroupsCtor GroupsThm GroupsFlag GroupsReal GroupsForm ExactSpec GroupsExact GroupsExactL GroupsExactD GroupsExactE GroupsExactS FlagThm.
From Verif Require Import Nn NnSpec NnThm Data DataSpec DataAlg DataThm DataGroups DataCubeThm DimSpec DimAlg DimComb DimTenSpec DimGrp DimTen DimPerm DimThm DimOrth DimForm SchurSpec SchurAlg SchurThm SchurGrp SchurLor SchurDim.
Set Implicit Arguments.
Unset Strict Implicit.
Unset Printing Implicit Defensive.
Import GRing.Theory.
Local Open Scope ring_scope.


Lemma diag_act n p q s s' v t : tuple_ok n (p + q) t ->
  act (tensor p q (smat n s (iota 0 n)) (smat n s' (iota 0 n))) (nth 0 v) (num n t) =
  (\prod_(x <- take p t) s x) * (\prod_(x <- drop p t) s' x) * nth 0 v (num n t).
Proof.
move=> Ht; have [St At] := Ht; pose ss := nseq p s ++ nseq q s'.
have Ess : size ss = (p + q)%N by rewrite size_cat !size_nseq.
have E : meq (tensor p q (smat n s (iota 0 n)) (smat n s' (iota 0 n))) (fkronl [seq smat n s (iota 0 n) | s <- ss]).
  by rewrite map_cat !map_nseq; apply: meq_sym; exact: fkronl_cat.
have [t1 t2] := @tensor_sz n p q RR (smat n s (iota 0 n)) (smat n s' (iota 0 n)) erefl erefl erefl erefl.
have Hi : (num n t < n ^ (p + q))%N by rewrite -St; exact: num_lt.
rewrite (act_meq _ E) ?t1 // act_diags ?Ess //; congr (_ * _).
rewrite /ss -{1}(cat_take_drop p t) zip_cat ?size_takel ?size_nseq ?St ?leq_addr // big_cat /=; congr (_ * _).
  have : size (take p t) = p by rewrite size_takel // St leq_addr.
  by elim: (p) (take p t) => [|k IH] [|x u] //= => [_|[Su]]; rewrite ?big_nil // !big_cons IH.
have : size (drop p t) = q by rewrite size_drop St addKn.
by elim: (q) (drop p t) => [|k IH] [|x u] //= => [_|[Su]]; rewrite ?big_nil // !big_cons IH.
Qed.
Lemma scaling_fixes n p (A B : fmat RR) v : invTn n A B -> (exists2 c : RR, Rlt R0 c & meq A (fscale c (fid RR n))) ->
  fixes (n ^ (p + p)) (tensor p p A B) v.
Proof.
move=> [[a1 a2 b1 b2] [I1 I2]] [c c0 E]; pose c' : RR := Rinv c.
have K : c * c' = 1 by apply: Rinv_r => Z; move: c0; rewrite Z; exact: Rlt_irrefl.
have [_ _ EA'] := E; have EA i j : (i < n)%N -> (j < n)%N -> fe A i j = c * (i == j)%:R by move=> Hi Hj; rewrite EA' ?a1 ?a2.
have MA : meq A (smat n (fun=> c) (iota 0 n)).
  by split=> //= i j; rewrite a1 a2 => Hi Hj; rewrite EA // nth_iota // add0n.
have MB : meq B (smat n (fun=> c') (iota 0 n)).
  split=> //= i j; rewrite b1 b2 => Hi Hj; rewrite nth_iota // add0n.
  have [_ _ I] := I1; have := I j i; rewrite /= a1 b1 a2 => /(_ Hj Hi).
  rewrite (sum_only (i := j)) //; last by move=> k Hk ne; rewrite EA // eq_sym (negbTE ne) mulr0 mul0r.
  by rewrite EA // eqxx mulr1 => Q; rewrite eq_sym -Q mulrA [c' * c]mulrC K mul1r.
have [t1 t2] := @tensor_sz n p p RR A B a1 a2 b1 b2.
have MT : meq (tensor p p A B) (tensor p p (smat n (fun=> c) (iota 0 n)) (smat n (fun=> c') (iota 0 n))).
  have FK k (X Y : fmat RR) : meq X Y -> meq (fkronl (nseq k X)) (fkronl (nseq k Y)).
    by move=> H; elim: k => [|k IH] /=; [exact: meq_refl | exact: meq_fkron].
  by apply: meq_fkron; exact: FK.
move=> i Hi; have [t Ht Et] := num_surj Hi; have [St _] := Ht; rewrite -Et; rewrite -Et in Hi.
have -> : \sum_(0 <= j < n ^ (p + p)) fe (tensor p p A B) (num n t) j * nth 0 v j = act (tensor p p A B) (nth 0 v) (num n t) by rewrite /act t2.
rewrite (act_meq (nth 0 v) MT) ?t1 // diag_act //.
by rewrite !prod_const size_takel ?St ?leq_addr // size_drop St addKn -exprMn K expr1n mul1r.
Qed.

Section Main.
Variables (sinv : RR -> RR) (linv : nat -> seq RR -> seq RR).
Variables (crho cdrho : nat -> option gid -> gel RR -> res (op RR)).
Variables (gdim : gid -> nat) (csize : nat -> gid -> nat) (le : rel rep) (g : gid).
Variable G : gid -> group RR.
Variables (svd : nat -> nat -> seq RR -> seq RR * seq RR * seq RR) (big : pred RR).
Variable krylov : op RR -> res (darr RR).
Local Notation sz := (rsize gdim csize).
Local Notation gorth := (fun h => g_orth (G h)).
Local Notation rep_of := (rep_of gdim gorth csize le g).
Local Notation basis := (basis idR sinv linv crho cdrho gdim csize le (the_gens G) (the_lies G) svd big krylov).
Hypothesis HS : setting sinv linv crho cdrho gdim csize le g G svd big krylov.
Theorem all_scaling n p : (0 < n)%N -> g_scaling idR (@same RR) n = Ok (G g) -> gdim g = n ->
  exists r Q, [/\ rep_of (T_expr p p) r, sz r = (n ^ (p + p))%N & returns (basis r) (n ^ (p + p)) (n ^ (p + p)) Q].
Proof.
move=> n0 EG Ed; have [HB HT] := scaling_both EG; have HX := exact_scaling idR (@same RR) n0.
have [r [k [Q [R1 R2 R3 [HQ HU]]]]] := tensors HS HX EG Ed n0 HB p p (@scaling_inv n) (tested_orth HX EG HT).
have E : k = size (iota 0 (n ^ (p + p))).
  apply: (points_eq HQ HU).
  - by move=> x; rewrite mem_iota add0n.
  - move=> j; rewrite size_iota => Hj; exists (mkseq (fun i => (i == j)%:R) (n ^ (p + p))); rewrite ?size_mkseq //.
    split; first by move=> A B I PA; exact: scaling_fixes I PA.
    by move=> i Hi; rewrite nth_iota // add0n nth_mkseq.
  by move=> v Sv _ H i Hi; apply: H; rewrite mem_iota add0n.
by rewrite size_iota in E; exists r, Q; split=> //; rewrite -{2}E.
Qed.
End Main.
