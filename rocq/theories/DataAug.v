(** * DataAug: GroupAugmentation. *)
From Coq Require Import Reals.
From mathcomp Require Import all_ssreflect all_algebra.
From mathcomp Require Import zify.
From Verif Require Import Np NpLemmas Spec SpecLemmas LinOp LinOpSpec LinOpProofs LinOpInv Rep RepSpec RepWf RepCode RepMat RepProd RepAlg RepDist RepMul RepFun RepOps RhoProofs RepThm RepThm1.
From Verif Require Import RepExpr RepExprProofs RepDefer MxBridge GroupsSpec Rstruct Expm GrpSpec Nn NnSpec Data DataSpec DataAlg DataThm.
Set Implicit Arguments.
Unset Strict Implicit.
Unset Printing Implicit Defensive.
Import GRing.Theory.
Local Open Scope ring_scope.

Section Aug.
Variables (sinv : RR -> RR) (linv : nat -> seq RR -> seq RR).
Variables (crho : nat -> option gid -> gel RR -> res (op RR)).
Variables (gdim : gid -> nat) (gorth : gid -> bool) (csize : nat -> gid -> nat) (le : rel rep) (g : gid).
Local Notation sz := (rsize gdim csize).
Local Notation rho_dense := (rho_dense idR sinv linv crho).
Local Notation group_elem := (group_elem idR sinv linv crho gdim csize (pred1 g)).
Local Notation orth_elem := (orth_elem crho gdim csize gorth (pred1 g)).
Local Notation wfr := (wfr gdim csize le (pred1 g)).
Local Notation arho := (arho sinv linv crho).
Local Notation acts_rows := (acts_rows idR sinv linv crho gdim csize).
Local Notation vrho := (vrho sinv linv crho).
Hypothesis HL : linv_ok linv.
Variable E : gel RR -> Prop.
Hypothesis HE : forall M, E M -> group_elem M /\ orth_elem M.
Local Notation equivariant := (equivariant idR sinv linv crho gdim csize E).

Lemma vrho_dense r M X : wfr r -> group_elem M -> vrho r M = Ok X -> X = (sz r, sz r, flat (rmat (arho M) r)).
Proof.
move=> W HM; have := rho_dense_ok HM W; rewrite /Data.vrho /Rep.rho_dense.
case: (rho _ _ _ _ _) => //= A; case: A => // m n D; by rewrite /= => -[<- <- <-] [<-].
Qed.
Lemma apply_rowsE (As : nat -> fmat RR) bs m n x : (forall b, (b < bs)%N -> fr (As b) = m /\ fc (As b) = n) ->
  apply_rows [seq (m, n, flat (As b)) | b <- iota 0 bs] bs n x =
  Ok (flatten [seq mkseq (fun i => act (As b) (nth 0 (row_of n b x)) i) m | b <- iota 0 bs]).
Proof.
move=> HA; rewrite /apply_rows.
have -> : zip (iota 0 bs) [seq (m, n, flat (As b)) | b <- iota 0 bs] = [seq (b, (m, n, flat (As b))) | b <- iota 0 bs].
  by elim: (iota 0 bs) => //= b l ->.
have H : {in iota 0 bs, forall b, (if (n == n)%N then Ok (matmul m n 1 (flat (As b)) (row_of n b x)) else Err TypeError) =
    Ok (mkseq (fun i => act (As b) (nth 0 (row_of n b x)) i) m)}.
  move=> b; rewrite mem_iota add0n => Hb; have [a1 a2] := HA b Hb.
  rewrite eqxx; congr Ok; rewrite /matmul muln1; apply/eq_in_map => i; rewrite mem_iota add0n => Hi.
  by rewrite rsumE /act a2 divn1 modn1; apply: eq_sum => j Hj; rewrite -{1}a2 nth_flat ?a1 ?a2 // muln1 addn0.
have /= -> : mapM (fun bA : nat * darr RR => if (bA.2.1.2 == n)%N then Ok (matmul bA.2.1.1 n 1 bA.2.2 (row_of n bA.1 x)) else Err TypeError)
    [seq (b, (m, n, flat (As b))) | b <- iota 0 bs] =
    mapM (fun b => if (n == n)%N then Ok (matmul m n 1 (flat (As b)) (row_of n b x)) else Err TypeError) (iota 0 bs).
  by elim: (iota 0 bs) => // b l IH; rewrite /mapM /= -!/(mapM _ _) in IH *; rewrite IH.
by rewrite (mapM_ok_in H).
Qed.

Theorem augment_thm model rin rout gs bs x : wfr rin -> wfr rout ->
  equivariant rin rout (model true) -> (forall b, (b < bs)%N -> E (gs b)) ->
  (forall b, (b < bs)%N -> exists A B, vrho rin (gs b) = Ok A /\ vrho rout (gs b) = Ok B) ->
  size x = (bs * sz rin)%N ->
  augment sinv linv crho model rin rout gs (sz rin) (sz rout) true bs x = model true bs x.
Proof.
move=> W1 W2 HM HG HV SX; rewrite /augment.
pose A b := rmat (arho (gs b)) rin; pose B b := rmat (arho (gs b)) rout.
pose Bi b := ftr (rmat (fun k => arho (gs b) (ta gorth k)) rout).
have IA b : (b < bs)%N -> sqn (sz rin) (A b).
  move=> Hb; have [h1 h2] := HE (HG b Hb).
  by have [s1 s2 _ _] := dims_invTn (@rmat_invT _ gdim csize le _ (arho (gs b)) (fun k => arho (gs b) (ta gorth k)) rin W1 (fun k Hk => arho_invT h1 h2 Hk)).
have IB b : (b < bs)%N -> invTn (sz rout) (B b) (ftr (Bi b)).
  move=> Hb; have [h1 h2] := HE (HG b Hb).
  exact: (@rmat_invT _ gdim csize le _ (arho (gs b)) (fun k => arho (gs b) (ta gorth k)) rout W2 (fun k Hk => arho_invT h1 h2 Hk)).
have -> : mapM (fun b => vrho rout (gs b)) (iota 0 bs) = Ok [seq (sz rout, sz rout, flat (B b)) | b <- iota 0 bs].
  apply: mapM_ok_in => b; rewrite mem_iota add0n => Hb; have [X [Y [_ E2]]] := HV b Hb.
  by rewrite E2 (vrho_dense W2 (HE (HG b Hb)).1 E2).
rewrite bindOk.
have -> : inv_all linv [seq (sz rout, sz rout, flat (B b)) | b <- iota 0 bs] = Ok [seq (sz rout, sz rout, flat (Bi b)) | b <- iota 0 bs].
  rewrite /inv_all.
  have -> : forall l, {subset l <= iota 0 bs} -> mapM (fun A : darr RR => if A.1.1 == A.1.2 then Ok (A.1, linv A.1.1 A.2) else Err ValueError)
     [seq (sz rout, sz rout, flat (B b)) | b <- l] = Ok [seq (sz rout, sz rout, flat (Bi b)) | b <- l] => //.
  elim=> // b l IH Hl; rewrite /mapM /= -!/(mapM _ _) eqxx.
  have Hb : (b < bs)%N by have := Hl b (mem_head _ _); rewrite mem_iota add0n.
  have [[b1 b2 b3 b4] [J1 J2]] := IB b Hb.
  have [S M] := HL b1 b2 (b4 : fr (Bi b) = sz rout) b3 J1 J2.
  have -> : linv (sz rout) (flat (B b)) = flat (Bi b) by rewrite -(flat_meq M) flat_unflat.
  by rewrite bindOk IH // => t Ht; apply: Hl; rewrite inE Ht orbT.
rewrite bindOk.
have -> : mapM (fun b => vrho rin (gs b)) (iota 0 bs) = Ok [seq (sz rin, sz rin, flat (A b)) | b <- iota 0 bs].
  apply: mapM_ok_in => b; rewrite mem_iota add0n => Hb; have [X [Y [E2 _]]] := HV b Hb.
  by rewrite E2 (vrho_dense W1 (HE (HG b Hb)).1 E2).
rewrite bindOk apply_rowsE // bindOk.
set x' := flatten _.
have Sx b : (b < bs)%N -> size (mkseq (fun i => act (A b) (nth 0 (row_of (sz rin) b x)) i) (sz rin)) = sz rin by rewrite size_mkseq.
have Ax : acts_rows rin gs bs x x'.
  split=> //; first exact: size_rows.
  move=> b Hb; exists (flat (A b)); first exact: rho_dense_ok (HE (HG b Hb)).1 W1.
  move=> i Hi; have [a1 a2] := IA b Hb; rewrite (nth_rows Sx) // nth_mkseq // /act a2; apply: eq_sum => j Hj.
  by rewrite nth_row // -{2}a2 nth_flat ?a1 ?a2.
have [Y [Y' [-> -> Ay]]] := HM bs gs x x' HG Ax; rewrite bindOk.
have [y1 y2 y3] := Ay.
have DB b : (b < bs)%N -> fr (Bi b) = sz rout /\ fc (Bi b) = sz rout by move/IB => [[_ _ b3 b4] _].
rewrite apply_rowsE //; congr Ok.
have Sy b : (b < bs)%N -> size (mkseq (fun i => act (Bi b) (nth 0 (row_of (sz rout) b Y')) i) (sz rout)) = sz rout by rewrite size_mkseq.
apply: (@eq_from_nth _ 0); rewrite (size_rows Sy) // => t Ht.
have m0 : (0 < sz rout)%N by case: (sz rout) Ht => //; rewrite muln0.
have Hb : (t %/ sz rout < bs)%N by rewrite ltn_divLR.
have Hi : (t %% sz rout < sz rout)%N by rewrite ltn_mod.
rewrite (divn_eq t (sz rout)); move: (t %/ sz rout)%N (t %% sz rout)%N Hb Hi => b i Hb Hi.
rewrite (nth_rows Sy) // nth_mkseq //.
have [[b1 b2 b3 b4] [J1 [_ _ J2]]] := IB b Hb; have [i1 i2] := DB b Hb.
rewrite -[RHS](act_fid (fun j => nth 0 Y (b * sz rout + j)%N) Hi).
transitivity (act (fmul (Bi b) (B b)) (fun j => nth 0 Y (b * sz rout + j)%N) i); last first.
  by apply: act_meq; [split|have -> : fr (fmul (Bi b) (B b)) = fr (Bi b) by []; rewrite i1].
have [D] := y3 b Hb; rewrite (rho_dense_ok (HE (HG b Hb)).1 W2) => -[<-] HD.
rewrite act_fmul /act i2; apply: eq_sum => j Hj; rewrite nth_row // HD // b2; congr (_ * _).
by apply: eq_sum => k Hk; rewrite -{1}b2 nth_flat ?b1 ?b2.
Qed.

(** rho of V, V* and Scalar of an array is an array *)
Lemma vrho_arrays n D r : r \in [:: RScalar; RBase (Some g); RDual (RBase (Some g))] ->
  exists A, vrho r (GMat (OArr n n D)) = Ok A.
Proof. by rewrite !inE => /or3P[] /eqP ->; rewrite /Data.vrho /= ?eqxx /=; eexists. Qed.
(** rho of a sum or a product is never an array *)
Lemma mkProd_prod (A B C : op RR) : mkProd A B = Ok C -> exists C1 C2, C = OProd C1 C2.
Proof. by rewrite /mkProd; case: ifP => // _; case: ifP => // _ [<-]; exists A, B. Qed.
Lemma bind_some T U (m : res T) (f : T -> res U) y : (do x <- m; f x) = Ok y -> exists2 x, m = Ok x & f x = Ok y.
Proof. by case: m => //= x H; exists x. Qed.
Lemma vrho_composite r M : match r with RSum _ _ | RProd _ _ | RDir _ _ => true | _ => false end ->
  forall A, vrho r M <> Ok A.
Proof.
move=> Hr A H; have [B E1] := bind_some H; suff [C1 [C2 ->]] : exists C1 C2, B = OProd C1 C2 by [].
case: r Hr E1 {H} => // d p _ /=.
all: by move=> H; do ? [have [? _ {}H] := bind_some H]; exact: mkProd_prod H.
Qed.
Lemma augment_raises model rin rout gs n m bs x :
  (0 < bs)%N -> (forall A, vrho rin (gs 0%N) <> Ok A) \/ (forall A, vrho rout (gs 0%N) <> Ok A) ->
  exists e, augment sinv linv crho model rin rout gs n m true bs x = Err e.
Proof.
case: bs => // bs _ H; rewrite /augment /=.
have N r : (forall A, vrho r (gs 0%N) <> Ok A) -> exists e, mapM (fun b => vrho r (gs b)) (0%N :: iota 1 bs) = Err e.
  by move=> Hr; rewrite /mapM /=; case: (vrho r (gs 0%N)) Hr => [A /(_ A)//|e _]; exists e.
case: H => [/N[e He]|/N[e ->]]; last by exists e.
case: (mapM _ _) => [Ro|e1]; last by exists e1.
rewrite bindOk; case: (inv_all _ _) => [Rv|e2]; last by exists e2.
by rewrite bindOk He; exists e.
Qed.
(** the data sets pass representations without group to GroupAugmentation *)
Lemma default_aug_inertia k model r gs n m bs x : (0 < bs)%N ->
  eval gdim gorth csize le None (T_expr 2 0) = Ok (VRep r) ->
  augment sinv linv crho model k r gs n m true bs x = Err NotImplementedError.
Proof. by case: bs => // bs _ /= -[<-]; rewrite /augment /=. Qed.
Lemma default_aug_scalar k model r gs n m bs x : (0 < bs)%N -> (1 < k)%N ->
  eval gdim gorth csize le None (EMul (EInt k) EV) = Ok (VRep r) ->
  augment sinv linv crho model r RScalar gs n m true bs x = Err NotImplementedError.
Proof.
case: bs => // bs _; case: k => // -[//|k] _ /= -[<-]; rewrite /augment.
have -> : mapM (fun b => vrho RScalar (gs b)) (iota 0 bs.+1) = Ok (nseq bs.+1 (1%N, 1%N, eye RR 1)).
  by rewrite (mapM_ok_in (g := fun=> (1%N, 1%N, eye RR 1))) //; congr Ok; move: (1%N, 1%N, eye RR 1) => z; move: (bs.+1) => u; move: 0%N => s; elim: u s => //= t IH s; rewrite IH.
rewrite bindOk.
have -> : inv_all linv (nseq bs.+1 (1%N, 1%N, eye RR 1)) = Ok (nseq bs.+1 (1%N, 1%N, linv 1 (eye RR 1))).
  by rewrite /inv_all; elim: (bs.+1) => // t IH; rewrite /mapM /= -!/(mapM _ _) IH.
by [].
Qed.
End Aug.
