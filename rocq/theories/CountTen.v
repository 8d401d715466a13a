(** * CountTen: layers between sums of representations, and between tensors of an orthogonal group. *)
From Coq Require Import Reals.
From mathcomp Require Import all_ssreflect all_algebra.
From mathcomp Require Import zify.
From Verif Require Import Np NpLemmas Spec SpecLemmas LinOp LinOpSpec LinOpProofs Rep RepSpec RepMat RepWf RepAlg RepMul RepFun RepOps RepExpr RepExprProofs RhoProofs RepThm RepThm1 Solver SolSpec Rstruct Expm GrpSpec GrpProofs.
From Verif Require Import Groups GroupsSpec GroupsFlag GroupsReal GroupsPerm ExactSpec Nn NnSpec NnThm Data DataSpec DataAlg DimSol DimTenSpec DimTen DimGrp CharSO2 CountSpec CountThm.
Set Implicit Arguments.
Unset Strict Implicit.
Unset Printing Implicit Defensive.
Import GRing.Theory.
Local Open Scope ring_scope.

Section Lists.
Variables (sinv : RR -> RR) (linv : nat -> seq RR -> seq RR).
Variables (crho cdrho : nat -> option gid -> gel RR -> res (op RR)).
Variables (gdim : gid -> nat) (gorth : gid -> bool) (csize : nat -> gid -> nat) (le : rel rep) (g : gid).
Variables (gens lies : gid -> seq (op RR)).
Variables (svd : nat -> nat -> seq RR -> seq RR * seq RR * seq RR) (big : pred RR).
Variable krylov : op RR -> res (darr RR).
Local Notation gs := (pred1 g).
Local Notation sz := (rsize gdim csize).
Local Notation wfr := (wfr gdim csize le gs).
Local Notation elem := (element sinv linv gdim gens lies g).
Local Notation columns := (basis_columns sinv linv crho cdrho gdim csize le gens lies svd big krylov).
Local Notation map_columns := (map_columns sinv linv crho cdrho gdim gorth csize le gens lies svd big krylov).
Local Notation shift_columns := (shift_columns sinv linv crho cdrho gdim gorth csize le g gens lies svd big krylov).
Local Notation add := (add gdim csize le).
Local Notation adds := (adds gdim csize le).
Local Notation mul := (mul gdim csize le).
Local Notation tr := (tr gdim gorth csize le).
Local Notation mul_int := (mul_int gdim csize le).
Hypothesis HLI : linv_ok linv.
Hypothesis HC : customs_ok sinv linv crho cdrho gdim csize gs.
Hypothesis HGen : generators_ok idR gdim sinv linv crho cdrho csize gs gens lies.
Hypothesis O : total_order_on (key gdim csize le gs) le.
Hypothesis HS : forall c, solver_ok idR gdim sinv linv crho cdrho csize gens lies svd big krylov c.
Hypothesis HO : forall M, elem M -> orth_elem crho gdim csize gorth gs M.

Lemma map_shift a b k : wfr a -> wfr b -> map_columns a b k <-> shift_columns a b k.
Proof.
move=> Wa Wb; split=> [[r E C]|[r E [_ C]]]; exists r => //; split=> //.
by have [t [r' [_ _ _ Wr Es]]] := shift_ok HC O HO Wa Wb; rewrite E in Es; case: Es => <- in Wr.
Qed.
Lemma map_uniq a b k k' : map_columns a b k -> map_columns a b k' -> k = k'.
Proof. by move=> [r E C] [r' E' C']; rewrite E in E'; case: E' => ?; subst r'; exact: columns_uniq C C'. Qed.
Lemma map_exists a b : wfr a -> wfr b -> exists k, map_columns a b k.
Proof.
move=> Wa Wb; have [k C] := shift_exists HLI HC HGen O HS HO Wa Wb.
by exists k; apply/map_shift.
Qed.
Lemma add_w a b : wfr a -> wfr b -> exists2 r, add a b = Ok r & wfr r.
Proof. by move=> Wa Wb; have [r [E W _]] := add_size O Wa Wb; exists r. Qed.
Lemma adds_w a l : wfr a -> all wfr l -> exists2 r, adds a l = Ok r & wfr r.
Proof.
elim: l a => [|b l IH] a Wa /=; first by exists a.
by case/andP=> Wb Wl; have [r E W] := add_w Wa Wb; rewrite /adds /= E; exact: IH.
Qed.
Lemma adds_in a l b A k (f : nat -> nat) : wfr a -> all wfr l -> wfr b -> adds a l = Ok A ->
  shift_columns a b k -> (forall i, (i < size l)%N -> shift_columns (nth RScalar l i) b (f i)) ->
  shift_columns A b (k + \sum_(i < size l) f i).
Proof.
elim: l a k f => [|x l IH] a k f Wa /=; first by move=> _ _ [<-]; rewrite big_ord0 addn0.
case/andP=> Wx Wl Wb; have [r E W] := add_w Wa Wx; rewrite /adds /= E /= => EA C H.
rewrite big_ord_recl addnA; apply: (IH r _ (fun i => f i.+1) W Wl Wb EA).
  by apply: (shift_in HLI HC HGen O HS HO Wa Wx Wb E C); exact: (H 0%N).
by move=> i Hi; exact: (H i.+1).
Qed.
Lemma adds_out a l b A k (f : nat -> nat) : wfr a -> all wfr l -> wfr b -> adds a l = Ok A ->
  shift_columns b a k -> (forall i, (i < size l)%N -> shift_columns b (nth RScalar l i) (f i)) ->
  shift_columns b A (k + \sum_(i < size l) f i).
Proof.
elim: l a k f => [|x l IH] a k f Wa /=; first by move=> _ _ [<-]; rewrite big_ord0 addn0.
case/andP=> Wx Wl Wb; have [r E W] := add_w Wa Wx; rewrite /adds /= E /= => EA C H.
rewrite big_ord_recl addnA; apply: (IH r _ (fun i => f i.+1) W Wl Wb EA).
  by apply: (shift_out HLI HC HGen O HS HO Wa Wx Wb E C); exact: (H 0%N).
by move=> i Hi; exact: (H i.+1).
Qed.
Theorem layer_columns a l b m (c : nat -> nat -> nat) : all wfr (a :: l) -> all wfr (b :: m) ->
  (forall i j, (i <= size l)%N -> (j <= size m)%N -> map_columns (nth RScalar (a :: l) i) (nth RScalar (b :: m) j) (c i j)) ->
  exists A B, [/\ adds a l = Ok A, adds b m = Ok B & map_columns A B (\sum_(i < (size l).+1) \sum_(j < (size m).+1) c i j)].
Proof.
move=> /= /andP[Wa Wl] /andP[Wb Wm] H.
have [A EA WA] := adds_w Wa Wl; have [B EB WB] := adds_w Wb Wm; exists A, B; split=> //; apply/map_shift => //.
have HB i : (i <= size l)%N -> shift_columns (nth RScalar (a :: l) i) B (\sum_(j < (size m).+1) c i j).
  move=> Hi; have Wi : wfr (nth RScalar (a :: l) i) by apply: (allP (s := a :: l)); rewrite ?mem_nth //= Wa.
  rewrite big_ord_recl; apply: (@adds_out b m _ B _ (fun j => c i j.+1) Wb Wm Wi EB).
    by apply/map_shift => //; exact: (H i 0%N).
  move=> j Hj; have Wj : wfr (nth RScalar m j) by apply: (allP Wm); rewrite mem_nth.
  by apply/map_shift => //; exact: (H i j.+1).
rewrite big_ord_recl; apply: (@adds_in a l B A _ (fun i => \sum_(j < (size m).+1) c i.+1 j)%N Wa Wl WB EA); first exact: (HB 0%N).
by move=> i Hi; exact: (HB i.+1).
Qed.
Theorem multiples_columns a b n m k : wfr a -> wfr b -> map_columns a b k ->
  exists A B, [/\ mul_int a (Posz n.+1) = Ok (VRep A), mul_int b (Posz m.+1) = Ok (VRep B) & map_columns A B (n.+1 * (m.+1 * k))].
Proof.
move=> Wa Wb /(map_shift _ Wa Wb) C.
have [A [EA WA _]] := mulint_size O n Wa; have [B [EB WB _]] := mulint_size O m Wb.
exists A, B; split=> //; apply/map_shift => //.
apply: (shift_mult_in HLI HC HGen O HS HO Wa WB EA); exact: (shift_mult_out HLI HC HGen O HS HO Wa Wb EB C).
Qed.

Theorem map_sym a b k : gorth g -> wfr a -> wfr b -> map_columns a b k -> map_columns b a k.
Proof. by move=> Og Wa Wb /map_shift C; apply/map_shift => //; apply: (shift_sym HLI HC HGen O HS HO Og) => //; exact: C. Qed.

(** ** tensors *)
Hypothesis G0 : (0 < gdim g)%N.
Hypothesis C0 : forall c, (0 < csize c g)%N.
Hypothesis Og : gorth g.
Local Notation rep_of := (rep_of gdim gorth csize le g).
Lemma ten_rep p q : exists2 r, rep_of (T_expr p q) r & wfr r /\ sz r = (gdim g ^ (p + q))%N.
Proof.
have [r R [W S]] := @rep_exists gdim gorth csize le g O G0 C0 (T_expr p q) _ erefl; exists r => //; split=> //.
by rewrite S; apply: (proj1 (@tensor_sz (gdim g) p q _ _ _ _ _ _ _)) => //=; rewrite /ta /t_atom /= Og.
Qed.
Lemma look M : elem M -> exists A, [/\ glook M (Some g) = Ok A, fr (den A) = gdim g & fc (den A) = gdim g].
Proof.
by move=> [X _ HM]; have [A EA [[/gop_sz[h1 h2] _] _]] := HM g (eqxx g); exists A.
Qed.
Lemma ten_rho p q r M A : rep_of (T_expr p q) r -> elem M -> glook M (Some g) = Ok A -> fr (den A) = gdim g -> fc (den A) = gdim g ->
  rho_dense idR sinv linv crho r M = Ok (gdim g ^ (p + q), gdim g ^ (p + q), flat (fkronl (nseq (p + q) (den A))))%N.
Proof.
move=> R EM EA a1 a2; have HM := is_elem HC; have [X _ /HM GM] := EM.
have -> := rep_rho O G0 C0 R GM (HO EM) erefl.
have -> : ta gorth (leafrep (Some g) None) = leafrep (Some g) None by rewrite /ta /t_atom /= Og.
rewrite /= (arho_V _ _ _ EA) /=; have [h1 h2] := tensor_sz p q a1 a2 a1 a2; rewrite /= in h1 h2; rewrite h1 h2.
by congr (Ok (_, _)); apply: flat_meq; exact: (tensor_same p q (meq_refl (den A))).
Qed.
Theorem tensor_columns p q p' q' s t a b r k : rep_of (T_expr p q) a -> rep_of (T_expr p' q') b -> rep_of (T_expr s t) r ->
  (s + t = p + q + (p' + q'))%N -> columns r k -> map_columns a b k.
Proof.
move=> Ra Rb Rr E C.
have [x Rx [Wa Sa]] := ten_rep p q; rewrite -(rep_of_inj Ra Rx) in Wa Sa *.
have [y Ry [Wb Sb]] := ten_rep p' q'; rewrite -(rep_of_inj Rb Ry) in Wb Sb *.
have [z Rz [Wr Sr]] := ten_rep s t; rewrite -(rep_of_inj Rr Rz) in Wr Sr *.
have [ta' [u [Et Wt Eu Wu Es]]] := shift_ok HC O HO Wa Wb; exists u => //.
have [_ St Rt] := tr_orth HC O HO Og Wa Et.
have [u' [Eu' _ Su Hu]] := mul_r gens lies HC O Wb Wt; rewrite Eu in Eu'; case: Eu' => ?; subst u'.
have S : sz r = sz u by rewrite Su St Sr Sa Sb E -expnD addnC.
apply: (same_columns HLI HC HGen O HS Wr Wu S _ C) => M EM.
have [A [EA a1 a2]] := look EM; have [Db [Da [h1 h2 ->]]] := Hu M EM.
rewrite Rt // (ten_rho Ra EM EA a1 a2) in h2; rewrite (ten_rho Rb EM EA a1 a2) in h1.
case: h1 => _ _ <-; case: h2 => _ _ <-; rewrite (ten_rho Rr EM EA a1 a2) -Sr S Su; congr (Ok (_, _)).
have [f1 f2] := fkronl_sz (p + q) a1 a2; have [f3 f4] := fkronl_sz (p' + q') a1 a2.
rewrite /kron2; apply: flat_meq; apply: meq_sym.
have U1 := @unflat_flat RR (fkronl (nseq (p' + q') (den A))); rewrite f3 f4 -Sb in U1.
have U2 := @unflat_flat RR (fkronl (nseq (p + q) (den A))); rewrite f1 f2 -Sa -St in U2.
apply: meq_trans (meq_fkron U1 U2) _; rewrite E [(p + q + _)%N]addnC.
have -> : nseq (p' + q' + (p + q)) (den A) = nseq (p' + q') (den A) ++ nseq (p + q) (den A) by elim: (p' + q')%N => [|n IH] //=; rewrite IH.
by apply: meq_sym; exact: fkronl_cat.
Qed.
End Lists.
