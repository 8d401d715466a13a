(** * GroupsGen: matrices that are exponentials, and groups that contain them. *)
From Coq Require Import Reals Lra.
From Coquelicot Require Import Coquelicot.
From mathcomp Require Import all_ssreflect all_algebra.
From mathcomp Require Import zify.
From Verif Require Import Np NpLemmas Spec SpecLemmas LinOp MxBridge Rstruct Expm GrpSpec RField GenSL GenSO.
From Verif Require Import Groups GroupsSpec GroupsSpecR ExactSpec GroupsFlag GroupsReal GroupsForm GroupsDet.
Set Implicit Arguments.
Unset Strict Implicit.
Unset Printing Implicit Defensive.
Import GRing.Theory.
Local Open Scope ring_scope.

(** ** a curve with X' = AX and X(0)=1 is exp(tA) *)
Lemma exp_curve n (A : fmat RR) (X : R -> fmat RR) t : fr A = n -> fc A = n -> (forall t, fr (X t) = n) -> (forall t, fc (X t) = n) ->
  meq (X R0) (fid RR n) ->
  (forall t i j, (i < n)%N -> (j < n)%N -> derivable_pt_lim (fun s => fe (X s) i j) t (fe (fmul A (X t)) i j)) ->
  meq (X t) (expm n A t).
Proof.
move=> A1 A2 X1 X2 X0 D.
have C : meq (fmul (expm n (fopp A) t) (X t)) (fid RR n).
  split; rewrite //= ?X2 // => i j Hi Hj.
  pose f u := fe (fmul (expm n (fopp A) u) (X u)) i j.
  have K u : f u = f R0.
    apply: dl_const => {}u.
    apply: dl_ext (@dl_fmul n (expm n (fopp A)) X (fmul (expm n (fopp A) u) (fopp A)) (fmul A (X u)) u i j
      (fun=> erefl) A2 (fun l Hl => @expm_der_r n (fopp A) A2 i l u Hi Hl) (fun l Hl => D u l j Hl Hj)) => //.
    have -> (Y Z : fmat RR) : fe Y i j + fe Z i j = (mxf n n Y + mxf n n Z) (Ordinal Hi) (Ordinal Hj) by rewrite !mxE.
    rewrite !(@mxf_mul _ _ _ n) //.
    have -> : mxf n n (fopp A) = - mxf n n A by apply/matrixP=> a b; rewrite !mxE.
    by rewrite mulmxN mulNmx mulmxA addNr mxE.
  rewrite -[LHS]/(f t) K /f.
  have [_ _ ->] : meq (fmul (expm n (fopp A) R0) (X R0)) (fmul (fid RR n) (fid RR n)).
    by apply: meq_fmul (expm0 _ _) X0 _; rewrite X1.
    by have [_ _ ->] := @fmul_id_l _ (fid RR n) n erefl.
  by rewrite /= ?X2.
  by rewrite /= ?X2.
have E := meq_fmul (meq_refl (expm n A t)) C erefl.
have E2 := meq_trans E (@fmul_id_r _ (expm n A t) n erefl).
apply: meq_sym; apply: meq_trans (meq_sym E2) _; apply: meq_trans (fmul_assoc _ _ _) _.
apply: meq_trans (meq_fmul (expm_inv_r A2 t) (meq_refl (X t)) _) _; first by rewrite /= X1.
by apply: fmul_id_l; rewrite X1.
Qed.

Section Mx.
Variable n' : nat.
Local Notation n := n'.+1.
Implicit Types X Y A : 'M[RR]_n.
(** a matrix of the library as a matrix of the model *)
Definition fM X : fmat RR := FM n n (fun i j => X (inord i) (inord j)).
Lemma fMK X : mxf n n (fM X) = X.
Proof. by apply/matrixP=> i j; rewrite mxE /= !inord_val. Qed.
Lemma mxfK (F : fmat RR) : fr F = n -> fc F = n -> meq (fM (mxf n n F)) F.
Proof. by move=> h1 h2; split; rewrite ?h1 ?h2 //= => i j Hi Hj; rewrite mxE !inordK. Qed.
Lemma fM_mul X Y : meq (fM (X *m Y)) (fmul (fM X) (fM Y)).
Proof. by apply: meq_mxf => //; rewrite fMK (@mxf_mul _ _ _ n) // !fMK. Qed.
Lemma fM_one : meq (fM 1%:M) (fid RR n).
Proof. by apply: meq_mxf => //; rewrite fMK mxf_id. Qed.
Lemma exp_mx A (X : R -> 'M[RR]_n) t : X R0 = 1%:M ->
  (forall t a b, derivable_pt_lim (fun s => X s a b) t ((A *m X t) a b)) ->
  is_exp n (fscale t (fM A)) (fM (X t)).
Proof.
move=> X0 D; apply: is_exp_meq (expm_is (n := n) (A := fM A) erefl t) => //; apply: meq_sym.
apply: (@exp_curve n (fM A) (fun s => fM (X s)) t) => // [|s i j Hi Hj]; first by rewrite X0; exact: fM_one.
apply: dl_ext (D s (inord i) (inord j)) => //.
by have [_ _ <-] := fM_mul A (X s).
Qed.

(** ** groups *)
Variables As hs : seq (fmat RR).

Hypothesis Hh : forall h : fmat RR, List.In h hs -> fr h = n /\ fc h = n.
Definition ing X : Prop := in_group n As hs (fM X).
Lemma in_meq (X Y : fmat RR) : meq Y X -> in_group n As hs X -> in_group n As hs Y.
Proof.
move=> E G; have [x1 x2] := in_sqn Hh G; apply: (I_mul G (@I_one _ _ _ (fid RR n) (meq_refl _))).
by apply: meq_trans E (meq_sym _); apply: fmul_id_r; rewrite x2.
Qed.
Lemma ing1 : ing 1%:M.
Proof. exact: I_one fM_one. Qed.
Lemma ingM X Y : ing X -> ing Y -> ing (X *m Y).
Proof. by move=> h1 h2; apply: I_mul h1 h2 (fM_mul X Y). Qed.
Lemma ing_h h : List.In h hs -> ing (mxf n n h).
Proof. by move=> H; have [h1 h2] := Hh H; apply: I_gen H (mxfK h1 h2). Qed.
Lemma ing_exp A (X : R -> 'M[RR]_n) t : lie_span As (fM A) -> X R0 = 1%:M ->
  (forall t a b, derivable_pt_lim (fun s => X s a b) t ((A *m X t) a b)) -> ing (X t).
Proof.
move=> SA X0 D; apply: I_exp (exp_mx t X0 D).
by apply: (@LS_lin As (t - 1) (fM A) (fM A)) => //; split=> //= i j _ _; rewrite mulrBl mul1r subrK.
Qed.
Lemma ing_inv X Y : ing X -> X *m Y = 1%:M -> ing Y.
Proof.
move=> GX E; apply: (I_inv GX) => //; last first.
  by apply: meq_trans (meq_sym (fM_mul _ _)) _; rewrite (mulmx1C E); exact: fM_one.
by apply: meq_trans (meq_sym (fM_mul _ _)) _; rewrite E; exact: fM_one.
Qed.
(** if gX is in the group for a g in the group then X is *)
Lemma ing_div g X : g \in unitmx -> ing g -> ing (g *m X) -> ing X.
Proof.
by move=> U Gg /(ingM (ing_inv Gg (mulmxV U))); rewrite mulKmx.
Qed.
Lemma ing_iff F : fr F = n -> fc F = n -> ing (mxf n n F) -> in_group n As hs F.
Proof. by move=> h1 h2; apply: in_meq; apply: meq_sym; apply: mxfK. Qed.

(** ** one-parameter groups *)
Definition esk (i j : 'I_n) : 'M[RR]_n := delta_mx i j - delta_mx j i.
Lemma delta_mul (i j : 'I_n) X a b : (delta_mx i j *m X) a b = if a == i then X j b else 0.
Proof.
rewrite mxE (bigD1 j) //= big1 ?addr0 => [|k /negbTE Hk]; rewrite mxE ?eqxx ?andbT.
  by case: eqP => _; rewrite ?mul1r ?mul0r.
by rewrite Hk andbF mul0r.
Qed.
Lemma esk_mul (i j : 'I_n) X a b : (esk i j *m X) a b = (if a == i then X j b else 0) - (if a == j then X i b else 0).
Proof. by rewrite mulmxBl -!delta_mul [LHS]mxE; congr (_ + _); rewrite [LHS]mxE. Qed.
Lemma ing_giv (i j : 'I_n) t : i != j -> lie_span As (fM (esk i j)) -> ing (giv i j t).
Proof.
move=> H L; apply: ing_exp L _ _.
  have S0 : sin R0 = (0 : RR) := sin_0; have C0 : cos R0 = (1 : RR) := cos_0.
  apply/matrixP=> a b; rewrite !mxE S0 C0 oppr0.
  case: (eqVneq a i) => Ha; case: (eqVneq b i) => Hb; case: (eqVneq a j) => Haj; case: (eqVneq b j) => Hbj; case: (eqVneq a b) => E //; by neqs.
move=> {}t a b; rewrite esk_mul !mxE !eqxx (eq_sym j) (negbTE H).
apply: (@dl_ext (fun s => if a == i then (if b == i then cos s else if b == j then sin s else 0)
   else if a == j then (if b == i then - (sin s : RR) else if b == j then cos s else 0) else (a == b)%:R)).
  by move=> s; rewrite mxE.
  by [].
have Dc := derivable_pt_lim_cos t; have Ds := derivable_pt_lim_sin t; have D0 x := derivable_pt_lim_const x t.
case: (eqVneq a i) => Ha; case: (eqVneq b i) => Hb; case: (eqVneq a j) => Haj; case: (eqVneq b j) => Hbj; try (by neqs);
  rewrite ?subr0 ?sub0r ?oppr0 //; try (by apply: dl_ext (D0 R0)).
- exact: derivable_pt_lim_opp.
all: by apply: dl_ext (D0 (a == b)%:R).
Qed.
Lemma ing_trv (i j : 'I_n) t : i != j -> lie_span As (fM (delta_mx i j)) -> ing (trv i j t).
Proof.
move=> H L; apply: (@ing_exp _ (fun t => trv i j t) t L) => [|{}t a b]; first by rewrite /trv scale0r addr0.
rewrite delta_mul !mxE.
have -> : (if a == i then (j == b)%:R + t * ((j == i) && (b == j))%:R else 0 : RR) = ((a == i) && (b == j))%:R.
  by rewrite (eq_sym j i) (negbTE H) mulr0 addr0 (eq_sym j b); case: ifP.
apply: dl_ext (derivable_pt_lim_plus _ _ _ _ _ (derivable_pt_lim_const (a == b)%:R t)
  (@dl_mulc id t ((a == i) && (b == j))%:R 1 (derivable_pt_lim_id t))) => [s|]; first by rewrite !mxE.
by rewrite mul1r Rplus_0_l.
Qed.
Lemma ing_dlast t : lie_span As (fM (delta_mx ord_max ord_max)) -> ing (dlast n' (exp t)).
Proof.
move=> L; apply: (@ing_exp _ (fun t => dlast n' (exp t)) t L) => [|{}t a b].
  by apply/matrixP=> a b; rewrite !mxE exp_0; case: eqP => // _; rewrite if_same.
rewrite delta_mul !mxE; have D0 x := derivable_pt_lim_const x t.
apply: (@dl_ext (fun s => if a == b then (if a == ord_max then exp s else 1) else 0)); [by move=> s; rewrite mxE | by [] |].
case: (eqVneq a b) => E; case: (eqVneq a ord_max) => Ha; rewrite ?eqxx; try exact: D0.
  by rewrite -E Ha eqxx; exact: derivable_pt_lim_exp.
by rewrite -Ha (negbTE E); exact: D0.
Qed.
End Mx.
