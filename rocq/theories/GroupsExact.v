(** * GroupsExact: the groups generated by the built-in group objects. *)
From Coq Require Import Reals Lra String.
From Coquelicot Require Import Coquelicot.
From mathcomp Require Import all_ssreflect all_algebra.
From mathcomp Require Import zify.
From Verif Require Import Np NpLemmas Spec SpecLemmas LinOp LinOpSpec LinOpInv MxBridge RepSpec RhoProofs Rstruct Expm GrpSpec RField GenSL GenSO GenLor GenSp.
From Verif Require Import Groups GroupsSpec GroupsSpecR ExactSpec GroupsLoop GroupsLie GroupsInit GroupsCtor GroupsThm GroupsFlag GroupsReal GroupsForm GroupsDet GroupsGen.
Set Implicit Arguments.
Unset Strict Implicit.
Unset Printing Implicit Defensive.
Import GRing.Theory.
Local Open Scope ring_scope.

Lemma char2R : char2 RR.
Proof. by move=> x; rewrite /GRing.add /GRing.zero /= => H; lra. Qed.

(** ** spans of bases *)
Section Span.
Variables (n : nat) (P : fmat RR -> Prop) (As : seq (fmat RR)).
Hypothesis B : is_basis id n P As.
Lemma basis_sz A : List.In A As -> fr A = n /\ fc A = n.
Proof. by case: B => H _ _ /H[]. Qed.
Lemma basis_P A : List.In A As -> P A.
Proof. by case: B => H _ _ /H[]. Qed.
Lemma In_nth (T : Type) (x0 : T) l k : (k < size l)%N -> List.In (nth x0 l k) l.
Proof. by elim: l k => //= x l IH [|k] H; [left | right; apply: IH]. Qed.
Lemma basis_span (X : fmat RR) : (0 < size As)%N -> fr X = n -> fc X = n -> P X -> lie_span As X.
Proof.
move=> S x1 x2 PX; have [_ _ /(_ X x1 x2 PX)[c E]] := B; pose z0 := fzero RR 0 0.
have HN k : (k < size As)%N -> lie_span As (nth z0 As k) by move=> Hk; apply: LS_gen (In_nth z0 Hk) (meq_refl _).
have NS k : (k < size As)%N -> fr (nth z0 As k) = n /\ fc (nth z0 As k) = n by move=> Hk; apply: basis_sz; apply: In_nth.
suff L m : (m <= size As)%N -> lie_span As (FM n n (fun i j => \sum_(0 <= k < m) c k * fe (nth z0 As k) i j)).
  have L0 := L (size As) (leqnn _).
  by apply: (@LS_lin As 0 _ _ X L0 L0); apply: meq_trans E _; split=> //= i j _ _; rewrite mul0r add0r.
elim: m => [_|m IH Hm].
  have [h1 h2] := NS 0%N S.
  by apply: (@LS_lin As (-1) _ _ _ (HN 0%N S) (HN 0%N S)); split; rewrite ?h1 ?h2 //= => i j _ _; rewrite big_nil mulN1r addNr.
have [h1 h2] := NS m Hm.
apply: (@LS_lin As (c m) _ _ _ (HN m Hm) (IH (ltnW Hm))); split; rewrite ?h1 ?h2 //= => i j _ _.
by rewrite big_nat_recr //= addrC.
Qed.
End Span.

Lemma in_mono n As hs (X : fmat RR) : in_group n As [::] X -> in_group n As hs X.
Proof.
elim=> {X} [X E|h X []|A X SA HE|X Y Z _ GX _ GY E|X Y _ GX h1 h2 E1 E2].
- exact: I_one.
- exact: I_exp SA HE.
- exact: I_mul GX GY E.
- exact: I_inv GX h1 h2 E1 E2.
Qed.
(** preserving a nondegenerate form makes the trace zero *)
Lemma pres_traceless n J K (A : fmat RR) : fr J = n -> fc J = n -> mxf n n J *m K = 1%:M -> pres n J A -> traceless A.
Proof.
move=> J1 J2 JK [a1 a2 /eqP]; rewrite addr_eq0 => /eqP E.
have {}E : (mxf n n A)^T = - (mxf n n J *m mxf n n A *m K) by rewrite -mulNmx -E -mulmxA JK mulmx1.
have T : \tr (mxf n n A) = - \tr (mxf n n A).
  by rewrite -{1}mxtrace_tr E linearN /= -mulmxA mxtrace_mulC -mulmxA (mulmx1C JK) mulmx1.
rewrite /traceless a1 big_mkord -[LHS]/(\sum_(i < n) fe A i i).
have -> : \sum_(i < n) fe A i i = \tr (mxf n n A) by apply: eq_bigr => i _; rewrite mxE.
by apply: char2R; rewrite {1}T addNr.
Qed.
Lemma tr_ord n (A : fmat RR) : fr A = n -> traceless A -> \sum_(i < n) fe A i i = 0.
Proof. by move=> h; rewrite /traceless h big_mkord. Qed.
(** with a traceless Lie algebra and no discrete generators the determinants are 1 *)
Lemma det_one n As (X : fmat RR) : (forall A, List.In A As -> [/\ fr A = n, fc A = n & traceless A]) ->
  in_group n As [::] X -> fdet n X = 1.
Proof.
move=> HA; apply: (@group_fdet n As [::] _ _ (fun x => x = 1)) => // [A|x y -> ->|x y ->|A SA].
- by case/HA.
- by rewrite Rmult_1_l.
- by rewrite Rmult_1_l.
by have [h1 h2 T] := tr_span HA SA; apply: det_const => //; apply: tr_ord.
Qed.

(** ** cores, on matrices *)
Section Core.
Variable n : nat.
Notation M := 'M[RR]_n.+1.
Variable As : seq (fmat RR).
Hypothesis HT : forall A, List.In A As -> [/\ fr A = n.+1, fc A = n.+1 & traceless A].
Lemma ing_det (g : M) : ing As [::] g -> \det g = 1.
Proof. by move=> G; have := det_one HT G; rewrite /fdet fMK. Qed.
Lemma ing_unit (g : M) : ing As [::] g -> g \in unitmx.
Proof. by move=> G; rewrite unitmxE ing_det // unitr1. Qed.
Lemma dlast1 : dlast n (1 : RR) = 1%:M.
Proof. by apply/matrixP=> i j; rewrite !mxE if_same; case: eqP. Qed.
Lemma so_core (X : M) : (forall i j : 'I_n.+1, (i < j)%N -> lie_span As (fM (esk i j))) ->
  X^T *m X = 1%:M -> \det X = 1 -> ing As [::] X.
Proof.
move=> L O D; have G (i j : 'I_n.+1) t : (0 <= i)%N -> (i < j)%N -> ing As [::] (giv i j t).
  by move=> _ Hij; apply: ing_giv; [exact: ord_neq | exact: L].
have [|g1 g2||g Hg Eg] := @gen_so n (@ing n As [::]) 0 _ _ G ing_det X (leq0n _) _ O; [exact: ing1 | exact: ingM | by [] |].
by apply: (ing_div (ing_unit Hg) Hg); rewrite Eg D dlast1; exact: ing1.
Qed.
End Core.
(** diag(-1, 1, ..., 1) *)
Definition rf (n : nat) : 'M[RR]_n.+1 := \matrix_(i, j) (if i == j then (if i == ord0 then -1 else 1) else 0).
Lemma rfE n : rf n = diag_mx (\row_i (if i == ord0 then -1 else 1)).
Proof. by apply/matrixP=> i j; rewrite !mxE; case: eqP => [->|]; rewrite ?mulr1n ?mulr0n. Qed.
Lemma rf_det n : \det (rf n) = -1.
Proof.
rewrite rfE det_diag (bigD1 ord0) //= big1 ?mulr1 ?mxE ?eqxx // => i /negbTE Hi; by rewrite mxE Hi.
Qed.
Lemma rf_mul n : rf n *m rf n = 1%:M.
Proof.
rewrite rfE mulmx_diag -diag_const_mx; congr diag_mx; apply/rowP=> i; rewrite !mxE.
by case: ifP => _; rewrite ?mulrNN mulr1.
Qed.
Lemma rf_tr n : (rf n)^T = rf n.
Proof. by rewrite rfE tr_diag_mx. Qed.
Lemma rf_unit n : rf n \in unitmx.
Proof. by rewrite unitmxE rf_det unitrN unitr1. Qed.
Lemma mxf_rf n (h : fmat RR) : meq h (FM n.+1 n.+1 (refl0 RR)) -> mxf n.+1 n.+1 h = rf n.
Proof.
by move=> [h1 h2 E]; apply/matrixP=> i j; rewrite !mxE E ?h1 ?h2 ?ltn_ord //= refl_diag.
Qed.
Lemma mxf_opp n (h : fmat RR) : meq h (FM n.+1 n.+1 (fun i j => - dl RR i j)) -> mxf n.+1 n.+1 h = - 1%:M.
Proof.
by move=> [h1 h2 E]; apply/matrixP=> i j; rewrite !mxE E ?h1 ?h2 ?ltn_ord.
Qed.
(** every layer of an array occurs among its matrices *)
Lemma layers_in D n (a : nd RR) fs : filled D n a fs (fun _ _ => 0) -> size fs = D ->
  forall k, (k < D)%N -> exists2 h, List.In h (mats a) & meq h (FM n n (nth (fun _ _ => 0) fs k)).
Proof.
move=> F S k Hk; have [S1 H] := items_filled F S; have [B E [_ Mk]] := H k Hk.
exists (den (OArr n n B)) => //; apply: List.in_map; rewrite -E; apply: In_nth; by rewrite S1.
Qed.
Lemma skew_pres n (A : fmat RR) : fr A = n -> fc A = n -> skew A -> pres n (fid RR n) A.
Proof.
move=> a1 a2 S; split=> //; rewrite mxf_id mulmx1 mul1mx; apply/matrixP=> i j; rewrite !mxE.
have [_ _ E] := S; have := E j i; rewrite /= a1 a2 !ltn_ord => /(_ isT isT) ->; exact: subrr.
Qed.
Lemma iso_mx n (X : fmat RR) : fr X = n -> fc X = n -> isometry (fid RR n) X <-> (mxf n n X)^T *m mxf n n X = 1%:M.
Proof. by move=> h1 h2; rewrite (isoE (J := fid RR n)) // mxf_id mul1mx. Qed.
Lemma sq_one' (n : nat) (X : 'M[RR]_n) : X^T *m X = 1%:M -> \det X = 1 \/ \det X = -1.
Proof. by move/(congr1 determinant); rewrite det_mulmx det_tr det1 => /sq_one. Qed.

Section Ctors.
Variables (conj : RR -> RR) (recip : nat -> RR) (close : seq RR -> seq RR -> bool).
Lemma built_exact x d lie gens P : built conj x d lie gens ->
  ((forall A, List.In A (map (@den RR) (gitems lie)) -> fr A = d /\ fc A = d) ->
   (forall A, List.In A (map (@den RR) (gitems gens)) -> fr A = d /\ fc A = d) ->
   forall X, in_group d (map (@den RR) (gitems lie)) (map (@den RR) (gitems gens)) X <-> [/\ fr X = d, fc X = d & P X]) ->
  exact_group x d P.
Proof.
move=> [G -> [g1 g2 g3 [g4 g5]]] H; exists G => //; split=> //; rewrite /lmats /gmats g2 g3; apply: H.
  by move=> A /List.in_map_iff[C [<- HC]]; apply: gop_sz; apply: g4.
by move=> A /List.in_map_iff[C [<- HC]]; apply: gop_sz; apply: g5.
Qed.
Lemma no_items d : map (@den RR) (gitems (no_gens RR d)) = [::].
Proof. by []. Qed.
Lemma in_sz n As hs (X : fmat RR) : (forall h, List.In h hs -> fr h = n /\ fc h = n) -> in_group n As hs X -> fr X = n /\ fc X = n.
Proof. exact: in_sqn. Qed.

(** *** SL and GL *)
Lemma exact_sl n : (1 < n)%N -> exact_group (g_sl conj close n) n (fun X => fdet n X = 1).
Proof.
move=> n1; have [a E B] := sl_ok conj close n1; have [b E2 [Ed S1 Ib]] := sl_basis RR (ltnW n1).
move: E2; rewrite E => -[?]; subst b; apply: (built_exact B); rewrite no_items -/(mats a) => HA _ X.
have HA3 A : List.In A (mats a) -> [/\ fr A = n, fc A = n & traceless A] by case: Ib => H _ _; exact: H.
split=> [G|[x1 x2 D]].
  by have [//|h1 h2] := in_sz _ G; split=> //; apply: det_one G.
case: n n1 {E B Ed} S1 Ib HA HA3 x1 x2 D => // n n1 S1 Ib HA HA3 x1 x2 D.
have N0 (h : fmat RR) : List.In h [::] -> fr h = n.+1 /\ fc h = n.+1 by [].
apply: (ing_iff N0 x1 x2).
have S0 : (0 < size (mats a))%N by rewrite S1 subn_gt0; case: n n1 {S1 Ib HA HA3 x1 x2 D N0} => // n _; rewrite mulSn.
have T (i j : 'I_n.+1) t : i != j -> ing (mats a) [::] (trv i j t).
  move=> Hij; apply: ing_trv => //; apply: (basis_span Ib) => //; rewrite /traceless /= big1 // => k _.
  by rewrite !mxE; case: eqP => //= ->; case: eqP => // Ej; rewrite Ej eqxx in Hij.
have Dt (g : 'M[RR]_n.+1) : ing (mats a) [::] g -> \det g = 1 by move=> G; have := det_one HA3 G; rewrite /fdet fMK.
have D0 : \det (mxf n.+1 n.+1 X) != 0 by rewrite -/(fdet _ _) D oner_eq0.
have [|g1 g2|g Hg Eg] := @gen_sl _ n (@ing n (mats a) [::]) _ _ T Dt _ D0; [exact: ing1 | exact: ingM |].
have Ug : g \in unitmx by rewrite unitmxE Dt // unitr1.
apply: (ing_div Ug Hg); rewrite Eg -/(fdet _ _) D.
have -> : dlast n (1 : RR) = 1%:M by apply/matrixP=> i j; rewrite !mxE if_same; case: eqP.
exact: ing1.
Qed.
Lemma exact_gl n : (0 < n)%N -> exact_group (g_gl conj close n) n (fun X => Rlt R0 (fdet n X)).
Proof.
case: n => // n _; have [a E B] := gl_ok conj close n; have [b E2 [Ed S1 Ib]] := gl_basis RR n.+1.
move: E2; rewrite E => -[?]; subst b; apply: (built_exact B); rewrite no_items -/(mats a) => HA _ X.
have N0 (h : fmat RR) : List.In h [::] -> fr h = n.+1 /\ fc h = n.+1 by [].
split=> [G|[x1 x2 D]].
  have [h1 h2] := in_sz N0 G; split=> //.
  apply: (@group_fdet n.+1 (mats a) [::] HA N0 (fun x => Rlt R0 x)) G => // [|x y|x y Hx Hxy|A SA].
  - exact: Rlt_0_1.
  - exact: Rmult_lt_0_compat.
  - by apply: (Rmult_lt_reg_l x) => //; rewrite Rmult_0_r Hxy; exact: Rlt_0_1.
  by have [a1 a2] := span_sz HA SA; apply: det_pos.
apply: (ing_iff N0 x1 x2).
have S0 : (0 < size (mats a))%N by rewrite S1.
have L (A : 'M[RR]_n.+1) : lie_span (mats a) (fM A) by apply: (basis_span Ib).
(** the subgroup of determinant 1 *)
pose H (g : 'M[RR]_n.+1) := ing (mats a) [::] g /\ \det g = 1.
have D0 : \det (mxf n.+1 n.+1 X) != 0 by apply/eqP=> Z; move: D; rewrite /fdet Z; exact: Rlt_irrefl.
have T (i j : 'I_n.+1) t : i != j -> H (trv i j t).
  move=> Hij; split; first by apply: ing_trv.
  pose A0 := fM (delta_mx i j : 'M[RR]_n.+1).
  have I0 : ing [:: A0] [::] (trv i j t) by apply: ing_trv => //; apply: LS_gen (meq_refl _); left.
  rewrite -(fMK (trv i j t)) -/(fdet _ _); apply: (@det_one _ [:: A0]) I0 => A [<-|//]; split=> //.
  rewrite /traceless /= big1 // => k _.
  by rewrite !mxE; case: eqP => //= ->; case: eqP => // Ej; rewrite Ej eqxx in Hij.
have [|g1 g2 [I1 D1] [I2 D2]||g [Hg Dg] Eg] := @gen_sl _ n H _ _ T _ _ D0.
- by split; [exact: ing1 | rewrite det1].
- by split; [exact: ingM | rewrite det_mulmx D1 D2 mulr1].
- by move=> g [].
have Ug : g \in unitmx by rewrite unitmxE Dg unitr1.
apply: (ing_div Ug Hg); rewrite Eg -/(fdet _ _) -(exp_ln (fdet n.+1 X)) //.
by apply: ing_dlast.
Qed.

(** *** SO and O *)
Lemma esk_span n a (i j : 'I_n.+1) : is_basis id n.+1 (@skew RR) (mats a) -> (0 < size (mats a))%N -> lie_span (mats a) (fM (esk i j)).
Proof.
move=> Ib S0; apply: (basis_span Ib) => //; split=> //= x y Hx Hy; rewrite !mxE opprB.
by rewrite [inord y == i]eq_sym [inord y == j]eq_sym; rewrite (andbC (inord x == i)) (andbC (inord x == j)) ![_ == inord y]eq_sym.
Qed.
Lemma so_traceless n (As : seq (fmat RR)) : (forall A, List.In A As -> [/\ fr A = n, fc A = n & skew A]) ->
  forall A, List.In A As -> [/\ fr A = n, fc A = n & traceless A].
Proof.
move=> H A /H[a1 a2 S]; split=> //; apply: (@pres_traceless n (fid RR n) 1%:M) => //; first by rewrite mxf_id mulmx1.
exact: skew_pres.
Qed.
Lemma exact_so n : (1 < n)%N -> exact_group (g_so conj close n) n (fun X => isometry (fid RR n) X /\ fdet n X = 1).
Proof.
move=> n1; have [a E B] := so_ok conj close n1; have [b E2 [Ed S1 Ib]] := so_basis n char2R.
move: E2; rewrite E => -[?]; subst b; apply: (built_exact B); rewrite no_items -/(mats a) => HA _ X.
have HB A : List.In A (mats a) -> [/\ fr A = n, fc A = n & skew A] by case: Ib => H _ _; exact: H.
have HA3 := so_traceless HB.
split=> [G|[x1 x2 [O D]]].
  have [//|h1 h2] := in_sz _ G; split=> //; split; last exact: det_one G.
  by apply: (@group_iso n _ (mats a) [::]) G => // A /HB[a1 a2 S]; apply: skew_pres.
case: n n1 {E B Ed} S1 Ib HA HB HA3 x1 x2 O D => // n n1 S1 Ib HA HB HA3 x1 x2 O D.
apply: ing_iff => //; apply: so_core => //.
  by move=> i j _; apply: esk_span => //; rewrite S1; exact: tri_gt0.
by apply/iso_mx.
Qed.
Lemma exact_o n : (0 < n)%N -> exact_group (g_o conj close n) n (isometry (fid RR n)).
Proof.
case: n => // n _; have [a [h [E Eh B]]] := o_ok conj close n; have [b E2 [Ed S1 Ib]] := so_basis n.+1 char2R.
move: E2; rewrite E => -[?]; subst b; apply: (built_exact B); rewrite -/(mats a) -/(mats h) => HA Hh X.
have HB A : List.In A (mats a) -> [/\ fr A = n.+1, fc A = n.+1 & skew A] by case: Ib => H _ _; exact: H.
have HA3 := so_traceless HB.
have [h' E' /filled_next F] := put_eye RR n; move: E'; rewrite Eh => -[?]; subst h'.
split=> [G|[x1 x2 O]].
  have [//|h1 h2] := in_sz _ G; split=> //.
  apply: (@group_iso n.+1 _ (mats a) (mats h)) G => // [A /HB[a1 a2 S]|g]; first exact: skew_pres.
  case/(mats_list F erefl)=> f [<-|//] M; have [-> -> _] := M; split=> //.
  apply: (diag_iso (b := fun i => if i == 0%N then -1 else 1) (fid_diag _ _)); last by move=> i; case: ifP; rewrite ?mulrNN mulr1.
  by apply: (meq_trans M); split=> //= i j _ _; rewrite refl_diag.
have L (i j : 'I_n.+1) : (i < j)%N -> lie_span (mats a) (fM (esk i j)).
  move=> Hij; apply: esk_span => //; rewrite S1; apply: tri_gt0.
  by apply: leq_ltn_trans (leq0n i) _; apply: leq_trans Hij _; rewrite -ltnS.
apply: (ing_iff Hh x1 x2); move/(iso_mx x1 x2): O => O.
have [D|D] := sq_one' O; first by apply: in_mono; apply: so_core.
have [r Hr /mxf_rf Er] := layers_in F erefl (ltn0Sn 0).
have Ir := ing_h (mats a) Hh Hr; rewrite Er in Ir.
apply: (ing_div (rf_unit n) Ir); apply: in_mono; apply: so_core => //.
  by rewrite trmx_mul rf_tr mulmxA -[_ *m rf n *m rf n]mulmxA rf_mul mulmx1.
by rewrite det_mulmx rf_det D mulrNN mulr1.
Qed.
End Ctors.
