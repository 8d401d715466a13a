(** * GroupsExactL: the groups generated by the Lorentz group objects. *)
From Coq Require Import Reals Lra String.
From Coquelicot Require Import Coquelicot.
From mathcomp Require Import all_ssreflect all_algebra.
From mathcomp Require Import zify.
From Verif Require Import Np NpLemmas Spec SpecLemmas LinOp LinOpSpec LinOpInv MxBridge RepSpec RhoProofs Rstruct Expm GrpSpec RField GenSL GenSO GenLor.
From Verif Require Import Groups GroupsSpec GroupsSpecR ExactSpec GroupsLoop GroupsLie GroupsInit GroupsCtor GroupsThm GroupsFlag GroupsReal GroupsForm GroupsDet GroupsGen GroupsExact.
From Verif Require GroupsLor.
Set Implicit Arguments.
Unset Strict Implicit.
Unset Printing Implicit Defensive.
Import GRing.Theory.
Local Open Scope ring_scope.


Section Boost.
Variable m : nat.
Local Notation n := m.+2.
Local Notation M := 'M[RR]_n.
Local Notation I := 'I_n.
Definition bg : M := delta_mx ord0 (o1 m) + delta_mx (o1 m) ord0.
Lemma bg_mul (X : M) a b : (bg *m X) a b = (if a == ord0 then X (o1 m) b else 0) + (if a == o1 m then X ord0 b else 0).
Proof. by rewrite mulmxDl -!delta_mul [LHS]mxE. Qed.
Lemma ing_bst As hs t : lie_span As (fM bg) -> ing As hs (bst m t).
Proof.
move=> L; apply: (@ing_exp _ _ _ bg (fun t => bst m t) t L) => [|{}t a b].
  have S0 : sinh R0 = (0 : RR) := sinh_0; have C0 : cosh R0 = (1 : RR) := cosh_0.
  apply/matrixP=> a b; rewrite !mxE S0 C0; have H := o01 m.
  case: (eqVneq a ord0) => Ha; case: (eqVneq b ord0) => Hb; case: (eqVneq a (o1 m)) => Haj; case: (eqVneq b (o1 m)) => Hbj; case: (eqVneq a b) => E //; by neqs.
have H := o01 m; rewrite bg_mul !mxE !eqxx (eq_sym (o1 m)) (negbTE H).
apply: (@dl_ext (fun s => if a == ord0 then (if b == ord0 then cosh s else if b == o1 m then sinh s else 0)
   else if a == o1 m then (if b == ord0 then sinh s else if b == o1 m then cosh s else 0) else (a == b)%:R)).
  by move=> s; rewrite mxE.
  by [].
have Dc := derivable_pt_lim_cosh t; have Ds := derivable_pt_lim_sinh t; have D0 x := derivable_pt_lim_const x t.
case: (eqVneq a ord0) => Ha; case: (eqVneq b ord0) => Hb; case: (eqVneq a (o1 m)) => Haj; case: (eqVneq b (o1 m)) => Hbj; try (by neqs);
  rewrite ?addr0 ?add0r //; try (by apply: dl_ext (D0 R0)).
all: by apply: dl_ext (D0 (a == b)%:R).
Qed.
Lemma mxf_mink : mxf n n (minkowski RR n) = eta m.
Proof. by apply/matrixP=> i j; rewrite !mxE. Qed.
Lemma pres_mink (X : M) : (forall a b, X b a * sgn b + sgn a * X a b = 0) -> preserves (minkowski RR n) (fM X).
Proof.
move=> H; apply/(@presE _ n) => //; rewrite fMK mxf_mink; apply/matrixP=> a b.
by rewrite mxE etaR etaE !mxE.
Qed.
Lemma pres_esk (i j : I) : (0 < i)%N -> (i < j)%N -> preserves (minkowski RR n) (fM (esk i j)).
Proof.
move=> Hi Hj; apply: pres_mink => a b; have H : i != j by exact: ord_neq.
have Hi' : i != ord0 by rewrite -val_eqE /= -lt0n.
have Hj' : j != ord0 by rewrite -val_eqE /= -lt0n; apply: leq_trans Hj.
rewrite !mxE /sgn.
case: (eqVneq a ord0) => Ha; case: (eqVneq b ord0) => Hb; case: (eqVneq a i) => Hai; case: (eqVneq b i) => Hbi;
  case: (eqVneq a j) => Haj; case: (eqVneq b j) => Hbj /=;
  try (by neqs); by rewrite ?subr0 ?sub0r ?oppr0 ?mulr0 ?mul0r ?addr0 ?add0r ?mulr1 ?mul1r ?mulN1r ?mulrN1 ?opprK ?subrr ?addNr ?mulr1 ?subrr.
Qed.
Lemma pres_bg : preserves (minkowski RR n) (fM bg).
Proof.
apply: pres_mink => a b; have H := o01 m; have H' := H; rewrite eq_sym in H'.
rewrite !mxE /sgn.
case: (eqVneq a ord0) => Ha; case: (eqVneq b ord0) => Hb; case: (eqVneq a (o1 m)) => Haj; case: (eqVneq b (o1 m)) => Hbj /=;
  try (by neqs); rewrite ?mulr0 ?mul0r ?addr0 ?add0r ?mulr1 ?mul1r ?mulN1r ?mulrN1 ?subrr ?addNr ?mulr0n ?oppr0 ?addr0 //.
Qed.
End Boost.

Section Core.
Variable m : nat.
Local Notation n := m.+2.
Local Notation M := 'M[RR]_n.
Variables As hs : seq (fmat RR).
Hypothesis Ib : is_basis id n (preserves (minkowski RR n)) As.
Hypothesis S0 : (0 < size As)%N.
Hypothesis Hh : forall h, List.In h hs -> fr h = n /\ fc h = n.
Lemma As_pres A : List.In A As -> pres n (minkowski RR n) A.
Proof. by case: Ib => H _ _ /H[a1 a2 P]; split=> //; apply/presE. Qed.
Lemma As_traceless A : List.In A As -> [/\ fr A = n, fc A = n & traceless A].
Proof.
move=> /As_pres P; have [a1 a2 _] := P; split=> //.
by apply: (@pres_traceless n (minkowski RR n) (eta m) A) => //; rewrite mxf_mink eta2.
Qed.
Lemma iso_lor (X : fmat RR) : fr X = n -> fc X = n -> isometry (minkowski RR n) X <-> lor (mxf n n X).
Proof. by move=> h1 h2; rewrite (isoE (J := minkowski RR n)) // mxf_mink. Qed.
Lemma lor1 : lor (1%:M : M). Proof. by rewrite /lor trmx1 mul1mx mulmx1. Qed.
Lemma ortho (X : fmat RR) : in_group n As [::] X -> [/\ fr X = n, fc X = n, lor (mxf n n X) & Rlt R0 (mxf n n X ord0 ord0)].
Proof.
elim=> {X} [X E|h X []|A X SA HE|X Y Z _ [x1 x2 LX PX] _ [y1 y2 LY PY] E|X Y _ [x1 x2 LX PX] h1 h2 E1 E2].
- have [e1 e2 _] := E; split=> //; rewrite (mxf_meq E) // mxf_id; first exact: lor1.
  by rewrite mxE eqxx; exact: Rlt_0_1.
- have P := pres_span (J := minkowski RR n) erefl erefl As_pres SA; have [a1 a2 _] := P.
  have LE t : lor (mxf n n (expm n A t)) by apply/iso_lor => //; apply: exp_iso.
  have EX : meq X (expm n A R1).
    apply: is_exp_expm => //; apply: is_exp_meq HE => //; split=> //= i j _ _.
    by rewrite -[R1]/(1 : RR) mul1r.
  have [e1 e2 _] := EX; rewrite /= in e1 e2; split=> //; rewrite (mxf_meq EX) //.
  pose h := Rinv 2; have -> : R1 = Rplus h h by rewrite /h; lra.
  rewrite (mxf_meq (expm_add a1 a2 h h)) // (@mxf_mul _ _ _ n) //.
  have := lor_sign (LE h) (LE h); set y := (_ *m _) _ _; set x := mxf _ _ _ _ _ => Hx.
  by have := Rle_0_sqr x; rewrite /Rsqr; nra.
- have [e1 e2 _] := E; rewrite /= x1 y2 in e1 e2; split=> //; rewrite (mxf_meq E) // (@mxf_mul _ _ _ n) //; first exact: lorM.
  exact: pos3 PX PY (lor_sign LX LY).
have XY : mxf n n X *m mxf n n Y = 1%:M by rewrite -(@mxf_mul _ _ _ n) // (mxf_meq E1) ?mxf_id.
have LY : lor (mxf n n Y).
  have EY : mxf n n Y = eta m *m (mxf n n X)^T *m eta m.
    have E3 : (eta m *m (mxf n n X)^T *m eta m) *m mxf n n X = 1%:M by rewrite -!mulmxA LX eta2.
    by rewrite -[LHS]mul1mx -E3 -mulmxA XY mulmx1.
  rewrite /lor EY !trmx_mul trmxK.
  have -> : (eta m)^T = eta m by apply/matrixP=> a b; rewrite !mxE eq_sym; case: eqP => [->|].
  by rewrite !mulmxA -(mulmxA _ (eta m) (eta m)) eta2 mulmx1 -!mulmxA (mulmxA (mxf n n X)) (mulmxA _ _ (eta m)) -(mulmxA _ (eta m)) lorT // mulmxA eta2 mul1mx.
split=> //.
have := lor_sign LX LY; rewrite XY [1%:M _ _]mxE eqxx; set x := mxf _ _ X _ _ in PX *; set y := mxf _ _ Y _ _.
rewrite -[true%:R]/R1 Rmult_1_r => H; apply: (Rmult_lt_reg_l x) => //.
by rewrite Rmult_0_r.
Qed.
Lemma lor_core (X : M) : lor X -> \det X = 1 -> Rlt R0 (X ord0 ord0) -> ing As [::] X.
Proof.
move=> LX DX PX.
have G (i j : 'I_n) t : (0 < i)%N -> (i < j)%N -> ing As [::] (giv i j t).
  by move=> Hi Hj; apply: ing_giv; [exact: ord_neq | apply: (basis_span Ib) => //; exact: pres_esk].
have Bt t : ing As [::] (bst m t) by apply: ing_bst; apply: (basis_span Ib) => //; exact: pres_bg.
have L (g : M) : ing As [::] g -> lor g /\ Rlt R0 (g ord0 ord0).
  by move=> /ortho[_ _]; rewrite fMK.
have [|g1 g2|g Hg Eg] := @gen_lor m (@ing _ As [::]) _ _ G Bt (ing_det As_traceless) L X LX DX PX; [exact: ing1 | exact: ingM |].
by apply: (ing_div (ing_unit As_traceless Hg) Hg); rewrite Eg; exact: ing1.
Qed.
Lemma lor_proper (X : fmat RR) : in_group n As [::] X <->
  [/\ fr X = n, fc X = n & [/\ isometry (minkowski RR n) X, fdet n X = 1 & Rlt R0 (fe X 0 0)]].
Proof.
split=> [G|[x1 x2 [LX DX PX]]].
  have [x1 x2 LX PX] := ortho G; split=> //; split; [exact/iso_lor | exact: det_one As_traceless G | by move: PX; rewrite mxE].
by apply: ing_iff => //; apply: lor_core; [exact/iso_lor | exact: DX | rewrite mxE].
Qed.
Lemma lor_ne0 (X : M) : lor X -> X ord0 ord0 <> R0.
Proof. by move=> LX E; have := lor_sign LX LX; rewrite E Rmult_0_l Rmult_0_l; exact: Rlt_irrefl. Qed.
Lemma lorN (X : M) : lor X -> lor (- X).
Proof. by rewrite /lor linearN /= mulmxN mulmxN mulNmx opprK. Qed.
(** with -1 in a group of even dimension: the isometries of determinant 1 *)
Lemma lor_special (X : M) : ~~ odd m -> ing As hs (- 1%:M : M) -> lor X -> \det X = 1 -> ing As hs X.
Proof.
move=> Em HN LX DX; have [PX|[E|PX]] := Rtotal_order R0 (X ord0 ord0).
- by apply: in_mono; apply: lor_core.
- by case: (lor_ne0 LX).
have -> : X = - 1%:M *m - X by rewrite mulNmx mul1mx opprK.
apply: ingM => //; apply: in_mono; apply: lor_core; first exact: lorN.
  by rewrite -scaleN1r detZ DX -signr_odd /= negbK (negbTE Em) expr0 mulr1.
rewrite mxE; exact: Ropp_0_gt_lt_contravar PX.
Qed.
Lemma lor_det (X : M) : lor X -> \det X = 1 \/ \det X = -1.
Proof.
move=> /(congr1 determinant); rewrite !det_mulmx det_tr mulrCA => H; apply: sq_one.
have De : \det (eta m) * \det (eta m) = 1 by rewrite -det_mulmx eta2 det1.
by move/(congr1 (fun z => \det (eta m) * z)): H; rewrite mulrA De mul1r.
Qed.
Lemma rf_lor : lor (rf m.+1).
Proof.
rewrite /lor rf_tr; apply/matrixP=> a b.
have -> : eta m *m rf m.+1 = rf m.+1 *m eta m.
  by apply/matrixP=> c d; rewrite etaE etaR !mxE; case: eqP => [->|_]; rewrite ?mulr0 ?mul0r // mulrC.
by rewrite mulmxA rf_mul mul1mx.
Qed.
Lemma lor_all (X : M) : ~~ odd m -> ing As hs (- 1%:M : M) -> ing As hs (rf m.+1) -> lor X -> ing As hs X.
Proof.
move=> Em HN HR LX; have [D|D] := lor_det LX; first exact: lor_special.
apply: (ing_div (rf_unit _) HR); apply: lor_special => //; first exact: lorM rf_lor LX.
by rewrite det_mulmx rf_det D mulrNN mulr1.
Qed.
End Core.

Section Ctors.
Variables (conj : RR -> RR) (recip : nat -> RR) (close : seq RR -> seq RR -> bool).
Local Opaque so13_lie so13_z two_gens so11_lie.
Lemma exact_proper m x a : is_basis id m.+2 (preserves (minkowski RR m.+2)) (mats a) -> (0 < size (mats a))%N ->
  built conj x m.+2 (GArr a) (no_gens RR m.+2) ->
  exact_group x m.+2 (fun X => [/\ isometry (minkowski RR m.+2) X, fdet m.+2 X = 1 & Rlt R0 (fe X 0 0)]).
Proof. by move=> Ib Sa B; apply: (built_exact B); rewrite no_items -/(mats a) => HA _ X; exact: lor_proper. Qed.
Lemma exact_so13p : exact_group (g_so13p conj recip close) 4
  (fun X => [/\ isometry (minkowski RR 4) X, fdet 4 X = 1 & Rlt R0 (fe X 0 0)]).
Proof.
have [a E B] := so13p_ok conj recip close; have [b E2 [Ed S1 Ib]] := GroupsLor.so13_basis char2R.
move: E2; rewrite E => -[Eb]; rewrite -Eb in S1 Ib.
by apply: (@exact_proper 2 _ a Ib _ B); rewrite S1.
Qed.
Lemma exact_so11p : exact_group (g_so11p conj close) 2
  (fun X => [/\ isometry (minkowski RR 2) X, fdet 2 X = 1 & Rlt R0 (fe X 0 0)]).
Proof.
have [Ed S1 Ib] := GroupsLor.so11_basis char2R.
by apply: (@exact_proper 0 _ _ Ib _ (so11p_ok conj close)); rewrite S1.
Qed.
Lemma neg_iso n (h : fmat RR) : meq h (FM n n (fun i j => - dl RR i j)) -> isometry (minkowski RR n) h.
Proof.
move=> M; apply: (diag_iso (b := fun=> -1) (mink_diag _ n)); last by move=> i; rewrite mulrNN mulr1.
by apply: (meq_trans M); split=> //= i j _ _; rewrite dl_diag.
Qed.
Lemma refl_iso n (h : fmat RR) : meq h (FM n n (refl0 RR)) -> isometry (minkowski RR n) h.
Proof.
move=> M; apply: (diag_iso (b := fun i => if i == 0%N then -1 else 1) (mink_diag _ n)); last by move=> i; case: ifP; rewrite ?mulrNN mulr1.
by apply: (meq_trans M); split=> //= i j _ _; rewrite refl_diag.
Qed.
Lemma neye_filled n : filled 1 n (neye1 RR n) [::] (fun i j => - dl RR i j).
Proof.
split=> //=; first by rewrite size_map size_mkseq mul1n.
by case=> // i j _ Hi Hj; rewrite mul0n add0n (nth_map 0) ?size_mkseq ?(pos_lt Hi Hj) // nth_eye.
Qed.
Lemma exact_neg m x a : ~~ odd m -> is_basis id m.+2 (preserves (minkowski RR m.+2)) (mats a) -> (0 < size (mats a))%N ->
  built conj x m.+2 (GArr a) (GArr (neye1 RR m.+2)) ->
  exact_group x m.+2 (fun X => isometry (minkowski RR m.+2) X /\ fdet m.+2 X = 1).
Proof.
move=> Em Ib Sa B; apply: (built_exact B); rewrite -/(mats a) -/(mats _) => HA Hh X.
have F := filled_next (neye_filled m.+2); have Tr := As_traceless Ib.
have [h Hi /mxf_opp Eh] := layers_in F erefl (ltn0Sn 0).
split=> [G|[x1 x2 [O D]]].
  have [x1 x2] := in_sz Hh G; split; [exact: x1 | exact: x2 |]; split.
    apply: (@group_iso m.+2 (minkowski RR m.+2) (mats a) (mats (neye1 RR m.+2)) X) G => // [A|g]; first exact: (As_pres Ib).
    by case/(mats_list F erefl)=> f [<-|//] M; have [-> -> _] := M; split=> //; exact: neg_iso.
  apply: (@group_fdet m.+2 (mats a) (mats (neye1 RR m.+2)) HA Hh (fun x => x = 1)) G => // [x0 y -> ->|x0 y ->|A SA|g].
  - by rewrite Rmult_1_l.
  - by rewrite Rmult_1_l.
  - by have [a1 a2 T] := tr_span Tr SA; apply: det_const => //; apply: tr_ord.
  case/(mats_list F erefl)=> f [<-|//] /mxf_opp; rewrite /fdet => ->.
  by rewrite -scaleN1r detZ det1 mulr1 -signr_odd /= negbK (negbTE Em) expr0.
apply: (ing_iff Hh x1 x2); apply: lor_special => //; last exact/iso_lor.
by rewrite -Eh; exact: ing_h.
Qed.
Lemma exact_so13 : exact_group (g_so13 conj recip close) 4 (fun X => isometry (minkowski RR 4) X /\ fdet 4 X = 1).
Proof.
have [a E B] := so13_ok conj recip close; have [b E2 [Ed S1 Ib]] := GroupsLor.so13_basis char2R.
move: E2; rewrite E => -[Eb]; rewrite -Eb in S1 Ib.
by apply: (@exact_neg 2 _ a isT Ib _ B); rewrite S1.
Qed.
Lemma exact_two m x a : ~~ odd m -> is_basis id m.+2 (preserves (minkowski RR m.+2)) (mats a) -> (0 < size (mats a))%N ->
  (exists2 h, two_gens RR m.+2 = Ok h & built conj x m.+2 (GArr a) (GArr h)) -> exact_group x m.+2 (isometry (minkowski RR m.+2)).
Proof.
move=> Em Ib Sa [h Eh B]; apply: (built_exact B); rewrite -/(mats a) -/(mats h) => HA Hh X.
have [h' E' /filled_next F] := put_two RR m.+1; move: E'; rewrite Eh => -[?]; subst h'.
have [h1 H1 /mxf_opp Eh1] := layers_in F erefl (k := 0) isT.
have [h2 H2 /mxf_rf Eh2] := layers_in F erefl (k := 1) isT.
split=> [G|[x1 x2 O]].
  have [//|x1 x2] := in_sz _ G; split=> //.
  apply: (@group_iso m.+2 _ (mats a) (mats h)) G => // [A|g]; first exact: (As_pres Ib).
  by case/(mats_list F erefl)=> f [<-|[<-|//]] M; have [-> -> _] := M; split=> //; [exact: neg_iso | exact: refl_iso].
apply: (ing_iff Hh x1 x2); apply: lor_all => //; last exact/iso_lor.
  by rewrite -Eh1; exact: ing_h.
by rewrite -Eh2; exact: ing_h.
Qed.
Lemma exact_o13 s : exact_group (g_o13_as conj recip close s) 4 (isometry (minkowski RR 4)).
Proof.
have [a [h [E Eh B]]] := o13_ok conj recip close s; have [b E2 [Ed S1 Ib]] := GroupsLor.so13_basis char2R.
move: E2; rewrite E => -[Eb]; rewrite -Eb in S1 Ib.
apply: (@exact_two 2 _ a isT Ib); first by rewrite S1.
by exists h; [exact: Eh | exact: B].
Qed.
Lemma exact_o11 : exact_group (g_o11 conj close) 2 (isometry (minkowski RR 2)).
Proof.
have [h Eh B] := o11_ok conj close; have [Ed S1 Ib] := GroupsLor.so11_basis char2R.
apply: (@exact_two 0 _ (so11_lie RR) isT Ib); first by rewrite S1.
by exists h; [exact: Eh | exact: B].
Qed.
End Ctors.
