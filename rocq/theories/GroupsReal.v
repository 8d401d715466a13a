(** * GroupsReal: flagged groups consist of orthogonal matrices. *)
From Coq Require Import Reals String.
From Coquelicot Require Import Coquelicot.
From mathcomp Require Import all_ssreflect all_algebra.
From mathcomp Require Import zify.
From Verif Require Import Np NpLemmas Spec SpecLemmas LinOp LinOpSpec LinOpInv MxBridge Rep RepSpec RepMat RepWf RepFun RhoProofs RepThm RepThm1.
From Verif Require Import Rstruct Expm GrpSpec Groups GroupsSpec GroupsSpecR GroupsInit GroupsPerm GroupsThm GroupsFlag.
Set Implicit Arguments.
Unset Strict Implicit.
Unset Printing Implicit Defensive.
Import GRing.Theory.
Local Open Scope ring_scope.

(** ** skew matrices *)
Section Skew.
Variable R : comRingType.
Implicit Types X Y Z : fmat R.
Definition sk (n : nat) X : Prop := [/\ fr X = n, fc X = n & skew X].
Lemma skE n X : fr X = n -> fc X = n -> skew X <-> forall i j, (i < n)%N -> (j < n)%N -> fe X j i = - fe X i j.
Proof.
move=> h1 h2; split=> [[_ _ H] i j Hi Hj|H]; first by have := H i j; rewrite /= h1 h2; apply.
by split; rewrite /= ?h1 ?h2 // => i j; apply: H.
Qed.
Lemma sk_meq n X Y : meq X Y -> sk n X -> sk n Y.
Proof.
move=> [e1 e2 e3] [h1 h2 /(skE h1 h2) S]; have k1 := e1; have k2 := e2; rewrite h1 in k1; rewrite h2 in k2.
split=> //; apply/(skE (esym k1) (esym k2)) => i j Hi Hj; by rewrite -!e3 ?h1 ?h2 // S.
Qed.
Lemma sk_lin n (c : R) X Y : sk n X -> sk n Y -> sk n (fadd (fscale c X) Y).
Proof.
move=> [h1 h2 /(skE h1 h2) S] [k1 k2 /(skE k1 k2) T]; split=> //; apply/(@skE n) => //= i j Hi Hj.
by rewrite S // T // mulrN opprD.
Qed.
Lemma sk_br n X Y : sk n X -> sk n Y -> sk n (fsub (fmul X Y) (fmul Y X)).
Proof.
move=> [h1 h2 /(skE h1 h2) S] [k1 k2 /(skE k1 k2) T]; split=> //=; apply/(@skE n) => //= i j Hi Hj.
rewrite h2 k2 opprB; congr (_ - _); apply: eq_sum => l Hl; by rewrite S // T // mulrNN mulrC.
Qed.
End Skew.

Lemma sk_span n As (X : fmat RR) : (forall A, List.In A As -> sk n A) -> lie_span As X -> sk n X.
Proof.
move=> H; elim=> {X} [A X HA /meq_sym E|c X Y Z _ SX _ SY /meq_sym E|X Y Z _ SX _ SY /meq_sym E].
- exact: sk_meq E (H A HA).
- exact: sk_meq E (sk_lin c SX SY).
- exact: sk_meq E (sk_br SX SY).
Qed.

(** ** exponentials *)
Lemma mpow_tr n (A : fmat RR) k i j : fr A = n -> fc A = n -> (i < n)%N -> (j < n)%N ->
  fe (mpow n (ftr A) k) i j = fe (mpow n A k) j i.
Proof.
move=> h1 h2; elim: k i j => [|k IH] i j Hi Hj; first by rewrite /= eq_sym.
rewrite mpowS //= h2; apply: eq_sum => l Hl; by rewrite mulrC IH.
Qed.
Lemma is_exp_tr n (A E : fmat RR) : fr A = n -> fc A = n -> is_exp n A E -> is_exp n (ftr A) (ftr E).
Proof.
move=> h1 h2 [e1 e2 H]; split=> //= i j Hi Hj.
apply/is_series_Reals; have /is_series_Reals := H j i Hj Hi; apply: is_series_ext => k; congr Rdiv.
by rewrite mpow_tr.
Qed.
(** E^T = exp(A^T) = exp(-A) = E^-1 *)
Lemma exp_orth n (A E : fmat RR) : sk n A -> is_exp n A E -> orthm n E.
Proof.
move=> [h1 h2 S] HE.
have H1 : meq E (expm n A 1) by apply: is_exp_expm => //; apply: is_exp_meq HE => //; split=> //= i j _ _; rewrite mul1r.
have H2 : meq (ftr E) (expm n (fopp A) 1).
  apply: is_exp_expm => //; apply: is_exp_meq (is_exp_tr h1 h2 HE) => //; apply: meq_trans S _.
  by split=> //= i j _ _; rewrite mul1r.
have [e1 e2 _] := HE; split=> //.
  by apply: meq_trans (meq_fmul H1 H2 _) (expm_inv_r h2 1); rewrite e2.
by apply: meq_trans (meq_fmul H2 H1 _) (expm_inv_l h1 h2 1); rewrite /= e1.
Qed.
(** ** the generated group *)
Section Orth.
Variable R : comRingType.
Lemma orthm_id n : orthm n (fid R n).
Proof.
have H : meq (fmul (fid R n) (ftr (fid R n))) (fid R n).
  by apply: meq_trans (@fmul_id_l _ (ftr (fid R n)) n _) _ => //; apply: ftr_fid.
by split=> //; apply: one_sided H.
Qed.
Lemma orthm_meq n (X Y : fmat R) : meq X Y -> orthm n X -> orthm n Y.
Proof.
move=> E [h1 h2 H1 H2]; have [e1 e2 _] := E; split; rewrite -?e1 -?e2 //.
  by apply: meq_trans H1; apply: meq_sym; apply: meq_fmul => //; apply: meq_ftr.
by apply: meq_trans H2; apply: meq_sym; apply: meq_fmul => //; apply: meq_ftr.
Qed.
Lemma orthm_mul n (X Y : fmat R) : orthm n X -> orthm n Y -> orthm n (fmul X Y).
Proof.
move=> [h1 h2 H1 H2] [k1 k2 K1 K2].
have Z : meq (fmul (fmul X Y) (ftr (fmul X Y))) (fid R n).
  have T : meq (ftr (fmul X Y)) (fmul (ftr Y) (ftr X)) by apply: ftr_fmul; rewrite h2 k1.
  apply: meq_trans (meq_fmul (meq_refl _) T _) _; first by rewrite /= k2.
  apply: meq_trans (meq_sym (fmul_assoc _ _ _)) _.
  apply: meq_trans (meq_fmul (meq_refl X) (fmul_assoc _ _ _) _) _; first by rewrite h2 k1.
  apply: meq_trans H1; apply: meq_fmul; [exact: meq_refl | | by rewrite h2 k1].
  apply: meq_trans (meq_fmul K1 (meq_refl _) _) _; first by rewrite /= h2 k1.
  by apply: fmul_id_l; rewrite /= h2.
by split=> //; apply: one_sided Z => //=; rewrite ?h1 ?k2.
Qed.
Lemma orthm_inv n (X Y : fmat R) : orthm n X -> fr Y = n -> fc Y = n -> meq (fmul X Y) (fid R n) -> orthm n Y.
Proof.
move=> [h1 h2 H1 H2] k1 k2 E.
have O : orthm n (ftr X).
  by split.
apply: orthm_meq O; apply: meq_sym; exact: (@inv_uniq _ n X).
Qed.
End Orth.

Lemma group_orth n As hs (X : fmat RR) : (forall A, List.In A As -> sk n A) -> (forall h, List.In h hs -> orthm n h) ->
  in_group n As hs X -> orthm n X.
Proof.
move=> HA Hh; elim=> {X} [X /meq_sym E|h X H /meq_sym E|A X SA|X Y Z _ OX _ OY /meq_sym E|X Y _ OX h1 h2 H1 _].
- exact: orthm_meq E (orthm_id _ _).
- exact: orthm_meq E (Hh h H).
- exact: exp_orth (sk_span HA SA).
- exact: orthm_meq E (orthm_mul OX OY).
- exact: orthm_inv OX h1 h2 H1.
Qed.

(** ** the converse: exp(tA) is orthogonal for all t only if A is skew *)
Lemma orth_sk n (A : fmat RR) : fr A = n -> fc A = n -> (forall t, orthm n (expm n A t)) -> sk n A.
Proof.
move=> h1 h2 H; split=> //; apply/(skE h1 h2) => i j Hi Hj.
have D k l : (k < n)%N -> (l < n)%N -> derivable_pt_lim (fun s => fe (expm n A s) k l) R0 (fe A k l).
  move=> Hk Hl; apply: dl_ext (expm_der_r h2 R0 Hk Hl) => //.
  by have [_ _ ->] := meq_trans (meq_fmul (expm0 n A) (meq_refl A) (esym h1)) (@fmul_id_l _ A n (esym h1)); rewrite /= ?h2.
have := @dl_fmul n (fun s => ftr (expm n A s)) (fun s => expm n A s) (ftr A) A R0 i j (fun _ => erefl) h1
  (fun l Hl => D l i Hl Hi) (fun l Hl => D l j Hl Hj).
have E0 := expm0 n A.
have -> : fe (fmul (ftr A) (expm n A R0)) i j = fe A j i.
  have [_ _ ->] := meq_trans (meq_fmul (meq_refl (ftr A)) E0 h1) (@fmul_id_r _ (ftr A) n (esym h1)) => //=.
  by rewrite h2.
have -> : fe (fmul (ftr (expm n A R0)) A) i j = fe A i j.
  have T : meq (ftr (expm n A R0)) (fid RR n) by apply: meq_trans (meq_ftr E0) (ftr_fid _ _).
  by have [_ _ ->] := meq_trans (meq_fmul T (meq_refl A) (esym h1)) (@fmul_id_l _ A n (esym h1)); rewrite /= ?h2.
move=> DD; have Z : derivable_pt_lim (fun s => fe (fmul (ftr (expm n A s)) (expm n A s)) i j) R0 R0.
  apply: dl_ext (derivable_pt_lim_const ((i == j)%:R) R0) => //= s; have [_ _ _ [_ _ /= ->]] := H s; by [].
by have /eqP := dl_uniq DD Z; rewrite addr_eq0 => /eqP.
Qed.
Lemma expm_group n As hs (A : fmat RR) t : fr A = n -> fc A = n -> List.In A As -> in_group n As hs (expm n A t).
Proof.
move=> h1 h2 HA; apply: (@I_exp _ _ _ (fscale t A)); last exact: expm_is.
have LA : lie_span As A by apply: LS_gen HA _.
by apply: (@LS_lin As (t - 1) A A) => //; split=> //= i j _ _; rewrite mulrBl mul1r subrK.
Qed.

(** G was built by Group.__init__ with the test of orthogonality switched on and exact *)
Definition tested (d : nat) (G : group RR) : Prop :=
  exists r a, [/\ group_init idR (@same RR) r a = Ok G, g_d G = Some d, gok idR d (g_lie G), gok idR d (g_gens G) &
    a_orth a = None /\ a_perm a = None].
Lemma tested_sz d G : tested d G -> (forall A, List.In A (lmats G) -> fr A = d /\ fc A = d) /\ (forall A, List.In A (gmats G) -> fr A = d /\ fc A = d).
Proof.
by move=> [r [a [_ _ Hl Hg _]]]; split=> A /List.in_map_iff[B [<- HB]]; apply: gop_sz; [apply: Hl | apply: Hg].
Qed.
Theorem orth_iff d G : tested d G -> g_orth G <-> forall X, in_group d (lmats G) (gmats G) X -> orthm d X.
Proof.
move=> T; have [S1 S2] := tested_sz T; have [r [a [E Ed Hl Hg [H1 H2]]]] := T.
split=> [/(orth_flag E Ed Hl Hg H1 H2)[F1 F2] X|H].
  by apply: group_orth => // A HA; have [? ?] := S1 A HA; split=> //; exact: F1.
apply/(orth_flag E Ed Hl Hg H1 H2); split=> [A HA|h Hh]; last by apply: H; apply: I_gen Hh _.
have [h1 h2] := S1 A HA; suff [] : sk d A by [].
by apply: orth_sk => // t; apply: H; apply: expm_group.
Qed.

(** ** representations *)
Section Reps.
Variables (sinv : RR -> RR) (linv : nat -> seq RR -> seq RR).
Variables (crho cdrho : nat -> option gid -> gel RR -> res (op RR)).
Variables (gdim : gid -> nat) (csize : nat -> gid -> nat) (le : rel rep) (gs : pred gid).
Variable G : gid -> group RR.
Local Notation sz := (rsize gdim csize).
Definition the_gens (g : gid) : seq (op RR) := gitems (g_gens (G g)).
Definition the_lies (g : gid) : seq (op RR) := gitems (g_lie (G g)).
Local Notation generated := (generated gdim gs the_gens the_lies).
Lemma lie_alg_span g X : lie_alg the_lies g X -> lie_span (lmats (G g)) X.
Proof.
elim=> {X} [A X HA E|c X Y Z _ SX _ SY E|X Y Z _ SX _ SY E].
- by apply: LS_gen E; apply: List.in_map.
- exact: LS_lin SX SY E.
- exact: LS_br SX SY E.
Qed.
Lemma generated_in X g : generated X -> gs g -> (forall g, gs g -> tested (gdim g) (G g)) ->
  in_group (gdim g) (lmats (G g)) (gmats (G g)) (X g).
Proof.
move=> HX + T; have SZ Y : generated Y -> forall g, gs g -> fr (Y g) = gdim g /\ fc (Y g) = gdim g.
  elim=> {Y} [Y H h Hh|h k Y Hh Hk E A l Hl|h A Y Hh _ [e1 e2 _] A' l Hl|Y Z W _ IY _ IZ H h Hh|Y Z _ IY H h Hh].
  - by have [-> -> _] := H h Hh.
  - have [->|/eqP ne] := eqVneq l h; last by have [-> -> _] := A l Hl ne.
    by have [-> -> _] := E; have [_] := tested_sz (T h Hh); apply; apply: List.in_map.
  - have [->|/eqP ne] := eqVneq l h; last by have [-> -> _] := A' l Hl ne.
    by [].
  - by have [-> -> _] := H h Hh; have [-> _] := IY h Hh; have [_ ->] := IZ h Hh.
  - by have [-> [_ /= -> _]] := H h Hh.
move: g; elim: HX => {X} [X H h Hh|h k X Hh Hk E A l Hl|h A X Hh LA E A' l Hl|X Y Z GX IX GY IY H h Hh|X Y GX IX H h Hh].
- exact: I_one (H h Hh).
- have [->|/eqP ne] := eqVneq l h; last exact: I_one (A l Hl ne).
  by apply: I_gen E; apply: List.in_map.
- have [->|/eqP ne] := eqVneq l h; last exact: I_one (A' l Hl ne).
  exact: I_exp (lie_alg_span LA) E.
- exact: I_mul (IX h Hh) (IY h Hh) (H h Hh).
have [y1 E] := H h Hh; have [_ /= y2 _] := E; have [x1 x2] := SZ X GX h Hh.
have E' := one_sided x1 x2 y1 y2 E.
exact: I_inv (IX h Hh) y1 y2 E E'.
Qed.

Local Notation rho_dense := (rho_dense idR sinv linv crho).
Local Notation arho := (arho sinv linv crho).
Lemma arho_self gorth M k : group_elem idR sinv linv crho gdim csize gs M -> orth_elem crho gdim csize gorth gs M ->
  (forall g, gs g -> gorth g) -> atomic gdim csize gs k -> invTn (sz k) (arho M k) (arho M k).
Proof.
move=> HM HO Ho Ak; have := arho_invT HM HO Ak.
have Hu n (A B : fmat RR) : invTn n A B -> invTn n B B -> invTn n A A.
  move=> I J; have EE := invTn_uniq (invTn_sym I) J.
  by apply: invTn_meq (J); apply: meq_sym; apply: meq_trans EE; exact: meq_refl.
case: k Ak => // [[h|]|c [h|]|[|[h|]|c [h|]|?|? ?|? ?|? ?|?|?]] //= /andP[Hh P]; rewrite /t_atom /= ?Ho // => I.
- have := @arho_invT RR idR sinv linv crho gdim gorth csize gs M (RBase (Some h)) HM HO.
  by rewrite /= Hh P /t_atom /= Ho // => /(_ isT); exact: Hu.
- have := @arho_invT RR idR sinv linv crho gdim gorth csize gs M (RCustom c (Some h)) HM HO.
  by rewrite /= Hh P /t_atom /= Ho // => /(_ isT); exact: Hu.
Qed.
Lemma rep_orth gorth M r : group_elem idR sinv linv crho gdim csize gs M -> orth_elem crho gdim csize gorth gs M ->
  (forall g, gs g -> gorth g) -> wfr gdim csize le gs r ->
  exists2 D, rho_dense r M = Ok (sz r, sz r, D) & orthm (sz r) (unflat (sz r) (sz r) D).
Proof.
move=> HM HO Ho W; exists (flat (rmat (arho M) r)); first exact: (rho_dense_ok HM W).
apply: orthm_meq (meq_sym (unflat_rmat HM W)) _.
have [[h1 h2 _ _] [H1 H2]] := @rmat_invT _ gdim csize le gs (arho M) (arho M) r W (fun k => @arho_self gorth M k HM HO Ho).
by split.
Qed.
(** the element M of the groups gs, an element of the generated group *)
Theorem generated_orth M X r : (forall g, gs g -> tested (gdim g) (G g) /\ g_orth (G g)) ->
  generated X -> (forall g, gs g -> exists2 A, glook M (Some g) = Ok A & meq (den A) (X g)) ->
  group_elem idR sinv linv crho gdim csize gs M ->
  (forall g c C, gs g -> crho c (Some g) M = Ok C -> orthm (csize c g) (den C)) ->
  wfr gdim csize le gs r ->
  exists2 D, rho_dense r M = Ok (sz r, sz r, D) & orthm (sz r) (unflat (sz r) (sz r) D).
Proof.
move=> T HX HMX HM Hc W; have T' g Hg := (T g Hg).1.
have HO : orth_elem crho gdim csize (fun=> true) gs M.
  move=> g Hg _; split=> [A E|c C E]; last by have [_ _ H1 H2] := Hc g c C Hg E; split.
  have [A'] := HMX g Hg; rewrite E => -[<-] EX.
  have := (orth_iff (T' g Hg)).1 (T g Hg).2 _ (generated_in HX Hg T') => /(orthm_meq (meq_sym EX))[_ _ H1 H2].
  by split.
exact: rep_orth HM HO _ W.
Qed.
End Reps.
