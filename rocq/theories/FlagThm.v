(** * FlagThm: the flags that Group.__init__ computes, for every group object and for the
    built-in groups. *)
From Coq Require Import Reals Lra String.
From mathcomp Require Import all_ssreflect all_algebra.
From mathcomp Require Import zify.
From Verif Require Import Np NpLemmas Spec SpecLemmas LinOp LinOpSpec LinOpInv MxBridge Rep RepWf RepSpec RepMat RepFun RhoProofs Rstruct Expm GrpSpec.
From Verif Require Import Groups GroupsSpec GroupsSpecR GroupsInit GroupsLoop GroupsLie GroupsLor GroupsSp GroupsCtor GroupsPerm GroupsThm GroupsFlag GroupsReal GroupsRepPerm GroupsForm GroupsTol.
From Verif Require Import ExactSpec GroupsExact GroupsExactD GroupsExactL GroupsExactE GroupsExactS DataCubeThm DataGroups DimThm.
Set Implicit Arguments.
Unset Strict Implicit.
Unset Printing Implicit Defensive.
Import GRing.Theory.
Local Open Scope ring_scope.

Lemma glen_items (x : garr RR) : gitems x = [::] -> glen x = 0%N.
Proof. by case: x => [a|[|? ?]] //= /(congr1 size); rewrite size_mkseq. Qed.
Lemma count_one d f i : (i < d)%N -> (f i < d)%N -> count (pred1 (1 : RR)) (mkseq (fun j => ((f i == j)%N%:R : RR)) d) = 1%N.
Proof.
move=> Hi Hf; rewrite /mkseq count_map (eq_count (a2 := pred1 (f i))).
  by rewrite count_uniq_mem ?iota_uniq // mem_iota add0n Hf.
move=> j; rewrite /preim /= [j == _]eq_sym; case: (f i == j) => /=; apply/eqP => // /esym; exact: R1_neq_R0.
Qed.
Theorem perm_iff d G : tested d G -> g_perm G <-> lmats G = [::] /\ forall h, List.In h (gmats G) -> GroupsPerm.isperm d h.
Proof.
move=> T; have [r [a [E Ed Hl Hg [H1 H2]]]] := T; split=> [|[L H]].
  by move=> P; apply: (perm_flag _ E Ed Hl Hg H1 H2 P); exact: formally_real_RR.
have [EO EP] := init_flags E Ed Hl Hg; rewrite EP /the_perm H2 -EO andbT /=.
have -> : g_orth G.
  apply/(orth_flag E Ed Hl Hg H1 H2); rewrite L; split=> // h /H /isperm_mat[p Pp M].
  have [m1 m2 _] := M; apply: orthm_meq (meq_sym M) _; split=> //.
    by apply: meq_trans (perm_inv_r Pp); apply: meq_fmul => //; exact: ftr_perm.
  by apply: meq_trans (perm_inv_l Pp); apply: meq_fmul => //; exact: ftr_perm.
rewrite glen_items /=; last by move: L; rewrite /lmats; case: (gitems _).
rewrite /one_flag; apply/orP; right; move: H Hg; rewrite /gmats /gok; elim: (gitems _) => //= A l IH H Hg.
rewrite IH; last 2 first.
- by move=> h Hh; apply: H; right.
- by move=> B HB; apply: Hg; right.
have [h1 h2] := gop_sz (Hg A (or_introl erefl)).
have /isperm_mat[p Pp [_ _ M]] := H _ (or_introl erefl).
rewrite andbT; apply/allP => i; rewrite mem_iota add0n => /= Hi; rewrite one_row //.
have -> : mkseq (fe (den A) i) d = mkseq (fun j => ((nth 0%N p i == j)%N%:R : RR)) d.
  by apply/eq_in_map => j; rewrite mem_iota add0n => /= Hj; rewrite M ?h1 ?h2.
by rewrite (@count_one d (nth 0%N p) i) // is_perm_nth.
Qed.

(** the flags in terms of the group *)
Lemma orth_exact x d P G : exact_group x d P -> x = Ok G -> tested d G ->
  g_orth G <-> forall A, fr A = d -> fc A = d -> P A -> isometry (fid RR d) A.
Proof.
move=> [G0 E [_ H]] EG T; move: E; rewrite EG => -[?]; subst G0; split=> [O A a1 a2 PA|I].
  have [_ _ _ L] := proj1 (orth_iff T) O A (proj2 (H A) (And3 a1 a2 PA)).
  by apply: meq_trans L; apply: meq_fmul => //; rewrite -{1}a1; exact: fmul_id_l.
apply/(orth_iff T) => X /H[x1 x2 PX]; have I' := I X x1 x2 PX.
have L : meq (fmul (ftr X) X) (fid RR d).
  by apply: meq_trans I'; apply: meq_fmul => //; apply: meq_sym; rewrite -{1}x1; exact: fmul_id_l.
by split=> //; apply: (@one_sided RR d (ftr X) X).
Qed.
Lemma perm_exact x d P G : exact_group x d P -> x = Ok G -> tested d G -> lmats G = [::] ->
  g_perm G <-> forall A, fr A = d -> fc A = d -> P A -> GroupsPerm.isperm d A.
Proof.
move=> [G0 E [_ H]] EG T L; move: E; rewrite EG => -[?]; subst G0; split=> [F A a1 a2 PA|I].
  by apply: (perm_group T F); apply/H.
by apply/(perm_iff T); split=> // h Hh; have [h1 h2 Ph] : [/\ fr h = d, fc h = d & P h]; [apply/H; exact: I_gen Hh (meq_refl _) | exact: I].
Qed.
Lemma not_perm d G A : tested d G -> List.In A (lmats G) -> g_perm G = false.
Proof. by move=> T HA; apply/negbTE/negP => /(perm_iff T)[L _]; move: HA; rewrite L. Qed.
(** a Lie algebra with a matrix that is not skew *)
Lemma skew_comb d c (As : seq (fmat RR)) : (forall A, List.In A As -> [/\ fr A = d, fc A = d & skew A]) -> skew (lincomb id d c As).
Proof.
move=> H; split=> //= i j Hi Hj; rewrite -sumrN; apply: eq_sum => k Hk; rewrite -mulrN; congr (_ * _).
have [a1 a2 [_ _ S]] : [/\ fr (nth (fzero RR 0 0) As k) = d, fc (nth (fzero RR 0 0) As k) = d & skew (nth (fzero RR 0 0) As k)].
  by apply: H; elim: (As) (k) Hk => //= B l IH [|k'] Hk; [left | right; exact: IH].
by have := S i j; rewrite /= a1 a2; exact.
Qed.
Lemma not_orth d G Phi : tested d G -> is_basis id d Phi (lmats G) ->
  (exists A, [/\ fr A = d, fc A = d, Phi A & ~ skew A]) -> g_orth G = false /\ g_perm G = false.
Proof.
move=> T [Hb _ Sp] [A [a1 a2 PA NA]]; have O : g_orth G = false.
  apply/negbTE/negP => O; have [r [a [E Ed Hl Hg [H1 H2]]]] := T.
  have [F _] := proj1 (orth_flag E Ed Hl Hg H1 H2) O.
  have [c M] := Sp A a1 a2 PA; apply: NA; have K := @skew_comb d c (lmats G).
  have [|k1 k2 K3] := K; first by move=> B HB; have [b1 b2 _] := Hb B HB; split=> //; exact: F.
  have [m1 m2 M3] := M; split=> //=; rewrite ?a1 ?a2 // => i j Hi Hj; rewrite !M3 ?m1 ?m2 //=; exact: K3.
split=> //; apply/negbTE/negP => F; move: O.
have [r [a [E Ed Hl Hg [H1 H2]]]] := T; have [EO EP] := init_flags E Ed Hl Hg.
by move: F; rewrite EP /the_perm -EO H2; case: (g_orth G).
Qed.

(** ** the built-in groups *)
Definition flags (x : res (group RR)) (o p : bool) : Prop := exists2 G, x = Ok G & g_orth G = o /\ g_perm G = p.
Lemma perm_group_flags x d P G : exact_group x d P -> x = Ok G -> tested d G -> lmats G = [::] ->
  (forall A, fr A = d -> fc A = d -> P A -> GroupsPerm.isperm d A) -> flags x true true.
Proof.
move=> X E T L H; exists G => //; have F : g_perm G by apply/(perm_exact X E T L).
split=> //; apply/(orth_iff T) => Y /(perm_group T F) /isperm_mat[p Pp M]; have [m1 m2 _] := M.
apply: orthm_meq (meq_sym M) _; split=> //.
  by apply: meq_trans (perm_inv_r Pp); apply: meq_fmul => //; exact: ftr_perm.
by apply: meq_trans (perm_inv_l Pp); apply: meq_fmul => //; exact: ftr_perm.
Qed.
Lemma built_lmats x d l h G : built idR x d l h -> x = Ok G -> lmats G = map (@den RR) (gitems l).
Proof. by move=> [G0 E [_ El _ _]]; rewrite E => -[<-]; rewrite /lmats El. Qed.
Lemma built_gmats x d l h G : built idR x d l h -> x = Ok G -> gmats G = map (@den RR) (gitems h).
Proof. by move=> [G0 E [_ _ Eh _]]; rewrite E => -[<-]; rewrite /gmats Eh. Qed.
Local Notation same := (@GroupsFlag.same RR).
Lemma flags_s n : (1 < n)%N -> flags (g_s idR same n) true true.
Proof.
move=> n1; have B := s_ok idR same n1; have [G E _] := B; have L := built_lmats B E.
have T : tested n G by move: B E; rewrite /g_s; case: ifP => // _ B E; exact: built_tested B erefl erefl E.
by apply: (perm_group_flags (exact_s idR same n1) E T L) => A a1 a2 H; apply/isperm_mat.
Qed.
Lemma flags_z n : (0 < n)%N -> flags (g_z idR same n) true true.
Proof.
move=> n0; have B := z_ok idR same n; have [G E _] := B; have L := built_lmats B E.
have T : tested n G by exact: built_tested B erefl erefl E.
apply: (perm_group_flags (exact_shifts same n0) E T L) => A a1 a2 [p /shifts_perm Pp H].
by apply/isperm_mat; exists p.
Qed.
Lemma flags_trivial n : flags (g_trivial idR same n) true true.
Proof.
have B := trivial_ok idR same n; have [G E _] := B; have L := built_lmats B E.
have T : tested n G by exact: built_tested B erefl erefl E.
apply: (perm_group_flags (exact_trivial idR same n) E T L) => A a1 a2 H; apply/isperm_mat.
exists (iota 0 n); first exact: is_perm_iota.
by apply: meq_trans H _; apply: meq_sym; apply: perm_id => i Hi; rewrite nth_iota.
Qed.
Lemma flags_cube : flags (g_cube idR same) true true.
Proof.
have B := cube_ok idR same; have [G E _] := B; have L := built_lmats B E.
have T : tested 6 G by exact: built_tested B erefl erefl E.
apply: (perm_group_flags (exact_cube idR same) E T L) => A a1 a2 [p Rp M]; apply/isperm_mat; exists p => //.
by case/and3P: Rp.
Qed.
Lemma lie_in (a : nd RR) : (0 < size (mats a))%N -> exists A, List.In A (mats a).
Proof. by case: (mats a) => // A l _; exists A; left. Qed.
Lemma flags_so n : (1 < n)%N -> flags (g_so idR same n) true false.
Proof.
move=> n1; have [a Ea B] := so_ok idR same n1; have [G E _] := B; have L := built_lmats B E.
have T : tested n G by move: B E; rewrite /g_so Ea bindOk => B E; exact: built_tested B erefl erefl E.
exists G => //; split; first by apply/(orth_exact (exact_so idR same n1) E T) => A _ _ [].
have [b Eb [_ S _]] := so_basis n char2R; move: Eb; rewrite Ea => -[?]; subst b.
have [A HA] := @lie_in a (eq_ind_r (fun k => 0 < k)%N (tri_gt0 n1) S); apply: (not_perm (A := A) T); by rewrite L.
Qed.
Lemma flags_o n : (0 < n)%N -> flags (g_o idR same n) true false.
Proof.
case: n => // n _; have [a [h [Ea Eh B]]] := o_ok idR same n; have [G E _] := B; have L := built_lmats B E.
have T : tested n.+1 G by move: B E; rewrite /g_o Eh bindOk Ea bindOk => B E; exact: built_tested B erefl erefl E.
have X := exact_o idR same (ltn0Sn n).
exists G => //; split; first by apply/(orth_exact X E T).
apply/negbTE/negP => F; have M : isometry (fid RR n.+1) (fopp (fid RR n.+1)).
  split=> //= i j Hi Hj; rewrite (sum_only (i := i)) //; last by move=> k Hk ne; rewrite (negbTE ne) oppr0 mul0r.
  rewrite (sum_only (i := j)) //; last by move=> k Hk ne; rewrite (negbTE ne) oppr0 mulr0.
  by rewrite !eqxx mulN1r mulrN1 opprK.
have [G0 E0 [_ H]] := X; move: E0; rewrite E => -[?]; subst G0.
have /isperm_mat[p Pp [_ _ K]] := perm_group T F (proj2 (H (fopp (fid RR n.+1))) (And3 erefl erefl M)).
have := K 0%N 0%N isT isT; rewrite /=; case: eqP => _ e; [have e' : @eq R (Ropp R1) R1 by exact: e | have e' : @eq R (Ropp R1) R0 by exact: e]; lra.
Qed.

(** C(1) is the trivial group, all others turn the plane *)
Lemma rot_iso t : isometry (fid RR 2) (rot t).
Proof.
have E : meq (ftr (rot t)) (rot (Ropp t)).
  by apply: meq22 => //=; rewrite ?cos_neg ?sin_neg // /GRing.opp /= ?Ropp_involutive.
apply: meq_trans (_ : meq _ (fmul (rot (Ropp t)) (rot t))) _.
  by apply: meq_fmul => //; exact: fmul_id_l.
by apply: meq_trans (rot_mul _ _) _; rewrite Rplus_opp_l; apply: meq_sym; exact: rot0.
Qed.
Lemma rot_perm t : GroupsPerm.isperm 2 (rot t) -> cos t = R1.
Proof.
case/isperm_mat=> p Pp [_ _ M]; have [e00 e01 e10] := And3 (M 0 0 isT isT)%N (M 0 1 isT isT)%N (M 1 0 isT isT)%N.
have C := sin2_cos2 t; rewrite /Rsqr in C; move: e00 e01 e10 => /=; case: (nth 0%N p 0 =P 0%N) => [_|_] // e0.
have {}e0 : cos t = R0 by exact: e0.
case: (nth 0%N p 0 == 1%N); case: (nth 0%N p 1 == 0%N) => /= e1 e2.
- have f1 : sin t = R1 by exact: e1. have f2 : Ropp (sin t) = R1 by exact: e2. lra.
- have f1 : sin t = R1 by exact: e1. have f2 : Ropp (sin t) = R0 by exact: e2. lra.
- have f1 : sin t = R0 by exact: e1. rewrite e0 f1 in C; lra.
- have f1 : sin t = R0 by exact: e1. rewrite e0 f1 in C; lra.
Qed.
Lemma flags_c k : (0 < k)%N -> flags (g_c idR cosR sinR same k) true (k == 1%N).
Proof.
move=> k0; have B := c_ok idR cosR sinR same k0; have [G E _] := B; have L := built_lmats B E.
have T : tested 2 G.
  by move: B E; rewrite /g_c; case: ifP => // _ B E; exact: built_tested B erefl erefl E.
have X := exact_c idR same k0; exists G => //; split.
  apply/(orth_exact X E T) => A a1 a2 [j _ M].
  apply: meq_trans (rot_iso (Rmult (INR j) (Rdiv (Rmult 2 PI) (INR k)))); apply: meq_fmul => //; first exact: meq_ftr.
  exact: meq_fmul.
apply/idP/eqP=> [F|k1].
  have [G0 E0 [_ H]] := X; move: E0; rewrite E => -[?]; subst G0.
  have [->//|k2] : k = 1%N \/ (1 < k)%N by lia.
  have R1 : GroupsPerm.isperm 2 (rot (Rmult (INR 1) (Rdiv (Rmult 2 PI) (INR k)))).
    apply: (perm_group T F); apply/H; split=> //; exists 1%N => //; exact: meq_refl.
  have := rot_perm R1; rewrite Rmult_1_l; set th := Rdiv _ _ => C; exfalso.
  have P := PI_RGT_0; have K : Rle 2 (INR k) by have := le_INR 2 k (leP k2).
  have T1 : Rlt R0 (Rdiv th 2) by rewrite /th; apply: Rdiv_lt_0_compat; [apply: Rdiv_lt_0_compat; lra | lra].
  have T2 : Rlt (Rdiv th 2) PI.
    have I : Rle (Rinv (INR k)) (Rinv 2) by apply: Rinv_le_contravar; lra.
    have I2 := Rmult_le_compat_l PI _ _ (Rlt_le _ _ P) I.
    have -> : Rdiv th 2 = Rmult PI (Rinv (INR k)) by rewrite /th; field; lra.
    lra.
  have S := sin_gt_0 _ T1 T2; have S2 := Rmult_lt_0_compat _ _ S S.
  have D := cos_2a_sin (Rdiv th 2); have E2 : Rmult 2 (Rdiv th 2) = th by field.
  rewrite E2 C in D; lra.
apply/(perm_exact X E T L) => A a1 a2 [j Hj M]; move: Hj; rewrite k1; case: j M => // M _.
apply/isperm_mat; exists (iota 0 2); first exact: is_perm_iota.
apply: meq_trans M _; rewrite Rmult_0_l; apply: meq_trans (meq_sym rot0) _; apply: meq_sym.
by apply: perm_id => i Hi; rewrite nth_iota.
Qed.
(** no flag is set *)
Definition unit_at (d a b : nat) : fmat RR := FM d d (fun i j => ((i == a) && (j == b))%:R).
Lemma unit_skew d a b : (a < d)%N -> (b < d)%N -> ~ skew (unit_at d a b).
Proof.
move=> Ha Hb [_ _ /= S]; have := S b a Hb Ha; rewrite /= !eqxx /=.
rewrite [b == a]eq_sym; case: (a == b) => /= e; [have e' : @eq R R1 (Ropp R1) by exact: e | have e' : @eq R R1 (Ropp R0) by exact: e]; lra.
Qed.
Lemma flags_sl n : (1 < n)%N -> flags (g_sl idR same n) false false.
Proof.
move=> n1; have [a Ea B] := sl_ok idR same n1; have [G E _] := B; have L := built_lmats B E.
have T : tested n G by move: B E; rewrite /g_sl Ea bindOk => B E; exact: built_tested B erefl erefl E.
have [b Eb [_ S Ib]] := sl_basis RR (ltnW n1); move: Eb; rewrite Ea => -[?]; subst b.
exists G => //; apply: (@not_orth n G (@traceless RR) T); first by rewrite L.
exists (unit_at n 0 1); split=> //; last by apply: unit_skew; lia.
by rewrite /traceless /= big1 // => i _; case: i.
Qed.
Lemma flags_gl n : (0 < n)%N -> flags (g_gl idR same n) false false.
Proof.
case: n => // n _; have [a Ea B] := gl_ok idR same n; have [G E _] := B; have L := built_lmats B E.
have T : tested n.+1 G by move: B E; rewrite /g_gl Ea bindOk => B E; exact: built_tested B erefl erefl E.
have [b Eb [_ S Ib]] := gl_basis RR n.+1; move: Eb; rewrite Ea => -[?]; subst b.
exists G => //; apply: (@not_orth n.+1 G (fun=> True) T); first by rewrite L.
by exists (unit_at n.+1 0 0); split=> //; apply: unit_skew.
Qed.
Lemma flags_sp m : (0 < m)%N -> flags (g_sp idR same m) false false.
Proof.
case: m => // m _; have [a Ea B] := sp_ok idR same m; have [G E _] := B; have L := built_lmats B E.
have T : tested (2 * m.+1) G by move: B E; rewrite /g_sp Ea bindOk => B E; exact: built_tested B erefl erefl E.
have [b Eb [_ S Ib]] := sp_basis RR m.+1; move: Eb; rewrite Ea => -[?]; subst b.
exists G => //; apply: (@not_orth _ G (preserves (sympl RR m.+1)) T); first by rewrite L.
exists (unit_at (2 * m.+1) 0 m.+1); split=> //; last by apply: unit_skew; lia.
split=> //= i j Hi Hj; rewrite (sum_only (i := 0%N)) //; last by move=> k Hk /negbTE -> /=; rewrite mul0r.
rewrite (sum_only (i := 0%N)) //; last by move=> k Hk /negbTE -> /=; rewrite mulr0.
rewrite eqxx addn0 /=; case: (i == m.+1) => /=; rewrite ?mul0r ?mul1r ?add0r //.
by case: (j == m.+1) => /=; rewrite ?mulN1r ?mulr1 ?mulr0 ?addrN ?addr0.
Qed.

Definition boost (d : nat) : fmat RR := FM d d (fun i j => ((i + j == 1)%N)%:R).
Lemma boost_ok d : (1 < d)%N -> preserves (minkowski RR d) (boost d) /\ ~ skew (boost d).
Proof.
move=> d1; split.
  split=> //= i j Hi Hj; rewrite (sum_only (i := j)) //; last by move=> k Hk /negbTE ->; rewrite mulr0.
  rewrite (sum_only (i := i)) //; last by move=> k Hk; rewrite eq_sym => /negbTE ->; rewrite mul0r.
  rewrite !eqxx addnC; case: i j {Hi Hj} => [|[|i]] [|[|j]] //=; rewrite ?mulr0 ?mul0r ?addr0 ?mulr1 ?mul1r ?addrN ?addNr //.
move=> [_ _ /= S]; have e := S 0%N 1%N (ltnW d1) d1; have e' : @eq R R1 (Ropp R1) by exact: e.
lra.
Qed.
Lemma lor_flags m x a h G : is_basis id m.+2 (preserves (minkowski RR m.+2)) (mats a) -> built idR x m.+2 (GArr a) h ->
  x = Ok G -> tested m.+2 G -> flags x false false.
Proof.
move=> Ib B E T; exists G => //; apply: (@not_orth _ G (preserves (minkowski RR m.+2)) T).
  by rewrite (built_lmats B E).
by have [h1 h2] := @boost_ok m.+2 isT; exists (boost m.+2).
Qed.
Lemma so13p_def recip a : so13_lie RR = Ok a ->
  g_so13p idR recip same = group_init idR same "SO13p" (Attrs None (Some (GArr a)) None None None (Some (so13_z recip))).
Proof. move=> E; rewrite /g_so13p E bindOk; exact erefl. Qed.
Lemma so13p_tested recip G : g_so13p idR recip same = Ok G -> tested 4 G.
Proof.
have [a Ea B] := so13p_ok idR recip same; move: B; rewrite (so13p_def recip Ea) => B; exact: built_tested B erefl erefl.
Qed.
Lemma so13_lie_basis a : so13_lie RR = Ok a -> is_basis id 4 (preserves (minkowski RR 4)) (mats a).
Proof.
have [b Eb [_ _ Ib]] := GroupsLor.so13_basis char2R; rewrite Eb => -[<-]; exact Ib.
Qed.
Lemma flags_so13p recip : flags (g_so13p idR recip same) false false.
Proof.
have [a Ea B] := so13p_ok idR recip same; have [G E _] := B.
exact (@lor_flags 2 _ a _ G (so13_lie_basis Ea) B E (so13p_tested E)).
Qed.
Lemma so13_def recip a : so13_lie RR = Ok a -> g_so13 idR recip same =
  group_init idR same "SO13" (Attrs None (Some (GArr a)) (Some (GArr (neye1 RR 4))) None None (Some (so13_z recip))).
Proof. move=> E; rewrite /g_so13 E bindOk; exact erefl. Qed.
Lemma so13_tested recip G : g_so13 idR recip same = Ok G -> tested 4 G.
Proof.
have [a Ea B] := so13_ok idR recip same; move: B; rewrite (so13_def recip Ea) => B; exact: built_tested B erefl erefl.
Qed.
Lemma flags_so13 recip : flags (g_so13 idR recip same) false false.
Proof.
have [a Ea B] := so13_ok idR recip same; have [G E _] := B.
exact (@lor_flags 2 _ a _ G (so13_lie_basis Ea) B E (so13_tested E)).
Qed.
Lemma flags_o13 recip s : flags (g_o13_as idR recip same s) false false.
Proof.
have [a [h [Ea Eh B]]] := o13_ok idR recip same s; have [G E _] := B.
exact (@lor_flags 2 _ a _ G (so13_lie_basis Ea) B E (lor_tested E)).
Qed.
Lemma flags_so11p : flags (g_so11p idR same) false false.
Proof.
have B := so11p_ok idR same; have [_ _ Ib] := GroupsLor.so11_basis char2R; have [G E _] := B.
apply: (@lor_flags 0 _ _ _ G Ib B E); exact: built_tested B erefl erefl E.
Qed.
Lemma flags_o11 : flags (g_o11 idR same) false false.
Proof.
have [h Eh B] := o11_ok idR same; have [_ _ Ib] := GroupsLor.so11_basis char2R; have [G E _] := B.
apply: (@lor_flags 0 _ _ _ G Ib B E); move: (B) (E); rewrite /g_o11 Eh bindOk => B' E'; exact: built_tested B' erefl erefl E'.
Qed.
Lemma flags_scaling n : (0 < n)%N -> flags (g_scaling idR same n) false false.
Proof.
move=> n0; have B := scaling_ok idR same n; have [G E _] := B; have L := built_lmats B E.
have T : tested n G by exact: built_tested B erefl erefl E.
have X := exact_scaling idR same n0; exists G => //.
have O : g_orth G = false.
  apply/negbTE/negP => /(orth_exact X E T) H.
  have [|_ _ I] := H (fscale (2%:R : RR) (fid RR n)) erefl erefl _.
    by exists (2%:R : RR); [change (Rlt R0 (Rplus R1 R1)); lra | exact: meq_refl].
  have := I 0%N 0%N n0 n0; rewrite /= (sum_only (i := 0%N)) //; last by move=> k Hk; rewrite eq_sym => /negbTE ->; rewrite mulr0 mul0r.
  rewrite (sum_only (i := 0%N)) //; last by move=> k Hk; rewrite eq_sym => /negbTE ->; rewrite mul0r.
  rewrite eqxx mulr1 mul1r => e; have e' : @eq R (Rmult (Rplus R1 R1) (Rplus R1 R1)) R1 by exact: e.
  lra.
split=> //; have [r [a [E' Ed Hl Hg [H1 H2]]]] := T; have [EO EP] := init_flags E' Ed Hl Hg.
by rewrite EP /the_perm -EO O H2.
Qed.
Lemma mink_not_perm c : (c == (1 : RR)) || (c == -1) -> ~ GroupsPerm.isperm 4 (fscale c (minkowski RR 4)).
Proof.
move=> Hc /isperm_mat[p Pp [_ _ M]]; have [e0 e1] := conj (M 0 0 isT isT)%N (M 1 1 isT isT)%N.
move: e0 e1 => /=; rewrite mulr1; case/orP: Hc => /eqP ->; case: (_ == _) => /=; case: (_ == _) => /= e0 e1.
all: try (have f0 : @eq R (Ropp R1) R1 by exact: e0); try (have f0 : @eq R (Ropp R1) R0 by exact: e0).
all: try (have f1 : @eq R (Rmult R1 (Ropp R1)) R1 by exact: e1); try (have f1 : @eq R (Rmult R1 (Ropp R1)) R0 by exact: e1).
all: lra.
Qed.

Lemma mink_iso c : (c == (1 : RR)) || (c == -1) -> isometry (fid RR 4) (fscale c (minkowski RR 4)).
Proof.
move=> Hc; have C : c * c = 1 by case/orP: Hc => /eqP ->; rewrite ?mulr1 ?mulN1r ?opprK.
split=> //= i j Hi Hj; rewrite (sum_only (i := i)) //; last by move=> k Hk /negbTE ->; rewrite mulr0 mul0r.
rewrite (sum_only (i := i)) //; last by move=> k Hk; rewrite eq_sym => /negbTE ->; rewrite mul0r.
rewrite !eqxx mul1r; case: (i == j); last by rewrite !mulr0.
by case: (i == 0%N); rewrite ?mulr1 ?mulrN1 ?mulNr ?mulrN ?opprK.
Qed.
Lemma reflection_flags x c G : (c == (1 : RR)) || (c == -1) ->
  exact_group x 4 (fun X => meq X (fid RR 4) \/ meq X (fscale c (minkowski RR 4))) -> x = Ok G -> tested 4 G -> lmats G = [::] ->
  flags x true false.
Proof.
move=> Hc X E T L; exists G => //; split.
  apply/(orth_exact X E T) => A a1 a2 [M|M]; last first.
    by apply: meq_trans (mink_iso Hc); apply: meq_fmul; [exact: meq_ftr | exact: meq_fmul | rewrite /= a1].
  apply: meq_trans (_ : meq _ (fmul (ftr (fid RR 4)) (fmul (fid RR 4) (fid RR 4)))) _.
    by apply: meq_fmul; [exact: meq_ftr | exact: meq_fmul | rewrite /= a1].
  by split=> //= i j Hi Hj; rewrite (sum_only (i := i)) // ?eqxx ?mul1r ?(sum_only (i := i)) ?eqxx ?mul1r // => k Hk; rewrite ?[i == k]eq_sym => /negbTE ->; rewrite mul0r.
apply/negbTE/negP => F; have [G0 E0 [_ H]] := X; move: E0; rewrite E => -[?]; subst G0.
apply: (mink_not_perm Hc); apply: (perm_group T F); apply/H; split=> //; right; exact: meq_refl.
Qed.
Lemma flags_parity : flags (g_parity idR same) true false.
Proof.
have [h Eh B] := parity_ok idR same; have [G E _] := B.
have T : tested 4 G by move: (B) (E); rewrite /g_parity Eh bindOk => B' E'; exact: built_tested B' erefl erefl E'.
apply: (@reflection_flags _ 1 G _ _ E T (built_lmats B E)); first by rewrite eqxx.
have [G0 E0 [h1 h2]] := exact_parity idR same; exists G0 => //; split=> // X; rewrite h2.
have M : meq (minkowski RR 4) (fscale 1 (minkowski RR 4)) by split=> //= i j _ _; rewrite mul1r.
split=> -[x1 x2 [|K]] //; split=> //; try by [left]; right; first exact: meq_trans K M.
exact: meq_trans K (meq_sym M).
Qed.
Lemma flags_time : flags (g_time idR same) true false.
Proof.
have [h Eh B] := time_ok idR same; have [G E _] := B.
have T : tested 4 G by move: (B) (E); rewrite /g_time Eh bindOk => B' E'; exact: built_tested B' erefl erefl E'.
apply: (@reflection_flags _ (-1) G _ _ E T (built_lmats B E)); first by rewrite eqxx orbT.
have [G0 E0 [h1 h2]] := exact_time idR same; exists G0 => //; split=> // X; rewrite h2.
have M : meq (fopp (minkowski RR 4)) (fscale (-1) (minkowski RR 4)) by split=> //= i j _ _; rewrite mulN1r.
split=> -[x1 x2 [|K]] //; split=> //; try by [left]; right; first exact: meq_trans K M.
exact: meq_trans K (meq_sym M).
Qed.
Lemma perms_flags x n ps : built idR x n (no_gens RR n) (GOps (map (OPerm RR) ps)) -> all (is_perm n) ps ->
  (forall G, x = Ok G -> tested n G) -> flags x true true.
Proof.
move=> B A HT; have [G E _] := B; have T := HT G E; exists G => //.
have F : g_perm G.
  apply/(perm_iff T); split; first by rewrite (built_lmats B E).
  rewrite (built_gmats B E) => h /List.in_map_iff[X [<- /List.in_map_iff[p [<- Hp]]]].
  have Pp : is_perm n p by elim: (ps) A Hp => //= q l IH /andP[Hq Hl] [<-|Hp] //; exact: IH.
  by apply/isperm_mat; exists p => //; rewrite /= (is_perm_size Pp); exact: meq_refl.
split=> //; apply/(orth_iff T) => Y /(perm_group T F) /isperm_mat[p Pp M]; have [m1 m2 _] := M.
apply: orthm_meq (meq_sym M) _; split=> //.
  by apply: meq_trans (perm_inv_r Pp); apply: meq_fmul => //; exact: ftr_perm.
by apply: meq_trans (perm_inv_l Pp); apply: meq_fmul => //; exact: ftr_perm.
Qed.
Lemma rubik_def : g_rubik idR same = group_init idR same "RubiksCube" (with_gens (GOps (map (OPerm RR) rubik_perms))).
Proof. rewrite /g_rubik; exact erefl. Qed.
Lemma flags_rubik : flags (g_rubik idR same) true true.
Proof.
have := rubik_ok idR same; rewrite rubik_def; move: "RubiksCube"%string => s.
have P : all (is_perm 48) rubik_perms by vm_compute.
move: rubik_perms P => ps P B; refine (perms_flags B P _).
by move=> G; exact: (built_tested B erefl erefl).
Qed.
Lemma tested_example : exists G, [/\ g_s idR same 3 = Ok G, tested 3 G,
  exact_group (g_s idR same 3) 3 (fun X => exists2 p, is_perm 3 p & meq X (perm_mat RR 3 p)) & lmats G = [::]].
Proof.
have B := s_ok idR same (isT : (1 < 3)%N); have [G E _] := B; have L := built_lmats B E.
exists G; split=> //; last exact: exact_s.
by move: B E; rewrite /g_s /= => B E; exact: built_tested B erefl erefl E.
Qed.
