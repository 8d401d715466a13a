(** * FlowGlobal: differential equations with Lipschitz right hand sides have solutions for all
    times, and so do bounded ones; MLPode and MLPH. *)
From Coq Require Import Reals Lra ClassicalEpsilon.
From mathcomp Require Import all_ssreflect all_algebra.
From mathcomp Require Import zify.
From Verif Require Import Np NpLemmas Spec SpecLemmas LinOp Rep Solver Rstruct Expm Nn NnNets NnNetsSpec NnNetsThm Data DataSpec DataHamSpec DataHam TrainerFlow FlowSpec Smooth FlowThm NnSmooth FlowExist FlowNet FlowNet2.
Set Implicit Arguments.
Unset Strict Implicit.
Unset Printing Implicit Defensive.
Import GRing.Theory.
Local Open Scope ring_scope.

Lemma INR_above x : exists k, Rlt x (INR k).
Proof.
exists (Z.to_nat (up (Rabs x))); rewrite INR_IZR_INZ Z2Nat.id.
  by have [h _] := archimed (Rabs x); have := Rle_abs x; lra.
by apply: le_IZR; have [h _] := archimed (Rabs x); have := Rabs_pos x; lra.
Qed.
Lemma dl_local (f g : R -> R) a b t l : Rlt a t -> Rlt t b -> (forall s, Rlt a s -> Rlt s b -> f s = g s) ->
  derivable_pt_lim f t l -> derivable_pt_lim g t l.
Proof.
move=> at_ tb E D eps e0; have [del Hd] := D eps e0.
have d0 : Rlt R0 (Rmin del (Rmin (Rminus t a) (Rminus b t))).
  by apply: Rmin_pos; [exact: cond_pos | apply: Rmin_pos; lra].
exists (mkposreal _ d0) => h h0 /= Hh.
have m1 := Rmin_l del (Rmin (Rminus t a) (Rminus b t)); have m2 := Rmin_r del (Rmin (Rminus t a) (Rminus b t)).
have m3 := Rmin_l (Rminus t a) (Rminus b t); have m4 := Rmin_r (Rminus t a) (Rminus b t).
have [u1 u2] : Rlt (Ropp (Rmin (Rminus t a) (Rminus b t))) h /\ Rlt h (Rmin (Rminus t a) (Rminus b t)).
  by split; move: Hh; split_Rabs; lra.
by rewrite -!E; try lra; apply: Hd => //; lra.
Qed.
Lemma solves_ext a b n F c c' : (forall t, Rlt a t -> Rlt t b -> c t = c' t) -> solves_on a b n F c -> solves_on a b n F c'.
Proof.
move=> E S t at_ tb; have [Sz [w Ew D]] := S t at_ tb; rewrite -E //; split=> //; exists w => // i Hi.
by apply: (dl_local at_ tb _ (D i Hi)) => s h1 h2; rewrite E.
Qed.
Lemma solves_sub a b a' b' n F c : Rle a a' -> Rle b' b -> solves_on a b n F c -> solves_on a' b' n F c.
Proof. by move=> h1 h2 S t u1 u2; apply: S; lra. Qed.
Lemma solves_shift (s : R) a b n F c : solves_on a b n F c -> solves_on (Rplus a s) (Rplus b s) n F (fun t => c (Rminus t s)).
Proof.
move=> S t u1 u2; have [||Sz [w Ew D]] := S (Rminus t s); try lra; split=> //; exists w => // i Hi.
have D1 : derivable_pt_lim (fun t => Rminus t s) t (Rminus R1 R0).
  exact: (derivable_pt_lim_minus id (fct_cte s) t _ _ (derivable_pt_lim_id t) (derivable_pt_lim_const s t)).
have := derivable_pt_lim_comp _ (fun r => nth 0 (c r) i) t _ _ D1 (D i Hi).
by apply: dl_ext => //; rewrite Rminus_0_r Rmult_1_r.
Qed.
Arguments solves_shift s [a b n F c].
(** solutions on all bounded intervals give one for all times *)
Lemma all_times n F z0 : locally_lipschitz n F ->
  (forall T, Rlt R0 T -> exists2 c, c R0 = z0 & solves_on (Ropp T) T n F c) -> exists2 c, c R0 = z0 & solves n F c.
Proof.
move=> FL H.
have P k : Rlt R0 (INR k.+1) by apply: lt_0_INR; exact/ltP.
have X k : exists c, c R0 = z0 /\ solves_on (Ropp (INR k.+1)) (INR k.+1) n F c.
  by have [c c0 Sc] := H (INR k.+1) (P k); exists c.
pose f k := proj1_sig (constructive_indefinite_description _ (X k)).
have fP k : f k R0 = z0 /\ solves_on (Ropp (INR k.+1)) (INR k.+1) n F (f k).
  by rewrite /f; case: constructive_indefinite_description.
have U j k t : Rlt (Rabs t) (INR j.+1) -> Rlt (Rabs t) (INR k.+1) -> f j t = f k t.
  move=> h1 h2; have [e1 s1] := fP j; have [e2 s2] := fP k; pose m := Rmin (INR j.+1) (INR k.+1).
  have m1 := Rmin_l (INR j.+1) (INR k.+1); have m2 := Rmin_r (INR j.+1) (INR k.+1).
  have m0 : Rlt (Rabs t) m by apply: Rmin_glb_lt.
  have t1 : Rlt (Ropp m) t by move: m0; split_Rabs; lra.
  have t2 : Rlt t m by move: m0; split_Rabs; lra.
  have m3 : Rlt R0 m by have := Rabs_pos t; lra.
  apply: (@solutions_unique_on (Ropp m) m n F (f j) (f k) R0 t FL) => //; try lra.
  - by apply: solves_sub s1; rewrite /m; lra.
  - by apply: solves_sub s2; rewrite /m; lra.
  by rewrite e1 e2.
have Y t : exists k, Rlt (Rabs t) (INR k.+1).
  have [k Hk] := INR_above (Rabs t); exists k; rewrite S_INR; lra.
pose N t := proj1_sig (constructive_indefinite_description _ (Y t)).
have NP t : Rlt (Rabs t) (INR (N t).+1) by rewrite /N; case: constructive_indefinite_description.
pose c t := f (N t) t.
exists c; first by rewrite /c; case: (fP (N R0)).
move=> t; have [k Hk] := Y t; have [_ S] := fP k.
have Sc : solves_on (Ropp (INR k.+1)) (INR k.+1) n F c.
  apply: solves_ext S => s u1 u2; apply: U => //; apply: Rabs_def1; lra.
by apply: Sc; move: Hk; split_Rabs; lra.
Qed.
Section G.
Variables (n : nat) (F : seq RR -> res (seq RR)).
Hypothesis FT : forall z, size z = n -> exists2 w, F z = Ok w & size w = n.
Variable L : R.
Hypothesis FL : glip n F L.
Lemma glip_lip : locally_lipschitz n F.
Proof. by move=> B; exists L => z z' w w' d h1 h2 _ _; exact: FL. Qed.
Lemma glue a1 b1 a2 b2 s c1 c2 : Rle a1 a2 -> Rle b1 b2 -> Rlt a2 s -> Rlt s b1 ->
  solves_on a1 b1 n F c1 -> solves_on a2 b2 n F c2 -> c1 s = c2 s ->
  exists c, [/\ solves_on a1 b2 n F c, forall t, Rlt a1 t -> Rlt t b1 -> c t = c1 t & forall t, Rlt a2 t -> Rlt t b2 -> c t = c2 t].
Proof.
move=> h1 h2 h3 h4 S1 S2 E; pose c t := if Rlt_dec t s then c1 t else c2 t.
have U t : Rlt a2 t -> Rlt t b1 -> c1 t = c2 t.
  move=> u1 u2; apply: (@solutions_unique_on a2 b1 n F c1 c2 s t glip_lip) => //; [apply: solves_sub S1|apply: solves_sub S2]; lra.
have C1 t : Rlt a1 t -> Rlt t b1 -> c t = c1 t.
  by move=> u1 u2; rewrite /c; case: Rlt_dec => // u; rewrite U //; lra.
have C2 t : Rlt a2 t -> Rlt t b2 -> c t = c2 t.
  by move=> u1 u2; rewrite /c; case: Rlt_dec => // u; rewrite U //; lra.
have T1 : solves_on a1 b1 n F c by apply: solves_ext S1 => t u1 u2; rewrite C1.
have T2 : solves_on a2 b2 n F c by apply: solves_ext S2 => t u1 u2; rewrite C2.
exists c; split=> // t u1 u2; case: (Rlt_dec t b1) => u; first by apply: T1.
by apply: T2; lra.
Qed.
Definition upto (T : R) : Prop := forall z0, size z0 = n -> exists2 c, c R0 = z0 & solves_on (Ropp T) T n F c.
Lemma upto_step h T : Rlt R0 h -> Rle h T -> upto h -> upto T -> upto (Rplus T (Rdiv h 2)).
Proof.
move=> h0 hT Uh UT z0 Sz0; have [c c0 Sc] := UT z0 Sz0; set s := Rminus T (Rdiv h 2).
have sE : s = Rminus T (Rdiv h 2) by []; move: s sE => s sE.
have [Ss _] : size (c s) = n /\ _ := Sc s ltac:(lra) ltac:(lra).
have [d d0 Sd] := Uh _ Ss; have Sd' := solves_shift s Sd.
have [|||||c' [S' E1 _]] := @glue (Ropp T) T (Rplus (Ropp h) s) (Rplus h s) s c (fun t => d (Rminus t s)) _ _ _ _ Sc Sd'; try lra.
  by rewrite Rminus_eq_0 d0.
have Eh : Rplus h s = Rplus T (Rdiv h 2) by lra.
rewrite Eh in S'.
have [Ss' _] : size (c' (Ropp s)) = n /\ _ := S' (Ropp s) ltac:(lra) ltac:(lra).
have [e e0 Se] := Uh _ Ss'; have Se' := solves_shift (Ropp s) Se.
have [|||||c2 [S2 _ E2]] := @glue (Rplus (Ropp h) (Ropp s)) (Rplus h (Ropp s)) (Ropp T) (Rplus T (Rdiv h 2)) (Ropp s) (fun t => e (Rminus t (Ropp s))) c' _ _ _ _ Se' S'; try lra.
  by rewrite Rminus_eq_0 e0.
exists c2; first by rewrite E2 ?E1 //; lra.
by apply: solves_sub S2; lra.
Qed.
Lemma upto_all T : upto T.
Proof.
have [h h0 Uh] := uniform_exists FT FL.
have A k : upto (Rplus h (Rmult (INR k) (Rdiv h 2))).
  elim: k => [|k IH]; first by rewrite /= Rmult_0_l Rplus_0_r.
  have -> : Rplus h (Rmult (INR k.+1) (Rdiv h 2)) = Rplus (Rplus h (Rmult (INR k) (Rdiv h 2))) (Rdiv h 2) by rewrite S_INR; lra.
  by apply: upto_step => //; have := Rmult_le_pos (INR k) (Rdiv h 2) (pos_INR k) ltac:(lra); lra.
have [k Hk] : exists k, Rle T (Rmult (INR k) (Rdiv h 2)).
  have [k Hk] := INR_above (Rdiv T (Rdiv h 2)); exists k.
  have := Rmult_lt_compat_r (Rdiv h 2) _ _ ltac:(lra) Hk.
  have -> : Rmult (Rdiv T (Rdiv h 2)) (Rdiv h 2) = T by field; lra.
  by lra.
by move=> z0 Sz0; have [c c0 Sc] := A k z0 Sz0; exists c => //; apply: solves_sub Sc; lra.
Qed.
Theorem global_exists : globally_solvable n F.
Proof. by move=> z0 Sz0; apply: all_times glip_lip _ => T _; exact: upto_all. Qed.
End G.

(** bounded right hand sides *)
Lemma stays n F c z0 M T t i : solves n F c -> c R0 = z0 -> (forall z w, size z = n -> F z = Ok w -> in_box M w) ->
  Rlt (Rabs t) T -> (i < n)%N -> Rle (Rabs (nth 0 (c t) i)) (Rplus (Rabs (nth 0 z0 i)) (Rmult M T)).
Proof.
move=> S c0 HM tT Hi.
have D s : exists2 l, derivable_pt_lim (fun s => nth 0 (c s) i) s l & Rle (Rabs l) M.
  have [Sz [w Ew Dw]] := S s; exists (nth 0 w i); first exact: Dw.
  exact: (HM _ _ Sz Ew).
have M0 : Rle R0 M by have [l _ h] := D R0; have := Rabs_pos l; lra.
pose l s := proj1_sig (constructive_indefinite_description _ (let: ex_intro2 x p q := D s in ex_intro (fun x => _ /\ _) x (conj p q))).
have lP s : derivable_pt_lim (fun s => nth 0 (c s) i) s (l s) /\ Rle (Rabs (l s)) M.
  by rewrite /l; case: constructive_indefinite_description.
have K : Rle (Rabs (Rminus (nth 0 (c t) i) (nth 0 (c R0) i))) (Rmult M (Rabs t)).
  case: (Rtotal_order t R0) => [h|[->|h]].
  - have [s [E _]] := MVT_cor2 _ l t R0 h (fun s _ => proj1 (lP s)).
    rewrite Rabs_minus_sym E Rabs_mult (Rabs_minus_sym R0) Rminus_0_r.
    by apply: Rmult_le_compat_r; [exact: Rabs_pos | exact: (proj2 (lP s))].
  - by rewrite /Rminus Rplus_opp_r !Rabs_R0; lra.
  have [s [E _]] := MVT_cor2 _ l R0 t h (fun s _ => proj1 (lP s)).
  rewrite E Rabs_mult Rminus_0_r.
  by apply: Rmult_le_compat_r; [exact: Rabs_pos | exact: (proj2 (lP s))].
have K2 : Rle (Rmult M (Rabs t)) (Rmult M T) by apply: Rmult_le_compat_l; lra.
have T3 := Rabs_triang (Rminus (nth 0 (c t) i) (nth 0 (c R0) i)) (nth 0 (c R0) i).
have E3 : Rplus (Rminus (nth 0 (c t) i) (nth 0 (c R0) i)) (nth 0 (c R0) i) = nth 0 (c t) i by rewrite /Rminus; ring.
by move: T3; rewrite E3 c0; move: K; rewrite c0; lra.
Qed.
Theorem bounded_exists n F M : (forall z, size z = n -> exists2 w, F z = Ok w & size w = n) -> locally_lipschitz n F ->
  (forall z w, size z = n -> F z = Ok w -> in_box M w) -> globally_solvable n F.
Proof.
move=> FT FL HM z0 Sz0; apply: all_times => // T T0.
have M0 : Rle R0 M by have [w Ew _] := FT _ Sz0; have := HM _ _ Sz0 Ew 0%N; have := Rabs_pos (nth 0 w 0); lra.
have MT : Rle R0 (Rmult M T) by apply: Rmult_le_pos; lra.
pose B := Rplus (bound z0) (Rmult M T).
have Bz i : Rle (Rplus (Rabs (nth 0 z0 i)) (Rmult M T)) B by have := bound_ge z0 i; rewrite /B; lra.
have B0 : Rle R0 B by have := Bz 0%N; have := Rabs_pos (nth 0 z0 0); lra.
pose v (z : seq RR) : seq RR := mkseq (fun j => clip B (nth 0 z j)) n.
have Sv z : size (v z) = n by rewrite size_mkseq.
have vb z : in_box B (v z).
  move=> i; case: (ltnP i n) => Hi; first by rewrite nth_mkseq //; exact: clip_in.
  by rewrite nth_default ?Sv // Rabs_R0.
have [L HL] := FL B.
have [||c c0 Sc] := @global_exists n (fun z => F (v z)) _ L _ z0 Sz0.
- by move=> z _; exact: FT.
- move=> z z' w w' d S1 S2 E1 E2 Hd; apply: (HL _ _ _ _ d (Sv z) (Sv z') (vb z) (vb z') E1 E2) => j Hj.
  by rewrite !nth_mkseq //; apply: Rle_trans (clip_lip _ _ B0) (Hd j Hj).
exists c => // t t1 t2; have [Sz [w Ew D]] := Sc t; split=> //; exists w => //.
rewrite -Ew; congr F; apply: (@eq_from_nth _ 0); rewrite ?Sv // => i; rewrite Sz => Hi; rewrite nth_mkseq //.
symmetry; apply: clip_id; apply: Rle_trans (Bz i).
apply: (stays Sc c0 _ _ Hi); first by move=> z u _; exact: HM.
by apply: Rabs_def1; lra.
Qed.
(** the flow *)
Theorem flow_exists n F : globally_solvable n F -> uniquely_solvable n F -> exists phi, flow_of n F phi.
Proof.
move=> G U.
have X z : exists c, size z = n -> c R0 = z /\ solves n F c.
  by case E: (size z == n); [have [c c0 Sc] := G z (eqP E); exists c | exists (fun=> z) => E'; rewrite E' eqxx in E].
pose phi t z := proj1_sig (constructive_indefinite_description _ (X z)) t.
have PP z : size z = n -> phi R0 z = z /\ solves n F (fun t => phi t z).
  by move=> Sz; rewrite /phi; case: constructive_indefinite_description => /= c; apply.
exists phi => z Sz; have [p0 Sp] := PP z Sz; split=> // s t.
have Sz' : size (phi t z) = n by have [] := Sp t.
have [q0 Sq] := PP _ Sz'; set T := Rplus (Rabs s) R1.
have TE : T = Rplus (Rabs s) R1 by []; move: T TE => T TE.
have s1 := Rle_abs s; have s2 := Rle_abs (Ropp s); rewrite Rabs_Ropp in s2; have s3 := Rabs_pos s.
have A1 : solves_on (Ropp T) T n F (fun u => phi u (phi t z)) by move=> u _ _; exact: Sq.
have A2 : solves_on (Ropp T) T n F (fun u => phi (Rplus u t) z).
  have W : solves_on (Rminus (Ropp T) (Ropp t)) (Rminus T (Ropp t)) n F (fun u => phi u z) by move=> u _ _; exact: Sp.
  have := solves_shift (Ropp t) W.
  have -> : Rplus (Rminus (Ropp T) (Ropp t)) (Ropp t) = Ropp T by ring.
  have -> : Rplus (Rminus T (Ropp t)) (Ropp t) = T by ring.
  by apply: solves_ext => u _ _; rewrite /Rminus Ropp_involutive.
apply: (U (Ropp T) T _ _ R0 s A2 A1); try lra.
by rewrite Rplus_0_l q0.
Qed.

(** ** MLPs are Lipschitz *)
Lemma abs_xx (x : R) : Rabs (Rminus x x) = R0.
Proof. by rewrite /Rminus Rplus_opp_r Rabs_R0. Qed.
Definition gl (n : nat) (f : seq RR -> res (seq RR)) : Prop := exists2 L, Rle R0 L & forall z z' w w' d,
  size z = n -> size z' = n -> f z = Ok w -> f z' = Ok w' ->
  (forall i, Rle (Rabs (nth 0 z i - nth 0 z' i)) d) -> forall i, Rle (Rabs (nth 0 w i - nth 0 w' i)) (Rmult L d).
Lemma gl_glip n f : gl n f -> exists L, glip n f L.
Proof.
move=> [L L0 H]; exists L => z z' w w' d S1 S2 E1 E2 Hd i Hi.
have d0 : Rle R0 d by apply: Rle_trans (Hd i Hi); exact: Rabs_pos.
apply: (H z z' w w' d) => // j; case: (ltnP j n) => Hj; first exact: Hd.
by rewrite !nth_default ?S1 ?S2 // abs_xx.
Qed.
Lemma rdiff (p q r : RR) : Rminus (@GRing.add RR p r) (@GRing.add RR q r) = @GRing.add RR p (@GRing.opp RR q).
Proof. change (Rminus (Rplus p r) (Rplus q r) = Rplus p (Ropp q)); ring. Qed.
Lemma dense_gl n a m W b : gl n (dense 1 a m W b).
Proof.
have b0 : Rle R0 (bound W) by have := bound_ge W 0; have := Rabs_pos (nth 0 W 0); lra.
exists (\sum_(0 <= i < a) (bound W : RR)).
  by elim: (a) => [|k IH]; [rewrite big_geq //; exact: Rle_refl | rewrite big_nat_recr //=; exact: Rplus_le_le_0_compat].
move=> z z' w w' d S1 S2; rewrite /dense; case: ifP => // _ [<-]; case: ifP => // _ [<-] Hd i.
have d0 : Rle R0 d by apply: Rle_trans (Hd 0%N); exact: Rabs_pos.
case: (ltnP i m) => Hi; last first.
  rewrite !nth_default ?size_mkseq ?mul1n // abs_xx; apply: Rmult_le_pos => //.
  by elim: (a) => [|k IH]; [rewrite big_geq //; exact: Rle_refl | rewrite big_nat_recr //=; exact: Rplus_le_le_0_compat].
rewrite /add_rows !nth_mkseq ?size_mkseq ?mul1n // !rsumE.
have -> : Rmult (\sum_(0 <= i < a) (bound W : RR)) d = \sum_(0 <= i < a) ((Rmult (bound W) d) : RR) by rewrite mulE mulr_suml.
rewrite rdiff -sumrB; apply: bnd_sum => j Hj; rewrite -mulrBl.
rewrite -mulE Rabs_mult Rmult_comm; apply: Rmult_le_compat; try exact: Rabs_pos.
  by apply: Rle_trans (bound_ge W (j * m + i %% m)); rewrite -[X in Rle X _]Rplus_0_r; apply: Rplus_le_compat_l; lra.
exact: Hd.
Qed.
Lemma swish_der x : derivable_pt_lim (fun s : R => Rmult (sigmoid s) s) x
  (Rplus (Rmult (Rmult (sigmoid x) (Rminus R1 (sigmoid x))) x) (Rmult (sigmoid x) R1)).
Proof. exact: (derivable_pt_lim_mult (sigmoid : R -> R) id x _ _ (sig_der x) (derivable_pt_lim_id x)). Qed.
Lemma swish_bound x : Rle (Rabs (Rplus (Rmult (Rmult (sigmoid x) (Rminus R1 (sigmoid x))) x) (Rmult (sigmoid x) R1))) 2.
Proof.
have [s1 s2] := sig_range x.
have E0 := exp_pos (Ropp x); set E := exp (Ropp x) in E0.
have sE : Rmult (sigmoid x) (Rplus R1 E) = R1 by rewrite /sigmoid -/E Rinv_l //; lra.
have X : Rle (Rabs (Rmult (Rmult (sigmoid x) (Rminus R1 (sigmoid x))) x)) R1.
  have q : Rminus R1 (sigmoid x) = Rmult (sigmoid x) E by lra.
  have P : Rle R0 (Rmult (sigmoid x) (Rminus R1 (sigmoid x))) by apply: Rmult_le_pos; lra.
  rewrite Rabs_mult (Rabs_pos_eq _ P).
  case: (Rle_dec R0 x) => Hx.
    have H : Rle (Rmult x E) R1.
      have e1 : Rmult E (exp x) = R1 by rewrite /E -exp_plus Rplus_opp_l exp_0.
      have e2 : Rle x (exp x).
        by case: (Req_dec x 0) => [->|ne]; [have := exp_pos 0; lra | have := exp_ineq1 x ltac:(lra); lra].
      by have := Rmult_le_compat_l E _ _ ltac:(lra) e2; lra.
    rewrite (Rabs_pos_eq x Hx) q.
    have -> : Rmult (Rmult (sigmoid x) (Rmult (sigmoid x) E)) x = Rmult (Rmult (sigmoid x) (sigmoid x)) (Rmult x E) by ring.
    have h1 : Rle R0 (Rmult x E) by apply: Rmult_le_pos; lra.
    have h2 : Rle (Rmult (sigmoid x) (sigmoid x)) R1 by nra.
    by have := Rmult_le_compat_r (Rmult x E) _ _ h1 h2; lra.
  have e2 : Rle (Ropp x) E by have := exp_ineq1 (Ropp x) ltac:(lra); rewrite -/E; lra.
  rewrite (Rabs_left x); last by lra.
  have h1 := Rmult_le_compat_l _ _ _ P e2.
  have h2 : Rle (Rmult (Rmult (sigmoid x) (Rminus R1 (sigmoid x))) E) R1.
    have -> : Rmult (Rmult (sigmoid x) (Rminus R1 (sigmoid x))) E = Rmult (Rminus R1 (sigmoid x)) (Rminus R1 (sigmoid x)) by rewrite {2}q; ring.
    by nra.
  lra.
by apply: Rle_trans (Rabs_triang _ _) _; rewrite Rmult_1_r (Rabs_pos_eq (sigmoid x)); lra.
Qed.
Lemma swish_lip x y : Rle (Rabs (Rminus (Rmult (sigmoid x) x) (Rmult (sigmoid y) y))) (Rmult 2 (Rabs (Rminus x y))).
Proof.
have W x' y' : Rlt x' y' -> Rle (Rabs (Rminus (Rmult (sigmoid x') x') (Rmult (sigmoid y') y'))) (Rmult 2 (Rabs (Rminus x' y'))).
  move=> L; have [c [E _]] := MVT_cor2 (fun s : R => Rmult (sigmoid s) s) _ x' y' L (fun s _ => swish_der s).
  rewrite Rabs_minus_sym E (Rabs_minus_sym x') Rabs_mult.
  by apply: Rmult_le_compat_r; [exact: Rabs_pos | exact: swish_bound].
case: (Rtotal_order x y) => [|[->|]]; first exact: W.
  by rewrite /Rminus !Rplus_opp_r Rabs_R0; lra.
by move=> L; rewrite Rabs_minus_sym (Rabs_minus_sym x); exact: W.
Qed.
Lemma dense_size bs n m W b x y : @dense RR bs n m W b x = Ok y -> size y = (bs * m)%N.
Proof. by rewrite /dense; case: ifP => // _ [<-]; rewrite size_mkseq size_mkseq. Qed.
Lemma mlp_gl ms : forall n k Ps, gl k (mlp_call sigmoid (@dense _) n ms Ps 1).
Proof.
elim: ms => [|m ms IH] n k [|P Ps]; try by exists R0; [exact: Rle_refl | move=> z z' w w' d _ _ //].
  by case: ms {IH}; exists R0; [exact: Rle_refl| move=> ? ? ? ? ? _ _ // |exact: Rle_refl| move=> ? ? ? ? ? _ _ //].
have [L1 l1 H1] := dense_gl k n m P.1 P.2; have [L2 l2 H2] := IH m (1 * m)%N Ps.
case: ms IH H2 => [|m' ms] IH H2; first by exists L1.
exists (Rmult (Rmult L2 2) L1); first by apply: Rmult_le_pos; [lra | exact: l1].
move=> z z' w w' d S1 S2 /=; case E1: (dense _ _ _ _ _ z) => [y|] //=; case E2: (dense _ _ _ _ _ z') => [y'|] //= E3 E4 Hd i.
have Hy := H1 z z' y y' d S1 S2 E1 E2 Hd.
have Sy : size (swish sigmoid y) = (1 * m)%N by rewrite size_map (dense_size E1).
have Sy' : size (swish sigmoid y') = (1 * m)%N by rewrite size_map (dense_size E2).
have -> : Rmult (Rmult (Rmult L2 2) L1) d = Rmult L2 (Rmult 2 (Rmult L1 d)) by ring.
apply: (H2 _ _ w w' _ Sy Sy' E3 E4) => j; have d0 := Rle_trans _ _ _ (Rabs_pos _) (Hy j).
case: (ltnP j m) => Hj; last by rewrite !nth_default ?Sy ?Sy' ?mul1n // abs_xx; lra.
rewrite !(nth_map 0) ?(dense_size E1) ?(dense_size E2) ?mul1n //.
apply: Rle_trans (swish_lip _ _) _; apply: Rmult_le_compat_l; first by lra.
exact: Hy.
Qed.
Theorem mlp_flow n ms (Ps : seq (seq RR * seq RR)) : (0 < size ms)%N -> mlp_fits n ms Ps -> last n ms = n ->
  globally_solvable n (objax_mlp_call sigmoid (n :: ms) Ps 1).
Proof.
move=> S0 HP Ln; have [L HL] := gl_glip (@mlp_gl ms n n Ps).
apply: (global_exists (L := L) _ HL) => z Sz.
have Sz' : size z = (1 * n)%N by rewrite mul1n.
by have [y Ey Sy] := mlp_ok sigmoid S0 HP Sz'; exists y => //; rewrite Sy Ln mul1n.
Qed.
(** gradients of Lipschitz functions are bounded *)
Lemma gradient_bound n (H : seq RR -> RR) gr L : gradient_of n H gr ->
  (forall z z' d, size z = n -> size z' = n -> (forall i, Rle (Rabs (nth 0 z i - nth 0 z' i)) d) -> Rle (Rabs (Rminus (H z) (H z'))) (Rmult L d)) ->
  forall z, size z = n -> in_box (Rplus (Rabs L) R1) (gr z).
Proof.
move=> G HL z Sz i; have [Sg Hg] := G z Sz; have [del d0 Hd] := Hg R1 Rlt_0_1.
case: (ltnP i n) => Hi; last by rewrite nth_default ?Sg // Rabs_R0; have := Rabs_pos L; lra.
pose h := Rdiv del 2; have h0 : Rlt R0 h by rewrite /h; lra.
have ha : Rabs h = h by apply: Rabs_pos_eq; lra.
pose v : seq RR := mkseq (fun j => if j == i then (h : RR) else 0) n.
have Sv : size v = n by rewrite size_mkseq.
have vE j : (j < n)%N -> nth 0 v j = if j == i then (h : RR) else 0 by move=> Hj; rewrite nth_mkseq.
have vd j : (j < n)%N -> Rlt (Rabs (nth 0 v j)) del.
  by move=> Hj; rewrite vE //; case: eqP => _; rewrite ?ha ?Rabs_R0 // /h; lra.
have := Hd v Sv vd.
rewrite (sum_only (i := i)) //; last by move=> j Hj /negbTE ne; rewrite vE // ne mulr0.
rewrite (sum_only (i := i)) //; last by move=> j Hj /negbTE ne; rewrite vE // ne Rabs_R0.
rewrite vE // eqxx ha => K.
have {}K : Rle (Rabs (Rminus (Rminus (H (vadd n z v)) (H z)) (Rmult (nth 0 (gr z) i) h))) (Rmult R1 h) := K.
have X : Rle (Rabs (Rminus (H (vadd n z v)) (H z))) (Rmult L h).
  apply: HL => //; first by rewrite size_mkseq.
  move=> j; case: (ltnP j n) => Hj; last by rewrite !nth_default ?size_mkseq ?Sz // abs_xx; lra.
  rewrite nth_mkseq // vE // -[X in Rle _ X]ha.
  case: eqP => _; last by rewrite addr0 abs_xx; exact: Rabs_pos.
  rewrite -addE; have -> : Rminus (Rplus (nth 0 z j) h) (nth 0 z j) = h by ring.
  lra.
move: K X; move: (Rminus (H _) _) (nth 0 (gr z) i) => a g K X.
have Y : Rle (Rmult (Rabs g) h) (Rmult (Rplus (Rabs L) R1) h).
  rewrite -[X in Rmult _ X]ha -Rabs_mult.
  have T := Rabs_triang (Rminus (Rmult g h) a) a.
  have E : Rplus (Rminus (Rmult g h) a) a = Rmult g h by ring.
  rewrite E Rabs_minus_sym in T.
  have Z : Rle (Rmult L h) (Rmult (Rabs L) h) by apply: Rmult_le_compat_r; [lra | exact: Rle_abs].
  lra.
exact: (Rmult_le_reg_r h _ _ h0 Y).
Qed.
Lemma sum_seq (y : seq RR) : foldr +%R 0 y = \sum_(0 <= i < size y) nth 0 y i.
Proof. by elim: y => [|x y IH] /=; [rewrite big_geq | rewrite big_nat_recl //= IH]. Qed.
Lemma mlp_size ms : forall n Ps z w, mlp_call sigmoid (@dense _) n ms Ps 1 z = Ok w -> size w = last n ms.
Proof.
elim: ms => [|m ms IH] n [|P Ps] z w //=; first by case: ms {IH}.
case: ms IH => [|m' ms] IH; first by move/dense_size; rewrite mul1n.
by case: (dense _ _ _ _ _ z) => //= y /IH.
Qed.
Theorem mlph_flow n ms m (Ps : seq (seq RR * seq RR)) : (0 < size ms)%N -> mlp_fits n ms Ps -> n = (2 * m)%N ->
  exists2 H, forall z, size z = n -> mlph_call sigmoid (n :: ms) Ps 1 z = Ok (H z) &
    (exists gr, gradient_of n H gr) /\
    forall gr, gradient_of n H gr -> globally_solvable n (hamiltonian_dynamics gr).
Proof.
move=> S0 HP En; pose H z := if mlph_call sigmoid (n :: ms) Ps 1 z is Ok h then h else 0.
have HH z : size z = n -> mlph_call sigmoid (n :: ms) Ps 1 z = Ok (H z).
  move=> Sz; have Sz' : size z = (1 * n)%N by rewrite mul1n.
  by have [y Ey Sy] := mlp_ok sigmoid S0 HP Sz'; rewrite /H /mlph_call /objax_mlp_call Ey.
exists H => //; have := @mlph_expr n (n :: ms) Ps; rewrite {1}En => He.
have HH' : forall z, size z = (2 * m)%N -> mlph_call sigmoid (n :: ms) Ps 1 z = Ok (H z) by rewrite -En.
have [h1 h2] := ham_flow He HH'; rewrite -En in h1 h2; split=> // gr G.
have [HL _] := h2 gr G; have [L L0 HG] := @mlp_gl ms n n Ps.
pose K := Rmult (INR (last n ms)) L.
have B := @gradient_bound n H gr K G _.
have FT : forall z, size z = n -> exists2 w, hamiltonian_dynamics gr z = Ok w & size w = n.
  move=> z Sz; have [Sg _] := G z Sz; rewrite En in Sg.
  by have [w Ew [Sw _]] := sform_nth Sg; exists w => //; rewrite Sw -En.
apply: (bounded_exists (M := Rplus (Rabs K) R1) FT HL) => z w Sz.
have Sg : size (gr z) = (2 * m)%N by have [] := G z Sz; rewrite En.
have [w0 E0 [Sw Hw]] := sform_nth Sg; rewrite /hamiltonian_dynamics E0 => -[<-] i.
have {}B : in_box (Rplus (Rabs K) R1) (gr z).
  apply: B Sz => y y' d Sy Sy' Hd; have [u Eu Su] : exists2 u, objax_mlp_call sigmoid (n :: ms) Ps 1 y = Ok u & size u = last n ms.
    have Sz' : size y = (1 * n)%N by rewrite mul1n.
    by have [u Eu _] := mlp_ok sigmoid S0 HP Sz'; exists u => //; exact: mlp_size Eu.
  have [u' Eu' Su'] : exists2 u, objax_mlp_call sigmoid (n :: ms) Ps 1 y' = Ok u & size u = last n ms.
    have Sz' : size y' = (1 * n)%N by rewrite mul1n.
    by have [u' Eu' _] := mlp_ok sigmoid S0 HP Sz'; exists u' => //; exact: mlp_size Eu'.
  have := HG y y' u u' d Sy Sy' Eu Eu' Hd => X.
  rewrite /H /mlph_call Eu Eu' /= !sum_seq Su Su'.
  have -> : Rminus (\sum_(0 <= i < last n ms) nth 0 u i) (\sum_(0 <= i < last n ms) nth 0 u' i) = \sum_(0 <= i < last n ms) (nth 0 u i - nth 0 u' i).
    by rewrite sumrB.
  have -> : Rmult K d = \sum_(0 <= i < last n ms) (Rmult L d : RR).
    rewrite /K; elim: (last n ms) => [|k IH]; first by rewrite big_geq //= !Rmult_0_l.
    by rewrite big_nat_recr // -IH S_INR; change (Rmult (Rmult (Rplus (INR k) R1) L) d = Rplus (Rmult (Rmult (INR k) L) d) (Rmult L d)); ring.
  by apply: bnd_sum => k _; exact: X.
case: (ltnP i n) => Hi; last by rewrite nth_default ?Sw -?En // Rabs_R0; have := Rabs_pos K; lra.
case: (ltnP i m) => Him; first by have [-> _] := Hw i Him; exact: B.
have [|_] := Hw (i - m)%N _; first by lia.
by rewrite subnKC // => ->; rewrite -oppE Rabs_Ropp; exact: B.
Qed.
Theorem mlpode_flow n ms (Ps : seq (seq RR * seq RR)) : (0 < size ms)%N -> mlp_fits n ms Ps -> last n ms = n ->
  let F := objax_mlp_call sigmoid (n :: ms) Ps 1 in globally_solvable n F /\ exists phi, flow_of n F phi.
Proof.
move=> S0 HP Ln F; have G : globally_solvable n F := mlp_flow S0 HP Ln; split=> //.
by apply: flow_exists G _; have [_] := mlp_ode S0 HP Ln.
Qed.
Theorem mlph_flow_energy n ms m (Ps : seq (seq RR * seq RR)) : (0 < size ms)%N -> mlp_fits n ms Ps -> n = (2 * m)%N ->
  exists2 H, forall z, size z = n -> mlph_call sigmoid (n :: ms) Ps 1 z = Ok (H z) &
    (exists gr, gradient_of n H gr) /\
    forall gr, gradient_of n H gr -> let D := hamiltonian_dynamics gr in
      globally_solvable n D /\ exists2 phi, flow_of n D phi & forall z t, size z = n -> H (phi t z) = H z.
Proof.
move=> S0 HP En; have [H HH [h1 h2]] := mlph_flow S0 HP En; exists H => //; split=> // gr G D.
have GS : globally_solvable n D := h2 gr G; split=> //.
have [H' HH' [_ X]] := mlph_thm S0 HP En.
have E z : size z = n -> H' z = H z by move=> Sz; have := HH' z Sz; rewrite HH // => -[].
have G' : gradient_of n H' gr.
  move=> z Sz; have [Sg Hg] := G z Sz; split=> // eps e0; have [del d0 Hd] := Hg eps e0; exists del => // v Sv Hv.
  by rewrite !E ?size_mkseq //; exact: Hd.
have [_ U C] := X gr G'; have [phi P] := flow_exists GS U; exists phi => // z t Sz.
have [p0 Sp _] := P z Sz; have T0 := Rle_abs t; have T1 := Rle_abs (Ropp t); rewrite Rabs_Ropp in T1; have T2 := Rabs_pos t.
have S : solves_on (Ropp (Rplus (Rabs t) R1)) (Rplus (Rabs t) R1) n D (fun s => phi s z) by move=> s _ _; exact: Sp.
have St : size (phi t z) = n by have [] := Sp t.
by rewrite -!E // -[in RHS]p0; apply: (C _ _ _ t R0 S); lra.
Qed.
