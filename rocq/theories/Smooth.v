(** * Smooth: expressions in real variables with sums, products and sigmoids; their gradients. *)
From Coq Require Import Reals Lra.
From mathcomp Require Import all_ssreflect all_algebra.
From Verif Require Import Np Spec SpecLemmas LinOp Rstruct Expm Data DataAlg DataThm DataHamSpec DataHam TrainerFlow FlowSpec.
Set Implicit Arguments.
Unset Strict Implicit.
Unset Printing Implicit Defensive.
Import GRing.Theory.
Local Open Scope ring_scope.

Inductive expr : Type := EVar (i : nat) | ECst (c : RR) | EAdd (a b : expr) | EMul (a b : expr) | ESig (a : expr).
Fixpoint ev (x : seq RR) (e : expr) : RR :=
  match e with
  | EVar i => nth 0 x i
  | ECst c => c
  | EAdd a b => ev x a + ev x b
  | EMul a b => ev x a * ev x b
  | ESig a => sigmoid (ev x a)
  end.
(** the partial derivative *)
Fixpoint de (i : nat) (e : expr) : expr :=
  match e with
  | EVar j => ECst (i == j)%:R
  | ECst _ => ECst 0
  | EAdd a b => EAdd (de i a) (de i b)
  | EMul a b => EAdd (EMul (de i a) b) (EMul a (de i b))
  | ESig a => EMul (EMul (ESig a) (EAdd (ECst 1) (EMul (ECst (-1)) (ESig a)))) (de i a)
  end.
Fixpoint esum (l : seq expr) : expr := if l is e :: l' then EAdd e (esum l') else ECst 0.
(** substitution *)
Fixpoint sub (es : seq expr) (e : expr) : expr :=
  match e with
  | EVar i => nth (ECst 0) es i
  | ECst c => ECst c
  | EAdd a b => EAdd (sub es a) (sub es b)
  | EMul a b => EMul (sub es a) (sub es b)
  | ESig a => ESig (sub es a)
  end.
Lemma ev_sub es x e : ev x (sub es e) = ev (map (ev x) es) e.
Proof.
elim: e => //= [i|a -> b ->|a -> b ->|a ->] //.
have [H|H] := ltnP i (size es); first by rewrite (nth_map (ECst 0)).
by rewrite !nth_default ?size_map.
Qed.

Lemma addE (x y : R) : Rplus x y = (x : RR) + (y : RR). Proof. by []. Qed.
Lemma mulE (x y : R) : Rmult x y = (x : RR) * (y : RR). Proof. by []. Qed.
Lemma oppE (x : R) : Ropp x = - (x : RR). Proof. by []. Qed.
Lemma sig_pos x : Rlt R0 (Rplus R1 (exp (Ropp x))). Proof. by have := exp_pos (Ropp x); lra. Qed.
Lemma sig_range x : Rlt R0 (sigmoid x) /\ Rlt (sigmoid x) R1.
Proof.
have P := sig_pos x; split; first exact: Rinv_0_lt_compat.
have E : Rinv R1 = R1 := Rinv_1.
suff : Rlt (sigmoid x) (Rinv R1) by rewrite E.
by apply: Rinv_lt_contravar; have := exp_pos (Ropp x); lra.
Qed.
Lemma sig_der x : derivable_pt_lim (sigmoid : R -> R) x (Rmult (sigmoid x) (Rminus R1 (sigmoid x))).
Proof.
have D1 : derivable_pt_lim (fun s => exp (Ropp s)) x (Rmult (exp (Ropp x)) (Ropp R1)).
  exact: (derivable_pt_lim_comp Ropp exp x _ _ (derivable_pt_lim_opp id x R1 (derivable_pt_lim_id x)) (derivable_pt_lim_exp _)).
have D2 := derivable_pt_lim_plus _ _ _ _ _ (derivable_pt_lim_const R1 x) D1.
have P := sig_pos x; have N : Rplus R1 (exp (Ropp x)) <> R0 by lra.
have := derivable_pt_lim_div _ _ x _ _ (derivable_pt_lim_const R1 x) D2 N.
apply: dl_ext => [s|]; first by rewrite /div_fct /fct_cte /plus_fct /sigmoid /Rdiv Rmult_1_l.
by rewrite /fct_cte /plus_fct /sigmoid /Rsqr; field.
Qed.
Lemma sig_lip x y : Rle (Rabs (Rminus (sigmoid x) (sigmoid y))) (Rabs (Rminus x y)).
Proof.
have W x' y' : Rlt x' y' -> Rle (Rabs (Rminus (sigmoid x') (sigmoid y'))) (Rabs (Rminus x' y')).
  move=> L; have [c [E _]] := MVT_cor2 (sigmoid : R -> R) _ x' y' L (fun s _ => sig_der s).
  have [h1 h2] := sig_range c.
  rewrite Rabs_minus_sym E (Rabs_minus_sym x') Rabs_mult -[X in Rle _ X]Rmult_1_l.
  by apply: Rmult_le_compat_r; [exact: Rabs_pos | rewrite Rabs_pos_eq; nra].
case: (Rtotal_order x y) => [|[->|]]; first exact: W; first by rewrite /Rminus !Rplus_opp_r; apply: Rle_refl.
by move=> L; rewrite Rabs_minus_sym (Rabs_minus_sym x); exact: W.
Qed.

(** bounded and Lipschitz in every box *)
Lemma ev_box e B : exists K L, [/\ Rle R0 K, Rle R0 L, forall x, in_box B x -> Rle (Rabs (ev x e)) K &
  forall x y d, in_box B x -> in_box B y -> (forall i, Rle (Rabs (Rminus (nth 0 x i) (nth 0 y i))) d) ->
    Rle (Rabs (Rminus (ev x e) (ev y e))) (Rmult L d)].
Proof.
have DP (x y : seq RR) d : (forall i, Rle (Rabs (Rminus (nth 0 x i) (nth 0 y i))) d) -> Rle R0 d.
  by move=> /(_ 0%N); apply: Rle_trans; exact: Rabs_pos.
elim: e => [i|c|a [Ka [La [ka la ba Ha]]] b [Kb [Lb [kb lb bb Hb]]]|a [Ka [La [ka la ba Ha]]] b [Kb [Lb [kb lb bb Hb]]]|a [Ka [La [ka la ba Ha]]]] /=.
- exists (Rabs B), R1; split; [exact: Rabs_pos | lra | |].
    by move=> x /(_ i) H; apply: Rle_trans H _; exact: Rle_abs.
  by move=> x y d _ _ H; rewrite Rmult_1_l.
- exists (Rabs c), R0; split; [exact: Rabs_pos | lra | |]; first by move=> x _; apply: Rle_refl.
  by move=> x y d _ _ _; rewrite /Rminus Rplus_opp_r Rabs_R0 Rmult_0_l; apply: Rle_refl.
- exists (Rplus Ka Kb), (Rplus La Lb); split; [lra | lra | |].
    by move=> x Hx; apply: Rle_trans (Rabs_triang _ _) _; have := ba x Hx; have := bb x Hx; lra.
  move=> x y d Hx Hy Hd; have := Ha x y d Hx Hy Hd; have := Hb x y d Hx Hy Hd.
  rewrite /GRing.add /=; move: (ev x a) (ev y a) (ev x b) (ev y b) => p q r s h1 h2.
  have -> : Rminus (Rplus p r) (Rplus q s) = Rplus (Rminus p q) (Rminus r s) by ring.
  by apply: Rle_trans (Rabs_triang _ _) _; lra.
- exists (Rmult Ka Kb), (Rplus (Rmult La Kb) (Rmult Ka Lb)); split.
  + exact: Rmult_le_pos.
  + by apply: Rplus_le_le_0_compat; apply: Rmult_le_pos.
  + move=> x Hx; rewrite /GRing.mul /= Rabs_mult; apply: Rmult_le_compat; try exact: Rabs_pos; [exact: ba | exact: bb].
  move=> x y d Hx Hy Hd; have h1 := Ha x y d Hx Hy Hd; have h2 := Hb x y d Hx Hy Hd; have h3 := bb x Hx; have h4 := ba y Hy.
  rewrite /GRing.mul /=; move: (ev x a) (ev y a) (ev x b) (ev y b) h1 h2 h3 h4 => p q r s h1 h2 h3 h4.
  have -> : Rminus (Rmult p r) (Rmult q s) = Rplus (Rmult (Rminus p q) r) (Rmult q (Rminus r s)) by ring.
  apply: Rle_trans (Rabs_triang _ _) _; rewrite !Rabs_mult.
  have := Rmult_le_compat _ _ _ _ (Rabs_pos (Rminus p q)) (Rabs_pos r) h1 h3.
  have := Rmult_le_compat _ _ _ _ (Rabs_pos q) (Rabs_pos (Rminus r s)) h4 h2.
  by nra.
- exists R1, La; split; [lra | by [] | |].
    by move=> x _; have [h1 h2] := sig_range (ev x a); rewrite Rabs_pos_eq; lra.
  move=> x y d Hx Hy Hd; apply: Rle_trans (sig_lip _ _) _; exact: Ha.
Qed.
(** along curves *)
Lemma ev_der (c : R -> seq RR) (c' : nat -> RR) t n e : (forall s, size (c s) = n) ->
  (forall i, (i < n)%N -> derivable_pt_lim (fun s => nth 0 (c s) i) t (c' i)) ->
  derivable_pt_lim (fun s => ev (c s) e) t (\sum_(0 <= i < n) ev (c t) (de i e) * c' i).
Proof.
move=> S D; elim: e => [j|k|a Ha b Hb|a Ha b Hb|a Ha] /=.
- have [H|H] := ltnP j n.
    by rewrite (sum_only (i := j)) ?eqxx ?mul1r; [exact: D | | move=> i _ /negbTE ->; rewrite mul0r].
  rewrite sum0 => [|i Hi]; last by case: eqP Hi H => [->|_ _ _]; [rewrite ltnNge => /negP | rewrite mul0r].
  apply: (@dl_ext (fct_cte R0)) (derivable_pt_lim_const _ t) => // s.
  by rewrite nth_default ?S.
- rewrite sum0 => [|i Hi]; last by rewrite mul0r.
  exact: (derivable_pt_lim_const k t).
- have := derivable_pt_lim_plus _ _ _ _ _ Ha Hb; apply: dl_ext => //.
  rewrite addE -big_split /=; apply: eq_sum => i _; by rewrite mulrDl.
- have := dl_mul Ha Hb; apply: dl_ext => //.
  rewrite mulr_suml mulr_sumr -big_split /=; apply: eq_sum => i _.
  by rewrite mulrDl; congr (_ + _); rewrite -?mulrA //; congr (_ * _); exact: mulrC.
- have := derivable_pt_lim_comp _ (sigmoid : R -> R) t _ _ Ha (sig_der (ev (c t) a)); apply: dl_ext => //.
  rewrite mulE mulr_sumr; apply: eq_sum => i _; rewrite -mulrA; congr (_ * _).
  by rewrite mulN1r.
Qed.
Lemma ev_gradient n e z : size z = n -> gradient_at n (fun x => ev x e) z (mkseq (fun i => ev z (de i e)) n).
Proof.
move=> Sz; split=> [|eps E0]; first by rewrite size_mkseq.
pose B := Rplus R1 (\sum_(0 <= i < n) (Rabs (nth 0 z i) : RR)).
have BB (z' : seq RR) : size z' = n -> (forall i, (i < n)%N -> Rle (Rabs (Rminus (nth 0 z' i) (nth 0 z i))) R1) -> in_box B z'.
  move=> S H i; rewrite /B; have [Hi|Hi] := ltnP i n.
    have h1 := @sum_ge (fun i => Rabs (nth 0 z i) : RR) n i Hi (fun j => Rabs_pos _).
    have := H i Hi; move: h1; move: (nth 0 z' i) (nth 0 z i) (\sum_(0 <= i < n) _) => p q r; split_Rabs; lra.
  rewrite nth_default ?S // Rabs_R0.
  have : Rle (\sum_(0 <= i < n) (0 : RR)) (\sum_(0 <= i < n) (Rabs (nth 0 z i) : RR)).
    by apply: sum_Rle => j _; exact: Rabs_pos.
  by rewrite big1 // => h; move: h; rewrite -[0 : RR]/R0; lra.
have [L [L0 HL]] : exists L, Rle R0 L /\ forall i, (i < n)%N -> forall x y d, in_box B x -> in_box B y ->
    (forall i, Rle (Rabs (Rminus (nth 0 x i) (nth 0 y i))) d) -> Rle (Rabs (Rminus (ev x (de i e)) (ev y (de i e)))) (Rmult L d).
  elim: (n) => [|m IH]; first by exists R0; split=> //; lra.
  have [L [L0 HL]] := IH; have [K [L' [_ L'0 _ HL']]] := ev_box (de m e) B; exists (Rplus L L'); split; first lra.
  move=> i; rewrite ltnS leq_eqVlt => /orP[/eqP->|Hi] x y d Hx Hy Hd.
    have d0 : Rle R0 d by apply: Rle_trans (Rabs_pos _) (Hd 0%N).
    by have := HL' x y d Hx Hy Hd; nra.
  have d0 : Rle R0 d by apply: Rle_trans (Rabs_pos _) (Hd 0%N).
  by have := HL i Hi x y d Hx Hy Hd; nra.
have P : Rlt R0 (Rplus L R1) by lra.
exists (Rmin R1 (Rdiv eps (Rplus L R1))).
  by apply: Rmin_pos; [lra | apply: Rdiv_lt_0_compat].
move=> v Sv Hv; set del := Rmin _ _ in Hv.
pose c (s : R) : seq RR := mkseq (fun i => nth 0 z i + (s : RR) * nth 0 v i) n.
have Dc s i : (i < n)%N -> derivable_pt_lim (fun s => nth 0 (c s) i) s (nth 0 v i).
  move=> Hi; have := derivable_pt_lim_plus _ _ _ _ _ (derivable_pt_lim_const (nth 0 z i) s)
     (derivable_pt_lim_mult _ _ _ _ _ (derivable_pt_lim_id s) (derivable_pt_lim_const (nth 0 v i) s)).
  apply: dl_ext => [r|]; first by rewrite nth_mkseq.
  by rewrite /fct_cte /id; ring.
have DE s := ev_der e (fun s => size_mkseq _ _ : size (c s) = n) (Dc s).
have [th [Eth [t0 t1]]] := MVT_cor2 (fun s => ev (c s) e) _ R0 R1 Rlt_0_1 (fun s _ => DE s).
have c1 : c R1 = vadd n z v by apply: eq_mkseq => i; rewrite -[R1]/(1 : RR) mul1r.
have c0 : c R0 = z by apply: (@eq_from_nth _ 0) => [|i]; rewrite size_mkseq // => Hi; rewrite nth_mkseq // -[R0]/(0 : RR) mul0r addr0.
rewrite c1 c0 in Eth.
set X := (X in Rle (Rabs X) _); have -> : X =
   \sum_(0 <= i < n) (ev (c th) (de i e) - ev z (de i e)) * nth 0 v i.
  have -> : X = Rminus (Rminus (ev (vadd n z v) e) (ev z e)) (\sum_(0 <= i < n) nth 0 (mkseq (fun i => ev z (de i e)) n) i * nth 0 v i) by [].
  rewrite Eth; have -> : Rminus R1 R0 = R1 by ring.
  rewrite Rmult_1_r /Rminus addE oppE -sumrN -big_split /=.
  by apply: eq_sum => i Hi; rewrite nth_mkseq // mulrBl.
have AB m (f : nat -> RR) : Rle (Rabs (\sum_(0 <= i < m) f i)) (\sum_(0 <= i < m) (Rabs (f i) : RR)).
  elim: m => [|m IH]; first by rewrite !big_geq // Rabs_R0; apply: Rle_refl.
  rewrite !big_nat_recr //=; apply: Rle_trans (Rabs_triang _ _) _.
  by apply: Rplus_le_compat_r.
apply: Rle_trans (AB _ _) _.
have -> : Rmult eps (\sum_(0 <= i < n) (Rabs (nth 0 v i) : RR)) = \sum_(0 <= i < n) (eps : RR) * (Rabs (nth 0 v i) : RR).
  by rewrite mulE mulr_sumr.
apply: sum_Rle => i Hi; rewrite -[_ * nth 0 v i]/(Rmult _ _) Rabs_mult; apply: Rmult_le_compat_r; first exact: Rabs_pos.
have d1 : Rle del R1 by exact: Rmin_l.
have d2 : Rle (Rmult del (Rplus L R1)) eps.
  have : Rle del (Rdiv eps (Rplus L R1)) by exact: Rmin_r.
  move=> h; have := Rmult_le_compat_r _ _ _ (Rlt_le _ _ P) h.
  by have -> : Rmult (Rdiv eps (Rplus L R1)) (Rplus L R1) = eps by field; lra.
have dp : Rlt R0 del by apply: Rmin_pos; [lra | apply: Rdiv_lt_0_compat].
have cd j : Rle (Rabs (Rminus (nth 0 (c th) j) (nth 0 z j))) del.
  have [Hj|Hj] := ltnP j n; last by rewrite !nth_default ?size_mkseq ?Sz // /Rminus Rplus_opp_r Rabs_R0; lra.
  rewrite nth_mkseq //; have := Hv j Hj; rewrite /GRing.add /GRing.mul /=; move: (nth 0 z j) (nth 0 v j) => p q h.
  have -> : Rminus (Rplus p (Rmult th q)) p = Rmult th q by ring.
  by rewrite Rabs_mult (Rabs_pos_eq th); have := Rabs_pos q; nra.
apply: Rle_trans (HL i Hi _ _ del _ _ cd) _; last by nra.
  by apply: BB => [|j _]; [exact: size_mkseq | apply: Rle_trans (cd j) d1].
by apply: BB => // j _; rewrite /Rminus Rplus_opp_r Rabs_R0; lra.
Qed.
