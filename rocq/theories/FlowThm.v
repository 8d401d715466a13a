(** * FlowThm: uniqueness of solutions of z' = F(z) on an interval, for F Lipschitz in every box. *)
From Coq Require Import Reals Lra.
From mathcomp Require Import all_ssreflect all_algebra.
From Verif Require Import Np Spec SpecLemmas LinOp LinOpSpec Rstruct Expm GroupsSpec Data DataAlg DataThm DataHamSpec DataHam TrainerFlow FlowSpec Smooth.
Set Implicit Arguments.
Unset Strict Implicit.
Unset Printing Implicit Defensive.
Import GRing.Theory.
Local Open Scope ring_scope.

Lemma decr_on lo hi (f f' : R -> R) : (forall t, Rle lo t -> Rle t hi -> derivable_pt_lim f t (f' t)) ->
  (forall t, Rle lo t -> Rle t hi -> Rle (f' t) R0) -> forall s t, Rle lo s -> Rle s t -> Rle t hi -> Rle (f t) (f s).
Proof.
move=> D N s t ls L th; case: (Rle_lt_or_eq_dec _ _ L) => [lt|->]; last by apply: Rle_refl.
have [|c [E [c0 c1]]] := MVT_cor2 f f' s t lt; first by move=> c [h1 h2]; apply: D; lra.
have : Rle (f' c) R0 by apply: N; lra.
by nra.
Qed.
Lemma gronwall_on lo hi (u u' : R -> R) (K : R) : (forall t, Rle lo t -> Rle t hi -> derivable_pt_lim u t (u' t)) ->
  (forall t, Rle R0 (u t)) -> (forall t, Rle lo t -> Rle t hi -> Rle (Rabs (u' t)) (Rmult K (u t))) ->
  forall s t, Rle lo s -> Rle s hi -> Rle lo t -> Rle t hi -> u s = R0 -> u t = R0.
Proof.
move=> D P B s t ls sh lt th Z.
have Db r : Rle lo r -> Rle r hi -> Rle (u' r) (Rmult K (u r)) /\ Rle (Ropp (Rmult K (u r))) (u' r).
  by move=> h1 h2; have := B r h1 h2; split_Rabs; lra.
have DE k r : derivable_pt_lim (fun s => exp (Rmult k s)) r (Rmult k (exp (Rmult k r))).
  have D1 : derivable_pt_lim (fun s => Rmult k s) r k.
    by have := derivable_pt_lim_scal id k r _ (derivable_pt_lim_id r); rewrite Rmult_1_r.
  have := derivable_pt_lim_comp _ exp r k _ D1 (derivable_pt_lim_exp (Rmult k r)).
  by apply: dl_ext => //; exact: Rmult_comm.
have DG k r : Rle lo r -> Rle r hi ->
    derivable_pt_lim (fun s => Rmult (u s) (exp (Rmult k s))) r (Rmult (Rplus (u' r) (Rmult k (u r))) (exp (Rmult k r))).
  move=> h1 h2; have := derivable_pt_lim_mult _ _ _ _ _ (D r h1 h2) (DE k r); apply: dl_ext => //; by ring.
have ep r : Rlt R0 (exp r) := exp_pos r.
case: (Rle_lt_dec s t) => L.
  have H := @decr_on lo hi _ _ (fun r h1 h2 => DG (Ropp K) r h1 h2).
  have h : Rle (Rmult (u t) (exp (Rmult (Ropp K) t))) (Rmult (u s) (exp (Rmult (Ropp K) s))).
    by apply: H => // r h1 h2; have := Db r h1 h2; have := ep (Rmult (Ropp K) r); nra.
  rewrite Z Rmult_0_l in h.
  by have := P t; have := ep (Rmult (Ropp K) t); nra.
have H := @decr_on lo hi (fun r => Ropp (Rmult (u r) (exp (Rmult K r)))) _ (fun r h1 h2 => derivable_pt_lim_opp _ _ _ (DG K r h1 h2)).
have h : Rle (Ropp (Rmult (u s) (exp (Rmult K s)))) (Ropp (Rmult (u t) (exp (Rmult K t)))).
  apply: H => // [r h1 h2|]; last exact: Rlt_le.
  by have := Db r h1 h2; have := ep (Rmult K r); nra.
rewrite Z Rmult_0_l in h.
by have := P t; have := ep (Rmult K t); nra.
Qed.

(** solutions are bounded on compact intervals *)
Lemma bounded_on a b n F c lo hi : solves_on a b n F c -> Rlt a lo -> Rle lo hi -> Rlt hi b ->
  exists B, forall t, Rle lo t -> Rle t hi -> in_box B (c t).
Proof.
move=> S al lh hb.
have [B [B0 HB]] : exists B, Rle R0 B /\ forall t i, Rle lo t -> Rle t hi -> (i < n)%N -> Rle (Rabs (nth 0 (c t) i)) B.
  have : (n <= n)%N by []; move: {1 3}n => m; elim: m => [|m IH] Hm; first by exists R0; split=> //; lra.
  have [B [B0 HB]] := IH (ltnW Hm).
  have [Mx [HM _]] : exists Mx, (forall t, Rle lo t /\ Rle t hi -> Rle (Rabs (nth 0 (c t) m)) (Rabs (nth 0 (c Mx) m))) /\ (Rle lo Mx /\ Rle Mx hi).
    apply: (continuity_ab_maj (fun t => Rabs (nth 0 (c t) m)) lo hi lh) => t [h1 h2].
    apply: (continuity_pt_comp (fun t => nth 0 (c t) m) Rabs); last exact: Rcontinuity_abs.
    have [|| _ [w _ D]] := S t; [lra | lra |].
    by apply: derivable_continuous_pt; exists (nth 0 w m); exact: D.
  exists (Rplus B (Rabs (nth 0 (c Mx) m))); split; first by have := Rabs_pos (nth 0 (c Mx) m); lra.
  move=> t i h1 h2; rewrite ltnS leq_eqVlt => /orP[/eqP->|Hi].
    by have := HM t (conj h1 h2); lra.
  by have := HB t i h1 h2 Hi; have := Rabs_pos (nth 0 (c Mx) m); lra.
exists B => t h1 h2 i; have [Hi|Hi] := ltnP i n; first exact: HB.
have [||E _] := S t; [lra | lra |].
by rewrite nth_default ?E // Rabs_R0.
Qed.
Lemma lip_dist2 n F B : locally_lipschitz n F -> exists L, forall z z' w w', size z = n -> size z' = n -> in_box B z -> in_box B z' ->
  F z = Ok w -> F z' = Ok w' -> Rle (dist2 n w w') (Rmult L (dist2 n z z')).
Proof.
move=> /(_ B)[L HL]; exists (Rmult (\sum_(0 <= i < n) (1 : RR)) (Rmult L L)) => z z' w w' S1 S2 b1 b2 E1 E2.
have D0 := dist2_ge0 n z z'; set d := sqrt (dist2 n z z').
have dd : Rmult d d = dist2 n z z' by exact: sqrt_sqrt.
have H i : (i < n)%N -> Rle (Rabs (nth 0 z i - nth 0 z' i)) d.
  move=> Hi; rewrite -(Rabs_pos_eq d); last exact: sqrt_pos.
  apply: Rsqr_le_abs_0; rewrite /Rsqr dd /dist2.
  by apply: (@sum_ge (fun i => (nth 0 z i - nth 0 z' i) * (nth 0 z i - nth 0 z' i)) n i Hi) => j; rewrite /GRing.mul /=; apply: Rle_0_sqr.
rewrite Rmult_assoc mulE mulr_suml; apply: sum_Rle => i Hi; rewrite mul1r -dd.
have := HL z z' w w' d S1 S2 b1 b2 E1 E2 H i Hi.
set x := nth 0 w i - nth 0 w' i => h; have x0 := Rabs_pos x.
have -> : x * x = Rmult (Rabs x) (Rabs x) by rewrite -Rabs_mult Rabs_pos_eq //; exact: Rle_0_sqr.
have := Rmult_le_compat _ _ _ _ x0 x0 h h => h'; apply: Rle_trans h' _.
by right; rewrite /GRing.mul /=; ring.
Qed.
(** two solutions that agree at one time agree *)
Theorem solutions_unique_on a b n F c1 c2 s t : locally_lipschitz n F -> solves_on a b n F c1 -> solves_on a b n F c2 ->
  Rlt a s -> Rlt s b -> Rlt a t -> Rlt t b -> c1 s = c2 s -> c1 t = c2 t.
Proof.
move=> HF S1 S2 as_ sb at_ tb E.
pose lo := Rmin s t; pose hi := Rmax s t.
have [l1 l2 l3] : [/\ Rlt a lo, Rle lo hi & Rlt hi b].
  by rewrite /lo /hi /Rmin /Rmax; case: (Rle_dec s t) => *; split=> //; lra.
have [s1 s2 t1 t2] : [/\ Rle lo s, Rle s hi, Rle lo t & Rle t hi].
  by split; [exact: Rmin_l | exact: Rmax_l | exact: Rmin_r | exact: Rmax_r].
have [B1 HB1] := bounded_on S1 l1 l2 l3; have [B2 HB2] := bounded_on S2 l1 l2 l3.
have [L HL] := lip_dist2 (Rmax B1 B2) HF.
have U1 r : Rle lo r -> Rle r hi -> in_box (Rmax B1 B2) (c1 r).
  by move=> h1 h2 i; apply: Rle_trans (HB1 r h1 h2 i) _; exact: Rmax_l.
have U2 r : Rle lo r -> Rle r hi -> in_box (Rmax B1 B2) (c2 r).
  by move=> h1 h2 i; apply: Rle_trans (HB2 r h1 h2 i) _; exact: Rmax_r.
pose val t := if F (c1 t) is Ok w then if F (c2 t) is Ok w' then (w, w') else ([::], [::]) else ([::], [::]).
have V r : Rle lo r -> Rle r hi -> F (c1 r) = Ok (val r).1 /\ F (c2 r) = Ok (val r).2.
  move=> h1 h2; rewrite /val.
  have [||_ [w -> _]] := S1 r; [lra | lra |]; have [||_ [w' -> _]] := S2 r; [lra | lra |]; by [].
pose u r : RR := dist2 n (c1 r) (c2 r).
pose u' s : RR := \sum_(0 <= i < n) ((nth 0 (val s).1 i - nth 0 (val s).2 i) * (nth 0 (c1 s) i - nth 0 (c2 s) i) +
   (nth 0 (c1 s) i - nth 0 (c2 s) i) * (nth 0 (val s).1 i - nth 0 (val s).2 i)).
have Du r : Rle lo r -> Rle r hi -> derivable_pt_lim u r (u' r).
  move=> h1 h2; have [v1 v2] := V r h1 h2.
  apply: (@dl_sum (fun i s => (nth 0 (c1 s) i - nth 0 (c2 s) i) * (nth 0 (c1 s) i - nth 0 (c2 s) i) : RR)) => i Hi.
  have [||_ [w Ew Dw]] := S1 r; [lra | lra |]; have [||_ [w' Ew' Dw']] := S2 r; [lra | lra |].
  have [Iw Iw'] : w = (val r).1 /\ w' = (val r).2 by move: v1 v2; rewrite Ew Ew' => -[->] [->].
  have Dd : derivable_pt_lim (fun s => nth 0 (c1 s) i - nth 0 (c2 s) i : RR) r (nth 0 (val r).1 i - nth 0 (val r).2 i).
    rewrite -Iw -Iw'; exact: (derivable_pt_lim_minus _ _ _ _ _ (Dw i Hi) (Dw' i Hi)).
  exact: (dl_mul Dd Dd).
have Bu r : Rle lo r -> Rle r hi -> Rle (Rabs (u' r)) (Rmult (Rplus R1 L) (u r)).
  move=> h1 h2; have [v1 v2] := V r h1 h2.
  have [z1 z2] : size (c1 r) = n /\ size (c2 r) = n.
    have [||-> _] := S1 r; [lra | lra |]; have [||-> _] := S2 r; [lra | lra |]; by [].
  have LL := HL _ _ _ _ z1 z2 (U1 r h1 h2) (U2 r h1 h2) v1 v2.
  pose sm : RR := u r + dist2 n (val r).1 (val r).2; pose ms : RR := - sm.
  suff [k1 k2] : Rle (u' r) sm /\ Rle ms (u' r).
    move: LL k1 k2; rewrite /ms /sm -/(u r); move: (u r) (u' r) (dist2 n _ _) => x y z; rewrite /GRing.add /GRing.opp /= => LL k1 k2.
    by split_Rabs; lra.
  split.
    rewrite /sm /u /u' /dist2 -big_split /=; apply: sum_Rle => i _.
    set p := nth 0 (c1 r) i - nth 0 (c2 r) i; set q := nth 0 _ _ - nth 0 _ _; rewrite /GRing.add /GRing.mul /=.
    by have := Rle_0_sqr (Rminus p q); rewrite /Rsqr; nra.
  rewrite /ms /sm /u /u' /dist2 -big_split -sumrN /=; apply: sum_Rle => i _.
  set p := nth 0 (c1 r) i - nth 0 (c2 r) i; set q := nth 0 _ _ - nth 0 _ _; rewrite /GRing.add /GRing.mul /GRing.opp /=.
  by have := Rle_0_sqr (Rplus p q); rewrite /Rsqr; nra.
have Z : u s = R0 by rewrite /u E /dist2 big1 // => i _; rewrite subrr mul0r.
have U := gronwall_on Du (fun s => dist2_ge0 n _ _) Bu s1 s2 t1 t2 Z.
by apply: dist2_eq0 U; [case: (S1 t at_ tb) | case: (S2 t at_ tb)].
Qed.
(** symmetries of F map solutions to solutions *)
Theorem moved_on a b n F A c : (forall z z' w, takes n A z z' -> F z = Ok w -> exists2 w', F z' = Ok w' & takes n A w w') ->
  solves_on a b n F c -> solves_on a b n F (fun t => apply_mat n A (c t)).
Proof.
move=> HA S t h1 h2; have [Sz [w Ew Dw]] := S t h1 h2; split; first by rewrite size_mkseq.
have [w' Ew' [_ _ Hw]] := HA _ _ _ (takes_apply A Sz) Ew; exists w' => // i Hi; rewrite Hw //.
apply: (@dl_ext (fun s => \sum_(0 <= j < n) fe A i j * nth 0 (c s) j)).
- by move=> s; rewrite nth_mkseq.
- by [].
by apply: (@dl_sum (fun j s => fe A i j * nth 0 (c s) j : RR)) => j Hj; apply: dl_cmul; exact: Dw.
Qed.
(** so the solutions from moved states are the moved solutions *)
Theorem flow_on a b n F A c1 c2 s t : locally_lipschitz n F ->
  (forall z z' w, takes n A z z' -> F z = Ok w -> exists2 w', F z' = Ok w' & takes n A w w') ->
  solves_on a b n F c1 -> solves_on a b n F c2 ->
  Rlt a s -> Rlt s b -> Rlt a t -> Rlt t b -> takes n A (c1 s) (c2 s) -> takes n A (c1 t) (c2 t).
Proof.
move=> HF HA S1 S2 as_ sb at_ tb T.
have Sz : size (c1 t) = n by case: (S1 t at_ tb).
rewrite (solutions_unique_on HF S2 (moved_on HA S1) as_ sb at_ tb); first exact: takes_apply.
by apply: takes_fun T _; apply: takes_apply; case: (S1 s as_ sb).
Qed.
(** expressions are Lipschitz in every box *)
Lemma expr_lip n F es : (forall z w, size z = n -> F z = Ok w -> w = map (ev z) es) -> locally_lipschitz n F.
Proof.
move=> HF B.
have [L [L0 HL]] : exists L, Rle R0 L /\ forall i x y d, in_box B x -> in_box B y ->
    (forall i, Rle (Rabs (Rminus (nth 0 x i) (nth 0 y i))) d) ->
    Rle (Rabs (Rminus (ev x (nth (ECst 0) es i)) (ev y (nth (ECst 0) es i)))) (Rmult L d).
  elim: (es) => [|e l [L [L0 IH]]].
    exists R0; split=> [|i x y d _ _ _]; first by lra.
    by rewrite !nth_nil /= /Rminus Rplus_opp_r Rabs_R0; lra.
  have [K [L' [_ L'0 _ HL']]] := ev_box e B; exists (Rplus L L'); split; first lra.
  move=> [|i] x y d Hx Hy Hd; have d0 : Rle R0 d by apply: Rle_trans (Rabs_pos _) (Hd 0%N).
    by have := HL' x y d Hx Hy Hd; rewrite [nth _ _ _]/=; nra.
  by have := IH i x y d Hx Hy Hd; rewrite [nth _ (e :: l) _]/=; nra.
have N z i : nth 0 (map (ev z) es) i = ev z (nth (ECst 0) es i).
  have [Hi|Hi] := ltnP i (size es); first by rewrite (nth_map (ECst 0)).
  by rewrite !nth_default ?size_map.
exists L => z z' w w' d S1 S2 b1 b2 /(HF z w S1) -> /(HF z' w' S2) -> H i Hi.
rewrite !N; apply: HL => // j; have [Hj|Hj] := ltnP j n; first exact: H.
by rewrite !nth_default ?S1 ?S2 // /Rminus Rplus_opp_r Rabs_R0; apply: Rle_trans (Rabs_pos _) (H i Hi).
Qed.
Lemma const_on a b (f : R -> R) : (forall t, Rlt a t -> Rlt t b -> derivable_pt_lim f t R0) ->
  forall s t, Rlt a s -> Rlt s b -> Rlt a t -> Rlt t b -> f s = f t.
Proof.
have W s t : (forall t, Rlt a t -> Rlt t b -> derivable_pt_lim f t R0) -> Rlt a s -> Rlt t b -> Rlt s t -> f s = f t.
  move=> D as_ tb L; have [|c [E _]] := MVT_cor2 f (fun=> R0) s t L; first by move=> c [h1 h2]; apply: D; lra.
  by move: E; rewrite Rmult_0_l => h; lra.
move=> D s t as_ sb at_ tb; case: (Rtotal_order s t) => [|[->|]] // L; first exact: W.
by apply: esym; exact: W.
Qed.
(** the exact flow conserves the energy *)
Theorem energy_on a b m H gr c s t : gradient_of (2 * m) H gr -> solves_on a b (2 * m) (hamiltonian_dynamics gr) c ->
  Rlt a s -> Rlt s b -> Rlt a t -> Rlt t b -> H (c s) = H (c t).
Proof.
move=> G S as_ sb at_ tb; set n := (2 * m)%N in G S.
pose c' r : seq RR := mkseq (nth 0 (c r)) n.
have E r : Rlt a r -> Rlt r b -> c' r = c r.
  by move=> h1 h2; have [Sz _] := S r h1 h2; rewrite /c' -Sz mkseq_nth.
rewrite -(E s) // -(E t) //; apply: (@const_on a b (fun r => H (c' r))) => // r h1 h2.
have [Sz [w Ew Dw]] := S r h1 h2; have Gr := G _ Sz.
have := @chain n H (c r) _ Gr c' (fun i => nth 0 w i) r (fun _ => size_mkseq _ _) (E r h1 h2) => D.
apply: dl_ext (D _) => //; first exact: sform_orth Gr.1 Ew.
by move=> i Hi; apply: dl_ext (Dw i Hi) => // x; rewrite nth_mkseq.
Qed.
