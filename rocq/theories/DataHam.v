(** * DataHam: Hamiltonian dynamics. *)
From Coq Require Import Reals Lra.
From mathcomp Require Import all_ssreflect all_algebra.
From mathcomp Require Import zify.
From Verif Require Import Np NpLemmas Spec SpecLemmas LinOp LinOpSpec LinOpInv MxBridge Rep RepSpec Rstruct Expm GroupsSpec Data DataHamSpec.
Set Implicit Arguments.
Unset Strict Implicit.
Unset Printing Implicit Defensive.
Import GRing.Theory.
Local Open Scope ring_scope.

(** ** the symplectic form *)
Section Form.
Variable R : comRingType.
Lemma sform_ok m (z : seq R) : size z = (2 * m)%N ->
  symplectic_form z = Ok (drop m z ++ map -%R (take m z)).
Proof. by move=> S; rewrite /symplectic_form /unpack /pack S mulnC modnMl mulnK. Qed.
Lemma sform_bad (z : seq R) : odd (size z) -> symplectic_form z = Err AssertionError.
Proof. by rewrite /symplectic_form /unpack modn2 => ->. Qed.
Lemma sform_nth m (z : seq R) : size z = (2 * m)%N ->
  exists2 w, symplectic_form z = Ok w & size w = (2 * m)%N /\
    forall i, (i < m)%N -> nth 0 w i = nth 0 z (m + i)%N /\ nth 0 w (m + i)%N = - nth 0 z i.
Proof.
move=> S; rewrite (sform_ok S); eexists; first by []; split; first by rewrite size_cat size_map size_drop size_take S; case: ifP; lia.
have Sd : size (drop m z) = m by rewrite size_drop S; lia.
move=> i Hi; rewrite !nth_cat Sd Hi nth_drop; split=> //; rewrite ltnNge leq_addr /= addKn.
by rewrite (nth_map 0) ?nth_take // size_take S; case: ifP; lia.
Qed.
Lemma sform_twice m (z w : seq R) : size z = (2 * m)%N -> symplectic_form z = Ok w -> symplectic_form w = Ok (map -%R z).
Proof.
move=> S E; have [w'] := sform_nth S; rewrite E => -[<-] [Sw _]; rewrite (sform_ok S) in E; case: E => Ew; rewrite (sform_ok Sw) -Ew.
have Sd : size (drop m z) = m by rewrite size_drop S; lia.
by rewrite drop_cat take_cat Sd ltnn subnn drop0 take0 cats0 -map_cat cat_take_drop.
Qed.
Lemma sform_act m (z w : seq R) : size z = (2 * m)%N -> symplectic_form z = Ok w ->
  forall i, (i < 2 * m)%N -> nth 0 w i = \sum_(0 <= j < 2 * m) fe (sympl R m) i j * nth 0 z j.
Proof.
move=> S E; have [w'] := sform_nth S; rewrite E => -[<-] [Sw H] i Hi /=.
have [Hm|Hm] := ltnP i m.
  have [-> _] := H i Hm; rewrite (sum_only (i := (m + i)%N)) ?eqxx ?mul1r //; first by lia.
  by move=> j Hj /negbTE ->; case: eqP => [|_]; [lia | rewrite mul0r].
have Hi' : (i - m < m)%N by lia.
have [_] := H (i - m)%N Hi'; rewrite subnKC // => ->.
rewrite (sum_only (i := (i - m)%N)) ?subnKC //; [|by lia|].
  by rewrite eqxx; case: eqP => [|_]; [lia | rewrite mulN1r].
by move=> j Hj ne; case: eqP => [|_]; [lia|]; case: eqP => [e|_]; [case/eqP: ne; lia | rewrite mul0r].
Qed.
(** z and its image are orthogonal *)
Lemma sform_orth m (z w : seq R) : size z = (2 * m)%N -> symplectic_form z = Ok w ->
  \sum_(0 <= i < 2 * m) nth 0 z i * nth 0 w i = 0.
Proof.
move=> S E; have [w'] := sform_nth S; rewrite E => -[<-] [Sw H].
have -> : (2 * m = m + m)%N by lia.
rewrite sum_add -big_split /= big1_seq // => i; rewrite mem_index_iota => /= Hi.
by have [-> ->] := H i Hi; rewrite mulrN [nth 0 z (m + i)%N * _]mulrC subrr.
Qed.
End Form.

(** ** derivatives *)
Lemma sum_rec (f : nat -> RR) m : \sum_(0 <= j < m.+1) f j = Rplus (\sum_(0 <= j < m) f j) (f m).
Proof. by rewrite big_nat_recr. Qed.
Section Chain.
Variables (n : nat) (H : seq RR -> RR) (z d : seq RR).
Hypothesis G : gradient_at n H z d.
Variables (c : R -> seq RR) (w : nat -> R) (t0 : R).
Hypothesis Sc : forall t, size (c t) = n.
Hypothesis c0 : c t0 = z.
Hypothesis D : forall i, (i < n)%N -> derivable_pt_lim (fun s => nth 0 (c s) i) t0 (w i).
Let u (h : R) i : R := Rminus (nth 0 (c (t0 + h)%R) i) (nth 0 z i).

Lemma lip m : (m <= n)%N -> exists K del, [/\ Rle R0 K, Rlt R0 del &
  forall h, Rlt (Rabs h) del -> Rle (\sum_(0 <= i < m) (Rabs (u h i) : RR)) (Rmult K (Rabs h))].
Proof.
elim: m => [_|m IH Hm].
  exists R0, R1; split; [exact: Rle_refl | exact: Rlt_0_1 | move=> h _; rewrite big_geq // Rmult_0_l; exact: Rle_refl].
have [K [del [K0 d0 HK]]] := IH (ltnW Hm); have [del2 Hd] := D Hm Rlt_0_1.
exists (Rplus K (Rplus (Rabs (w m)) R1)), (Rmin del del2); split.
- by have := Rabs_pos (w m); lra.
- by apply: Rmin_pos => //; exact: (cond_pos del2).
move=> h Hh; have h1 := Rlt_le_trans _ _ _ Hh (Rmin_l _ _); have h2 := Rlt_le_trans _ _ _ Hh (Rmin_r _ _).
rewrite sum_rec; have L1 := HK h h1.
suff L2 : Rle (Rabs (u h m)) (Rmult (Rplus (Rabs (w m)) R1) (Rabs h)).
  by rewrite Rmult_plus_distr_r; apply: Rplus_le_compat.
have [E|ne] := Req_dec h R0.
  have Z : (t0 + h)%R = t0 by rewrite E; exact: Rplus_0_r.
  by rewrite /u Z c0 Rminus_diag_eq // E Rabs_R0 Rmult_0_r; apply: Rle_refl.
have := Hd h ne h2; rewrite c0 -/(u h m) => L.
have -> : u h m = Rmult (Rplus (Rminus (Rdiv (u h m) h) (w m)) (w m)) h by field.
rewrite Rabs_mult; apply: Rmult_le_compat_r; first exact: Rabs_pos.
by apply: Rle_trans (Rabs_triang _ _) _; have := Rabs_pos (w m); lra.
Qed.
Lemma sum_ge (f : nat -> RR) m i : (i < m)%N -> (forall j, Rle R0 (f j)) -> Rle (f i) (\sum_(0 <= j < m) f j).
Proof.
move=> + P; elim: m => // m IH; rewrite ltnS leq_eqVlt sum_rec => /orP[/eqP ->|/IH L].
  suff : Rle R0 (\sum_(0 <= j < m) f j) by lra.
  elim: m {IH} => [|m IH]; first by rewrite big_geq //; exact: Rle_refl.
  by rewrite sum_rec; have := P m; lra.
by have := P m; lra.
Qed.
Lemma chain : derivable_pt_lim (fun t => H (c t)) t0 (\sum_(0 <= i < n) nth 0 d i * (w i : RR)).
Proof.
pose S t : RR := \sum_(0 <= i < n) nth 0 d i * nth 0 (c t) i.
have DS : derivable_pt_lim S t0 (\sum_(0 <= i < n) nth 0 d i * (w i : RR)).
  apply: (@dl_sum (fun i t => (nth 0 d i : RR) * nth 0 (c t) i) (fun i => (nth 0 d i : RR) * (w i : RR))) => i Hi.
  exact: dl_cmul (D Hi).
have DR : derivable_pt_lim (fun t => Rminus (H (c t)) (S t)) t0 R0; last first.
  have := derivable_pt_lim_plus _ _ _ _ _ DR DS; rewrite Rplus_0_l; apply: dl_ext => // t.
  by rewrite /plus_fct; lra.
have [Sd HG] := G; have [K [del [K0 d0 HK]]] := lip (leqnn n).
move=> eps e0; have e1 : Rlt R0 (Rdiv eps (Rplus K R1)) by apply: Rdiv_lt_0_compat; lra.
have [rho r0 HR] := HG _ e1.
have m0 : Rlt R0 (Rmin del (Rdiv rho (Rplus K R1))) by apply: Rmin_pos => //; apply: Rdiv_lt_0_compat; lra.
exists (mkposreal _ m0) => h ne /= Hh.
have h1 := Rlt_le_trans _ _ _ Hh (Rmin_l _ _); have h2 := Rlt_le_trans _ _ _ Hh (Rmin_r _ _).
have L := HK h h1; pose v := mkseq (u h) n.
have Ev : \sum_(0 <= i < n) (Rabs (nth 0 v i) : RR) = \sum_(0 <= i < n) (Rabs (u h i) : RR).
  by apply: eq_sum => i Hi; rewrite nth_mkseq.
have Hv i : (i < n)%N -> Rlt (Rabs (nth 0 v i)) rho.
  move=> Hi; rewrite nth_mkseq //; have L2 := @sum_ge (fun i => Rabs (u h i)) n i Hi (fun j => Rabs_pos _).
  have K1 : Rlt R0 (Rplus K R1) by lra.
  have := Rmult_lt_compat_l _ _ _ K1 h2; have -> : Rmult (Rplus K R1) (Rdiv rho (Rplus K R1)) = rho by field; lra.
  by rewrite Rmult_plus_distr_r; have := Rabs_pos h; lra.
have := HR v (size_mkseq _ _) Hv; rewrite Ev.
have -> : vadd n z v = c (t0 + h)%R.
  apply: (eq_from_nth (x0 := 0)) => [|i]; rewrite size_mkseq ?Sc // => Hi; rewrite !nth_mkseq // /u /GRing.add /=; lra.
set q0 := (X in Rle (Rabs X) _); have -> : q0 = Rminus (Rminus (H (c (t0 + h)%R)) (S (t0 + h)%R)) (Rminus (H (c t0)) (S t0)).
  have E : \sum_(0 <= i < n) nth 0 d i * nth 0 v i = S (t0 + h)%R - S t0.
    by rewrite /S -sumrB; apply: eq_sum => i Hi; rewrite -mulrBr nth_mkseq // /u c0.
  rewrite /q0; set X := (X in Rminus _ X); have {E} -> : X = S (t0 + h)%R - S t0 by exact: E.
  by rewrite c0 /GRing.add /GRing.opp /=; lra.
set q := Rminus (Rminus _ _) _ => Lq.
rewrite Rminus_0_r /Rdiv Rabs_mult Rabs_inv.
have a0 := Rabs_pos_lt h ne.
apply: (Rmult_lt_reg_r (Rabs h)) => //; rewrite Rmult_assoc Rinv_l ?Rmult_1_r; last by lra.
apply: Rle_lt_trans Lq _; apply: Rle_lt_trans (Rmult_le_compat_l _ _ _ (Rlt_le _ _ e1) L) _.
rewrite -Rmult_assoc; apply: Rmult_lt_compat_r => //.
have -> : Rmult (Rdiv eps (Rplus K R1)) K = Rminus eps (Rdiv eps (Rplus K R1)) by field; lra.
by lra.
Qed.
End Chain.

(** the exact flow conserves the energy *)
Lemma flow_energy m H gr c : (forall t, gradient_at (2 * m) H (c t) (gr (c t))) -> solves (2 * m) (hamiltonian_dynamics gr) c ->
  forall s t, H (c s) = H (c t).
Proof.
move=> G S; apply: dl_const => t; have [Sz [w Ew Dw]] := S t.
have := chain (G t) (w := fun i => nth 0 w i) (fun s => (S s).1) erefl Dw.
by apply: dl_ext => //; exact: sform_orth (G t).1 Ew.
Qed.

Section Equi.
Variables (m : nat) (A : fmat RR) (H : seq RR -> RR).
Local Notation n := (2 * m)%N.
Hypotheses (a1 : fr A = n) (a2 : fc A = n) (U : unchanged n A H).
Lemma grad_moved z z' d d' : takes n A z z' -> gradient_at n H z d -> gradient_at n H z' d' ->
  forall j, (j < n)%N -> \sum_(0 <= i < n) nth 0 d' i * fe A i j = nth 0 d j.
Proof.
move=> [Sz Sz' Ez] G G' j Hj.
pose c (t : R) := mkseq (fun i => nth 0 z i + (t : RR) * (i == j)%:R) n.
pose c' (t : R) := mkseq (fun i => nth 0 z' i + (t : RR) * fe A i j) n.
have Dl (a b : RR) : derivable_pt_lim (fun t : R => a + (t : RR) * b) R0 b.
  have := derivable_pt_lim_plus _ _ _ _ _ (derivable_pt_lim_const a R0) (@dl_mulc id R0 b 1 (derivable_pt_lim_id R0)).
  by apply: dl_ext => //; rewrite mul1r Rplus_0_l.
have C0 : c R0 = z.
  apply: (eq_from_nth (x0 := 0)) => [|i]; rewrite size_mkseq ?Sz // => Hi; rewrite nth_mkseq //.
  by rewrite (mul0r (i == j)%:R : R0 * (i == j)%:R = 0) addr0.
have C0' : c' R0 = z'.
  apply: (eq_from_nth (x0 := 0)) => [|i]; rewrite size_mkseq ?Sz' // => Hi; rewrite nth_mkseq //.
  by rewrite (mul0r (fe A i j) : R0 * fe A i j = 0) addr0.
have Dc i : (i < n)%N -> derivable_pt_lim (fun t => nth 0 (c t) i) R0 ((i == j)%:R : RR).
  by move=> Hi; apply: dl_ext (Dl (nth 0 z i) (i == j)%:R) => // t; rewrite nth_mkseq.
have Dc' i : (i < n)%N -> derivable_pt_lim (fun t => nth 0 (c' t) i) R0 (fe A i j).
  by move=> Hi; apply: dl_ext (Dl (nth 0 z' i) (fe A i j)) => // t; rewrite nth_mkseq.
have D1 := @chain n H z d G c (fun i => (i == j)%:R : RR) R0 (fun t => size_mkseq _ _) C0 Dc.
have D2 := @chain n H z' d' G' c' (fun i => fe A i j) R0 (fun t => size_mkseq _ _) C0' Dc'.
have E t : H (c' t) = H (c t).
  apply: U; split; rewrite ?size_mkseq // => i Hi; rewrite !nth_mkseq // Ez //.
  under [RHS]eq_big_nat => k Hk do rewrite nth_mkseq // mulrDr.
  rewrite big_split /=; congr (_ + _); rewrite (sum_only (i := j)) ?eqxx ?mulr1 1?mulrC //.
  by move=> k _ /negbTE ->; rewrite !mulr0.
have := dl_uniq D2 (dl_ext (fun t => esym (E t)) erefl D1) => ->.
by rewrite (sum_only (i := j)) ?eqxx ?mulr1 // => k _ /negbTE ->; rewrite mulr0.
Qed.
Lemma sympl_sq : mxf n n (sympl RR m) *m mxf n n (sympl RR m) = - 1%:M.
Proof.
apply/matrixP=> i k; rewrite !mxE; pose e := mkseq (fun l => (l == k)%:R : RR) n.
have Se : size e = n by rewrite size_mkseq.
have [w Ew [Sw _]] := sform_nth Se; have Ew2 := sform_twice Se Ew.
have /= := sform_act Sw Ew2 (ltn_ord i); rewrite (nth_map 0) ?Se // nth_mkseq //.
rewrite -val_eqE /= => ->; rewrite big_mkord; apply: eq_bigr => l _; rewrite !mxE /=; congr (_ * _).
rewrite (sform_act Se Ew (ltn_ord l)) /= (sum_only (i := nat_of_ord k)) ?nth_mkseq ?eqxx ?mulr1 //.
by move=> j Hj /negbTE ne; rewrite nth_mkseq // ne mulr0.
Qed.
Lemma sympl_T : isometry (sympl RR m) A -> mxf n n A *m mxf n n (sympl RR m) *m (mxf n n A)^T = mxf n n (sympl RR m).
Proof.
move=> I; have := mxf_meq I a2 a2.
rewrite (mxf_mul _ _ _ (a1 : fc (ftr A) = n)) (@mxf_mul _ _ _ n (sympl RR m)) // mxf_tr.
set J := mxf n n (sympl RR m); set B := mxf n n A => E.
have JJ : J *m J = - 1%:M := sympl_sq.
have : (- J *m B^T *m J) *m B = 1%:M by rewrite !mulNmx -!mulmxA E JJ opprK.
move/mulmx1C; rewrite !mulNmx mulmxN => F.
have {}F : B *m J *m B^T *m J = - 1%:M by rewrite -F opprK !mulmxA.
have : B *m J *m B^T *m J *m J = - J by rewrite F mulNmx mul1mx.
by rewrite -mulmxA JJ mulmxN mulmx1 => /oppr_inj.
Qed.
Lemma field_moved gr z z' : isometry (sympl RR m) A -> gradient_at n H z (gr z) -> gradient_at n H z' (gr z') -> takes n A z z' ->
  exists w w', [/\ hamiltonian_dynamics gr z = Ok w, hamiltonian_dynamics gr z' = Ok w' & takes n A w w'].
Proof.
move=> I g1 g2 T; have [Sz Sz' _] := T.
have [w Ew [Sw _]] := sform_nth g1.1; have [w' Ew' [Sw' _]] := sform_nth g2.1.
exists w, w'; split=> //; split=> // i Hi; have M := grad_moved T g1 g2.
pose dv := \col_(i < n) (nth 0 (gr z) i : RR); pose dv' := \col_(i < n) (nth 0 (gr z') i : RR).
have Ed : (mxf n n A)^T *m dv' = dv.
  by apply/colP=> k; rewrite !mxE -(M k (ltn_ord k)) big_mkord; apply: eq_bigr => l _; rewrite !mxE mulrC.
have := congr1 (mulmx^~ dv') (sympl_T I); rewrite -!mulmxA Ed => /colP/(_ (Ordinal Hi)); rewrite !mxE.
rewrite (sform_act g2.1 Ew' Hi) => E; have -> : \sum_(0 <= j < n) fe (sympl RR m) i j * nth 0 (gr z') j =
    \sum_j mxf n n (sympl RR m) (Ordinal Hi) j * dv' j 0.
  by rewrite big_mkord; apply: eq_bigr => j _; rewrite !mxE.
rewrite -E big_mkord; apply: eq_bigr => j _; rewrite !mxE; congr (_ * _).
by rewrite (sform_act g1.1 Ew (ltn_ord j)) big_mkord; apply: eq_bigr => k _; rewrite !mxE.
Qed.
End Equi.
