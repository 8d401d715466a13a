(** * DataDiff: differentiable functions of several variables; the double spring pendulum. *)
From Coq Require Import Reals Lra.
From mathcomp Require Import all_ssreflect all_algebra.
From mathcomp Require Import zify.
From Verif Require Import Np NpLemmas Spec SpecLemmas LinOp Rstruct Expm Data DataHamSpec DataHam.
Set Implicit Arguments.
Unset Strict Implicit.
Unset Printing Implicit Defensive.
Import GRing.Theory.
Local Open Scope ring_scope.

Section D.
Variables (n : nat) (z : seq RR).
Definition smooth (H : seq RR -> RR) : Prop := exists d, gradient_at n H z d.
Local Notation S v := (\sum_(0 <= i < n) (Rabs (nth 0 v i) : RR)).
Local Notation ip d v := (\sum_(0 <= i < n) nth 0 d i * nth 0 v i : RR).
Lemma S_pos (v : seq RR) : Rle R0 (S v).
Proof.
elim: n => [|k IH]; first by rewrite big_geq //; exact: Rle_refl.
by rewrite sum_rec; have := Rabs_pos (nth 0 v k); lra.
Qed.
Lemma S_le (v : seq RR) del : (forall i, (i < n)%N -> Rlt (Rabs (nth 0 v i)) del) -> Rle (S v) (Rmult (INR n) del).
Proof.
elim: n => [|k IH] H; first by rewrite big_geq // Rmult_0_l; exact: Rle_refl.
have := IH (fun i Hi => H i (ltnW Hi)); have := H k (ltnSn k).
by rewrite sum_rec S_INR; lra.
Qed.
Lemma ip_le (d v : seq RR) : Rle (Rabs (ip d v)) (Rmult (S d) (S v)).
Proof.
have L : Rle (Rabs (ip d v)) (\sum_(0 <= i < n) (Rmult (S d) (Rabs (nth 0 v i)) : RR)).
  apply: bnd_sum => i Hi; rewrite Rabs_mult; apply: Rmult_le_compat_r; first exact: Rabs_pos.
  exact: (@sum_ge (fun i => Rabs (nth 0 d i)) n i Hi (fun j => Rabs_pos _)).
apply: Rle_trans L _; rewrite -[X in Rle X _]/(\sum_(0 <= i < n) ((S d : RR) * Rabs (nth 0 v i))) -mulr_sumr.
exact: Rle_refl.
Qed.
Lemma smooth_ext H G : (forall v, size v = n -> H v = G v) -> size z = n -> smooth H -> smooth G.
Proof.
move=> E Sz [d [Sd Hd]]; exists d; split=> // eps e0; have [del d0 L] := Hd eps e0; exists del => // v Sv Hv.
by rewrite -!E ?size_mkseq //; exact: L.
Qed.
Lemma smooth_const (c : RR) : smooth (fun=> c).
Proof.
exists (nseq n 0); split; first by rewrite size_nseq.
move=> eps e0; exists R1; first exact: Rlt_0_1.
move=> v Sv _; have E : ip (nseq n 0) v = 0 by apply: sum0 => i Hi; rewrite nth_nseq Hi mul0r.
move: E; set q := (X in Rminus _ X) => E; have -> : q = R0 by exact: E.
have -> : Rminus (Rminus c c) R0 = R0 by lra.
by rewrite Rabs_R0; apply: Rmult_le_pos; [exact: Rlt_le | exact: S_pos].
Qed.
Lemma smooth_coord k : (k < n)%N -> smooth (fun v => nth 0 v k).
Proof.
move=> Hk; exists (mkseq (fun i => (i == k)%:R) n); split; first by rewrite size_mkseq.
move=> eps e0; exists R1; first exact: Rlt_0_1.
move=> v Sv _; have E : ip (mkseq (fun i => (i == k)%:R) n) v = nth 0 v k.
  rewrite (sum_only (i := k)) ?nth_mkseq ?eqxx ?mul1r // => i Hi /negbTE ne; by rewrite nth_mkseq // ne mul0r.
move: E; set q := (X in Rminus _ X) => E; have -> : q = nth 0 v k by exact: E.
rewrite nth_mkseq // -[nth 0 z k + _]/(Rplus (nth 0 z k) (nth 0 v k)).
have -> : Rminus (Rminus (Rplus (nth 0 z k) (nth 0 v k)) (nth 0 z k)) (nth 0 v k) = R0 by lra.
by rewrite Rabs_R0; apply: Rmult_le_pos; [exact: Rlt_le | exact: S_pos].
Qed.
Lemma smooth_add H G : smooth H -> smooth G -> smooth (fun v => H v + G v).
Proof.
move=> [d [Sd Hd]] [e [Se He]]; exists (mkseq (fun i => nth 0 d i + nth 0 e i) n); split; first by rewrite size_mkseq.
move=> eps e0; have e2 : Rlt R0 (Rdiv eps 2) by lra.
have [d1 p1 L1] := Hd _ e2; have [d2 p2 L2] := He _ e2; exists (Rmin d1 d2); first exact: Rmin_pos.
move=> v Sv Hv.
have l1 := L1 v Sv (fun i Hi => Rlt_le_trans _ _ _ (Hv i Hi) (Rmin_l _ _)).
have l2 := L2 v Sv (fun i Hi => Rlt_le_trans _ _ _ (Hv i Hi) (Rmin_r _ _)).
have E : ip (mkseq (fun i => nth 0 d i + nth 0 e i) n) v = ip d v + ip e v.
  by rewrite -big_split /=; apply: eq_sum => i Hi; rewrite nth_mkseq // mulrDl.
set q := (X in Rle (Rabs X) _).
have -> : q = Rplus (Rminus (Rminus (H (vadd n z v)) (H z)) (ip d v)) (Rminus (Rminus (G (vadd n z v)) (G z)) (ip e v)).
  rewrite /q; set x := (X in Rminus _ X); have -> : x = Rplus (ip d v) (ip e v) by exact: E.
  by move: (ip d v) (ip e v) => a b; rewrite /GRing.add /=; lra.
by apply: Rle_trans (Rabs_triang _ _) _; lra.
Qed.
Lemma smooth_comp f l H : derivable_pt_lim f (H z) l -> smooth H -> smooth (fun v => f (H v)).
Proof.
move=> Df [d [Sd Hd]]; exists (mkseq (fun i => (l : RR) * nth 0 d i) n); split; first by rewrite size_mkseq.
move=> eps e0; set D := S d; have D0 : Rle R0 D := S_pos d.
have a0 := Rabs_pos l.
have e1 : Rlt R0 (Rdiv eps (Rmult 2 (Rplus D 1))) by apply: Rdiv_lt_0_compat; lra.
have e2 : Rlt R0 (Rmin 1 (Rdiv eps (Rmult 2 (Rplus (Rabs l) 1)))) by apply: Rmin_pos; [lra|]; apply: Rdiv_lt_0_compat; lra.
have [del1 L1] := Df _ e1; have [del2 p2 L2] := Hd _ e2.
have i0 := pos_INR n.
have N0 : Rlt R0 (Rmult (Rplus D 1) (Rplus (INR n) 1)) by apply: Rmult_lt_0_compat; lra.
exists (Rmin del2 (Rdiv del1 (Rmult (Rplus D 1) (Rplus (INR n) 1)))).
  by apply: Rmin_pos => //; apply: Rdiv_lt_0_compat => //; exact: (cond_pos del1).
move=> v Sv Hv.
have l2 := L2 v Sv (fun i Hi => Rlt_le_trans _ _ _ (Hv i Hi) (Rmin_l _ _)).
have l3 := S_le (fun i Hi => Rlt_le_trans _ _ _ (Hv i Hi) (Rmin_r _ _)).
have s0 := S_pos v; have l4 := ip_le d v.
set s := S v in l2 l3 s0 l4 *; set p := ip d v in l2 l4; set k := Rminus (H (vadd n z v)) (H z) in l2.
have E : ip (mkseq (fun i => (l : RR) * nth 0 d i) n) v = Rmult l p.
  by rewrite /p -[Rmult _ _]/((l : RR) * _) mulr_sumr; apply: eq_sum => i Hi; rewrite nth_mkseq // mulrA.
set q := (X in Rle (Rabs X) _).
have Eq : q = Rplus (Rminus (Rminus (f (Rplus (H z) k)) (f (H z))) (Rmult l k)) (Rmult l (Rminus k p)).
  rewrite /q; set x := (X in Rminus _ X); have -> : x = Rmult l p by exact: E.
  have -> : Rplus (H z) k = H (vadd n z v) by rewrite /k; lra.
  by rewrite /k; lra.
rewrite {}Eq; clear q.
have m1 := Rmin_l 1 (Rdiv eps (Rmult 2 (Rplus (Rabs l) 1))); have m2 := Rmin_r 1 (Rdiv eps (Rmult 2 (Rplus (Rabs l) 1))).
set ee := Rmin 1 _ in e2 l2 m1 m2.
have lk : Rle (Rabs k) (Rmult (Rplus D 1) s).
  have -> : k = Rplus (Rminus k p) p by lra.
  apply: Rle_trans (Rabs_triang _ _) _; rewrite Rmult_plus_distr_r Rmult_1_l.
  have := Rmult_le_compat_r _ _ _ s0 m1; rewrite -/D in l4; lra.
have lk2 : Rlt (Rabs k) del1.
  apply: Rle_lt_trans lk _; have h := Rmult_le_compat_l (Rplus D 1) _ _ ltac:(lra) l3; apply: Rle_lt_trans h _.
  have -> : Rmult (Rplus D 1) (Rmult (INR n) (Rdiv del1 (Rmult (Rplus D 1) (Rplus (INR n) 1)))) =
      Rmult del1 (Rdiv (INR n) (Rplus (INR n) 1)) by field; lra.
  rewrite -[X in Rlt _ X]Rmult_1_r; apply: Rmult_lt_compat_l; first exact: (cond_pos del1).
  apply: (Rmult_lt_reg_r (Rplus (INR n) 1)); first by lra.
  have -> : Rmult (Rdiv (INR n) (Rplus (INR n) 1)) (Rplus (INR n) 1) = INR n by field; lra.
  by lra.
have lf : Rle (Rabs (Rminus (Rminus (f (Rplus (H z) k)) (f (H z))) (Rmult l k))) (Rmult (Rdiv eps 2) s).
  have [E0|ne] := Req_dec k R0.
    rewrite E0; have -> : Rplus (H z) R0 = H z by lra.
    have -> : Rminus (Rminus (f (H z)) (f (H z))) (Rmult l R0) = R0 by lra.
    by rewrite Rabs_R0; apply: Rmult_le_pos; lra.
  have h := L1 k ne lk2.
  have -> : Rminus (Rminus (f (Rplus (H z) k)) (f (H z))) (Rmult l k) =
      Rmult (Rminus (Rdiv (Rminus (f (Rplus (H z) k)) (f (H z))) k) l) k by field.
  rewrite Rabs_mult; apply: Rle_trans (Rmult_le_compat_r _ _ _ (Rabs_pos k) (Rlt_le _ _ h)) _.
  apply: Rle_trans (Rmult_le_compat_l _ _ _ (Rlt_le _ _ e1) lk) _.
  rewrite -Rmult_assoc; have -> : Rmult (Rdiv eps (Rmult 2 (Rplus D 1))) (Rplus D 1) = Rdiv eps 2 by field; lra.
  exact: Rle_refl.
have lg : Rle (Rabs (Rmult l (Rminus k p))) (Rmult (Rdiv eps 2) s).
  rewrite Rabs_mult; apply: Rle_trans (Rmult_le_compat_l _ _ _ a0 l2) _.
  rewrite -Rmult_assoc; apply: Rmult_le_compat_r => //.
  apply: Rle_trans (Rmult_le_compat_l _ _ _ a0 m2) _.
  have -> : Rdiv eps 2 = Rmult (Rplus (Rabs l) 1) (Rdiv eps (Rmult 2 (Rplus (Rabs l) 1))) by field; lra.
  apply: Rmult_le_compat_r; last by lra.
  by apply: Rlt_le; apply: Rdiv_lt_0_compat; lra.
by apply: Rle_trans (Rabs_triang _ _) _; lra.
Qed.
Lemma smooth_sqr H : smooth H -> smooth (fun v => H v ^+ 2).
Proof.
move=> SH; have D : derivable_pt_lim (fun x : R => Rmult x x) (H z) (Rplus (Rmult 1 (H z)) (Rmult (H z) 1)).
  exact: (derivable_pt_lim_mult id id (H z) 1 1 (derivable_pt_lim_id _) (derivable_pt_lim_id _)).
by have := smooth_comp D SH.
Qed.
Lemma smooth_scale (c : RR) H : smooth H -> smooth (fun v => c * H v).
Proof.
move=> SH; have D : derivable_pt_lim (fun x : R => Rmult c x) (H z) (Rmult c 1).
  exact: (derivable_pt_lim_scal id c (H z) 1 (derivable_pt_lim_id _)).
exact: (smooth_comp D SH).
Qed.
Lemma smooth_sub H G : smooth H -> smooth G -> smooth (fun v => H v - G v).
Proof.
move=> SH SG; have [d Hd] := smooth_add SH (smooth_scale (-1) SG); exists d.
by move: Hd; rewrite /gradient_at => -[Sd Hd]; split=> // eps e0; have [del d0 L] := Hd eps e0; exists del => // v Sv Hv; have := L v Sv Hv; rewrite !mulN1r.
Qed.
Lemma smooth_sqrt H : Rlt R0 (H z) -> smooth H -> smooth (fun v => R_sqrt.sqrt (H v)).
Proof. move=> p SH; exact: (smooth_comp (derivable_pt_lim_sqrt _ p) SH). Qed.
End D.

Definition pend0 (h : RR) (z : seq RR) : RR :=
  let x i := nth 0 z i in
  h * (x 6%N ^+ 2 + x 7%N ^+ 2 + x 8%N ^+ 2) + h * (x 9%N ^+ 2 + x 10%N ^+ 2 + x 11%N ^+ 2) +
  (h * (R_sqrt.sqrt (x 0%N ^+ 2 + x 1%N ^+ 2 + x 2%N ^+ 2) - 1) ^+ 2 +
   (R_sqrt.sqrt ((x 0%N - x 3%N) ^+ 2 + (x 1%N - x 4%N) ^+ 2 + (x 2%N - x 5%N) ^+ 2) - 1) ^+ 2 + (x 2%N + x 5%N)).
Lemma pend0E h z : size z = 12%N -> pendulum_H (R_sqrt.sqrt : RR -> RR) h z = Ok (pend0 h z).
Proof.
do 13 (case: z => [|? z] //); move=> _; rewrite /pendulum_H /pend0 /=; do ! f_equal.
all: by rewrite rsumE big_nat_recr //= big_nat_recr //= big_nat1.
Qed.
Lemma sq3_pos (a b c : RR) : (a, b, c) <> (0, 0, 0) -> Rlt R0 (a ^+ 2 + b ^+ 2 + c ^+ 2).
Proof.
move=> ne; rewrite !expr2 /GRing.mul /GRing.add /=; have := Rle_0_sqr a; have := Rle_0_sqr b; have := Rle_0_sqr c; rewrite /Rsqr => h1 h2 h3.
have [e1|n1] := Req_dec a R0; last by have := Rsqr_pos_lt a n1; rewrite /Rsqr; lra.
have [e2|n2] := Req_dec b R0; last by have := Rsqr_pos_lt b n2; rewrite /Rsqr; lra.
have [e3|n3] := Req_dec c R0; last by have := Rsqr_pos_lt c n3; rewrite /Rsqr; lra.
by case: ne; rewrite e1 e2 e3.
Qed.
Lemma pend_smooth z : size z = 12%N -> let x i := nth 0 z i in
  (x 0%N, x 1%N, x 2%N) <> (0, 0, 0) -> (x 0%N, x 1%N, x 2%N) <> (x 3%N, x 4%N, x 5%N) -> exists d, gradient_at 12 pendulum_energy z d.
Proof.
move=> Sz x n1 n2; apply: (smooth_ext (H := pend0 (Rinv 2))) Sz _ => [v Sv|]; first by rewrite /pendulum_energy pend0E.
have C k : (k < 12)%N -> smooth 12 z (fun v => nth 0 v k) by exact: smooth_coord.
have Q a b c : (a < 12)%N -> (b < 12)%N -> (c < 12)%N -> smooth 12 z (fun v => nth 0 v a ^+ 2 + nth 0 v b ^+ 2 + nth 0 v c ^+ 2).
  by move=> Ha Hb Hc; apply: smooth_add; [apply: smooth_add|]; apply: smooth_sqr; exact: C.
rewrite /pend0; apply: smooth_add.
  by apply: smooth_add; apply: smooth_scale; exact: Q.
apply: smooth_add; last by apply: smooth_add; exact: C.
apply: smooth_add.
  apply: smooth_scale; apply: smooth_sqr; apply: smooth_sub; last exact: smooth_const.
  by apply: smooth_sqrt; [exact: sq3_pos | exact: Q].
apply: smooth_sqr; apply: smooth_sub; last exact: smooth_const.
apply: smooth_sqrt.
  apply: sq3_pos => -[/eqP e1 /eqP e2 /eqP e3]; case: n2; rewrite /x.
  by move: e1 e2 e3; rewrite !subr_eq0 => /eqP -> /eqP -> /eqP ->.
by apply: smooth_add; [apply: smooth_add|]; apply: smooth_sqr; apply: smooth_sub; exact: C.
Qed.
