(** * RolloutSho: the harmonic oscillator. *)
From Coq Require Import Reals Lra.
From mathcomp Require Import all_ssreflect all_algebra.
From mathcomp Require Import zify.
From Verif Require Import Np Spec SpecLemmas LinOp LinOpSpec Rep RepSpec Rstruct Expm GrpSpec GroupsSpec GroupsFlag Data DataSpec DataAlg DataThm DataHamSpec DataHam DataHamThm TrainerFlow FlowSpec Smooth FlowThm FlowNet FlowGlobal Rollout RolloutSpec RolloutThm RolloutNet.
Set Implicit Arguments.
Unset Strict Implicit.
Unset Printing Implicit Defensive.
Import GRing.Theory.
Local Open Scope ring_scope.

Local Notation H := sho_energy.
(** the energy of a batch is the sum of the energies of its states *)
Lemma sho_batch bs (z : seq RR) : sho_H (Rinv 2 : RR) 2 bs z = Ok (\sum_(0 <= b < bs) sho_energy (row_of 2 b z)).
Proof.
rewrite /sho_H /= !rsumE; congr Ok; rewrite big_split !mulr_suml addrC /=.
by congr (_ + _); apply: eq_sum => b Hb; rewrite ?nth_row // expr2.
Qed.
Lemma sho_one (z : seq RR) : size z = 2%N -> sho_H (Rinv 2 : RR) 2 1 z = Ok (sho_energy z).
Proof. by move=> Sz; rewrite sho_batch big_nat1; case: z Sz => [|q [|p []]]. Qed.
Lemma half2 (x : RR) : (x + x) * (Rinv 2 : RR) = x.
Proof. change (Rmult (Rplus x x) (Rinv 2) = x); field. Qed.
Definition she : expr := EAdd (EMul (EMul (EVar 0) (EVar 0)) (ECst (Rinv 2))) (EMul (EMul (EVar 1) (EVar 1)) (ECst (Rinv 2))).
Lemma sheE (z : seq RR) : size z = (2 * 1)%N -> H z = ev z she. Proof. by []. Qed.
Lemma greE (q p : RR) : gre 1 she [:: q; p] = [:: q; p].
Proof. by rewrite /gre /mkseq /= !(mul0r, mulr0, addr0, add0r, mul1r, mulr1) !half2. Qed.
Lemma sho_gr gr : gradient_of 2 H gr -> forall z, size z = 2%N -> gr z = z.
Proof.
move=> G z Sz; rewrite (gre_uniq sheE G Sz); case: z Sz => [|q [|p []]] // _; exact: greE.
Qed.
Lemma sho_gradient gr : gradient_of 2 H gr <-> forall z, size z = 2%N -> gr z = z.
Proof.
split=> [|E z Sz]; first exact: sho_gr.
have := gre_ok sheE (z := z) Sz; rewrite E //; case: z Sz => [|q [|p []]] // _; by rewrite greE.
Qed.
Section Gr.
Variable gr : seq RR -> seq RR.
Hypothesis G : gradient_of 2 H gr.
Local Notation D := (hamiltonian_dynamics gr).
Lemma shoD q p : D [:: q; p] = Ok [:: p; - q].
Proof. by rewrite /hamiltonian_dynamics (sho_gr G). Qed.
Lemma sho_lip : locally_lipschitz 2 D.
Proof. exact: (smr_lip (ham_smr sheE G)). Qed.
Lemma sho_solves z : size z = 2%N -> solves 2 D (fun t => sho_flow t z).
Proof.
move=> Sz t; split=> //; rewrite {1}/sho_flow shoD; eexists; first by [].
set q : R := nth 0 z 0; set p : R := nth 0 z 1.
have Dc := derivable_pt_lim_cos t; have Ds := derivable_pt_lim_sin t.
case=> [|[|i]] // _ /=.
  have := derivable_pt_lim_plus _ _ _ _ _ (derivable_pt_lim_scal _ q _ _ Dc) (derivable_pt_lim_scal _ p _ _ Ds).
  apply: dl_ext => //; change (Rplus (Rmult q (Ropp (sin t))) (Rmult p (cos t)) = Rplus (Rmult p (cos t)) (Ropp (Rmult q (sin t)))); ring.
have := derivable_pt_lim_minus _ _ _ _ _ (derivable_pt_lim_scal _ p _ _ Dc) (derivable_pt_lim_scal _ q _ _ Ds).
apply: dl_ext => //; change (Rminus (Rmult p (Ropp (sin t))) (Rmult q (cos t)) = Ropp (Rplus (Rmult q (cos t)) (Rmult p (sin t)))); ring.
Qed.
Theorem sho_flow_of : flow_of 2 D sho_flow.
Proof.
move=> z Sz; split; last first.
- move=> s t; rewrite /sho_flow /= cos_plus sin_plus; congr [:: _; _].
    set q : R := nth 0 z 0; set p : R := nth 0 z 1.
    change (Rplus (Rmult q (Rminus (Rmult (cos s) (cos t)) (Rmult (sin s) (sin t)))) (Rmult p (Rplus (Rmult (sin s) (cos t)) (Rmult (cos s) (sin t)))) =
      Rplus (Rmult (Rplus (Rmult q (cos t)) (Rmult p (sin t))) (cos s)) (Rmult (Rplus (Rmult p (cos t)) (Ropp (Rmult q (sin t)))) (sin s))).
    by ring.
  set q : R := nth 0 z 0; set p : R := nth 0 z 1.
  change (Rplus (Rmult p (Rminus (Rmult (cos s) (cos t)) (Rmult (sin s) (sin t)))) (Ropp (Rmult q (Rplus (Rmult (sin s) (cos t)) (Rmult (cos s) (sin t))))) =
    Rplus (Rmult (Rplus (Rmult p (cos t)) (Ropp (Rmult q (sin t)))) (cos s)) (Ropp (Rmult (Rplus (Rmult q (cos t)) (Rmult p (sin t))) (sin s)))).
  by ring.
- exact: sho_solves.
case: z Sz => [|q [|p []]] // _; rewrite /sho_flow cos_0 sin_0 /=.
by rewrite !mulr1 !mulr0 addr0 subr0.
Qed.
Theorem sho_only a b c t0 t : solves_on a b 2 D c -> Rlt a t0 -> Rlt t0 b -> Rlt a t -> Rlt t b -> c t = sho_flow (Rminus t t0) (c t0).
Proof.
move=> S h1 h2 h3 h4; have [Sz _] := S t0 h1 h2; have [F0 _ _] := sho_flow_of Sz.
apply: (lip_unique sho_lip (a := a) (b := b) (s := t0) (c2 := fun t => sho_flow (Rminus t t0) (c t0)) S) => //.
  have := solves_shift t0 (a := Rminus a t0) (b := Rminus b t0) (c := fun t => sho_flow t (c t0)) (n := 2) (F := D).
  rewrite !(_ : forall x, Rplus (Rminus x t0) t0 = x); [|by move=> x; ring..]; apply=> u _ _; exact: sho_solves.
by rewrite /Rminus Rplus_opp_r.
Qed.
Theorem sho_rollout t0 ts z0 zs : size z0 = 2%N -> exact_rollout 2 D z0 (t0 :: ts) zs <-> zs = [seq sho_flow (Rminus t t0) z0 | t <- t0 :: ts].
Proof.
move=> Sz; split=> [[a [b [c [S T E0 ->]]]]|->].
  have [h1 h2] := T t0 (mem_head _ _); apply/eq_in_map => t /T[h3 h4].
  by rewrite (sho_only S h1 h2 h3 h4) -E0.
have [lo [hi Hl]] : exists lo hi, forall t, t \in t0 :: ts -> Rlt lo t /\ Rlt t hi.
  elim: (t0 :: ts) => [|t l [lo [hi IH]]]; first by exists R0, R0.
  exists (Rmin lo (Rminus t 1)), (Rmax hi (Rplus t 1)) => s; rewrite inE => /orP[/eqP ->|/IH[h1 h2]].
    by have := Rmin_r lo (Rminus t 1); have := Rmax_r hi (Rplus t 1); lra.
  by have := Rmin_l lo (Rminus t 1); have := Rmax_l hi (Rplus t 1); lra.
exists lo, hi, (fun t => sho_flow (Rminus t t0) z0); split=> //.
  have := solves_shift t0 (a := Rminus lo t0) (b := Rminus hi t0) (c := fun t => sho_flow t z0) (n := 2) (F := D).
  rewrite !(_ : forall x, Rplus (Rminus x t0) t0 = x); [|by move=> x; ring..]; apply=> u _ _; exact: sho_solves.
rewrite /= /Rminus Rplus_opp_r; by have [] := sho_flow_of Sz.
Qed.
Theorem sho_moves A : orthm 2 A -> isometry (sympl RR 1) A -> flow_preserves 2 D (takes 2 A).
Proof.
move=> O I a b c1 c2 s t S1 S2 h1 h2 h3 h4; apply: (flow_on sho_lip _ S1 S2 h1 h2 h3 h4) => z z' w T Ew.
have [a1 a2 _ _] := O; have [Sz Sz' _] := T.
have U : unchanged 2 A H.
  move=> y y' [_ _ E]; have := orth_sq O E; rewrite !big_nat_recr //= !big_geq // !add0r => Q.
  by rewrite /sho_energy -!mulrDl -!expr2 Q.
have [w0 [w' [E1 E2 Tw]]] := field_moved (m := 1) a1 a2 U I (G Sz) (G Sz') T.
by move: E1; rewrite Ew => -[->]; exists w'.
Qed.
Theorem sho_conserves : flow_conserves 2 D H.
Proof. by move=> a b c s t; exact: (@energy_on a b 1 H gr c s t G). Qed.
End Gr.
