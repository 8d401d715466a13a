(** * TrainerFlow: solutions of z' = hamiltonian_dynamics(z) under symmetries; uniqueness of solutions. *)
From Coq Require Import Reals Lra.
From mathcomp Require Import all_ssreflect all_algebra.
From Verif Require Import Np Spec SpecLemmas LinOp LinOpSpec Rep RepSpec Rstruct Expm GrpSpec GroupsSpec Data DataSpec DataAlg DataThm DataHamSpec DataHam.
Set Implicit Arguments.
Unset Strict Implicit.
Unset Printing Implicit Defensive.
Import GRing.Theory.
Local Open Scope ring_scope.

(** A z *)
Definition apply_mat (n : nat) (A : fmat RR) (z : seq RR) : seq RR := mkseq (fun i => \sum_(0 <= j < n) fe A i j * nth 0 z j) n.
(** the squared distance *)
Definition dist2 (n : nat) (z z' : seq RR) : RR := \sum_(0 <= i < n) (nth 0 z i - nth 0 z' i) * (nth 0 z i - nth 0 z' i).
Lemma takes_apply n A z : size z = n -> takes n A z (apply_mat n A z).
Proof. by move=> S; split=> //; rewrite ?size_mkseq // => i Hi; rewrite nth_mkseq. Qed.
Lemma takes_fun n A z z' z'' : takes n A z z' -> takes n A z z'' -> z' = z''.
Proof.
move=> [_ s1 h1] [_ s2 h2]; apply: (@eq_from_nth _ 0); first by rewrite s1.
by move=> i; rewrite s1 => Hi; rewrite h1 // h2.
Qed.
Lemma sum_Rle n (f g : nat -> RR) : (forall i, (i < n)%N -> Rle (f i) (g i)) -> Rle (\sum_(0 <= i < n) f i) (\sum_(0 <= i < n) g i).
Proof.
elim: n => [|n IH] H; first by rewrite !big_geq //; exact: Rle_refl.
rewrite !big_nat_recr //=; apply: Rplus_le_compat; [apply: IH => i Hi; apply: H; exact: ltnW | exact: H].
Qed.
Lemma dist2_ge0 n z z' : Rle R0 (dist2 n z z').
Proof.
have -> : R0 = \sum_(0 <= i < n) (0 : RR) by rewrite big1.
by apply: sum_Rle => i _; rewrite /GRing.mul /=; apply: Rle_0_sqr.
Qed.
Lemma dist2_eq0 n z z' : size z = n -> size z' = n -> dist2 n z z' = 0 -> z = z'.
Proof.
move=> Sz Sz' E; apply: (@eq_from_nth _ 0); first by rewrite Sz.
rewrite Sz => k Hk.
have P i : Rle R0 ((nth 0 z i - nth 0 z' i) * (nth 0 z i - nth 0 z' i)) by rewrite /GRing.mul /=; apply: Rle_0_sqr.
have : Rle ((nth 0 z k - nth 0 z' k) * (nth 0 z k - nth 0 z' k)) R0.
  have -> : R0 = dist2 n z z' by rewrite E.
  exact: (@sum_ge (fun i => (nth 0 z i - nth 0 z' i) * (nth 0 z i - nth 0 z' i)) n k Hk P).
move: (P k) => h1 h2; have : (nth 0 z k - nth 0 z' k) * (nth 0 z k - nth 0 z' k) = 0 by apply: Rle_antisym.
by case/Rmult_integral => h; exact: Rminus_diag_uniq.
Qed.
(** Gronwall *)
Lemma decr (f : R -> R) (f' : R -> R) : (forall t, derivable_pt_lim f t (f' t)) -> (forall t, Rle (f' t) R0) ->
  forall s t, Rle s t -> Rle (f t) (f s).
Proof.
move=> D N s t L; case: (Rle_lt_or_eq_dec _ _ L) => [lt|->]; last by apply: Rle_refl.
have pr : derivable f by move=> x; exists (f' x); exact: D.
have [c [h1 h2]] := MVT_cor1 f s t pr lt.
have := derive_pt_eq_0 f c (f' c) (pr c) (D c) => E; rewrite E in h1.
by have := N c; nra.
Qed.
Lemma gronwall (u u' : R -> R) (K : R) : (forall t, derivable_pt_lim u t (u' t)) -> (forall t, Rle R0 (u t)) ->
  (forall t, Rle (Rabs (u' t)) (Rmult K (u t))) -> u R0 = R0 -> forall t, u t = R0.
Proof.
move=> D P B Z t; have Db s : Rle (u' s) (Rmult K (u s)) /\ Rle (Ropp (Rmult K (u s))) (u' s).
  by have := B s; split_Rabs; lra.
have DE k s : derivable_pt_lim (fun s => exp (Rmult k s)) s (Rmult k (exp (Rmult k s))).
  have D1 : derivable_pt_lim (fun s => Rmult k s) s k.
    by have := derivable_pt_lim_scal id k s _ (derivable_pt_lim_id s); rewrite Rmult_1_r.
  have := derivable_pt_lim_comp _ exp s k _ D1 (derivable_pt_lim_exp (Rmult k s)).
  by apply: dl_ext => //; exact: Rmult_comm.
have DG k s : derivable_pt_lim (fun s => Rmult (u s) (exp (Rmult k s))) s (Rmult (Rplus (u' s) (Rmult k (u s))) (exp (Rmult k s))).
  have := derivable_pt_lim_mult _ _ _ _ _ (D s) (DE k s); apply: dl_ext => //; by ring.
have ep s : Rlt R0 (exp s) := exp_pos s.
case: (Rle_lt_dec R0 t) => L.
  have := @decr _ _ (DG (Ropp K)) _ R0 t L; rewrite Z Rmult_0_l => H.
  have h : Rle (Rmult (u t) (exp (Rmult (Ropp K) t))) R0.
    by apply: H => s; have := Db s; have := ep (Rmult (Ropp K) s); nra.
  by have := P t; have := ep (Rmult (Ropp K) t); nra.
have N s : Rle (Ropp (Rmult (Rplus (u' s) (Rmult K (u s))) (exp (Rmult K s)))) R0.
  by have := Db s; have := ep (Rmult K s); nra.
have := @decr (fun s => Ropp (Rmult (u s) (exp (Rmult K s)))) _ (fun s => derivable_pt_lim_opp _ _ _ (DG K s)) N t R0 (Rlt_le _ _ L).
rewrite Z Rmult_0_l => h.
by have := P t; have := ep (Rmult K t); nra.
Qed.
(** two solutions that agree at time 0 agree *)
Theorem solutions_unique n F L (D : seq RR -> Prop) c1 c2 :
  (forall z z' w w', D z -> D z' -> F z = Ok w -> F z' = Ok w' -> Rle (dist2 n w w') (Rmult L (dist2 n z z'))) ->
  solves n F c1 -> solves n F c2 -> (forall t, D (c1 t)) -> (forall t, D (c2 t)) -> c1 R0 = c2 R0 -> forall t, c1 t = c2 t.
Proof.
move=> HL S1 S2 D1 D2 E t.
pose val t := if F (c1 t) is Ok w then if F (c2 t) is Ok w' then (w, w') else ([::], [::]) else ([::], [::]).
have V s : F (c1 s) = Ok (val s).1 /\ F (c2 s) = Ok (val s).2.
  by rewrite /val; have [_ [w -> _]] := S1 s; have [_ [w' -> _]] := S2 s.
pose u s : RR := dist2 n (c1 s) (c2 s).
pose u' s : RR := \sum_(0 <= i < n) ((nth 0 (val s).1 i - nth 0 (val s).2 i) * (nth 0 (c1 s) i - nth 0 (c2 s) i) +
   (nth 0 (c1 s) i - nth 0 (c2 s) i) * (nth 0 (val s).1 i - nth 0 (val s).2 i)).
have Du s : derivable_pt_lim u s (u' s).
  apply: (@dl_sum (fun i s => (nth 0 (c1 s) i - nth 0 (c2 s) i) * (nth 0 (c1 s) i - nth 0 (c2 s) i) : RR)) => i Hi.
  have [v1 v2] := V s; have [_ [w Ew Dw]] := S1 s; have [_ [w' Ew' Dw']] := S2 s.
  have [Iw Iw'] : w = (val s).1 /\ w' = (val s).2 by move: v1 v2; rewrite Ew Ew' => -[->] [->].
  have Dd : derivable_pt_lim (fun s => nth 0 (c1 s) i - nth 0 (c2 s) i : RR) s (nth 0 (val s).1 i - nth 0 (val s).2 i).
    rewrite -Iw -Iw'; exact: (derivable_pt_lim_minus _ _ _ _ _ (Dw i Hi) (Dw' i Hi)).
  exact: (dl_mul Dd Dd).
have Bu s : Rle (Rabs (u' s)) (Rmult (Rplus R1 L) (u s)).
  have [v1 v2] := V s; have LL := HL _ _ _ _ (D1 s) (D2 s) v1 v2.
  pose sm : RR := u s + dist2 n (val s).1 (val s).2; pose ms : RR := - sm.
  suff [h1 h2] : Rle (u' s) sm /\ Rle ms (u' s).
    move: LL h1 h2; rewrite /ms /sm -/(u s); move: (u s) (u' s) (dist2 n _ _) => a b c; rewrite /GRing.add /GRing.opp /= => LL h1 h2.
    by split_Rabs; lra.
  split.
    rewrite /sm /u /u' /dist2 -big_split /=; apply: sum_Rle => i _.
    set a := nth 0 (c1 s) i - nth 0 (c2 s) i; set b := nth 0 _ _ - nth 0 _ _; rewrite /GRing.add /GRing.mul /=.
    by have := Rle_0_sqr (Rminus a b); rewrite /Rsqr; nra.
  rewrite /ms /sm /u /u' /dist2 -big_split -sumrN /=; apply: sum_Rle => i _.
  set a := nth 0 (c1 s) i - nth 0 (c2 s) i; set b := nth 0 _ _ - nth 0 _ _; rewrite /GRing.add /GRing.mul /GRing.opp /=.
  by have := Rle_0_sqr (Rplus a b); rewrite /Rsqr; nra.
have Z : u R0 = R0 by rewrite /u E /dist2 big1 // => i _; rewrite subrr mul0r.
have U := gronwall Du (fun s => dist2_ge0 n _ _) Bu Z t.
by apply: dist2_eq0 U; [case: (S1 t) | case: (S2 t)].
Qed.
Section Moved.
Variables (m : nat) (A : fmat RR) (H : seq RR -> RR) (gr : seq RR -> seq RR).
Local Notation n := (2 * m)%N.
Hypothesis Afr : fr A = n.
Hypothesis Afc : fc A = n.
Hypothesis AI : isometry (sympl RR m) A.
Hypothesis AU : unchanged n A H.
(** symmetries map solutions to solutions *)
Theorem solution_moved c : (forall t, gradient_at n H (c t) (gr (c t))) ->
  (forall t, gradient_at n H (apply_mat n A (c t)) (gr (apply_mat n A (c t)))) ->
  solves n (hamiltonian_dynamics gr) c -> solves n (hamiltonian_dynamics gr) (fun t => apply_mat n A (c t)).
Proof.
move=> G1 G2 S t; have [Sz [w0 E0 D0]] := S t.
have [w [w' [Ew Ew' T]]] := field_moved Afr Afc AU AI (G1 t) (G2 t) (takes_apply A Sz).
split; first by rewrite size_mkseq.
exists w' => // i Hi; have [Sw Sw' ->] := T; last by [].
apply: (@dl_ext (fun s => \sum_(0 <= j < n) fe A i j * nth 0 (c s) j)).
- by move=> s; rewrite nth_mkseq.
- by [].
apply: (@dl_sum (fun j s => fe A i j * nth 0 (c s) j : RR)) => j Hj; apply: dl_cmul.
by move: Ew; rewrite E0 => -[<-]; exact: D0.
Qed.
Lemma ham_dist z z' w w' : size (gr z) = n -> size (gr z') = n -> hamiltonian_dynamics gr z = Ok w -> hamiltonian_dynamics gr z' = Ok w' ->
  dist2 n w w' = dist2 n (gr z) (gr z').
Proof.
move=> s1 s2 E E'; have [v Ev [Sv Hv]] := sform_nth s1; have [v' Ev' [Sv' Hv']] := sform_nth s2.
move: E E'; rewrite /hamiltonian_dynamics Ev Ev' => -[<-] [<-] {w w'}.
have SP (f : nat -> RR) : \sum_(0 <= i < n) f i = \sum_(0 <= i < m) f i + \sum_(0 <= i < m) f (m + i)%N.
  rewrite mul2n -addnn (@big_cat_nat _ _ _ m) ?leq_addr //=; congr (_ + _).
  by rewrite -{1}[m]add0n big_addn addnK; apply: eq_bigr => i _; rewrite addnC.
rewrite /dist2 !SP addrC; congr (_ + _); apply: eq_sum => i Hi; last by rewrite (Hv _ Hi).1 (Hv' _ Hi).1.
by rewrite (Hv _ Hi).2 (Hv' _ Hi).2 -opprD mulNr mulrN opprK.
Qed.
Variables (L : R) (D : seq RR -> Prop) (phi : R -> seq RR -> seq RR).
Hypothesis Dg : forall z, D z -> size z = n /\ gradient_at n H z (gr z).
Hypothesis DL : forall z z', D z -> D z' -> Rle (dist2 n (gr z) (gr z')) (Rmult L (dist2 n z z')).
Hypothesis DA : forall z, D z -> D (apply_mat n A z).
Hypothesis phi0 : forall z, D z -> phi R0 z = z.
Hypothesis phiS : forall z, D z -> solves n (hamiltonian_dynamics gr) (fun t => phi t z).
Hypothesis phiD : forall z t, D z -> D (phi t z).
(** the exact flow commutes with the symmetries *)
Theorem flow_equivariant z t : D z -> phi t (apply_mat n A z) = apply_mat n A (phi t z).
Proof.
move=> Dz; have DAz := DA Dz.
apply: (@solutions_unique n (hamiltonian_dynamics gr) L D (fun t => phi t (apply_mat n A z)) (fun t => apply_mat n A (phi t z))).
- move=> y y' w w' Dy Dy' E E'; rewrite (ham_dist _ _ E E'); [exact: DL | exact: (Dg Dy).2.1 | exact: (Dg Dy').2.1].
- exact: phiS.
- apply: solution_moved (phiS Dz) => s; first exact: (Dg (phiD s Dz)).2.
  exact: (Dg (DA (phiD s Dz))).2.
- by move=> s; exact: phiD.
- by move=> s; apply: DA; exact: phiD.
- by rewrite !phi0.
Qed.
End Moved.
