(** * ExData2: the examples of the claims on the symmetry objects of the data sets and on
    Hamiltonian systems. *)
From Coq Require Import Reals Lra String.
From mathcomp Require Import all_ssreflect all_algebra.
From mathcomp Require Import zify.
From Verif Require Import Np NpLemmas Spec SpecLemmas LinOp LinOpSpec LinOpProofs LinOpInv Rep RepSpec RepWf RepCode RepAlg RepFun RhoProofs RepExpr Rstruct Expm GrpSpec GrpProofs ExGrp.
From Verif Require Import Groups GroupsSpec GroupsSpecR GroupsFlag GroupsReal ExactSpec GroupsExact GroupsExactL GroupsExactE Nn NnSpec NnThm ExNn.
From Verif Require Import Data DataSpec DataAlg DataThm ExData DataHamSpec DataGroups DataHam DataHamThm DataDiff DataPend.
Set Implicit Arguments.
Unset Strict Implicit.
Unset Printing Implicit Defensive.
Import GRing.Theory.
Local Open Scope ring_scope.

(** every custom representation is the defining one *)
Section Customs.
Variables (n : nat) (gs : pred gid).
Lemma n_customs : customs_ok exsinv linvE excr excr (ndim n) (ncs n) gs.
Proof.
split.
- by split=> M H g Hg; have [A E I] := H g Hg; exists A => //; split=> // c; exists A.
- by move=> c g A1 A2 A3 C1 C2 C3 Hg [_ _ _] [[<-] [<-] [<-]].
- move=> c g A C E F Hg [GA [<-] IE HF] H i j Hi Hj.
  have [a1 a2] := gop_sz GA.
  have Em t : meq (den (F t)) (expm (ndim n g) (den A) t).
    by have [<-] := HF t; apply: is_exp_expm => //; exact: H.
  have SA : sqn (ndim n g) (den A) by [].
  apply: dl_ext (dl_expm0 SA Hi Hj) => // t; have [e1 e2 e3] := Em t; rewrite e3 ?e1 ?e2 //.
by move=> c g a A1 A2 A3 C1 C2 C3 Hg [_ _ _] [[<-] [<-] [<-]].
Qed.
End Customs.
(** the hypotheses of the claims on the data set whose symmetry is the group object x *)
Definition ready (x : res (group RR)) (n : nat) : Prop :=
  exists G, [/\ x = Ok (G 0%N), customs_ok exsinv linvE excr excr (ndim n) (ncs n) (pred1 0%N),
    total_order_on (key (ndim n) (ncs n) le_asc (pred1 0%N)) le_asc,
    forall c, (0 < ncs n c 0)%N &
    forall c C M, element exsinv linvE (ndim n) (the_gens G) (the_lies G) 0%N M -> excr c (Some 0%N) M = Ok C ->
      g_orth (G 0%N) -> orthm (ncs n c 0%N) (den C)].
Lemma ready_iso x n P : (0 < n)%N -> exact_group x n P -> (forall X : fmat RR, fr X = n -> fc X = n -> P X -> isometry (fid RR n) X) -> ready x n.
Proof.
move=> n0 HX HP; have HX' := HX; case: HX' => G0 E _; exists (fun=> G0); split=> //; [exact: n_customs | exact: le_asc_total |].
move=> c C M EM EC _; have [a1 a2 /(HP _ a1 a2) I] := @elem_P exsinv linvE (ndim n) 0%N (fun=> G0) x n P M C HX E erefl EM EC.
have L : meq (fmul (ftr (den C)) (den C)) (fid RR n).
  apply: meq_trans I; apply: meq_fmul => //.
  by apply: meq_sym; rewrite -{1}a1; exact: fmul_id_l.
by split=> //; apply: (@one_sided RR n (ftr (den C)) (den C)).
Qed.
Lemma ready_tested x n G0 : (0 < n)%N -> x = Ok G0 -> tested n G0 -> ready x n.
Proof.
move=> n0 E HT; exists (fun=> G0); split=> //; [exact: n_customs | exact: le_asc_total |].
move=> c C M EM EC Og.
have HN : forall c C M, element exsinv linvE (ndim n) (the_gens (fun=> G0)) (the_lies (fun=> G0)) 0%N M ->
    (fun _ _ _ => Err TypeError : res (op RR)) c (Some 0%N) M = Ok C -> g_orth G0 -> orthm (ncs n c 0%N) (den C) by [].
have [H _] := @element_orth exsinv linvE (fun _ _ _ => Err TypeError) (ndim n) (ncs n) 0%N (fun=> G0) HT HN M EM 0%N (eqxx _) Og.
have [X GX HM] := EM; have [A'] := HM 0%N (eqxx _); rewrite (EC : glook M (Some 0%N) = Ok C) => -[<-] [[GA _] _].
by have [a1 a2] := gop_sz GA; have [h1 h2] := H C EC; split.
Qed.
Lemma ready_o n close : (1 < n)%N -> ready (g_o idR close n) n.
Proof. by move=> n1; apply: (@ready_iso _ n (isometry (fid RR n))); [lia | apply: exact_o; lia | ]. Qed.
Lemma ready_lorentz recip : ready (g_lorentz idR recip (@same RR)) 4.
Proof.
rewrite /g_lorentz; have [G0 E _] := @exact_o13 idR recip (@same RR) "Lorentz".
exact: (@ready_tested _ 4 G0 isT E (lor_tested E)).
Qed.
Lemma ready_o2er3 close : ready (g_o2er3 idR id close) 3.
Proof.
apply: (@ready_iso _ 3 _ isT (exact_o2er3 idR close)) => X a1 a2 [Y [y1 y2 I e]].
by have [I1 _] := plane_ok a1 a2 y1 y2 I e.
Qed.

(** ** the harmonic oscillator *)
Section Osc.
Variable n : nat.
Definition half_norm (z : seq RR) : RR := (Rinv 2 : RR) * \sum_(0 <= i < n) nth 0 z i * nth 0 z i.
Lemma half_norm_gradient : gradient_of n half_norm id.
Proof.
move=> z Sz; split=> // eps e0; exists eps => // v Sv Hv.
have K : half_norm (vadd n z v) - half_norm z - \sum_(0 <= i < n) nth 0 z i * nth 0 v i =
    \sum_(0 <= i < n) ((Rinv 2 : RR) * (nth 0 v i * nth 0 v i)).
  rewrite /half_norm -mulrBr -sumrB mulr_sumr -sumrB; apply: eq_sum => i Hi; rewrite nth_mkseq //.
  move: (nth 0 z i) (nth 0 v i) => a b.
  change (Rminus (Rmult (Rinv 2) (Rminus (Rmult (Rplus a b) (Rplus a b)) (Rmult a a))) (Rmult a b) = Rmult (Rinv 2) (Rmult b b)).
  by field.
set q := (X in Rle (Rabs X) _).
have -> : q = \sum_(0 <= i < n) ((Rinv 2 : RR) * (nth 0 v i * nth 0 v i)) by exact: K.
have L : Rle (Rabs (\sum_(0 <= i < n) ((Rinv 2 : RR) * (nth 0 v i * nth 0 v i)))) (\sum_(0 <= i < n) (Rmult eps (Rabs (nth 0 v i)) : RR)).
  apply: bnd_sum => i Hi; have h := Hv i Hi; have p := Rabs_pos (nth 0 v i).
  rewrite -[_ * (_ * _)]/(Rmult (Rinv 2) (Rmult (nth 0 v i) (nth 0 v i))) !Rabs_mult (Rabs_right (Rinv 2)); last by lra.
  have h2 := Rmult_le_compat_r _ _ _ p (Rlt_le _ _ h); have h3 := Rmult_le_pos _ _ p p; lra.
apply: Rle_trans L _; rewrite -[X in Rle X _]/(\sum_(0 <= i < n) ((eps : RR) * Rabs (nth 0 v i))) -mulr_sumr.
exact: Rle_refl.
Qed.
Lemma half_norm_moved D z z' : orth1 n D -> takes n D z z' -> half_norm z' = half_norm z.
Proof.
move=> [d1 d2 [_ _ H]] [S S' T]; rewrite /half_norm; congr (_ * _).
rewrite (eq_sum (g := fun i => \sum_(0 <= j < n) nth 0 z' i * (fe D i j * nth 0 z j))) => [|i Hi]; last first.
  by rewrite -mulr_sumr -T.
rewrite exchange_big_nat /=; apply: eq_sum => j Hj.
rewrite (eq_sum (g := fun i => (\sum_(0 <= k < n) fe D i j * fe D i k * nth 0 z k) * nth 0 z j)) => [|i Hi]; last first.
  by rewrite mulrA [_ * fe D i j]mulrC T // mulr_sumr; congr (_ * _); apply: eq_sum => k _; rewrite mulrA.
rewrite -mulr_suml; congr (_ * _); rewrite exchange_big_nat /= (sum_only (i := j)) //.
  rewrite -mulr_suml; have := H j j; rewrite /= d2 d1 => -> //; by rewrite eqxx mul1r.
move=> k Hk ne; rewrite -mulr_suml; have := H j k; rewrite /= d2 d1 => -> //.
by rewrite eq_sym (negbTE ne) mul0r.
Qed.
End Osc.
Definition circle (t : R) : seq RR := [:: (sin t : RR); (cos t : RR)].
Lemma circle_solves : solves 2 (hamiltonian_dynamics id) circle.
Proof.
move=> t; split=> //; exists [:: (cos t : RR); - (sin t : RR)] => // -[|[|]] // _ /=.
  exact: derivable_pt_lim_sin.
exact: derivable_pt_lim_cos.
Qed.
Lemma osc_ready n m rin : (0 < n)%N -> (0 < m)%N ->
  rep_of (ndim n) (fun=> true) (ncs n) le_asc 0%N (EMul (EInt (2 * m)%N) EV) rin ->
  [/\ total_order_on (key (ndim n) (ncs n) le_asc (pred1 0%N)) le_asc,
      isometries idR exsinv linvE excr (ndim n) (fun=> true) (ncs n) 0%N (fid RR n) (isos n (fid RR n)),
      forall M z z', isos n (fid RR n) M -> acts_rows idR exsinv linvE excr (ndim n) (ncs n) rin (fun=> M) 1 z z' ->
        half_norm (2 * (m * n)) z' = half_norm (2 * (m * n)) z &
      gradient_of (2 * (m * n)) (half_norm (2 * (m * n))) id].
Proof.
move=> n0 m0 Ri.
have O : total_order_on (key (ndim n) (ncs n) le_asc (pred1 0%N)) le_asc by exact: le_asc_total.
have HI : isometries idR exsinv linvE excr (ndim n) (fun=> true) (ncs n) 0%N (fid RR n) (isos n (fid RR n)).
  by apply: iso_arrays => //; exact: fid_iso.
split=> //; last exact: half_norm_gradient.
move=> M z z' HM A; pose Fi (S : comRingType) (X : fmat S) := fdsuml (nseq (2 * m) X).
have ei S X B : @espec S X B (EMul (EInt (2 * m)%N) EV) = Some (SMat (Fi S (X None))).
  by rewrite /Fi /=; case: (m) m0 => // k _; rewrite mulnS.
have [|_ AT] := @acts_takes exsinv linvE excr (ndim n) (fun=> true) (ncs n) le_asc 0%N O n0 (fun=> n0) (isos n (fid RR n)) _ Fi m n rin erefl HI ei _ Ri.
  by move=> S X _ _; exact: meq_refl.
by have [D [_ _ _ oD AP]] := AT M HM; apply: half_norm_moved oD _; apply/AP.
Qed.
