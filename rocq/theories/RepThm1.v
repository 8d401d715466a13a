(** * RepThm1: the results on representations of one group, as used by PropRep. *)
From mathcomp Require Import all_ssreflect all_algebra.
From mathcomp Require Import zify.
From Verif Require Import Np NpLemmas Spec SpecLemmas LinOp LinOpSpec LinOpProofs LinOpMM LinOpMore LinOpInv LinOpThm Rep RepSpec RepMat RepWf RepProd RepAlg RepDist RepMul RepFun RepOps RepExpr RepExprProofs RepDefer RhoProofs RepThm DualNum DrhoProofs DrhoThm.
Set Implicit Arguments.
Unset Strict Implicit.
Unset Printing Implicit Defensive.
Import GRing.Theory.
Local Open Scope ring_scope.

(** ** drho of a sum, product, ... from the same fact about rho over dual numbers *)
Section Transfer.
Variable R : comRingType.
Variables (gdim : gid -> nat) (csize : nat -> gid -> nat) (le : rel rep) (gs : pred gid).
Local Notation sz := (rsize gdim csize).
Local Notation atomic := (atomic gdim csize gs).
Local Notation wfr := (wfr gdim csize le gs).
Local Notation S := (dual_comRingType R).
Local Notation fe1 := (feps (dconst_rmorphism R) (eps R)).
Variable a : rep -> fmat R.
Hypothesis Ha : forall k, atomic k -> sqn (sz k) (a k).
Definition ae (k : rep) : fmat S := fe1 (a k).

Lemma ae_kok k : atomic k -> kok ae sz k.
Proof. by move=> /Ha[h1 h2]. Qed.

Lemma from_eps r X : wfr r -> meq (rmat ae r) (fe1 X) -> meq (dmat a r) X.
Proof.
move=> W H; apply: feps_inj; apply: meq_trans H; apply: meq_sym; exact: (dmat_eps W Ha).
Qed.

Lemma tr_add b c r : wfr b -> wfr c -> wfr r -> meq (rmat ae r) (fdsum (rmat ae b) (rmat ae c)) ->
  meq (dmat a r) (fdsum (dmat a b) (dmat a c)).
Proof.
move=> Wb Wc Wr H; apply: (from_eps Wr); apply: meq_trans H _.
apply: meq_trans (meq_fdsum (dmat_eps Wb Ha) (dmat_eps Wc Ha)) _.
exact: feps_dsum (dmat_sqn Wb Ha) (dmat_sqn Wc Ha).
Qed.

Lemma tr_mul b c r : wfr b -> wfr c -> wfr r -> (0 < sz c)%N -> meq (rmat ae r) (fkron (rmat ae b) (rmat ae c)) ->
  meq (dmat a r) (fkronsum (dmat a b) (dmat a c)).
Proof.
move=> Wb Wc Wr P H; apply: (from_eps Wr); apply: meq_trans H _.
apply: meq_trans (meq_fkron (dmat_eps Wb Ha) (dmat_eps Wc Ha)) _.
exact: feps_kron (eps2 R) (dmat_sqn Wb Ha) (dmat_sqn Wc Ha) P.
Qed.
End Transfer.

(** ** the meaning of an expression: congruence, and first order part *)
Section Expr.
Variable R : comRingType.

Definition seq_rel (s t : sval R) : Prop :=
  match s, t with SInt m, SInt n => m = n | SMat X, SMat Y => meq X Y | _, _ => False end.

Lemma espec_meq e : forall (A A' B B' : option nat -> fmat R), (forall l, meq (A l) (A' l)) -> (forall l, meq (B l) (B' l)) ->
  match espec A B e, espec A' B' e with
  | Some s, Some t => seq_rel s t | None, None => True | _, _ => False end.
Proof.
elim: e => [|c||n|a IHa b IHb|a IHa b IHb|a IHa|a IHa n] A A' B B' HA HB //=; try exact: meq_refl.
- have := IHa _ _ _ _ HA HB; have := IHb _ _ _ _ HA HB.
  case: (espec A B a) => [[m|X]|]; case: (espec A' B' a) => [[m'|X']|] //;
  case: (espec A B b) => [[k|Y]|]; case: (espec A' B' b) => [[k'|Y']|] //=.
  + by move=> -> ->.
  + by move=> H ->; apply: meq_fdsum => //; apply: meq_refl.
  + by move=> -> H; apply: meq_fdsum => //; apply: meq_refl.
  + by move=> H1 H2; apply: meq_fdsum.
- have := IHa _ _ _ _ HA HB; have := IHb _ _ _ _ HA HB.
  case: (espec A B a) => [[m|X]|]; case: (espec A' B' a) => [[m'|X']|] //;
  case: (espec A B b) => [[k|Y]|]; case: (espec A' B' b) => [[k'|Y']|] //=.
  + by move=> -> ->.
  + by move=> H ->; case: m' => [|m'] //=; apply: (meq_nseq_sum m'.+1).
  + by move=> -> H; case: k' => [|k'] //=; apply: (meq_nseq_sum k'.+1).
  + by move=> H1 H2; apply: meq_fkron.
- by have := IHa _ _ _ _ HB HA; case: (espec B A a) => [[m|X]|]; case: (espec B' A' a) => [[m'|X']|].
- have := IHa _ _ _ _ HA HB; case: (espec A B a) => [[m|X]|]; case: (espec A' B' a) => [[m'|X']|] //=.
  + by move=> ->.
  + by move=> H; apply: meq_nseq_kron.
Qed.

Local Notation S := (dual_comRingType R).
Local Notation f := (dconst_rmorphism R).
Local Notation fe1 := (feps (dconst_rmorphism R) (eps R)).
Definition sqp (X : fmat R) := fr X = fc X /\ (0 < fr X)%N.

Lemma meq_fkronl_nseq n (X Y : fmat S) : meq X Y -> meq (fkronl (nseq n X)) (fkronl (nseq n Y)).
Proof. by move=> H; elim: n => [|n IH] /=; [apply: meq_refl | apply: meq_fkron]. Qed.

Lemma espec_eps e : forall (A B : option nat -> fmat R), (forall l, sqp (A l)) -> (forall l, sqp (B l)) ->
  match dspec A B e, espec (fun l => fe1 (A l)) (fun l => fe1 (B l)) e with
  | Some (SInt m), Some (SInt n) => m = n
  | Some (SMat X), Some (SMat Y) => sqp X /\ meq Y (fe1 X)
  | None, None => True | _, _ => False end.
Proof.
have eid n : meq (fid S n) (fe1 (fzero R n n)) by apply: meq_sym; apply: feps0.
have sqpn X : sqp X -> sqn (fr X) X by case=> E _; split.
have esum X X' Y Y' : sqp X -> fr X' = fc X' -> meq Y (fe1 X) -> meq Y' (fe1 X') -> sqp (fdsum X X') /\ meq (fdsum Y Y') (fe1 (fdsum X X')).
  move=> SX SX' H H'; split; first by case: SX => E P; split; rewrite /= ?E ?SX' ?addn_gt0 // -E P.
  apply: meq_trans (meq_fdsum H H') _; apply: feps_dsum (sqpn _ SX) _; first split=> //.
have edl n X Y : sqp X -> meq Y (fe1 X) -> (n = 0%N \/ sqp (fdsuml (nseq n X))) /\
   fr (fdsuml (nseq n X)) = fc (fdsuml (nseq n X)) /\ meq (fdsuml (nseq n Y)) (fe1 (fdsuml (nseq n X))).
  move=> SX H; elim: n => [|n [_ [E1 E2]]] /=; first by split; [left | split=> //; split].
  have [K1 K2] := esum _ _ _ _ SX E1 H E2; split; first by right.
  by split=> //; case: K1.
elim: e => [|c||n|a IHa b IHb|a IHa b IHb|a IHa|a IHa n] A B HA HB //=; try by split=> //; apply: meq_refl.
- have := IHa _ _ HA HB; have := IHb _ _ HA HB.
  case: (dspec A B a) => [[m|X]|]; case: (espec _ _ a) => [[m'|X']|] //;
  case: (dspec A B b) => [[k|Y]|]; case: (espec _ _ b) => [[k'|Y']|] //=.
  + by move=> -> ->.
  + move=> [SY H] ->; split.
      by case: SY => E P; split; rewrite /= ?E // -E addn_gt0 P orbT.
    apply: meq_trans (meq_fdsum (eid _) H) _; apply: feps_dsum (sqpn _ SY); by split.
  + by move=> -> [SX H]; apply: esum.
  + by move=> [SY H] [SX H']; apply: esum => //; case: SY.
- have := IHa _ _ HA HB; have := IHb _ _ HA HB.
  case: (dspec A B a) => [[m|X]|]; case: (espec _ _ a) => [[m'|X']|] //;
  case: (dspec A B b) => [[k|Y]|]; case: (espec _ _ b) => [[k'|Y']|] //=.
  + by move=> -> ->.
  + by move=> [SY H] ->; case: m' => [|m'] //=; have [[//|E1] [E2 E3]] := edl m'.+1 _ _ SY H.
  + by move=> -> [SY H]; case: k' => [|m'] //=; have [[//|E1] [E2 E3]] := edl m'.+1 _ _ SY H.
  + move=> [SY H] [SX H']; split.
      by case: SX SY => E P [E' P']; split; rewrite /= ?E ?E' // -?E -?E' muln_gt0 P P'.
    apply: meq_trans (meq_fkron H' H) _.
    by apply: (feps_kron f (eps2 R) (sqpn _ SX) (sqpn _ SY)); case: SY.
- by have := IHa _ _ HB HA; case: (dspec B A a) => [[m|X]|]; case: (espec _ _ a) => [[m'|X']|].
- have := IHa _ _ HA HB; case: (dspec A B a) => [[m|X]|]; case: (espec _ _ a) => [[m'|X']|] //=.
  + by move=> ->.
  + move=> [SX H]; elim: (n) => [|k [IH1 IH2]] /=; first by split.
    split; first by case: SX IH1 => E P [E' P']; split; rewrite /= ?E ?E' // -?E -?E' muln_gt0 P P'.
    apply: meq_trans (meq_fkron H IH2) _.
    by apply: (feps_kron f (eps2 R) (sqpn _ SX) (sqpn _ IH1)); case: IH1.
Qed.
End Expr.

(** ** vec(W) and intertwiners *)
Section Vec.
Variable R : comRingType.
Implicit Types (A B : fmat R).

(** (B (x) C) vec(W) = vec(B W C^T) *)
Lemma kron_vec nb na B C (w : seq R) : sqn nb B -> sqn na C -> size w = (nb * na)%N -> (0 < na)%N ->
  flat (fmul (fkron B C) (unflat (nb * na) 1 w)) = flat (fmul (fmul B (unflat nb na w)) (ftr C)).
Proof.
move=> [b1 b2] [c1 c2] Sw na0.
have -> : flat (fmul (fmul B (unflat nb na w)) (ftr C)) =
    flat (FM (nb * na) 1 (fun t _ => fe (fmul (fmul B (unflat nb na w)) (ftr C)) (t %/ na) (t %% na))).
  rewrite /flat; cbn [fr fc fmul ftr unflat]; rewrite b1 c1 muln1.
  by apply: eq_mkseq => t; rewrite divn1 modn1.
apply: flat_meq; split; rewrite /= ?b1 ?c1 // => i j Hi; rewrite ltnS leqn0 => /eqP ->.
rewrite b2 c2 sum_mul.
have -> : \sum_(0 <= j1 < na) (\sum_(0 <= j0 < nb) fe B (i %/ na) j0 * nth 0 w (j0 * na + j1)%N) * fe C (i %% na) j1 =
   \sum_(0 <= j1 < na) \sum_(0 <= j0 < nb) fe B (i %/ na) j0 * nth 0 w (j0 * na + j1)%N * fe C (i %% na) j1.
  by apply: eq_sum => l _; rewrite mulr_suml.
rewrite exchange_big /=; apply: eq_sum => k Hk; apply: eq_sum => l Hl.
by rewrite divnMDl // (divn_small Hk) modnMDl (modn_small Hk) muln1 !addn0 mulrAC.
Qed.

Lemma fixed_iff nb na A Ai B (w : seq R) : sqn nb B -> invTn na A Ai -> size w = (nb * na)%N -> (0 < na)%N ->
  (flat (fmul (fkron B Ai) (unflat (nb * na) 1 w)) = w <->
   meq (fmul B (unflat nb na w)) (fmul (unflat nb na w) A)).
Proof.
move=> SB [[a1 a2 i1 i2] [I1 I2]] Sw na0; have [b1 b2] := SB.
rewrite (kron_vec SB (conj i1 i2)) //; set W := unflat nb na w.
have -> : flat (fmul (fmul B W) (ftr Ai)) = w <-> meq (fmul (fmul B W) (ftr Ai)) W.
  split=> [H|H]; last by rewrite (flat_meq H) flat_unflat.
  apply: flat_inj; rewrite /= ?b1 ?i1 //; by rewrite H flat_unflat.
split=> H.
  apply: meq_trans (meq_fmul H (meq_refl A) _); last by rewrite /= i1 a1.
  apply: meq_trans (fmul_assoc _ _ _).
  apply: meq_sym; apply: meq_trans (fmul_id_r (n := na) _) => //.
  by apply: meq_fmul (meq_refl _) I2 _; rewrite /= i2.
apply: meq_trans (meq_fmul H (meq_refl _) _) _; first by rewrite /= i2.
apply: meq_trans (meq_sym (fmul_assoc _ _ _)) _.
apply: meq_trans (fmul_id_r (n := na) _) => //.
by apply: meq_fmul (meq_refl _) I1 _; rewrite /= a1.
Qed.
End Vec.

Section Many.
Variable R : comRingType.
Variable conj : R -> R.
Variable cdrho : nat -> option gid -> gel R -> res (op R).
Variables (gdim : gid -> nat) (csize : nat -> gid -> nat).
Variables (le : rel rep) (gs : pred gid).
Local Notation sz := (rsize gdim csize).
Local Notation key := (key gdim csize le gs).
Local Notation wfr := (wfr gdim csize le gs).
Local Notation drho_dense := (drho_dense conj cdrho).
Local Notation lie_elem := (lie_elem conj cdrho gdim csize gs).
Local Notation adrho := (adrho cdrho).
Hypothesis O : total_order_on key le.
Let drok := @drho_dense_ok R conj cdrho gdim csize le gs.
Let udm := @unflat_dmat R conj cdrho gdim csize le gs.

Lemma dadd_thm a b M : wfr a -> wfr b -> lie_elem M ->
  exists r Da Db, [/\ add gdim csize le a b = Ok r,
    drho_dense a M = Ok (sz a, sz a, Da), drho_dense b M = Ok (sz b, sz b, Db) &
    drho_dense r M = Ok (sz a + sz b, sz a + sz b, bdiag (sz a) Da (sz b) Db)%N].
Proof.
move=> Wa Wb HM; have HA k Hk := @adrho_sqn R conj cdrho gdim csize gs M k HM Hk.
have [r E [H1 H2 H3]] := add_ok O (ae_kok HA) Wa Wb.
have Wr := issum_wfr H1.
exists r, (flat (dmat (adrho M) a)), (flat (dmat (adrho M) b)); split=> //; try exact: drok.
rewrite drok // H2 (flat_meq (tr_add HA Wa Wb Wr H3)); congr (Ok (_, _)).
by apply: flat_meq; apply: meq_fdsum; apply: meq_sym; apply: udm.
Qed.

End Many.

(** ** sizes, without reference to matrices *)
Section Sizes.
Variables (gdim : gid -> nat) (gorth : gid -> bool) (csize : nat -> gid -> nat).
Variables (le : rel rep).
Local Notation sz := (rsize gdim csize).
Let at0 k := fid int_comRing (sz k).

Lemma size_py_ok gs r : wfr gdim csize le gs r -> size_py gdim csize r = Ok (sz r).
Proof.
case/orP=> [|]; last by case: r.
case/or4P=> [/eqP -> //|H|H|H]; [exact: atomic_size H | by case: r H | by case: r H].
Qed.

Lemma add_size gs a b : total_order_on (key gdim csize le gs) le -> wfr gdim csize le gs a -> wfr gdim csize le gs b ->
  exists r, [/\ add gdim csize le a b = Ok r, wfr gdim csize le gs r & size_py gdim csize r = Ok (sz a + sz b)%N].
Proof.
move=> O Wa Wb; have [|r E [H1 H2 _]] := @add_ok gdim csize le gs O int_comRing at0 _ a b Wa Wb; first by [].
by have W := issum_wfr H1; exists r; split=> //; rewrite (size_py_ok W) H2.
Qed.

Variable g : gid.
Local Notation wfr := (wfr gdim csize le (pred1 g)).
Hypothesis O : total_order_on (key gdim csize le (pred1 g)) le.
Let Hgs : forall h, pred1 g h -> h = g. Proof. by move=> h /eqP. Qed.

Lemma mul_size a b : wfr a -> wfr b ->
  exists r, [/\ mul gdim csize le a b = Ok r, wfr r & size_py gdim csize r = Ok (sz a * sz b)%N].
Proof.
move=> Wa Wb; have [|r E [H1 H2 _]] := @mul_ok gdim csize le g (pred1 g) Hgs O int_comRing at0 _ a b Wa Wb; first by [].
by exists r; split=> //; rewrite (size_py_ok H1) H2.
Qed.
Lemma tr_size a : wfr a ->
  exists r, [/\ tr gdim gorth csize le a = Ok r, wfr r & size_py gdim csize r = Ok (sz a)].
Proof.
move=> Wa; have [|r E [H1 H2 _]] := @tr_ok gdim gorth csize le g (pred1 g) Hgs O int_comRing at0 _ a Wa; first by [].
by exists r; split=> //; rewrite (size_py_ok H1) H2.
Qed.
Lemma mulint_size a n : wfr a ->
  exists r, [/\ mul_int gdim csize le a (Posz n.+1) = Ok (VRep r), wfr r & size_py gdim csize r = Ok (n.+1 * sz a)%N].
Proof.
move=> Wa; have [|r E [H1 H2 _]] := @mul_int_ok gdim csize le (pred1 g) O int_comRing at0 _ a n.+1 Wa isT; first by [].
by exists r; split=> //; rewrite (size_py_ok H1) H2.
Qed.
Lemma pow_size a n : wfr a ->
  exists r, [/\ pow gdim csize le a n = Ok r, wfr r & size_py gdim csize r = Ok (sz a ^ n)%N].
Proof.
move=> Wa; have [|r E [H1 H2 _]] := @pow_ok gdim csize le g (pred1 g) Hgs O int_comRing at0 _ a n Wa; first by [].
by exists r; split=> //; rewrite (size_py_ok H1) H2.
Qed.
End Sizes.

Section One.
Variable R : comRingType.
Variables (conj sinv : R -> R) (linv : nat -> seq R -> seq R).
Variables (crho cdrho : nat -> option gid -> gel R -> res (op R)).
Variables (gdim : gid -> nat) (gorth : gid -> bool) (csize : nat -> gid -> nat).
Variables (le : rel rep) (g : gid).
Local Notation gs := (pred1 g).
Local Notation sz := (rsize gdim csize).
Local Notation atomic := (atomic gdim csize gs).
Local Notation key := (key gdim csize le gs).
Local Notation wfr := (wfr gdim csize le gs).
Local Notation rho_dense := (rho_dense conj sinv linv crho).
Local Notation drho_dense := (drho_dense conj cdrho).
Local Notation group_elem := (group_elem conj sinv linv crho gdim csize gs).
Local Notation lie_elem := (lie_elem conj cdrho gdim csize gs).
Local Notation orth_elem := (orth_elem crho gdim csize gorth gs).
Local Notation orth_lie := (orth_lie cdrho gorth gs).
Local Notation arho := (arho sinv linv crho).
Local Notation adrho := (adrho cdrho).
Local Notation ta := (ta gorth).
Let Hgs : forall h, gs h -> h = g. Proof. by move=> h /eqP. Qed.
Hypothesis O : total_order_on key le.
Let rok := @rho_dense_ok R conj sinv linv crho gdim csize le gs.
Let drok := @drho_dense_ok R conj cdrho gdim csize le gs.
Let urm := @unflat_rmat R conj sinv linv crho gdim csize le gs.
Let udm := @unflat_dmat R conj cdrho gdim csize le gs.

Lemma wfr_sz r : wfr r -> (0 < sz r)%N.
Proof.
case/orP=> [|]; first exact: nonsum_sz.
case: r => // d p /andP[/and5P[NE A _ _ C] _] /=; rewrite -sumn_dexp.
case: d NE A C => [|[k [|c]] d] //= _ /andP[/andP[N _] _] _.
by rewrite addn_gt0 (nonsum_sz N).
Qed.

Lemma mul_thm a b M : wfr a -> wfr b -> group_elem M ->
  exists r Da Db, [/\ mul gdim csize le a b = Ok r, wfr r,
    rho_dense a M = Ok (sz a, sz a, Da), rho_dense b M = Ok (sz b, sz b, Db) &
    rho_dense r M = Ok (sz a * sz b, sz a * sz b, kron2 (sz a) Da (sz b) Db)%N].
Proof.
move=> Wa Wb HM.
have [r E [H1 H2 H3]] := mul_ok Hgs O (fun k Hk => arho_kok HM Hk) Wa Wb.
exists r, (flat (rmat (arho M) a)), (flat (rmat (arho M) b)); split=> //; try exact: rok.
rewrite rok // H2 (flat_meq H3); congr (Ok (_, _)).
by apply: flat_meq; apply: meq_fkron; apply: meq_sym; apply: urm.
Qed.

Lemma dmul_thm a b M : wfr a -> wfr b -> lie_elem M ->
  exists r Da Db, [/\ mul gdim csize le a b = Ok r, wfr r,
    drho_dense a M = Ok (sz a, sz a, Da), drho_dense b M = Ok (sz b, sz b, Db) &
    drho_dense r M = Ok (sz a * sz b, sz a * sz b, kronsum2 (sz a) Da (sz b) Db)%N].
Proof.
move=> Wa Wb HM; have HA k Hk := @adrho_sqn R conj cdrho gdim csize gs M k HM Hk.
have [r E [H1 H2 H3]] := mul_ok Hgs O (ae_kok HA) Wa Wb.
exists r, (flat (dmat (adrho M) a)), (flat (dmat (adrho M) b)); split=> //; try exact: drok.
rewrite drok // H2 (flat_meq (tr_mul HA Wa Wb H1 (wfr_sz Wb) H3)); congr (Ok (_, _)).
have [a1 a2] := dmat_sq HM Wa; have [b1 b2] := dmat_sq HM Wb.
apply: flat_meq; apply: meq_fkronsum; rewrite ?a1 ?a2 ?b1 ?b2 //; apply: meq_sym; exact: udm.
Qed.

Lemma pow_thm a n M : wfr a -> group_elem M ->
  exists r Da, [/\ pow gdim csize le a n = Ok r, wfr r, rho_dense a M = Ok (sz a, sz a, Da) &
    rho_dense r M = Ok (sz a ^ n, sz a ^ n, flat (fkronl (nseq n (unflat (sz a) (sz a) Da))))%N].
Proof.
move=> Wa HM.
have [r E [H1 H2 H3]] := pow_ok Hgs O (fun k Hk => arho_kok HM Hk) n Wa.
exists r, (flat (rmat (arho M) a)); split=> //; first exact: rok.
rewrite rok // H2 (flat_meq H3); congr (Ok (_, _)).
by apply: flat_meq; apply: meq_nseq_kron; apply: meq_sym; apply: urm.
Qed.

Lemma scalar_copies n M : group_elem M -> exists r, [/\ mul_int gdim csize le RScalar (Posz n.+1) = Ok (VRep r), wfr r, sz r = n.+1 &
    meq (rmat (arho M) r) (fid R n.+1)].
Proof.
move=> HM.
have [r E [W S M']] := @mul_int_ok gdim csize le gs O R (arho M) (fun k Hk => arho_kok HM Hk) RScalar n.+1 isT isT.
exists r; split=> //; first by rewrite S /= muln1.
apply: meq_trans M' _; exact: fdsuml_fid1.
Qed.

Lemma addint_thm a n M : wfr a -> group_elem M ->
  exists r r' Da, [/\ add_val gdim csize le (VRep a) (VInt (Posz n)) = Ok (VRep r),
    add_val gdim csize le (VInt (Posz n)) (VRep a) = Ok (VRep r'),
    rho_dense a M = Ok (sz a, sz a, Da),
    rho_dense r M = Ok (sz a + n, sz a + n, flat (fdsum (unflat (sz a) (sz a) Da) (fid R n)))%N &
    rho_dense r' M = Ok (n + sz a, n + sz a, flat (fdsum (fid R n) (unflat (sz a) (sz a) Da)))%N].
Proof.
move=> Wa HM; have U := urm HM Wa.
case: n => [|n].
  exists a, a, (flat (rmat (arho M) a)); split=> //; try exact: rok.
    rewrite rok // addn0; congr (Ok (_, _)); apply: flat_meq.
    apply: meq_trans (meq_sym U) _; apply: meq_sym.
    by apply: meq_trans (fdsum_0r _); apply: meq_fdsum; [apply: meq_refl | split].
  rewrite rok // add0n; congr (Ok (_, _)); apply: flat_meq.
  apply: meq_trans (meq_sym U) _; apply: meq_sym.
  by apply: meq_trans (fdsum_0l _); apply: meq_fdsum; [split | apply: meq_refl].
have [s [Es Ws Ss Ms]] := scalar_copies n HM.
have HA k Hk := @arho_kok R conj sinv linv crho gdim csize gs M k HM Hk.
have [r E [H1 H2 H3]] := add_ok O HA Wa Ws.
have [r' E' [H1' H2' H3']] := add_ok O HA Ws Wa.
exists r, r', (flat (rmat (arho M) a)); split.
- by rewrite /add_val Es bindOk E.
- by rewrite /add_val Es bindOk E'.
- exact: rok.
- rewrite rok ?issum_wfr // H2 Ss; congr (Ok (_, _)); apply: flat_meq.
  by apply: meq_trans H3 (meq_fdsum _ Ms); apply: meq_sym.
- rewrite rok ?issum_wfr // H2' Ss; congr (Ok (_, _)); apply: flat_meq.
  by apply: meq_trans H3' (meq_fdsum Ms _); apply: meq_sym.
Qed.

Lemma rmat_tr_invT a r' M : wfr a -> group_elem M -> orth_elem M ->
  meq (rmat (arho M) r') (rmat (fun k => arho M (ta k)) a) ->
  invTn (sz a) (rmat (arho M) a) (rmat (arho M) r').
Proof.
move=> Wa HM HO H.
have := @rmat_invT R gdim csize le gs (arho M) (fun k => arho M (ta k)) a Wa (fun k Hk => arho_invT HM HO Hk).
by apply: invTn_meq; [apply: meq_refl | apply: meq_sym].
Qed.

Lemma tr_thm a M : wfr a -> group_elem M -> orth_elem M ->
  exists r D D', [/\ tr gdim gorth csize le a = Ok r, wfr r,
    rho_dense a M = Ok (sz a, sz a, D), rho_dense r M = Ok (sz a, sz a, D') &
    is_invT (unflat (sz a) (sz a) D) (unflat (sz a) (sz a) D') /\ (gorth g -> D' = D)].
Proof.
move=> Wa HM HO.
have HA k Hk := @arho_kok R conj sinv linv crho gdim csize gs M k HM Hk.
have [r E [H1 H2 H3]] := tr_ok gorth Hgs O HA Wa.
have I := rmat_tr_invT Wa HM HO H3.
exists r, (flat (rmat (arho M) a)), (flat (rmat (arho M) r)); split=> //; try exact: rok.
  by rewrite rok // H2.
have U' := urm HM H1; rewrite H2 in U'.
split.
  apply: (@invTn_is R (sz a)); apply: invTn_meq I; apply: meq_sym => //; exact: urm.
move=> Og; apply: flat_meq; apply: (invTn_uniq I).
apply: (@rmat_invT R gdim csize le gs (arho M) (arho M) a Wa) => k Ak.
have := arho_invT HM HO Ak; case: k Ak => // [[h|]|c [h|]|[|[h|]|c [h|]|?|? ?|? ?|? ?|?|?]] //= /andP[/eqP -> P];
  rewrite /t_atom /= ?Og // => J.
- have := @arho_invT R conj sinv linv crho gdim gorth csize gs M (RBase (Some g)) HM HO.
  rewrite /= eqxx P /t_atom /= Og => /(_ isT) J'.
  have EE := invTn_uniq (invTn_sym J) J'.
  exact: invTn_meq (meq_refl _) (meq_sym EE) J.
- have := @arho_invT R conj sinv linv crho gdim gorth csize gs M (RCustom c (Some g)) HM HO.
  rewrite /= eqxx P /t_atom /= Og => /(_ isT) J'.
  have EE := invTn_uniq (invTn_sym J) J'.
  exact: invTn_meq (meq_refl _) (meq_sym EE) J.
Qed.

Lemma rshift_thm a b M (w : seq R) : wfr a -> wfr b -> group_elem M -> orth_elem M ->
  size w = (sz b * sz a)%N ->
  exists r Da Db Dr, [/\ rshift gdim gorth csize le a b = Ok r,
    lshift gdim gorth csize le b a = Ok r /\ (do t <- tr gdim gorth csize le a; mul gdim csize le b t) = Ok r,
    rho_dense a M = Ok (sz a, sz a, Da) /\ rho_dense b M = Ok (sz b, sz b, Db),
    rho_dense r M = Ok (sz b * sz a, sz b * sz a, Dr)%N &
    (flat (fmul (unflat (sz b * sz a) (sz b * sz a) Dr) (unflat (sz b * sz a) 1 w)) = w <->
     meq (fmul (unflat (sz b) (sz b) Db) (unflat (sz b) (sz a) w))
         (fmul (unflat (sz b) (sz a) w) (unflat (sz a) (sz a) Da)))].
Proof.
move=> Wa Wb HM HO Sw.
have HA k Hk := @arho_kok R conj sinv linv crho gdim csize gs M k HM Hk.
have [t Et [Wt St Mt]] := tr_ok gorth Hgs O HA Wa.
have I := rmat_tr_invT Wa HM HO Mt.
have [r E [H1 H2 H3]] := mul_ok Hgs O HA Wb Wt.
exists r, (flat (rmat (arho M) a)), (flat (rmat (arho M) b)), (flat (rmat (arho M) r)).
have Ua := urm HM Wa; have Ub := urm HM Wb; have Ur := urm HM H1.
have [r1 r2] := rmat_kok HM H1; have Sb := rmat_kok HM Wb; have Sa := rmat_kok HM Wa.
rewrite H2 St in Ur r1 r2.
split.
- by rewrite /rshift Et.
- by rewrite /lshift Et.
- by split; apply: rok.
- by rewrite rok // H2 St.
have -> : flat (fmul (unflat (sz b * sz a) (sz b * sz a) (flat (rmat (arho M) r))) (unflat (sz b * sz a) 1 w)) =
    flat (fmul (fkron (rmat (arho M) b) (rmat (arho M) t)) (unflat (sz b * sz a) 1 w)).
  apply: flat_meq; apply: meq_fmul => //; apply: meq_trans Ur H3.
rewrite (fixed_iff Sb I) ?wfr_sz //; have [b1 b2] := Sb; have [a1 a2] := Sa.
split=> H.
  apply: meq_trans (meq_fmul Ub (meq_refl _) _) _ => //.
  by apply: meq_trans H _; apply: meq_fmul (meq_refl _) (meq_sym Ua) _.
apply: meq_trans (meq_fmul (meq_sym Ub) (meq_refl _) _) _; first by rewrite b2.
by apply: meq_trans H _; apply: meq_fmul (meq_refl _) Ua _.
Qed.

Lemma dtr_thm a M : wfr a -> lie_elem M -> orth_lie M ->
  exists r D D', [/\ tr gdim gorth csize le a = Ok r, wfr r,
    drho_dense a M = Ok (sz a, sz a, D), drho_dense r M = Ok (sz a, sz a, D') &
    D' = flat (fopp (ftr (unflat (sz a) (sz a) D)))].
Proof.
move=> Wa HM HO.
have HA k Hk := @adrho_sqn R conj cdrho gdim csize gs M k HM Hk.
have [r E [H1 H2 H3]] := tr_ok gorth Hgs O (ae_kok HA) Wa.
exists r, (flat (dmat (adrho M) a)), (flat (dmat (adrho M) r)); split=> //; try exact: drok.
  by rewrite drok // H2.
apply: flat_meq; apply: meq_trans (_ : meq _ (fopp (ftr (dmat (adrho M) a)))) _; last first.
  have C (X Y : fmat R) : meq X Y -> meq (fopp (ftr X)) (fopp (ftr Y)).
    by case=> e1 e2 e; split=> //= i j Hi Hj; rewrite e.
  by apply: C; apply: meq_sym; apply: udm.
apply: (from_eps HA H1); apply: meq_trans H3 _.
have I : invTn (sz a) (rmat (ae (adrho M)) a) (rmat (fun k => ae (adrho M) (ta k)) a).
  apply: (@rmat_invT _ gdim csize le gs _ _ a Wa) => k Ak.
  have [At St _] := ta_atomic gorth Ak.
  have := feps_invT (dconst_rmorphism R) (HA k Ak) (eps2 R).
  apply: invTn_meq; first exact: meq_refl.
  apply: meq_feps; apply: meq_sym.
  rewrite /RhoProofs.adrho /atomf.
  have neg2 n (X : op R) : gop conj n X -> meq (den X) (fopp (ftr (den (neg (transpose X))))).
    move=> GX; have [e1 e2 e] := negT_den GX; have [x1 x2] := gop_sz GX.
    move: e1 e2 e; rewrite /= x1 x2 => e1 e2 e; split; rewrite /= ?x1 ?x2 // => i j Hi Hj.
    by rewrite e ?e1 ?e2 // opprK.
  case: k Ak {At St} => // [[h|]|c [h|]|[|[h|]|c [h|]|?|? ?|? ?|? ?|?|?]] //= /andP[Hh _]; rewrite /t_atom /=;
    have [X EX [[GX GX'] JX]] := HM h Hh.
  - rewrite EX; case: ifP => Oh; last by rewrite /= EX bindOk; apply: negT_den GX.
    by rewrite /= EX; have [H _] := HO h Hh Oh; apply: H.
  - have [C FC [_ [GC _]]] := JX c; rewrite FC; case: ifP => Oh; last by rewrite /= FC bindOk; apply: negT_den GC.
    by rewrite /= FC; have [_ H] := HO h Hh Oh; apply: (H c).
  - by rewrite EX bindOk; apply: neg2 GX.
  - by have [C FC [_ [GC _]]] := JX c; rewrite FC bindOk; apply: neg2 GC.
apply: (invTn_uniq I); have := feps_invT (dconst_rmorphism R) (dmat_sq HM Wa) (eps2 R).
apply: invTn_meq; last exact: meq_refl.
by apply: meq_sym; apply: (dmat_eps Wa HA).
Qed.

Section ExprThm.
Hypothesis G0 : (0 < gdim g)%N.
Hypothesis C0 : forall c, (0 < csize c g)%N.

Lemma leaves M A B l : group_elem M -> orth_elem M -> rho_leaves crho g M A B ->
  A l = arho M (leafrep (Some g) l) /\ meq (B l) (arho M (ta (leafrep (Some g) l))).
Proof.
move=> HM HO [HV HC HB].
have EA : A l = arho M (leafrep (Some g) l).
  rewrite /RhoProofs.arho /atomf; case: l => [c|] /=.
    have [X EX [_ J]] := HM g (eqxx g); have [C FC _] := J c.
    by rewrite FC; apply: HC.
  by have [X EX _] := HM g (eqxx g); rewrite EX; apply: HV.
split=> //; have Ak := @leaf_atomic gdim csize g G0 C0 l.
have J := arho_invT HM HO Ak; have [k1 k2] := arho_sqn HM Ak.
have [b1 b2 [I1 I2]] := HB l; rewrite EA k1 in b1 b2 I1 I2.
apply: (invTn_uniq (n := sz (leafrep (Some g) l)) _ J); by split.
Qed.

Lemma expr_thm e M A B X : group_elem M -> orth_elem M -> rho_leaves crho g M A B ->
  espec A B e = Some (SMat X) ->
  (exists r, [/\ eval gdim gorth csize le (Some g) e = Ok (VRep r), wfr r &
     rho_dense r M = Ok (fr X, fc X, flat X)]) /\
  (exists v r, [/\ eval gdim gorth csize le None e = Ok v, call_val gdim gorth csize le v (Some g) = Ok (VRep r), wfr r &
     rho_dense r M = Ok (fr X, fc X, flat X)]).
Proof.
move=> HM HO HL E.
have HA k Hk := @arho_kok R conj sinv linv crho gdim csize gs M k HM Hk.
pose B' l := arho M (ta (leafrep (Some g) l)).
have := @espec_meq R e A A B B' (fun l => meq_refl _) (fun l => proj2 (leaves l HM HO HL)).
rewrite E; case E' : (espec A B' e) => [[m|Y]|] // HXY.
have EA l : A l = arho M (leafrep (Some g) l) by have [] := leaves l HM HO HL.
have fin r : wfr r -> meq (rmat (arho M) r) Y -> rho_dense r M = Ok (fr X, fc X, flat X).
  move=> W H; have H' := meq_trans H (meq_sym HXY); rewrite rok // (flat_meq H').
  by have [s1 s2] := rmat_kok HM W; case: H' => <- <- _; rewrite s1 s2.
split.
  have [v Ev V] := @eval_ok gdim gorth csize le g O G0 C0 R e (arho M) A B' (SMat Y) HA EA (fun l => erefl) E'.
  case: v Ev V => // r Er [W H]; exists r; split=> //; exact: fin.
have [v [r [Ev Ec W H]]] := @deferred_ok gdim gorth csize le g O G0 C0 R e (arho M) A B' Y HA EA (fun l => erefl) E'.
by exists v, r; split=> //; apply: fin.
Qed.

Lemma dleaves M A B l : lie_elem M -> orth_lie M -> drho_leaves cdrho g M A B ->
  A l = adrho M (leafrep (Some g) l) /\ meq (B l) (adrho M (ta (leafrep (Some g) l))).
Proof.
move=> HM HO [HV HC HB]; rewrite /RhoProofs.adrho /atomf.
have [X EX [[GX _] J]] := HM g (eqxx g); case: l => [c|] /=.
  have [C FC [_ [GC _]]] := J c; rewrite FC; have -> := HC c C FC; split=> //.
  apply: meq_trans (HB (Some c)) _; rewrite (HC c C FC) /t_atom /=; case: ifP => Og.
    by rewrite /= FC; have [_ H] := HO g (eqxx g) Og; apply: meq_sym; apply: (H c).
  by rewrite /= FC bindOk; apply: meq_sym; apply: negT_den GC.
rewrite EX; have -> := HV X EX; split=> //.
apply: meq_trans (HB None) _; rewrite (HV X EX) /t_atom /=; case: ifP => Og.
  by rewrite /= EX; have [H _] := HO g (eqxx g) Og; apply: meq_sym; apply: H.
by rewrite /= EX bindOk; apply: meq_sym; apply: negT_den GX.
Qed.

Lemma dexpr_thm e M A B X : lie_elem M -> orth_lie M -> drho_leaves cdrho g M A B ->
  dspec A B e = Some (SMat X) ->
  (exists r, [/\ eval gdim gorth csize le (Some g) e = Ok (VRep r), wfr r &
     drho_dense r M = Ok (fr X, fc X, flat X)]) /\
  (exists v r, [/\ eval gdim gorth csize le None e = Ok v, call_val gdim gorth csize le v (Some g) = Ok (VRep r), wfr r &
     drho_dense r M = Ok (fr X, fc X, flat X)]).
Proof.
move=> HM HO HL E.
have HA k Hk := @adrho_sqn R conj cdrho gdim csize gs M k HM Hk.
have EA l : A l = adrho M (leafrep (Some g) l) by have [] := dleaves l HM HO HL.
have EB l : meq (B l) (adrho M (ta (leafrep (Some g) l))) by have [] := dleaves l HM HO HL.
pose f1 := feps (dconst_rmorphism R) (eps R).
pose B' l := ae (adrho M) (ta (leafrep (Some g) l)).
have sA l : sqp (A l).
  have Ak := @leaf_atomic gdim csize g G0 C0 l; have [s1 s2] := HA _ Ak.
  by rewrite EA; split; rewrite s1 ?s2 //; apply: atomic_sz Ak.
have sB l : sqp (B l).
  have Ak := @leaf_atomic gdim csize g G0 C0 l; have [At St _] := ta_atomic gorth Ak.
  have [s1 s2] := HA _ At; case: (EB l) => e1 e2 _.
  by split; rewrite e1 ?e2 s1 ?s2 //; apply: atomic_sz At.
have := espec_eps e sA sB; rewrite E.
case E1 : (espec _ _ e) => [[m|Y]|] // [sX HY].
have := @espec_meq _ e (fun l => f1 (A l)) (fun l => f1 (A l)) (fun l => f1 (B l)) B' (fun l => meq_refl _) (fun l => meq_feps _ _ (EB l)).
rewrite E1; case E' : (espec _ B' e) => [[m|Y']|] // HYY.
have fin r : wfr r -> meq (rmat (ae (adrho M)) r) Y' -> drho_dense r M = Ok (fr X, fc X, flat X).
  move=> W H; have H' := from_eps HA W (meq_trans H (meq_trans (meq_sym HYY) HY)).
  rewrite drok // (flat_meq H').
  by have [s1 s2] := dmat_sq HM W; case: H' => <- <- _; rewrite s1 s2.
have EA' l : f1 (A l) = ae (adrho M) (leafrep (Some g) l) by rewrite EA.
split.
  have [v Ev V] := @eval_ok gdim gorth csize le g O G0 C0 _ e (ae (adrho M)) (fun l => f1 (A l)) B' (SMat Y') (ae_kok HA) EA' (fun l => erefl) E'.
  case: v Ev V => // r Er [W H]; exists r; split=> //; exact: fin.
have [v [r [Ev Ec W H]]] := @deferred_ok gdim gorth csize le g O G0 C0 _ e (ae (adrho M)) (fun l => f1 (A l)) B' Y' (ae_kok HA) EA' (fun l => erefl) E'.
by exists v, r; split=> //; apply: fin.
Qed.

Definition eT p q := EMul (EPow EV p) (EPow (ET EV) q).
Lemma tensorT_eval p q G : tensor_T gdim gorth csize le p q G =
  do v <- eval gdim gorth csize le None (eT p q); if v is VRep c then call gdim gorth csize le c G else Err TypeError.
Proof.
rewrite /tensor_T /=; case: (pow _ _ _ (RBase None) p) => [a|] //=.
case: (pow _ _ _ _ q) => [b|] //=.
by case: (mul gdim csize le a b).
Qed.

Lemma tensorT_thm p q M A B : group_elem M -> orth_elem M -> rho_leaves crho g M A B ->
  exists r, [/\ tensor_T gdim gorth csize le p q (Some g) = Ok r, wfr r &
    rho_dense r M = Ok (gdim g ^ (p + q), gdim g ^ (p + q),
      flat (fkron (fkronl (nseq p (A None))) (fkronl (nseq q (B None)))))%N].
Proof.
move=> HM HO HL.
have [_ [v [r [Ev Ec W H]]]] := expr_thm (e := eT p q) HM HO HL (erefl _).
case: v Ev Ec => // d Ev Ec; exists r; split=> //.
  by rewrite tensorT_eval Ev bindOk; move: Ec; rewrite /call_val; case: (call _ _ _ _ _ _) => //= x [->].
rewrite H.
have powr n (Y : fmat R) : fr Y = gdim g -> fr (fkronl (nseq n Y)) = (gdim g ^ n)%N.
  by move=> EY; elim: n => //= n ->; rewrite EY expnS.
have powc n (Y : fmat R) : fc Y = gdim g -> fc (fkronl (nseq n Y)) = (gdim g ^ n)%N.
  by move=> EY; elim: n => //= n ->; rewrite EY expnS.
have [EA _] := leaves None HM HO HL; case: HL => _ _ /(_ None) [b1 b2 _].
have [s1 s2] := arho_sqn HM (leaf_atomic G0 C0 None).
rewrite EA s1 in b1 b2; rewrite -EA in s1 s2.
by rewrite /= !powr ?powc // expnD.
Qed.
End ExprThm.
End One.

Lemma tensorT_size gdim gorth csize le g p q :
  total_order_on (key gdim csize le (pred1 g)) le -> (0 < gdim g)%N -> (forall c, 0 < csize c g)%N ->
  exists r, [/\ tensor_T gdim gorth csize le p q (Some g) = Ok r, wfr gdim csize le (pred1 g) r &
    size_py gdim csize r = Ok (gdim g ^ (p + q))%N].
Proof.
move=> O G0 C0; pose at0 k := fid int_comRing (rsize gdim csize k).
pose A l := at0 (leafrep (Some g) l); pose B l := at0 (ta gorth (leafrep (Some g) l)).
have HA k : atomic gdim csize (pred1 g) k -> kok at0 (rsize gdim csize) k by [].
have [v [r [Ev Ec W H]]] := @deferred_ok gdim gorth csize le g O G0 C0 int_comRing (eT p q) at0 A B _ HA (fun l => erefl) (fun l => erefl) (erefl _).
case: v Ev Ec => // d Ev Ec; exists r; split=> //.
  by rewrite tensorT_eval Ev bindOk; move: Ec; rewrite /call_val; case: (call _ _ _ _ _ _) => //= x [->].
rewrite (size_py_ok W); congr Ok.
have powr n (Y : fmat int_comRing) : fr Y = gdim g -> fr (fkronl (nseq n Y)) = (gdim g ^ n)%N.
  by move=> EY; elim: n => //= n ->; rewrite EY expnS.
have [k1 _] := rmat_sqn W HA; rewrite -k1; case: H => -> _ _ /=.
rewrite !powr ?expnD //=; by have [_ -> _] := ta_atomic gorth (leaf_atomic G0 C0 None).
Qed.
