(** * RepThm: the results on representations in terms of rho_dense, as used by PropRep. *)
From mathcomp Require Import all_ssreflect all_algebra.
From mathcomp Require Import zify.
From Verif Require Import Np NpLemmas Spec SpecLemmas LinOp LinOpSpec LinOpProofs LinOpMM LinOpMore LinOpInv LinOpThm Rep RepSpec RepMat RepWf RepProd RepAlg RepDist RepMul RepFun RepOps RepExpr RepExprProofs RepDefer RhoProofs.
Set Implicit Arguments.
Unset Strict Implicit.
Unset Printing Implicit Defensive.
Import GRing.Theory.
Local Open Scope ring_scope.

Section Inv.
Variable R : comRingType.
Implicit Types (A B : fmat R).

Lemma invTn_sym n A B : invTn n A B -> invTn n B A.
Proof.
case=> -[h1 h2 h3 h4] [H1 H2]; split=> //; split.
  apply: meq_trans (meq_trans _ (meq_ftr H1)) (ftr_fid R n).
  apply: meq_sym; apply: meq_trans (ftr_fmul _) _; first by rewrite /= h2 h4.
  by apply: meq_fmul; rewrite /= ?h2 ?h4 //; apply: meq_refl.
apply: meq_trans (meq_trans _ (meq_ftr H2)) (ftr_fid R n).
apply: meq_sym; apply: meq_trans (ftr_fmul _) _; first by rewrite /= h3 h1.
by apply: meq_fmul; rewrite /= ?h1 ?h3 //; apply: meq_refl.
Qed.

(** the inverse transpose is unique *)
Lemma invTn_uniq n A B C : invTn n A B -> invTn n A C -> meq B C.
Proof.
case=> -[h1 h2 h3 h4] [H1 H2] [[_ _ k3 k4] [K1 K2]].
suff H : meq (ftr B) (ftr C).
  by case: H => e1 e2 H; split=> // i j Hi Hj; apply: (H j i).
apply: meq_trans (meq_sym (fmul_id_r (n := n) _)) _; first by rewrite /= h3.
apply: meq_trans (meq_fmul (meq_refl _) (meq_sym K1) _) _; first by rewrite /= h3.
apply: meq_trans (fmul_assoc _ _ _) _.
apply: meq_trans (meq_fmul H2 (meq_refl _) _) _; first by rewrite /= h2 k4.
by apply: fmul_id_l; rewrite /= k4.
Qed.
End Inv.

Section Thm.
Variable R : comRingType.
Variables (conj sinv : R -> R) (linv : nat -> seq R -> seq R).
Variables (crho cdrho : nat -> option gid -> gel R -> res (op R)).
Variables (gdim : gid -> nat) (gorth : gid -> bool) (csize : nat -> gid -> nat).
Variables (le : rel rep) (gs : pred gid).
Local Notation sz := (rsize gdim csize).
Local Notation atomic := (atomic gdim csize gs).
Local Notation key := (key gdim csize le gs).
Local Notation wfr := (wfr gdim csize le gs).
Local Notation rho := (rho sinv linv crho).
Local Notation drho := (drho cdrho).
Local Notation rho_dense := (rho_dense conj sinv linv crho).
Local Notation drho_dense := (drho_dense conj cdrho).
Local Notation group_elem := (group_elem conj sinv linv crho gdim csize gs).
Local Notation lie_elem := (lie_elem conj cdrho gdim csize gs).
Local Notation invertible := (invertible conj sinv linv).
Local Notation arho := (arho sinv linv crho).
Local Notation ta := (ta gorth).

Lemma gop_arr n (D : seq R) : size D = (n * n)%N -> gop conj n (OArr n n D).
Proof. by move=> S; split=> //=; [apply/eqP | left]. Qed.

Lemma invertible_invTn n A B : gop conj n A -> gop conj n B -> is_invT (den A) (den B) -> invTn n (den A) (den B).
Proof.
by move=> /gop_sz[h1 h2] /gop_sz[k1 k2] [H1 H2]; split=> //; move: H1 H2; rewrite h1.
Qed.

(** every invertible array qualifies *)
Lemma invertible_arr n (D : seq R) : size D = (n * n)%N -> size (linv n D) = (n * n)%N ->
  meq (fmul (unflat n n D) (unflat n n (linv n D))) (fid R n) ->
  meq (fmul (unflat n n (linv n D)) (unflat n n D)) (fid R n) -> invertible n (OArr n n D).
Proof.
move=> S S' L1 L2; split; first exact: gop_arr.
rewrite /inv_transpose eqxx; eexists; first by []. split; first by apply: gop_arr; rewrite size_tr2.
split=> /=.
  apply: meq_trans L1; apply: meq_fmul => //.
  by split=> //= i j Hi Hj; rewrite nth_tr2.
apply: meq_trans L2; apply: meq_fmul => //.
by split=> //= i j Hi Hj; rewrite nth_tr2.
Qed.

(** what rho does on the atoms *)
Lemma elem_atom M k : group_elem M -> atomic k ->
  exists2 A, rho k M = Ok A & invertible (sz k) A \/ (exists2 A0, rho (if k is RDual s then s else k) M = Ok A0 &
    [/\ gop conj (sz k) A0, gop conj (sz k) A & invTn (sz k) (den A0) (den A)]).
Proof.
move=> HM; case: k => // [[h|]|c [h|]|[|[h|]|c [h|]|?|? ?|? ?|? ?|?|?]] //= /andP[Hh _].
- by have [A E [I _]] := HM h Hh; exists A => //; left.
- by have [A E [_ I]] := HM h Hh; have [C EC [_ IC]] := I c; exists C => //; left.
- have [A E [[GA [B EB [GB IB]]] _]] := HM h Hh; exists B; first by rewrite E.
  by right; exists A => //; split=> //; apply: invertible_invTn.
- have [A E [_ I]] := HM h Hh; have [C EC [_ [GC [B EB [GB IB]]]]] := I c; exists B; first by rewrite EC.
  by right; exists C => //; split=> //; apply: invertible_invTn.
Qed.

Lemma elem_gelem M : group_elem M -> gelem conj sinv linv crho gdim csize gs M.
Proof.
move=> HM k Ak; have [A E G] := elem_atom HM Ak; exists A => //; split.
  by case: G => [[]|[A0 _ []]].
move=> G0 EG; move: E {G}; case: k Ak EG => // [[h|]|c [h|]|[|[h|]|c [h|]|?|? ?|? ?|? ?|?|?]] //= /andP[Hh _] [<-] /=;
  have [A' E' [_ I]] := HM h Hh; rewrite E'.
- by case=> <-; exists A'.
- by have [C EC [EC' _]] := I c; rewrite EC => -[<-]; exists A'.
- by rewrite bindOk => E; exists A'.
- by have [C EC [EC' _]] := I c; rewrite EC bindOk => E; exists A' => //; rewrite EC'.
Qed.

Lemma arho_kok M k : group_elem M -> atomic k -> kok (arho M) sz k.
Proof.
move=> HM Ak; rewrite /kok /RhoProofs.arho /atomf.
have [A -> [G _]] := elem_gelem HM Ak; exact: gop_sz G.
Qed.
Lemma arho_sqn M k : group_elem M -> atomic k -> sqn (sz k) (arho M k).
Proof. exact: arho_kok. Qed.

Lemma rho_dense_ok M r : group_elem M -> wfr r ->
  rho_dense r M = Ok (sz r, sz r, flat (rmat (arho M) r)).
Proof.
move=> HM W; have [A E [G H]] := rho_ok (elem_gelem HM) W.
by rewrite /Rep.rho_dense E bindOk (gop_dense G) (flat_meq H).
Qed.

Lemma rmat_kok M r : group_elem M -> wfr r -> sqn (sz r) (rmat (arho M) r).
Proof. by move=> HM W; apply: (rmat_sqn W) => k Hk; apply: arho_sqn. Qed.

Lemma unflat_rmat M r : group_elem M -> wfr r ->
  meq (unflat (sz r) (sz r) (flat (rmat (arho M) r))) (rmat (arho M) r).
Proof.
by move=> HM W; have [h1 h2] := rmat_kok HM W; have := unflat_flat (rmat (arho M) r); rewrite h1 h2.
Qed.

Lemma arho_base M s : rho s M = rho s M. Proof. by []. Qed.

(** the inverse transpose on atoms *)
Lemma arho_invT M k : group_elem M -> orth_elem crho gdim csize gorth gs M -> atomic k ->
  invTn (sz k) (arho M k) (arho M (ta k)).
Proof.
move=> HM HO; rewrite /RhoProofs.arho /atomf.
have orth n A : gop conj n A -> orthogonal n A -> invTn n (den A) (den A).
  by move=> /gop_sz[h1 h2] [H1 H2]; split.
case: k => // [[h|]|c [h|]|[|[h|]|c [h|]|?|? ?|? ?|? ?|?|?]] //= /andP[Hh _]; rewrite /t_atom /=;
  have [A E [[GA [B EB [GB IB]]] I]] := HM h Hh.
- rewrite E; case: ifP => OG /=; first by rewrite E; apply: orth => //; have [H _] := HO h Hh OG; apply: H.
  by rewrite E bindOk EB; apply: invertible_invTn.
- have [C EC [_ [GC [B' EB' [GB' IB']]]]] := I c.
  rewrite EC; case: ifP => OG /=; first by rewrite EC; apply: orth => //; have [_ H] := HO h Hh OG; apply: H.
  by rewrite EC bindOk EB'; apply: invertible_invTn.
- by rewrite E bindOk EB; apply: invTn_sym; apply: invertible_invTn.
- have [C EC [_ [GC [B' EB' [GB' IB']]]]] := I c.
  by rewrite EC bindOk EB'; apply: invTn_sym; apply: invertible_invTn.
Qed.

Hypothesis O : total_order_on key le.

(** ** the theorems *)
Lemma add_thm a b M : wfr a -> wfr b -> group_elem M ->
  exists r Da Db, [/\ add gdim csize le a b = Ok r,
    rho_dense a M = Ok (sz a, sz a, Da), rho_dense b M = Ok (sz b, sz b, Db) &
    rho_dense r M = Ok (sz a + sz b, sz a + sz b, bdiag (sz a) Da (sz b) Db)%N].
Proof.
move=> Wa Wb HM.
have [r E [H1 H2 H3]] := add_ok O (fun k Hk => arho_kok HM Hk) Wa Wb.
exists r, (flat (rmat (arho M) a)), (flat (rmat (arho M) b)); split=> //; try exact: rho_dense_ok.
rewrite rho_dense_ok ?issum_wfr // H2 (flat_meq H3); congr (Ok (_, _)).
by apply: flat_meq; apply: meq_fdsum; apply: meq_sym; apply: unflat_rmat.
Qed.

Lemma wf_size a M : wfr a -> group_elem M -> exists2 D, rho_dense a M = Ok (sz a, sz a, D) & size D = (sz a * sz a)%N.
Proof.
move=> W HM; exists (flat (rmat (arho M) a)); first exact: rho_dense_ok.
by have [h1 h2] := rmat_kok HM W; rewrite size_flat h1 h2.
Qed.

Lemma mulint_thm a n M : wfr a -> group_elem M ->
  exists r Da, [/\ mul_int gdim csize le a (Posz n.+1) = Ok (VRep r), wfr r,
    rho_dense a M = Ok (sz a, sz a, Da) &
    rho_dense r M = Ok (n.+1 * sz a, n.+1 * sz a, flat (fdsuml (nseq n.+1 (unflat (sz a) (sz a) Da))))%N].
Proof.
move=> Wa HM.
have [r E [H1 H2 H3]] := mul_int_ok O (fun k Hk => arho_kok HM Hk) Wa (ltn0Sn n).
exists r, (flat (rmat (arho M) a)); split=> //; first exact: rho_dense_ok.
rewrite rho_dense_ok // H2 (flat_meq H3); congr (Ok (_, _)).
by apply: flat_meq; apply: meq_nseq_sum; apply: meq_sym; apply: unflat_rmat.
Qed.

Lemma canon_thm a M : wfr a -> group_elem M ->
  exists c p Da Dc, [/\ canonicalize gdim csize le a = Ok (c, p),
    [/\ is_perm (sz a) p, wfr c, sz c = sz a & canonp gdim csize c],
    rho_dense a M = Ok (sz a, sz a, Da), rho_dense c M = Ok (sz a, sz a, Dc) &
    forall i j, (i < sz a)%N -> (j < sz a)%N ->
      nth 0 Dc (i * sz a + j)%N = nth 0 Da (nth 0%N p i * sz a + nth 0%N p j)%N].
Proof.
move=> Wa HM; have Wc := canon_wfr Wa.
have HA k Hk := @arho_kok M k HM Hk.
have P := is_perm_cpm Wa.
have Sc : sz (canon gdim csize a) = sz a by apply: sz_canon.
exists (canon gdim csize a), (cpm gdim csize a), (flat (rmat (arho M) a)), (flat (rmat (arho M) (canon gdim csize a))).
split; first exact: (canonicalizeE O Wa).
- by split=> //; case: (a) => * //=; apply: eqxx.
- exact: rho_dense_ok.
- by rewrite rho_dense_ok // Sc.
move=> i j Hi Hj.
have [e1 e2 H] := canon_mat HA Wa.
have [h1 h2] := rmat_kok HM Wa; have [k1 k2] := rmat_kok HM Wc.
have Pi := is_perm_nth P Hi; have Pj := is_perm_nth P Hj.
have Sp := is_perm_size P.
rewrite -{1}Sc -k2 nth_flat ?k1 ?k2 ?Sc // -{1}h2 nth_flat ?h1 ?h2 //.
rewrite H ?h1 ?h2 //= !index_uniq ?Sp ?(is_perm_uniq P) //.
Qed.

Lemma rho_id_thm a M : wfr a -> group_elem M ->
  (forall g, gs g -> forall A, glook M (Some g) = Ok A -> meq (den A) (fid R (gdim g))) ->
  (forall g c, gs g -> forall C, crho c (Some g) M = Ok C -> meq (den C) (fid R (csize c g))) ->
  rho_dense a M = Ok (sz a, sz a, flat (fid R (sz a))).
Proof.
move=> W HM H1 H2; rewrite rho_dense_ok //; congr (Ok (_, _)); apply: flat_meq; apply: (rmat_id W).
move=> k Ak; rewrite /RhoProofs.arho /atomf.
have inv n (A B : op R) : meq (den A) (fid R n) -> gop conj n A -> gop conj n B -> is_invT (den A) (den B) -> meq (den B) (fid R n).
  move=> Hid GA GB IB; have I := invertible_invTn GA GB IB.
  apply: (invTn_uniq I); exact: invTn_meq (meq_sym Hid) (meq_refl _) (invTn_id R n).
case: k Ak => // [[h|]|c [h|]|[|[h|]|c [h|]|?|? ?|? ?|? ?|?|?]] //= /andP[Hh _];
  have [A E [[GA [B EB [GB IB]]] I]] := HM h Hh.
- by rewrite E; apply: (H1 h).
- by have [C EC _] := I c; rewrite EC; apply: (H2 h).
- by rewrite E bindOk EB; apply: (inv _ A) => //; apply: (H1 h).
- have [C EC [_ [GC [B' EB' [GB' IB']]]]] := I c.
  by rewrite EC bindOk EB'; apply: (inv _ C) => //; apply: (H2 h).
Qed.

Lemma rho_mul_thm a M1 M2 M3 : wfr a -> group_elem M1 -> group_elem M2 -> group_elem M3 ->
  (forall g A1 A2 A3, gs g -> glook M1 (Some g) = Ok A1 -> glook M2 (Some g) = Ok A2 ->
     glook M3 (Some g) = Ok A3 -> meq (den A3) (fmul (den A1) (den A2))) ->
  (forall g c C1 C2 C3, gs g -> crho c (Some g) M1 = Ok C1 -> crho c (Some g) M2 = Ok C2 ->
     crho c (Some g) M3 = Ok C3 -> meq (den C3) (fmul (den C1) (den C2))) ->
  exists D1 D2, [/\ rho_dense a M1 = Ok (sz a, sz a, D1), rho_dense a M2 = Ok (sz a, sz a, D2) &
    rho_dense a M3 = Ok (sz a, sz a, mat_mul (sz a) D1 D2)].
Proof.
move=> W G1 G2 G3 HA HC.
exists (flat (rmat (arho M1) a)), (flat (rmat (arho M2) a)); split; try exact: rho_dense_ok.
rewrite rho_dense_ok //; congr (Ok (_, _)); apply: flat_meq.
apply: meq_trans; last first.
  by apply: meq_fmul; [apply: meq_sym; apply: unflat_rmat | apply: meq_sym; apply: unflat_rmat |];
     rewrite //; have [_ ->] := rmat_kok G1 W; have [-> _] := rmat_kok G2 W.
apply: meq_sym; apply: (rmat_mul W) => k Ak; split; [exact: arho_sqn | exact: arho_sqn |].
rewrite /RhoProofs.arho /atomf.
have inv n (A1 A2 A3 B1 B2 B3 : op R) : meq (den A3) (fmul (den A1) (den A2)) ->
    invTn n (den A1) (den B1) -> invTn n (den A2) (den B2) -> invTn n (den A3) (den B3) ->
    meq (fmul (den B1) (den B2)) (den B3).
  move=> H I1 I2 I3; apply: (invTn_uniq (n := n)); last exact: I3.
  apply: invTn_meq (meq_sym H) (meq_refl _) (invTn_mul I1 I2).
case: k Ak => // [[h|]|c [h|]|[|[h|]|c [h|]|?|? ?|? ?|? ?|?|?]] //= /andP[Hh _];
  have [A1 E1 [[GA1 [B1 EB1 [GB1 IB1]]] J1]] := G1 h Hh;
  have [A2 E2 [[GA2 [B2 EB2 [GB2 IB2]]] J2]] := G2 h Hh;
  have [A3 E3 [[GA3 [B3 EB3 [GB3 IB3]]] J3]] := G3 h Hh.
- by rewrite E1 E2 E3; apply: meq_sym; apply: (HA h).
- have [C1 F1 _] := J1 c; have [C2 F2 _] := J2 c; have [C3 F3 _] := J3 c.
  by rewrite F1 F2 F3; apply: meq_sym; apply: (HC h c).
- rewrite E1 E2 E3 !bindOk EB1 EB2 EB3; exact (inv (gdim h) A1 A2 A3 B1 B2 B3 (HA h _ _ _ Hh E1 E2 E3) (invertible_invTn GA1 GB1 IB1)
    (invertible_invTn GA2 GB2 IB2) (invertible_invTn GA3 GB3 IB3)).
- have [C1 F1 [_ [GC1 [D1 ED1 [GD1 ID1]]]]] := J1 c.
  have [C2 F2 [_ [GC2 [D2 ED2 [GD2 ID2]]]]] := J2 c.
  have [C3 F3 [_ [GC3 [D3 ED3 [GD3 ID3]]]]] := J3 c.
  rewrite F1 F2 F3 !bindOk ED1 ED2 ED3; exact (inv (csize c h) C1 C2 C3 D1 D2 D3 (HC h c _ _ _ Hh F1 F2 F3) (invertible_invTn GC1 GD1 ID1)
    (invertible_invTn GC2 GD2 ID2) (invertible_invTn GC3 GD3 ID3)).
Qed.

Lemma rho_inv_thm a M1 M2 : wfr a -> group_elem M1 -> group_elem M2 ->
  (forall g A1 A2, gs g -> glook M1 (Some g) = Ok A1 -> glook M2 (Some g) = Ok A2 ->
     meq (fmul (den A1) (den A2)) (fid R (gdim g))) ->
  (forall g c C1 C2, gs g -> crho c (Some g) M1 = Ok C1 -> crho c (Some g) M2 = Ok C2 ->
     meq (fmul (den C1) (den C2)) (fid R (csize c g))) ->
  exists D1 D2, [/\ rho_dense a M1 = Ok (sz a, sz a, D1), rho_dense a M2 = Ok (sz a, sz a, D2) &
    mat_mul (sz a) D1 D2 = flat (fid R (sz a))].
Proof.
move=> W G1 G2 HA HC.
exists (flat (rmat (arho M1) a)), (flat (rmat (arho M2) a)); split; try exact: rho_dense_ok.
apply: flat_meq.
apply: meq_trans.
  by apply: meq_fmul; [apply: unflat_rmat G1 W | apply: unflat_rmat G2 W |].
apply: meq_trans (rmat_id W (fun k _ => meq_refl (fid R (sz k)))).
apply: (rmat_mul W) => k Ak; split; [exact: arho_sqn | exact: arho_sqn |].
rewrite /RhoProofs.arho /atomf.
have inv n (A1 A2 B1 B2 : op R) : meq (fmul (den A1) (den A2)) (fid R n) ->
    invTn n (den A1) (den B1) -> invTn n (den A2) (den B2) -> meq (fmul (den B1) (den B2)) (fid R n).
  move=> H I1 I2; apply: (invTn_uniq (n := n)); last exact: invTn_id.
  exact: invTn_meq H (meq_refl _) (invTn_mul I1 I2).
case: k Ak => // [[h|]|c [h|]|[|[h|]|c [h|]|?|? ?|? ?|? ?|?|?]] //= /andP[Hh _];
  have [A1 E1 [[GA1 [B1 EB1 [GB1 IB1]]] J1]] := G1 h Hh;
  have [A2 E2 [[GA2 [B2 EB2 [GB2 IB2]]] J2]] := G2 h Hh.
- by rewrite E1 E2; apply: (HA h).
- have [C1 F1 _] := J1 c; have [C2 F2 _] := J2 c.
  by rewrite F1 F2; apply: (HC h c).
- rewrite E1 E2 !bindOk EB1 EB2; exact (inv (gdim h) A1 A2 B1 B2 (HA h _ _ Hh E1 E2) (invertible_invTn GA1 GB1 IB1)
    (invertible_invTn GA2 GB2 IB2)).
- have [C1 F1 [_ [GC1 [D1 ED1 [GD1 ID1]]]]] := J1 c.
  have [C2 F2 [_ [GC2 [D2 ED2 [GD2 ID2]]]]] := J2 c.
  rewrite F1 F2 !bindOk ED1 ED2; exact (inv (csize c h) C1 C2 D1 D2 (HC h c _ _ Hh F1 F2) (invertible_invTn GC1 GD1 ID1)
    (invertible_invTn GC2 GD2 ID2)).
Qed.
End Thm.
