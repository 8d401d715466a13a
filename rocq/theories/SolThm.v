(** * SolThm: equivariant_basis and equivariant_projector, in the form used by PropSolver. *)
From mathcomp Require Import all_ssreflect all_algebra.
From mathcomp Require Import zify.
From Verif Require Import Np NpLemmas Spec SpecLemmas LinOp LinOpSpec LinOpProofs LinOpMM LinOpMore LinOpInv LinOpThm Rep RepSpec RepMat RepWf RepProd RepAlg RepDist RepMul RepFun RepOps RhoProofs RepThm DualNum DrhoProofs DrhoThm RepThm1 RepDir DirThm Solver SolSpec SolAlg SolSvd SolFam SolProofs SolBasis.
Set Implicit Arguments.
Unset Strict Implicit.
Unset Printing Implicit Defensive.
Import GRing.Theory.
Local Open Scope ring_scope.

Section Thm.
Variable R : comRingType.
Variables (conj sinv : R -> R) (linv : nat -> seq R -> seq R).
Variables (crho cdrho : nat -> option gid -> gel R -> res (op R)).
Variables (gdim : gid -> nat) (csize : nat -> gid -> nat).
Variables (le : rel rep) (gs : pred gid).
Variables (gens lies : gid -> seq (op R)).
Variables (svd : nat -> nat -> seq R -> seq R * seq R * seq R) (big : pred R).
Variable krylov : op R -> res (darr R).
Local Notation sz := (rsize gdim csize).
Local Notation wfr := (wfr gdim csize le).
Local Notation nonsum := (nonsum gdim csize le).
Local Notation key := (key gdim csize le).
Local Notation dkey := (dkey gdim csize le).
Local Notation group_elem := (group_elem conj sinv linv crho gdim csize).
Local Notation lie_elem := (lie_elem conj cdrho gdim csize).
Local Notation elemG := (@elemG R gdim).
Local Notation elemL := (@elemL R gdim).
Hypothesis conjM : forall x y, conj (x * y) = conj x * conj y.
Hypothesis conjK : forall x, conj (conj x) = x.
Hypothesis conj0 : conj 0 = 0.
Hypothesis conj1 : conj 1 = 1.
Hypothesis HG : forall g h, gs g -> List.In h (gens g) -> group_elem gs (elemG g h).
Hypothesis HL : forall g A, gs g -> List.In A (lies g) -> lie_elem gs (elemL g A).
Hypothesis crho1 : forall c g C, gs g -> crho c (Some g) (GMat (OI R (gdim g))) = Ok C ->
  meq (den C) (fid R (csize c g)).
Hypothesis cdrho0 : forall c g C, gs g ->
  cdrho c (Some g) (GMat (OArr (gdim g) (gdim g) (nseq (gdim g * gdim g) 0))) = Ok C ->
  meq (den C) (fzero R (csize c g) (csize c g)).
Hypothesis O : total_order_on (key gs) le.
Local Notation solve := (solve conj sinv linv crho cdrho gdim csize gens lies svd big krylov).
Local Notation solver_ok := (solver_ok conj gdim sinv linv crho cdrho csize gens lies svd big krylov).
Local Notation basis_rep := (basis_rep conj sinv linv crho cdrho gdim csize le gens lies svd big krylov).
Local Notation basis_ns := (basis_ns conj sinv linv crho cdrho gdim csize le gens lies svd big krylov).
Local Notation basis := (basis conj sinv linv crho cdrho gdim csize le gens lies svd big krylov).
Local Notation projector_rep := (projector_rep conj sinv linv crho cdrho gdim csize le gens lies svd big krylov).
Local Notation projector_ns := (projector_ns conj sinv linv crho cdrho gdim csize le gens lies svd big krylov).
Local Notation projector := (projector conj sinv linv crho cdrho gdim csize le gens lies svd big krylov).
Local Notation invariant := (invariant conj gdim sinv linv crho cdrho csize gs gens lies).
Local Notation factors_nonzero := (factors_nonzero conj gdim sinv linv crho cdrho csize gs gens lies).
Local Notation q := (q conj sinv linv crho cdrho gdim csize gens lies svd big krylov).
Local Notation cm := (@cm R sinv linv crho cdrho gdim csize gs gens lies).
Local Notation sol := (sol conj).

Lemma problem_dkey r : wfr gs r -> forall c, c \in problems gdim csize r -> dkey gs c.
Proof.
have H k : nonsum gs k -> forall c, c \in problems_ns gdim csize k -> dkey gs c.
  move=> N c; case: (k =P RScalar) => [->//|NS].
  case: (boolP (simple k)) => S.
    have -> : problems_ns gdim csize k = [:: canon gdim csize k] by case: (k) S NS.
    by rewrite inE => /eqP ->; apply: canon_dkey.
  case: k N NS S => // d p /or4P[//|//|//|/andP[/and4P[/and5P[_ A _ _ _] _ _ _] _]] _ _.
  exact: (allP A).
case/orP=> [N|]; first by case: (r) N (H r N).
case: r => // d p /andP[/and5P[_ A _ _ _] _] c /flattenP[l /mapP[k Hk ->]].
by have /andP[N _] := allP A _ Hk; apply: H.
Qed.

Lemma qmat_sol r : wfr gs r -> (forall c, c \in systems gdim csize r -> solver_ok c) ->
  sol (sz r) (cm^~ r) (qmat gdim csize q r).
Proof.
move=> W; rewrite (systems_problems W) => H.
apply: (sol_wfr HG HL crho1 cdrho0 conjM conj0 conj1 W) => c Hc.
by apply: (q_ok conjK HG HL crho1 cdrho0 (problem_dkey W Hc)); apply: H.
Qed.

Lemma unflat_isop (A : fmat R) B : isop A B -> to_dense conj B = Ok (fr A, fc A, flat A).
Proof.
by case=> W P N M; have [-> _] := todense_lem conj W P N; have [-> -> _] := M; rewrite (flat_meq M).
Qed.

Theorem basis_thm r : wfr gs r -> (forall c, c \in systems gdim csize r -> solver_ok c) -> factors_nonzero r ->
  exists B k Q, [/\ basis r = Ok B, to_dense conj B = Ok (sz r, k, Q),
    meq (fmul (ftr (fconj conj (unflat (sz r) k Q))) (unflat (sz r) k Q)) (fid R k) &
    forall v, size v = sz r -> invariant r v <-> exists2 w, size w = k & matmat conj B 1 w = Ok v].
Proof.
move=> W H F; have Sq := qmat_sol W H.
move: (H); rewrite (systems_problems W) => H'.
have [B E I] := basis_ok conjK HG HL crho1 cdrho0 O W H' (factors_dims conjK HG HL crho1 cdrho0 W H' F).
have [h1 h2 h3 h4] := Sq.
exists B, (fc (qmat gdim csize q r)), (flat (qmat gdim csize q r)); split=> //.
- by rewrite (unflat_isop I) h1.
- have U : meq (unflat (sz r) (fc (qmat gdim csize q r)) (flat (qmat gdim csize q r))) (qmat gdim csize q r).
    by rewrite -h1; apply: unflat_flat.
  apply: meq_trans h3; apply: meq_fmul => //; exact: meq_fH U.
move=> v Sv; rewrite (inv_kills HG HL W Sv); exact: image_sol Sq I Sv.
Qed.

Theorem basis_cols d p : wfr gs (RSum d p) -> (forall c, c \in systems gdim csize (RSum d p) -> solver_ok c) ->
  factors_nonzero (RSum d p) ->
  exists B f, [/\ basis (RSum d p) = Ok B, forall k, k \in keys d -> basis k = Ok (f k) &
    cols B = sumn [seq (x.2 * cols (f x.1))%N | x <- d]].
Proof.
move=> W H F; move: (H); rewrite (systems_problems W) => H'.
have Hd := factors_dims conjK HG HL crho1 cdrho0 W H' F.
case/orP: (W) => // /andP[/and5P[NE A _ _ _] P].
have HK k : k \in keys d -> exists2 B, basis_ns k = Ok B & isop (qns gdim csize q k) B.
  move=> Hk; have /andP[Nk _] := allP A _ Hk; apply: (basis_ns_ok conjK HG HL crho1 cdrho0 O Nk).
    by move=> c Hc; apply: H'; apply/flattenP; exists (problems_ns gdim csize k) => //; apply: map_f.
  by case: (k) Hk => // d' p' Hk k' Hk'; apply: Hd Hk Hk'.
have [E1 E2] := bvals HK; rewrite /Solver.basis E1 bindOk.
exists (OCustom (sz (RSum d p)) (sumn [seq (x.1 * x.2)%N | x <- zip (vals d) (map (@cols R) (map (bval basis_ns) (keys d)))])
          (map (bval basis_ns) (keys d)) (vals d) None (argsort p)), (bval basis_ns); split=> //.
- move=> k Hk; have /andP[Nk _] := allP A _ Hk; have [B EB _] := HK k Hk; have [E _] := bvalE EB.
  by rewrite -E; case: (k) Nk.
by rewrite /cols /=; elim: (d) => [|[k c] d' IH] //=; rewrite IH.
Qed.

(** *** projectors, over scalars with trivial conjugation *)
Section Real.
Hypothesis Hc : forall x, conj x = x.

Definition prj (A : fmat R) : fmat R := fmul A (ftr A).
Definition pop n (A : fmat R) (B : op R) : Prop := gop conj n B /\ meq (den B) (prj A).

Lemma prj_meq A B : meq A B -> meq (prj A) (prj B).
Proof. by move=> M; apply: meq_fmul => //; apply: meq_ftr. Qed.

Lemma basis_rep_arr r B : basis_rep r = Ok B -> exists m n D, B = OArr m n D.
Proof.
rewrite /Solver.basis_rep; case: r => [|G|c G|s|d p|d p|d p|l|l]; first by case=> <-; exists 1%N, 1%N, [:: 1].
all: case: (canonicalize _ _ _ _) => [[c0 p0]|//]; rewrite bindOk; case: ifP => // _.
all: by case: (Solver.solve _ _ _ _ _ _ _ _ _ _ _ _ _) => [Q|//] [<-]; do 3 eexists.
Qed.

Lemma projector_rep_ok (A : fmat R) r B : basis_rep r = Ok B -> isop A B ->
  exists2 P, projector_rep r = Ok P & is_op P /\ pop (fr A) A P.
Proof.
move=> E I; have Sh := isop_shape I; have [W P Ne M] := I.
have [m [n' [D EB]]] := basis_rep_arr E.
have [m1 m2 m3] := M; move: (W) (m1) (m2) (Sh); rewrite EB /= => /eqP SD e1 e2 _.
rewrite /Solver.projector_rep E bindOk EB /= /mkProd /= /cols /rows /= eqxx /=.
eexists; first by []. split=> //; split; first split=> //=.
- by rewrite SD /cols /rows /= !eqxx.
- by right.
- by rewrite e1.
rewrite EB in M; apply: (prj_meq M).
Qed.

Lemma prj_frowp n p (A : fmat R) : is_perm n p -> fr A = n -> meq (prj (frowp p A)) (fscat p (prj A)).
Proof. by move=> P E; split. Qed.
Lemma prj_kronl (m : rep -> fmat R) l : meq (fkronl [seq prj (m k) | k <- l]) (prj (fkronl (map m l))).
Proof.
elim: l => [|k l IH].
  by split=> //= -[|i] [|j] // _ _; rewrite big_nat1 /= mulr1.
apply: meq_trans (meq_fkron (meq_refl _) IH) _ => /=.
apply: meq_trans (meq_sym (fmul_fkron _ _)) _ => //=.
Qed.
Lemma prj_dsuml (m : rep -> fmat R) l : meq (fdsuml [seq prj (m k) | k <- l]) (prj (fdsuml (map m l))).
Proof.
elim: l => [|k l IH]; first by split.
apply: meq_trans (meq_fdsum (meq_refl _) IH) _ => /=.
apply: meq_trans (meq_sym (fmul_fdsum _ _)) _ => //=.
apply: meq_fmul => //; apply: meq_sym; split=> //= i j Hi Hj.
by case: (j < _)%N; case: (i < _)%N.
Qed.

Lemma pvals (f : rep -> res (op R)) (m : rep -> fmat R) l :
  (forall k, k \in l -> exists2 B, f k = Ok B & is_op B /\ pop (sz k) (m k) B) ->
  mapM f l = Ok (map (bval f) l) /\ forall k, k \in l -> is_op (bval f k) /\ pop (sz k) (m k) (bval f k).
Proof.
move=> H; split; first by apply: mapM_ok_in => k /H[B /bvalE[]].
by move=> k /H[B /bvalE[_ ->]].
Qed.

Lemma projector_ns_ok r : nonsum gs r -> (forall c, c \in problems_ns gdim csize r -> solver_ok c) ->
  exists2 B, projector_ns r = Ok B & is_op B /\ pop (sz r) (qns gdim csize q r) B.
Proof.
move=> N H; case: (boolP (simple r)) => S.
  have -> : projector_ns r = projector_rep r by case: (r) S.
  have [B EB IB] := basis_rep_ok conjK HG HL crho1 cdrho0 O N S H.
  by rewrite -{1}(fr_qns N H); apply: projector_rep_ok EB IB.
case: r S N H => // d p _ N H.
case/or4P: N => // /andP[/and4P[/and5P[_ A _ _ _] V1 S2 _] P].
have fq k : k \in keys d -> fr (q k) = sz k.
  by move=> Hk; have [] := q_ok conjK HG HL crho1 cdrho0 (allP A _ Hk) (H k Hk).
have HK k : k \in keys d -> exists2 B, projector_rep k = Ok B & is_op B /\ pop (sz k) (q k) B.
  move=> Hk; have [B EB IB] := basis_key_ok conjK HG HL crho1 cdrho0 O (allP A _ Hk) (H k Hk).
  by have := projector_rep_ok EB IB; rewrite fq.
have [E1 E2] := pvals HK.
rewrite /Solver.projector_ns E1 bindOk mkKron_gt1 ?size_map // bindOk.
have GK : gop conj (prodn (map sz (keys d))) (OKron (map (bval projector_rep) (keys d))).
  apply: (gop_kron (v := bval projector_rep)); first by rewrite size_map.
  by move=> k Hk; have [_ [G _]] := E2 k Hk; split=> //; apply: dkey_sz (allP A _ Hk).
rewrite -{1}(dexp_ones V1) prodn_dexp in GK.
have [B -> [OB GB MB]] := conjp_ok (isT : is_op (OKron _)) GK P; exists B => //; split=> //; split=> //.
apply: meq_trans MB _; have [Er Ec] := gop_sz GK.
have M1 : meq (den (OKron (map (bval projector_rep) (keys d)))) (prj (fkronl (map q (keys d)))).
  apply: meq_trans (prj_kronl _ _); rewrite [den _]/= -map_comp.
  have {}E2 k : k \in keys d -> meq (den (bval projector_rep k)) (prj (q k)) by move=> /E2[_ []].
  elim: (keys d) E2 => [|k l IH] E /=; first exact: meq_refl.
  apply: meq_fkron; first by apply: E; apply: mem_head.
  by apply: IH => x Hx; apply: E; rewrite inE Hx orbT.
apply: meq_trans (meq_fscat M1 _ _) _; rewrite ?Er ?Ec //.
Qed.

Lemma projector_ok r : wfr gs r -> (forall c, c \in problems gdim csize r -> solver_ok c) ->
  exists2 B, projector r = Ok B & is_op B /\ pop (sz r) (qmat gdim csize q r) B.
Proof.
move=> W H; case/orP: W => [N|].
  have S : ~~ is_sum r by case/or4P: N; case: (r).
  have -> : projector r = projector_ns r by case: (r) S.
  have -> : qmat gdim csize q r = qns gdim csize q r by case: (r) S.
  by apply: projector_ns_ok => // c Hc'; apply: H; case: (r) S Hc'.
case: r H => // d p H /andP[/and5P[NE A _ _ _] P].
have Hs k : k \in keys d -> forall c, c \in problems_ns gdim csize k -> solver_ok c.
  by move=> Hk c Hc'; apply: H; apply/flattenP; exists (problems_ns gdim csize k) => //; apply: map_f.
have HK k : k \in keys d -> exists2 B, projector_ns k = Ok B & is_op B /\ pop (sz k) (qns gdim csize q k) B.
  by move=> Hk; have /andP[Nk _] := allP A _ Hk; apply: projector_ns_ok => //; apply: Hs.
have fq k : k \in keys d -> fr (qns gdim csize q k) = sz k.
  by move=> Hk; have /andP[Nk _] := allP A _ Hk; apply: fr_qns Nk (Hs k Hk).
have [E1 E2] := pvals HK; rewrite /Solver.projector E1 bindOk; eexists; first by [].
set Q := fdsuml (map (qns gdim csize q) (dexp d)).
set D := fdsuml (expand (map (@den R) (map (bval projector_ns) (keys d))) (vals d)).
have MD : meq D (prj Q).
  apply: meq_trans (prj_dsuml _ _); rewrite /D -map_comp (expand_dexp (fun k => den (bval projector_ns k))).
  have {}E2 k : k \in dexp d -> meq (den (bval projector_ns k)) (prj (qns gdim csize q k)) by move=> /mem_dexp /E2[_ []].
  elim: (dexp d) E2 => [|k l IH] E /=; first exact: meq_refl.
  apply: meq_fdsum; first by apply: E; apply: mem_head.
  by apply: IH => x Hx; apply: E; rewrite inE Hx orbT.
have Qr : fr Q = sz (RSum d p).
  have {}fq k : k \in dexp d -> fr (qns gdim csize q k) = sz k by move=> /mem_dexp /fq.
  rewrite /Q [RHS]/= -sumn_dexp; elim: (dexp d) fq => [|k l IH] //= fq.
  by rewrite fq ?mem_head // IH // => x Hx; apply: fq; rewrite inE Hx orbT.
have Pq := argsort_perm P; have Sq := is_perm_size Pq; have Sp := is_perm_size P.
have sumz (f : op R -> nat) : (forall k, k \in keys d -> f (bval projector_ns k) = sz k) ->
   sumn [seq (x.1 * x.2)%N | x <- zip [seq f M | M <- map (bval projector_ns) (keys d)] (vals d)] = sz (RSum d p).
  move=> Hf; rewrite /= -map_comp; elim: (d) Hf => [|[k c] d' IH] //= Hf.
  rewrite Hf ?mem_head // IH // => x Hx; apply: Hf; by rewrite inE Hx orbT.
have shp k : k \in keys d -> shape (bval projector_ns k) = (sz k, sz k) by move=> /E2[_ [[_ _ _ _ ->]]].
have sumr := sumz (@rows R) (fun k Hk => congr1 fst (shp k Hk)).
have sumc := sumz (@cols R) (fun k Hk => congr1 snd (shp k Hk)).
split=> //; split; first split=> //.
- rewrite /=; apply/and5P; split=> //.
  + by rewrite size_map; case: (d) NE.
  + by rewrite !size_map.
  + by rewrite all_map; apply/allP=> k /E2[_ [[]]].
  + by rewrite Sq eqxx /= sumr; apply/allP=> i; rewrite (is_perm_mem _ Pq).
  + by rewrite sumc Sp eqxx /=; apply/allP=> i; rewrite (is_perm_mem _ P).
- by rewrite /= all_map; apply/allP=> k /E2[_ [[]]].
- by right.
have [m1 m2 m3] := MD; rewrite /= Qr in m1 m2.
apply: meq_trans (meq_sym (prj_frowp P Qr)).
have In i : (i < sz (RSum d p))%N -> (index i p < sz (RSum d p))%N by move=> Hi; rewrite -Sp index_mem (is_perm_mem _ P).
split=> //=; rewrite ?Sp // => i j Hi Hj.
rewrite (nth_argsort P) // -/D m1 m2.
rewrite (sum_delta (fun k => \sum_(0 <= j0 < _) fe D k j0 * (nth 0%N p j0 == j)%:R)) ?In //.
rewrite (eq_sum (g := fun t => (index j p == t)%:R * fe D (index i p) t)); last first.
  move=> t Ht; rewrite mulrC; congr (_%:R * _); congr nat_of_bool.
  apply/eqP/eqP=> [<-|<-]; first by rewrite index_uniq ?(is_perm_uniq P) ?Sp.
  by rewrite nth_index // (is_perm_mem _ P).
by rewrite sum_delta ?In // m3 ?m1 ?m2 ?In.
Qed.

(** P P = P, P symmetric, its image the invariants *)
Theorem projector_thm r : wfr gs r -> (forall c, c \in systems gdim csize r -> solver_ok c) ->
  exists B D, let P := unflat (sz r) (sz r) D in
  [/\ projector r = Ok B /\ to_dense conj B = Ok (sz r, sz r, D),
      meq (fmul P P) P, meq (ftr P) P &
      forall v, size v = sz r -> exists2 Pv, matmat conj B 1 v = Ok Pv &
        [/\ size Pv = sz r, invariant r Pv & invariant r v <-> Pv = v]].
Proof.
move=> W H; have [h1 h2 h3 h4] := qmat_sol W H.
move: (H); rewrite (systems_problems W) => H'.
have [B E [OB [GB MB]]] := projector_ok W H'.
set Q := qmat gdim csize q r in MB h1 h2 h3 h4.
have EH : meq (fH conj Q) (ftr Q) by split=> //= i j Hi Hj; rewrite Hc.
have PH : meq (fmul Q (fH conj Q)) (prj Q) by apply: meq_fmul.
have U : meq (unflat (sz r) (sz r) (flat (den B))) (prj Q).
  by have [b1 b2] := gop_sz GB; have := unflat_flat (den B); rewrite b1 b2 => M; apply: meq_trans M MB.
have id2 : meq (fmul (prj Q) (prj Q)) (prj Q).
  have PH' := meq_sym PH.
  exact: meq_trans (meq_trans (meq_fmul PH' PH' erefl) (proj_idem (conj := conj) h3)) PH.
exists B, (flat (den B)); split.
- by split=> //; apply: gop_dense.
- apply: meq_trans (meq_trans (meq_fmul U U _) id2) (meq_sym U) => //.
- apply: meq_trans (meq_ftr U) (meq_trans _ (meq_sym U)).
  by split=> //= i j Hi Hj; apply: eq_sum => k Hk; rewrite mulrC.
move=> v Sv; have [b1 b2] := gop_sz GB; have [GW GS GN GP GSh] := GB.
have Er : matmat conj B 1 v = Ok (mkseq (mv (prj Q) (nth 0 v)) (sz r)).
  have [Hm _] := mm_ok conj GW; rewrite /matmat Hm ?b2 ?muln1 //.
  congr Ok; apply: (@eq_from_nth _ 0); rewrite ?size_flat ?size_mkseq /= b1 muln1 // => i Hi.
  rewrite nth_mkseq // -{1}[i]addn0 -[X in (X + 0)%N]muln1 nth_flat /= ?b1 //.
  have [_ m2 m3] := MB; rewrite b2 /mv -m2 b2; apply: eq_sum => j Hj.
  by rewrite m3 ?b1 ?b2 // muln1 addn0.
eexists; first exact: Er; rewrite size_mkseq; split=> //.
- rewrite (inv_kills HG HL W) ?size_mkseq // h4 => i Hi.
  rewrite nth_mkseq // (mv_ext (w := mv (prj Q) (nth 0 v))); last first.
    by move=> j; rewrite /= h1 => Hj; rewrite nth_mkseq.
  rewrite (mv_eq (w := mv (prj Q) (nth 0 v)) PH) ?h1 //= -mv_mul //.
  by rewrite (mv_eq (w := nth 0 v) id2) //= h1.
rewrite (inv_kills HG HL W Sv) h4 -[X in _ <-> _ = X](mkseq_nthv Sv) mkseq_eq.
exact: meq_fixedby.
Qed.

(** P = Q Q^T *)
Theorem projector_qqt r : wfr gs r -> (forall c, c \in systems gdim csize r -> solver_ok c) -> factors_nonzero r ->
  exists B P k Q, [/\ projector r = Ok P, basis r = Ok B, to_dense conj B = Ok (sz r, k, Q) &
    to_dense conj P = Ok (sz r, sz r, flat (fmul (unflat (sz r) k Q) (ftr (unflat (sz r) k Q))))].
Proof.
move=> W H F; have [h1 h2 h3 h4] := qmat_sol W H.
move: (H); rewrite (systems_problems W) => H'.
have [B E I] := basis_ok conjK HG HL crho1 cdrho0 O W H' (factors_dims conjK HG HL crho1 cdrho0 W H' F).
have [P EP [OP [GP MP]]] := projector_ok W H'.
set Q := qmat gdim csize q r in MP h1 h2 h3 h4 I *.
exists B, P, (fc Q), (flat Q); split=> //; first by rewrite (unflat_isop I) h1.
rewrite (gop_dense GP); congr Ok; congr pair; rewrite (flat_meq MP); apply: flat_meq.
have U : meq Q (unflat (sz r) (fc Q) (flat Q)) by rewrite -h1; apply: meq_sym; apply: unflat_flat.
by apply: meq_fmul => //; apply: meq_ftr.
Qed.
End Real.
End Thm.
