(** * SolBasis: what equivariant_basis and equivariant_projector return. *)
From mathcomp Require Import all_ssreflect all_algebra.
From mathcomp Require Import zify.
From Verif Require Import Np NpLemmas Spec SpecLemmas LinOp LinOpSpec LinOpProofs LinOpMM LinOpMore LinOpInv LinOpThm Rep RepSpec RepMat RepWf RepProd RepAlg RepDist RepMul RepFun RepOps RhoProofs RepThm DualNum DrhoProofs DrhoThm RepThm1 RepDir DirThm Solver SolSpec SolAlg SolSvd SolFam SolProofs.
Set Implicit Arguments.
Unset Strict Implicit.
Unset Printing Implicit Defensive.
Import GRing.Theory.
Local Open Scope ring_scope.

Section Vec.
Variable R : comRingType.
Implicit Types (v : seq R) (A : fmat R).

Lemma matvecE m n (D : seq R) v : size v = n ->
  matvec m n D v = mkseq (fun i => mv (unflat m n D) (nth 0 v) i) m.
Proof.
move=> S; apply: (@eq_from_nth _ 0); rewrite /matvec ?size_flat ?size_mkseq /= ?muln1 // => i Hi.
rewrite nth_mkseq // -{1}[i]addn0 -[X in (X + 0)%N]muln1 nth_flat //=.
by apply: eq_sum => j Hj; rewrite muln1 addn0.
Qed.
Lemma matvec_flat n A v : fr A = n -> fc A = n -> size v = n ->
  matvec n n (flat A) v = mkseq (fun i => mv A (nth 0 v) i) n.
Proof.
move=> e1 e2 S; rewrite matvecE //; apply/eq_in_map => i; rewrite mem_iota => /andP[_ Hi].
have M : meq (unflat n n (flat A)) A by have := unflat_flat A; rewrite e1 e2.
exact: (mv_eq M).
Qed.
End Vec.

Section Basis.
Variable R : comRingType.
Variables (conj sinv : R -> R) (linv : nat -> seq R -> seq R).
Variables (crho cdrho : nat -> option gid -> gel R -> res (op R)).
Variables (gdim : gid -> nat) (csize : nat -> gid -> nat).
Variables (le : rel rep) (gs : pred gid).
Variables (gens lies : gid -> seq (op R)).
Variables (svd : nat -> nat -> seq R -> seq R * seq R * seq R) (big : pred R).
Variable krylov : op R -> res (darr R).
Local Notation sz := (rsize gdim csize).
Local Notation canon := (canon gdim csize).
Local Notation cpm := (cpm gdim csize).
Local Notation atomic := (atomic gdim csize).
Local Notation wfr := (wfr gdim csize le).
Local Notation nonsum := (nonsum gdim csize le).
Local Notation key := (key gdim csize le).
Local Notation dkey := (dkey gdim csize le).
Local Notation group_elem := (group_elem conj sinv linv crho gdim csize).
Local Notation lie_elem := (lie_elem conj cdrho gdim csize).
Local Notation elemG := (@elemG R gdim).
Local Notation elemL := (@elemL R gdim).
Hypothesis conjM : forall x y, conj (x * y) = conj x * conj y.
Hypothesis conjK : forall x, conj (conj x) = x.
Hypothesis conj0 : conj 0 = 0.
Hypothesis conj1 : conj 1 = 1.
Hypothesis HG : forall g h, gs g -> List.In h (gens g) -> group_elem gs (elemG g h).
Hypothesis HL : forall g A, gs g -> List.In A (lies g) -> lie_elem gs (elemL g A).
Hypothesis crho1 : forall c g C, gs g -> crho c (Some g) (GMat (OI R (gdim g))) = Ok C ->
  meq (den C) (fid R (csize c g)).
Hypothesis cdrho0 : forall c g C, gs g ->
  cdrho c (Some g) (GMat (OArr (gdim g) (gdim g) (nseq (gdim g * gdim g) 0))) = Ok C ->
  meq (den C) (fzero R (csize c g) (csize c g)).
Hypothesis O : total_order_on (key gs) le.
Local Notation gix := (@gix R gs gens lies).
Local Notation cm := (@cm R sinv linv crho cdrho gdim csize gs gens lies).
Local Notation constraint_matrix := (constraint_matrix sinv linv crho cdrho gdim csize gens lies).
Local Notation solve := (solve conj sinv linv crho cdrho gdim csize gens lies svd big krylov).
Local Notation solver_ok := (solver_ok conj gdim sinv linv crho cdrho csize gens lies svd big krylov).
Local Notation basis_rep := (basis_rep conj sinv linv crho cdrho gdim csize le gens lies svd big krylov).
Local Notation basis_ns := (basis_ns conj sinv linv crho cdrho gdim csize le gens lies svd big krylov).
Local Notation basis := (basis conj sinv linv crho cdrho gdim csize le gens lies svd big krylov).
Local Notation sol := (sol conj).

(** the solution found for a system *)
Definition q (c : rep) : fmat R := if solve c is Ok D then unflat D.1.1 D.1.2 D.2 else fzero R 0 0.

Lemma null_sol m n (D : seq R) k (Q : seq R) : null_basis conj m n D k Q ->
  sol n (fun _ : unit => unflat m n D) (unflat n k Q).
Proof.
case=> SQ HQ HN; split=> // v.
set w := mkseq v n; have Sw : size w = n by rewrite size_mkseq.
have nw j : (j < n)%N -> nth 0 w j = v j by move=> Hj; rewrite nth_mkseq.
have := HN w Sw; rewrite matvecE // matvec_flat //.
set P := fmul _ _ => -[H1 H2]; split=> K.
  have E := H1 _; move=> i Hi.
  have {}E : mkseq (fun i => mv P (nth 0 w) i) n = w.
    apply: E; apply: (@eq_from_nth _ 0); rewrite ?size_mkseq ?size_nseq // => t Ht.
    rewrite nth_mkseq // nth_nseq if_same -[RHS](K tt t) //; apply: mv_ext => j Hj; exact: nw.
  have := congr1 (nth 0 ^~ i) E; rewrite nth_mkseq // nw // => <-.
  by apply: mv_ext => j Hj; rewrite nw.
move=> [] i Hi /=.
have E : mkseq (fun i => mv (unflat m n D) (nth 0 w) i) m = nseq m 0.
  apply: H2; apply: (@eq_from_nth _ 0); rewrite ?size_mkseq // => t Ht.
  by rewrite nth_mkseq // nw // -[RHS]K //; apply: mv_ext => j Hj; rewrite nw.
have := congr1 (nth 0 ^~ i) E; rewrite nth_mkseq // nth_nseq if_same => <-.
by apply: mv_ext => j Hj; rewrite nw.
Qed.

Lemma solve_ok c : dkey gs c -> solver_ok c ->
  exists k Q, [/\ solve c = Ok (sz c, k, Q), size Q = (sz c * k)%N & sol (sz c) (cm^~ c) (unflat (sz c) k Q)].
Proof.
move=> D HS; have [g Eg Hg] := dkey_gattr D.
have [C EC [m [GC HC]]] := constraint_ok HG HL crho1 cdrho0 D Eg.
have [c1 c2] := gor_sz GC; have Ed := gor_dense GC.
have fin k (Q : seq R) : sol (sz c) (fun _ : unit => unflat m (sz c) (flat (den C))) (unflat (sz c) k Q) ->
    sol (sz c) (cm^~ c) (unflat (sz c) k Q).
  have M : meq (unflat m (sz c) (flat (den C))) (den C) by have := unflat_flat (den C); rewrite c1 c2.
  case=> h1 h2 h3 h4; split=> // [x|v].
    by have [] := cm_sq HG HL x (dkey_wfr D).
  by rewrite -HC -h4; apply: kills_meq => x; apply: meq_sym.
have := HS C m (sz c) _ EC Ed; rewrite /Solver.solve EC bindOk.
case: ifP => _.
  case=> k [Q [-> HQ]]; exists k, Q; split=> //; first by case: HQ.
  exact/fin/null_sol.
rewrite Ed bindOk => HE.
have [|E1 E2 E3] := svd_sol conjK _ HE; first by rewrite size_flat c1 c2.
move: E1 E2 E3; rewrite [X in orthogonal_complement _ _ _ X]/= [X in orthogonal_complement _ _ _ _ X]/= [X in orthogonal_complement _ _ _ _ _ X]/=.
case: (orthogonal_complement _ _ _ _ _ _) => -[n' k] Q /= -> E2 E3.
by exists k, Q; split=> //; apply: fin.
Qed.

Lemma q_ok c : dkey gs c -> solver_ok c -> sol (sz c) (cm^~ c) (q c).
Proof. by move=> D H; have [k [Q [E _ S]]] := solve_ok D H; rewrite /q E. Qed.
(** operators that represent the matrix A *)
Definition isop (A : fmat R) (B : op R) : Prop := [/\ wf B, plain B, dsum_ne B & meq (den B) A].
Lemma isop_shape A B : isop A B -> shape B = (fr A, fc A).
Proof. by case=> W _ _ [<- <- _]; apply: shape_lem. Qed.

Definition simple (r : rep) : bool := if r is RDir _ _ then false else true.

Lemma canon_dkey r : nonsum gs r -> simple r -> r <> RScalar -> dkey gs (canon r).
Proof.
move=> N S NS; case/or4P: (N) => [/eqP //|A|P|P]; last by case: (r) P S.
  by rewrite (atomic_canon A) /RepWf.dkey A.
have := canon_key N; case: (r) P => // d p _ /andP[/or4P[/eqP //|//|P|//] C].
by apply/orP; right; rewrite P C.
Qed.

Lemma basis_rep_ok r : nonsum gs r -> simple r -> (forall c, c \in problems_ns gdim csize r -> solver_ok c) ->
  exists2 B, basis_rep r = Ok B & isop (qns gdim csize q r) B.
Proof.
move=> N S H; have W := nonsum_wfr N.
case: (r =P RScalar) => [->|NS].
  eexists; first by []. by split=> //; split=> //= -[|i] [|j].
have -> : basis_rep r = do cp <- canonicalize gdim csize le r;
  if ~~ hashable cp.1 then Err AssertionError else
  do Q <- solve cp.1;
  Ok (OArr (size cp.2) Q.1.2 (grows 0 Q.1.2 Q.2 (argsort cp.2))) by case: (r) NS.
rewrite (canonicalizeE O W) bindOk.
have D := canon_dkey N S NS; rewrite (dkey_hashable D) /=.
have [|k [Q [E SQ HQ]]] := solve_ok D; first by apply: H; case: (r) S NS => // *; apply: mem_head.
rewrite E bindOk /=; eexists; first by [].
have P := is_perm_cpm W; have Sp := is_perm_size P; rewrite sz_canon in E SQ HQ.
have -> : qns gdim csize q r = frowp (cpm r) (unflat (sz r) k Q).
  by rewrite -[unflat _ _ _]/(if Ok (sz r, k, Q) is Ok D then unflat D.1.1 D.1.2 D.2 else fzero R 0 0) -E -/(q _); case: (r) S NS.
have Sa : size (argsort (cpm r)) = sz r by rewrite (is_perm_size (argsort_perm P)).
split=> //=; first by rewrite size_grows Sa Sp.
split=> //= i j; rewrite Sp => Hi Hj; rewrite nth_grows ?Sa // (nth_argsort P) //.
Qed.

Lemma frowp_iota (A : fmat R) n : fr A = n -> meq (frowp (iota 0 n) A) A.
Proof.
move=> E; split=> //=; rewrite ?size_iota // => i j Hi Hj.
by rewrite -{1}[i]add0n -(nth_iota 0%N 0 Hi) index_uniq ?iota_uniq ?size_iota.
Qed.

Lemma basis_key_ok k : dkey gs k -> solver_ok k ->
  exists2 B, basis_rep k = Ok B & isop (q k) B.
Proof.
move=> D H; have K : key gs k by apply: sub_dkey D.
have [N C] := andP K.
have S : simple k by case: (k) D.
have NS : k <> RScalar by move=> E; rewrite E in D.
have Ec : canon k = k by case: (k) C => //= d p /eqP ->.
have Ep : cpm k = iota 0 (sz k) by case: (k) C => //= d p /eqP ->.
have [|B E [W P Ne M]] := basis_rep_ok N S.
  by move=> c; have -> : problems_ns gdim csize k = [:: canon k]; [case: (k) S NS | rewrite inE Ec => /eqP ->].
exists B => //; split=> //; apply: meq_trans M _.
have -> : qns gdim csize q k = frowp (cpm k) (q (canon k)) by case: (k) S NS.
by rewrite Ec Ep; apply: frowp_iota; have [] := q_ok D H.
Qed.

Definition bval (f : rep -> res (op R)) (k : rep) : op R := if f k is Ok B then B else OI R 0.
Lemma bvalE f k B : f k = Ok B -> f k = Ok (bval f k) /\ bval f k = B.
Proof. by rewrite /bval => ->. Qed.

Lemma bvals (f : rep -> res (op R)) (m : rep -> fmat R) l :
  (forall k, k \in l -> exists2 B, f k = Ok B & isop (m k) B) ->
  mapM f l = Ok (map (bval f) l) /\ forall k, k \in l -> isop (m k) (bval f k).
Proof.
move=> H; split; first by apply: mapM_ok_in => k /H[B /bvalE[]].
by move=> k /H[B /bvalE[_ ->]].
Qed.

Lemma isop_fkronl (m : rep -> fmat R) (f : rep -> op R) l : (forall k, k \in l -> isop (m k) (f k)) ->
  meq (fkronl (map (@den R) (map f l))) (fkronl (map m l)).
Proof.
elim: l => [|k l IH] H /=; first exact: meq_refl.
apply: meq_fkron; first by have [_ _ _] := H k (mem_head _ _).
by apply: IH => x Hx; apply: H; rewrite inE Hx orbT.
Qed.
Lemma isop_fdsuml (m : rep -> fmat R) (f : rep -> op R) l : (forall k, k \in l -> isop (m k) (f k)) ->
  meq (fdsuml [seq den (f k) | k <- l]) (fdsuml (map m l)).
Proof.
elim: l => [|k l IH] H /=; first exact: meq_refl.
apply: meq_fdsum; first by have [_ _ _] := H k (mem_head _ _).
by apply: IH => x Hx; apply: H; rewrite inE Hx orbT.
Qed.
Lemma isop_kron (m : rep -> fmat R) (f : rep -> op R) l : (1 < size l)%N ->
  (forall k, k \in l -> isop (m k) (f k)) ->
  (forall k, k \in l -> (0 < fr (m k))%N /\ (0 < fc (m k))%N) ->
  isop (fkronl (map m l)) (OKron (map f l)).
Proof.
move=> S H P; split.
- rewrite /= size_map S /=; apply/and3P; split; rewrite all_map; apply/allP=> k Hk /=.
  + by have [] := H k Hk.
  + by rewrite /rows (isop_shape (H k Hk)) /=; have [] := P k Hk.
  + by rewrite /cols (isop_shape (H k Hk)) /=; have [] := P k Hk.
- by rewrite /= all_map; apply/allP=> k /H[].
- by rewrite /= all_map; apply/allP=> k /H[].
exact: isop_fkronl.
Qed.
Lemma fr_fkronl_map (m : rep -> fmat R) l : (forall k, k \in l -> fr (m k) = sz k) -> fr (fkronl (map m l)) = prodn (map sz l).
Proof.
elim: l => [|k l IH] H //=; rewrite H ?mem_head // IH // => x Hx; apply: H; by rewrite inE Hx orbT.
Qed.
Lemma isop_perm (A : fmat R) B p : is_perm (fr A) p -> is_op B -> isop A B ->
  exists2 C, mkProd (OPerm R (argsort p)) B = Ok C & isop (frowp p A) C.
Proof.
move=> P OB H; have [W Pl Ne M] := H; have Sh := isop_shape H.
have Pq := argsort_perm P; have Sq := is_perm_size Pq; have Sp := is_perm_size P.
rewrite /mkProd OB /= /cols /rows Sh /= Sq eqxx /=; eexists; first by [].
split=> //=.
- by rewrite OB W Sq Pq /cols /rows /= Sh Sq /= eqxx.
have [m1 m2 m3] := M.
split=> /=; rewrite ?Sq ?Sp // => i j Hi Hj.
rewrite (nth_argsort P) // (sum_delta (fun k => fe (den B) k j)) ?m3 //.
  by rewrite m1 -Sp index_mem (is_perm_mem _ P).
by rewrite -Sp index_mem (is_perm_mem _ P).
Qed.

Lemma basis_ns_ok r : nonsum gs r -> (forall c, c \in problems_ns gdim csize r -> solver_ok c) ->
  (if r is RDir d _ then forall k, k \in keys d -> (0 < fc (q k))%N else True) ->
  exists2 B, basis_ns r = Ok B & isop (qns gdim csize q r) B.
Proof.
move=> N H; case: (boolP (simple r)) => S Hc.
  have -> : basis_ns r = basis_rep r by case: (r) S.
  exact: basis_rep_ok.
case: r S N H Hc => // d p _ N H Hc.
case/or4P: N => // /andP[/and4P[/and5P[_ A _ _ _] V1 S2 _] P].
have [E1 E2] := bvals (fun k Hk => basis_key_ok (allP A _ Hk) (H k Hk)).
rewrite /Solver.basis_ns E1 bindOk mkKron_gt1 ?size_map // bindOk.
have fq k : k \in keys d -> fr (q k) = sz k by move=> Hk; have [] := q_ok (allP A _ Hk) (H k Hk).
have Ef : fr (fkronl (map q (keys d))) = sz (RDir d p).
  by rewrite (fr_fkronl_map fq) -(dexp_ones V1) prodn_dexp.
rewrite -Ef in P.
have I : isop (fkronl (map q (keys d))) (OKron (map (bval basis_rep) (keys d))).
  apply: isop_kron => //; first by rewrite size_map.
  by move=> k Hk; rewrite fq // (dkey_sz (allP A _ Hk)); split=> //; apply: Hc.
by have [|C EC IC] := isop_perm P _ I => //; exists C.
Qed.

Lemma fr_qns r : nonsum gs r -> (forall c, c \in problems_ns gdim csize r -> solver_ok c) -> fr (qns gdim csize q r) = sz r.
Proof.
move=> N H; have W := nonsum_wfr N.
have Sp := is_perm_size (is_perm_cpm W).
case/or4P: N => [/eqP -> //|A|P|]; [by case: (r) A Sp | by case: (r) P Sp |].
by case: r {W H Sp} => // d p /andP[_ /is_perm_size].
Qed.

Definition dims (r : rep) : Prop :=
  forall d p k, RDir d p \in (if r is RSum ds _ then keys ds else [:: r]) -> k \in keys d -> (0 < fc (q k))%N.

Lemma basis_ok r : wfr gs r -> (forall c, c \in problems gdim csize r -> solver_ok c) -> dims r ->
  exists2 B, basis r = Ok B & isop (qmat gdim csize q r) B.
Proof.
move=> W H Hd; case/orP: W => [N|].
  have S : ~~ is_sum r by case/or4P: N; case: (r).
  have -> : basis r = basis_ns r by case: (r) S.
  have -> : qmat gdim csize q r = qns gdim csize q r by case: (r) S.
  apply: basis_ns_ok => //; first by move=> c Hc; apply: H; case: (r) S Hc.
  by case: (r) S Hd => // d p _ Hd k Hk; apply: (Hd d p) => //; rewrite inE.
case: r H Hd => // d p H Hd /andP[/and5P[NE A _ _ _] P].
have HK k : k \in keys d -> exists2 B, basis_ns k = Ok B & isop (qns gdim csize q k) B.
  move=> Hk; have /andP[Nk _] := allP A _ Hk; apply: basis_ns_ok => //.
    by move=> c Hc; apply: H; apply/flattenP; exists (problems_ns gdim csize k) => //; apply: map_f.
  by case: (k) Hk => // d' p' Hk k' Hk'; apply: Hd Hk Hk'.
have fq k : k \in keys d -> fr (qns gdim csize q k) = sz k.
  move=> Hk; have /andP[Nk _] := allP A _ Hk; apply: fr_qns => // c Hc.
  by apply: H; apply/flattenP; exists (problems_ns gdim csize k) => //; apply: map_f.
have [E1 E2] := bvals HK; rewrite /Solver.basis E1 bindOk; eexists; first by [].
set D := fdsuml (map (qns gdim csize q) (dexp d)).
have MD : meq (fdsuml (expand (map (@den R) (map (bval basis_ns) (keys d))) (vals d))) D.
  by rewrite -map_comp (expand_dexp (fun k => den (bval basis_ns k))); apply: isop_fdsuml => k /mem_dexp /E2.
have Pq := argsort_perm P; have Sq := is_perm_size Pq; have Sp := is_perm_size P.
have sumr : sumn [seq (x.1 * x.2)%N | x <- zip [seq rows M | M <- map (bval basis_ns) (keys d)] (vals d)] = sz (RSum d p).
  rewrite /= -map_comp; elim: (d) E2 fq => [|[k c] d' IH] //= E2 fq.
  rewrite /rows (isop_shape (E2 k (mem_head _ _))) /= fq ?mem_head // IH //.
    by move=> x Hx; apply: E2; rewrite inE Hx orbT.
  by move=> x Hx; apply: fq; rewrite inE Hx orbT.
have Dr : fr D = sz (RSum d p).
  have {}fq k : k \in dexp d -> fr (qns gdim csize q k) = sz k by move=> /mem_dexp /fq.
  rewrite /D [RHS]/= -sumn_dexp; elim: (dexp d) fq => [|k l IH] //= fq.
  by rewrite fq ?mem_head // IH // => x Hx; apply: fq; rewrite inE Hx orbT.
have Dc : fc D = sumn [seq (x.1 * x.2)%N | x <- zip (vals d) (map (@cols R) (map (bval basis_ns) (keys d)))].
  rewrite /D -map_comp; elim: (d) E2 => [|[k c] d' IH] //= E2.
  rewrite /dexp /= map_cat map_nseq -/(dexp d') /cols (isop_shape (E2 k (mem_head _ _))) /=.
  rewrite -IH; last by move=> x Hx; apply: E2; rewrite inE Hx orbT.
  by elim: (c) => [|c' IHc] //=; rewrite IHc mulSn addnA.
split=> //.
- rewrite /=; apply/and5P; split=> //.
  + by rewrite size_map; case: (d) NE.
  + by rewrite !size_map.
  + by rewrite all_map; apply/allP=> k /E2[].
  + rewrite Sq eqxx /= sumr; apply/allP=> i; rewrite (is_perm_mem _ Pq) //.
  + have Z (l1 l2 : seq nat) : sumn [seq (x.1 * x.2)%N | x <- zip l1 l2] = sumn [seq (x.1 * x.2)%N | x <- zip l2 l1].
      by elim: l1 l2 => [|a l1 IH] [|b l2] //=; rewrite IH mulnC.
    by rewrite Z.
- by rewrite /= all_map; apply/allP=> k /E2[].
have [m1 m2 m3] := MD.
split=> //=; rewrite ?Sp // => i j Hi Hj.
rewrite (nth_argsort P) // (sum_delta (fun k => fe (fdsuml _) k j)).
  by rewrite m3 // m1 Dr -Sp index_mem (is_perm_mem _ P).
by rewrite m1 Dr -Sp index_mem (is_perm_mem _ P).
Qed.

(** *** in terms of the dense matrices of the generators *)
Local Notation invariant := (invariant conj gdim sinv linv crho cdrho csize gs gens lies).
Local Notation factors_nonzero := (factors_nonzero conj gdim sinv linv crho cdrho csize gs gens lies).
Local Notation arho := (arho sinv linv crho).
Local Notation adrho := (adrho cdrho).

Lemma mkseq_eq (f g : nat -> R) n : mkseq f n = mkseq g n <-> (forall i, (i < n)%N -> f i = g i).
Proof.
split=> [E i Hi|H].
  by have := congr1 (nth 0 ^~ i) E; rewrite /= !nth_mkseq.
by apply/eq_in_map => i; rewrite mem_iota => /andP[_ Hi]; apply: H.
Qed.
Lemma mkseq_nthv (v : seq R) n : size v = n -> mkseq (nth 0 v) n = v.
Proof. by move=> <-; apply: mkseq_nth. Qed.
Lemma nseq_mkseq n : nseq n (0 : R) = mkseq (fun _ => 0) n.
Proof. by apply: (@eq_from_nth _ 0); rewrite ?size_nseq ?size_mkseq // => i Hi; rewrite nth_mkseq // nth_nseq if_same. Qed.

Lemma mv_fsub n (A : fmat R) (v : nat -> R) i : fc A = n -> (i < n)%N -> mv (fsub A (fid R n)) v i = mv A v i - v i.
Proof.
move=> E Hi; rewrite /mv /= E.
rewrite (eq_sum (g := fun j => fe A i j * v j - (i == j)%:R * v j)); last by move=> j _; rewrite mulrBl.
by rewrite sumrB sum_delta.
Qed.

Lemma inv_kills r (v : seq R) : wfr gs r -> size v = sz r -> invariant r v <-> kills (cm^~ r) (nth 0 v).
Proof.
move=> W S; split=> [[H1 H2] [g [h|A] Hx] i|K].
- have [Hg Hh] := Hx; rewrite /SolFam.cm /=.
  have [D] := H1 g h Hg Hh; rewrite (rho_dense_ok (HG Hg Hh) W) => -[<-].
  have [h1 h2] := rmat_kok (HG Hg Hh) W; rewrite h1 => E Hi; move: E.
  rewrite matvec_flat // -{2}(mkseq_nthv S) mkseq_eq => E.
  by rewrite mv_fsub // E // subrr.
- have [Hg Hh] := Hx; rewrite /SolFam.cm /=.
  have [D] := H2 g A Hg Hh; rewrite (drho_dense_ok (HL Hg Hh) W) => -[<-].
  have [h1 h2] := dmat_sq (HL Hg Hh) W; rewrite h1 => E Hi; move: E.
  by rewrite matvec_flat // nseq_mkseq mkseq_eq => E; apply: E.
split=> g h Hg Hh.
  eexists; first exact: rho_dense_ok (HG Hg Hh) W.
  have [h1 h2] := rmat_kok (HG Hg Hh) W.
  rewrite matvec_flat // -{2}(mkseq_nthv S) mkseq_eq => i Hi.
  have := K (@Gix _ _ _ _ g (inl h) (Logic.conj Hg Hh)) i.
  rewrite /SolFam.cm /= h1 => /(_ Hi); rewrite mv_fsub // => /eqP; by rewrite subr_eq0 => /eqP.
eexists; first exact: drho_dense_ok (HL Hg Hh) W.
have [h1 h2] := dmat_sq (HL Hg Hh) W.
rewrite matvec_flat // nseq_mkseq mkseq_eq => i Hi.
have := K (@Gix _ _ _ _ g (inr h) (Logic.conj Hg Hh)) i.
by rewrite /SolFam.cm /= h1 => /(_ Hi).
Qed.

Lemma systems_problems r : wfr gs r -> systems gdim csize r = problems gdim csize r.
Proof.
have H k : nonsum gs k -> systems_ns gdim csize k = problems_ns gdim csize k by case: k.
case/orP=> [N|]; first by have := H r N; case: (r) N.
case: r => // d p /andP[/and5P[_ A _ _ _] _] /=; congr flatten; apply/eq_in_map => k Hk.
by have /andP[/H] := allP A _ Hk.
Qed.

Lemma factors_dims r : wfr gs r -> (forall c, c \in problems gdim csize r -> solver_ok c) -> factors_nonzero r -> dims r.
Proof.
move=> W H F d p k Hd Hk.
have [D Hs] : dkey gs k /\ solver_ok k.
  have dk r' : isdir gdim csize le gs r' -> r' = RDir d p -> dkey gs k.
    by move=> + E; rewrite E => /andP[/and4P[/and5P[_ A _ _ _] _ _ _] _]; apply: (allP A).
  case/orP: W => [N|].
    have E : RDir d p = r.
      by apply/eqP; have : RDir d p \in [:: r]; [move: Hd; case: (r) N | rewrite inE].
    move: N H; rewrite -E => /or4P[//|//|//|I] H; split; first exact: dk I erefl.
    by apply: H.
  case: r H F Hd => // ds ps H F Hd /andP[/and5P[_ A _ _ _] _].
  have /andP[/or4P[//|//|//|I] _] := allP A _ Hd; split; first exact: dk I erefl.
  by apply: H; apply/flattenP; exists (keys d) => //; apply: (map_f (problems_ns gdim csize) Hd).
have [v [Sv Iv Nv]] := F d p k Hd Hk.
have [q1 q2 q3 q4] := q_ok D Hs.
have K := proj1 (inv_kills (dkey_wfr D) Sv) Iv.
rewrite lt0n; apply/eqP=> E0; apply: Nv.
apply: (@eq_from_nth _ 0); rewrite ?size_nseq // => i Hi; rewrite Sv in Hi.
rewrite nth_nseq if_same -(proj1 (q4 _) K i Hi) /mv big1 // => j _.
by rewrite /= E0 big_nil mul0r.
Qed.

Lemma image_sol X n (c : X -> fmat R) Q B (v : seq R) : sol n c Q -> isop Q B -> size v = n ->
  kills c (nth 0 v) <-> exists2 w, size w = fc Q & matmat conj B 1 w = Ok v.
Proof.
move=> [h1 h2 h3 h4] I S; have Sh := isop_shape I; have [W P Ne M] := I.
have mm w : size w = fc Q -> matmat conj B 1 w = Ok (mkseq (fun i => mv Q (nth 0 w) i) n).
  move=> Sw; rewrite matmul_lem //; last by rewrite /cols Sh muln1.
  congr Ok; have [m1 m2 m3] := M; apply: (@eq_from_nth _ 0).
    by rewrite size_flat size_mkseq /= m1 h1 muln1.
  rewrite size_flat /= m1 h1 muln1 => i Hi.
  rewrite nth_mkseq // -{1}[i]addn0 -[X in (X + 0)%N]muln1 nth_flat /= ?m1 ?h1 //.
  rewrite m2; apply: eq_sum => j Hj; rewrite m3 ?m1 ?m2 ?h1 // muln1 addn0 //.
rewrite h4; split=> [F|[w Sw]].
  set w := mkseq (mv (fH conj Q) (nth 0 v)) (fc Q).
  exists w; first by rewrite size_mkseq.
  rewrite mm ?size_mkseq //; congr Ok; rewrite -[RHS](mkseq_nthv S) mkseq_eq => i Hi.
  rewrite -F // mv_mul //; apply: mv_ext => j Hj; by rewrite nth_mkseq.
rewrite mm // => -[Ev] i Hi; rewrite -Ev nth_mkseq //.
have e : mv (fmul Q (fH conj Q)) (nth 0 v) i = mv (fmul Q (fH conj Q)) (mv Q (nth 0 w)) i.
  by apply: mv_ext => j; rewrite /= h1 => Hj; rewrite -Ev nth_mkseq.
rewrite -Ev in e; rewrite e mv_mul // (mv_ext (w := nth 0 w)) // => j Hj.
by rewrite -mv_mul // (mv_eq (w := nth 0 w) h3) // /mv /= sum_delta.
Qed.

End Basis.
