(** * CharThm: the number of equivariant basis elements of a finite group is the average of the
    character. *)
From Coq Require Import Reals String.
From mathcomp Require Import all_ssreflect all_algebra.
From mathcomp Require Import zify.
From Verif Require Import Np NpLemmas Spec SpecLemmas LinOp LinOpSpec LinOpInv MxBridge LinOpThm Rep RepSpec RepWf RepAlg RepFun RhoProofs RepThm RepThm1 Solver SolSpec SolAlg SolBasis SolThm DimSol Rstruct Expm GrpSpec GrpProofs GrpThm.
From Verif Require Import Groups GroupsSpec GroupsSpecR GroupsInit GroupsCtor GroupsThm GroupsFlag GroupsReal ExactSpec GroupsExact.
From Verif Require Import Nn NnSpec NnThm Data DataSpec DataAlg DataThm DataGroups DataCubeThm DimTenSpec DimGrp CharSpec.
Set Implicit Arguments.
Unset Strict Implicit.
Unset Printing Implicit Defensive.
Import GRing.Theory.
Local Open Scope ring_scope.

(** the averaging argument: S is absorbed by every F D, its columns are fixed, and so are those
    of Q *)
Section Pure.
Variables (N k : nat) (Q : seq RR) (T : eqType) (Es : seq T) (F : T -> 'M[RR]_N).
Let S := \sum_(D <- Es) F D.
Lemma averaging : meq (fmul (ftr (unflat N k Q)) (unflat N k Q)) (fid RR k) ->
  (forall D, D \in Es -> F D *m S = S) ->
  (forall v, size v = N -> (forall D, D \in Es -> F D *m toM N 1 v = toM N 1 v) <-> exists2 w, size w = k & matvec N k Q w = v) ->
  \sum_(D <- Es) \tr (F D) = (size Es)%:R * k%:R.
Proof.
move=> MQ absorb HQ.
pose Qm := toM N k Q.
have QQ : Qm^T *m Qm = 1%:M.
  have := mxf_meq (m := k) (n := k) MQ erefl erefl.
  by rewrite (mxf_mul _ _ (k := N)) // mxf_tr mxf_id.
have PS : Qm *m (Qm^T *m S) = S.
  suff [Z ->] : exists Z, S = Qm *m Z by rewrite (mulmxA _ Qm) QQ mul1mx.
  have col_fix j : exists w : 'cV_k, col j S = Qm *m w.
    have Sv : size (ofM (col j S)) = N by rewrite size_ofM muln1.
    have /(HQ _ Sv)[w Sw Ew] : forall D, D \in Es -> F D *m toM N 1 (ofM (col j S)) = toM N 1 (ofM (col j S)).
      by move=> D HD; rewrite toM_ofM -col_mulm absorb.
    by exists (toM k 1 w); rewrite -[LHS]toM_ofM -Ew matvec_matmul toM_matmul.
  have [f Hf] : exists f : 'I_N -> 'cV_k, forall j, col j S = Qm *m f j.
    by apply: (@fin_all_exists _ (fun=> 'cV_k) (fun j w => col j S = Qm *m w)).
  exists (\matrix_(i, j) f j i ord0); apply/matrixP => i j.
  have /matrixP/(_ i ord0) := Hf j; rewrite !mxE => ->; apply: eq_bigr => l _; by rewrite !mxE.
have SQ : S *m Qm = (size Es)%:R *: Qm.
  have fixQ D : D \in Es -> F D *m Qm = Qm.
    move=> HD; apply/matrixP => i j; pose w := ofM (delta_mx j (ord0 : 'I_1) : 'cV[RR]_k).
    have Sw : size w = k by rewrite size_ofM muln1.
    have Sv : size (matvec N k Q w) = N by rewrite matvec_matmul size_matmul muln1.
    have H : exists2 w0, size w0 = k & matvec N k Q w0 = matvec N k Q w by exists w.
    move/(HQ _ Sv)/(_ D HD): H; rewrite matvec_matmul toM_matmul toM_ofM mulmxA -!colE.
    by move/matrixP/(_ i ord0); rewrite !mxE.
  rewrite mulmx_suml (eq_big_seq (fun=> Qm)) //.
  by rewrite big_const_seq count_predT -Monoid.iteropE /= scaler_nat.
rewrite -raddf_sum -/S /=.
by rewrite -PS mxtrace_mulC -mulmxA SQ -scalemxAr QQ mxtraceZ mxtrace1.
Qed.
End Pure.
Section Main.
Variables (sinv : RR -> RR) (linv : nat -> seq RR -> seq RR).
Variables (crho cdrho : nat -> option gid -> gel RR -> res (op RR)).
Variables (gdim : gid -> nat) (csize : nat -> gid -> nat) (le : rel rep) (g : gid).
Variable G : gid -> group RR.
Variables (svd : nat -> nat -> seq RR -> seq RR * seq RR * seq RR) (big : pred RR).
Variable krylov : op RR -> res (darr RR).
Local Notation sz := (rsize gdim csize).
Local Notation elem := (element sinv linv gdim (the_gens G) (the_lies G) g).
Local Notation wfr := (wfr gdim csize le (pred1 g)).
Local Notation basis := (basis idR sinv linv crho cdrho gdim csize le (the_gens G) (the_lies G) svd big krylov).
Local Notation solver_ok := (solver_ok idR gdim sinv linv crho cdrho csize (the_gens G) (the_lies G) svd big krylov).
Local Notation group_invariant := (group_invariant sinv linv crho gdim csize (pred1 g) (the_gens G) (the_lies G)).
Local Notation group_elem := (group_elem idR sinv linv crho gdim csize (pred1 g)).
Local Notation rho_dense := (rho_dense idR sinv linv crho).
Hypothesis HLI : linv_ok linv.
Hypothesis HC : customs_ok sinv linv crho cdrho gdim csize (pred1 g).
Hypothesis O : total_order_on (key gdim csize le (pred1 g)) le.
Variables (x : res (group RR)) (d : nat) (P : fmat RR -> Prop).
Hypothesis HX : exact_group x d P.
Hypothesis EG : x = Ok (G g).
Hypothesis Ed : gdim g = d.
Hypothesis HP : forall A, fr A = d -> fc A = d -> P A -> exists B, invTn d A B.
Hypothesis HB : basic_group d (G g).
Variable Es : seq (seq RR).
Hypothesis HE : enumerates d P Es.
Let HGen := dim_generators HLI HC HX EG Ed HP HB.

Definition at_el (D : seq RR) : gel RR := GMat (OArr d d D).
Lemma inE_P D : D \in Es -> in_group d (lmats (G g)) (gmats (G g)) (unflat d d D).
Proof. by move/(proj2 HE) => [_ PD]; apply/(inG_P HX EG). Qed.
Lemma inP_E D : size D = (d * d)%N -> in_group d (lmats (G g)) (gmats (G g)) (unflat d d D) -> D \in Es.
Proof. by move=> SD /(inG_P HX EG)[_ _ PD]; apply/(proj2 HE). Qed.
Lemma at_is D : D \in Es -> generated gdim (pred1 g) (the_gens G) (the_lies G) (fun=> unflat d d D) /\
  elem_is sinv linv gdim (pred1 g) (at_el D) (fun=> unflat d d D).
Proof.
move=> HD; have I := inE_P HD; rewrite -Ed in I; have GX := in_generated I; rewrite Ed in GX; split=> // h /eqP ->.
have [SD _] := proj1 (proj2 HE D) HD; exists (OArr d d D) => //.
have [Y [s1 s2 H1 H2]] := gen_inv HGen GX (eqxx g); rewrite Ed in s1 s2 H1 H2.
split; last exact: meq_refl.
by rewrite Ed -{1}(flat_unflat SD); exact: inv_arr s1 s2 H1 H2.
Qed.
Lemma at_ok D : D \in Es -> group_elem (at_el D).
Proof. by move=> HD; have [_ EM] := at_is HD; exact: (is_elem HC EM). Qed.

Variable r : rep.
Hypothesis W : wfr r.
Definition rr (D : seq RR) : seq RR := if rho_dense r (at_el D) is Ok X then X.2 else [::].
Lemma rrE D : D \in Es -> rho_dense r (at_el D) = Ok (sz r, sz r, rr D).
Proof. by move=> HD; rewrite /rr (rho_dense_ok (at_ok HD) W). Qed.
Definition mulE (D1 D2 : seq RR) : seq RR := flat (fmul (unflat d d D1) (unflat d d D2)).
Lemma mul_in D1 D2 : D1 \in Es -> D2 \in Es -> mulE D1 D2 \in Es.
Proof.
move=> H1 H2; have S : size (mulE D1 D2) = (d * d)%N by rewrite size_flat.
by apply: (inP_E S); apply: I_mul (inE_P H1) (inE_P H2) _; exact: (unflat_flat (fmul (unflat d d D1) (unflat d d D2))).
Qed.
Lemma rr_mul D1 D2 : D1 \in Es -> D2 \in Es -> rr (mulE D1 D2) = mat_mul (sz r) (rr D1) (rr D2).
Proof.
move=> H1 H2; have H3 := mul_in H1 H2.
have [X1 [X2 []]] := @mulM sinv linv crho cdrho gdim csize le (pred1 g) HC r (at_el D1) (at_el D2) (at_el (mulE D1 D2)) W (at_ok H1) (at_ok H2) (at_ok H3)
  (fun h A1 A2 A3 _ => ltac:(by move=> [<-] [<-] [<-]; exact: (unflat_flat (fmul (unflat d d D1) (unflat d d D2))))).
by rewrite !rrE // => -[->] [->] [->].
Qed.
Lemma mul_perm D1 : D1 \in Es -> perm_eq (map (mulE D1) Es) Es.
Proof.
move=> H1; have [Uq _] := HE.
have [S1 /HP[] // B [[_ _ b1 b2] [_ J]]] := proj1 (proj2 HE D1) H1.
have inj : {in Es &, injective (mulE D1)}.
  move=> D D' HD HD' E; have [SD _] := proj1 (proj2 HE D) HD; have [SD' _] := proj1 (proj2 HE D') HD'.
  have K Y : size Y = (d * d)%N -> toM d d Y = mxf d d (ftr B) *m toM d d (mulE D1 Y).
    move=> SY; rewrite /mulE toM_flat // (mxf_mul _ _ (k := d)) // mulmxA -(mxf_mul _ _ (k := d)) ?b1 //.
    by rewrite (mxf_meq J) //= ?b2 // mxf_id mul1mx.
  by apply: (@toM_inj _ d d); rewrite // (K D) // (K D') // E.
have U' : uniq (map (mulE D1) Es) by rewrite map_inj_in_uniq.
have sub : {subset map (mulE D1) Es <= Es} by move=> y /mapP[D HD ->]; exact: mul_in.
by have [_ E] := uniq_min_size U' sub (eq_leq (esym (size_map _ _))); exact: uniq_perm U' Uq E.
Qed.
Local Notation N := (sz r).
Let S : 'M[RR]_N := \sum_(D <- Es) toM N N (rr D).
Lemma absorb D1 : D1 \in Es -> toM N N (rr D1) *m S = S.
Proof.
move=> H1; rewrite mulmx_sumr /S -[RHS](perm_big _ (mul_perm H1)) big_map.
apply: eq_big_seq => D HD; rewrite rr_mul // /mat_mul toM_flat // (mxf_mul _ _ (k := N)) //.
Qed.
Lemma fixed_all v : size v = N -> group_invariant r v <-> forall D, D \in Es -> toM N N (rr D) *m toM N 1 v = toM N 1 v.
Proof.
move=> Sv; have fixE D : matvec N N D v = v <-> toM N N D *m toM N 1 v = toM N 1 v.
  rewrite matvec_matmul -toM_matmul; split=> [-> //|E]; apply: (@toM_inj _ N 1) => //; rewrite ?size_matmul ?muln1 //.
split=> [H D HD|H M X GX EM].
  have [GD ED] := at_is HD; have [D' E1 E2] := H _ _ GD ED; move: E1 E2; rewrite rrE // => -[<-] E2; exact/fixE.
have [A EA [[GA _] MA]] := EM g (eqxx g); have [a1 a2] := gop_sz GA; rewrite Ed in a1 a2.
have I : in_group d (lmats (G g)) (gmats (G g)) (den A).
  have EL : elem M by exists X.
  by apply/(inG_P HX EG); exact: (elem_P HX EG Ed EL EA).
have HD : flat (den A) \in Es.
  apply: inP_E; first by rewrite size_flat a1 a2.
  by apply: (in_group_meq _ I) => //; rewrite -{1}a1 -a2; exact: unflat_flat.
have GD := at_ok HD; have GM := is_elem HC EM.
apply: (fix_ext HC W Sv GD GM) => [h A1 A2 /eqP -> [<-]|].
  by rewrite EA => -[<-]; rewrite /= -{1}a1 -a2; exact: unflat_flat.
by exists (rr (flat (den A))); [exact: rrE | apply/fixE; exact: H].
Qed.
Theorem character : (forall c, c \in systems gdim csize r -> solver_ok c) ->
  exists k Q Ds, [/\ returns (basis r) N k Q, mapM (fun D => rho_dense r (GMat (OArr d d D))) Es = Ok Ds,
    forall X, X \in Ds -> X.1 = (N, N) & \sum_(X <- Ds) trace N X.2 = (size Es)%:R * k%:R].
Proof.
move=> HS; have [B [k [Q [EB ED MQ HQ]]]] := basis_dense HLI HC O HX EG Ed HP HB W HS.
exists k, Q, [seq (N, N, rr D) | D <- Es]; split.
- by exists B.
- by apply: DataAlg.mapM_ok => D HD; exact: rrE.
- by move=> X /mapP[D _ ->].
rewrite big_map /= -(averaging MQ absorb).
  apply: eq_bigr => D _; rewrite /trace /mxtrace big_mkord.
  by apply: eq_bigr => i _; rewrite toME.
by move=> v Sv; rewrite -(fixed_all Sv); exact: HQ.
Qed.
End Main.
