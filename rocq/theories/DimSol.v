(** * DimSol: equivariant_basis by its entries. *)
From mathcomp Require Import all_ssreflect all_algebra.
From mathcomp Require Import zify.
From Verif Require Import Np NpLemmas Spec SpecLemmas LinOp LinOpSpec LinOpProofs LinOpMM LinOpMore LinOpInv LinOpThm Rep RepSpec RepMat RepWf RepProd RepAlg RepDist RepMul RepFun RepOps RhoProofs RepThm DualNum DrhoProofs DrhoThm RepThm1 RepDir DirThm Solver SolSpec SolAlg SolSvd SolFam SolProofs SolBasis SolThm.
Set Implicit Arguments.
Unset Strict Implicit.
Unset Printing Implicit Defensive.
Import GRing.Theory.
Local Open Scope ring_scope.

Section Thm.
Variable R : comRingType.
Variables (conj sinv : R -> R) (linv : nat -> seq R -> seq R).
Variables (crho cdrho : nat -> option gid -> gel R -> res (op R)).
Variables (gdim : gid -> nat) (csize : nat -> gid -> nat).
Variables (le : rel rep) (gs : pred gid).
Variables (gens lies : gid -> seq (op R)).
Variables (svd : nat -> nat -> seq R -> seq R * seq R * seq R) (big : pred R).
Variable krylov : op R -> res (darr R).
Local Notation sz := (rsize gdim csize).
Local Notation wfr := (wfr gdim csize le).
Local Notation nonsum := (nonsum gdim csize le).
Local Notation key := (key gdim csize le).
Local Notation dkey := (dkey gdim csize le).
Local Notation group_elem := (group_elem conj sinv linv crho gdim csize).
Local Notation lie_elem := (lie_elem conj cdrho gdim csize).
Local Notation elemG := (@elemG R gdim).
Local Notation elemL := (@elemL R gdim).
Hypothesis conjM : forall x y, conj (x * y) = conj x * conj y.
Hypothesis conjK : forall x, conj (conj x) = x.
Hypothesis conj0 : conj 0 = 0.
Hypothesis conj1 : conj 1 = 1.
Hypothesis HG : forall g h, gs g -> List.In h (gens g) -> group_elem gs (elemG g h).
Hypothesis HL : forall g A, gs g -> List.In A (lies g) -> lie_elem gs (elemL g A).
Hypothesis crho1 : forall c g C, gs g -> crho c (Some g) (GMat (OI R (gdim g))) = Ok C ->
  meq (den C) (fid R (csize c g)).
Hypothesis cdrho0 : forall c g C, gs g ->
  cdrho c (Some g) (GMat (OArr (gdim g) (gdim g) (nseq (gdim g * gdim g) 0))) = Ok C ->
  meq (den C) (fzero R (csize c g) (csize c g)).
Hypothesis O : total_order_on (key gs) le.
Local Notation solve := (solve conj sinv linv crho cdrho gdim csize gens lies svd big krylov).
Local Notation solver_ok := (solver_ok conj gdim sinv linv crho cdrho csize gens lies svd big krylov).
Local Notation basis_rep := (basis_rep conj sinv linv crho cdrho gdim csize le gens lies svd big krylov).
Local Notation basis_ns := (basis_ns conj sinv linv crho cdrho gdim csize le gens lies svd big krylov).
Local Notation basis := (basis conj sinv linv crho cdrho gdim csize le gens lies svd big krylov).
Local Notation projector_rep := (projector_rep conj sinv linv crho cdrho gdim csize le gens lies svd big krylov).
Local Notation projector_ns := (projector_ns conj sinv linv crho cdrho gdim csize le gens lies svd big krylov).
Local Notation projector := (projector conj sinv linv crho cdrho gdim csize le gens lies svd big krylov).
Local Notation invariant := (invariant conj gdim sinv linv crho cdrho csize gs gens lies).
Local Notation factors_nonzero := (factors_nonzero conj gdim sinv linv crho cdrho csize gs gens lies).
Local Notation q := (q conj sinv linv crho cdrho gdim csize gens lies svd big krylov).
Local Notation cm := (@cm R sinv linv crho cdrho gdim csize gs gens lies).
Local Notation sol := (sol conj).

Lemma image_vec X n (c : X -> fmat R) Q B (w : seq R) : sol n c Q -> isop Q B -> size w = fc Q ->
  matmat conj B 1 w = Ok (mkseq (fun i => mv Q (nth 0 w) i) n).
Proof.
move=> [h1 h2 h3 h4] I Sw; have Sh := isop_shape I; have [W P Ne M] := I.
rewrite matmul_lem //; last by rewrite /cols Sh muln1.
congr Ok; have [m1 m2 m3] := M; apply: (@eq_from_nth _ 0).
  by rewrite size_flat size_mkseq /= m1 h1 muln1.
rewrite size_flat /= m1 h1 muln1 => i Hi.
rewrite nth_mkseq // -{1}[i]addn0 -[X in (X + 0)%N]muln1 nth_flat /= ?m1 ?h1 //.
rewrite m2; apply: eq_sum => j Hj; rewrite m3 ?m1 ?m2 ?h1 // muln1 addn0 //.
Qed.
(** the same with the entries of the basis instead of its application *)
Theorem basis_mat r : wfr gs r -> (forall c, c \in systems gdim csize r -> solver_ok c) -> factors_nonzero r ->
  exists B k Q, [/\ basis r = Ok B, to_dense conj B = Ok (sz r, k, Q),
    meq (fmul (ftr (fconj conj (unflat (sz r) k Q))) (unflat (sz r) k Q)) (fid R k) &
    forall v, size v = sz r -> invariant r v <-> exists2 w, size w = k & matvec (sz r) k Q w = v].
Proof.
move=> W H F; have Sq := qmat_sol conjM conjK conj0 conj1 HG HL crho1 cdrho0 W H.
move: (H); rewrite (systems_problems W) => H'.
have [B E I] := basis_ok conjK HG HL crho1 cdrho0 O W H' (factors_dims conjK HG HL crho1 cdrho0 W H' F).
have [h1 h2 h3 h4] := Sq.
have U : meq (unflat (sz r) (fc (qmat gdim csize q r)) (flat (qmat gdim csize q r))) (qmat gdim csize q r).
  by rewrite -h1; apply: unflat_flat.
exists B, (fc (qmat gdim csize q r)), (flat (qmat gdim csize q r)); split=> //.
- by rewrite (unflat_isop conj I) h1.
- by apply: meq_trans h3; apply: meq_fmul => //; exact: meq_fH U.
move=> v Sv; rewrite (inv_kills HG HL W Sv) (image_sol Sq I Sv); split=> -[w Sw E1]; exists w => //.
  rewrite (image_vec Sq I Sw) in E1; case: E1 => <-; rewrite matvecE //.
  by apply/eq_in_map => i; rewrite mem_iota => /andP[_ Hi]; exact: (mv_eq U).
rewrite (image_vec Sq I Sw) -E1 matvecE //; congr Ok.
by apply/eq_in_map => i; rewrite mem_iota => /andP[_ Hi]; apply/esym; exact: (mv_eq U).
Qed.
Hypothesis Hc : forall x, conj x = x.
Lemma shapes r : wfr gs r -> (forall c, c \in systems gdim csize r -> solver_ok c) -> factors_nonzero r ->
  exists B P k Q, [/\ basis r = Ok B, to_dense conj B = Ok (sz r, k, Q), shape B = (sz r, k), projector r = Ok P & shape P = (sz r, sz r)].
Proof.
move=> W H F; have [h1 _ _ _] := qmat_sol conjM conjK conj0 conj1 HG HL crho1 cdrho0 W H.
move: (H); rewrite (systems_problems W) => H'.
have [B E I] := basis_ok conjK HG HL crho1 cdrho0 O W H' (factors_dims conjK HG HL crho1 cdrho0 W H' F).
have [P EP [_ [[_ _ _ _ sP] _]]] := projector_ok conjK HG HL crho1 cdrho0 O Hc W H'.
exists B, P, (fc (qmat gdim csize q r)), (flat (qmat gdim csize q r)); split=> //.
- by rewrite (unflat_isop conj I) h1.
- by rewrite (isop_shape I) h1.
Qed.
End Thm.
