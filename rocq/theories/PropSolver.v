(** * PropSolver: C26-C28, equivariant_basis and equivariant_projector. *)
From mathcomp Require Import all_ssreflect all_algebra.
From Verif Require Import Np Spec LinOp LinOpSpec Cplx Rep RepSpec RepWf RepExpr RepThm RepCode ExRep Solver SolSpec SolThm ExSol.
Set Implicit Arguments.
Unset Strict Implicit.
Unset Printing Implicit Defensive.
Import GRing.Theory.
Local Open Scope ring_scope.

Section Sol.
Variable R : comRingType.
Variables (conj sinv : R -> R) (linv : nat -> seq R -> seq R).
Variables (crho cdrho : nat -> option gid -> gel R -> res (op R)).
Variables (gdim : gid -> nat) (csize : nat -> gid -> nat).
Variables (le : rel rep) (gs : pred gid).
Variables (gens lies : gid -> seq (op R)).
Variables (svd : nat -> nat -> seq R -> seq R * seq R * seq R) (big : pred R).
Variable krylov : op R -> res (darr R).
Local Notation sz := (rsize gdim csize).
Local Notation wfr := (wfr gdim csize le gs).
Local Notation generators_ok := (generators_ok conj gdim sinv linv crho cdrho csize gs gens lies).
Local Notation total_order := (total_order_on (key gdim csize le gs) le).
Local Notation solver_ok := (solver_ok conj gdim sinv linv crho cdrho csize gens lies svd big krylov).
Local Notation basis := (basis conj sinv linv crho cdrho gdim csize le gens lies svd big krylov).
Local Notation projector := (projector conj sinv linv crho cdrho gdim csize le gens lies svd big krylov).
Local Notation invariant := (invariant conj gdim sinv linv crho cdrho csize gs gens lies).
Local Notation factors_nonzero := (factors_nonzero conj gdim sinv linv crho cdrho csize gs gens lies).
Local Notation systems := (systems gdim csize).

(** C26.  equivariant_basis of any well-formed representation, in particular of a sum: if
    the numerical solvers are exact on the systems they are called on, the columns are
    orthonormal and the image is exactly the set of invariant vectors, in the coordinates
    of r itself. *)
Theorem C26_basis r : conj_ok conj -> generators_ok -> total_order -> wfr r ->
  (forall c, c \in systems r -> solver_ok c) -> factors_nonzero r ->
  exists B k Q, [/\ basis r = Ok B, to_dense conj B = Ok (sz r, k, Q),
    meq (fmul (ftr (fconj conj (unflat (sz r) k Q))) (unflat (sz r) k Q)) (fid R k) &
    forall v, size v = sz r -> invariant r v <-> exists2 w, size w = k & matmat conj B 1 w = Ok v].
Proof. by case=> cM cK c0 c1 [HG HL h1 h0] O W; exact: (basis_thm cM cK c0 c1 HG HL h1 h0 O W). Qed.

(** the column count of the basis of a sum *)
Theorem C26_columns d p : conj_ok conj -> generators_ok -> total_order -> wfr (RSum d p) ->
  (forall c, c \in systems (RSum d p) -> solver_ok c) -> factors_nonzero (RSum d p) ->
  exists B f, [/\ basis (RSum d p) = Ok B, forall k, k \in keys d -> basis k = Ok (f k) &
    cols B = sumn [seq (x.2 * cols (f x.1))%N | x <- d]].
Proof. by case=> cM cK c0 c1 [HG HL h1 h0] O W; exact: (basis_cols cK HG HL h1 h0 O W). Qed.

(** C27.  ... of a mixed product of representations of distinct groups, with a nonzero
    invariant vector in each factor. *)
Theorem C27_basis_mixed d p : conj_ok conj -> generators_ok -> total_order -> wfr (RDir d p) ->
  (forall k, k \in keys d -> solver_ok k) ->
  (forall k, k \in keys d -> exists v, [/\ size v = sz k, invariant k v & v <> nseq (size v) 0]) ->
  exists B k Q, [/\ basis (RDir d p) = Ok B, to_dense conj B = Ok (sz (RDir d p), k, Q),
    meq (fmul (ftr (fconj conj (unflat (sz (RDir d p)) k Q))) (unflat (sz (RDir d p)) k Q)) (fid R k) &
    forall v, size v = sz (RDir d p) ->
      invariant (RDir d p) v <-> exists2 w, size w = k & matmat conj B 1 w = Ok v].
Proof.
case=> cM cK c0 c1 [HG HL h1 h0] O W HS F; apply: (basis_thm cM cK c0 c1 HG HL h1 h0 O W) => //.
by move=> d' p' k; rewrite inE => /eqP[-> _]; exact: F.
Qed.

(** C28.  The projector of any well-formed representation, over scalars with trivial
    conjugation. *)
Theorem C28_projector r : (forall x, conj x = x) -> generators_ok -> total_order -> wfr r ->
  (forall c, c \in systems r -> solver_ok c) ->
  exists B D, let P := unflat (sz r) (sz r) D in
  [/\ projector r = Ok B /\ to_dense conj B = Ok (sz r, sz r, D),
      meq (fmul P P) P, meq (ftr P) P &
      forall v, size v = sz r -> exists2 Pv, matmat conj B 1 v = Ok Pv &
        [/\ size Pv = sz r, invariant r Pv & invariant r v <-> Pv = v]].
Proof. by move=> Hc [HG HL h1 h0] O; apply: projector_thm => // *; rewrite !Hc. Qed.

(** P = Q Q^T *)
Theorem C28_projector_is_QQT r : (forall x, conj x = x) -> generators_ok -> total_order -> wfr r ->
  (forall c, c \in systems r -> solver_ok c) -> factors_nonzero r ->
  exists B P k Q, [/\ projector r = Ok P, basis r = Ok B, to_dense conj B = Ok (sz r, k, Q) &
    to_dense conj P = Ok (sz r, sz r, flat (fmul (unflat (sz r) k Q) (ftr (unflat (sz r) k Q))))].
Proof. by move=> Hc [HG HL h1 h0] O; apply: projector_qqt => // *; rewrite !Hc. Qed.
End Sol.
Print Assumptions C26_basis.
Print Assumptions C26_columns.
Print Assumptions C27_basis_mixed.
Print Assumptions C28_projector.
Print Assumptions C28_projector_is_QQT.

Definition gs01 : pred gid := pred2 0%N 1%N.
Definition inv01 := invariant idz gd2 idz (@linv2 R0) (@cr1 R0) (@cd1 R0) cs1 gs01 (@exg R0) (@exl R0).
Definition basis_z := basis idz idz (@linv2 R0) (@cr1 R0) (@cd1 R0) gd2 cs1 le_asc (@exg R0) (@exl R0) (@exsvd R0) (@exbig R0) (@exkry R0).
Definition proj_z := projector idz idz (@linv2 R0) (@cr1 R0) (@cd1 R0) gd2 cs1 le_asc (@exg R0) (@exl R0) (@exsvd R0) (@exbig R0) (@exkry R0).
Lemma inv_e1 k : k \in [:: V0; V1'] -> inv01 k [:: 1; 0].
Proof.
rewrite !inE => /orP[] /eqP ->; split=> g h /orP[] /eqP -> //= [<-|//];
  (eexists; [vm_compute; reflexivity | by rewrite /matvec /flat /mkseq /= !big_nat_recr //= !big_geq]).
Qed.

(* two copies of V0, interleaved with V1: the hypotheses hold and the basis is the following *)
Definition exS : rep := RSum [:: (V0, 2); (V1', 1)]%N [:: 2; 3; 0; 1; 4; 5]%N.
Example C26_example :
  [/\ conj_ok idz, generators_ok idz gd2 idz (@linv2 R0) (@cr1 R0) (@cd1 R0) cs1 gs01 (@exg R0) (@exl R0),
      total_order_on (key gd2 cs1 le_asc gs01) le_asc, wfr gd2 cs1 le_asc gs01 exS &
      (forall c, c \in systems gd2 cs1 exS -> sol_z c) /\
      factors_nonzero idz gd2 idz (@linv2 R0) (@cr1 R0) (@cd1 R0) cs1 gs01 (@exg R0) (@exl R0) exS] /\
  (do B <- basis_z exS; to_dense idz B) = Ok (6%N, 3%N, [:: 0; 1; 0;  0; 0; 0;  1; 0; 0;  0; 0; 0;  0; 0; 1;  0; 0; 0]).
Proof.
split; last by vm_compute.
split=> //; [exact: ex_gens | exact: le_asc_total | split].
  by move=> c; rewrite !inE => /orP[] /eqP ->; apply: ex_sol.
by move=> d p k; rewrite !inE => /orP[] /eqP.
Qed.

(* V0 * V1, a mixed product *)
Definition exD : rep := RDir [:: (V0, 1); (V1', 1)]%N [:: 0; 1; 2; 3]%N.
Example C27_example :
  [/\ wfr gd2 cs1 le_asc gs01 exD, forall k, k \in [:: V0; V1'] -> sol_z k,
      forall k, k \in [:: V0; V1'] -> exists v, [/\ size v = rsize gd2 cs1 k, inv01 k v & v <> nseq (size v) 0] &
      mul gd2 cs1 le_asc V0 V1' = Ok exD] /\
  (do B <- basis_z exD; to_dense idz B) = Ok (4%N, 1%N, [:: 1; 0; 0; 0]).
Proof.
split; last by vm_compute.
split=> //.
- by move=> k; rewrite !inE => /orP[] /eqP ->; apply: ex_sol.
- by move=> k Hk; exists [:: 1; 0]; split=> //; [move: Hk; rewrite !inE => /orP[] /eqP -> | apply: inv_e1].
Qed.

Example C28_example :
  (do B <- proj_z exD; to_dense idz B) = Ok (4%N, 4%N, [:: 1; 0; 0; 0;  0; 0; 0; 0;  0; 0; 0; 0;  0; 0; 0; 0]) /\
  (do B <- proj_z exS; to_dense idz B) = Ok (6%N, 6%N, [:: 1;0;0;0;0;0; 0;0;0;0;0;0; 0;0;1;0;0;0; 0;0;0;0;0;0; 0;0;0;0;1;0; 0;0;0;0;0;0]).
Proof. by split; vm_compute. Qed.

(** C27 without the condition on the factors: if a factor has no invariant vector but 0,
    the returned operator has 0 columns and raises when it is applied (reshape(...,-1)
    of an array with no elements). *)
Definition exE : rep := RDir [:: (V0, 1); (V2', 1)]%N [:: 0; 1; 2; 3]%N.
Theorem C27_empty_factor_refuted :
  exists (r : rep) B, [/\ wfr gd2 cs1 le_asc predT r, forall c, c \in systems gd2 cs1 r -> sol_z c,
    basis_z r = Ok B, cols B = 0%N & matmat idz B 1 [::] = Err ValueError].
Proof.
have : (if basis_z exE is Ok B then (cols B == 0%N) &&
          (if matmat idz B 1 [::] is Err ValueError then true else false) else false) by vm_compute.
case E : (basis_z exE) => [B|//] /andP[/eqP CB MB]; exists exE, B; split=> //.
- by move=> c; rewrite !inE => /orP[] /eqP ->; apply: ex_sol.
by move: MB; case: matmat => [//|[]].
Qed.
Print Assumptions C27_empty_factor_refuted.

(** C28, P.T=P as operators: P.T of the projector of a sum is an operator that raises
    whenever it is applied. *)
Theorem C28_transpose_refuted :
  exists (r : rep) P, [/\ wfr gd2 cs1 le_asc gs01 r, forall c, c \in systems gd2 cs1 r -> sol_z c,
    proj_z r = Ok P, is_ok (to_dense idz P) & to_dense idz (transpose P) = Err TypeError].
Proof.
have : (if proj_z exS is Ok P then is_ok (to_dense idz P) &&
          (if to_dense idz (transpose P) is Err TypeError then true else false) else false) by vm_compute.
case E : (proj_z exS) => [P|//] /andP[OP TP]; exists exS, P; split=> //.
- by move=> c; rewrite !inE => /orP[] /eqP ->; apply: ex_sol.
by move: TP; case: to_dense => [//|[]].
Qed.
Print Assumptions C28_transpose_refuted.

(** C28 with complex scalars: Q.H of a lazy operator does not conjugate (C04), so the
    projector of a complex basis is Q Q^T and not Q Q^H.  Over the Gaussian integers, with
    the singular vectors (0,1) and (-i,0) of (0 1; 0 0), it sends the invariant vector e1 to -e1. *)
Definition RC := cplx_comRingType int_comRing.
Definition csvd (m n : nat) (D : seq RC) : seq RC * seq RC * seq RC :=
  ([:: 1; 0; 0; 1], [:: 1; 0], [:: 0; 1; Cx 0 1; 0]).
Lemma csvd_ok : svd_exact (@cconj int_comRing) csvd (@exbig RC) 2 2 [:: 0; 1; 0; 0].
Proof.
split=> //.
- by split; split=> //= -[|[|i]] [|[|j]] //= _ _; rewrite !big_nat_recr //= big_geq.
- by split=> //= -[|[|i]] [|[|j]] //= _ _; rewrite !big_nat_recr //= !big_geq.
- by split=> //; [case=> [|[|i]] [|[|j]] | move=> x _ /eqP ->; exists 1 | move=> x; rewrite !inE => /orP[] /eqP ->].
Qed.
Definition projC := projector (@cconj int_comRing) (fun x : RC => x) (@linv2 RC) (@cr1 RC) (@cd1 RC) gd2 cs1 le_asc
  (@exg RC) (@exl RC) csvd (@exbig RC) (@exkry RC).
Theorem C28_complex_refuted :
  exists P : op RC,
    let conj := @cconj int_comRing in let id1 := (fun x : RC => x) in
    [/\ conj_ok conj, forall c, c \in systems gd2 cs1 V0 ->
          solver_ok conj gd2 id1 (@linv2 RC) (@cr1 RC) (@cd1 RC) cs1 (@exg RC) (@exl RC) csvd (@exbig RC) (@exkry RC) c,
        projC V0 = Ok P,
        invariant conj gd2 id1 (@linv2 RC) (@cr1 RC) (@cd1 RC) cs1 (pred1 0%N) (@exg RC) (@exl RC) V0 [:: 1; 0] &
        matmat conj P 1 [:: 1; 0] = Ok [:: -1; 0]].
Proof.
have : (if (do P <- projC V0; matmat (@cconj int_comRing) P 1 [:: 1; 0]) is Ok w then w == [:: -1; 0] else false).
  by vm_compute.
case E : (projC V0) => [P|//] /= EP; exists P; split.
- split.
  + by move=> [a b] [c d]; rewrite /cconj /=; congr Cx; rewrite /= ?mulrNN // mulrN mulNr opprD.
  + by case=> a b; rewrite /cconj /= opprK.
  + by rewrite /cconj /= oppr0.
  by rewrite /cconj /= oppr0.
- move=> c; rewrite inE => /eqP -> C m n D [<-] [<- <- <-]; exact: csvd_ok.
- by [].
- split=> g h /eqP -> //= [<-|//].
  exists [:: 1; 1; 0; 1]; first by [].
  by rewrite /matvec /flat /mkseq /= !big_nat_recr //= !big_geq.
by move: EP; case: matmat => // w /eqP ->.
Qed.
Print Assumptions C28_complex_refuted.
