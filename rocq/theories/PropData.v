(** * PropData: C49, C50, C51, C52, C53 and C56, the data sets and the tools around them. *)
From Coq Require Import Reals.
From mathcomp Require Import all_ssreflect all_algebra.
From Verif Require Import Np Spec LinOp LinOpSpec Rep RepSpec RepWf RepCode RepExpr Rstruct Expm GrpSpec ExRep ExGrp.
From Verif Require Import GroupsSpec Nn NnSpec Data DataSpec DataAlg DataThm DataStd DataAug DataErr ExNn ExData.
Set Implicit Arguments.
Unset Strict Implicit.
Unset Printing Implicit Defensive.
Import GRing.Theory.
Local Open Scope ring_scope.

Section Targets.
Variable R : comRingType.
Variables (conj sinv : R -> R) (linv : nat -> seq R -> seq R).
Variables (crho : nat -> option gid -> gel R -> res (op R)).
Variables (gdim : gid -> nat) (gorth : gid -> bool) (csize : nat -> gid -> nat) (le : rel rep) (g : gid).
Local Notation sz := (rsize gdim csize).
Local Notation rep_of := (rep_of gdim gorth csize le g).
Local Notation equivariant := (equivariant conj sinv linv crho gdim csize).
Local Notation isometries := (isometries conj sinv linv crho gdim gorth csize g).
Local Notation total_order := (total_order_on (key gdim csize le (pred1 g)) le).
Local Notation customs_nonempty := (forall c, (0 < csize c g)%N).

(** C51.  E consists of orthogonal 3x3 matrices.  (k*Scalar+k*V)(G) and T(2)(G) exist and the
    target of Inertia commutes with the group. *)
Theorem C51_inertia E k : total_order -> customs_nonempty -> gdim g = 3%N -> (0 < k)%N -> isometries (fid R 3) E ->
  exists rin rout, [/\ rep_of (inertia_in k) rin, rep_of (T_expr 2 0) rout, sz rin = (k + k * 3)%N, sz rout = 9%N &
    equivariant E rin rout (inertia k)].
Proof. by move=> O C0 G3; apply: inertia_thm; rewrite ?G3. Qed.
(** C52.  The target of O5Synthetic is invariant, whatever functions sqrt, sin and division
    are, as long as division returns a value. *)
Theorem C52_o5 E sqrt sin div half : total_order -> customs_nonempty -> gdim g = 5%N -> isometries (fid R 5) E ->
  (forall a b : R, exists c, div a b = Ok c) ->
  exists2 rin, rep_of o5_in rin & sz rin = 10%N /\ equivariant E rin RScalar (o5 sqrt sin div half).
Proof. by move=> O C0 G5; apply: o5_thm; rewrite ?G5. Qed.
(** C53.  E consists of matrices preserving the form diag(1,-1,-1,-1). *)
Theorem C53_particle E : total_order -> customs_nonempty -> gdim g = 4%N -> isometries (minkowski R 4) E ->
  exists2 rin, rep_of particle_in rin & sz rin = 16%N /\ equivariant E rin RScalar (@particle R).
Proof. by move=> O C0 G4; apply: particle_thm; rewrite ?G4. Qed.
End Targets.
Print Assumptions C51_inertia.
Print Assumptions C52_o5.
Print Assumptions C53_particle.

(** all orthogonal matrices and all Lorentz matrices *)
Example C51_example : total_order_on (key (ndim 3) (ncs 3) le_asc (pred1 0%N)) le_asc /\
  isometries idR exsinv linvE excr (ndim 3) (fun=> true) (ncs 3) 0%N (fid RR 3) (isos 3 (fid RR 3)).
Proof. by split; [exact: le_asc_total | apply: iso_arrays => //; exact: fid_iso]. Qed.
Example C52_example : total_order_on (key (ndim 5) (ncs 5) le_asc (pred1 0%N)) le_asc /\
  isometries idR exsinv linvE excr (ndim 5) (fun=> true) (ncs 5) 0%N (fid RR 5) (isos 5 (fid RR 5)).
Proof. by split; [exact: le_asc_total | apply: iso_arrays => //; exact: fid_iso]. Qed.
Example C53_example : total_order_on (key (ndim 4) (ncs 4) le_asc (pred1 0%N)) le_asc /\
  isometries idR exsinv linvE excr (ndim 4) (fun=> false) (ncs 4) 0%N (minkowski RR 4) (isos 4 (minkowski RR 4)).
Proof. by split; [exact: le_asc_total | apply: iso_arrays => //; exact: minkowski_iso]. Qed.
(** one mass 2 at (1,2,3) and at the rotated point (2,-1,3); two vectors of length 5 with
    sqrt, sin the identity and the quotient replaced by the difference; four momenta *)
Example C51_example_run : inertia 1 2 [:: 2 : Z0; 1; 2; 3; 2; 2; -1; 3] =
  Ok [:: 26; -4; -6; -4; 20; -12; -6; -12; 10; 20; 4; -12; 4; 26; 6; -12; 6; 10].
Proof. by vm_compute. Qed.
Example C52_example_run : o5 id id (fun a b => Ok (a - b)) 1 1 [:: 1 : Z0; 0; 0; 0; 0; 1; 1; 0; 0; 0] = Ok [:: -8].
Proof. by vm_compute. Qed.
Example C53_example_run :
  particle 2 [:: 2 : Z0; 1; 0; 0; 1; 0; 0; 0; 3; 0; 1; 0; 1; 1; 0; 0; 2; -1; 0; 0; 1; 0; 0; 0; 3; 0; -1; 0; 1; -1; 0; 0] =
  Ok [:: 12; 12].
Proof. by vm_compute. Qed.

(** C50.  The means are invariant vectors and the scales are nonzero and commute with the
    group; Standardize with two and with four statistics is then as equivariant as the
    model. *)
Section Std.
Variable F : fieldType.
Variables (conj sinv : F -> F) (linv : nat -> seq F -> seq F).
Variables (crho : nat -> option gid -> gel F -> res (op F)).
Variables (gdim : gid -> nat) (gorth : gid -> bool) (csize : nat -> gid -> nat) (le : rel rep) (g : gid).
Variable E : gel F -> Prop.
Local Notation sz := (rsize gdim csize).
Local Notation equivariant := (equivariant conj sinv linv crho gdim csize E).
Local Notation invariant_stat := (invariant_stat conj sinv linv crho gdim csize E).
Local Notation commuting_stat := (commuting_stat conj sinv linv crho gdim csize E).
Local Notation fdiv := (fun a b : F => a / b).
Theorem C50_standardize rin rout model muin sin muout sout training :
  equivariant rin rout (model training) ->
  invariant_stat rin muin -> commuting_stat rin sin -> nonzero_stat (sz rin) sin ->
  invariant_stat rout muout -> commuting_stat rout sout -> nonzero_stat (sz rout) sout ->
  equivariant rin rout (standardize2 fdiv model (sz rin) muin sin training) /\
  equivariant rin rout (standardize4 fdiv model (sz rin) (sz rout) (muin, sin, muout, sout) training).
Proof. exact: standardize_thm. Qed.

(** the statistics of the data sets *)
Local Notation rep_of := (rep_of gdim gorth csize le g).
Local Notation wfr := (wfr gdim csize le (pred1 g)).
Local Notation total_order := (total_order_on (key gdim csize le (pred1 g)) le).
Local Notation customs_nonempty := (forall c, (0 < csize c g)%N).
Local Notation elements := (forall M, E M ->
  group_elem conj sinv linv crho gdim csize (pred1 g) M /\ orth_elem crho gdim csize gorth (pred1 g) M).
Theorem C50_inertia_stats rin rout mi si mo so : elements -> wfr rin -> wfr rout -> (mi, si, mo, so) = inertia_stats F ->
  [/\ invariant_stat rin mi, commuting_stat rin si, invariant_stat rout mo & commuting_stat rout so] /\
  (nonzero_stat (sz rin) si /\ nonzero_stat (sz rout) so).
Proof. by move=> HE; exact: (inertia_stats_thm HE). Qed.
Theorem C50_o5_stats sqrt divn N X Y rin mi si mo so : total_order -> customs_nonempty -> elements ->
  gdim g = 5%N -> rep_of o5_in rin -> o5_stats sqrt divn N X Y = Ok (mi, si, mo, so) ->
  [/\ invariant_stat rin mi, commuting_stat rin si, invariant_stat RScalar mo & commuting_stat RScalar so].
Proof.
move=> O C0 HE G5 Hr; have G0 : (0 < gdim g)%N by rewrite G5.
exact: (o5_stats_thm O G0 C0 HE G5 Hr (rep_of_wfr O G0 C0 (e := o5_in) erefl Hr)).
Qed.
Theorem C50_particle_stats sqrt abs divn N X Y rin mi si mo so : total_order -> customs_nonempty -> elements ->
  gdim g = 4%N -> rep_of particle_in rin -> particle_stats sqrt abs divn N X Y = (mi, si, mo, so) ->
  [/\ invariant_stat rin mi, commuting_stat rin si, invariant_stat RScalar mo & commuting_stat RScalar so].
Proof.
move=> O C0 HE G4 Hr; have G0 : (0 < gdim g)%N by rewrite G4.
exact: (particle_stats_thm O G0 C0 HE G4 Hr (rep_of_wfr O G0 C0 (e := particle_in) erefl Hr)).
Qed.
End Std.
Print Assumptions C50_standardize.
Print Assumptions C50_inertia_stats.
Print Assumptions C50_o5_stats.
Print Assumptions C50_particle_stats.

(** the group {1,-1} on the line over the rationals, the identity as model *)
Example C50_example :
  [/\ equivariant qid qid qlinv qcr zd zcs signs zV zV (fun _ x => Ok x),
      invariant_stat qid qid qlinv qcr zd zcs signs zV (SNum 0),
      commuting_stat qid qid qlinv qcr zd zcs signs zV (SVec [:: 2%:R]) /\ nonzero_stat 1 (SVec [:: 2%:R : rat]) &
      (standardize4 (fun a b : rat => a / b) (fun _ _ x => Ok x) 1 1 (SNum 0, SVec [:: 2%:R], SNum 0, SNum 3%:R) true 2 [:: 4%:R; 6%:R] =
        Ok [:: 6%:R; 9%:R])].
Proof. by split; [exact: q_identity|exact: q_mean|split; [exact: q_scale|case]|vm_compute]. Qed.
Example C50_example_stats :
  [/\ forall M, signs M -> group_elem qid qid qlinv qcr zd zcs (pred1 0%N) M /\ orth_elem qcr zd zcs yes (pred1 0%N) M,
      wfr zd zcs le_asc (pred1 0%N) zV &
      (if o5_stats qid (fun a n => a / n%:R) 1 [:: 1; 2%:R; 3%:R; 4%:R; 5%:R; 0; 0; 5%:R; 0; 0 : rat] [:: 7%:R] is Ok (SNum a, SVec b, SVec c, SVec d)
       then [&& a == 0, b == nseq 5 11%:R ++ nseq 5 5%:R, c == [:: 7%:R] & d == [:: 0]] else false)].
Proof. by split; [exact: q_elements | | vm_compute]. Qed.

(** C49.  Augmentation by any elements of the group is the model itself, if the model is
    equivariant and the representations give arrays ... *)
Section Aug.
Variables (sinv : RR -> RR) (linv : nat -> seq RR -> seq RR).
Variables (crho : nat -> option gid -> gel RR -> res (op RR)).
Variables (gdim : gid -> nat) (gorth : gid -> bool) (csize : nat -> gid -> nat) (le : rel rep) (g : gid).
Variable E : gel RR -> Prop.
Local Notation sz := (rsize gdim csize).
Local Notation wfr := (wfr gdim csize le (pred1 g)).
Local Notation elements := (forall M, E M ->
  group_elem idR sinv linv crho gdim csize (pred1 g) M /\ orth_elem crho gdim csize gorth (pred1 g) M).
Local Notation vrho := (vrho sinv linv crho).
Local Notation augment := (augment sinv linv crho).
Theorem C49_augment model rin rout gs bs x : linv_ok linv -> elements -> wfr rin -> wfr rout ->
  equivariant idR sinv linv crho gdim csize E rin rout (model true) -> (forall b, (b < bs)%N -> E (gs b)) ->
  (forall b, (b < bs)%N -> exists A B, vrho rin (gs b) = Ok A /\ vrho rout (gs b) = Ok B) ->
  size x = (bs * sz rin)%N ->
  augment model rin rout gs (sz rin) (sz rout) true bs x = model true bs x.
Proof. by move=> HL HE; exact: (augment_thm HL HE). Qed.
(** ... as Scalar, V and V* do *)
Theorem C49_arrays n D r : r \in [:: RScalar; RBase (Some g); RDual (RBase (Some g))] ->
  exists A, vrho r (GMat (OArr n n D)) = Ok A.
Proof. exact: vrho_arrays. Qed.
Theorem C49_eval model rin rout gs n m bs x : augment model rin rout gs n m false bs x = model false bs x.
Proof. by []. Qed.
(** Sums and products never give arrays: the augmentation raises for every model, input and
    draw.  So do the data sets' default_aug, which passes representations without group. *)
Theorem C49_composite_refuted model rin rout gs n m bs x : (0 < bs)%N ->
  has (fun r => match r with RSum _ _ | RProd _ _ | RDir _ _ => true | _ => false end) [:: rin; rout] ->
  exists e, augment model rin rout gs n m true bs x = Err e.
Proof.
move=> B0 H; apply: augment_raises => //; move: H; rewrite /= orbF => /orP[H|H]; [left|right]; exact: vrho_composite.
Qed.
Theorem C49_default_inertia_refuted : exists2 rout, eval gdim gorth csize le None (T_expr 2 0) = Ok (VRep rout) &
  forall model rin gs n m bs x, (0 < bs)%N -> augment model rin rout gs n m true bs x = Err NotImplementedError.
Proof. by eexists; first reflexivity; move=> model rin gs n m bs x B0; exact: (@default_aug_inertia sinv linv crho gdim gorth csize le). Qed.
Theorem C49_default_invariant_refuted k : k \in [:: 2; 4]%N -> exists2 rin, eval gdim gorth csize le None (EMul (EInt k) EV) = Ok (VRep rin) &
  forall model gs n m bs x, (0 < bs)%N -> augment model rin RScalar gs n m true bs x = Err NotImplementedError.
Proof.
by rewrite !inE => /orP[] /eqP ->; (eexists; first by reflexivity); move=> model gs n m bs x B0;
  [exact: (@default_aug_scalar sinv linv crho gdim gorth csize le 2%N) | exact: (@default_aug_scalar sinv linv crho gdim gorth csize le 4%N)].
Qed.
End Aug.
Print Assumptions C49_augment.
Print Assumptions C49_arrays.
Print Assumptions C49_eval.
Print Assumptions C49_composite_refuted.
Print Assumptions C49_default_inertia_refuted.
Print Assumptions C49_default_invariant_refuted.
(** all orthogonal 3x3 matrices; the identity as model of V -> V *)
Example C49_example :
  [/\ linv_ok linvE, wfr (ndim 3) (ncs 3) le_asc (pred1 0%N) zV,
      (forall M, isos 3 (fid RR 3) M -> group_elem idR exsinv linvE excr (ndim 3) (ncs 3) (pred1 0%N) M /\
        orth_elem excr (ndim 3) (ncs 3) yes (pred1 0%N) M),
      equivariant idR exsinv linvE excr (ndim 3) (ncs 3) (isos 3 (fid RR 3)) zV zV (fun _ x => Ok x) &
      (forall M, isos 3 (fid RR 3) M -> exists A, vrho exsinv linvE excr zV M = Ok A)].
Proof.
split=> //; first exact: linvE_ok.
- by move=> M /(iso_arrays (o := true) _ _ (fid_iso 3))[].
- by move=> bs Ms X X' _ A; exists X, X'.
by move=> M [D [-> _ _]]; exact: (@vrho_arrays _ _ _ 0%N).
Qed.
Example C49_example_run :
  augment (R := Z0) id (fun _ D => D) (fun _ _ _ => Err TypeError) (fun _ bs x => Ok x) zV zV
    (fun b => GMat (OArr 2 2 (if b is 0 then [:: 0; 1; 1; 0] else [:: -1; 0; 0; 1]))) 2 2 true 2 [:: 3; 4; 5; 6] = Ok [:: 3; 4; 5; 6].
Proof. by vm_compute. Qed.

(** C56.  W has the shape (repout.size(),repin.size(),r) up to a reshape, the samples are
    elements of the group. *)
Section Err.
Variables (sinv : RR -> RR) (linv : nat -> seq RR -> seq RR).
Variables (crho : nat -> option gid -> gel RR -> res (op RR)).
Variables (gdim : gid -> nat) (csize : nat -> gid -> nat) (le : rel rep) (gs0 : pred gid).
Local Notation sz := (rsize gdim csize).
Local Notation wfr := (wfr gdim csize le gs0).
Theorem C56_error tiny (W : seq RR) rin rout r d (gs : seq (seq RR)) : Rlt 0 tiny -> wfr rin -> wfr rout ->
  (forall D, D \in gs -> group_elem idR sinv linv crho gdim csize gs0 (GMat (OArr d d D))) -> gs != [::] ->
  size W = (sz rout * sz rin * r)%N -> (0 < size W)%N ->
  exists2 e, equivariance_error_R sinv linv crho gdim csize tiny W rin rout d gs = Ok e &
    Rle 0 e /\ (e = 0 <-> forall D, D \in gs -> intertwines sinv linv crho gdim csize W rin rout r (GMat (OArr d d D))).
Proof. exact: error_thm. Qed.
Theorem C56_shape tiny (W : seq RR) rin rout d gs : wfr rin -> wfr rout -> ~~ (sz rout * sz rin %| size W)%N ->
  equivariance_error_R sinv linv crho gdim csize tiny W rin rout d gs = Err TypeError.
Proof. exact: error_shape. Qed.
End Err.
Print Assumptions C56_error.
Print Assumptions C56_shape.
(** the identity and a shear, a rotation of V = R^2 by a right angle *)
Example C56_example :
  [/\ wfr (ndim 2) (ncs 2) le_asc (pred1 0%N) zV,
      group_elem idR exsinv linvE excr (ndim 2) (ncs 2) (pred1 0%N) (GMat (OArr 2 2 [:: 0; -1; 1; 0])),
      intertwines exsinv linvE excr (ndim 2) (ncs 2) [:: 1; 0; 0; 1] zV zV 1 (GMat (OArr 2 2 [:: 0; -1; 1; 0])) &
      ~ intertwines exsinv linvE excr (ndim 2) (ncs 2) [:: 1; 1; 0; 1] zV zV 1 (GMat (OArr 2 2 [:: 0; -1; 1; 0]))].
Proof. by split=> //; [exact: turn_elem | exact: turn_id | exact: turn_shear]. Qed.
