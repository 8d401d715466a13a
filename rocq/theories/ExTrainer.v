(** * ExTrainer: examples for the claims on experiments/trainer. *)
From Coq Require Import Reals Lra.
From mathcomp Require Import all_ssreflect all_algebra.
From mathcomp Require Import zify.
From Verif Require Import Np NpLemmas Spec LinOp LinOpSpec Rep RepSpec Rstruct Expm GrpSpec GroupsSpec Nn NnSpec Data DataSpec DataHamSpec DataHam ExData2.
From Verif Require Import Trainer TrainerSpec TrainerThm2 TrainerFlow.
Set Implicit Arguments.
Unset Strict Implicit.
Unset Printing Implicit Defensive.
Import GRing.Theory Num.Theory.
Local Open Scope ring_scope.

Lemma ex_rel_err (F : rcfType) : rel_err (@Num.sqrt F) [:: 1; 1] [:: 0; 0] = Some 1 /\ rel_err (@Num.sqrt F) [:: 0] [:: 0] = None.
Proof.
rewrite /rel_err /fdiv /root_mean_square /vsub /=; rewrite !subr0 !addr0 !expr1n !expr0n /= !addr0 !mul0r sqrtr0 !addr0.
have -> : (1 + 1 : F) / 2%:R = 1 by rewrite -[1 + 1]/(2%:R : F) divff // pnatr_eq0.
by rewrite sqrtr1 oner_eq0 divr1 eqxx.
Qed.
Lemma ex_quarter : ortho_rows 2 ([:: 0; -1; 1; 0] : seq rat) /\
  let model bs (x : seq rat) := Ok [seq 2%:R * a | a <- x] in
  let Q := [:: [:: 0; -1; 1; 0]] in let x := [:: 1; 3%:R] in
  [/\ model 1%N (act_rows Q 2 x) = rmap (act_rows Q 2) (model 1%N x), act_rows Q 2 x = [:: - 3%:R; 1] &
      argmax [:: 1; 3%:Z; 2%:Z; 3%:Z] = 1%N].
Proof.
split; first by move=> [|[|i]] [|[|j]] // _ _; rewrite !big_nat_recr //= big_geq //; apply/eqP; vm_compute.
by split; first (congr Ok; apply/eqP; vm_compute); first (apply/eqP; vm_compute); vm_compute.
Qed.
(** the representation V of the group with the two elements 1, -1 and the model x, sample -1 *)
Lemma ex_eqerr (F : rcfType) :
  equivariance_err id id (fun _ x => x) (fun _ _ _ => Err KeyError) (@Num.sqrt F) (fun c => `|c|) (RBase None) (RBase None) (fun _ x => Ok x) 1 1 1
    [:: [:: -1]] [:: 1] = Ok (Some 0).
Proof.
rewrite /equivariance_err; cbn; rewrite /scale_adjusted_rel_err /fdiv /root_mean_square /vsub /= mulr1 !addr0 subrr !expr0n /= mul0r sqrtr0 mul0r.
rewrite sqrrN expr1n invr1 mul1r sqrtr1 ifF //; apply/negbTE; rewrite Order.POrderTheory.gt_eqF //.
by rewrite mulr1 -[Num.norm_op _ _]/(`| _ |) ltr_paddr ?normr_ge0 // addr_gt0 ?ltr01.
Qed.
Definition quarter : fmat RR := sympl RR 1.
Definition turn (t : R) (z : seq RR) : seq RR :=
  [:: nth 0 z 0%N * (cos t : RR) + nth 0 z 1%N * (sin t : RR); nth 0 z 1%N * (cos t : RR) - nth 0 z 0%N * (sin t : RR)].
Lemma ex_oscillator : let D (z : seq RR) := size z = 2%N in
  [/\ fr quarter = 2%N /\ fc quarter = 2%N, isometry (sympl RR 1) quarter /\ unchanged 2 quarter (half_norm 2),
      (forall z, D z -> size z = 2%N /\ gradient_at 2 (half_norm 2) z (id z)) /\
      (forall z z', D z -> D z' -> Rle (dist2 2 z z') (Rmult R1 (dist2 2 z z'))),
      (forall z, D z -> D (apply_mat 2 quarter z)) /\ (forall z, D z -> turn R0 z = z) &
      (forall z, D z -> solves 2 (hamiltonian_dynamics id) (fun t => turn t z)) /\ (forall z t, D z -> D (turn t z))].
Proof.
have E2 (f : nat -> RR) : \sum_(0 <= i < 2) f i = f 0%N + f 1%N by rewrite !big_nat_recr //= big_geq // add0r.
move=> D; split=> //.
- split.
    split=> // -[|[|i]] [|[|j]] // _ _; rewrite /quarter /sympl /= !E2 /=;
    by rewrite ?(mulr0, mul0r, mulr1, mul1r, addr0, add0r, mulrN1, mulNr, mulrN, opprK, oppr0).
  move=> z z' [S S' T]; rewrite /half_norm !E2 !T // !E2 /= !mul0r mul1r addr0 add0r mulN1r mulrNN [X in _ * X]addrC //.
- split=> [z Dz|z z' _ _]; first by split=> //; exact: half_norm_gradient.
  rewrite Rmult_1_l; exact: Rle_refl.
- split=> [z Dz|[|a [|b []]] // _]; first by rewrite /D size_mkseq.
  rewrite /turn /= cos_0 sin_0; congr [:: _; _].
    by rewrite -[LHS]/(Rplus (Rmult a 1) (Rmult b 0)); ring.
  by rewrite -[LHS]/(Rminus (Rmult b 1) (Rmult a 0)); ring.
- split=> // z Dz t; split=> //.
  exists [:: nth 0 (turn t z) 1%N; - nth 0 (turn t z) 0%N] => // -[|[|]] // _ /=;
    set a := nth 0 z 0%N; set b := nth 0 z 1%N.
    have K := derivable_pt_lim_plus _ _ t _ _ (derivable_pt_lim_scal _ a t _ (derivable_pt_lim_cos t)) (derivable_pt_lim_scal _ b t _ (derivable_pt_lim_sin t)).
    move: K; congr (derivable_pt_lim _ t _); rewrite -[LHS]/(Rplus (Rmult a (Ropp (sin t))) (Rmult b (cos t))).
    rewrite -[RHS]/(Rminus (Rmult b (cos t)) (Rmult a (sin t))); ring.
  have K := derivable_pt_lim_minus _ _ t _ _ (derivable_pt_lim_scal _ b t _ (derivable_pt_lim_cos t)) (derivable_pt_lim_scal _ a t _ (derivable_pt_lim_sin t)).
  move: K; congr (derivable_pt_lim _ t _); rewrite -[LHS]/(Rminus (Rmult b (Ropp (sin t))) (Rmult a (cos t))).
  rewrite -[RHS]/(Ropp (Rplus (Rmult a (cos t)) (Rmult b (sin t)))); ring.
Qed.
