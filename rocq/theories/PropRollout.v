(** * PropRollout: C87 and C88, the harmonic oscillator and the rollouts of the trainers. *)
From Coq Require Import Reals.
From mathcomp Require Import all_ssreflect all_algebra.
From Verif Require Import Np Spec LinOp LinOpSpec Rep RepSpec RepWf RepCode RepExpr Solver SolSpec Rstruct Expm RField RNum GrpSpec.
From Verif Require Import Groups GroupsSpec GroupsFlag GroupsReal GroupsPerm Nn NnSpec Data DataSpec DataHamSpec Trainer FlowSpec.
From Verif Require Import NnThm NnGate2 Rollout RolloutSpec RolloutThm RolloutNet RolloutSho RolloutGrp ExRep ExGrp ExNn ExFlow.
Set Implicit Arguments.
Unset Strict Implicit.
Unset Printing Implicit Defensive.
Import GRing.Theory.
Local Open Scope ring_scope.

(** C87.  SHO.H of a batch is the sum of (q^2+p^2)/2 over its states, and raises if the states
    have fewer than two entries *)
Theorem C87_energy bs (z : seq RR) : sho_H (Rinv 2 : RR) 2 bs z = Ok (\sum_(0 <= b < bs) sho_energy (row_of 2 b z)).
Proof. exact: sho_batch. Qed.
Theorem C87_shape (R : comRingType) (half : R) D bs z : (D < 2)%N -> sho_H half D bs z = Err IndexError.
Proof. by move=> H; rewrite /sho_H H. Qed.
(** its gradient is z; hence hamiltonian_dynamics is (p,-q); the flow is the rotation, the only
    one, and it conserves the energy *)
Theorem C87_gradient gr : gradient_of 2 sho_energy gr <-> forall z, size z = 2%N -> gr z = z.
Proof. exact: sho_gradient. Qed.
Theorem C87_flow gr : gradient_of 2 sho_energy gr -> let D := hamiltonian_dynamics gr in
  [/\ flow_of 2 D sho_flow, flow_conserves 2 D sho_energy &
      forall t0 ts z0 zs, size z0 = 2%N -> exact_rollout 2 D z0 (t0 :: ts) zs <-> zs = [seq sho_flow (Rminus t t0) z0 | t <- t0 :: ts]].
Proof. by move=> G; split; [exact: sho_flow_of | exact: sho_conserves | exact: sho_rollout]. Qed.
(** BHamiltonianFlow on a batch, with an integrator that makes no error *)
Theorem C87_batch gr bs z0 t0 ts : gradient_of 2 sho_energy gr -> size z0 = (bs * 2)%N ->
  b_hamiltonian_flow ideal 2 gr bs z0 (t0 :: ts) = Ok [seq sho_flow (Rminus t t0) (row_of 2 b z0) | b <- iota 0 bs, t <- t0 :: ts].
Proof. exact: sho_batch_flow. Qed.
(** the rotations of the plane of position and momentum move solutions to solutions, but not
    all orthogonal matrices do *)
Theorem C87_symmetry gr A : gradient_of 2 sho_energy gr -> orthm 2 A -> isometry (sympl RR 1) A ->
  flow_preserves 2 (hamiltonian_dynamics gr) (takes 2 A).
Proof. by move=> G; exact: sho_moves. Qed.
Theorem C87_reflection_refuted gr : gradient_of 2 sho_energy gr ->
  exists2 A, orthm 2 A & ~ flow_preserves 2 (hamiltonian_dynamics gr) (takes 2 A).
Proof. exact: sho_reflection. Qed.
Print Assumptions C87_energy.
Print Assumptions C87_shape.
Print Assumptions C87_gradient.
Print Assumptions C87_flow.
Print Assumptions C87_batch.
Print Assumptions C87_symmetry.
Print Assumptions C87_reflection_refuted.
Example C87_example : gradient_of 2 sho_energy id /\ (orthm 2 (sympl RR 1) /\ isometry (sympl RR 1) (sympl RR 1)).
Proof.
split; first by apply/sho_gradient.
have S2 (f : nat -> RR) : \sum_(0 <= i < 2) f i = f 0%N + f 1%N by rewrite !big_nat_recr //= big_geq // add0r.
by split; [split=> //|]; split=> // -[|[|i]] [|[|j]] //= _ _; rewrite !S2 /= ?S2 /= ?(mul0r, mulr0, addr0, add0r, mul1r, mulr1, mulrN1, mulN1r, opprK, oppr0).
Qed.

(** C88.  The rollouts of batches, for integrators that make no error: such an integrator
    exists, and it raises only where there is no solution *)
Theorem C88_ideal : (forall n F, exact n F ideal) /\
  forall F z0 ts zs, exact_rollout (size z0) F z0 ts zs -> exists zs', ideal F z0 ts = Ok zs'.
Proof. exact: ideal_thm. Qed.
(** BOdeFlow and BHamiltonianFlow integrate every row by itself (vmap of the flow of one state) *)
Theorem C88_vmap odeint n F bs z0 ts P Q : size z0 = (bs * n)%N -> field_on n F -> uniquely_solvable n F ->
  exact n F odeint -> exact (bs * n) (rowwise n F bs) odeint ->
  b_ode_flow odeint n F bs z0 ts = Ok P -> (forall b, (b < bs)%N -> odeint F (row_of n b z0) ts = Ok (Q b)) ->
  P = flatten [seq Q b | b <- iota 0 bs].
Proof. exact: vmap_thm. Qed.
(** the loss of the trainers is 0 exactly if the targets are the rollouts of the model *)
Theorem C88_zero odeint n F bs z0 ts zs Q l : size z0 = (bs * n)%N -> field_on n F -> uniquely_solvable n F ->
  exact (bs * n) (rowwise n F bs) odeint ->
  (forall b, (b < bs)%N -> exact_rollout n F (row_of n b z0) (nth [::] ts 0) (Q b)) ->
  (0 < bs * size (nth [::] ts 0) * n)%N ->
  ode_loss (F := R_fieldType) odeint n F bs z0 ts zs = Ok l -> (l = 0 <-> zs = flatten (flatten [seq Q b | b <- iota 0 bs])).
Proof. exact: zero_thm. Qed.

Section Acts.
Variables (sinv : RR -> RR) (linv : nat -> seq RR -> seq RR).
Variables (crho : nat -> option gid -> gel RR -> res (op RR)).
Variables (gdim : gid -> nat) (csize : nat -> gid -> nat).
Variables (gperm : gid -> bool) (cperm : nat -> bool) (tenth : RR).
Local Notation acts_rows := (acts_rows idR sinv linv crho gdim csize).
Local Notation equivariant := (equivariant idR sinv linv crho gdim csize).
Local Notation rho_dense := (rho_dense idR sinv linv crho).
Local Notation network_call := (network_call idR gdim csize gperm cperm sigmoid tenth).
Local Notation emlph_call := (emlph_call idR gdim csize gperm cperm sigmoid tenth).
(** the example b of the minibatch is moved by the element Ms b, which acts by an orthogonal
    matrix: initial condition and targets.  The loss does not change if the flow of the model
    is preserved. *)
Theorem C88_loss r Ms bs odeint F z0 z0' ts zs zs' l l' : let n := rsize gdim csize r in let T := size (nth [::] ts 0) in
  (forall b D, (b < bs)%N -> rho_dense r (Ms b) = Ok (n, n, D) -> orthm n (unflat n n D)) ->
  field_on n F -> (forall b, (b < bs)%N -> flow_preserves n F (acts_rows r (fun=> Ms b) 1)) ->
  exact (bs * n) (rowwise n F bs) odeint ->
  acts_rows r Ms bs z0 z0' -> acts_rows r (fun t => Ms (t %/ T)%N) (bs * T) zs zs' ->
  ode_loss (F := R_fieldType) odeint n F bs z0 ts zs = Ok l -> ode_loss (F := R_fieldType) odeint n F bs z0' ts zs' = Ok l' -> l' = l.
Proof. by move=> n T HO; exact: loss_thm. Qed.
(** log_rollout_error and log_rollout_error_ode, if the flow of the data set is preserved too *)
Theorem C88_rollout_error r Ms bs odeint (sq log : RR -> RR) (tiny : RR) F gr z0 z0' ts e e' :
  let n := rsize gdim csize r in let G := hamiltonian_dynamics gr in
  (forall b D, (b < bs)%N -> rho_dense r (Ms b) = Ok (n, n, D) -> orthm n (unflat n n D)) ->
  field_on n F -> (forall b, (b < bs)%N -> flow_preserves n F (acts_rows r (fun=> Ms b) 1)) -> exact (bs * n) (rowwise n F bs) odeint ->
  field_on n G -> (forall b, (b < bs)%N -> flow_preserves n G (acts_rows r (fun=> Ms b) 1)) -> exact (bs * n) (rowwise n G bs) odeint ->
  acts_rows r Ms bs z0 z0' ->
  rollout_error_ode (F := R_realFieldType) odeint sq log tiny n F gr bs z0 ts = Ok e ->
  rollout_error_ode (F := R_realFieldType) odeint sq log tiny n F gr bs z0' ts = Ok e' -> e' = e.
Proof. by move=> n G HO; exact: rollout_thm. Qed.
(** IntegratedODETrainer with an equivariant network *)
Theorem C88_emlpode (E : gel RR -> Prop) r Ms bs odeint N Ps w b z0 z0' ts zs zs' l l' : let n := rsize gdim csize r in
  let T := size (nth [::] ts 0) in let F := network_call N Ps w b 1 in
  (forall b, (b < bs)%N -> E (Ms b)) ->
  (forall b D, (b < bs)%N -> rho_dense r (Ms b) = Ok (n, n, D) -> orthm n (unflat n n D)) ->
  equivariant E r r (network_call N Ps w b) -> (0 < bs)%N -> exact (bs * n) (rowwise n F bs) odeint ->
  acts_rows r Ms bs z0 z0' -> acts_rows r (fun t => Ms (t %/ T)%N) (bs * T) zs zs' ->
  ode_loss (F := R_fieldType) odeint n F bs z0 ts zs = Ok l -> ode_loss (F := R_fieldType) odeint n F bs z0' ts zs' = Ok l' -> l' = l.
Proof. by move=> n T F HE HO; exact: emlpode_loss. Qed.
(** IntegratedDynamicsTrainer with EMLPH, for elements that act by symplectic matrices *)
Theorem C88_emlph (E : gel RR -> Prop) r Ms bs odeint m N Ps w b z0 z0' ts zs zs' l l' H gr : let n := rsize gdim csize r in
  let T := size (nth [::] ts 0) in let F := hamiltonian_dynamics gr in
  (forall b, (b < bs)%N -> E (Ms b)) ->
  (forall b D, (b < bs)%N -> rho_dense r (Ms b) = Ok (n, n, D) -> orthm n (unflat n n D)) ->
  equivariant E r RScalar (network_call N Ps w b) -> (0 < bs)%N -> n = (2 * m)%N ->
  (forall b D, (b < bs)%N -> rho_dense r (Ms b) = Ok (n, n, D) -> isometry (sympl RR m) (unflat n n D)) ->
  (forall z, size z = n -> emlph_call N Ps w b 1 z = Ok (H z)) -> gradient_of n H gr ->
  exact (bs * n) (rowwise n F bs) odeint ->
  acts_rows r Ms bs z0 z0' -> acts_rows r (fun t => Ms (t %/ T)%N) (bs * T) zs zs' ->
  dynamics_loss (F := R_fieldType) odeint n gr bs z0 ts zs = Ok l -> dynamics_loss (F := R_fieldType) odeint n gr bs z0' ts zs' = Ok l' -> l' = l.
Proof. by move=> n T F HE HO; exact: emlph_loss. Qed.
End Acts.
(** the networks of the group objects with is_orthogonal *)
Section Group.
Variables (sinv : RR -> RR) (linv : nat -> seq RR -> seq RR).
Variables (crho cdrho : nat -> option gid -> gel RR -> res (op RR)).
Variables (gdim : gid -> nat) (csize : nat -> gid -> nat) (le : rel rep) (g : gid).
Variable cperm : nat -> bool.
Variables (svd : nat -> nat -> seq RR -> seq RR * seq RR * seq RR) (big : pred RR).
Variable krylov : op RR -> res (darr RR).
Variable tenth : RR.
Local Notation wfr := (wfr gdim csize le (pred1 g)).
Local Notation sz := (rsize gdim csize).
Local Notation acts_rows := (acts_rows idR sinv linv crho gdim csize).
Theorem C88_group (G : gid -> group RR) fuel draws choices rep_in r ch n :
  let gorth h := g_orth (G h) in let gperm h := g_perm (G h) in
  let E := element sinv linv gdim (the_gens G) (the_lies G) g in
  linv_ok linv -> customs_ok sinv linv crho cdrho gdim csize (pred1 g) ->
  generators_ok idR gdim sinv linv crho cdrho csize (pred1 g) (the_gens G) (the_lies G) ->
  total_order_on (key gdim csize le (pred1 g)) le -> tested (gdim g) (G g) -> g_orth (G g) ->
  (forall c C M, E M -> crho c (Some g) M = Ok C -> g_orth (G g) -> orthm (csize c g) (den C)) ->
  (forall c C M, E M -> crho c (Some g) M = Ok C -> cperm c -> isperm (csize c g) (den C)) ->
  (forall r c, wfr r -> c \in systems gdim csize r ->
     solver_ok idR gdim sinv linv crho cdrho csize (the_gens G) (the_lies G) svd big krylov c) ->
  (0 < gdim g)%N -> (forall c, (0 < csize c g)%N) -> (forall i, draw_ok (draws i)) -> (forall i, choice_ok (choices i)) ->
  call gdim gorth csize le rep_in (Some g) = Ok r -> wfr r ->
  chans_ok gdim gorth csize le g ch -> (widths ch <= fuel)%N ->
  exists2 N, emlp idR sinv linv crho cdrho gdim gorth csize le gperm cperm (the_gens G) (the_lies G) svd big krylov
               fuel draws choices rep_in rep_in g ch n = Some (Ok N) &
  forall Ps w b, fits_all (n_blocks N) Ps -> size w = (l_out (n_last N) * l_in (n_last N))%N -> size b = l_out (n_last N) ->
    let F := network_call idR gdim csize gperm cperm sigmoid tenth N Ps w b 1 in
    forall odeint bs Ms z0 z0' ts zs zs' l l', (0 < bs)%N -> (forall i, (i < bs)%N -> E (Ms i)) ->
    let T := size (nth [::] ts 0) in
    exact (bs * sz r) (rowwise (sz r) F bs) odeint ->
    acts_rows r Ms bs z0 z0' -> acts_rows r (fun t => Ms (t %/ T)%N) (bs * T) zs zs' ->
    ode_loss (F := R_fieldType) odeint (sz r) F bs z0 ts zs = Ok l ->
    ode_loss (F := R_fieldType) odeint (sz r) F bs z0' ts zs' = Ok l' -> l' = l.
Proof. exact: emlpode_loss_group. Qed.
End Group.
Print Assumptions C88_ideal.
Print Assumptions C88_vmap.
Print Assumptions C88_zero.
Print Assumptions C88_loss.
Print Assumptions C88_rollout_error.
Print Assumptions C88_emlpode.
Print Assumptions C88_emlph.
Print Assumptions C88_group.
(** an EMLPode of the group {1,-1} on V with the hidden layer Scalar+V+V: it is built and
    equivariant, and all elements act by orthogonal matrices; the integrator is C88_ideal *)
Example C88_example tenth : exists N Ps w b,
  [/\ fits_all (n_blocks N) Ps,
      equivariant idR exsinv linvE excr zd zcs (element exsinv linvE zd zgens zlies 0%N) zV zV
        (network_call idR zd zcs no no sigmoid tenth N Ps w b),
      exists M, element exsinv linvE zd zgens zlies 0%N M &
      forall M D, element exsinv linvE zd zgens zlies 0%N M -> rho_dense idR exsinv linvE excr zV M = Ok (1%N, 1%N, D) ->
        orthm 1 (unflat 1 1 D)].
Proof.
have [||||N EN [HN [Ps [w [b [f1 f2 f3]]]] [M [D [EM _]]]]] := @z_net tenth zV zV; [by vm_compute..|].
exists N, Ps, w, b; split; [exact: f1 | exact: HN f1 f2 f3 | by exists M |].
move=> M' D' EM' ED'; have W : wfr zd zcs le_asc (pred1 0%N) zV by vm_compute.
have [D'' ED'' O] := rep_orth (gorth := yes) (element_group z_customs EM') (z_orth EM') (fun _ _ => isT) W.
by move: ED''; rewrite ED' => -[->].
Qed.
(** and the targets of a batch of harmonic oscillators: C87_batch gives the rollouts *)
Example C88_example_sho : uniquely_solvable 2 (hamiltonian_dynamics id) /\ field_on 2 (hamiltonian_dynamics (id : seq RR -> seq RR)).
Proof.
have G : gradient_of 2 sho_energy id by apply/sho_gradient.
split; [exact: FlowNet.lip_unique (sho_lip G) | exact: (ham_field (m := 1) G)].
Qed.
