(** * PropFlow2: C85, the flows of MLPode and MLPH. *)
From Coq Require Import Reals.
From mathcomp Require Import all_ssreflect all_algebra.
From Verif Require Import Np Spec LinOp Rstruct Expm Nn NnNets NnNetsSpec Data DataSpec DataHamSpec.
From Verif Require Import FlowSpec FlowGlobal.
Set Implicit Arguments.
Unset Strict Implicit.
Unset Printing Implicit Defensive.
Import GRing.Theory.
Local Open Scope ring_scope.

(** C85.  For all weights and all widths, through every state runs a solution of
    z' = MLPode(z) for all times, so that odeint has something to compute for every list of
    times; the solutions form a flow: phi (s+t) = phi s . phi t. *)
Theorem C85_mlpode n ms (Ps : seq (seq RR * seq RR)) : (0 < size ms)%N -> mlp_fits n ms Ps -> last n ms = n ->
  let F := objax_mlp_call sigmoid (n :: ms) Ps 1 in globally_solvable n F /\ exists phi, flow_of n F phi.
Proof. exact: mlpode_flow. Qed.
(** the same for z' = J grad MLPH(z), and the flow conserves the energy *)
Theorem C85_mlph n ms m (Ps : seq (seq RR * seq RR)) : (0 < size ms)%N -> mlp_fits n ms Ps -> n = (2 * m)%N ->
  exists2 H, forall z, size z = n -> mlph_call sigmoid (n :: ms) Ps 1 z = Ok (H z) &
    (exists gr, gradient_of n H gr) /\
    forall gr, gradient_of n H gr -> let D := hamiltonian_dynamics gr in
      globally_solvable n D /\ exists2 phi, flow_of n D phi & forall z t, size z = n -> H (phi t z) = H z.
Proof. exact: mlph_flow_energy. Qed.
Print Assumptions C85_mlpode.
Print Assumptions C85_mlph.
(** widths 2, 3, 2 with weights: an MLPode on the plane; with the widths 2, 3, 1 an MLPH for a
    position and a momentum *)
Example C85_example : mlp_fits 2 [:: 3; 2]%N [:: ([:: 1; 0; 2%:R; 0; 1; 1] : seq RR, [:: 0; 1; 0]); ([:: 0; 1; 1; 0; 1; 1], [:: 0; 0])] /\
  mlp_fits (2 * 1) [:: 3; 1]%N [:: ([:: 1; 0; 2%:R; 0; 1; 1] : seq RR, [:: 0; 1; 0]); ([:: 0; 1; 1], [:: 0])].
Proof. by []. Qed.
