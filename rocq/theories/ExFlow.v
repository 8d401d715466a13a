(** * ExFlow: networks of the group {1,-1} for the claims on differential equations. *)
From Coq Require Import Reals.
From mathcomp Require Import all_ssreflect all_algebra.
From Verif Require Import Np NpLemmas Spec SpecLemmas LinOp LinOpSpec LinOpInv Rep RepSpec RepWf RepCode RepThm RepThm1 Solver SolSpec Rstruct Expm GrpSpec ExRep ExGrp.
From Verif Require Import Nn NnSpec NnThm ExNn FlowSpec FlowNet FlowNet2.
Set Implicit Arguments.
Unset Strict Implicit.
Unset Printing Implicit Defensive.
Import GRing.Theory.
Local Open Scope ring_scope.

(** two copies of V *)
Definition zP : rep := RSum [:: (zV, 2)]%N [:: 0; 1]%N.
Local Notation zelem := (element exsinv linvE zd zgens zlies 0%N).
Local Notation zemlp := (emlp idR exsinv linvE excr excr zd yes zcs le_asc no no zgens zlies zsvd zbig zkry).
Local Notation znet tenth := (network_call idR zd zcs no no sigmoid tenth).
Local Notation zequi := (equivariant idR exsinv linvE excr zd zcs zelem).
Lemma zeros_fit (Ks : seq (block RR)) : exists Ps, fits_all Ks Ps.
Proof.
elim: Ks => [|K Ks [Ps IH]]; first by exists [::].
by exists (BParams (nseq (l_out (b_lin K) * l_in (b_lin K)) 0) (nseq (l_out (b_lin K)) 0) (nseq (bl_dim (b_bil K)) 0) :: Ps); split=> //; split; rewrite size_nseq.
Qed.
(** the network from a to c with the hidden layer Scalar+V+V is built and equivariant for all
    parameters, and some parameters fit *)
Lemma z_net tenth a c : call zd yes zcs le_asc a (Some 0%N) = Ok a -> wfr zd zcs le_asc (pred1 0%N) a ->
  call zd yes zcs le_asc c (Some 0%N) = Ok c -> wfr zd zcs le_asc (pred1 0%N) c ->
  exists2 N, zemlp 0 zero_draws one_choice a c 0%N (ChList [:: ChRep zS]) 0 = Some (Ok N) &
  [/\ forall Ps w b, fits_all (n_blocks N) Ps -> size w = (l_out (n_last N) * l_in (n_last N))%N -> size b = l_out (n_last N) ->
        zequi a c (znet tenth N Ps w b),
      exists Ps (w b : seq RR), [/\ fits_all (n_blocks N) Ps, size w = (l_out (n_last N) * l_in (n_last N))%N & size b = l_out (n_last N)] &
      exists M D, zelem M /\ rho_dense idR exsinv linvE excr a M = Ok (rsize zd zcs a, rsize zd zcs a, D)].
Proof.
move=> E1 W1 E2 W2.
have HC : chans_ok zd yes zcs le_asc 0%N (ChList [:: ChRep zS]).
  by move=> ch /= [<-|[]] //=; exists zS; [vm_compute | split; first vm_compute; last exists [:: (RScalar, 1); (zV, 2)]%N].
have [|N EN [_ HN]] := @emlp_real exsinv linvE excr excr zd yes zcs le_asc 0%N no no zgens zlies zsvd zbig zkry sigmoid tenth
  linvE_ok z_customs z_generators (@le_asc_total _) z_orth z_solver z_truthful 0 zero_draws one_choice a c a c (ChList [:: ChRep zS]) 0
  isT (fun=> isT) zero_ok (fun=> first_ok) E1 W1 E2 W2 HC.
  by rewrite /= big_seq1.
exists N => //; split=> //.
  have [Ps HP] := zeros_fit (n_blocks N).
  by exists Ps, (nseq (l_out (n_last N) * l_in (n_last N)) 0), (nseq (l_out (n_last N)) 0); split; rewrite ?size_nseq.
exact: element_acts linvE_ok z_customs z_generators W1.
Qed.
