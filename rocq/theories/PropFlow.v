(** * PropFlow: C83 and C84, neural differential equations and Hamiltonian networks. *)
From Coq Require Import Reals.
From mathcomp Require Import all_ssreflect all_algebra.
From Verif Require Import Np Spec LinOp LinOpSpec Rep RepSpec RepWf RepCode RepExpr Solver SolSpec Rstruct Expm GrpSpec ExGrp ExRep.
From Verif Require Import Groups GroupsSpec GroupsFlag GroupsReal GroupsPerm Nn NnSpec NnNets NnNetsSpec Data DataSpec DataAlg DataHamSpec ExNn.
From Verif Require Import FlowSpec FlowThm FlowNet FlowNet2 ExFlow.
Set Implicit Arguments.
Unset Strict Implicit.
Unset Printing Implicit Defensive.
Import GRing.Theory.
Local Open Scope ring_scope.

Section Flow.
Variables (sinv : RR -> RR) (linv : nat -> seq RR -> seq RR).
Variables (crho : nat -> option gid -> gel RR -> res (op RR)).
Variables (gdim : gid -> nat) (csize : nat -> gid -> nat).
Variables (gperm : gid -> bool) (cperm : nat -> bool) (tenth : RR).
Local Notation sz := (rsize gdim csize).
Local Notation acts r M := (acts_rows idR sinv linv crho gdim csize r (fun=> M) 1).
Local Notation equivariant := (equivariant idR sinv linv crho gdim csize).
Local Notation rho_dense := (rho_dense idR sinv linv crho).
Local Notation network_call := (network_call idR gdim csize gperm cperm sigmoid tenth).
Local Notation emlph_call := (emlph_call idR gdim csize gperm cperm sigmoid tenth).

(** C83.  EMLPode is the right hand side of z' = network(z).  Let the network commute with the
    elements E of the group (the conclusion of C46) and let E have an element.  Then a
    solution runs through every state, it is unique, and solutions whose states are moved
    into each other by an element of the group at one time are so at all times. *)
Theorem C83_ode E r N Ps w b : equivariant E r r (network_call N Ps w b) ->
  (exists M D, E M /\ rho_dense r M = Ok (sz r, sz r, D)) ->
  let F := network_call N Ps w b 1 in
  [/\ locally_solvable (sz r) F, uniquely_solvable (sz r) F & forall M, E M -> flow_preserves (sz r) F (acts r M)].
Proof. exact: ode_thm. Qed.
(** a state that an element leaves in place stays in place *)
Theorem C83_fixed E r N Ps w b M a c t0 t c0 : equivariant E r r (network_call N Ps w b) -> E M ->
  solves_on a c (sz r) (network_call N Ps w b 1) c0 -> Rlt a t0 -> Rlt t0 c -> Rlt a t -> Rlt t c ->
  acts r M (c0 t0) (c0 t0) -> acts r M (c0 t) (c0 t).
Proof. exact: ode_fixed. Qed.
(** MLPode: existence and uniqueness *)
Theorem C83_mlp n ms Ps : (0 < size ms)%N -> mlp_fits n ms Ps -> last n ms = n ->
  let F := objax_mlp_call sigmoid (n :: ms) Ps 1 in locally_solvable n F /\ uniquely_solvable n F.
Proof. exact: mlp_ode. Qed.

(** C84.  EMLPH: the energy H is the sum of the outputs of a network into Scalar.  It has a
    gradient everywhere; for z' = J grad H(z) a solution runs through every state, it is
    unique and conserves H; the elements whose matrix is symplectic move solutions to
    solutions. *)
Theorem C84_emlph E r m N Ps w b : equivariant E r RScalar (network_call N Ps w b) ->
  (exists M D, E M /\ rho_dense r M = Ok (sz r, sz r, D)) -> sz r = (2 * m)%N ->
  exists2 H, forall z, size z = sz r -> emlph_call N Ps w b 1 z = Ok (H z) &
  [/\ exists gr, gradient_of (sz r) H gr,
      forall gr, gradient_of (sz r) H gr -> let D := hamiltonian_dynamics gr in
        [/\ locally_solvable (sz r) D, uniquely_solvable (sz r) D & flow_conserves (sz r) D H] &
      forall gr M A, gradient_of (sz r) H gr -> E M -> rho_dense r M = Ok (sz r, sz r, A) ->
        isometry (sympl RR m) (unflat (sz r) (sz r) A) -> flow_preserves (sz r) (hamiltonian_dynamics gr) (acts r M)].
Proof. exact: emlph_thm. Qed.
(** m positions and m momenta in the defining representation of an orthogonal group: all
    elements move solutions to solutions *)
Theorem C84_orthogonal (gorth : gid -> bool) (le : rel rep) (g : gid) E m :
  total_order_on (key gdim csize le (pred1 g)) le -> (0 < gdim g)%N -> (forall c, (0 < csize c g)%N) ->
  isometries idR sinv linv crho gdim gorth csize g (fid RR (gdim g)) E -> (exists M, E M) -> (0 < m)%N ->
  exists2 r, rep_of gdim gorth csize le g (EMul (EInt (2 * m)%N) EV) r & sz r = (2 * (m * gdim g))%N /\
  forall N Ps w b, equivariant E r RScalar (network_call N Ps w b) ->
  exists2 H, forall z, size z = sz r -> emlph_call N Ps w b 1 z = Ok (H z) &
    (exists gr, gradient_of (sz r) H gr) /\
    forall gr, gradient_of (sz r) H gr -> let D := hamiltonian_dynamics gr in
      [/\ locally_solvable (sz r) D, uniquely_solvable (sz r) D, flow_conserves (sz r) D H &
          forall M, E M -> flow_preserves (sz r) D (acts r M)].
Proof. exact: emlph_orthogonal. Qed.
(** MLPH: no symmetry, but the energy is conserved *)
Theorem C84_mlph n ms m Ps : (0 < size ms)%N -> mlp_fits n ms Ps -> n = (2 * m)%N ->
  exists2 H, forall z, size z = n -> mlph_call sigmoid (n :: ms) Ps 1 z = Ok (H z) &
    (exists gr, gradient_of n H gr) /\
    forall gr, gradient_of n H gr -> let D := hamiltonian_dynamics gr in
      [/\ locally_solvable n D, uniquely_solvable n D & flow_conserves n D H].
Proof. exact: mlph_thm. Qed.
End Flow.

(** C83 and C84 for the group objects that Group.__init__ builds *)
Section Group.
Variables (sinv : RR -> RR) (linv : nat -> seq RR -> seq RR).
Variables (crho cdrho : nat -> option gid -> gel RR -> res (op RR)).
Variables (gdim : gid -> nat) (csize : nat -> gid -> nat) (le : rel rep) (g : gid).
Variable cperm : nat -> bool.
Variables (svd : nat -> nat -> seq RR -> seq RR * seq RR * seq RR) (big : pred RR).
Variable krylov : op RR -> res (darr RR).
Variable tenth : RR.
Local Notation wfr := (wfr gdim csize le (pred1 g)).
Local Notation sz := (rsize gdim csize).
Theorem C83_emlpode (G : gid -> group RR) fuel draws choices rep_in r ch n :
  let gorth h := g_orth (G h) in let gperm h := g_perm (G h) in
  let E := element sinv linv gdim (the_gens G) (the_lies G) g in
  linv_ok linv -> customs_ok sinv linv crho cdrho gdim csize (pred1 g) ->
  generators_ok idR gdim sinv linv crho cdrho csize (pred1 g) (the_gens G) (the_lies G) ->
  total_order_on (key gdim csize le (pred1 g)) le -> tested (gdim g) (G g) ->
  (forall c C M, E M -> crho c (Some g) M = Ok C -> g_orth (G g) -> orthm (csize c g) (den C)) ->
  (forall c C M, E M -> crho c (Some g) M = Ok C -> cperm c -> isperm (csize c g) (den C)) ->
  (forall r c, wfr r -> c \in systems gdim csize r ->
     solver_ok idR gdim sinv linv crho cdrho csize (the_gens G) (the_lies G) svd big krylov c) ->
  (0 < gdim g)%N -> (forall c, (0 < csize c g)%N) -> (forall i, draw_ok (draws i)) -> (forall i, choice_ok (choices i)) ->
  call gdim gorth csize le rep_in (Some g) = Ok r -> wfr r ->
  chans_ok gdim gorth csize le g ch -> (widths ch <= fuel)%N ->
  exists2 N, emlp idR sinv linv crho cdrho gdim gorth csize le gperm cperm (the_gens G) (the_lies G) svd big krylov
               fuel draws choices rep_in rep_in g ch n = Some (Ok N) &
  forall Ps w b, fits_all (n_blocks N) Ps -> size w = (l_out (n_last N) * l_in (n_last N))%N -> size b = l_out (n_last N) ->
    let F := network_call idR gdim csize gperm cperm sigmoid tenth N Ps w b 1 in
    [/\ locally_solvable (sz r) F, uniquely_solvable (sz r) F &
        forall M, E M -> flow_preserves (sz r) F (acts_rows idR sinv linv crho gdim csize r (fun=> M) 1)].
Proof. exact: emlpode_group. Qed.
End Group.
Print Assumptions C83_ode.
Print Assumptions C83_fixed.
Print Assumptions C83_mlp.
Print Assumptions C83_emlpode.
Print Assumptions C84_emlph.
Print Assumptions C84_orthogonal.
Print Assumptions C84_mlph.
(** the network V -> V for the group {1,-1} with the hidden layer Scalar+V+V satisfies the
    hypotheses for all its parameters, and parameters exist *)
Example C83_example tenth : exists N Ps w b,
  [/\ emlp idR exsinv linvE excr excr zd yes zcs le_asc no no zgens zlies zsvd zbig zkry 0 zero_draws one_choice
        zV zV 0%N (ChList [:: ChRep zS]) 0 = Some (Ok N), fits_all (n_blocks N) Ps,
      equivariant idR exsinv linvE excr zd zcs (element exsinv linvE zd zgens zlies 0%N) zV zV
        (network_call idR zd zcs no no sigmoid tenth N Ps w b) &
      exists M D, element exsinv linvE zd zgens zlies 0%N M /\
        rho_dense idR exsinv linvE excr zV M = Ok (rsize zd zcs zV, rsize zd zcs zV, D)].
Proof.
have [||||N EN [HN [Ps [w [b [f1 f2 f3]]]] HM]] := @z_net tenth zV zV; [by vm_compute..|].
exists N, Ps, w, b; exact: (And4 EN f1 (HN Ps w b f1 f2 f3) HM).
Qed.
(** the equation z' = 2z+1, whose solution through z0 is (z0+1/2)exp(2t)-1/2, as an MLPode without hidden layer *)
Example C83_example_mlp : mlp_fits 1 [:: 1%N] [:: ([:: 2%:R : RR], [:: 1])] /\ last 1%N [:: 1%N] = 1%N.
Proof. by []. Qed.
(** a position and a momentum in the representation V of {1,-1} *)
Example C84_example tenth : exists N Ps w b,
  [/\ emlp idR exsinv linvE excr excr zd yes zcs le_asc no no zgens zlies zsvd zbig zkry 0 zero_draws one_choice
        zP RScalar 0%N (ChList [:: ChRep zS]) 0 = Some (Ok N), fits_all (n_blocks N) Ps,
      equivariant idR exsinv linvE excr zd zcs (element exsinv linvE zd zgens zlies 0%N) zP RScalar
        (network_call idR zd zcs no no sigmoid tenth N Ps w b) &
      (exists M D, element exsinv linvE zd zgens zlies 0%N M /\
        rho_dense idR exsinv linvE excr zP M = Ok (rsize zd zcs zP, rsize zd zcs zP, D)) /\
      rsize zd zcs zP = (2 * 1)%N].
Proof.
have [||||N EN [HN [Ps [w [b [f1 f2 f3]]]] HM]] := @z_net tenth zP RScalar; [by vm_compute..|].
exists N, Ps, w, b; exact: (And4 EN f1 (HN Ps w b f1 f2 f3) (conj HM erefl)).
Qed.
(** the hypotheses of C84_orthogonal hold for the orthogonal matrices of every size, by
    C59_example_orthogonal *)
