(** * PropData2: C58 and C59, the data sets under their own symmetry objects and Hamiltonian
    systems. *)
From Coq Require Import Reals.
From mathcomp Require Import all_ssreflect all_algebra.
From Verif Require Import Np Spec LinOp LinOpSpec Rep RepSpec RepWf RepCode RepExpr Rstruct Expm GrpSpec ExRep ExGrp.
From Verif Require Import Groups GroupsSpec GroupsFlag GroupsReal Nn NnSpec Data DataSpec DataAlg DataThm ExNn ExData.
From Verif Require Import DataHamSpec DataGroups DataHam DataHamThm DataDiff DataPend ExData2.
Set Implicit Arguments.
Unset Strict Implicit.
Unset Printing Implicit Defensive.
Import GRing.Theory.
Local Open Scope ring_scope.

Section Targets.
Variables (sinv : RR -> RR) (linv : nat -> seq RR -> seq RR).
Variables (crho cdrho : nat -> option gid -> gel RR -> res (op RR)).
Variables (gdim : gid -> nat) (csize : nat -> gid -> nat) (le : rel rep) (g : gid).
Variable G : gid -> group RR.
Local Notation sz := (rsize gdim csize).
(** the elements of the group generated by the generators and the Lie algebra of the group
    object [G g]; the flag of the object decides about transposed representations *)
Local Notation elem := (element sinv linv gdim (the_gens G) (the_lies G) g).
Local Notation gorth := (fun h => g_orth (G h)).
Local Notation rep_of := (rep_of gdim gorth csize le g).
Local Notation acts_rows := (acts_rows idR sinv linv crho gdim csize).
Local Notation equivariant := (equivariant idR sinv linv crho gdim csize elem).
Local Notation customs := (customs_ok sinv linv crho cdrho gdim csize (pred1 g) /\
  forall c C M, elem M -> crho c (Some g) M = Ok C -> g_orth (G g) -> orthm (csize c g) (den C)).
Local Notation total_order := (total_order_on (key gdim csize le (pred1 g)) le).
Local Notation customs_nonempty := (forall c, (0 < csize c g)%N).

(** C58.  Each data set declares a group object as its symmetry.  Whatever element of the
    group that this object generates acts on the inputs, the target function moves with it. *)
Theorem C58_inertia close k : customs -> total_order -> customs_nonempty -> gdim g = 3%N -> (0 < k)%N ->
  g_o idR close 3 = Ok (G g) ->
  exists rin rout, [/\ rep_of (inertia_in k) rin, rep_of (T_expr 2 0) rout, sz rin = (k + k * 3)%N, sz rout = 9%N &
    equivariant rin rout (inertia k)].
Proof. move=> [HC HCo] O C0; exact: (inertia_group HC HCo O C0). Qed.
Theorem C58_o5 close sqrt sin div half : customs -> total_order -> customs_nonempty -> gdim g = 5%N ->
  g_o idR close 5 = Ok (G g) -> (forall a b : RR, exists c, div a b = Ok c) ->
  exists2 rin, rep_of o5_in rin & sz rin = 10%N /\ equivariant rin RScalar (o5 sqrt sin div half).
Proof. move=> [HC HCo] O C0; exact: (o5_group HC HCo O C0). Qed.
Theorem C58_particle recip : customs -> total_order -> customs_nonempty -> gdim g = 4%N ->
  g_lorentz idR recip (@same RR) = Ok (G g) ->
  exists2 rin, rep_of particle_in rin & sz rin = 16%N /\ equivariant rin RScalar (@particle RR).
Proof. move=> [HC HCo] O C0; exact: (particle_group HC HCo O C0). Qed.
Theorem C58_pendulum close sqrt half : customs -> total_order -> customs_nonempty -> gdim g = 3%N ->
  g_o2er3 idR id close = Ok (G g) ->
  exists rin rout, [/\ rep_of pendulum_in rin, rep_of (T_expr 0 0) rout, sz rin = 12%N, sz rout = 1%N &
    equivariant rin rout (pendulum sqrt half)].
Proof. move=> [HC HCo] O C0; exact: (pendulum_group HC HCo O C0). Qed.

(** C59, the dynamics of DoubleSpringPendulum: they commute with every element of O2eR3()
    at the states at which the energy is differentiable. *)
Theorem C59_pendulum close : customs -> total_order -> customs_nonempty -> gdim g = 3%N ->
  g_o2er3 idR id close = Ok (G g) ->
  exists2 rin, rep_of pendulum_in rin & sz rin = 12%N /\
    forall gr M z z', elem M -> acts_rows rin (fun=> M) 1 z z' ->
      gradient_at (sz rin) pendulum_energy z (gr z) -> gradient_at (sz rin) pendulum_energy z' (gr z') ->
      exists w w', [/\ hamiltonian_dynamics gr z = Ok w, hamiltonian_dynamics gr z' = Ok w' & acts_rows rin (fun=> M) 1 w w'].
Proof. move=> [HC HCo] O C0; exact: (pend_field HC HCo O C0). Qed.
End Targets.
(** ... which are all states with the first mass off the origin and the masses apart *)
Theorem C59_pendulum_smooth z : size z = 12%N -> let x i := nth 0 z i in
  (x 0%N, x 1%N, x 2%N) <> (0, 0, 0) -> (x 0%N, x 1%N, x 2%N) <> (x 3%N, x 4%N, x 5%N) ->
  exists d, gradient_at 12 pendulum_energy z d.
Proof. exact: pend_smooth. Qed.
Print Assumptions C58_inertia.
Print Assumptions C58_o5.
Print Assumptions C58_particle.
Print Assumptions C58_pendulum.
Print Assumptions C59_pendulum.
Print Assumptions C59_pendulum_smooth.
(** the four objects exist and satisfy the hypotheses *)
Example C58_example close recip :
  [/\ ready (g_o idR close 3) 3, ready (g_o idR close 5) 5, ready (g_lorentz idR recip (@same RR)) 4 & ready (g_o2er3 idR id close) 3].
Proof. split; [exact: (@ready_o 3 close isT) | exact: (@ready_o 5 close isT) | exact: ready_lorentz | exact: ready_o2er3]. Qed.
(** two states that differ by a quarter turn around the third axis, over the integers with
    sqrt the identity and 1 for 1/2; the reflection of the third axis changes the energy *)
Example C58_example_run : let H := pendulum (R := Z0) id 1 in
  [/\ H 1%N [:: 1; 2; 3; 0; 1; 1; 2; 0; 1; 1; 1; 0] = Ok [:: 205%:Z],
      H 1%N [:: 2; -1; 3; 1; 0; 1; 0; -2; 1; 1; -1; 0] = Ok [:: 205%:Z] &
      H 1%N [:: 1; 2; -3; 0; 1; -1; 2; 0; -1; 1; 1; 0] = Ok [:: 197%:Z]].
Proof. by vm_compute. Qed.

(** ** C59: hamiltonian_dynamics *)
(** symplectic_form raises on vectors of odd length and otherwise is the multiplication with
    the matrix J = ((0,1),(-1,0)) of blocks *)
Theorem C59_symplectic_form (R : comRingType) (z : seq R) :
  (odd (size z) -> symplectic_form z = Err AssertionError) /\
  forall m, size z = (2 * m)%N -> exists2 w, symplectic_form z = Ok w &
    [/\ size w = (2 * m)%N, forall i, (i < m)%N -> nth 0 w i = nth 0 z (m + i)%N /\ nth 0 w (m + i)%N = - nth 0 z i,
        symplectic_form w = Ok (map -%R z) & \sum_(0 <= i < 2 * m) nth 0 z i * nth 0 w i = 0].
Proof.
split=> [|m S]; first exact: sform_bad.
have [w Ew [Sw H]] := sform_nth S; exists w => //; split=> //; [exact: (sform_twice S Ew) | exact: (sform_orth S Ew)].
Qed.
(** every solution of z' = hamiltonian_dynamics(z) conserves the hamiltonian *)
Theorem C59_energy m H gr c : (forall t, gradient_at (2 * m) H (c t) (gr (c t))) ->
  solves (2 * m) (hamiltonian_dynamics gr) c -> forall s t, H (c s) = H (c t).
Proof. exact: flow_energy. Qed.
(** the dynamics commute with every symplectic matrix that leaves the hamiltonian unchanged *)
Theorem C59_symplectic m A H gr z z' : fr A = (2 * m)%N -> fc A = (2 * m)%N -> isometry (sympl RR m) A ->
  unchanged (2 * m) A H -> takes (2 * m) A z z' ->
  gradient_at (2 * m) H z (gr z) -> gradient_at (2 * m) H z' (gr z') ->
  exists w w', [/\ hamiltonian_dynamics gr z = Ok w, hamiltonian_dynamics gr z' = Ok w' & takes (2 * m) A w w'].
Proof. by move=> a1 a2 I U T g1 g2; exact: (field_moved a1 a2 U I g1 g2 T). Qed.

Section Nets.
Variables (sinv : RR -> RR) (linv : nat -> seq RR -> seq RR).
Variables (crho : nat -> option gid -> gel RR -> res (op RR)).
Variables (gdim : gid -> nat) (gorth : gid -> bool) (csize : nat -> gid -> nat) (le : rel rep) (g : gid).
Local Notation sz := (rsize gdim csize).
Local Notation rep_of := (rep_of gdim gorth csize le g).
Local Notation acts_rows := (acts_rows idR sinv linv crho gdim csize).
Local Notation equivariant := (equivariant idR sinv linv crho gdim csize).
Local Notation isometries := (isometries idR sinv linv crho gdim gorth csize g).
Local Notation total_order := (total_order_on (key gdim csize le (pred1 g)) le).
Local Notation customs_nonempty := (forall c, (0 < csize c g)%N).
(** E consists of orthogonal matrices, m positions and m momenta in the defining
    representation: the dynamics of an invariant hamiltonian are equivariant *)
Theorem C59_orthogonal E m : total_order -> (0 < gdim g)%N -> customs_nonempty -> isometries (fid RR (gdim g)) E -> (0 < m)%N ->
  exists2 rin, rep_of (EMul (EInt (2 * m)%N) EV) rin & sz rin = (2 * (m * gdim g))%N /\
    forall H gr, (forall M z z', E M -> acts_rows rin (fun=> M) 1 z z' -> H z' = H z) -> gradient_of (sz rin) H gr ->
      equivariant E rin rin (rowwise (sz rin) (hamiltonian_dynamics gr)).
Proof.
move=> O G0 C0 HI M0; have [rin Ri [zi K]] := ham_copies O G0 C0 HI M0.
by exists rin => //; split=> // H gr HH Hg; apply: (field_equivariant Hg); apply: K.
Qed.
(** EMLPH: the sum of the outputs of a network into Scalar (C46) is an invariant function *)
Theorem C59_emlph gperm cperm act tenth E rin N Ps w b :
  equivariant E rin RScalar (network_call idR gdim csize gperm cperm act tenth N Ps w b) ->
  forall bs Ms X X', (forall i, (i < bs)%N -> E (Ms i)) -> acts_rows rin Ms bs X X' ->
  exists y, emlph_call idR gdim csize gperm cperm act tenth N Ps w b bs X = Ok y /\
    emlph_call idR gdim csize gperm cperm act tenth N Ps w b bs X' = Ok y.
Proof. exact: emlph_inv. Qed.
End Nets.
Print Assumptions C59_symplectic_form.
Print Assumptions C59_energy.
Print Assumptions C59_symplectic.
Print Assumptions C59_orthogonal.
Print Assumptions C59_emlph.
Example C59_example_form : symplectic_form [:: 1 : Z0; 2; 3; 4] = Ok [:: 3; 4; -1; -2] /\
  symplectic_form [:: 1 : Z0; 2; 3] = Err AssertionError.
Proof. by []. Qed.
(** the harmonic oscillator (q^2+p^2)/2 with the solution (sin t, cos t) *)
Example C59_example_energy :
  (forall t, gradient_at (2 * 1) (half_norm 2) (circle t) (id (circle t))) /\ solves (2 * 1) (hamiltonian_dynamics id) circle.
Proof. by split=> [t|]; [exact: half_norm_gradient | exact: circle_solves]. Qed.
(** ... in any dimension it is unchanged by all orthogonal matrices *)
Example C59_example_orthogonal n m rin : (0 < n)%N -> (0 < m)%N ->
  rep_of (ndim n) (fun=> true) (ncs n) le_asc 0%N (EMul (EInt (2 * m)%N) EV) rin ->
  [/\ total_order_on (key (ndim n) (ncs n) le_asc (pred1 0%N)) le_asc,
      isometries idR exsinv linvE excr (ndim n) (fun=> true) (ncs n) 0%N (fid RR n) (isos n (fid RR n)),
      forall M z z', isos n (fid RR n) M -> acts_rows idR exsinv linvE excr (ndim n) (ncs n) rin (fun=> M) 1 z z' ->
        half_norm (2 * (m * n)) z' = half_norm (2 * (m * n)) z &
      gradient_of (2 * (m * n)) (half_norm (2 * (m * n))) id].
Proof. exact: osc_ready. Qed.
(** the network V -> Scalar for the group {1,-1} over the integers (the hypotheses of C46 are
    met by C46_example), on 1, -1 and 2 and on batches of these *)
Definition pm2 (n : nat) : seq Z0 := map (fun i : nat => if odd i then 1 else if (i %% 3 == 0)%N then -1 else 0) (iota 0 n).
Definition pars2 (a b c : nat) : bparams Z0 := BParams (pm2 (a * b)) (pm2 b) (pm2 c).
Definition step2 (x : Z0) : Z0 := if x == 0 then 2 else 1.
Example C59_example_emlph :
  if Iemlp no 3 zero_draws one_choice zV RScalar 0%N (ChList [:: ChRep zS; ChInt 3]) 7 is Some (Ok N) then
    let H := emlph_call Iid zd zcs no no step2 1 N [:: pars2 1 5 12; pars2 3 5 13] [:: 1; 1; 1] [:: 1] in
    [/\ H 1%N [:: 1] = Ok (- 10%:Z), H 1%N [:: -1] = Ok (- 10%:Z), H 1%N [:: 2%:Z] = Ok (- 76%:Z),
        H 2%N [:: 1; 2%:Z] = Ok (- 86%:Z) & H 2%N [:: -1; 2%:Z] = Ok (- 86%:Z)]
  else False.
Proof. by vm_compute. Qed.
