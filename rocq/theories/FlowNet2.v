(** * FlowNet2: differential equations of MLPs and of the networks of group objects. *)
From Coq Require Import Reals Lra.
From mathcomp Require Import all_ssreflect all_algebra.
From mathcomp Require Import zify.
From Verif Require Import Np NpLemmas Spec SpecLemmas LinOp LinOpSpec LinOpInv Rep RepSpec RepWf RepCode RepMat RepAlg RhoProofs RepThm RepThm1 RepExpr Order Solver SolSpec Rstruct Expm GrpSpec ExpFam GrpProofs.
From Verif Require Import Groups GroupsSpec GroupsFlag GroupsReal GroupsPerm Nn NnSpec NnLin NnGate NnBil NnNet NnUni NnThm NnGate2 NnNets NnNetsSpec NnNetsThm.
From Verif Require Import Data DataSpec DataAlg DataThm DataHamSpec DataHam DataHamThm DataPend TrainerFlow FlowSpec Smooth FlowThm NnSmooth FlowExist FlowNet.
Set Implicit Arguments.
Unset Strict Implicit.
Unset Printing Implicit Defensive.
Import GRing.Theory.
Local Open Scope ring_scope.

Theorem mlp_ode n ms (Ps : seq (seq RR * seq RR)) : (0 < size ms)%N -> mlp_fits n ms Ps -> last n ms = n ->
  let F := objax_mlp_call sigmoid (n :: ms) Ps 1 in locally_solvable n F /\ uniquely_solvable n F.
Proof.
move=> S0 HP L F; have HL : locally_lipschitz n F by exact: mlp_lip.
split; last exact: lip_unique.
move=> z0; apply: local_exists => // z Sz.
have Sz' : size z = (1 * n)%N by rewrite mul1n.
by have [y Ey Sy] := mlp_ok sigmoid S0 HP Sz'; exists y => //; rewrite Sy L mul1n.
Qed.
Theorem mlph_thm n ms m (Ps : seq (seq RR * seq RR)) : (0 < size ms)%N -> mlp_fits n ms Ps -> n = (2 * m)%N ->
  exists2 H, forall z, size z = n -> mlph_call sigmoid (n :: ms) Ps 1 z = Ok (H z) &
    (exists gr, gradient_of n H gr) /\
    forall gr, gradient_of n H gr -> let D := hamiltonian_dynamics gr in
      [/\ locally_solvable n D, uniquely_solvable n D & flow_conserves n D H].
Proof.
move=> S0 HP En; pose H z := if mlph_call sigmoid (n :: ms) Ps 1 z is Ok h then h else 0.
have HH z : size z = n -> mlph_call sigmoid (n :: ms) Ps 1 z = Ok (H z).
  move=> Sz; have Sz' : size z = (1 * n)%N by rewrite mul1n.
  by have [y Ey Sy] := mlp_ok sigmoid S0 HP Sz'; rewrite /H /mlph_call /objax_mlp_call Ey.
exists H => //; have := @mlph_expr n (n :: ms) Ps; move: HH; rewrite {1 3}En => HH He.
have [h1 h2] := ham_flow He HH; rewrite En; split=> // gr G; by have [_] := h2 gr G.
Qed.

Section Orth.
Variables (sinv : RR -> RR) (linv : nat -> seq RR -> seq RR).
Variables (crho : nat -> option gid -> gel RR -> res (op RR)).
Variables (gdim : gid -> nat) (csize : nat -> gid -> nat).
Variables (gperm : gid -> bool) (cperm : nat -> bool) (tenth : RR).
Local Notation sz := (rsize gdim csize).
Local Notation acts r M := (acts_rows idR sinv linv crho gdim csize r (fun=> M) 1).
Local Notation equivariant := (equivariant idR sinv linv crho gdim csize).
Local Notation network_call := (network_call idR gdim csize gperm cperm sigmoid tenth).
Local Notation emlph_call := (emlph_call idR gdim csize gperm cperm sigmoid tenth).
Theorem emlph_orthogonal (gorth : gid -> bool) (le : rel rep) (g : gid) E m :
  total_order_on (key gdim csize le (pred1 g)) le -> (0 < gdim g)%N -> (forall c, (0 < csize c g)%N) ->
  isometries idR sinv linv crho gdim gorth csize g (fid RR (gdim g)) E -> (exists M, E M) -> (0 < m)%N ->
  exists2 r, rep_of gdim gorth csize le g (RepExpr.EMul (RepExpr.EInt (2 * m)%N) RepExpr.EV) r & sz r = (2 * (m * gdim g))%N /\
  forall N Ps w b, equivariant E r RScalar (network_call N Ps w b) ->
  exists2 H, forall z, size z = sz r -> emlph_call N Ps w b 1 z = Ok (H z) &
    (exists gr, gradient_of (sz r) H gr) /\
    forall gr, gradient_of (sz r) H gr -> let D := hamiltonian_dynamics gr in
      [/\ locally_solvable (sz r) D, uniquely_solvable (sz r) D, flow_conserves (sz r) D H &
          forall M, E M -> flow_preserves (sz r) D (acts r M)].
Proof.
move=> O G0 C0 HI [M0 EM0] m0; have [r Ri [zi K]] := ham_copies O G0 C0 HI m0.
exists r => //; split=> // N Ps w b HE.
have HM : exists M D, E M /\ rho_dense idR sinv linv crho r M = Ok (sz r, sz r, D).
  exists M0, (flat (rmat (arho sinv linv crho M0) r)); split=> //.
  have [GM _ _] := HI M0 EM0.
  pose Fi (S : comRingType) (A : fmat S) := fdsuml (nseq (2 * m) A).
  have ei S A B : @espec S A B (RepExpr.EMul (RepExpr.EInt (2 * m)%N) RepExpr.EV) = Some (SMat (Fi S (A None))).
    by rewrite /Fi /=; case: (m) m0 => // k _; rewrite mulnS.
  have [r0 Ri0 [W _]] := @rep_exists gdim gorth csize le g O G0 C0 _ _ (ei _ _ _).
  rewrite (rep_of_inj Ri Ri0) in HE *.
  exact: rho_dense_ok GM W.
have [H HH] := emlph_total HE HM; exists H => //.
have HV := emlph_inv_on HE HH.
have HH' : forall z, size z = (2 * (m * gdim g))%N -> emlph_call N Ps w b 1 z = Ok (H z) by rewrite -zi.
have [h1 h2] := ham_flow (@emlph_expr gdim csize gperm cperm tenth _ N Ps w b) HH'; rewrite -zi in h1 h2; split=> // gr G.
have [HL [i1 i2 i3]] := h2 gr G; split=> //.
exact: (field_flow HL G (K H gr HV)).
Qed.
End Orth.

Section Group.
Variables (sinv : RR -> RR) (linv : nat -> seq RR -> seq RR).
Variables (crho cdrho : nat -> option gid -> gel RR -> res (op RR)).
Variables (gdim : gid -> nat) (csize : nat -> gid -> nat) (le : rel rep) (g : gid).
Variable cperm : nat -> bool.
Variables (svd : nat -> nat -> seq RR -> seq RR * seq RR * seq RR) (big : pred RR).
Variable krylov : op RR -> res (darr RR).
Variable tenth : RR.
Local Notation wfr := (wfr gdim csize le (pred1 g)).
Local Notation sz := (rsize gdim csize).
Lemma element_acts (gens lies : gid -> seq (op RR)) r : linv_ok linv -> customs_ok sinv linv crho cdrho gdim csize (pred1 g) ->
  generators_ok idR gdim sinv linv crho cdrho csize (pred1 g) gens lies -> wfr r ->
  exists M D, element sinv linv gdim gens lies g M /\ rho_dense idR sinv linv crho r M = Ok (sz r, sz r, D).
Proof.
move=> HLI HC HG W.
have GX : generated gdim (pred1 g) gens lies (fun h => fid RR (gdim h)) by apply: G_one => h _; exact: meq_refl.
have EM := fel_is HLI HG GX.
have EL : element sinv linv gdim gens lies g (fel gdim (fun h => fid RR (gdim h))) by exists (fun h => fid RR (gdim h)).
exists (fel gdim (fun h => fid RR (gdim h))), (flat (rmat (arho sinv linv crho (fel gdim (fun h => fid RR (gdim h)))) r)); split=> //.
exact: rho_dense_ok (element_group HC EL) W.
Qed.
Theorem emlpode_group (G : gid -> group RR) fuel draws choices rep_in r ch n :
  let gorth h := g_orth (G h) in let gperm h := g_perm (G h) in
  let E := element sinv linv gdim (the_gens G) (the_lies G) g in
  linv_ok linv -> customs_ok sinv linv crho cdrho gdim csize (pred1 g) ->
  generators_ok idR gdim sinv linv crho cdrho csize (pred1 g) (the_gens G) (the_lies G) ->
  total_order_on (key gdim csize le (pred1 g)) le -> tested (gdim g) (G g) ->
  (forall c C M, E M -> crho c (Some g) M = Ok C -> g_orth (G g) -> orthm (csize c g) (den C)) ->
  (forall c C M, E M -> crho c (Some g) M = Ok C -> cperm c -> isperm (csize c g) (den C)) ->
  (forall r c, wfr r -> c \in systems gdim csize r ->
     solver_ok idR gdim sinv linv crho cdrho csize (the_gens G) (the_lies G) svd big krylov c) ->
  (0 < gdim g)%N -> (forall c, (0 < csize c g)%N) -> (forall i, draw_ok (draws i)) -> (forall i, choice_ok (choices i)) ->
  call gdim gorth csize le rep_in (Some g) = Ok r -> wfr r ->
  chans_ok gdim gorth csize le g ch -> (widths ch <= fuel)%N ->
  exists2 N, emlp idR sinv linv crho cdrho gdim gorth csize le gperm cperm (the_gens G) (the_lies G) svd big krylov
               fuel draws choices rep_in rep_in g ch n = Some (Ok N) &
  forall Ps w b, fits_all (n_blocks N) Ps -> size w = (l_out (n_last N) * l_in (n_last N))%N -> size b = l_out (n_last N) ->
    let F := network_call idR gdim csize gperm cperm sigmoid tenth N Ps w b 1 in
    [/\ locally_solvable (sz r) F, uniquely_solvable (sz r) F &
        forall M, E M -> flow_preserves (sz r) F (acts_rows idR sinv linv crho gdim csize r (fun=> M) 1)].
Proof.
move=> gorth gperm E h1 h2 h3 h4 HT Ho Hp h6 G0 C0 HD HCh Er Wr Hc Hf.
have HO := element_orth HT Ho; have HP := element_perm h2 HT Hp.
have [N EN [_ HN]] := emlp_real sigmoid tenth h1 h2 h3 h4 HO h6 (HP le) n G0 C0 HD HCh Er Wr Er Wr Hc Hf.
exists N => // Ps w b f1 f2 f3; apply: (@ode_thm sinv linv crho gdim csize gperm cperm tenth E r N Ps w b (HN Ps w b f1 f2 f3)).
exact: element_acts h1 h2 h3 Wr.
Qed.
End Group.
