(** * NnNetsReal: the networks of the four back ends commute with the group; MLP and Standardize. *)
From Coq Require Import Reals.
From mathcomp Require Import all_ssreflect all_algebra.
From mathcomp Require Import zify.
From Verif Require Import Np NpLemmas Spec SpecLemmas LinOp LinOpSpec Rep RepSpec RepMat RepWf RepFun RepOps Solver SolSpec Rstruct Expm GrpSpec.
From Verif Require Import Nn NnSpec NnLin NnGate NnBil NnNet NnUni NnThm Data NnNets NnNetsSpec NnNetsThm.
Set Implicit Arguments.
Unset Strict Implicit.
Unset Printing Implicit Defensive.
Import GRing.Theory.
Local Open Scope ring_scope.

Section T.
Variables (sinv : RR -> RR) (linv : nat -> seq RR -> seq RR).
Variables (crho cdrho : nat -> option gid -> gel RR -> res (op RR)).
Variables (gdim : gid -> nat) (gorth : gid -> bool) (csize : nat -> gid -> nat) (le : rel rep) (g : gid).
Variables (gperm : gid -> bool) (cperm : nat -> bool).
Variables (gens lies : gid -> seq (op RR)).
Variables (svd : nat -> nat -> seq RR -> seq RR * seq RR * seq RR) (big : pred RR).
Variable krylov : op RR -> res (darr RR).
Variables (act : RR -> RR) (tenth : RR).
Local Notation gs := (pred1 g).
Local Notation sz := (rsize gdim csize).
Local Notation key := (key gdim csize le gs).
Local Notation wfr := (wfr gdim csize le gs).
Local Notation elem := (element sinv linv gdim gens lies g).
Local Notation group_elem := (group_elem idR sinv linv crho gdim csize gs).
Local Notation orth_elem := (orth_elem crho gdim csize gorth gs).
Local Notation projector := (projector idR sinv linv crho cdrho gdim csize le gens lies svd big krylov).
Local Notation solver_ok := (solver_ok idR gdim sinv linv crho cdrho csize gens lies svd big krylov).
Local Notation solved := (solved idR sinv linv crho cdrho gdim csize le gens lies svd big krylov elem).
Local Notation equivariant := (equivariant idR sinv linv crho gdim csize elem).
Local Notation acts_by_permutations := (acts_by_permutations idR sinv linv crho gdim csize elem).
Local Notation mk_linear := (mk_linear idR sinv linv crho cdrho gdim gorth csize le gens lies svd big krylov).
Local Notation emlp := (emlp idR sinv linv crho cdrho gdim gorth csize le gperm cperm gens lies svd big krylov).
Local Notation network_call := (network_call idR gdim csize gperm cperm act tenth).
Hypothesis HLI : linv_ok linv.
Hypothesis HC : customs_ok sinv linv crho cdrho gdim csize gs.
Hypothesis HGen : generators_ok idR gdim sinv linv crho cdrho csize gs gens lies.
Hypothesis O : total_order_on key le.

Hypothesis HO : forall M, elem M -> orth_elem M.
Hypothesis HS : forall r c, wfr r -> c \in systems gdim csize r -> solver_ok c.
Hypothesis truthful : forall k, wfr k -> Rep.isperm gperm cperm k -> acts_by_permutations k.
Local Notation canonical_sum := (canonical_sum gdim csize).
Local Notation chan_ok := (chan_ok gdim gorth csize le g).
Local Notation chans_ok := (chans_ok gdim gorth csize le g).
Local Notation flax_emlp := (flax_emlp idR sinv linv crho cdrho gdim gorth csize le gperm cperm gens lies svd big krylov).
Local Notation hk_emlp := (hk_emlp idR sinv linv crho cdrho gdim gorth csize le gperm cperm gens lies svd big krylov).
Local Notation torch_emlp := (torch_emlp idR sinv linv crho cdrho gdim gorth csize le gperm cperm gens lies svd big krylov).
Local Notation flax_network_call := (flax_network_call idR gdim csize gperm cperm act tenth).
Local Notation hk_network_call := (hk_network_call idR gdim csize gperm cperm act tenth).
Local Notation torch_network_call := (torch_network_call idR gdim csize gperm cperm act tenth).

Lemma equivariant_outcome rin rout f f' : (forall bs x, outcome id (f bs x) (f' bs x)) ->
  equivariant rin rout f -> equivariant rin rout f'.
Proof.
move=> H Hf bs Ms X X' HE A; have [Y [Y' [E1 E2 B]]] := Hf bs Ms X X' HE A; exists Y, Y'; split=> //.
  by have := H bs X; rewrite E1; case: (f' bs X) => //= y ->.
by have := H bs X'; rewrite E2; case: (f' bs X') => //= y ->.
Qed.
Lemma outcome_refl (T : Type) (a : res T) : outcome id a a. Proof. by case: a. Qed.
Lemma fits_size Ks Ps : fits_all (R := RR) Ks Ps -> size Ps = size Ks.
Proof. by elim: Ks Ps => [|K Ks IH] [|P Ps] //= [_ /IH ->]. Qed.
Lemma In_all (l : seq rep) (p : pred rep) : (forall r, List.In r l -> p r) -> all p l.
Proof. by elim: l => //= r l IH H; rewrite H ?IH //; [move=> r' h; apply: H; right | left]. Qed.

Theorem nets_real fuel draws choices rep_in rep_out rin rout ch n :
  (0 < gdim g)%N -> (forall c, (0 < csize c g)%N) -> (forall i, draw_ok (draws i)) -> (forall i, choice_ok (choices i)) ->
  call gdim gorth csize le rep_in (Some g) = Ok rin -> wfr rin ->
  call gdim gorth csize le rep_out (Some g) = Ok rout -> wfr rout ->
  chans_ok ch -> (widths ch <= fuel)%N ->
  exists N Nf Nh Nt,
    [/\ emlp fuel draws choices rep_in rep_out g ch n = Some (Ok N),
        flax_emlp fuel draws choices rep_in rep_out g ch n = Some (Ok Nf),
        hk_emlp fuel draws choices rep_in rep_out g ch n = Some (Ok Nh),
        torch_emlp fuel draws choices rep_in rep_out g ch n = Some (Ok Nt) &
  forall Ps w c, fits_all (n_blocks N) Ps -> size w = (l_out (n_last N) * l_in (n_last N))%N -> size c = l_out (n_last N) ->
    [/\ equivariant rin rout (network_call N Ps w c), equivariant rin rout (flax_network_call Nf Ps w c (sz rin)),
        equivariant rin rout (hk_network_call Nh Ps w c) & equivariant rin rout (torch_network_call Nt Ps w c)]].
Proof.
move=> G0 C0 HD HCh E1 W1 E2 W2 Hch Hf.
have [N EN [_ HN]] := emlp_real act tenth HLI HC HGen O HO HS truthful n G0 C0 HD HCh E1 W1 E2 W2 Hch Hf.
have [l El Wl] : exists2 l, middle_layers gdim gorth csize le fuel draws g ch n = Some (Ok l) & all wfr l.
  case: ch Hch Hf {EN HN} => [c|l] /= Hc Hf.
    have [r -> [Hr _]] := middle_ok O G0 C0 (HD 0%N) Hc Hf; exists (nseq n r) => //.
    by rewrite all_nseq Hr orbT.
  have [|rs Hrs [_ H]] := middles_ok O 0 G0 C0 HD Hc (fuel := fuel); last by exists rs => //; apply: In_all => r /H[].
  move=> c Hi; apply: leq_trans Hf; elim: l Hi {Hc} => //= c' l IH.
  by rewrite big_cons => -[->|/IH]; rewrite leq_max ?leqnn // => ->; rewrite orbT.
have := nets idR sinv linv crho cdrho gdim gorth csize le gperm cperm gens lies svd big krylov act tenth g fuel draws choices rep_in rep_out ch n.
rewrite EN => -[Nf [Nh [Nt [F1 F2 F3 H]]]]; exists N, Nf, Nh, Nt; split=> // Ps w c HP Sw Sc.
have e := HN Ps w c HP Sw Sc; have h := H rin Ps w c _ _ E1 (fits_size HP); split=> //.
- by apply: equivariant_outcome e => bs x; have [-> _ _] := h bs x; exact: outcome_refl.
- by apply: equivariant_outcome e => bs x; have [_ -> _] := h bs x; exact: outcome_refl.
by apply: equivariant_outcome e => bs x; have [_ _ /(_ l O El Wl)] := h bs x.
Qed.
End T.
