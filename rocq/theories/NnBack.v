(** * NnBack: the four Linear layers against each other; representations that cannot be
    used for hidden layers. *)
From mathcomp Require Import all_ssreflect all_algebra.
From mathcomp Require Import zify.
From Verif Require Import Np NpLemmas Spec SpecLemmas LinOp LinOpSpec LinOpProofs Rep RepSpec RepWf RepThm RepThm1 Solver SolSpec Nn NnSpec.
Set Implicit Arguments.
Unset Strict Implicit.
Unset Printing Implicit Defensive.
Import GRing.Theory.
Local Open Scope ring_scope.

Section B.
Variable R : comRingType.
Variables (conj sinv : R -> R) (linv : nat -> seq R -> seq R).
Variables (crho cdrho : nat -> option gid -> gel R -> res (op R)).
Variables (gdim : gid -> nat) (gorth : gid -> bool) (csize : nat -> gid -> nat) (le : rel rep).
Variables (gperm : gid -> bool) (cperm : nat -> bool).
Variables (gens lies : gid -> seq (op R)).
Variables (svd : nat -> nat -> seq R -> seq R * seq R * seq R) (big : pred R).
Variable krylov : op R -> res (darr R).
Variables (act : R -> R) (tenth : R).
Local Notation sz := (rsize gdim csize).
Local Notation mk_linear := (mk_linear conj sinv linv crho cdrho gdim gorth csize le gens lies svd big krylov).
Local Notation mk_flax_linear := (mk_flax_linear conj sinv linv crho cdrho gdim gorth csize le gens lies svd big krylov).
Local Notation mk_hk_linear := (mk_hk_linear conj sinv linv crho cdrho gdim gorth csize le gens lies svd big krylov).
Local Notation mk_torch_linear := (mk_torch_linear conj sinv linv crho cdrho gdim gorth csize le gens lies svd big krylov).

(** all four constructors succeed or none does, and then they compute the same function; the
    parameter w of flax is given the width of its input *)
Theorem backends a b :
  match mk_linear a b with
  | Ok L => exists Lf Lh Lt,
      [/\ mk_flax_linear a b = Ok Lf, mk_hk_linear a b = Ok Lh, mk_torch_linear a b = Ok Lt &
          forall w c bs x,
            [/\ flax_linear_call conj Lf w c (l_in L) bs x = linear_call conj L w c bs x,
                hk_linear_call conj Lh w c bs x = linear_call conj L w c bs x &
                torch_linear_call conj Lt w c bs x = linear_call conj L w c bs x]]
  | Err e => [/\ mk_torch_linear a b = Err e, mk_flax_linear a b = Err e & exists e', mk_hk_linear a b = Err e']
  end.
Proof.
rewrite /Nn.mk_linear /Nn.mk_flax_linear /Nn.mk_hk_linear /Nn.mk_torch_linear /rshift /lshift.
case: (size_py _ _ a) => [na|e] /=; last first.
  split=> //; case: (tr _ _ _ _ a) => [t|e'] /=; last by exists e'.
  case: (mul _ _ _ b t) => [W|e'] /=; last by exists e'.
  case: (projector _ _ _ _ _ _ _ _ _ _ _ _ _ W) => [P|e'] /=; last by exists e'.
  case: (projector _ _ _ _ _ _ _ _ _ _ _ _ _ b) => [Pb|e'] /=; last by exists e'.
  case: (size_py _ _ b) => [nb|e'] /=; first by exists e. by exists e'.
case: (size_py _ _ b) => [nb|e] /=; last first.
  split=> //; case: (tr _ _ _ _ a) => [t|e'] /=; last by exists e'.
  case: (mul _ _ _ b t) => [W|e'] /=; last by exists e'.
  case: (projector _ _ _ _ _ _ _ _ _ _ _ _ _ W) => [P|e'] /=; last by exists e'.
  case: (projector _ _ _ _ _ _ _ _ _ _ _ _ _ b) => [Pb|e'] /=; last by exists e'.
  by exists e.
case: (tr _ _ _ _ a) => [t|e] /=; last by split=> //; exists e.
case: (mul _ _ _ b t) => [W|e] /=; last by split=> //; exists e.
case: (projector _ _ _ _ _ _ _ _ _ _ _ _ _ W) => [P|e] /=; last by split=> //; exists e.
case: (projector _ _ _ _ _ _ _ _ _ _ _ _ _ b) => [Pb|e] /=; last by split=> //; exists e.
by do 3!eexists; split.
Qed.

(** an input of another width than repin.size(): objax, haiku and pytorch raise *)
Lemma width_checked L w c bs x : size x != (bs * l_in L)%N -> ~~ is_ok (linear_call conj L w c bs x).
Proof.
move=> N; rewrite /linear_call; case: (matmat _ _ _ w) => //= Ww; case: (reshape _ _) => //= W.
by case: (matmat _ _ _ c) => //= c'; rewrite /affine (negbTE N).
Qed.
(** flax makes w of the width of the input, and the projector rejects it *)
Lemma flax_width (Lf : flax_linear R) w c n bs x : size w != cols (fl_Pw Lf) ->
  (forall X, size X != cols (fl_Pw Lf) -> ~~ is_ok (matmat conj (fl_Pw Lf) 1 X)) ->
  ~~ is_ok (flax_linear_call conj Lf w c n bs x).
Proof. by move=> N H; rewrite /flax_linear_call; have := H w N; case: (matmat _ _ _ w). Qed.

(** ** representations other than canonical sums cannot be used for hidden layers *)
Local Notation mk_block := (mk_block conj sinv linv crho cdrho gdim gorth csize le gperm cperm gens lies svd big krylov).
Local Notation block_call := (block_call conj gdim csize gperm cperm act tenth).
Local Notation gated_call := (gated_call gdim csize gperm cperm act).

Lemma gated_call_err r : (forall d, r <> RSum d (iota 0 (sz r))) -> (if r is RSum d p then size p = sz r else True) ->
  isperm gperm cperm r = false \/ (if r is RProd _ _ then False else if r is RDir _ _ then False else True) ->
  forall bs m v, ~~ is_ok (gated_call r bs m v).
Proof.
move=> N S P bs m v; rewrite /Nn.gated_call; case: eqP => //= _.
rewrite /gate_indices; case: ifP => //= Hh.
case E: (size_py gdim csize r) => [n|] //=.
case: r N S P Hh E => //= [d p|d p|d p] N S P Hh E; last 2 first.
- by case: P => // F; rewrite F.
- by case: P => // F; rewrite F.
by case: (N d); move: Hh; rewrite S => /negbFE /eqP ->; rewrite /arange.
Qed.

Theorem unusable r rin choice K : (forall d, r <> RSum d (iota 0 (sz r))) -> (if r is RSum d p then size p = sz r else True) ->
  mk_block rin r choice = Ok K -> forall P bs x, ~~ is_ok (block_call K P bs x).
Proof.
move=> N S EK P bs x.
have [EK2 PK] : b_rep K = r /\ (isperm gperm cperm r = false \/ (if r is RProd _ _ then False else if r is RDir _ _ then False else True)).
  move: EK; rewrite /Nn.mk_block; case Eg: (gated _ _ _ _ _ r) => [v|] //=; case: v Eg => [//|r'] Eg /=.
  case: (Nn.mk_linear _ _ _ _ _ _ _ _ _ _ _ _ _ _ _ _) => //= L.
  case EB: (mk_bilinear _ _ _ _ _ _ _) => [B|] //= [<-]; split=> //.
  case Ip: (isperm gperm cperm r); last by left.
  right; move: Eg EB; rewrite /gated; case: (r) Ip => // d p Ip; rewrite Ip => -[<-]; rewrite /mk_bilinear;
    case: (rshift _ _ _ _ _ _) => //= W; case: (canonicalize _ _ _ _) => //= -[[|?|? ?|?|? ?|? ?|? ?|?|?] q]; rewrite //=.
rewrite /Nn.block_call EK2; case: (linear_call _ _ _ _ _ _) => //= y; case: (bilinear_call _ _ _ _ _ _) => //= z.
exact: gated_call_err.
Qed.

(** the network raises on every input as soon as one hidden representation is not a
    canonical sum *)
Local Notation mk_blocks := (mk_blocks conj sinv linv crho cdrho gdim gorth csize le gperm cperm gens lies svd big krylov).
Local Notation mk_network := (mk_network conj sinv linv crho cdrho gdim gorth csize le gperm cperm gens lies svd big krylov).
Local Notation network_call := (network_call conj gdim csize gperm cperm act tenth).
Theorem unusable_network choices rin rout l r N : List.In r l ->
  (forall d, r <> RSum d (iota 0 (sz r))) -> (if r is RSum d p then size p = sz r else True) ->
  mk_network choices rin rout l = Ok N ->
  forall Ps w b bs x, size Ps = size (n_blocks N) -> ~~ is_ok (network_call N Ps w b bs x).
Proof.
move=> Hr Nr Sr; rewrite /Nn.mk_network; case EK: (mk_blocks choices 0 rin l) => [Ks|] //=.
case: (Nn.mk_linear _ _ _ _ _ _ _ _ _ _ _ _ _ _ _ _) => //= L [<-] Ps w b bs x /= SP.
suff H : ~~ is_ok (blocks_call conj gdim csize gperm cperm act tenth Ks Ps bs x).
  by rewrite /Nn.network_call /=; case: (blocks_call _ _ _ _ _ _ _ _ _ _ _) H.
elim: l (0%N) rin Ks Ps x Hr EK SP => // k l IH i ri Ks Ps x Hr /=.
case EB: (mk_block ri k _) => [K|] //=; case EK: (mk_blocks _ _ _ _) => [Ks'|] //= [<-].
case: Ps => // P Ps [SP] /=; case: Hr => [Ek|Hr].
  subst k; have := unusable Nr Sr EB P bs x; by case: (block_call K P bs x).
case: (block_call K P bs x) => //= y; exact: IH EK SP.
Qed.

(** the same for EMLP *)
Lemma middles_in fuel draws g r r' : call gdim gorth csize le r (Some g) = Ok r' ->
  forall l i l', List.In (ChRep r) l -> middles gdim gorth csize le fuel draws g i l = Some (Ok l') -> List.In r' l'.
Proof.
move=> Er; elim=> // c l IH i l' Hc /=.
case Ec: (middle _ _ _ _ _ _ _ c) => [[x|]|] //; case El: (middles _ _ _ _ _ _ _ _ l) => [[m|]|] //= [<-].
case: Hc => [Hc|Hc]; last by right; exact: IH Hc El.
by left; move: Ec; rewrite Hc /= Er => -[].
Qed.
Theorem unusable_emlp fuel draws choices rep_in rep_out g ch n r r' N : asked ch n r ->
  call gdim gorth csize le r (Some g) = Ok r' -> wfr gdim csize le (pred1 g) r' -> ~ canonical_sum gdim csize r' ->
  emlp conj sinv linv crho cdrho gdim gorth csize le gperm cperm gens lies svd big krylov
    fuel draws choices rep_in rep_out g ch n = Some (Ok N) ->
  forall Ps w b bs x, size Ps = size (n_blocks N) -> ~~ is_ok (network_call N Ps w b bs x).
Proof.
move=> HA Er Wr Nr; rewrite /emlp; case: (call _ _ _ _ rep_in _) => [rin|] //; case: (call _ _ _ _ rep_out _) => [rout|] //.
case El: (middle_layers _ _ _ _ _ _ _ _ _) => [[l|]|] // [EN].
apply: (unusable_network (r := r')) EN; first last.
- by case: (r') Wr => //= d p; rewrite /RepWf.wfr /= => /andP[_ /perm_size ->]; rewrite size_iota.
- by move=> d E; apply: Nr; exists d.
case: ch HA El => [c|l0] /=; last exact: middles_in.
by case=> -> n0; rewrite /= Er => -[<-]; case: n n0 => // n _; left.
Qed.
End B.
