(** * NnNetsThm: the networks of the four back ends against each other, and the baseline MLP. *)
From mathcomp Require Import all_ssreflect all_algebra.
From mathcomp Require Import zify.
From Verif Require Import Np NpLemmas Spec SpecLemmas LinOp LinOpSpec Rep RepSpec RepWf Solver Nn NnSpec NnGate2 Data NnNets NnNetsSpec.
Set Implicit Arguments.
Unset Strict Implicit.
Unset Printing Implicit Defensive.
Import GRing.Theory.
Local Open Scope ring_scope.

Section B.
Variable R : comRingType.
Variables (conj sinv : R -> R) (linv : nat -> seq R -> seq R).
Variables (crho cdrho : nat -> option gid -> gel R -> res (op R)).
Variables (gdim : gid -> nat) (gorth : gid -> bool) (csize : nat -> gid -> nat) (le : rel rep).
Variables (gperm : gid -> bool) (cperm : nat -> bool).
Variables (gens lies : gid -> seq (op R)).
Variables (svd : nat -> nat -> seq R -> seq R * seq R * seq R) (big : pred R).
Variable krylov : op R -> res (darr R).
Variables (act : R -> R) (tenth : R).
Local Notation sz := (rsize gdim csize).
Local Notation mk_linear := (mk_linear conj sinv linv crho cdrho gdim gorth csize le gens lies svd big krylov).
Local Notation mk_flax_linear := (mk_flax_linear conj sinv linv crho cdrho gdim gorth csize le gens lies svd big krylov).
Local Notation mk_hk_linear := (mk_hk_linear conj sinv linv crho cdrho gdim gorth csize le gens lies svd big krylov).
Local Notation mk_torch_linear := (mk_torch_linear conj sinv linv crho cdrho gdim gorth csize le gens lies svd big krylov).
Local Notation mk_block := (mk_block conj sinv linv crho cdrho gdim gorth csize le gperm cperm gens lies svd big krylov).
Local Notation mk_flax_block := (mk_flax_block conj sinv linv crho cdrho gdim gorth csize le gperm cperm gens lies svd big krylov).
Local Notation mk_hk_block := (mk_hk_block conj sinv linv crho cdrho gdim gorth csize le gperm cperm gens lies svd big krylov).
Local Notation mk_torch_block := (mk_torch_block conj sinv linv crho cdrho gdim gorth csize le gperm cperm gens lies svd big krylov).
Local Notation mk_blocks := (mk_blocks conj sinv linv crho cdrho gdim gorth csize le gperm cperm gens lies svd big krylov).
Local Notation mk_flax_blocks := (mk_flax_blocks conj sinv linv crho cdrho gdim gorth csize le gperm cperm gens lies svd big krylov).
Local Notation mk_hk_blocks := (mk_hk_blocks conj sinv linv crho cdrho gdim gorth csize le gperm cperm gens lies svd big krylov).
Local Notation mk_torch_blocks := (mk_torch_blocks conj sinv linv crho cdrho gdim gorth csize le gperm cperm gens lies svd big krylov).
Local Notation mk_network := (mk_network conj sinv linv crho cdrho gdim gorth csize le gperm cperm gens lies svd big krylov).
Local Notation mk_flax_network := (mk_flax_network conj sinv linv crho cdrho gdim gorth csize le gperm cperm gens lies svd big krylov).
Local Notation mk_hk_network := (mk_hk_network conj sinv linv crho cdrho gdim gorth csize le gperm cperm gens lies svd big krylov).
Local Notation mk_torch_network := (mk_torch_network conj sinv linv crho cdrho gdim gorth csize le gperm cperm gens lies svd big krylov).

Lemma size_pyE r n : size_py gdim csize r = Ok n -> n = sz r.
Proof. by elim: r n => //= [n [<-]|[h|] n //= [<-]|c [h|] n //= [<-]|d p n [<-]|d p n [<-]|d p n [<-]]. Qed.
(** ** the constructors *)
Definition fl (L : linear R) : flax_linear R := FlaxLinear (l_Pw L) (l_Pb L) (l_out L).
Definition hkl (L : linear R) : hk_linear R := HkLinear (l_Pw L) (l_Pb L) (l_out L, l_in L).
Definition tl (L : linear R) : torch_linear R := TorchLinear (l_in L) (l_out L) (l_Pw L) (l_Pb L).
Lemma flax_lin a b : mk_flax_linear a b = rmap fl (mk_linear a b).
Proof.
rewrite /Nn.mk_linear /Nn.mk_flax_linear /rshift; do 2!case: (size_py _ _ _) => //= ?.
case: (tr _ _ _ _ a) => //= t; case: (mul _ _ _ b t) => //= W; do 2!case: (projector _ _ _ _ _ _ _ _ _ _ _ _ _ _) => //= ?.
Qed.
Lemma torch_lin a b : mk_torch_linear a b = rmap tl (mk_linear a b).
Proof.
rewrite /Nn.mk_linear /Nn.mk_torch_linear; do 2!case: (size_py _ _ _) => //= ?.
case: (tr _ _ _ _ a) => //= t; case: (mul _ _ _ b t) => //= W; do 2!case: (projector _ _ _ _ _ _ _ _ _ _ _ _ _ _) => //= ?.
Qed.
Lemma hk_lin a b : outcome hkl (mk_linear a b) (mk_hk_linear a b).
Proof.
rewrite /Nn.mk_linear /Nn.mk_hk_linear /lshift /rshift.
case: (size_py _ _ a) => [na|e]; case: (size_py _ _ b) => [nb|e'] /=;
case: (tr _ _ _ _ a) => //= t; case: (mul _ _ _ b t) => //= W; do 2!case: (projector _ _ _ _ _ _ _ _ _ _ _ _ _ _) => //= ?.
Qed.
Definition flb (K : block R) := FlaxBlock (fl (b_lin K)) (b_bil K) (b_rep K).
Definition hkb (K : block R) := HkBlock (hkl (b_lin K)) (b_bil K) (b_rep K).
Definition tb (K : block R) := TorchBlock (tl (b_lin K)) (b_bil K) (b_rep K).
Lemma flax_blk a b c : mk_flax_block a b c = rmap flb (mk_block a b c).
Proof.
rewrite /NnNets.mk_flax_block /Nn.mk_block; case: (bind (gated _ _ _ _ _ _) _) => //= g; rewrite flax_lin.
by case: (mk_linear a g) => //= L; case: (mk_bilinear _ _ _ _ _ _ _).
Qed.
Lemma torch_blk a b c : mk_torch_block a b c = rmap tb (mk_block a b c).
Proof.
rewrite /NnNets.mk_torch_block /Nn.mk_block; case: (bind (gated _ _ _ _ _ _) _) => //= g; rewrite torch_lin.
by case: (mk_linear a g) => //= L; case: (mk_bilinear _ _ _ _ _ _ _).
Qed.
Lemma hk_blk a b c : outcome hkb (mk_block a b c) (mk_hk_block a b c).
Proof.
rewrite /NnNets.mk_hk_block /Nn.mk_block; case: (bind (gated _ _ _ _ _ _) _) => //= g; have := hk_lin a g.
case: (mk_linear a g) => [L|e]; case: (mk_hk_linear a g) => //= L'.
by move=> ->; case: (mk_bilinear _ _ _ _ _ _ _).
Qed.
Lemma flax_blks cs i a l : mk_flax_blocks cs i a l = rmap (map flb) (mk_blocks cs i a l).
Proof. by elim: l i a => [|r l IH] i a //=; rewrite flax_blk; case: (mk_block a r _) => //= K; rewrite IH; case: (mk_blocks _ _ _ _). Qed.
Lemma torch_blks cs i a l : mk_torch_blocks cs i a l = rmap (map tb) (mk_blocks cs i a l).
Proof. by elim: l i a => [|r l IH] i a //=; rewrite torch_blk; case: (mk_block a r _) => //= K; rewrite IH; case: (mk_blocks _ _ _ _). Qed.
Lemma hk_blks cs i a l : outcome (map hkb) (mk_blocks cs i a l) (mk_hk_blocks cs i a l).
Proof.
elim: l i a => [|r l IH] i a //=; have := hk_blk a r (cs i).
case: (mk_block a r _) => [K|e]; case: (mk_hk_block a r _) => //= K'.
by move=> ->; have := IH i.+1 r; case: (mk_blocks _ _ _ _) => [Ks|e]; case: (mk_hk_blocks _ _ _ _) => //= Ks' ->.
Qed.
Definition fln (N : network R) := FlaxNetwork (map flb (n_blocks N)) (fl (n_last N)).
Definition hkn (N : network R) := HkNetwork (map hkb (n_blocks N)) (hkl (n_last N)).
Definition tn (N : network R) := TorchNetwork (map tb (n_blocks N)) (tl (n_last N)).
Lemma flax_net cs a b l : mk_flax_network cs a b l = rmap fln (mk_network cs a b l).
Proof.
rewrite /NnNets.mk_flax_network /Nn.mk_network flax_blks; case: (mk_blocks _ _ _ _) => //= Ks.
by rewrite flax_lin; case: (mk_linear _ b).
Qed.
Lemma torch_net cs a b l : mk_torch_network cs a b l = rmap tn (mk_network cs a b l).
Proof.
rewrite /NnNets.mk_torch_network /Nn.mk_network torch_blks; case: (mk_blocks _ _ _ _) => //= Ks.
by rewrite torch_lin; case: (mk_linear _ b).
Qed.
Lemma hk_net cs a b l : outcome hkn (mk_network cs a b l) (mk_hk_network cs a b l).
Proof.
rewrite /NnNets.mk_hk_network /Nn.mk_network; have := hk_blks cs 0 a l.
case: (mk_blocks _ _ _ _) => [Ks|e]; case: (mk_hk_blocks _ _ _ _) => //= Ks'.
by move=> ->; have := hk_lin (last a l) b; case: (mk_linear _ _) => [L|e]; case: (mk_hk_linear _ _) => //= L' ->.
Qed.

(** ** the calls *)
Local Notation network_call := (network_call conj gdim csize gperm cperm act tenth).
Local Notation flax_network_call := (flax_network_call conj gdim csize gperm cperm act tenth).
Local Notation hk_network_call := (hk_network_call conj gdim csize gperm cperm act tenth).
Local Notation torch_network_call := (torch_network_call conj gdim csize gperm cperm act tenth).
Lemma hk_call N Ps w b bs x : hk_network_call (hkn N) Ps w b bs x = network_call N Ps w b bs x.
Proof.
rewrite /NnNets.hk_network_call /Nn.network_call /=; congr bind.
elim: (n_blocks N) Ps x => [|K Ks IH] [|P Ps] x //=.
rewrite [hk_block_call _ _ _ _ _ _ _ _ _ _ _](_ : _ = block_call conj gdim csize gperm cperm act tenth K P bs x) //.
by case: (block_call _ _ _ _ _ _ _ _ _ _ _) => //= y; exact: IH.
Qed.
Fixpoint chain (n : nat) (Ks : seq (block R)) : bool :=
  if Ks is K :: Ks' then (l_in (b_lin K) == n) && chain (sz (b_rep K)) Ks' else true.
Lemma chain_blocks cs i a l Ks : mk_blocks cs i a l = Ok Ks ->
  [/\ chain (sz a) Ks, map (@b_rep R) Ks = l & forall K, List.In K Ks -> exists2 a', (exists c, mk_block a' (b_rep K) c = Ok K) & True].
Proof.
elim: l i a Ks => [|r l IH] i a Ks /=; first by case=> <-.
case EB: (mk_block a r (cs i)) => [K|] //=; case EK: (mk_blocks _ _ _ _) => [Ks'|] //= [<-] /=.
have [C1 C2 C3] := IH _ _ _ EK.
have [Er Ei] : b_rep K = r /\ l_in (b_lin K) = sz a.
  move: EB; rewrite /Nn.mk_block; case: (bind (gated _ _ _ _ _ _) _) => //= g; case EL: (mk_linear a g) => [L|] //=.
  case: (mk_bilinear _ _ _ _ _ _ _) => //= B [<-] /=; split=> //; move: EL; rewrite /Nn.mk_linear.
  case Ea: (size_py _ _ a) => //=; case: (size_py _ _ g) => //= ?; case: (tr _ _ _ _ a) => //= t; case: (mul _ _ _ _ _) => //= W.
  by do 2!case: (projector _ _ _ _ _ _ _ _ _ _ _ _ _ _) => //= ?; case=> <-; exact: size_pyE.
rewrite Er Ei eqxx C2; split=> // K' [<-|/C3 //]; by exists a => //; exists (cs i); rewrite Er.
Qed.
Lemma last_in a b L : mk_linear a b = Ok L -> l_in L = sz a.
Proof.
rewrite /Nn.mk_linear; case Ea: (size_py _ _ a) => //=; case: (size_py _ _ b) => //= ?; case: (tr _ _ _ _ a) => //= t; case: (mul _ _ _ _ _) => //= W.
by do 2!case: (projector _ _ _ _ _ _ _ _ _ _ _ _ _ _) => //= ?; case=> <-; exact: size_pyE.
Qed.
Lemma flax_call cs a b l N Ps w c bs x : mk_network cs a b l = Ok N -> size Ps = size (n_blocks N) ->
  flax_network_call (fln N) Ps w c (sz a) bs x = network_call N Ps w c bs x.
Proof.
rewrite /Nn.mk_network; case EK: (mk_blocks _ _ _ _) => [Ks|] //=; case EL: (mk_linear _ _) => [L|] //= [<-] /= SP.
have [C E _] := chain_blocks EK; have Ei := last_in EL.
rewrite /NnNets.flax_network_call /Nn.network_call /=.
have {}Ei : l_in L = last (sz a) [seq sz (b_rep K) | K <- Ks] by rewrite Ei -E (map_comp sz (@b_rep R)) last_map.
elim: Ks Ps x (sz a) SP C Ei {EK E} => [|K Ks IH] [|P Ps] x n //= => [_ _ <- //|[SP] /andP[/eqP En C] Ei].
rewrite -En [flax_block_call _ _ _ _ _ _ _ _ _ _ _ _](_ : _ = block_call conj gdim csize gperm cperm act tenth K P bs x) //.
by case: (block_call _ _ _ _ _ _ _ _ _ _ _) => //= y; exact: IH.
Qed.

(** *** pytorch *)
Section O.
Variable g : gid.
Local Notation wfr := (wfr gdim csize le (pred1 g)).
Hypothesis O : total_order_on (key gdim csize le (pred1 g)) le.
Lemma gate_loop_lt ch p ks i n idx idx' : gate_loop gdim csize gperm cperm ch p ks i n idx = Ok idx' ->
  all (fun v => v < ch + n)%N idx -> all (fun v => v < ch + n + count (needs_gate gperm cperm) ks)%N idx'.
Proof.
elim: ks i n idx => [|k ks IH] i n idx /=; first by case=> <-; rewrite addn0.
case: (needs_gate _ _ k) => /= [|E H]; last by rewrite add0n; exact: IH E H.
rewrite /set_at; case: ifP => //= _ E H; rewrite addnA -(addnA ch) addn1; apply: (IH _ _ _ E).
apply/(all_nthP 0%N) => j; rewrite size_mkseq => Hj; rewrite nth_mkseq //; case: ifP => _; first by rewrite addnS.
by rewrite addnS ltnS ltnW //; exact: (all_nthP 0%N H).
Qed.
Lemma gate_lt r l : gate_indices gdim csize gperm cperm r = Ok (IntIdx l) -> all (fun v => v < sz r + gates gperm cperm r)%N l.
Proof.
have A n m : all (fun v => v < n + m)%N (arange n).
  by apply/allP => v; rewrite mem_iota => /andP[_ H]; rewrite (leq_trans H) ?leq_addr.
rewrite /gate_indices; case: ifP => //= _; case Er: (size_py _ _ r) => //=; rewrite (size_pyE Er) {Er}.
case: r => // [d p|d p|d p] /=; first by case E: (gate_loop _ _ _ _ _ _ _ _ _ _) => [l'|] //= [<-]; have := gate_loop_lt E; rewrite addn0; apply; apply: sub_all (A _ 0%N) => v; rewrite addn0.
  by case: ifP => // _ [<-].
by case: ifP => // _ [<-].
Qed.
Local Notation gated_call := (gated_call gdim csize gperm cperm act).
Lemma torch_gated r bs m v : (sz r + gates gperm cperm r)%N = m ->
  outcome id (gated_call r bs m v) (torch_gated_call gdim csize gperm cperm act r bs m v).
Proof.
move=> Em; rewrite /Nn.gated_call /torch_gated_call; case: ifP => //= _.
case E: (gate_indices _ _ _ _ r) => [[l|l]|] //=; have := gate_lt E; rewrite Em => H; rewrite H /=.
case: ifP => //= /negbT; rewrite negb_or negbK => /andP[_ /eqP Sl].
apply: (@eq_from_nth _ 0); rewrite !size_mkseq // => i Hi; rewrite !nth_mkseq //; congr (act (nth 0 v (_ + _)) * _).
have n0 : (0 < sz r)%N by case: (sz r) Hi => //; rewrite muln0.
have := all_nthP 0%N H (i %% sz r)%N; rewrite Sl ltn_mod n0 => /(_ isT) Hl.
by rewrite (minn_idPl _) //; case: (m) Hl.
Qed.
Lemma torch_call cs a b l N Ps w c bs x : all wfr l -> mk_network cs a b l = Ok N ->
  outcome id (network_call N Ps w c bs x) (torch_network_call (tn N) Ps w c bs x).
Proof.
move=> Wl; rewrite /Nn.mk_network; case EK: (mk_blocks _ _ _ _) => [Ks|] //=; case: (mk_linear _ _) => [L|] //= [<-] /=.
have [_ E C] := chain_blocks EK; rewrite /NnNets.torch_network_call /Nn.network_call /=.
have {Wl E EK} : forall K, List.In K Ks -> (sz (b_rep K) + gates gperm cperm (b_rep K))%N = l_out (b_lin K).
  move=> K HK; have [a' [ch EB] _] := C K HK.
  have Wr : wfr (b_rep K).
    by apply: (allP Wl); rewrite -E; elim: (Ks) HK => //= K' Ks' IH [->|/IH H]; rewrite inE ?eqxx // H orbT.
  have [r' Eg [_ <- _]] := @gated_rho R conj sinv linv crho gdim csize le gperm cperm g (b_rep K) O Wr.
  move: EB; rewrite /Nn.mk_block Eg /=; case EL: (mk_linear a' r') => [L'|] //=.
  case: (mk_bilinear _ _ _ _ _ _ _) => //= B EB; have -> : b_lin K = L' by case: EB => {1}<-.
  move: EL; rewrite /Nn.mk_linear; case: (size_py _ _ a') => //= ?; case Er: (size_py _ _ r') => //=; case: (tr _ _ _ _ a') => //= t.
  case: (mul _ _ _ _ _) => //= W; by do 2!case: (projector _ _ _ _ _ _ _ _ _ _ _ _ _ _) => //= ?; case=> <-; rewrite (size_pyE Er).
have TL y : outcome id (linear_call conj L w c bs y) (torch_linear_call conj (tl L) w c bs y).
  by rewrite [torch_linear_call _ _ _ _ _ _](_ : _ = linear_call conj L w c bs y) //; case: (linear_call _ _ _ _ _ _).
elim: Ks Ps x {C} => [|K Ks IH] [|P Ps] x HK //=.
rewrite /block_call /torch_block_call /=.
rewrite [torch_linear_call _ _ _ _ _ _](_ : _ = linear_call conj (b_lin K) (p_w P) (p_b P) bs x) //.
case: (linear_call _ _ _ _ _ _) => //= lin; case: (bilinear_call _ _ _ _ _ _ _) => //= bil.
have := torch_gated bs (vadd bil lin) (HK K (or_introl erefl)).
case: (gated_call _ _ _ _) => [y|e]; case: (torch_gated_call _ _ _ _ _ _ _ _ _) => //= y'.
by move=> ->; apply: IH => K' H; apply: HK; right.
Qed.

End O.

(** ** EMLP *)
Local Notation emlp := (emlp conj sinv linv crho cdrho gdim gorth csize le gperm cperm gens lies svd big krylov).
Local Notation flax_emlp := (flax_emlp conj sinv linv crho cdrho gdim gorth csize le gperm cperm gens lies svd big krylov).
Local Notation hk_emlp := (hk_emlp conj sinv linv crho cdrho gdim gorth csize le gperm cperm gens lies svd big krylov).
Local Notation torch_emlp := (torch_emlp conj sinv linv crho cdrho gdim gorth csize le gperm cperm gens lies svd big krylov).
Theorem nets g fuel draws cs a b ch n :
  match emlp fuel draws cs a b g ch n with
  | Some (Ok N) => exists Nf Nh Nt,
      [/\ flax_emlp fuel draws cs a b g ch n = Some (Ok Nf), hk_emlp fuel draws cs a b g ch n = Some (Ok Nh),
          torch_emlp fuel draws cs a b g ch n = Some (Ok Nt) &
      forall rin Ps w c bs x, call gdim gorth csize le a (Some g) = Ok rin -> size Ps = size (n_blocks N) ->
        [/\ flax_network_call Nf Ps w c (sz rin) bs x = network_call N Ps w c bs x,
            hk_network_call Nh Ps w c bs x = network_call N Ps w c bs x &
            forall l, total_order_on (key gdim csize le (pred1 g)) le ->
              middle_layers gdim gorth csize le fuel draws g ch n = Some (Ok l) -> all (wfr gdim csize le (pred1 g)) l ->
              outcome id (network_call N Ps w c bs x) (torch_network_call Nt Ps w c bs x)]]
  | Some (Err e) => [/\ flax_emlp fuel draws cs a b g ch n = Some (Err e), torch_emlp fuel draws cs a b g ch n = Some (Err e) &
      exists e', hk_emlp fuel draws cs a b g ch n = Some (Err e')]
  | None => [/\ flax_emlp fuel draws cs a b g ch n = None, torch_emlp fuel draws cs a b g ch n = None &
      hk_emlp fuel draws cs a b g ch n = None]
  end.
Proof.
rewrite /Nn.emlp /NnNets.flax_emlp /NnNets.hk_emlp /NnNets.torch_emlp /emlp_with.
case: (call _ _ _ _ a _) => [ra|e]; last by split=> //; exists e.
case: (call _ _ _ _ b _) => [rb|e]; last by split=> //; exists e.
case: (middle_layers _ _ _ _ _ _ _ _ _) => [[l|e]|] //; last by split=> //; exists e.
rewrite flax_net torch_net; have := hk_net cs ra rb l; case EN: (mk_network cs ra rb l) => [N|e] /=.
  case: (mk_hk_network _ _ _ _) => //= _ ->; do 3!eexists; split=> // rin Ps w c bs x [<-] SP.
  split; [exact: flax_call EN SP | exact: hk_call | by move=> _ O [<-] W; exact: (torch_call O _ _ _ _ _ W EN)].
by case: (mk_hk_network _ _ _ _) => //= e' _; split=> //; exists e'.
Qed.
End B.

(** ** MLP *)
Section M.
Variable R : comRingType.
Variable act : R -> R.
Lemma dense_ok bs n m (w b x : seq R) : size w = (n * m)%N -> size b = m -> size x = (bs * n)%N ->
  exists2 y, dense bs n m w b x = Ok y & size y = (bs * m)%N.
Proof.
move=> h1 h2 h3; rewrite /dense h1 h2 h3 !eqxx /=; eexists; first by [].
by rewrite size_mkseq size_mkseq.
Qed.
Lemma mlp_ok n ms (Ps : seq (seq R * seq R)) bs x : (0 < size ms)%N -> mlp_fits n ms Ps -> size x = (bs * n)%N ->
  exists2 y, mlp_call act (@dense R) n ms Ps bs x = Ok y & size y = (bs * last n ms)%N.
Proof.
elim: ms n Ps x => [//|m ms IH] n [|P Ps] x _ //= [H1 H2 H] Sx.
have [y Ey Sy] := dense_ok H1 H2 Sx; case: ms IH H => [|m' ms] IH H; first by exists y.
by rewrite Ey /=; apply: IH => //; rewrite size_map.
Qed.
Lemma mlp_bad n ms (Ps : seq (seq R * seq R)) bs x : size x <> (bs * n)%N -> mlp_call act (@dense R) n ms Ps bs x = Err TypeError.
Proof.
move=> /eqP/negbTE S; case: ms Ps => [|m [|m' ms]] [|P Ps] //=; by rewrite /dense S.
Qed.
Lemma tr2_tr2 n m (w : seq R) : size w = (n * m)%N -> tr2 0 m n (tr2 0 n m w) = w.
Proof.
move=> S; apply: (@eq_from_nth _ 0); rewrite size_mkseq ?S // => i Hi; rewrite nth_mkseq //.
have m0 : (0 < m)%N by case: (m) Hi; rewrite ?muln0.
have n0 : (0 < n)%N by case: (n) Hi.
have Hd : (i %/ m < n)%N by rewrite ltn_divLR.
have Hm : (i %% m < m)%N by rewrite ltn_mod.
rewrite nth_mkseq; last by nia.
by rewrite divnMDl // modnMDl (divn_small Hd) (modn_small Hd) addn0 -divn_eq.
Qed.
Lemma torch_mlp n ms (Ps : seq (seq R * seq R)) bs x : mlp_fits n ms Ps ->
  outcome id (mlp_call act (@dense R) n ms Ps bs x) (mlp_call act (@torch_dense R) n ms (transposed n ms Ps) bs x).
Proof.
elim: ms n Ps x => [|m ms IH] n [|P Ps] x //= [H1 H2 H].
have D : outcome id (dense bs n m P.1 P.2 x) (torch_dense bs n m (tr2 0 n m P.1) P.2 x).
  by rewrite /dense /torch_dense H1 H2 size_mkseq mulnC !eqxx !andbT tr2_tr2 //; case: ifP.
case: ms IH H => [|m' ms] IH H //; move: D.
by case: (dense _ _ _ _ _ _) => [y|e]; case: (torch_dense _ _ _ _ _ _) => //= y' ->; apply: IH.
Qed.
Theorem mlp_rows n m k (P Q : seq R * seq R) bs x : mlp_fits n [:: m; k] [:: P; Q] -> size x = (bs * n)%N ->
  exists2 y, objax_mlp_call act [:: n; m; k] [:: P; Q] bs x = Ok y &
  forall b o, (b < bs)%N -> (o < k)%N ->
    let pre j := \sum_(0 <= i < n) nth 0 x (b * n + i) * nth 0 P.1 (i * m + j) + nth 0 P.2 j in
    nth 0 y (b * k + o) = \sum_(0 <= j < m) (act (pre j) * pre j) * nth 0 Q.1 (j * k + o) + nth 0 Q.2 o.
Proof.
case=> h1 h2 [h3 h4 _] Sx.
have E p q (w c z : seq R) : size w = (p * q)%N -> size c = q -> size z = (bs * p)%N ->
    exists2 y, dense bs p q w c z = Ok y & size y = (bs * q)%N /\
      forall b o, (b < bs)%N -> (o < q)%N -> nth 0 y (b * q + o) = \sum_(0 <= i < p) nth 0 z (b * p + i) * nth 0 w (i * q + o) + nth 0 c o.
  move=> e1 e2 e3; rewrite /dense e1 e2 e3 !eqxx /=; eexists; first by []. 
  split=> [|b o Hb Ho]; first by rewrite size_mkseq size_mkseq.
  have L : (b * q + o < bs * q)%N by nia.
  rewrite nth_mkseq; last by rewrite size_mkseq.
  rewrite nth_mkseq // modnMDl modn_small // divnMDl ?divn_small ?addn0; [|lia..].
  by rewrite rsumE.
have [y Ey [Sy Hy]] := E _ _ _ _ _ h1 h2 Sx.
have Sz : size (swish act y) = (bs * m)%N by rewrite size_map.
have [z Ez [_ Hz]] := E _ _ _ _ _ h3 h4 Sz; exists z; first by rewrite /objax_mlp_call /= Ey /=.
move=> b o Hb Ho pre; rewrite Hz //; congr (_ + _); apply: eq_big_nat => j /andP[_ Hj]; congr (_ * _).
by rewrite (nth_map 0) ?Hy // Sy; nia.
Qed.
Lemma torch_bad n ms (Ps : seq (seq R * seq R)) bs x : (0 < size ms)%N -> (0 < size Ps)%N -> size x <> (bs * n)%N ->
  mlp_call act (@torch_dense R) n ms Ps bs x = Err RuntimeError.
Proof. by move=> + + /eqP/negbTE S; case: ms Ps => [|m [|m' ms]] [|P Ps] //=; rewrite /torch_dense S. Qed.
Lemma transposed_fits n ms (Ps : seq (seq R * seq R)) : mlp_fits n ms Ps ->
  size (transposed n ms Ps) = size ms.
Proof. by elim: ms n Ps => [|m ms IH] n [|P Ps] //= [_ _ /IH ->]. Qed.

Theorem baseline gdim gorth csize le g a b ra rb ch num :
  call gdim gorth csize le a (Some g) = Ok ra -> call gdim gorth csize le b (Some g) = Ok rb ->
  is_ok (size_py gdim csize ra) -> is_ok (size_py gdim csize rb) ->
  let n := rsize gdim csize ra in let m := rsize gdim csize rb in let ms := rcons (nseq num ch) m in
  [/\ mlp gdim gorth csize le a b g ch num = Ok (n :: ms), flax_mlp gdim gorth csize le b g ch num = Ok ms &
  forall Ps, mlp_fits n ms Ps -> forall bs x,
    [/\ size x = (bs * n)%N -> exists2 y, objax_mlp_call act (n :: ms) Ps bs x = Ok y & size y = (bs * m)%N,
        size x <> (bs * n)%N -> objax_mlp_call act (n :: ms) Ps bs x = Err TypeError /\
                                torch_mlp_call act (n :: ms) (transposed n ms Ps) bs x = Err RuntimeError,
        flax_mlp_call act ms n Ps bs x = objax_mlp_call act (n :: ms) Ps bs x,
        outcome id (objax_mlp_call act (n :: ms) Ps bs x) (torch_mlp_call act (n :: ms) (transposed n ms Ps) bs x) &
        mlph_call act (n :: ms) Ps bs x = rmap (fun y => \sum_(0 <= i < size y) nth 0 y i) (objax_mlp_call act (n :: ms) Ps bs x)]].
Proof.
move=> Ea Eb; case Sa: (size_py _ _ ra) => [na|] //; case Sb: (size_py _ _ rb) => [nb|] // _ _ n m ms.
split; rewrite /mlp /flax_mlp ?Ea ?Eb /= ?Sa ?Sb /= ?(size_pyE Sa) ?(size_pyE Sb) // => Ps HP bs x.
have S0 : (0 < size ms)%N by rewrite size_rcons.
split=> [Sx|Sx|//||].
- have [y E1 E2] := mlp_ok S0 HP Sx; exists y => //; by rewrite E2 last_rcons.
- split; first exact: mlp_bad.
  by apply: torch_bad => //; rewrite transposed_fits.
- exact: torch_mlp.
rewrite /mlph_call; case: (objax_mlp_call _ _ _ _ _) => //= y; congr Ok.
by elim: y => [|z y IH]; [rewrite big_nil | rewrite /= big_nat_recl // IH].
Qed.
End M.

(** ** Standardize *)
Section S.
Variable R : comRingType.
Variable div : R -> R -> R.
Theorem standardize_without f n m stats training bs x :
  [/\ ~~ is_ok (standardize div (WithoutTraining f) n m stats training bs x),
      size stats \notin [:: 2; 4]%N -> standardize div (WithoutTraining f) n m stats training bs x = Err ValueError &
      size stats \in [:: 2; 4]%N -> all (broadcasts n) stats ->
        standardize div (WithoutTraining f) n m stats training bs x = Err TypeError].
Proof.
have B (op : R -> R -> R) y s : (exists z, bcast op bs n y s = Ok z) \/ bcast op bs n y s = Err TypeError.
  case: s => [c|v] /=; first by left; eexists.
  by case: (size v == n); [left; eexists | case: (size v == 1%N); [left; eexists | right]].
have H2 mu s : standardize2 div (call_training (WithoutTraining f)) n mu s training bs x = Err TypeError.
  rewrite /standardize2; case: (B (fun a b => a - b) x mu) => [[y ->]|-> //] /=.
  by case: (B div y s) => [[z ->]|-> //].
case: stats => [|a [|b [|c [|d [|e l]]]]]; split=> //; rewrite /standardize /standardize4 ?H2 //; by case: (d).
Qed.
End S.
