(** * NnNet: EMLPBlock and the whole network. *)
From mathcomp Require Import all_ssreflect all_algebra.
From mathcomp Require Import zify.
From Verif Require Import Np NpLemmas Spec SpecLemmas LinOp LinOpSpec LinOpProofs LinOpInv Rep RepSpec RepMat RepWf RepFun RepAlg RepMul RepOps RhoProofs RepThm RepThm1 Solver SolSpec SolAlg Nn NnSpec NnLin NnGate NnBil.
Set Implicit Arguments.
Unset Strict Implicit.
Unset Printing Implicit Defensive.
Import GRing.Theory.
Local Open Scope ring_scope.

Section N.
Variable R : comRingType.
Variables (conj sinv : R -> R) (linv : nat -> seq R -> seq R).
Variables (crho cdrho : nat -> option gid -> gel R -> res (op R)).
Variables (gdim : gid -> nat) (gorth : gid -> bool) (csize : nat -> gid -> nat) (le : rel rep) (g : gid).
Variables (gperm : gid -> bool) (cperm : nat -> bool).
Variables (gens lies : gid -> seq (op R)).
Variables (svd : nat -> nat -> seq R -> seq R * seq R * seq R) (big : pred R).
Variable krylov : op R -> res (darr R).
Variables (act : R -> R) (tenth : R).
Variable E : gel R -> Prop.
Local Notation gs := (pred1 g).
Local Notation sz := (rsize gdim csize).
Local Notation key := (key gdim csize le gs).
Local Notation wfr := (wfr gdim csize le gs).
Local Notation group_elem := (group_elem conj sinv linv crho gdim csize gs).
Local Notation orth_elem := (orth_elem crho gdim csize gorth gs).
Local Notation rM := (rM sinv linv crho).
Local Notation isperm := (isperm gperm cperm).
Local Notation gated := (gated gdim csize le gperm cperm).
Local Notation equivariant := (equivariant conj sinv linv crho gdim csize E).
Local Notation acts_by_permutations := (acts_by_permutations conj sinv linv crho gdim csize E).
Local Notation solved := (solved conj sinv linv crho cdrho gdim csize le gens lies svd big krylov E).
Local Notation mk_linear := (mk_linear conj sinv linv crho cdrho gdim gorth csize le gens lies svd big krylov).
Local Notation mk_block := (mk_block conj sinv linv crho cdrho gdim gorth csize le gperm cperm gens lies svd big krylov).
Local Notation mk_blocks := (mk_blocks conj sinv linv crho cdrho gdim gorth csize le gperm cperm gens lies svd big krylov).
Local Notation mk_network := (mk_network conj sinv linv crho cdrho gdim gorth csize le gperm cperm gens lies svd big krylov).
Local Notation block_call := (block_call conj gdim csize gperm cperm act tenth).
Local Notation blocks_call := (blocks_call conj gdim csize gperm cperm act tenth).
Local Notation network_call := (network_call conj gdim csize gperm cperm act tenth).
Hypothesis O : total_order_on key le.
Hypothesis HE : forall M, E M -> group_elem M.
Hypothesis HO : forall M, E M -> orth_elem M.
Hypothesis HS : forall r, wfr r -> solved r.

Lemma equivariant_add a b f h : wfr a -> wfr b -> equivariant a b f -> equivariant a b h ->
  equivariant a b (fun bs X => do y <- f bs X; do z <- h bs X; Ok (vadd z y)).
Proof.
move=> Wa Wb Hf Hh bs Ms X X' HM HX.
have [Y [Y' [E1 E2 HY]]] := Hf bs Ms X X' HM HX; have [Z [Z' [E3 E4 HZ]]] := Hh bs Ms X X' HM HX.
exists (vadd Z Y), (vadd Z' Y'); rewrite E1 E2 E3 E4; split=> //.
have [y1 y2 Hy] := proj1 (acts_rowsE HE _ _ Wb HM) HY; have [z1 z2 Hz] := proj1 (acts_rowsE HE _ _ Wb HM) HZ.
apply/(acts_rowsE HE _ _ Wb HM).
split; rewrite ?size_map ?size_zip ?y1 ?y2 ?z1 ?z2 ?minnn // => r i Hr Hi.
have L : (r * sz b + i < bs * sz b)%N by rewrite idx_lt.
have V (A B : seq R) n j : size A = n -> size B = n -> (j < n)%N -> nth 0 (vadd A B) j = nth 0 A j + nth 0 B j.
  by move=> SA SB Hj; rewrite (nth_map (0, 0)) ?nth_zip ?size_zip ?SA ?SB ?minnn.
rewrite {1}/rv (V _ _ _ _ z2 y2) // -!/(rv _ _ _ _) Hy // Hz // /mv -big_split /=.
have [b1 b2] := rM_sqn HE Wb (HM r Hr); rewrite b2; apply: eq_sum => j Hj.
by rewrite -mulrDr /rv (V _ _ _ _ z1 y1) ?idx_lt.
Qed.

(** a canonical sum with truthful permutation flags *)
Definition hidden (r : rep) : Prop :=
  exists d, [/\ r = RSum d (iota 0 (sz r)), wfr r &
    forall k, k \in keys d -> isperm k -> acts_by_permutations k].

Lemma linear_ok a b : wfr a -> wfr b -> exists2 L, mk_linear a b = Ok L &
  [/\ l_in L = sz a, l_out L = sz b &
   forall w c, size w = (l_out L * l_in L)%N -> size c = l_out L -> equivariant a b (linear_call conj L w c)].
Proof.
move=> Wa Wb; have [r [Er _ _ Wr _]] := rshift_ok gorth O Wa Wb.
have [L EL [h1 h2 H]] := linear_thm O HE HO Wa Wb Er (HS Wr) (HS Wb).
exists L => //; split=> // w c; rewrite h1 h2 => Sw Sc.
by have [W' [c' [_ _ HH _]]] := H w c Sw Sc.
Qed.

Lemma block_ok rin r choice : wfr rin -> hidden r -> choice_ok choice ->
  exists2 K, mk_block rin r choice = Ok K &
  l_in (b_lin K) = sz rin /\
  forall P, fits K P -> equivariant rin r (block_call K P).
Proof.
move=> Win [d [Er Wr HP]] HC.
have [r' Eg [Wr' Sr' _ Sm]] := gated_ok (R := R) (atom := fun k => fid R (sz k)) gperm cperm O (fun k _ => Logic.conj erefl erefl) Wr.
have [L EL [h1 h2 H]] := linear_ok Win Wr'.
have : exists d' p', r' = RSum d' p'.
  by move: Sm; rewrite Er; case: (r') => // d' p' _; exists d', p'.
case=> d' [p' E1].
have [B [dW [pW [EB _ F HB _]]]] := bilinear_thm tenth O HE HO (eq_ind _ wfr Wr' _ E1) (eq_ind _ wfr Wr' _ E1) HC.
rewrite -E1 in EB HB.
exists (Block L B r); first by rewrite /Nn.mk_block Eg bindOk /= EL bindOk EB.
split=> // P [/= f1 f2 f3].
have [_ Heq] := HB _ f3.
have HL := H _ _ f1 f2.
have Hid : equivariant r' r' (fun bs X => Ok X) by move=> bs Ms X X' _ HX; exists X, X'.
have HA := equivariant_add Wr' Wr' Hid Heq.
have HG : equivariant r' r (fun bs => gated_call gdim csize gperm cperm act r bs (sz r')).
  rewrite [in X in equivariant _ X]Er [in X in equivariant _ _ X]Er.
  by refine (gated_call_equivariant act O HE (d := d) (p := iota 0 (sz r)) _ _ _ HP); rewrite -Er.
have := equivariant_comp HL (equivariant_comp HA HG).
move=> HH bs Ms X X' HM HX; have [Y [Y' [e1 e2 e3]]] := HH bs Ms X X' HM HX.
exists Y, Y'; rewrite /Nn.block_call /= h2; split=> //.
  move: e1; case: (linear_call _ _ _ _ _ _) => //= y; by case: (bilinear_call _ _ _ _ _ _).
move: e2; case: (linear_call _ _ _ _ _ _) => //= y; by case: (bilinear_call _ _ _ _ _ _).
Qed.

Lemma blocks_ok choices l : (forall i, choice_ok (choices i)) -> forall i rin, wfr rin -> (forall r, List.In r l -> hidden r) ->
  exists2 Ks, mk_blocks choices i rin l = Ok Ks &
  wfr (last rin l) /\ forall Ps, fits_all Ks Ps -> equivariant rin (last rin l) (blocks_call Ks Ps).
Proof.
move=> HC; elim: l => [|r l IH] i rin Win Hl /=.
  by exists [::] => //; split=> // -[|//] _ bs Ms X X' HM HX; exists X, X'.
have Hr : hidden r by apply: Hl; left.
have [K EK [_ HK]] := block_ok Win Hr (HC i).
have Wr : wfr r by case: Hr => d [].
have [|Ks EKs [Wl HKs]] := IH i.+1 r Wr; first by move=> r' Hr'; apply: Hl; right.
exists (K :: Ks); first by rewrite EK bindOk EKs.
split=> // -[//|P Ps] [F1 F2]; exact: equivariant_comp (HK P F1) (HKs Ps F2).
Qed.

Theorem network_ok choices rin rout l : wfr rin -> wfr rout -> (forall r, List.In r l -> hidden r) ->
  (forall i, choice_ok (choices i)) ->
  exists2 N, mk_network choices rin rout l = Ok N &
  forall Ps w c, fits_all (n_blocks N) Ps -> size w = (l_out (n_last N) * l_in (n_last N))%N -> size c = l_out (n_last N) ->
    equivariant rin rout (network_call N Ps w c).
Proof.
move=> Win Wout Hl HC; have [Ks EK [Wl HK]] := blocks_ok HC 0%N Win Hl.
have [L EL [h1 h2 H]] := linear_ok Wl Wout.
exists (Network Ks L); first by rewrite /Nn.mk_network EK bindOk EL.
move=> Ps w c HF Sw Sc; exact: equivariant_comp (HK Ps HF) (H w c Sw Sc).
Qed.
End N.
