(** * PropNets: C62, C63 and C64, whole networks in the four back ends, MLP and Standardize. *)
From Coq Require Import Reals.
From mathcomp Require Import all_ssreflect all_algebra.
From Verif Require Import Np Spec LinOp LinOpSpec Rep RepSpec RepWf RepCode Solver SolSpec Rstruct Expm GrpSpec ExRep ExGrp ExSol.
From Verif Require Import Nn NnSpec Data DataSpec DataStd ExNn NnNets NnNetsSpec NnNetsThm NnNetsReal PropNn2.
Set Implicit Arguments.
Unset Strict Implicit.
Unset Printing Implicit Defensive.
Import GRing.Theory.
Local Open Scope ring_scope.

(** C62.  For every ring, group, ch and all random draws the constructors of EMLP of the four back
    ends succeed together and do not end together; objax, flax and pytorch raise the same exception.
    With the same parameters (of any sizes) the flax network on inputs of width rep_in.size() and
    the haiku network give the result of the objax network, an exception included; the pytorch network gives
    the same value and raises when the others raise. *)
Section Nets.
Variable R : comRingType.
Variables (conj sinv : R -> R) (linv : nat -> seq R -> seq R).
Variables (crho cdrho : nat -> option gid -> gel R -> res (op R)).
Variables (gdim : gid -> nat) (gorth : gid -> bool) (csize : nat -> gid -> nat) (le : rel rep).
Variables (gperm : gid -> bool) (cperm : nat -> bool).
Variables (gens lies : gid -> seq (op R)).
Variables (svd : nat -> nat -> seq R -> seq R * seq R * seq R) (big : pred R).
Variable krylov : op R -> res (darr R).
Variables (act : R -> R) (tenth : R).
Local Notation emlp := (emlp conj sinv linv crho cdrho gdim gorth csize le gperm cperm gens lies svd big krylov).
Local Notation flax_emlp := (flax_emlp conj sinv linv crho cdrho gdim gorth csize le gperm cperm gens lies svd big krylov).
Local Notation hk_emlp := (hk_emlp conj sinv linv crho cdrho gdim gorth csize le gperm cperm gens lies svd big krylov).
Local Notation torch_emlp := (torch_emlp conj sinv linv crho cdrho gdim gorth csize le gperm cperm gens lies svd big krylov).
Local Notation network_call := (network_call conj gdim csize gperm cperm act tenth).
Local Notation flax_network_call := (flax_network_call conj gdim csize gperm cperm act tenth).
Local Notation hk_network_call := (hk_network_call conj gdim csize gperm cperm act tenth).
Local Notation torch_network_call := (torch_network_call conj gdim csize gperm cperm act tenth).
Theorem C62_networks g fuel draws cs a b ch n :
  match emlp fuel draws cs a b g ch n with
  | Some (Ok N) => exists Nf Nh Nt,
      [/\ flax_emlp fuel draws cs a b g ch n = Some (Ok Nf), hk_emlp fuel draws cs a b g ch n = Some (Ok Nh),
          torch_emlp fuel draws cs a b g ch n = Some (Ok Nt) &
      forall rin Ps w c bs x, call gdim gorth csize le a (Some g) = Ok rin -> size Ps = size (n_blocks N) ->
        [/\ flax_network_call Nf Ps w c (rsize gdim csize rin) bs x = network_call N Ps w c bs x,
            hk_network_call Nh Ps w c bs x = network_call N Ps w c bs x &
            forall l, total_order_on (key gdim csize le (pred1 g)) le ->
              middle_layers gdim gorth csize le fuel draws g ch n = Some (Ok l) -> all (wfr gdim csize le (pred1 g)) l ->
              outcome id (network_call N Ps w c bs x) (torch_network_call Nt Ps w c bs x)]]
  | Some (Err e) => [/\ flax_emlp fuel draws cs a b g ch n = Some (Err e), torch_emlp fuel draws cs a b g ch n = Some (Err e) &
      exists e', hk_emlp fuel draws cs a b g ch n = Some (Err e')]
  | None => [/\ flax_emlp fuel draws cs a b g ch n = None, torch_emlp fuel draws cs a b g ch n = None &
      hk_emlp fuel draws cs a b g ch n = None]
  end.
Proof. exact: nets. Qed.
End Nets.
Print Assumptions C62_networks.

(** with the hypotheses of C46 all four networks exist and commute with the group, for all parameters *)
Section Real.
Variables (sinv : RR -> RR) (linv : nat -> seq RR -> seq RR).
Variables (crho cdrho : nat -> option gid -> gel RR -> res (op RR)).
Variables (gdim : gid -> nat) (gorth : gid -> bool) (csize : nat -> gid -> nat) (le : rel rep) (g : gid).
Variables (gperm : gid -> bool) (cperm : nat -> bool).
Variables (gens lies : gid -> seq (op RR)).
Variables (svd : nat -> nat -> seq RR -> seq RR * seq RR * seq RR) (big : pred RR).
Variable krylov : op RR -> res (darr RR).
Variables (act : RR -> RR) (tenth : RR).
Local Notation wfr := (wfr gdim csize le (pred1 g)).
Local Notation emlp := (emlp idR sinv linv crho cdrho gdim gorth csize le gperm cperm gens lies svd big krylov).
Local Notation flax_emlp := (flax_emlp idR sinv linv crho cdrho gdim gorth csize le gperm cperm gens lies svd big krylov).
Local Notation hk_emlp := (hk_emlp idR sinv linv crho cdrho gdim gorth csize le gperm cperm gens lies svd big krylov).
Local Notation torch_emlp := (torch_emlp idR sinv linv crho cdrho gdim gorth csize le gperm cperm gens lies svd big krylov).
Local Notation network_call := (network_call idR gdim csize gperm cperm act tenth).
Local Notation flax_network_call := (flax_network_call idR gdim csize gperm cperm act tenth).
Local Notation hk_network_call := (hk_network_call idR gdim csize gperm cperm act tenth).
Local Notation torch_network_call := (torch_network_call idR gdim csize gperm cperm act tenth).
Theorem C62_equivariant fuel draws choices rep_in rep_out rin rout ch n :
  let E := element sinv linv gdim gens lies g in
  let equivariant := equivariant idR sinv linv crho gdim csize E rin rout in
  linv_ok linv -> customs_ok sinv linv crho cdrho gdim csize (pred1 g) ->
  generators_ok idR gdim sinv linv crho cdrho csize (pred1 g) gens lies -> total_order_on (key gdim csize le (pred1 g)) le ->
  (forall M, E M -> orth_elem crho gdim csize gorth (pred1 g) M) ->
  (forall r c, wfr r -> c \in systems gdim csize r ->
     solver_ok idR gdim sinv linv crho cdrho csize gens lies svd big krylov c) ->
  (forall k, wfr k -> Rep.isperm gperm cperm k -> acts_by_permutations idR sinv linv crho gdim csize E k) ->
  (0 < gdim g)%N -> (forall c, (0 < csize c g)%N) -> (forall i, draw_ok (draws i)) -> (forall i, choice_ok (choices i)) ->
  call gdim gorth csize le rep_in (Some g) = Ok rin -> wfr rin ->
  call gdim gorth csize le rep_out (Some g) = Ok rout -> wfr rout ->
  chans_ok gdim gorth csize le g ch -> (widths ch <= fuel)%N ->
  exists N Nf Nh Nt,
    [/\ emlp fuel draws choices rep_in rep_out g ch n = Some (Ok N),
        flax_emlp fuel draws choices rep_in rep_out g ch n = Some (Ok Nf),
        hk_emlp fuel draws choices rep_in rep_out g ch n = Some (Ok Nh),
        torch_emlp fuel draws choices rep_in rep_out g ch n = Some (Ok Nt) &
  forall Ps w c, fits_all (n_blocks N) Ps -> size w = (l_out (n_last N) * l_in (n_last N))%N -> size c = l_out (n_last N) ->
    [/\ equivariant (network_call N Ps w c), equivariant (flax_network_call Nf Ps w c (rsize gdim csize rin)),
        equivariant (hk_network_call Nh Ps w c) & equivariant (torch_network_call Nt Ps w c)]].
Proof. by move=> E eqv h1 h2 h3 h4 h5 h6 h7; exact: nets_real. Qed.
End Real.
Print Assumptions C62_equivariant.

(** the four networks V -> V with hidden representations Scalar+V+V and uniform_rep(3) over the integers; the
    hypotheses are those of C41_example and C46_example *)
Definition Iflax := flax_emlp Iid Iid Ilinv Icr Icr zd yes zcs le_asc no no Igens Ilies Isvd Ibig Ikry.
Definition Ihk := hk_emlp Iid Iid Ilinv Icr Icr zd yes zcs le_asc no no Igens Ilies Isvd Ibig Ikry.
Definition Itorch := torch_emlp Iid Iid Ilinv Icr Icr zd yes zcs le_asc no no Igens Ilies Isvd Ibig Ikry.
Definition Ich := ChList [:: ChRep zS; ChInt 3].
Definition IPs := [:: pars 1 5 12; pars 3 5 13].
Definition isOk (r : res (seq Z0)) (y : seq Z0) : bool := if r is Ok z then z == y else false.
Example C62_example :
  if middle_layers zd yes zcs le_asc 3 zero_draws 0%N Ich 7 is Some (Ok l) then all (wfr zd zcs le_asc (pred1 0%N)) l else false.
Proof. by vm_compute. Qed.
Example C62_example_run :
  match Iemlp no 3 zero_draws one_choice zV zV 0%N Ich 7, Iflax 3 zero_draws one_choice zV zV 0%N Ich 7,
        Ihk 3 zero_draws one_choice zV zV 0%N Ich 7, Itorch 3 zero_draws one_choice zV zV 0%N Ich 7 with
  | Some (Ok N), Some (Ok Nf), Some (Ok Nh), Some (Ok Nt) =>
      [&& isOk (Inet no step N IPs [:: 1; 1; 1] [:: 1] 2 [:: 1; -1]) [:: -12%:Z; 12%:Z],
          isOk (flax_network_call Iid zd zcs no no step 1 Nf IPs [:: 1; 1; 1] [:: 1] 1 2 [:: 1; -1]) [:: -12%:Z; 12%:Z],
          isOk (hk_network_call Iid zd zcs no no step 1 Nh IPs [:: 1; 1; 1] [:: 1] 2 [:: 1; -1]) [:: -12%:Z; 12%:Z] &
          isOk (torch_network_call Iid zd zcs no no step 1 Nt IPs [:: 1; 1; 1] [:: 1] 2 [:: 1; -1]) [:: -12%:Z; 12%:Z]]
  | _, _, _, _ => false
  end.
Proof. by vm_compute. Qed.

(** C63.  The layers of MLP have the widths rep_in.size(), num_layers times ch, rep_out.size(): nothing
    else of the representations and the group is used.  With parameters of these widths objax MLP
    maps every batch of rows of length rep_in.size() to rows of length rep_out.size() and raises on every other
    array; flax and haiku compute the same on rows of that length, pytorch with the transposed matrices
    too; MLPH is the sum of all the outputs. *)
Theorem C63_mlp :
  forall (R : comRingType) (act : R -> R) (gdim : gid -> nat) (gorth : gid -> bool) (csize : nat -> gid -> nat) (le : rel rep)
    g a b ra rb ch num,
  call gdim gorth csize le a (Some g) = Ok ra -> call gdim gorth csize le b (Some g) = Ok rb ->
  is_ok (size_py gdim csize ra) -> is_ok (size_py gdim csize rb) ->
  let n := rsize gdim csize ra in let m := rsize gdim csize rb in let ms := rcons (nseq num ch) m in
  [/\ mlp gdim gorth csize le a b g ch num = Ok (n :: ms), flax_mlp gdim gorth csize le b g ch num = Ok ms &
  forall Ps, mlp_fits n ms Ps -> forall bs x,
    [/\ size x = (bs * n)%N -> exists2 y, objax_mlp_call act (n :: ms) Ps bs x = Ok y & size y = (bs * m)%N,
        size x <> (bs * n)%N -> objax_mlp_call act (n :: ms) Ps bs x = Err TypeError /\
                                torch_mlp_call act (n :: ms) (transposed n ms Ps) bs x = Err RuntimeError,
        flax_mlp_call act ms n Ps bs x = objax_mlp_call act (n :: ms) Ps bs x,
        outcome id (objax_mlp_call act (n :: ms) Ps bs x) (torch_mlp_call act (n :: ms) (transposed n ms Ps) bs x) &
        mlph_call act (n :: ms) Ps bs x = rmap (fun y => \sum_(0 <= i < size y) nth 0 y i) (objax_mlp_call act (n :: ms) Ps bs x)]].
Proof. exact: baseline. Qed.
Print Assumptions C63_mlp.
(** the layer itself, row by row: y = act(x W + b) (x W + b) for a hidden layer, x W + b for the last one *)
Theorem C63_rows :
  forall (R : comRingType) (act : R -> R) n m k (P Q : seq R * seq R) bs x, mlp_fits n [:: m; k] [:: P; Q] -> size x = (bs * n)%N ->
  exists2 y, objax_mlp_call act [:: n; m; k] [:: P; Q] bs x = Ok y &
  forall b o, (b < bs)%N -> (o < k)%N ->
    let pre j := \sum_(0 <= i < n) nth 0 x (b * n + i) * nth 0 P.1 (i * m + j) + nth 0 P.2 j in
    nth 0 y (b * k + o) = \sum_(0 <= j < m) (act (pre j) * pre j) * nth 0 Q.1 (j * k + o) + nth 0 Q.2 o.
Proof. exact: mlp_rows. Qed.
Print Assumptions C63_rows.
(** MLP is not equivariant: V -> V for {1,-1}, the constant function 1 *)
Theorem C63_symmetry_refuted :
  exists (E : gel Z0 -> Prop) Ps, [/\ mlp zd yes zcs le_asc zV zV 0%N 2 0 = Ok [:: 1; 1]%N, mlp_fits 1 [:: 1%N] Ps &
    ~ equivariant Iid Iid Ilinv Icr zd zcs E zV zV (objax_mlp_call Iid [:: 1; 1]%N Ps)].
Proof.
pose M : gel Z0 := GMat (OArr 1 1 [:: -1]).
exists (fun M' => M' = M), [:: ([:: 0], [:: 1])]; split=> // H.
have [|Y [Y' []]] := H 1%N (fun=> M) [:: 1] [:: -1] (fun _ _ => erefl).
  by split=> // -[|b] // _; exists [:: -1] => // -[|i] //; rewrite big_nat1.
move=> [<-] [<-] [_ _] /(_ 0%N isT)[D]; rewrite [X in X = _](_ : _ = Ok (1%N, 1%N, [:: -1])) // => -[<-] /(_ 0%N isT).
by rewrite big_nat1.
Qed.
Print Assumptions C63_symmetry_refuted.
Example C63_example :
  [/\ mlp zd yes zcs le_asc zV zS 0%N 2 1 = Ok [:: 1; 2; 3]%N,
      mlp_fits 1 [:: 2; 3]%N [:: ([:: 1; -1], [:: 0; 3%:Z]); ([:: 1; 0; 2%:Z; 0; 1; 5%:Z], [:: 1; 1; 1])] &
      isOk (objax_mlp_call step [:: 1; 2; 3]%N [:: ([:: 1; -1], [:: 0; 3%:Z]); ([:: 1; 0; 2%:Z; 0; 1; 5%:Z], [:: 1; 1; 1])] 2 [:: 1; 2%:Z])
        [:: 2%:Z; 3%:Z; 13%:Z; 3%:Z; 2%:Z; 10%:Z]].
Proof. by split; last vm_compute. Qed.

(** C64.  objax Standardize of a model that takes training computes
    sout*model((x-muin)/sin)+muout (with the model of C46 and statistics as in C50 it
    commutes with the group) *)
Theorem C64_objax :
  forall (F : fieldType) (conj sinv : F -> F) (linv : nat -> seq F -> seq F) (crho : nat -> option gid -> gel F -> res (op F))
    (gdim : gid -> nat) (csize : nat -> gid -> nat) (E : gel F -> Prop) rin rout f muin sin muout sout training,
  let equivariant := equivariant conj sinv linv crho gdim csize E rin rout in
  let inv := invariant_stat conj sinv linv crho gdim csize E in
  let com := commuting_stat conj sinv linv crho gdim csize E in
  equivariant f -> inv rin muin -> com rin sin -> nonzero_stat (rsize gdim csize rin) sin ->
  inv rout muout -> com rout sout -> nonzero_stat (rsize gdim csize rout) sout ->
  let st := standardize (fun a b => a / b) (objax_model f) (rsize gdim csize rin) (rsize gdim csize rout) in
  equivariant (st [:: muin; sin] training) /\ equivariant (st [:: muin; sin; muout; sout] training).
Proof.
move=> F conj sinv linv crho gdim csize E rin rout f muin sin muout sout training eqv inv com H h1 h2 h3 h4 h5 h6 st.
have := @standardize_thm F conj sinv linv crho gdim csize E rin rout (fun=> f) muin sin muout sout training H h1 h2 h3 h4 h5 h6.
by [].
Qed.
Print Assumptions C64_objax.
(** the docstring of Standardize ("wrap a given module") is false of the pytorch version: the forward of no
    module of pytorch.py takes training, so that Standardize of it raises on every input, for all
    statistics; so does objax Standardize of EMLPH, MLPH, EMLPode and MLPode *)
Theorem C64_pytorch_refuted :
  forall (R : comRingType) (div : R -> R -> R) f n m stats training bs x,
  let y := standardize div (torch_model f) n m stats training bs x in
  [/\ ~~ is_ok y, size stats \notin [:: 2; 4]%N -> y = Err ValueError &
      size stats \in [:: 2; 4]%N -> all (broadcasts n) stats -> y = Err TypeError].
Proof. by move=> *; exact: standardize_without. Qed.
Print Assumptions C64_pytorch_refuted.
Example C64_example :
  isOk (standardize (fun a _ => a) (objax_model (fun _ x => Ok x)) 1 1 [:: SNum 1; SNum 1; SNum 3%:Z; SVec [:: 2%:Z]] true 2 [:: 1; 5%:Z])
    [:: 3%:Z; 11%:Z] /\
  torch_model (R := Z0) (fun _ x => Ok x) = WithoutTraining (fun _ x => Ok x).
Proof. by split; first vm_compute. Qed.
