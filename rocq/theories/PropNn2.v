(** * PropNn2: C44 to C48, gates, hidden representations and the whole network. *)
From Coq Require Import Reals.
From mathcomp Require Import all_ssreflect all_algebra.
From Verif Require Import Np NpLemmas Spec SpecLemmas LinOp LinOpSpec Rep RepSpec RepWf RepCode RhoProofs RepThm RepThm1 Order OrderProofs Solver SolSpec Rstruct Expm GrpSpec ExRep ExGrp ExSol.
From Verif Require Import Groups GroupsFlag GroupsReal GroupsPerm.
From Verif Require Import Nn NnSpec NnLin NnGate NnBil NnNet NnUni NnThm NnBack NnGate2 ExNn.
Set Implicit Arguments.
Unset Strict Implicit.
Unset Printing Implicit Defensive.
Import GRing.Theory.
Local Open Scope ring_scope.

(** C44.  gated adds one coordinate per summand that is neither Scalar nor flagged as a
    permutation; it keeps the representation on the first coordinates and is trivial on the new ones. *)
Theorem C44_gated :
  forall (R : comRingType) (conj sinv : R -> R) (linv : nat -> seq R -> seq R) (crho : nat -> option gid -> gel R -> res (op R))
    (gdim : gid -> nat) (csize : nat -> gid -> nat) (le : rel rep) (gperm : gid -> bool) (cperm : nat -> bool) (g : gid),
  let sz := rsize gdim csize in
  forall r, total_order_on (key gdim csize le (pred1 g)) le -> wfr gdim csize le (pred1 g) r ->
  exists2 r', gated gdim csize le gperm cperm r = Ok (VRep r') &
  [/\ wfr gdim csize le (pred1 g) r', sz r' = (sz r + gates gperm cperm r)%N &
    forall M, group_elem conj sinv linv crho gdim csize (pred1 g) M ->
      exists2 D, rho_dense conj sinv linv crho r M = Ok (sz r, sz r, D) &
        rho_dense conj sinv linv crho r' M = Ok (sz r', sz r', bdiag (sz r) D (gates gperm cperm r) (flat (fid R (gates gperm cperm r))))].
Proof. exact: gated_rho. Qed.

(** gate_indices of a canonical sum: a coordinate of a summand without gate is mapped to itself,
    one of a summand with gate to the gate of this summand; all indices are in range *)
Theorem C44_gate_indices :
  forall (gdim : gid -> nat) (csize : nat -> gid -> nat) (gperm : gid -> bool) (cperm : nat -> bool) (d : dict),
  let sz := rsize gdim csize in let r := RSum d (iota 0 (sz (RSum d [::]))) in
  let gate k := (k != RScalar) && ~~ Rep.isperm gperm cperm k in
  exists2 l, gate_indices gdim csize gperm cperm r = Ok (IntIdx l) &
  [/\ size l = sz r,
      forall t j, (t < size (dexp d))%N -> (j < sz (nth RScalar (dexp d) t))%N ->
        nth 0%N l (off sz (dexp d) t + j) =
        if gate (nth RScalar (dexp d) t) then (sz r + count gate (take t (dexp d)))%N else (off sz (dexp d) t + j)%N &
      all (fun i => i < sz r + gates gperm cperm r)%N l].
Proof. exact: gate_indices_range. Qed.
Print Assumptions C44_gated.
Print Assumptions C44_gate_indices.

(** Scalar+V+V of the group {1,-1}: two gates *)
Example C44_example :
  [/\ wfr zd zcs le_asc (pred1 0%N) zS, gates no no zS = 2%N,
      gate_indices zd zcs no no zS = Ok (IntIdx [:: 0; 3; 4]%N) &
      gated zd zcs le_asc no no zS = Ok (VRep (RSum [:: (RScalar, 3); (zV, 2)]%N [:: 0; 3; 4; 1; 2]%N))].
Proof. by vm_compute. Qed.

(** C44 with several groups: a summand that is a product over two groups has no attribute G *)
Theorem C44_mixed_refuted :
  exists r : rep, [/\ total_order_on (key gd2 cs1 le_asc predT) le_asc, wfr gd2 cs1 le_asc predT r, canonp gd2 cs1 r &
    gated gd2 cs1 le_asc no no r = Err AttributeError].
Proof.
exists (RSum [:: (RScalar, 1); (RDir [:: (V0, 1); (V1', 1)]%N (iota 0 4), 1)]%N (iota 0 5)).
by split; [exact: le_asc_total | vm_compute..].
Qed.
Print Assumptions C44_mixed_refuted.

(** C45.  r is a canonical sum whose permutation flags are truthful, r' = gated(r): for every
    activation function GatedNonlinearity(r) maps rows of r' to rows of r and commutes with the
    group. *)
Theorem C45_gated_nonlinearity :
  forall (sinv : RR -> RR) (linv : nat -> seq RR -> seq RR) (crho cdrho : nat -> option gid -> gel RR -> res (op RR))
    (gdim : gid -> nat) (csize : nat -> gid -> nat) (le : rel rep) (gperm : gid -> bool) (cperm : nat -> bool)
    (gens lies : gid -> seq (op RR)) (act : RR -> RR) (g : gid),
  let sz := rsize gdim csize in
  let E := element sinv linv gdim gens lies g in
  forall d r, r = RSum d (iota 0 (sz r)) ->
  customs_ok sinv linv crho cdrho gdim csize (pred1 g) -> total_order_on (key gdim csize le (pred1 g)) le ->
  wfr gdim csize le (pred1 g) r ->
  (forall k, k \in keys d -> Rep.isperm gperm cperm k -> acts_by_permutations idR sinv linv crho gdim csize E k) ->
  exists2 r', gated gdim csize le gperm cperm r = Ok (VRep r') &
    equivariant idR sinv linv crho gdim csize E r' r (fun bs => gated_call gdim csize gperm cperm act r bs (sz r')).
Proof. exact: gated_real. Qed.
Print Assumptions C45_gated_nonlinearity.
(** the rows (3,1,2 | 5,7) and their images under -1, with the activation x |-> x+1 *)
Example C45_example :
  (forall k, k \in keys [:: (RScalar, 1); (zV, 2)]%N -> Rep.isperm no no k ->
     acts_by_permutations idR exsinv linvE excr zd zcs (element exsinv linvE zd zgens zlies 0%N) k) /\
  (if gated_call zd zcs no no (fun x : Z0 => x + 1) zS 2 5 [:: 3; 1; 2; 5; 7; 3; -1; -2; 5; 7] is Ok y
   then y == [:: 12; 6; 16; 12; -6; -16] else false).
Proof.
split; last by vm_compute.
by move=> k; rewrite !inE => /orP[] /eqP -> // _; apply: z_truthful.
Qed.

Section Net.
Variables (sinv : RR -> RR) (linv : nat -> seq RR -> seq RR).
Variables (crho cdrho : nat -> option gid -> gel RR -> res (op RR)).
Variables (gdim : gid -> nat) (csize : nat -> gid -> nat) (le : rel rep) (g : gid).
Variable cperm : nat -> bool.
Variables (svd : nat -> nat -> seq RR -> seq RR * seq RR * seq RR) (big : pred RR).
Variable krylov : op RR -> res (darr RR).
Variables (act : RR -> RR) (tenth : RR).
Local Notation wfr := (wfr gdim csize le (pred1 g)).
Local Notation customs_ok := (customs_ok sinv linv crho cdrho gdim csize (pred1 g)).
Local Notation total_order := (total_order_on (key gdim csize le (pred1 g)) le).

(** C46.  The network is built and commutes with the group, each row of the batch being
    moved by an element of its own, for all parameters of all layers.  rin and rout are the
    representations that rep_in and rep_out give for the group; the loops of uniform_rep
    end within max(ch) steps; the random draws are arbitrary. *)
Theorem C46_emlp (gorth gperm : gid -> bool) (gens lies : gid -> seq (op RR)) fuel draws choices rep_in rep_out rin rout ch n :
  let E := element sinv linv gdim gens lies g in
  linv_ok linv -> customs_ok -> generators_ok idR gdim sinv linv crho cdrho csize (pred1 g) gens lies -> total_order ->
  (forall M, E M -> orth_elem crho gdim csize gorth (pred1 g) M) ->
  (forall r c, wfr r -> c \in systems gdim csize r ->
     solver_ok idR gdim sinv linv crho cdrho csize gens lies svd big krylov c) ->
  (forall k, wfr k -> Rep.isperm gperm cperm k -> acts_by_permutations idR sinv linv crho gdim csize E k) ->
  (0 < gdim g)%N -> (forall c, (0 < csize c g)%N) -> (forall i, draw_ok (draws i)) -> (forall i, choice_ok (choices i)) ->
  call gdim gorth csize le rep_in (Some g) = Ok rin -> wfr rin ->
  call gdim gorth csize le rep_out (Some g) = Ok rout -> wfr rout ->
  chans_ok gdim gorth csize le g ch -> (widths ch <= fuel)%N ->
  exists2 N, emlp idR sinv linv crho cdrho gdim gorth csize le gperm cperm gens lies svd big krylov
               fuel draws choices rep_in rep_out g ch n = Some (Ok N) &
    size (n_blocks N) = (if ch is ChList l then size l else n) /\
  forall Ps w c, fits_all (n_blocks N) Ps -> size w = (l_out (n_last N) * l_in (n_last N))%N -> size c = l_out (n_last N) ->
    equivariant idR sinv linv crho gdim csize E rin rout (network_call idR gdim csize gperm cperm act tenth N Ps w c).
Proof. by move=> E h1 h2 h3 h4 h5 h6 h7; exact: emlp_real. Qed.

(** for a group object built by Group.__init__ with the flags left to the test (C34, C35)
    the flags are right *)
Theorem C46_emlp_group (G : gid -> group RR) fuel draws choices rep_in rep_out rin rout ch n :
  let gorth h := g_orth (G h) in let gperm h := g_perm (G h) in
  let E := element sinv linv gdim (the_gens G) (the_lies G) g in
  linv_ok linv -> customs_ok -> generators_ok idR gdim sinv linv crho cdrho csize (pred1 g) (the_gens G) (the_lies G) ->
  total_order -> tested (gdim g) (G g) ->
  (forall c C M, E M -> crho c (Some g) M = Ok C -> g_orth (G g) -> orthm (csize c g) (den C)) ->
  (forall c C M, E M -> crho c (Some g) M = Ok C -> cperm c -> isperm (csize c g) (den C)) ->
  (forall r c, wfr r -> c \in systems gdim csize r ->
     solver_ok idR gdim sinv linv crho cdrho csize (the_gens G) (the_lies G) svd big krylov c) ->
  (0 < gdim g)%N -> (forall c, (0 < csize c g)%N) -> (forall i, draw_ok (draws i)) -> (forall i, choice_ok (choices i)) ->
  call gdim gorth csize le rep_in (Some g) = Ok rin -> wfr rin ->
  call gdim gorth csize le rep_out (Some g) = Ok rout -> wfr rout ->
  chans_ok gdim gorth csize le g ch -> (widths ch <= fuel)%N ->
  exists2 N, emlp idR sinv linv crho cdrho gdim gorth csize le gperm cperm (the_gens G) (the_lies G) svd big krylov
               fuel draws choices rep_in rep_out g ch n = Some (Ok N) &
    size (n_blocks N) = (if ch is ChList l then size l else n) /\
  forall Ps w c, fits_all (n_blocks N) Ps -> size w = (l_out (n_last N) * l_in (n_last N))%N -> size c = l_out (n_last N) ->
    equivariant idR sinv linv crho gdim csize E rin rout (network_call idR gdim csize gperm cperm act tenth N Ps w c).
Proof.
move=> gorth gperm E h1 h2 h3 h4 HT Ho Hp h6; apply: emlp_real => //; first exact: (element_orth HT Ho).
exact: (element_perm h2 HT Hp).
Qed.
End Net.
Print Assumptions C46_emlp.
Print Assumptions C46_emlp_group.
(** the hypotheses on the group {1,-1} are those of C41_example and z_truthful; the network V -> V with hidden
    representations Scalar+V+V and uniform_rep(3), over the integers: 5+5+12 parameters in the
    first block, 15+5+13 in the second *)
Definition pm (n : nat) : seq Z0 := map (fun i : nat => if odd i then 1 else if (i %% 3 == 0)%N then -1 else 0) (iota 0 n).
Definition pars (a b c : nat) : bparams Z0 := BParams (pm (a * b)) (pm b) (pm c).
Definition step (x : Z0) : Z0 := if x == 0 then 2 else 1.
Example C46_example :
  [/\ forall k, wfr zd zcs le_asc (pred1 0%N) k -> Rep.isperm no no k ->
        acts_by_permutations idR exsinv linvE excr zd zcs (element exsinv linvE zd zgens zlies 0%N) k,
      forall i, draw_ok (zero_draws i) /\ choice_ok (one_choice i),
      chans_ok zd yes zcs le_asc 0%N (ChList [:: ChRep zS; ChInt 3]) &
      call zd yes zcs le_asc zV (Some 0%N) = Ok zV /\ wfr zd zcs le_asc (pred1 0%N) zV] /\
  (if Iemlp no 3 zero_draws one_choice zV zV 0%N (ChList [:: ChRep zS; ChInt 3]) 7 is Some (Ok N) then
     ([seq (l_in (b_lin K), l_out (b_lin K), bl_dim (b_bil K)) | K <- n_blocks N] == [:: (1, 5, 12); (3, 5, 13)]%N) &&
     (if Inet no step N [:: pars 1 5 12; pars 3 5 13] [:: 1; 1; 1] [:: 1] 2 [:: 1; -1] is Ok y then
        y == [:: -12%:Z; 12%:Z] else false)
   else false).
Proof.
split; last by vm_compute.
split; [exact: z_truthful | by move=> i; split; [exact: zero_ok | exact: first_ok] | | by vm_compute].
move=> c /= [<-|[<-|[]]] //=; exists zS; first by vm_compute.
by split; first vm_compute; last exists [:: (RScalar, 1); (zV, 2)]%N.
Qed.

(** C47.  uniform_rep terminates and has exactly ch channels, for every ch >= 1, every group of
    dimension >= 1 and all random draws (fuel counts the rounds of its loops).  The
    representation is a canonical sum for ch >= 2. *)
Theorem C47_uniform_rep :
  forall (gdim : gid -> nat) (gorth : gid -> bool) (csize : nat -> gid -> nat) (le : rel rep) (g : gid),
  total_order_on (key gdim csize le (pred1 g)) le -> (0 < gdim g)%N -> (forall c, (0 < csize c g)%N) ->
  forall draw ch fuel, draw_ok draw -> (0 < ch)%N -> (ch <= fuel)%N ->
  exists2 r, uniform_rep gdim gorth csize le fuel draw ch g = Some (Ok r) &
  [/\ wfr gdim csize le (pred1 g) r, rsize gdim csize r = ch &
      if ch == 1%N then r = RScalar else canonical_sum gdim csize r].
Proof.
move=> gdim gorth csize le g O G0 C0 draw ch fuel HD c0 Hf.
have [r E [W S C]] := uniform_rep_ok gorth O G0 C0 HD c0 Hf; exists r => //; split=> //.
by move: C; case: ifP => // _ [d E']; exists d; rewrite S.
Qed.
Print Assumptions C47_uniform_rep.
(** with the comparison of Python *)
Theorem C47_uniform_rep_python :
  forall (gdim : gid -> nat) (gorth : gid -> bool) (csize : nat -> gid -> nat) (ghash : gid -> int) (nhash : int)
    (hash : rep -> int) (g : gid),
  let le := py_le gdim csize ghash nhash hash in
  (1 < gdim g)%N ->
  (forall c, (gdim g < csize c g)%N /\ hash (RCustom c (Some g)) < hash (RDual (RCustom c (Some g)))) ->
  (forall a b, key gdim csize le (pred1 g) a -> key gdim csize le (pred1 g) b ->
     rsize gdim csize a = rsize gdim csize b -> hash a = hash b -> a = b) ->
  forall draw ch fuel, draw_ok draw -> (0 < ch)%N -> (ch <= fuel)%N ->
  exists2 r, uniform_rep gdim gorth csize le fuel draw ch g = Some (Ok r) & rsize gdim csize r = ch.
Proof.
move=> gdim gorth csize ghash nhash hash g le G1 HC HI draw ch fuel HD c0 Hf.
have O : total_order_on (key gdim csize le (pred1 g)) le by apply: py_total.
have [||r E [_ S _]] := @C47_uniform_rep gdim gorth csize le g O _ _ draw ch fuel HD c0 Hf.
- exact: ltnW.
- by move=> c; apply: leq_ltn_trans (proj1 (HC c)).
by exists r.
Qed.
Print Assumptions C47_uniform_rep_python.
(** no channels: the int 0 has no canonicalize; a group of dimension 0: no bound on the
    number of rounds is enough *)
Theorem C47_zero_channels :
  forall gdim gorth csize le g draw fuel, uniform_rep gdim gorth csize le fuel draw 0 g = Some (Err AttributeError).
Proof. exact: uniform_rep0. Qed.
Print Assumptions C47_zero_channels.
Theorem C47_dimension_zero_refuted :
  exists gdim gorth csize le g draw ch, [/\ draw_ok draw, (0 < ch)%N &
    forall fuel, uniform_rep gdim gorth csize le fuel draw ch g = None].
Proof.
exists (fun _ => 0%N), yes, zcs, le_asc, 0%N, (zero_draws 0), 1%N; split=> [||fuel] //; first exact: zero_ok.
exact: uniform_rep_loops.
Qed.
Print Assumptions C47_dimension_zero_refuted.
Example C47_example :
  (total_order_on (key zd zcs le_asc (pred1 0%N)) le_asc /\ draw_ok (zero_draws 0)) /\
  uniform_rep (fun _ => 2%N) no zcs le_asc 12 (zero_draws 0) 12 0%N =
    Some (Ok (RSum [:: (RScalar, 4); (zV, 1); (RDual zV, 1); (RProd [:: (RDual zV, 2)] (iota 0 4), 1)]%N (iota 0 12))).
Proof. by split; [split; [exact: le_asc_total | exact: zero_ok] | vm_compute]. Qed.

(** C48.  Only sums in canonical order can be used for hidden layers (C46 for these): if one of
    the hidden representations is anything else, a network that could be constructed
    fails on every input. *)
Theorem C48_unusable :
  forall (R : comRingType) (conj sinv : R -> R) (linv : nat -> seq R -> seq R)
    (crho cdrho : nat -> option gid -> gel R -> res (op R)) (gdim : gid -> nat) (gorth : gid -> bool)
    (csize : nat -> gid -> nat) (le : rel rep) (gperm : gid -> bool) (cperm : nat -> bool) (gens lies : gid -> seq (op R))
    (svd : nat -> nat -> seq R -> seq R * seq R * seq R) (big : pred R) (krylov : op R -> res (darr R)) (act : R -> R)
    (tenth : R) fuel draws choices rep_in rep_out g ch n r r' N,
  asked ch n r -> call gdim gorth csize le r (Some g) = Ok r' -> wfr gdim csize le (pred1 g) r' -> ~ canonical_sum gdim csize r' ->
  emlp conj sinv linv crho cdrho gdim gorth csize le gperm cperm gens lies svd big krylov
    fuel draws choices rep_in rep_out g ch n = Some (Ok N) ->
  forall Ps w b bs x, size Ps = size (n_blocks N) ->
    ~~ is_ok (network_call conj gdim csize gperm cperm act tenth N Ps w b bs x).
Proof. by move=> *; apply: unusable_emlp; eassumption. Qed.
Print Assumptions C48_unusable.

(** the claim is false: for the hidden representations V, V+Scalar (in this order) and V*V the network
    is constructed and fails on every input; for ch = 1, for the product V(G)*V(G), and for
    V when the group is flagged as a permutation group, the constructor fails *)
Theorem C48_hidden_refuted :
  (forall r, List.In r [:: RBase None; RDefSum [:: RBase None; RScalar]; RDefProd [:: RBase None; RBase None]] ->
   exists2 N, Iemlp no 3 zero_draws one_choice zV zV 0%N (ChOne (ChRep r)) 2 = Some (Ok N) &
     forall act Ps w b bs x, size Ps = 2%N -> ~~ is_ok (Inet no act N Ps w b bs x)) /\
  [/\ Iemlp no 3 zero_draws one_choice zV zV 0%N (ChOne (ChInt 1)) 2 = Some (Err AttributeError),
      Iemlp no 3 zero_draws one_choice zV zV 0%N (ChOne (ChRep zP)) 2 = Some (Err NotImplementedError) &
      Iemlp yes 3 zero_draws one_choice zV zV 0%N (ChOne (ChRep zV)) 2 = Some (Err AttributeError)].
Proof.
split; last by split; vm_compute.
move=> r Hr; have [r' [Wr Er Nr]] : exists r', [/\ wfr zd zcs le_asc (pred1 0%N) r', call zd yes zcs le_asc r (Some 0%N) = Ok r' & ~ canonical_sum zd zcs r'].
  case: Hr => [<-|[<-|[<-|[]]]]; [exists zV | exists zN | exists zP]; split; try (by vm_compute); case=> d; vm_compute; discriminate.
have [N EN SN] : exists2 N, Iemlp no 3 zero_draws one_choice zV zV 0%N (ChOne (ChRep r)) 2 = Some (Ok N) & size (n_blocks N) = 2%N.
  have : (if Iemlp no 3 zero_draws one_choice zV zV 0%N (ChOne (ChRep r)) 2 is Some (Ok N) then size (n_blocks N) == 2%N else false) = true.
    by case: Hr => [<-|[<-|[<-|[]]]]; vm_compute.
  by case: (Iemlp _ _ _ _ _ _ _ _ _) => [[N|]|] // /eqP SN; exists N.
exists N => // act Ps w b bs x SP.
by apply: (C48_unusable (r := r) act 1 _ Er Wr Nr EN) => //; rewrite SP SN.
Qed.
Print Assumptions C48_hidden_refuted.
