(** * NnThm: the statements about layers over the reals, for the elements of a group. *)
From Coq Require Import Reals.
From mathcomp Require Import all_ssreflect all_algebra.
From mathcomp Require Import zify.
From Verif Require Import Np NpLemmas Spec SpecLemmas LinOp LinOpSpec Rep RepSpec RepMat RepWf RepFun RepOps RepThm RepThm1 Solver SolSpec SolThm Rstruct Expm GrpSpec GrpProofs.
From Verif Require Import Groups GroupsSpec GroupsSpecR GroupsInit GroupsPerm GroupsThm GroupsFlag GroupsReal GroupsRepPerm.
From Verif Require Import Nn NnSpec NnLin NnGate NnBil NnNet NnUni.
Set Implicit Arguments.
Unset Strict Implicit.
Unset Printing Implicit Defensive.
Import GRing.Theory.
Local Open Scope ring_scope.

Section T.
Variables (sinv : RR -> RR) (linv : nat -> seq RR -> seq RR).
Variables (crho cdrho : nat -> option gid -> gel RR -> res (op RR)).
Variables (gdim : gid -> nat) (gorth : gid -> bool) (csize : nat -> gid -> nat) (le : rel rep) (g : gid).
Variables (gperm : gid -> bool) (cperm : nat -> bool).
Variables (gens lies : gid -> seq (op RR)).
Variables (svd : nat -> nat -> seq RR -> seq RR * seq RR * seq RR) (big : pred RR).
Variable krylov : op RR -> res (darr RR).
Variables (act : RR -> RR) (tenth : RR).
Local Notation gs := (pred1 g).
Local Notation sz := (rsize gdim csize).
Local Notation key := (key gdim csize le gs).
Local Notation wfr := (wfr gdim csize le gs).
Local Notation elem := (element sinv linv gdim gens lies g).
Local Notation group_elem := (group_elem idR sinv linv crho gdim csize gs).
Local Notation orth_elem := (orth_elem crho gdim csize gorth gs).
Local Notation projector := (projector idR sinv linv crho cdrho gdim csize le gens lies svd big krylov).
Local Notation solver_ok := (solver_ok idR gdim sinv linv crho cdrho csize gens lies svd big krylov).
Local Notation solved := (solved idR sinv linv crho cdrho gdim csize le gens lies svd big krylov elem).
Local Notation equivariant := (equivariant idR sinv linv crho gdim csize elem).
Local Notation acts_by_permutations := (acts_by_permutations idR sinv linv crho gdim csize elem).
Local Notation mk_linear := (mk_linear idR sinv linv crho cdrho gdim gorth csize le gens lies svd big krylov).
Local Notation emlp := (emlp idR sinv linv crho cdrho gdim gorth csize le gperm cperm gens lies svd big krylov).
Local Notation network_call := (network_call idR gdim csize gperm cperm act tenth).
Hypothesis HLI : linv_ok linv.
Hypothesis HC : customs_ok sinv linv crho cdrho gdim csize gs.
Hypothesis HGen : generators_ok idR gdim sinv linv crho cdrho csize gs gens lies.
Hypothesis O : total_order_on key le.

Lemma element_group M : elem M -> group_elem M.
Proof. by move=> [X _ HM]; exact: (is_elem HC HM). Qed.

Lemma fixed_group r v : fixed idR sinv linv crho gdim csize elem r v <->
  group_invariant sinv linv crho gdim csize gs gens lies r v.
Proof. by split=> [H M X GX HM|H M [X GX HM]]; [apply: H; exists X|exact: (H M X)]. Qed.

Lemma solved_of r : wfr r -> (forall c, c \in systems gdim csize r -> solver_ok c) -> solved r.
Proof.
move=> W H; case: (HGen) => h1 h2 h3 h4.
have T1 (x y : RR) : idR (x * y) = idR x * idR y by [].
have T2 (x : RR) : idR (idR x) = x by [].
have T3 (x : RR) : idR x = x by [].
have [B [D [[EB _] _ _ HB]]] := projector_thm T1 T2 erefl erefl h1 h2 h3 h4 O T3 W H.
exists B => // v Sv; have [Pv EP [SP I1 I2]] := HB v Sv; exists Pv => //; split=> //.
  by apply/fixed_group; apply: (invariant_group HLI HC HGen W SP I1).
split=> [/fixed_group F|E1]; first by apply/I2; exact: (group_invariant_inv HLI HC HGen W Sv F).
by apply/fixed_group; apply: (invariant_group HLI HC HGen W Sv); apply/I2.
Qed.

Hypothesis HO : forall M, elem M -> orth_elem M.

(** ** Linear *)
Theorem linear_real a b r : wfr a -> wfr b -> rshift gdim gorth csize le a b = Ok r ->
  (forall c, c \in systems gdim csize r ++ systems gdim csize b -> solver_ok c) ->
  exists2 L, mk_linear a b = Ok L & [/\ l_in L = sz a, l_out L = sz b &
    forall w c, size w = (sz b * sz a)%N -> size c = sz b ->
      exists W' c', [/\ size W' = (sz b * sz a)%N /\ size c' = sz b,
        forall bs X, linear_call idR L w c bs X = affine bs (sz a) (sz b) W' c' X,
        equivariant a b (linear_call idR L w c) &
        equivariant a b (fun bs => affine bs (sz a) (sz b) w c) -> w = W' /\ c = c']].
Proof.
move=> Wa Wb Er H; have [r' [Er' _ _ Wr _]] := rshift_ok gorth O Wa Wb; move: Er'; rewrite Er => -[E1]; subst r'.
apply: (linear_thm O element_group HO Wa Wb Er); apply: solved_of => // c Hc; apply: H; rewrite mem_cat Hc ?orbT //.
Qed.

(** ** EMLP *)
Hypothesis HS : forall r c, wfr r -> c \in systems gdim csize r -> solver_ok c.
Hypothesis truthful : forall k, wfr k -> Rep.isperm gperm cperm k -> acts_by_permutations k.
Local Notation canonical_sum := (canonical_sum gdim csize).
Local Notation chan_ok := (chan_ok gdim gorth csize le g).
Local Notation chans_ok := (chans_ok gdim gorth csize le g).

Lemma hidden_of r : wfr r -> canonical_sum r -> hidden idR sinv linv crho gdim csize le g gperm cperm elem r.
Proof.
move=> W [d Ed]; exists d; split=> // k Hk; apply: truthful; rewrite Ed in W.
by apply: key_wfr; exact: (allP (sum_keys W)).
Qed.

Lemma middle_ok fuel draw c : (0 < gdim g)%N -> (forall c, (0 < csize c g)%N) -> draw_ok draw -> chan_ok c -> (width c <= fuel)%N ->
  exists2 r, middle gdim gorth csize le fuel draw g c = Some (Ok r) & wfr r /\ canonical_sum r.
Proof.
move=> G0 C0 HD; case: c => [n|r] /=; last by move=> [r' -> H] _; exists r'.
move=> n1 Hf; have [r E1 [W S]] := uniform_rep_ok gorth O G0 C0 HD (ltnW n1) Hf.
by rewrite gtn_eqF // => -[d Ed]; exists r => //; split=> //; exists d; rewrite S.
Qed.
Lemma middles_ok fuel draws l i : (0 < gdim g)%N -> (forall c, (0 < csize c g)%N) -> (forall i, draw_ok (draws i)) ->
  (forall c, List.In c l -> chan_ok c) -> (forall c, List.In c l -> (width c <= fuel)%N) ->
  exists2 rs, middles gdim gorth csize le fuel draws g i l = Some (Ok rs) &
    size rs = size l /\ forall r, List.In r rs -> wfr r /\ canonical_sum r.
Proof.
move=> G0 C0 HD; elim: l i => [|c l IH] i Hl Hf /=; first by exists [::].
have [r -> Hr] := middle_ok G0 C0 (HD i) (Hl c (or_introl erefl)) (Hf c (or_introl erefl)).
have [rs -> [Sl Hrs]] := IH i.+1 (fun c' H => Hl c' (or_intror H)) (fun c' H => Hf c' (or_intror H)).
by exists (r :: rs) => //=; rewrite Sl; split=> // r' [<-|/Hrs].
Qed.

Theorem emlp_real fuel draws choices rep_in rep_out rin rout ch n :
  (0 < gdim g)%N -> (forall c, (0 < csize c g)%N) -> (forall i, draw_ok (draws i)) -> (forall i, choice_ok (choices i)) ->
  call gdim gorth csize le rep_in (Some g) = Ok rin -> wfr rin ->
  call gdim gorth csize le rep_out (Some g) = Ok rout -> wfr rout ->
  chans_ok ch -> (widths ch <= fuel)%N ->
  exists2 N, emlp fuel draws choices rep_in rep_out g ch n = Some (Ok N) &
    size (n_blocks N) = (if ch is ChList l then size l else n) /\
  forall Ps w c, fits_all (n_blocks N) Ps -> size w = (l_out (n_last N) * l_in (n_last N))%N -> size c = l_out (n_last N) ->
    equivariant rin rout (network_call N Ps w c).
Proof.
move=> G0 C0 HD HCh E1 W1 E2 W2 Hch Hf; rewrite /Nn.emlp E1 E2.
have [l El [Sl Hl]] : exists2 l, middle_layers gdim gorth csize le fuel draws g ch n = Some (Ok l) &
    size l = (if ch is ChList l then size l else n) /\ forall r, List.In r l -> wfr r /\ canonical_sum r.
  case: ch Hch Hf => [c|l] /= Hc Hf.
    have [r -> Hr] := middle_ok G0 C0 (HD 0%N) Hc Hf; exists (nseq n r) => //; rewrite size_nseq; split=> //.
    by move=> r'; elim: n => [[]|k IH [<-|/IH]].
  apply: middles_ok => // c Hi; apply: leq_trans Hf; elim: l Hi {Hc} => //= c' l IH.
  by rewrite big_cons => -[->|/IH]; rewrite leq_max ?leqnn // => ->; rewrite orbT.
rewrite El.
have SO r : wfr r -> solved r by move=> W; apply: solved_of => // c; exact: HS.
have HH r : List.In r l -> hidden idR sinv linv crho gdim csize le g gperm cperm elem r.
  by move=> /Hl[Wr Hr]; exact: hidden_of.
have [N EN HN] := network_ok act tenth O element_group HO SO W1 W2 HH HCh.
exists N; first by rewrite EN.
split=> //; rewrite -Sl.
move: EN; rewrite /Nn.mk_network; case EK: (Nn.mk_blocks _ _ _ _ _ _ _ _ _ _ _ _ _ _ _ _ _ _ _ _) => [Ks|//].
rewrite bindOk; case: (Nn.mk_linear _ _ _ _ _ _ _ _ _ _ _ _ _ _ _ _) => // L [<-] /=.
elim: (l) (0%N) (rin) Ks EK => [|r l' IH] i ri Ks /=; first by case=> <-.
case: (mk_block _ _ _ _ _ _ _ _ _ _ _ _ _ _ _ _ _ _ _) => //= K.
case EK: (Nn.mk_blocks _ _ _ _ _ _ _ _ _ _ _ _ _ _ _ _ _ _ _ _) => [Ks'|//] [<-] /=.
by rewrite (IH _ _ _ EK).
Qed.
End T.

(** ** the flags of a group built by Group.__init__ with the flags left to the test *)
Section G.
Variables (sinv : RR -> RR) (linv : nat -> seq RR -> seq RR).
Variables (crho cdrho : nat -> option gid -> gel RR -> res (op RR)).
Variables (gdim : gid -> nat) (csize : nat -> gid -> nat) (le : rel rep) (g : gid).
Variable G : gid -> group RR.
Variable cperm : nat -> bool.
Local Notation elem := (element sinv linv gdim (the_gens G) (the_lies G) g).
Hypothesis HC : customs_ok sinv linv crho cdrho gdim csize (pred1 g).
Hypothesis HT : tested (gdim g) (G g).
Hypothesis HCo : forall c C M, elem M -> crho c (Some g) M = Ok C -> g_orth (G g) -> orthm (csize c g) (den C).
Hypothesis HCp : forall c C M, elem M -> crho c (Some g) M = Ok C -> cperm c -> GroupsPerm.isperm (csize c g) (den C).

Lemma element_orth M : elem M -> orth_elem crho gdim csize (fun h => g_orth (G h)) (pred1 g) M.
Proof.
move=> EM h /eqP -> Oh; split=> [A EA|c C EC]; last by have [_ _ H1 H2] := HCo EM EC Oh; split.
have [X GX HM] := EM; have [A'] := HM g (eqxx g); rewrite EA => -[<-] [_ EX].
have T h' : (pred1 g) h' -> tested (gdim h') (G h') by move/eqP=> ->.
have OX := proj1 (orth_iff HT) Oh _ (generated_in GX (eqxx g) T).
by have [_ _ H1 H2] := orthm_meq (meq_sym EX) OX; split.
Qed.
Lemma element_perm k : wfr gdim csize le (pred1 g) k -> Rep.isperm (fun h => g_perm (G h)) cperm k ->
  acts_by_permutations idR sinv linv crho gdim csize elem k.
Proof.
move=> W F M EM; have [X GX HM] := EM.
have [|||p Pp E] := @generated_perm sinv linv crho gdim csize le (pred1 g) G cperm M X k _ GX _ (is_elem HC HM) _ W F.
- by move=> h' /eqP ->.
- by move=> h' /HM[A EA [_ H]]; exists A.
- by move=> h' c C /eqP -> Cc EC; exact: (HCp EM EC Cc).
exists (flat (perm_mat RR (rsize gdim csize k) p)), p; split=> // i j Hi Hj.
by rewrite nth_flat //= eq_sym.
Qed.
End G.

Theorem gated_real (sinv : RR -> RR) (linv : nat -> seq RR -> seq RR) (crho cdrho : nat -> option gid -> gel RR -> res (op RR))
    (gdim : gid -> nat) (csize : nat -> gid -> nat) (le : rel rep) (gperm : gid -> bool) (cperm : nat -> bool)
    (gens lies : gid -> seq (op RR)) (act : RR -> RR) (g : gid) :
  let sz := rsize gdim csize in
  let E := element sinv linv gdim gens lies g in
  forall d r, r = RSum d (iota 0 (sz r)) ->
  customs_ok sinv linv crho cdrho gdim csize (pred1 g) -> total_order_on (key gdim csize le (pred1 g)) le ->
  wfr gdim csize le (pred1 g) r ->
  (forall k, k \in keys d -> Rep.isperm gperm cperm k -> acts_by_permutations idR sinv linv crho gdim csize E k) ->
  exists2 r', gated gdim csize le gperm cperm r = Ok (VRep r') &
    equivariant idR sinv linv crho gdim csize E r' r (fun bs => gated_call gdim csize gperm cperm act r bs (sz r')).
Proof.
move=> sz E d r Er HC O W HT.
have [r' Eg _] := gated_ok (R := RR) (atom := fun k => fid RR (sz k)) gperm cperm O (fun k _ => Logic.conj erefl erefl) W.
exists r' => //; have HE := @element_group sinv linv crho cdrho gdim csize g gens lies HC.
move: (sz r) Er => N Er; subst r.
apply: (gated_call_equivariant act O HE W _ Eg HT).
by have := is_perm_size (sum_perm W); rewrite size_iota => {1}->.
Qed.
