(** * FlowNet: neural differential equations and Hamiltonian networks. *)
From Coq Require Import Reals Lra.
From mathcomp Require Import all_ssreflect all_algebra.
From mathcomp Require Import zify.
From Verif Require Import Np Spec SpecLemmas LinOp LinOpSpec Rep RepSpec Solver Rstruct Expm GrpSpec GroupsSpec Nn NnSpec Data DataSpec DataAlg DataThm DataHamSpec DataHam DataHamThm NnNets TrainerFlow FlowSpec Smooth FlowThm NnSmooth FlowExist.
Set Implicit Arguments.
Unset Strict Implicit.
Unset Printing Implicit Defensive.
Import GRing.Theory.
Local Open Scope ring_scope.

Lemma smr_lip n F : smr n F -> locally_lipschitz n F.
Proof.
move=> [k [G [HG E]]]; have [es _ H] := smv_exprs HG; apply: (@expr_lip n F es) => z w Sz /(E z w Sz) ->; exact: H.
Qed.
Lemma neg_smv k : smv k k (map -%R).
Proof.
have [s h] : smv k k (fun x => mkseq (fun i => -1 * nth 0 x i) k).
  by apply: smv_mkseq => t; apply: sm_mul (sm_const _ _) _; exact: sm_nth.
have E (x : seq RR) : size x = k -> map -%R x = mkseq (fun i => -1 * nth 0 x i) k.
  move=> Hx; apply: (@eq_from_nth _ 0); rewrite size_map ?size_mkseq // Hx => i Hi.
  by rewrite nth_mkseq // (nth_map 0) ?Hx // mulN1r.
by split=> [x Hx|t]; [rewrite E // s | apply: sm_ext (h t) => x Hx; rewrite E].
Qed.
(** gradients of expressions *)
Section Ham.
Variables (m : nat) (H : seq RR -> RR) (e : expr).
Local Notation n := (2 * m)%N.
Hypothesis HE : forall z, size z = n -> H z = ev z e.
Definition gre (z : seq RR) : seq RR := mkseq (fun i => ev z (de i e)) n.
Lemma gre_ok : gradient_of n H gre.
Proof.
move=> z Sz; have [S0 G] := ev_gradient e Sz; split=> // eps e0; have [del d0 D] := G eps e0; exists del => // v Sv Hv.
by rewrite !HE ?size_mkseq //; exact: D.
Qed.
Lemma gre_uniq gr : gradient_of n H gr -> forall z, size z = n -> gr z = gre z.
Proof.
move=> G z Sz; have U : unchanged n (fid RR n) H.
  move=> y y' [Sy Sy' E]; congr H; apply: (@eq_from_nth _ 0); first by rewrite Sy.
  rewrite Sy' => i Hi; rewrite E // (sum_only (i := i)) //= ?eqxx ?mul1r // => j _ ne.
  by rewrite eq_sym (negbTE ne) mul0r.
have T : takes n (fid RR n) z z.
  split=> // i Hi; rewrite (sum_only (i := i)) //= ?eqxx ?mul1r // => j _ ne.
  by rewrite eq_sym (negbTE ne) mul0r.
apply: (@eq_from_nth _ 0); first by rewrite (G z Sz).1 size_mkseq.
rewrite (G z Sz).1 => j Hj; rewrite -(grad_moved U T (G z Sz) (gre_ok Sz) Hj).
by rewrite (sum_only (i := j)) //= ?eqxx ?mulr1 // => i _ /negbTE ne; rewrite ne mulr0.
Qed.
Lemma ham_smr gr : gradient_of n H gr -> smr n (hamiltonian_dynamics gr).
Proof.
move=> G; have Hg : smv n n gre by apply: smv_mkseq => t; exists (de t e).
have H1 := smv_drop m Hg; have H2 := smv_comp (smv_take m Hg) (neg_smv _).
exists (n - m + minn m n)%N, (fun z => drop m (gre z) ++ map -%R (take m (gre z))); split; first exact: smv_cat H1 H2.
move=> z w Sz; rewrite /hamiltonian_dynamics (gre_uniq G Sz) (sform_ok (m := m)) ?size_mkseq //.
by case.
Qed.
End Ham.

(** ** networks *)
Section Net.
Variables (sinv : RR -> RR) (linv : nat -> seq RR -> seq RR).
Variables (crho : nat -> option gid -> gel RR -> res (op RR)).
Variables (gdim : gid -> nat) (csize : nat -> gid -> nat).
Variables (gperm : gid -> bool) (cperm : nat -> bool) (tenth : RR).
Variable E : gel RR -> Prop.
Local Notation sz := (rsize gdim csize).
Local Notation acts_rows := (acts_rows idR sinv linv crho gdim csize).
Local Notation equivariant := (equivariant idR sinv linv crho gdim csize E).
Local Notation rho_dense := (rho_dense idR sinv linv crho).
Local Notation network_call := (network_call idR gdim csize gperm cperm sigmoid tenth).
Local Notation emlph_call := (emlph_call idR gdim csize gperm cperm sigmoid tenth).
Lemma acts_takes r M D z z' : rho_dense r M = Ok (sz r, sz r, D) ->
  acts_rows r (fun=> M) 1 z z' <-> takes (sz r) (unflat (sz r) (sz r) D) z z'.
Proof.
move=> ED; rewrite /NnSpec.acts_rows /takes /= mul1n; split=> -[S1 S2 H]; split=> //.
  by move=> i Hi; have [D' ED' HD] := H 0%N isT; move: ED'; rewrite ED => -[->]; have := HD i Hi; rewrite mul0n !add0n.
by case=> // _; exists D => // i Hi; rewrite mul0n add0n H.
Qed.
Lemma equi_total r r' f : equivariant r r' f -> (exists M D, E M /\ rho_dense r M = Ok (sz r, sz r, D)) ->
  forall z, size z = sz r -> exists2 w, f 1%N z = Ok w & size w = sz r'.
Proof.
move=> HE [M [D [EM ED]]] z Sz.
have T : acts_rows r (fun=> M) 1 z (apply_mat (sz r) (unflat (sz r) (sz r) D) z) by apply/(acts_takes _ _ ED); exact: takes_apply.
by have [Y [Y' [-> _ [S _ _]]]] := HE 1%N (fun=> M) z _ (fun _ _ => EM) T; exists Y => //; rewrite S mul1n.
Qed.
Lemma flow_rel r F M : locally_lipschitz (sz r) F ->
  (forall z z' w, acts_rows r (fun=> M) 1 z z' -> F z = Ok w -> exists2 w', F z' = Ok w' & acts_rows r (fun=> M) 1 w w') ->
  flow_preserves (sz r) F (acts_rows r (fun=> M) 1).
Proof.
move=> HL HE a b c1 c2 s t S1 S2 as_ sb at_ tb A.
have [D ED] : exists D, rho_dense r M = Ok (sz r, sz r, D) by have [_ _ /(_ 0%N isT)[D ED _]] := A; exists D.
apply/(acts_takes _ _ ED).
apply: (flow_on HL _ S1 S2 as_ sb at_ tb); last by apply/(acts_takes _ _ ED).
move=> z z' w T Ew; have [Y' E1 E2] := HE z z' w ((acts_takes _ _ ED).2 T) Ew.
by exists Y' => //; exact/(acts_takes _ _ ED).
Qed.
Lemma flow_equi r f : equivariant r r f -> locally_lipschitz (sz r) (f 1%N) ->
  forall M, E M -> flow_preserves (sz r) (f 1%N) (acts_rows r (fun=> M) 1).
Proof.
move=> HE HL M EM; apply: flow_rel HL _ => z z' w T Ew.
have [Y [Y' [E1 E2 AY]]] := HE 1%N (fun=> M) z z' (fun _ _ => EM) T.
by move: E1 AY; rewrite Ew => -[->]; exists Y'.
Qed.
Lemma lip_unique n F : locally_lipschitz n F -> uniquely_solvable n F.
Proof. by move=> HL a b c1 c2 s t; exact: solutions_unique_on. Qed.
Lemma network_lip n N Ps w b : locally_lipschitz n (network_call N Ps w b 1).
Proof. by apply: smr_lip; exact: network_smr. Qed.
Lemma mlp_lip n ns Ps : locally_lipschitz n (objax_mlp_call sigmoid ns Ps 1).
Proof. by apply: smr_lip; exact: mlp_smr. Qed.
(** a computation whose result is the sum of a vector of expressions *)
Lemma sum_expr n (f : seq RR -> res (seq RR)) : smr n f -> exists e, forall z h, size z = n ->
  rmap (fun y => foldr +%R 0 y) (f z) = Ok h -> h = ev z e.
Proof.
move=> [k [G [HG EG]]]; have [es _ H] := smv_exprs HG; exists (esum es) => z h Sz.
case Ef: (f z) => [y|] //= [<-]; rewrite (EG z y Sz Ef) H //; elim: (es) => //= e l ->; by [].
Qed.
Lemma emlph_expr n N Ps w b : exists e, forall z h, size z = n -> emlph_call N Ps w b 1 z = Ok h -> h = ev z e.
Proof. by apply: sum_expr; exact: network_smr. Qed.
Lemma mlph_expr n ns Ps : exists e, forall z h, size z = n -> mlph_call sigmoid ns Ps 1 z = Ok h -> h = ev z e.
Proof. by apply: sum_expr; exact: mlp_smr. Qed.
(** EMLPode *)
Theorem ode_thm r N Ps w b : equivariant r r (network_call N Ps w b) -> (exists M D, E M /\ rho_dense r M = Ok (sz r, sz r, D)) ->
  let F := network_call N Ps w b 1 in
  [/\ locally_solvable (sz r) F, uniquely_solvable (sz r) F & forall M, E M -> flow_preserves (sz r) F (acts_rows r (fun=> M) 1)].
Proof.
move=> HE HM F; have HL := @network_lip (sz r) N Ps w b; split.
- by move=> z0; apply: local_exists => //; exact: (equi_total HE HM).
- exact: lip_unique.
exact: (flow_equi HE HL).
Qed.
Theorem ode_fixed r N Ps w b M a c t0 t c0 : equivariant r r (network_call N Ps w b) -> E M ->
  solves_on a c (sz r) (network_call N Ps w b 1) c0 -> Rlt a t0 -> Rlt t0 c -> Rlt a t -> Rlt t c ->
  acts_rows r (fun=> M) 1 (c0 t0) (c0 t0) -> acts_rows r (fun=> M) 1 (c0 t) (c0 t).
Proof. by move=> HE EM S h1 h2 h3 h4; exact: (flow_equi HE (@network_lip (sz r) N Ps w b) EM S S h1 h2 h3 h4). Qed.
(** z' = J grad H(z) for H given by an expression *)
Theorem ham_flow m (F : seq RR -> res RR) H : (exists e, forall z h, size z = (2 * m)%N -> F z = Ok h -> h = ev z e) ->
  (forall z, size z = (2 * m)%N -> F z = Ok (H z)) ->
  (exists gr, gradient_of (2 * m) H gr) /\
  forall gr, gradient_of (2 * m) H gr -> locally_lipschitz (2 * m) (hamiltonian_dynamics gr) /\
    let D := hamiltonian_dynamics gr in
    [/\ locally_solvable (2 * m) D, uniquely_solvable (2 * m) D & flow_conserves (2 * m) D H].
Proof.
move=> [e He] HF; have HE z : size z = (2 * m)%N -> H z = ev z e by move=> Sz; exact: (He z _ Sz (HF z Sz)).
split=> [|gr G]; first by exists (gre m e); exact: gre_ok.
have HL : locally_lipschitz (2 * m) (hamiltonian_dynamics gr) := smr_lip (ham_smr HE G).
split=> //; split.
- move=> z0; apply: local_exists => // z Sz; have [Sg _] := G z Sz.
  by have [w Ew [Sw _]] := sform_nth Sg; exists w.
- exact: lip_unique.
by move=> a b c s t; exact: energy_on.
Qed.
Lemma emlph_total r N Ps w b : equivariant r RScalar (network_call N Ps w b) ->
  (exists M D, E M /\ rho_dense r M = Ok (sz r, sz r, D)) ->
  exists H, forall z, size z = sz r -> emlph_call N Ps w b 1 z = Ok (H z).
Proof.
move=> HE HM; exists (fun z => if emlph_call N Ps w b 1 z is Ok h then h else 0) => z Sz.
by have [Y EY _] := equi_total HE HM Sz; rewrite /Nn.emlph_call EY.
Qed.
Lemma emlph_inv_on r N Ps w b H : equivariant r RScalar (network_call N Ps w b) ->
  (forall z, size z = sz r -> emlph_call N Ps w b 1 z = Ok (H z)) -> inv_on sinv linv crho gdim csize E r H.
Proof.
move=> HE HH M z z' EM T; have [S1 S2 _] := T; rewrite mul1n in S1; rewrite mul1n in S2.
have [Y [Y' [e1 e2 e3]]] := HE 1%N (fun=> M) z z' (fun _ _ => EM) T.
have := HH z S1; have := HH z' S2; rewrite /Nn.emlph_call e1 e2 /= (scalar_row e3) => -[<-] [<-]; by [].
Qed.
(** EMLPH *)
Theorem emlph_thm r m N Ps w b : equivariant r RScalar (network_call N Ps w b) ->
  (exists M D, E M /\ rho_dense r M = Ok (sz r, sz r, D)) -> sz r = (2 * m)%N ->
  exists2 H, forall z, size z = sz r -> emlph_call N Ps w b 1 z = Ok (H z) &
  [/\ exists gr, gradient_of (sz r) H gr,
      forall gr, gradient_of (sz r) H gr -> let D := hamiltonian_dynamics gr in
        [/\ locally_solvable (sz r) D, uniquely_solvable (sz r) D & flow_conserves (sz r) D H] &
      forall gr M A, gradient_of (sz r) H gr -> E M -> rho_dense r M = Ok (sz r, sz r, A) ->
        isometry (sympl RR m) (unflat (sz r) (sz r) A) -> flow_preserves (sz r) (hamiltonian_dynamics gr) (acts_rows r (fun=> M) 1)].
Proof.
move=> HE HM Sr; have [H HH] := emlph_total HE HM; exists H => //.
have HI := emlph_inv_on HE HH; rewrite Sr in HH.
have [h1 h2] := ham_flow (@emlph_expr (2 * m) N Ps w b) HH; split; rewrite ?Sr //.
  by move=> gr G; have [_] := h2 gr G.
move=> gr M A G EM ED I; have [HL _] := h2 gr G.
have HL' : locally_lipschitz (sz r) (hamiltonian_dynamics gr) by rewrite Sr.
have := @flow_rel r (hamiltonian_dynamics gr) M HL'; rewrite Sr; apply=> z z' x T Ex.
have ED' := ED; rewrite -Sr in ED'; have T' := proj1 (acts_takes _ _ ED') T; rewrite Sr in T'.
have U : unchanged (2 * m) (unflat (2 * m) (2 * m) A) H.
  by move=> y y' Ty; apply: (HI M) => //; apply/(acts_takes _ _ ED'); rewrite Sr.
have [Sz Sz' _] := T'.
have [x0 [x' [E1 E2 Tx]]] := field_moved (erefl : fr (unflat (2 * m) (2 * m) A) = (2 * m)%N) erefl U I (G z Sz) (G z' Sz') T'.
move: E1; rewrite Ex => -[?]; subst x0; exists x' => //; apply/(acts_takes _ _ ED'); by rewrite Sr.
Qed.
Lemma field_flow r H gr : locally_lipschitz (sz r) (hamiltonian_dynamics gr) -> gradient_of (sz r) H gr ->
  field_ok sinv linv crho gdim csize E r H gr ->
  forall M, E M -> flow_preserves (sz r) (hamiltonian_dynamics gr) (acts_rows r (fun=> M) 1).
Proof.
move=> HL G HF M EM; apply: flow_rel HL _ => z z' w T Ew.
have [S1 S2 _] := T; rewrite mul1n in S1; rewrite mul1n in S2.
have [Y [Y' [E1 E2 AY]]] := HF M z z' EM T (G _ S1) (G _ S2).
by move: E1 AY; rewrite Ew => -[->]; exists Y'.
Qed.
End Net.
