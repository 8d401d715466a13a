(** * RolloutGrp: the loss of EMLPode for the group objects that Group.__init__ builds; examples. *)
From Coq Require Import Reals Lra.
From mathcomp Require Import all_ssreflect all_algebra.
From mathcomp Require Import zify.
From Verif Require Import Np NpLemmas Spec SpecLemmas LinOp LinOpSpec LinOpInv Rep RepSpec RepWf RepCode RepMat RepAlg RhoProofs RepThm RepThm1 RepExpr Order Solver SolSpec Rstruct Expm RField RNum GrpSpec ExpFam GrpProofs.
From Verif Require Import Groups GroupsSpec GroupsFlag GroupsReal GroupsPerm Nn NnSpec NnThm NnGate2.
From Verif Require Import Data DataSpec DataAlg DataHamSpec DataHam Trainer TrainerFlow FlowSpec FlowThm FlowNet FlowNet2 FlowGlobal Rollout RolloutSpec RolloutThm RolloutNet RolloutSho.
Set Implicit Arguments.
Unset Strict Implicit.
Unset Printing Implicit Defensive.
Import GRing.Theory.
Local Open Scope ring_scope.

Section Group.
Variables (sinv : RR -> RR) (linv : nat -> seq RR -> seq RR).
Variables (crho cdrho : nat -> option gid -> gel RR -> res (op RR)).
Variables (gdim : gid -> nat) (csize : nat -> gid -> nat) (le : rel rep) (g : gid).
Variable cperm : nat -> bool.
Variables (svd : nat -> nat -> seq RR -> seq RR * seq RR * seq RR) (big : pred RR).
Variable krylov : op RR -> res (darr RR).
Variable tenth : RR.
Local Notation wfr := (wfr gdim csize le (pred1 g)).
Local Notation sz := (rsize gdim csize).
Local Notation acts_rows := (acts_rows idR sinv linv crho gdim csize).
Lemma element_rep_orth (G : gid -> group RR) r M D : let E := element sinv linv gdim (the_gens G) (the_lies G) g in
  customs_ok sinv linv crho cdrho gdim csize (pred1 g) -> tested (gdim g) (G g) -> g_orth (G g) ->
  (forall c C M, E M -> crho c (Some g) M = Ok C -> g_orth (G g) -> orthm (csize c g) (den C)) ->
  wfr r -> E M -> rho_dense idR sinv linv crho r M = Ok (sz r, sz r, D) -> orthm (sz r) (unflat (sz r) (sz r) D).
Proof.
move=> E HC HT Og Ho W EM ED; have HO := element_orth HT Ho EM.
have Hg h : pred1 g h -> g_orth (G h) by move=> /eqP ->.
have [D' ED' O] := rep_orth (gorth := fun h => g_orth (G h)) (element_group HC EM) HO Hg W.
by move: ED'; rewrite ED => -[->].
Qed.
Theorem emlpode_loss_group (G : gid -> group RR) fuel draws choices rep_in r ch n :
  let gorth h := g_orth (G h) in let gperm h := g_perm (G h) in
  let E := element sinv linv gdim (the_gens G) (the_lies G) g in
  linv_ok linv -> customs_ok sinv linv crho cdrho gdim csize (pred1 g) ->
  generators_ok idR gdim sinv linv crho cdrho csize (pred1 g) (the_gens G) (the_lies G) ->
  total_order_on (key gdim csize le (pred1 g)) le -> tested (gdim g) (G g) -> g_orth (G g) ->
  (forall c C M, E M -> crho c (Some g) M = Ok C -> g_orth (G g) -> orthm (csize c g) (den C)) ->
  (forall c C M, E M -> crho c (Some g) M = Ok C -> cperm c -> isperm (csize c g) (den C)) ->
  (forall r c, wfr r -> c \in systems gdim csize r ->
     solver_ok idR gdim sinv linv crho cdrho csize (the_gens G) (the_lies G) svd big krylov c) ->
  (0 < gdim g)%N -> (forall c, (0 < csize c g)%N) -> (forall i, draw_ok (draws i)) -> (forall i, choice_ok (choices i)) ->
  call gdim gorth csize le rep_in (Some g) = Ok r -> wfr r ->
  chans_ok gdim gorth csize le g ch -> (widths ch <= fuel)%N ->
  exists2 N, emlp idR sinv linv crho cdrho gdim gorth csize le gperm cperm (the_gens G) (the_lies G) svd big krylov
               fuel draws choices rep_in rep_in g ch n = Some (Ok N) &
  forall Ps w b, fits_all (n_blocks N) Ps -> size w = (l_out (n_last N) * l_in (n_last N))%N -> size b = l_out (n_last N) ->
    let F := network_call idR gdim csize gperm cperm sigmoid tenth N Ps w b 1 in
    forall odeint bs Ms z0 z0' ts zs zs' l l', (0 < bs)%N -> (forall i, (i < bs)%N -> E (Ms i)) ->
    let T := size (nth [::] ts 0) in
    exact (bs * sz r) (rowwise (sz r) F bs) odeint ->
    acts_rows r Ms bs z0 z0' -> acts_rows r (fun t => Ms (t %/ T)%N) (bs * T) zs zs' ->
    ode_loss (F := R_fieldType) odeint (sz r) F bs z0 ts zs = Ok l ->
    ode_loss (F := R_fieldType) odeint (sz r) F bs z0' ts zs' = Ok l' -> l' = l.
Proof.
move=> gorth gperm E h1 h2 h3 h4 HT Og Ho Hp h6 G0 C0 HD HCh Er Wr Hc Hf.
have HO := element_orth HT Ho; have HP := element_perm h2 HT Hp.
have [N EN [_ HN]] := emlp_real sigmoid tenth h1 h2 h3 h4 HO h6 (HP le) n G0 C0 HD HCh Er Wr Er Wr Hc Hf.
exists N => // Ps w b f1 f2 f3 F odeint bs Ms z0 z0' ts zs zs' l l' b0 HE T X A AZ.
apply: (emlpode_loss HE _ (HN Ps w b f1 f2 f3) b0 X A AZ) => i D Hi.
exact: element_rep_orth h2 HT Og Ho Wr (HE i Hi).
Qed.
End Group.

(** ** Examples *)
(** batches of harmonic oscillators are integrated by the ideal integrator *)
Lemma interval (ts : seq RR) : exists lo hi, forall t, t \in ts -> Rlt lo t /\ Rlt t hi.
Proof.
elim: ts => [|t l [lo [hi IH]]]; first by exists R0, R0.
exists (Rmin lo (Rminus t 1)), (Rmax hi (Rplus t 1)) => s; rewrite inE => /orP[/eqP ->|/IH[h1 h2]].
  by have := Rmin_r lo (Rminus t 1); have := Rmax_r hi (Rplus t 1); lra.
by have := Rmin_l lo (Rminus t 1); have := Rmax_l hi (Rplus t 1); lra.
Qed.
Theorem sho_batch_flow gr bs z0 t0 ts : gradient_of 2 sho_energy gr -> size z0 = (bs * 2)%N ->
  b_hamiltonian_flow ideal 2 gr bs z0 (t0 :: ts) = Ok [seq sho_flow (Rminus t t0) (row_of 2 b z0) | b <- iota 0 bs, t <- t0 :: ts].
Proof.
move=> G Sz; set D := hamiltonian_dynamics gr; have [lo [hi HT]] := interval (t0 :: ts).
have FO : field_on 2 D := ham_field (m := 1) G.
pose c t := flatten [seq sho_flow (Rminus t t0) (row_of 2 b z0) | b <- iota 0 bs].
have Z b : size (row_of 2 b z0) = 2%N by rewrite size_mkseq.
have S : solves_on lo hi (bs * 2) (rowwise 2 D bs) c.
  apply: (batch_solves (cs := fun b t => sho_flow (Rminus t t0) (row_of 2 b z0))) => // i Hi.
  have := solves_shift t0 (a := Rminus lo t0) (b := Rminus hi t0) (c := fun t => sho_flow t (row_of 2 i z0)) (n := 2) (F := D).
  rewrite !(_ : forall x, Rplus (Rminus x t0) t0 = x); [|by move=> x; ring..]; apply=> u _ _; exact: (sho_solves G (Z i)).
have C0 : c t0 = z0.
  apply: (@eq_from_nth _ 0); first by rewrite (size_rows (n := 2)).
  rewrite (size_rows (n := 2)) // => k Hk.
  have Hi : (k %/ 2 < bs)%N by rewrite ltn_divLR.
  rewrite (divn_eq k 2) (nth_rows (f := fun b => sho_flow (Rminus t0 t0) (row_of 2 b z0)) (n := 2)) ?ltn_mod //.
  rewrite /Rminus Rplus_opp_r; have [-> _ _] := sho_flow_of G (Z (k %/ 2)%N); by rewrite nth_row // ltn_mod.
have X : exact_rollout (size z0) (rowwise 2 D bs) z0 (t0 :: ts) (map c (t0 :: ts)).
  by rewrite Sz; exists lo, hi, c.
have [zs Ez] := ideal_thm.2 _ _ _ _ X.
rewrite /b_hamiltonian_flow /b_ode_flow Ez /=; congr (Ok (flatten _)).
apply/eq_in_map => b; rewrite mem_iota add0n => /= Hb.
have R := row_exact FO Hb (ideal_thm.1 _ _ _ _ _ Sz Ez).
exact: (proj1 (sho_rollout G t0 ts _ (Z b)) R).
Qed.
(** reflections do not preserve the flow of the harmonic oscillator *)
Theorem sho_reflection gr : gradient_of 2 sho_energy gr ->
  exists2 A, orthm 2 A & ~ flow_preserves 2 (hamiltonian_dynamics gr) (takes 2 A).
Proof.
move=> G; pose A : fmat RR := FM 2 2 (fun i j => if i == j then (if i == 0%N then 1 else -1) else 0).
have S2 (f : nat -> RR) : \sum_(0 <= i < 2) f i = f 0%N + f 1%N by rewrite !big_nat_recr //= big_geq // add0r.
exists A.
  by split=> //; split=> // [[|[|i]]] [|[|j]] //= _ _; rewrite S2 /= ?(mul0r, mulr0, addr0, add0r, mul1r, mulr1, mulrN1, opprK).
move=> F; pose z : seq RR := [:: 1; 0]; have Sz : size z = 2%N by [].
pose c t := sho_flow t z; have Sc : solves_on (Ropp 10) 10 2 (hamiltonian_dynamics gr) c by move=> t _ _; exact: (sho_solves G Sz).
have P1 := PI_4; have P0 := PI_RGT_0.
have [F0 _ _] := sho_flow_of G Sz.
have T0 : takes 2 A (c R0) (c R0).
  rewrite /c F0; split=> // -[|[|i]] // _; by rewrite S2 /= ?(mul0r, mulr0, addr0, add0r, mul1r, mulr1).
have [_ _ /(_ 1%N isT)] := F _ _ c c R0 (Rdiv PI 2) Sc Sc ltac:(lra) ltac:(lra) ltac:(lra) ltac:(lra) T0.
rewrite S2 /= cos_PI2 sin_PI2 !(mul0r, mulr0, addr0, add0r, mul1r, mulr1) mulN1r.
change (Ropp R1 = Ropp (Ropp R1) -> False); lra.
Qed.
