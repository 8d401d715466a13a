(** * DataPend: the dynamics of DoubleSpringPendulum commute with the group O2eR3(); EMLPH. *)
From Coq Require Import Reals.
From mathcomp Require Import all_ssreflect all_algebra.
From mathcomp Require Import zify.
From Verif Require Import Np NpLemmas Spec SpecLemmas LinOp LinOpSpec LinOpProofs LinOpInv Rep RepSpec RepWf RepAlg RepFun RhoProofs RepExpr Rstruct Expm GrpSpec.
From Verif Require Import Groups GroupsSpec GroupsFlag GroupsSpecR GroupsReal ExactSpec GroupsExact GroupsExactL GroupsExactE Nn NnSpec NnThm.
From Verif Require Import Data DataSpec DataAlg DataThm DataGroups DataHamSpec DataHam DataHamThm DataDiff.
Set Implicit Arguments.
Unset Strict Implicit.
Unset Printing Implicit Defensive.
Import GRing.Theory.
Local Open Scope ring_scope.

Section Copies.
Variables (sinv : RR -> RR) (linv : nat -> seq RR -> seq RR).
Variables (crho : nat -> option gid -> gel RR -> res (op RR)).
Variables (gdim : gid -> nat) (gorth : gid -> bool) (csize : nat -> gid -> nat) (le : rel rep) (g : gid).
Local Notation sz := (rsize gdim csize).
Local Notation rep_of := (rep_of gdim gorth csize le g).
Local Notation equivariant := (equivariant idR sinv linv crho gdim csize).
Local Notation isometries := (isometries idR sinv linv crho gdim gorth csize g).
Local Notation acts1 := (acts1 idR sinv linv crho gdim csize).
Hypothesis O : total_order_on (key gdim csize le (pred1 g)) le.
Hypothesis G0 : (0 < gdim g)%N.
Hypothesis C0 : forall c, (0 < csize c g)%N.
Variable E : gel RR -> Prop.
Hypothesis HI : isometries (fid RR (gdim g)) E.
Theorem ham_copies m : (0 < m)%N -> exists2 rin, rep_of (EMul (EInt (2 * m)%N) EV) rin & sz rin = (2 * (m * gdim g))%N /\
  forall H gr, inv_on sinv linv crho gdim csize E rin H -> field_ok sinv linv crho gdim csize E rin H gr.
Proof.
move=> M0; pose Fi (S : comRingType) (A : fmat S) := fdsuml (nseq (2 * m) A).
have ei S A B : @espec S A B (EMul (EInt (2 * m)%N) EV) = Some (SMat (Fi S (A None))).
  by rewrite /Fi /=; case: (m) M0 => // k _; rewrite mulnS.
have [rin Ri _] := @rep_exists gdim gorth csize le g O G0 C0 (EMul (EInt (2 * m)%N) EV) _ (ei _ _ _).
by exists rin => //; apply: (ham_thm O G0 C0 (Fi := Fi) erefl HI ei) => // S A _ _; exact: meq_refl.
Qed.
Theorem ham_tensors rin : rep_of pendulum_in rin -> sz rin = (2 * (2 * gdim g))%N /\
  forall H gr, inv_on sinv linv crho gdim csize E rin H -> field_ok sinv linv crho gdim csize E rin H gr.
Proof.
pose Fi (S : comRingType) (A : fmat S) := fdsuml (nseq 4 (fkron (fkronl (nseq 1 A)) (fkronl [::]))).
apply: (ham_thm O G0 C0 (Fi := Fi) erefl HI) => // S A _ _.
have H : meq (fkron (fkronl (nseq 1 A)) (fkronl [::])) A.
  by apply: meq_trans (fkron_1_r _) _; exact: fkron_1_r.
have D n : meq (fdsuml (nseq n (fkron (fkronl (nseq 1 A)) (fkronl [::])))) (fdsuml (nseq n A)).
  by elim: n => [|n IH]; [exact: meq_refl | exact: meq_fdsum].
exact: D 4%N.
Qed.
Lemma t0_row rout M Y Y' : rep_of (T_expr 0 0) rout -> E M -> acts1 rout M Y Y' -> Y' = Y.
Proof.
pose Fo (S : comRingType) (A : fmat S) := fkron (fkronl (nseq 0 A)) (fkronl [::]) : fmat S.
have eo S A B : @espec S A B (T_expr 0 0) = Some (SMat (Fo S (A None))) by [].
move=> Ro HM A1; have [GM OM IM] := HI HM.
have ro := rep_rho O G0 C0 Ro GM OM (eo _ _ _).
have [r0 Ro0 [_ zo]] := @rep_exists gdim gorth csize le g O G0 C0 (T_expr 0 0) _ (eo _ _ _).
rewrite (rep_of_inj Ro0 Ro) /= in zo.
have [] := proj1 (acts1P _ _ _ _ ro) A1; rewrite ?zo // => s1 s2 /(_ 0%N isT).
rewrite (act_meq (B := fid RR 1)) ?act_fid //; last by apply: fkron_1_r.
by case: Y Y' s1 s2 {A1} => [|y []] // [|y' []] //= _ _ ->.
Qed.
End Copies.

Lemma pend_one h (z : seq RR) : size z = 12%N -> pendulum (R_sqrt.sqrt : RR -> RR) h 1 z = Ok [:: pend0 h z].
Proof.
move=> S; rewrite /pendulum /rowwise mul1n S eqxx /mapM.
have E : row_of 12 0 z = z by apply: (@eq_from_nth _ 0); rewrite size_mkseq ?S // => i Hi; rewrite nth_mkseq // add0n.
by rewrite -[iota 0 1]/[:: 0%N] -[map _ [:: 0%N]]/[:: row_of 12 0 z] E /= pend0E.
Qed.

Section Main.
Variables (sinv : RR -> RR) (linv : nat -> seq RR -> seq RR).
Variables (crho cdrho : nat -> option gid -> gel RR -> res (op RR)).
Variables (gdim : gid -> nat) (csize : nat -> gid -> nat) (le : rel rep) (g : gid).
Variable G : gid -> group RR.
Local Notation sz := (rsize gdim csize).
Local Notation elem := (element sinv linv gdim (the_gens G) (the_lies G) g).
Local Notation gorth := (fun h => g_orth (G h)).
Local Notation rep_of := (rep_of gdim gorth csize le g).
Local Notation acts1 := (acts1 idR sinv linv crho gdim csize).
Hypothesis HC : customs_ok sinv linv crho cdrho gdim csize (pred1 g).
Hypothesis HCo : forall c C M, elem M -> crho c (Some g) M = Ok C -> g_orth (G g) -> orthm (csize c g) (den C).
Hypothesis O : total_order_on (key gdim csize le (pred1 g)) le.
Hypothesis C0 : forall c, (0 < csize c g)%N.
Lemma pend_field' x : gdim g = 3%N ->
  exact_group x 3 (fun X => exists Y, [/\ fr Y = 2%N, fc Y = 2%N, isometry (fid RR 2) Y & meq X (plane Y)]) -> x = Ok (G g) ->
  exists2 rin, rep_of pendulum_in rin & sz rin = 12%N /\
    forall gr, field_ok sinv linv crho gdim csize elem rin pendulum_energy gr.
Proof.
move=> G3 HX EG; have G0 : (0 < gdim g)%N by rewrite G3.
have [rin [rout [Ri Ro zi zo Eq]]] := pendulum_group' HC HCo O C0 (R_sqrt.sqrt : RR -> RR) (Rinv 2) G3 HX EG.
have HI : isometries idR sinv linv crho gdim gorth csize g (fid RR (gdim g)) elem.
  rewrite G3; apply: (elem_members HC HCo HX EG G3 (Q := isometry (fid RR 3))) => A a1 a2 [Y [y1 y2 I e]].
  by have [I1 _] := plane_ok a1 a2 y1 y2 I e.
exists rin => //; split=> // gr; apply: (proj2 (ham_tensors O G0 C0 HI Ri)) => M z z' HM A1.
have [S1 S2 _] := A1; rewrite mul1n zi in S1; rewrite mul1n zi in S2.
have [Y [Y' [e1 e2 /(t0_row O G0 C0 HI Ro HM) e3]]] := Eq 1%N (fun=> M) z z' (fun _ _ => HM) A1.
move: e1 e2; rewrite e3 !pend_one // /pendulum_energy !pend0E // => -[<-] [e]; by [].
Qed.
Theorem pend_field close : gdim g = 3%N -> g_o2er3 idR id close = Ok (G g) ->
  exists2 rin, rep_of pendulum_in rin & sz rin = 12%N /\
    forall gr, field_ok sinv linv crho gdim csize elem rin pendulum_energy gr.
Proof. move=> G3; exact: pend_field' G3 (exact_o2er3 idR close). Qed.
End Main.

Section Emlph.
Variables (conj : RR -> RR) (sinv : RR -> RR) (linv : nat -> seq RR -> seq RR).
Variables (crho : nat -> option gid -> gel RR -> res (op RR)).
Variables (gdim : gid -> nat) (csize : nat -> gid -> nat).
Variables (gperm : gid -> bool) (cperm : nat -> bool) (act : RR -> RR) (tenth : RR).
Variable E : gel RR -> Prop.
Local Notation net := (network_call idR gdim csize gperm cperm act tenth).
Local Notation emlph := (emlph_call idR gdim csize gperm cperm act tenth).
Theorem emlph_inv rin N Ps w b : equivariant idR sinv linv crho gdim csize E rin RScalar (net N Ps w b) ->
  forall bs Ms X X', (forall i, (i < bs)%N -> E (Ms i)) -> acts_rows idR sinv linv crho gdim csize rin Ms bs X X' ->
  exists y, emlph N Ps w b bs X = Ok y /\ emlph N Ps w b bs X' = Ok y.
Proof.
move=> H bs Ms X X' HM A; have [Y [Y' [e1 e2 /scalar_rows e3]]] := H bs Ms X X' HM A.
by exists (foldr +%R 0 Y); rewrite /emlph_call e1 e2 e3.
Qed.
End Emlph.
