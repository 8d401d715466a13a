(** * ExNn: the group {1,-1} acting on the line, with exact solvers for all its
    representations; the examples of the claims on layers. *)
From Coq Require Import Reals.
From mathcomp Require Import all_ssreflect all_algebra.
From mathcomp Require Import zify.
From Verif Require Import Np NpLemmas Spec SpecLemmas LinOp LinOpSpec LinOpProofs LinOpInv LinOpThm Rep RepSpec RepMat RepWf RepCode RepAlg RepFun RhoProofs RepThm RepThm1 DrhoThm RepDir Solver SolSpec SolAlg SolFam SolProofs SolBasis SolThm Rstruct Expm GrpSpec ExpFam GrpProofs ExGrp.
From Verif Require Import GroupsPerm GroupsRepPerm Nn NnSpec NnLin NnGate NnBil NnNet NnUni NnThm.
Set Implicit Arguments.
Unset Strict Implicit.
Unset Printing Implicit Defensive.
Import GRing.Theory.
Local Open Scope ring_scope.

Definition zd (g : gid) : nat := 1.
Definition zcs (c : nat) (g : gid) : nat := 1.
Definition zgens (g : gid) : seq (op RR) := [:: OArr 1 1 [:: -1]].
Definition zlies (g : gid) : seq (op RR) := [::].
Definition zsvd (m n : nat) (D : seq RR) : seq RR * seq RR * seq RR := ([:: 1], D, [:: 1]).
Definition zbig (x : RR) : bool := x != 0.
Definition zkry (C : op RR) : res (darr RR) := Err TypeError.
Definition yes (g : gid) : bool := true.
Definition no {T} (g : T) : bool := false.
Local Notation gs := (pred1 0%N).
Local Notation zwfr := (wfr zd zcs le_asc gs).
Local Notation zsz := (rsize zd zcs).
Local Notation zelem := (element exsinv linvE zd zgens zlies 0%N).
Local Notation zsolver_ok := (solver_ok idR zd exsinv linvE excr excr zcs zgens zlies zsvd zbig zkry).

Lemma z_customs : customs_ok exsinv linvE excr excr zd zcs gs.
Proof.
split.
- by split=> M H g Hg; have [A E I] := H g Hg; exists A => //; split=> // c; exists A.
- by move=> c g A1 A2 A3 C1 C2 C3 Hg [_ _ _] [[<-] [<-] [<-]].
- move=> c g A C E F Hg [GA [<-] IE HF] H i j Hi Hj.
  have [a1 a2] := gop_sz GA.
  have Em t : meq (den (F t)) (expm (zd g) (den A) t).
    by have [<-] := HF t; apply: is_exp_expm => //; exact: H.
  have SA : sqn (zd g) (den A) by [].
  apply: dl_ext (dl_expm0 SA Hi Hj) => // t; have [e1 e2 e3] := Em t; rewrite e3 ?e1 ?e2 //.
by move=> c g a A1 A2 A3 C1 C2 C3 Hg [_ _ _] [[<-] [<-] [<-]].
Qed.

Lemma z_inv : meq (fmul (unflat 1 1 [:: -1 : RR]) (unflat 1 1 [:: -1])) (fid RR 1).
Proof.
split=> //= i j Hi Hj; rewrite !big_nat_recr //= !big_geq //.
by case: i Hi => [|i] //; case: j Hj => [|j] //= _ _; rewrite add0r mulrNN mulr1.
Qed.
Lemma z_generators : generators_ok idR zd exsinv linvE excr excr zcs gs zgens zlies.
Proof.
split.
- move=> g h Hg //= [<-|//]; apply: (elemG_ok z_customs).
  by have := @inv_arr exsinv linvE linvE_ok 1 (unflat 1 1 [:: -1]) (unflat 1 1 [:: -1]) _ _ z_inv z_inv; apply.
- by move=> g A Hg [].
- by move=> c g C Hg [<-].
by move=> c g C Hg [<-]; exact: zero_den.
Qed.

(** every irreducible summand has size 1 *)
Lemma z_atomic k : atomic zd zcs gs k -> zsz k = 1%N.
Proof. by case: k => //= [[g|]|c [g|]|[|[g|]|c [g|]|?|? ?|? ?|? ?|?|?]]. Qed.
Lemma z_size c : dkey zd zcs le_asc gs c -> zsz c = 1%N.
Proof.
case/orP=> [/z_atomic //|/andP[+ _]]; case: c => // d p /andP[/and3P[/and5P[_ A _ _ _] _ _] _] /=.
elim: d A => //= -[k n] d IH /andP[/z_atomic Ek A]; by rewrite /= Ek exp1n mul1n IH.
Qed.
Lemma z_rows c C : dkey zd zcs le_asc gs c -> constraint_matrix exsinv linvE excr excr zd zcs zgens zlies c = Ok C ->
  rows C = 1%N.
Proof.
move=> D; rewrite /constraint_matrix; have W := dkey_wfr D; rewrite (size_py_ok W) bindOk (z_size D).
case: (gattr c) => // -[g|] //=; rewrite /mapM /=.
case: (rho _ _ _ _ _) => // A; rewrite bindOk /sub /mkSum.
case: ifP => //= _; case: eqP => //= Sh.
by rewrite /mkConcat /= eqxx /= => -[<-] /=; rewrite /rows /= Sh.
Qed.
Lemma z_solver r c : zwfr r -> c \in systems zd zcs r -> zsolver_ok c.
Proof.
move=> W; rewrite (systems_problems W) => Hc; have D := problem_dkey W Hc.
move=> C m n Dt EC ED.
case Eg: (gattr c) => [[g|]|]; try by move: EC; rewrite /constraint_matrix (size_py_ok (dkey_wfr D)) bindOk Eg.
have [h1 h2 h3 h4] := z_generators.
have [C'] := constraint_ok h1 h2 h3 h4 D Eg; rewrite EC => -[<-] [m' [GC _]].
move: ED; rewrite (gor_dense GC) => -[<- <- <-].
have [_ _ _ _ Sh] := GC; have := z_rows D EC; rewrite /rows Sh /= => E; rewrite {}E (z_size D) in Sh GC *.
rewrite /too_large /rows /cols Sh /=.
have [e1 e2] := gor_sz GC.
have S : size (flat (den C)) = 1%N by rewrite size_flat e1 e2.
case: (flat (den C)) S => [|x [|? ?]] // _; rewrite /svd_exact /=.
split=> //.
- by split; (split=> // -[|i] [|j] //= _ _; rewrite big_nat1 /fconj /= mulr1).
- by split=> // -[|i] [|j] //= _ _; rewrite !big_nat1 /= mul1r mulr1.
split=> [i [|j] //|y|y]; rewrite inE /zbig => /eqP -> N.
  by exists (Rinv x); rewrite mulrC; apply: Rinv_r => E; move/eqP: N; apply.
by apply/eqP; rewrite -[_ == _]negbK.
Qed.

(** the elements are 1 and -1 *)
Lemma z_element M A : zelem M -> glook M (Some 0%N) = Ok A ->
  [/\ fr (den A) = 1%N, fc (den A) = 1%N & fe (den A) 0%N 0%N * fe (den A) 0%N 0%N = 1].
Proof.
move=> [X GX HM] E; have [A'] := HM 0%N erefl; rewrite E => -[<-] [_ EX].
suff [x1 x2 H] : [/\ fr (X 0%N) = 1%N, fc (X 0%N) = 1%N & fe (X 0%N) 0%N 0%N * fe (X 0%N) 0%N 0%N = 1].
  by have [e1 e2 e3] := EX; split; rewrite ?e1 ?e2 ?e3 ?e1 ?e2 ?x1 ?x2.
elim: GX {M A HM E A' EX} => {X} [X H|g h X Hg Hh E At|g A X Hg LA _ At|X Y Z GX [x1 x2 IX] GY [y1 y2 IY] H|X Y GX [x1 x2 IX] H].
- by have [-> -> e] := H 0%N erefl; rewrite e ?mul1r.
- by move/eqP: Hg E Hh => -> [e1 e2 e3] /= [Eh|//]; subst h; rewrite e1 e2 e3 ?e1 ?e2 //= mulrNN mulr1.
- by elim: LA.
- have [e1 e2 e3] := H 0%N erefl; rewrite e1 e2 e3 ?e1 ?e2 /= ?x1 ?y2 //; split=> //.
  by rewrite x2 big_nat1 mulrACA IX IY mulr1.
have [y1 [e1 e2 e3]] := H 0%N erefl; split=> //.
have := e3 0%N 0%N; rewrite e1 e2 /= x2 big_nat1 /= => /(_ erefl erefl) H1.
have -> : fe (Y 0%N) 0%N 0%N = fe (X 0%N) 0%N 0%N by rewrite -[LHS]mul1r -IX -mulrA H1 mulr1.
exact: IX.
Qed.
Lemma z_orth M : zelem M -> orth_elem excr zd zcs yes gs M.
Proof.
move=> EM g /eqP -> _.
have H A : glook M (Some 0%N) = Ok A -> orthogonal 1 A.
  case/(z_element EM) => e1 e2 e3; split; (split=> //=; rewrite ?e1 ?e2 // => -[|i] [|j] // _ _; by rewrite big_nat1 /=).
by split=> [A|c C]; exact: H.
Qed.
Lemma z_truthful k : zwfr k -> Rep.isperm no no k -> acts_by_permutations idR exsinv linvE excr zd zcs zelem k.
Proof.
move=> W F M EM; have HM := element_group z_customs EM.
have [|p Pp E] := proj1 (isperm_mat _ _) (@rmat_perm RR zd zcs le_asc gs no no (arho exsinv linvE excr M) k W F _).
  by case=> [|[g|]|c [g|]|[|[g|]|c [g|]|?|? ?|? ?|? ?|?|?]|? ?|? ?|? ?|?|?] //= _.
exists (flat (rmat (arho exsinv linvE excr M) k)), p; split=> //; first exact: (rho_dense_ok HM W).
by move=> i j Hi Hj; rewrite (flat_meq E) nth_flat //= eq_sym.
Qed.

(** ** the same group over the integers, to run the code *)
Notation Z0 := int_comRing.
Definition Ilinv (n : nat) (D : seq Z0) : seq Z0 := D.
Definition Icr (c : nat) (G : option gid) (M : gel Z0) : res (op Z0) := glook M G.
Definition Igens (g : gid) : seq (op Z0) := [:: OArr 1 1 [:: -1]].
Definition Ilies (g : gid) : seq (op Z0) := [::].
Definition Isvd (m n : nat) (D : seq Z0) : seq Z0 * seq Z0 * seq Z0 := ([:: 1], D, [:: 1]).
Definition Ibig (x : Z0) : bool := x != 0.
Definition Ikry (C : op Z0) : res (darr Z0) := Err TypeError.
Definition Iid (x : Z0) : Z0 := x.
(** the representations V, V.T, the canonical sum Scalar+V+V, the sum V+Scalar as
    written, and V*V *)
Definition zV : rep := RBase (Some 0%N).
Definition zS : rep := RSum [:: (RScalar, 1); (zV, 2)]%N [:: 0; 1; 2]%N.
Definition zN : rep := RSum [:: (RScalar, 1); (zV, 1)]%N [:: 1; 0]%N.
Definition zP : rep := RProd [:: (zV, 2)]%N [:: 0]%N.
Definition first_choices (k : rep) (c n : nat) : seq nat := iota 0 n.
Definition one_choice (i : nat) := first_choices.
Definition zero_draws (i rank n : nat) : seq nat := nseq n 0%N.
Lemma first_ok : choice_ok first_choices.
Proof. by move=> k c n H; split; rewrite ?size_iota //; apply/allP=> j; rewrite mem_iota => /andP[_ L]; apply: leq_trans L H. Qed.
Lemma zero_ok i : draw_ok (zero_draws i).
Proof. by move=> rank n; split; rewrite ?size_nseq // all_nseq orbT. Qed.
Definition Ilinear := mk_linear Iid Iid Ilinv Icr Icr zd yes zcs le_asc Igens Ilies Isvd Ibig Ikry.
Definition Iemlp (gperm : gid -> bool) := emlp Iid Iid Ilinv Icr Icr zd yes zcs le_asc gperm no Igens Ilies Isvd Ibig Ikry.
Definition Inet (gperm : gid -> bool) (act : Z0 -> Z0) := network_call Iid zd zcs gperm no act 1.
