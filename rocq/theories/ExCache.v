(** * ExCache: two groups with one name. *)
From mathcomp Require Import all_ssreflect all_algebra.
From Verif Require Import Np Spec SpecLemmas LinOp LinOpSpec Rep RepSpec RepWf RepThm RepCode DrhoThm ExRep Solver SolSpec ExSol Cache CacheProofs.
Set Implicit Arguments.
Unset Strict Implicit.
Unset Printing Implicit Defensive.
Import GRing.Theory.
Local Open Scope ring_scope.

Definition gd3 (g : gid) : nat := 3.
(** Embed(SO(2),3,slice(0,2)) is group 0, Embed(SO(2),3,slice(1,3)) is group 1: the rotations of the
    first two and of the last two coordinates.  Both are printed as SO(2)_R3. *)
Definition E0 : seq R0 := [:: 0; 1; 0; -1; 0; 0; 0; 0; 0].
Definition E1 : seq R0 := [:: 0; 0; 0; 0; 0; 1; 0; -1; 0].
Definition cg (g : gid) : seq (op R0) := [::].
Definition cl (g : gid) : seq (op R0) := [:: OArr 3 3 (if g == 0%N then E0 else E1)].
Definition csvd (m n : nat) (D : seq R0) : seq R0 * seq R0 * seq R0 :=
  if D == E0 then ([:: 0; 1; 0; -1; 0; 0; 0; 0; 1], [:: 1; 1; 0], [:: 1; 0; 0; 0; 1; 0; 0; 0; 1])
  else ([:: 0; 0; 1; 0; 1; 0; -1; 0; 0], [:: 1; 1; 0], [:: 0; 1; 0; 0; 0; 1; 1; 0; 0]).
Definition cname (g : gid) : gid := 0%N.
Definition two (g : gid) : bool := (g < 2)%N.
Definition U0 : rep := RBase (Some 0%N).
Definition U1 : rep := RBase (Some 1%N).
Definition ccalls := do_calls idz idz (@linv2 R0) (@cr1 R0) (@cd1 R0) gd3 cs1 le_asc cg cl csvd (@exbig R0) (@exkry R0).
Definition cfresh := fresh idz idz (@linv2 R0) (@cr1 R0) (@cd1 R0) gd3 cs1 le_asc cg cl csvd (@exbig R0) (@exkry R0).

Lemma csol r : r \in [:: U0; U1] ->
  solver_ok idz gd3 idz (@linv2 R0) (@cr1 R0) (@cd1 R0) cs1 cg cl csvd (@exbig R0) (@exkry R0) r.
Proof.
rewrite !inE => /orP[] /eqP -> C m n D [<-] [<- <- <-]; (split=> //;
 [ by split; split=> //= -[|[|[|i]]] [|[|[|j]]] //= _ _; rewrite !big_nat_recr //= big_geq
 | by split=> //= -[|[|[|i]]] [|[|[|j]]] //= _ _; rewrite !big_nat_recr //= !big_geq
 | by split=> //; [case=> [|[|[|i]]] [|[|[|j]]] | move=> x _ /eqP ->; exists 1 | move=> x; rewrite !inE => /or3P[] /eqP ->]]).
Qed.
Lemma cgens : generators_ok idz gd3 idz (@linv2 R0) (@cr1 R0) (@cd1 R0) cs1 two cg cl.
Proof.
split=> //.
- move=> g A _ [<-|//]; have L D : size D = 9%N -> forall g', glook (elemL gd3 g (OArr 3 3 D)) (Some g') =
      Ok (if g' == g then OArr 3 3 D else OArr 3 3 (nseq 9 0)) by [].
  move=> g' _; eexists; first by apply: L; case: ifP.
  split; first by case: ifP => _; apply: lie_arr => //; case: ifP.
  by move=> c; exists (OArr 1 1 [:: 0]) => //; split=> //; apply: lie_arr.
- by move=> c g C _ [<-]; split=> //= -[|i] [|j].
by move=> c g C _ [<-]; split=> //= -[|i] [|j].
Qed.
Lemma cwf r : r \in [:: U0; U1] -> wfr gd3 cs1 le_asc two r.
Proof. by rewrite !inE => /orP[] /eqP ->. Qed.

(** the second call returns the solution of the first group *)
Definition arr_is (x : res (op R0)) (m n : nat) (D : seq R0) : bool :=
  if x is Ok (OArr m' n' D') then [&& m' == m, n' == n & D' == D] else false.
Lemma arr_isP x m n D : arr_is x m n D -> x = Ok (OArr m n D).
Proof. by case: x => [[]|] //= m' n' D' /and3P[/eqP -> /eqP -> /eqP ->]. Qed.
Lemma fresh01 : cfresh (CallBasis U0) = Ok (OArr 3 1 [:: 0; 0; 1]) /\ cfresh (CallBasis U1) = Ok (OArr 3 1 [:: 1; 0; 0]).
Proof. by split; apply: arr_isP; vm_compute. Qed.
Lemma collision : ccalls cname [:: CallBasis U0; CallBasis U1] [::] =
  [:: Ok (OArr 3 1 [:: 0; 0; 1]); Ok (OArr 3 1 [:: 0; 0; 1])].
Proof.
have : (if ccalls cname [:: CallBasis U0; CallBasis U1] [::] is [:: x; y] then
  arr_is x 3 1 [:: 0; 0; 1] && arr_is y 3 1 [:: 0; 0; 1] else false) by vm_compute.
by case: (ccalls _ _ _) => [|x [|y []]] // /andP[/arr_isP -> /arr_isP ->].
Qed.
Lemma names_refuted : exists (lies : gid -> seq (op R0)) svd,
  [/\ total_order_on (key gd3 cs1 le_asc two) le_asc,
      generators_ok idz gd3 idz (@linv2 R0) (@cr1 R0) (@cd1 R0) cs1 two cg lies,
      forall r, r \in [:: U0; U1] -> wfr gd3 cs1 le_asc two r /\
        solver_ok idz gd3 idz (@linv2 R0) (@cr1 R0) (@cd1 R0) cs1 cg lies svd (@exbig R0) (@exkry R0) r &
      do_calls idz idz (@linv2 R0) (@cr1 R0) (@cd1 R0) gd3 cs1 le_asc cg lies svd (@exbig R0) (@exkry R0) cname
        [:: CallBasis U0; CallBasis U1] [::] <>
      map (fresh idz idz (@linv2 R0) (@cr1 R0) (@cd1 R0) gd3 cs1 le_asc cg lies svd (@exbig R0) (@exkry R0))
        [:: CallBasis U0; CallBasis U1]].
Proof.
exists cl, csvd; split; [exact: le_asc_total | exact: cgens | by move=> r Hr; split; [exact: cwf | exact: csol] |].
have [F0 F1] := fresh01; rewrite -/cfresh -[map cfresh _]/[:: cfresh (CallBasis U0); cfresh (CallBasis U1)] F0 F1.
rewrite -/(ccalls cname [:: CallBasis U0; CallBasis U1] [::]) collision.
by move/(congr1 (fun l => nth (Err ValueError) l 1)) => /=; case.
Qed.
