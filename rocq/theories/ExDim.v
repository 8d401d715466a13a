(** * ExDim: the examples of the claims on the dimensions of equivariant bases. *)
From Coq Require Import Reals Lra String.
From mathcomp Require Import all_ssreflect all_algebra.
From mathcomp Require Import zify.
From Verif Require Import Np NpLemmas Spec SpecLemmas LinOp LinOpSpec LinOpInv Rep RepSpec RepWf RepCode RepAlg RepFun RhoProofs RepExpr Solver SolSpec Rstruct Expm GrpSpec ExGrp.
From Verif Require Import Groups GroupsSpec GroupsSpecR GroupsCtor GroupsFlag GroupsReal ExactSpec GroupsExact GroupsExactD GroupsExactL GroupsExactE GroupsExactS Nn NnSpec NnThm ExNn.
From Verif Require Import Data DataSpec ExData DataGroups DataCubeThm ExData2 SvdReal SvdThm DimSpec DimTenSpec DimThm DimSO FlagThm DimGrp DimTen DimPerm VisThm.
Set Implicit Arguments.
Unset Strict Implicit.
Unset Printing Implicit Defensive.
Import GRing.Theory.
Local Open Scope ring_scope.

(** the setting of the claims for the group object x of dimension n: custom representations
    are the defining one, the solvers are exact *)
Definition usable_as (x : res (group RR)) (n : nat) (G : gid -> group RR) : Prop :=
  x = Ok (G 0%N) /\ setting exsinv linvE excr excr (ndim n) (ncs n) le_asc 0%N G real_svd nonzero real_krylov.
Lemma ready_usable x n : ready x n -> exists G, usable_as x n G.
Proof.
case=> G [E HC O C0 HCo]; exists G; split=> //; split=> //; first exact: linvE_ok.
by split=> // c; exact: real_solvers.
Qed.
Lemma u_iso x n P : (0 < n)%N -> exact_group x n P -> (forall X : fmat RR, fr X = n -> fc X = n -> P X -> isometry (fid RR n) X) ->
  exists G, usable_as x n G.
Proof. by move=> n0 HX HP; apply: ready_usable; exact: ready_iso HP. Qed.
Lemma u_s close n : (1 < n)%N -> exists G, usable_as (g_s idR close n) n G.
Proof.
move=> n1; apply: u_iso (exact_s idR close n1) _; first by lia.
move=> X x1 x2 [p Pp E]; apply: meq_trans (perm_isometry Pp); apply: meq_fmul => //; first exact: meq_ftr.
by apply: meq_fmul.
Qed.
Lemma u_z close n : (0 < n)%N -> exists G, usable_as (g_z idR close n) n G.
Proof.
move=> n0; apply: u_iso (exact_shifts close n0) _ => // X x1 x2 [p Pp E].
have P := shifts_perm Pp; apply: meq_trans (perm_isometry P); apply: meq_fmul => //; first exact: meq_ftr.
by apply: meq_fmul.
Qed.
Lemma u_o close n : (0 < n)%N -> exists G, usable_as (g_o idR close n) n G.
Proof. by move=> n0; apply: u_iso (exact_o idR close n0) _. Qed.
Lemma u_so close n : (1 < n)%N -> exists G, usable_as (g_so idR close n) n G.
Proof. by move=> n1; apply: u_iso (exact_so idR close n1) _ => [|X _ _ []]; first lia. Qed.
Lemma u_tested x n G0 : (0 < n)%N -> x = Ok G0 -> tested n G0 -> exists G, usable_as x n G.
Proof. by move=> n0 E T; apply: ready_usable; exact: ready_tested E T. Qed.
Lemma u_sp m : (0 < m)%N -> exists G, usable_as (g_sp idR (@same RR) m) (2 * m) G.
Proof.
case: m => // m _; have [a Ea B] := sp_ok idR (@same RR) m; have [G0 E _] := B.
apply: (u_tested _ E) => //; move: B E; rewrite /g_sp Ea bindOk => B E; exact: built_tested B erefl erefl E.
Qed.
Lemma u_lorentz recip : exists G, usable_as (g_lorentz idR recip (@same RR)) 4 G.
Proof. apply: ready_usable; exact: ready_lorentz. Qed.

(** ** vis *)
Lemma so2_values close : exists G r Q v, [/\ usable_as (g_so idR close 2) 2 G,
  rep_of (ndim 2) (fun h => g_orth (G h)) (ncs 2) le_asc 0%N (T_expr 1 1) r,
  returns (Solver.basis idR exsinv linvE excr excr (ndim 2) (ncs 2) le_asc (the_gens G) (the_lies G) real_svd nonzero real_krylov r) 4 2 Q,
  exists2 w, size w = 2%N & matvec 4 2 Q w = v & size (undup v) = 3%N].
Proof.
have [G [E HS]] := u_so close (isT : (1 < 2)%N).
have [r [Q [h1 _ h3 [_ h4]]]] := @complex_so2 close _ _ _ _ _ _ _ _ _ _ _ _ HS 1 1 E erefl erefl.
exists G, r, Q, [:: 2%:R; 1; -1; 2%:R]; split=> //; first by apply/h4 => //; exists 2%:R, 1.
have n1 : (2%:R : RR) <> 1 by change (Rplus R1 R1 <> R1); lra.
have n2 : (2%:R : RR) <> -1 by change (Rplus R1 R1 <> Ropp R1); lra.
have n3 : (1 : RR) <> -1 by change (R1 <> Ropp R1); lra.
have n4 : (-1 : RR) <> 2%:R by move/esym.
have n5 : (1 : RR) <> 2%:R by move/esym.
have n6 : (-1 : RR) <> 1 by move/esym.
by do 2 (rewrite /= ?inE ?eqxx ?orbT; do ?(case: eqP => // _)).
Qed.

(** S(n): the hypotheses of C78_vis_flag hold for V -> V *)
Lemma vis_example n : (1 < n)%N -> exists G r, [/\ usable_as (g_s idR (@same RR) n) n G,
  generators_ok idR (ndim n) exsinv linvE excr excr (ncs n) (pred1 0%N) (the_gens G) (the_lies G), tested n (G 0%N),
  wfr (ndim n) (ncs n) le_asc (pred1 0%N) (RBase (Some 0%N)) &
  rshift (ndim n) (fun h => g_orth (G h)) (ncs n) le_asc (RBase (Some 0%N)) (RBase (Some 0%N)) = Ok r /\
  Rep.isperm (fun h => g_perm (G h)) (fun=> false) r].
Proof.
move=> n1; have n0 := ltnW n1; have [G U] := u_s (@same RR) n1; have [E [h1 h2 h3 h4 [h5 h6]]] := U.
have [G' E' [O P]] := flags_s n1; move: E'; rewrite E => -[E']; rewrite -E' in O P.
have T : tested n (G 0%N).
  have B := s_ok idR (@same RR) n1; move: B E; rewrite /g_s; case: ifP => // _ B E; exact: built_tested B erefl erefl E.
have BG : basic_group n (G 0%N) by apply: built_basic (s_ok idR (@same RR) n1) E _ _; [eexists | exact: perm_items].
have GE := @dim_generators exsinv linvE excr excr (ndim n) (ncs n) 0%N G h1 h2 _ _ _ (exact_s idR (@same RR) n1) E erefl.
have {}GE : generators_ok idR (ndim n) exsinv linvE excr excr (ncs n) (pred1 0%N) (the_gens G) (the_lies G).
  apply: GE BG => A a1 a2 [p Pp M]; exists A; apply: iso_invTn => //.
  apply: meq_trans (perm_isometry Pp); apply: meq_fmul => //; first exact: meq_ftr; by apply: meq_fmul.
have V : wfr (ndim n) (ncs n) le_asc (pred1 0%N) (RBase (Some 0%N)) by apply/orP; left; apply/or4P; apply: Or42; exact: n0.
have : exists r, rshift (ndim n) (fun h => g_orth (G h)) (ncs n) le_asc (RBase (Some 0%N)) (RBase (Some 0%N)) = Ok r /\
  Rep.isperm (fun h => g_perm (G h)) (fun=> false) r.
  have [r Er _] := rshift_wf (fun h => g_orth (G h)) h1 h2 GE h4 V V.
  exists r; split=> //; move: Er; rewrite /rshift /tr /= /t_atom /= O /= /mul /= /mul_base /= /prod_rep /= /prod_canonical.
  have ->  : unique_reps le_asc [:: [:: (RBase (Some 0%N), 1%N)]; [:: (RBase (Some 0%N), 1%N)]] = [:: RBase (Some 0%N)] by vm_compute.
  set X := reshape _ _; case: X => //= a; by move=> [<-] /=; rewrite P.

case=> r [Er Pr]; exists G, r; split; [done | done | done | done | by []].
Qed.
