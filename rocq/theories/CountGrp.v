(** * CountGrp: layers of the group objects S(n), Z(n) and SO(2). *)
From Coq Require Import Reals Lra String.
From mathcomp Require Import all_ssreflect all_algebra.
From mathcomp Require Import zify.
From Verif Require Import Np NpLemmas Spec SpecLemmas LinOp LinOpSpec LinOpInv Rep RepSpec RepWf RepCode RepAlg RepFun RhoProofs RepExpr Solver SolSpec Rstruct Expm GrpSpec ExGrp.
From Verif Require Import Groups GroupsSpec GroupsSpecR GroupsCtor GroupsFlag GroupsReal GroupsPerm ExactSpec GroupsExact GroupsExactD GroupsExactL GroupsExactE GroupsExactS Nn NnSpec NnThm ExNn.
From Verif Require Import Data DataSpec DataAlg ExData DataGroups DataCubeThm ExData2 SvdReal SvdThm DimSpec DimComb DimTenSpec DimThm DimSO FlagThm DimGrp DimTen DimPerm VisThm ExDim CharSO2 CountSpec CountThm CountTen.
Set Implicit Arguments.
Unset Strict Implicit.
Unset Printing Implicit Defensive.
Import GRing.Theory.
Local Open Scope ring_scope.

Section Main.
Variables (sinv : RR -> RR) (linv : nat -> seq RR -> seq RR).
Variables (crho cdrho : nat -> option gid -> gel RR -> res (op RR)).
Variables (gdim : gid -> nat) (csize : nat -> gid -> nat) (le : rel rep) (g : gid).
Variable G : gid -> group RR.
Variables (svd : nat -> nat -> seq RR -> seq RR * seq RR * seq RR) (big : pred RR).
Variable krylov : op RR -> res (darr RR).
Local Notation sz := (rsize gdim csize).
Local Notation gorth := (fun h => g_orth (G h)).
Local Notation rep_of := (rep_of gdim gorth csize le g).
Local Notation basis := (basis idR sinv linv crho cdrho gdim csize le (the_gens G) (the_lies G) svd big krylov).
Local Notation mul_int := (mul_int gdim csize le).
Local Notation map_columns := (map_columns sinv linv crho cdrho gdim gorth csize le (the_gens G) (the_lies G) svd big krylov).
Hypothesis HS : setting sinv linv crho cdrho gdim csize le g G svd big krylov.
Local Notation layers p q p' q' k := (forall n m, exists a b A B,
  [/\ rep_of (T_expr p q) a /\ rep_of (T_expr p' q') b, mul_int a (Posz n.+1) = Ok (VRep A),
      mul_int b (Posz m.+1) = Ok (VRep B) & map_columns A B (n.+1 * (m.+1 * k))]).

Lemma layer_of p q p' q' s t k : (s + t = p + q + (p' + q'))%N -> (0 < gdim g)%N -> g_orth (G g) ->
  generators_ok idR gdim sinv linv crho cdrho csize (pred1 g) (the_gens G) (the_lies G) ->
  (forall M, element sinv linv gdim (the_gens G) (the_lies G) g M -> orth_elem crho gdim csize gorth (pred1 g) M) ->
  (exists r Q, [/\ rep_of (T_expr s t) r, sz r = (gdim g ^ (s + t))%N & returns (basis r) (gdim g ^ (s + t)) k Q]) ->
  layers p q p' q' k.
Proof.
move=> E G0 Og HGen HO [r [Q [R S B]]] n m; case: HS => h1 h2 h3 h4 [h5 h6].
have [a Ra [Wa _]] := ten_rep (gorth := gorth) h4 G0 h5 Og p q; have [b Rb [Wb _]] := ten_rep (gorth := gorth) h4 G0 h5 Og p' q'.
have C := tensor_columns (gorth := gorth) h1 h2 HGen h4 h6 HO G0 h5 Og Ra Rb R E (k := k).
have {}C := C (ex_intro _ Q (eq_ind_r (fun N => returns (basis r) N k Q) B S)).
by have [A [D [EA ED CD]]] := multiples_columns (gorth := gorth) h1 h2 HGen h4 h6 HO n m Wa Wb C; exists a, b, A, D.
Qed.
Section Iso.
Variables (x : res (group RR)) (d : nat) (P : fmat RR -> Prop).
Hypothesis HX : exact_group x d P.
Hypothesis EG : x = Ok (G g).
Hypothesis Ed : gdim g = d.
Hypothesis d0 : (0 < d)%N.
Hypothesis HB : basic_group d (G g).
Hypothesis HI : forall A, fr A = d -> fc A = d -> P A -> isometry (fid RR d) A.
Hypothesis Og : g_orth (G g).
Lemma iso_layers p q p' q' s t k : (s + t = p + q + (p' + q'))%N ->
  (exists r Q, [/\ rep_of (T_expr s t) r, sz r = (d ^ (s + t))%N & returns (basis r) (d ^ (s + t)) k Q]) ->
  layers p q p' q' k.
Proof.
move=> E; rewrite -Ed; case: HS => h1 h2 h3 h4 [h5 h6].
have HP A : fr A = d -> fc A = d -> P A -> exists B, invTn d A B by move=> a1 a2 PA; exists A; apply: iso_invTn => //; exact: HI.
apply: (layer_of E) => //; [by rewrite Ed | exact: (dim_generators h1 h2 HX EG Ed HP HB) |].
by move=> M EM; have [_] := elem_ok h2 h3 HX EG Ed (fun _ => HI) EM.
Qed.
End Iso.
Local Notation same := (@same RR).
Theorem layers_s n p q p' q' : (1 < n)%N -> g_s idR same n = Ok (G g) -> gdim g = n -> (p + q + (p' + q') <= n)%N ->
  layers p q p' q' (bell (p + q + (p' + q'))).
Proof.
move=> n1 EG Ed Hn; have n0 := ltnW n1.
have [G' E' [Og _]] := flags_s n1; move: E'; rewrite EG => -[E']; rewrite -E' in Og.
have BG : basic_group n (G g) by apply: built_basic (s_ok idR same n1) EG _ _; [eexists | exact: perm_items].
apply: (iso_layers (exact_s idR same n1) EG Ed n0 BG _ Og (s := p + q) (t := p' + q')) => //.
  move=> A a1 a2 [s Ps E]; apply: meq_trans (perm_isometry Ps); apply: meq_fmul => //; first exact: meq_ftr.
  by apply: meq_fmul.
by rewrite -(bell_sum Hn); apply: (dim_s HS _ _ n1 EG Ed).
Qed.
Theorem layers_z n p q p' q' k : (0 < n)%N -> g_z idR same n = Ok (G g) -> gdim g = n -> (p + q + (p' + q') = k.+1)%N ->
  layers p q p' q' (n ^ k).
Proof.
move=> n0 EG Ed Hk.
have [G' E' [Og _]] := flags_z n0; move: E'; rewrite EG => -[E']; rewrite -E' in Og.
have BG : basic_group n (G g) by apply: built_basic (z_ok idR same n) EG _ _; [eexists | by move=> A /= [<-|]].
apply: (iso_layers (exact_shifts same n0) EG Ed n0 BG _ Og (s := p + q) (t := p' + q')) => //.
  move=> A a1 a2 [s /shifts_perm Ps E]; apply: meq_trans (perm_isometry Ps); apply: meq_fmul => //; first exact: meq_ftr.
  by apply: meq_fmul.
exact: (dim_z HS n0 EG Ed Hk).
Qed.
Theorem layers_so2 p q p' q' : g_so idR same 2 = Ok (G g) -> gdim g = 2%N ->
  let N := (p + q + (p' + q'))%N in layers p q p' q' (if odd N then 0 else 'C(N, N./2))%N.
Proof.
move=> EG Ed N.
have [G' E' [Og _]] := @flags_so 2 isT; move: E'; rewrite EG => -[E']; rewrite -E' in Og.
apply: (iso_layers (@exact_so idR same 2 isT) EG Ed isT (so_basic (isT : 1 < 2)%N EG) _ Og (s := p + q) (t := p' + q')) => //.
  by move=> A _ _ [].
exact: (dim_so2 HS _ _ EG Ed).
Qed.
End Main.

(** ** examples *)
Lemma count_example n : (1 < n)%N -> exists G,
  [/\ usable_as (g_s idR (@same RR) n) n G,
      counting exsinv linvE excr excr (ndim n) (ncs n) le_asc (the_gens G) (the_lies G) real_svd nonzero real_krylov 0%N,
      flag_correct exsinv linvE excr (ndim n) (fun h => g_orth (G h)) (ncs n) (the_gens G) (the_lies G) 0%N,
      g_orth (G 0%N) & wfr (ndim n) (ncs n) le_asc (pred1 0%N) (RBase (Some 0%N))].
Proof.
move=> n1; have [G [r [U GE T V _]]] := vis_example n1; exists G; have [E [h1 h2 h3 h4 [h5 h6]]] := U.
split=> //; first by move=> M; exact: (element_orth T h3).
by have [G' E' [Og _]] := flags_s n1; move: E'; rewrite E => -[E']; rewrite -E' in Og.
Qed.
Lemma sets_example n : (1 < n)%N -> exists G, usable_as (g_s idR (@same RR) n) n G /\ forall c d, exists a A B,
  [/\ rep_of (ndim n) (fun h => g_orth (G h)) (ncs n) le_asc 0%N (T_expr 1 0) a,
      mul_int (ndim n) (ncs n) le_asc a (Posz c.+1) = Ok (VRep A), mul_int (ndim n) (ncs n) le_asc a (Posz d.+1) = Ok (VRep B) &
      map_columns exsinv linvE excr excr (ndim n) (fun h => g_orth (G h)) (ncs n) le_asc (the_gens G) (the_lies G) real_svd nonzero real_krylov
        A B (c.+1 * (d.+1 * 2))].
Proof.
move=> n1; have [G [E HS]] := u_s (@same RR) n1; exists G; split=> // c d.
have [a [b [A [B [[Ra Rb] EA EB C]]]]] := layers_s HS (p := 1) (q := 0) (p' := 1) (q' := 0) n1 E erefl n1 c d.
by rewrite (rep_of_inj Rb Ra) in EB; exists a, A, B.
Qed.
