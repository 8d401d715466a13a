(** * DimGrp: equivariant_basis of a tensor representation of a group object, in terms of the
    matrices of the group. *)
From Coq Require Import Reals String.
From mathcomp Require Import all_ssreflect all_algebra.
From mathcomp Require Import zify.
From Verif Require Import Np NpLemmas Spec SpecLemmas LinOp LinOpSpec LinOpInv LinOpThm Rep RepSpec RepWf RepAlg RepMul RepFun RepOps RepExpr RepExprProofs RhoProofs RepThm RepThm1 DrhoThm RepDir Solver SolSpec SolAlg SolSvd SolFam SolProofs SolBasis SolThm DimSol Rstruct Expm GrpSpec GrpProofs GrpThm.
From Verif Require Import Groups GroupsSpec GroupsSpecR GroupsInit GroupsCtor GroupsThm GroupsFlag GroupsReal ExactSpec GroupsExact.
From Verif Require Import Nn NnSpec NnThm Data DataSpec DataAlg DataThm DataGroups DataCubeThm DimTenSpec.
Set Implicit Arguments.
Unset Strict Implicit.
Unset Printing Implicit Defensive.
Import GRing.Theory.
Local Open Scope ring_scope.

Section Main.
Variables (sinv : RR -> RR) (linv : nat -> seq RR -> seq RR).
Variables (crho cdrho : nat -> option gid -> gel RR -> res (op RR)).
Variables (gdim : gid -> nat) (csize : nat -> gid -> nat) (le : rel rep) (g : gid).
Variable G : gid -> group RR.
Variables (svd : nat -> nat -> seq RR -> seq RR * seq RR * seq RR) (big : pred RR).
Variable krylov : op RR -> res (darr RR).
Local Notation sz := (rsize gdim csize).
Local Notation elem := (element sinv linv gdim (the_gens G) (the_lies G) g).
Local Notation gorth := (fun h => g_orth (G h)).
Local Notation rep_of := (rep_of gdim gorth csize le g).
Local Notation wfr := (wfr gdim csize le (pred1 g)).
Local Notation basis := (basis idR sinv linv crho cdrho gdim csize le (the_gens G) (the_lies G) svd big krylov).
Local Notation solver_ok := (solver_ok idR gdim sinv linv crho cdrho csize (the_gens G) (the_lies G) svd big krylov).
Local Notation generators_ok := (generators_ok idR gdim sinv linv crho cdrho csize (pred1 g) (the_gens G) (the_lies G)).
Local Notation group_invariant := (group_invariant sinv linv crho gdim csize (pred1 g) (the_gens G) (the_lies G)).
Local Notation group_elem := (group_elem idR sinv linv crho gdim csize (pred1 g)).
Local Notation orth_elem := (orth_elem crho gdim csize gorth (pred1 g)).
Hypothesis HLI : linv_ok linv.
Hypothesis HC : customs_ok sinv linv crho cdrho gdim csize (pred1 g).
Hypothesis HCo : forall c C M, elem M -> crho c (Some g) M = Ok C -> g_orth (G g) -> orthm (csize c g) (den C).
Hypothesis O : total_order_on (key gdim csize le (pred1 g)) le.
Hypothesis C0 : forall c, (0 < csize c g)%N.
Variables (x : res (group RR)) (d : nat) (P : fmat RR -> Prop).
Hypothesis HX : exact_group x d P.
Hypothesis EG : x = Ok (G g).
Hypothesis Ed : gdim g = d.
Hypothesis d0 : (0 < d)%N.
Hypothesis HP : forall A, fr A = d -> fc A = d -> P A -> exists B, invTn d A B.
Hypothesis HO : g_orth (G g) -> forall A, fr A = d -> fc A = d -> P A -> isometry (fid RR d) A.
Hypothesis HB : basic_group d (G g).

Let G0 : (0 < gdim g)%N. Proof. by rewrite Ed. Qed.
Lemma inG_P X : in_group d (lmats (G g)) (gmats (G g)) X <-> [/\ fr X = d, fc X = d & P X].
Proof. by have [G1 E1 [_ H]] := HX; move: E1; rewrite EG => -[?]; subst G1. Qed.

(** ** the generators *)
Lemma basic_inv h : List.In h (the_gens G g) -> invertible idR sinv linv (gdim g) h.
Proof.
move=> Hh; have [_ HB2] := HB; have [GA K] := HB2 h Hh.
have [h1 h2 /(HP h1 h2)[B [[_ _ b1 b2] [L1 L2]]]] : [/\ fr (den h) = d, fc (den h) = d & P (den h)].
  by apply/inG_P; apply: I_gen (meq_refl _); apply: List.in_map.
rewrite Ed; case: h GA K Hh h1 h2 L1 L2 => // [m n D|p|n k] GA _ _ h1 h2 L1 L2.
- have [W _ _ _ [em en]] := GA; subst m n; rewrite /= in W.
  have E : OArr d d D = arr d (unflat d d D) by rewrite /arr flat_unflat //; apply/eqP.
  rewrite E; exact: (@inv_arr sinv linv HLI d (unflat d d D) (ftr B)).
all: split=> //; have [W _ _ _ Sh] := GA.
all: have [Q [EQ OQ WQ SQ VQ]] := @invT_ok RR sinv linv (fun _ _ => false) (fun _ _ H => ltac:(discriminate H)) _ W isT.
all: exists Q => //; split; last exact: invTn_is VQ.
all: by move: EQ => /= [<-]; split=> //; left.
Qed.
Lemma dim_generators : generators_ok.
Proof.
split.
- by move=> h A /eqP -> HA; apply: (elemG_ok HC); exact: basic_inv.
- move=> h A /eqP -> HA; have [HB1 _] := HB; have [D -> SD] := HB1 A HA.
  by rewrite -Ed in SD *; have [q1 q2] := @lie_arr RR idR (gdim g) D SD; apply: (elemL_ok HC).
- move=> c h C /eqP -> EC.
  apply: (@crho_id sinv linv crho cdrho gdim csize (pred1 g) HC (GMat (OI RR (gdim g))) g c C (eqxx g)) => //.
    by apply: (elem_of HC) => h' /eqP ->; exists (OI RR (gdim g)) => //; exact: inv_OI.
  by move=> A [<-]; exact: meq_refl.
move=> c h C /eqP -> EC; set Z := OArr _ _ _ in EC.
have [_ _ _ H] := HC; have [GZ NZ] := @lie_arr RR idR (gdim g) (nseq (gdim g * gdim g) 0) (size_nseq _ _).
have LZ : lie_elem idR cdrho gdim csize (pred1 g) (GMat Z) by apply: (lie_of HC) => h' /eqP ->; exists Z.
have [A [<-] [_ J]] := LZ g (eqxx g); have [C' EC' [_ [GC _]]] := J c; rewrite EC in EC'; case: EC' => ?; subst C'.
have [c1 c2] := gop_sz GC.
have [K _] := H c g 1 Z Z Z C C C (eqxx g) (And3 GZ GZ GZ) (And3 EC EC EC).
have := K; case=> [|_ _ E].
  by split=> // i j Hi Hj; rewrite /= nth_nseq if_same mulr0 addr0.
split=> // i j Hi Hj; have := E i j Hi Hj; rewrite /= mul1r => E1.
by apply: (@addrI _ (fe (den C) i j)); rewrite addr0 -E1.
Qed.
(** ** the basis, as an array *)
Lemma no_dir r : wfr r -> factors_nonzero idR gdim sinv linv crho cdrho csize (pred1 g) (the_gens G) (the_lies G) r.
Proof.
have ND dd p : ~~ isdir gdim csize le (pred1 g) (RDir dd p).
  apply/negP => /= /andP[/and4P[/and5P[_ A _ _ _] _ L U] _].
  case: dd A L U => [|[k1 n1] [|[k2 n2] dd]] //= /and3P[/dkey_gattr[g1 E1 /eqP e1] /dkey_gattr[g2 E2 /eqP e2] _] _.
  by rewrite E1 E2 e1 e2 inE eqxx.
have NS dd p : ~~ nonsum gdim csize le (pred1 g) (RDir dd p) by apply/negP => /or4P[] // ; exact/negP.
case/orP=> [N|S] dd p k Hd Hk.
  by case: r N Hd => // dd' p' N; rewrite inE => /eqP E; rewrite -E in N; case/negP: (NS dd p).
case: r S Hd => // ds p' /andP[/and5P[_ A _ _ _] _] Hd; have /andP[N _] := allP A _ Hd.
by case/negP: (NS dd p).
Qed.
Lemma basis_dense r : wfr r -> (forall c, c \in systems gdim csize r -> solver_ok c) ->
  exists B k Q, [/\ basis r = Ok B, to_dense idR B = Ok (sz r, k, Q),
    meq (fmul (ftr (unflat (sz r) k Q)) (unflat (sz r) k Q)) (fid RR k) &
    forall v, size v = sz r -> group_invariant r v <-> exists2 w, size w = k & matvec (sz r) k Q w = v].
Proof.
move=> W HS; have HGen := dim_generators; case: (HGen) => HG HL h1 h0.
have [B [k [Q [E D M H]]]] := @basis_mat RR idR sinv linv crho cdrho gdim csize le (pred1 g) (the_gens G) (the_lies G) svd big krylov
  (fun _ _ => erefl) (fun _ => erefl) erefl erefl HG HL h1 h0 O r W HS (no_dir W).
exists B, k, Q; split=> // v S.
rewrite -(H v S); split; [exact: (group_invariant_inv HLI HC HGen W S) | exact: (invariant_group HLI HC HGen W S)].
Qed.

(** ** the elements *)
Lemma elem_ok M : elem M -> group_elem M /\ orth_elem M.
Proof.
move=> EM; split; first exact: (element_group HC EM).
move=> h /eqP -> Oh; split=> [A EA|c C EC]; last by have [_ _ H1 H2] := HCo EM EC Oh; split.
have [a1 a2 PA] := elem_P HX EG Ed EM EA; have I := HO Oh a1 a2 PA.
have L : meq (fmul (ftr (den A)) (den A)) (fid RR d).
  apply: meq_trans I; apply: meq_fmul => //.
  by apply: meq_sym; rewrite -{1}a1; exact: fmul_id_l.
by rewrite Ed; split=> //; apply: (@one_sided RR d (ftr (den A)) (den A)).
Qed.
Lemma elem_exists A : fr A = d -> fc A = d -> P A -> exists M A', [/\ elem M, glook M (Some g) = Ok A' & meq (den A') A].
Proof.
move=> a1 a2 PA; have /inG_P I : [/\ fr A = d, fc A = d & P A] by [].
rewrite -Ed in I; have GX := in_generated I; have EM := fel_is HLI dim_generators GX.
exists (fel gdim (fun=> A)), (arr (gdim g) A); split=> //; first by exists (fun=> A).
by apply: den_arr; rewrite Ed.
Qed.

Variables (e : expr) (N : nat) (F : forall S : comRingType, fmat S -> fmat S -> fmat S).
Hypothesis HF : forall S A B, @espec S A B e = Some (SMat (F (A None) (B None))).
Hypothesis SF : forall S X Y, fr X = d -> fc X = d -> fr Y = d -> fc Y = d -> fr (@F S X Y) = N /\ fc (@F S X Y) = N.
Hypothesis MF : forall X Y X' Y', meq X X' -> meq Y Y' -> meq (@F RR X Y) (@F RR X' Y').
Theorem fixed_tensors : (forall c, solver_ok c) ->
  exists r B k Q, [/\ rep_of e r, sz r = N, basis r = Ok B, to_dense idR B = Ok (N, k, Q) &
    meq (fmul (ftr (unflat N k Q)) (unflat N k Q)) (fid RR k) /\
    forall v, size v = N -> (forall A B, invTn d A B -> P A -> forall i, (i < N)%N -> act (F A B) (nth 0 v) i = nth 0 v i) <->
      exists2 w, size w = k & matvec N k Q w = v].
Proof.
move=> HS; have [r Rr [W Sz]] := @rep_exists gdim gorth csize le g O G0 C0 e _ (HF _ _).
have SN : sz r = N.
  have T : sz (ta gorth (RBase (Some g))) = d by rewrite /ta /t_atom /=; case: ifP => _; exact: Ed.
  by rewrite Sz; apply: (proj1 (SF _ _ _ _)).
have [B [k [Q [EB ED M H]]]] := basis_dense W (fun c _ => HS c).
exists r, B, k, Q; rewrite SN in ED M H; split=> //; split=> // v Sv; rewrite -(H v Sv).
have act_of M0 A : elem M0 -> glook M0 (Some g) = Ok A ->
    exists2 B', invTn d (den A) B' & rho_dense idR sinv linv crho r M0 = Ok (N, N, flat (F (den A) B')).
  move=> EM EA; have [GM OM] := elem_ok EM.
  have := rep_rho O G0 C0 Rr GM OM (HF _ _); rewrite /= (arho_V _ _ _ EA) => E.
  have J := arho_invT GM OM (@leaf_atomic gdim csize g G0 C0 None).
  rewrite /= Ed (arho_V _ _ _ EA) in J; exists (arho sinv linv crho M0 (ta gorth (RBase (Some g)))) => //.
  have [[j1 j2 j3 j4] _] := J; have [s1 s2] := SF j1 j2 j3 j4; by rewrite E s1 s2.
have fixE X : fr X = N -> fc X = N -> matvec N N (flat X) v = v <-> forall i, (i < N)%N -> act X (nth 0 v) i = nth 0 v i.
  move=> x1 x2; rewrite (matvec_flat x1 x2 Sv); split=> [Ev i Hi|Hv].
    by rewrite -[in RHS]Ev nth_mkseq.
  apply: (@eq_from_nth _ 0); rewrite size_mkseq ?Sv // => i Hi; by rewrite nth_mkseq // -[in RHS]Hv.
split=> [Fx M0 X GX EM|GI A B0 AB PA i Hi].
  have EM0 : elem M0 by exists X.
  have [A EA _] := EM g (eqxx g); have [B' J ER] := act_of M0 A EM0 EA; rewrite SN; exists (flat (F (den A) B')) => //.
  have [[j1 j2 j3 j4] _] := J; have [s1 s2] := SF j1 j2 j3 j4.
  by apply/fixE => //; apply: Fx J _; have [_ _] := elem_P HX EG Ed EM0 EA.
have [[a1 a2 b1 b2] _] := AB; have [M0 [A' [EM EA ME]]] := elem_exists a1 a2 PA.
have [X GX EX] := EM; have [D] := GI M0 X GX EX; rewrite SN.
have [B' J ->] := act_of M0 A' EM EA => -[<-].
have [[j1 j2 j3 j4] _] := J; have [s1 s2] := SF j1 j2 j3 j4.
move/(fixE _ s1 s2) => E; rewrite -(E i Hi); apply: act_meq; last by have [-> _] := SF a1 a2 b1 b2.
apply: MF; first exact: meq_sym.
apply: (invTn_uniq AB); move: J => [_ [J1 J2]]; split=> //; split; [apply: meq_trans J1 | apply: meq_trans J2]; apply: meq_fmul => //=.
1,3: exact: meq_sym.
  by rewrite a2 j4.
by rewrite j3 a1.
Qed.
End Main.
