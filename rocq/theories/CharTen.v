(** * CharTen: the number of invariant tensors of a finite group of orthogonal matrices; C(k),
    D(k), Parity and TimeReversal. *)
From Coq Require Import Reals Lra String.
From mathcomp Require Import all_ssreflect all_algebra.
From mathcomp Require Import zify.
From Verif Require Import Np NpLemmas Spec SpecLemmas LinOp LinOpSpec LinOpInv MxBridge LinOpThm Rep RepSpec RepWf RepAlg RepFun RepExpr RhoProofs RepThm RepThm1 Solver SolSpec SolAlg SolBasis SolThm DimSol Rstruct Expm GrpSpec GrpProofs GrpThm.
From Verif Require Import Groups GroupsSpec GroupsSpecR GroupsInit GroupsCtor GroupsThm GroupsFlag GroupsReal GroupsTol ExactSpec GroupsExact GroupsExactD.
From Verif Require Import Nn NnSpec NnThm Data DataSpec DataAlg DataThm DataGroups DataCubeThm DimTenSpec DimGrp DimTen CharSpec CharThm.
Set Implicit Arguments.
Unset Strict Implicit.
Unset Printing Implicit Defensive.
Import GRing.Theory.
Local Open Scope ring_scope.

Definition ftrace (X : fmat RR) : RR := \sum_(0 <= i < fr X) fe X i i.
Lemma ftrace_kron A B : fc A = fr A -> fc B = fr B -> ftrace (fkron A B) = ftrace A * ftrace B.
Proof.
move=> a b; rewrite /ftrace /= sum_mul mulr_suml; apply: eq_sum => i Hi; rewrite mulr_sumr; apply: eq_sum => j Hj.
by rewrite b !divnMDl ?(leq_ltn_trans _ Hj) // !modnMDl (divn_small Hj) (modn_small Hj) addn0.
Qed.
Lemma ftrace_pow d n A : fr A = d -> fc A = d -> ftrace (fkronl (nseq n A)) = ftrace A ^+ n.
Proof.
move=> a1 a2; elim: n => [|n IH]; first by rewrite /ftrace /= big_nat1 expr0.
have [s1 s2] := fkronl_sz n a1 a2.
by rewrite exprS -IH -ftrace_kron //= ?a1 ?a2 // s1 s2.
Qed.
Lemma tr_mxf N X : fr X = N -> \tr (mxf N N X) = ftrace X.
Proof. by move=> <-; rewrite /ftrace big_mkord; apply: eq_bigr => i _; rewrite mxE. Qed.
Lemma kron_mulp d n (A B : fmat RR) : fr A = d -> fc A = d -> fr B = d -> fc B = d ->
  meq (fmul (fkronl (nseq n A)) (fkronl (nseq n B))) (fkronl (nseq n (fmul A B))).
Proof.
move=> a1 a2 b1 b2; elim: n => [|n IH] /=; first exact: fmul_id_l.
have [s1 s2] := fkronl_sz n a1 a2; have [t1 t2] := fkronl_sz n b1 b2.
apply: meq_trans (fmul_fkron _ _) _; rewrite ?a2 ?b1 ?s2 ?t1 //.
by apply: meq_fkron.
Qed.

Section Main.
Variables (sinv : RR -> RR) (linv : nat -> seq RR -> seq RR).
Variables (crho cdrho : nat -> option gid -> gel RR -> res (op RR)).
Variables (gdim : gid -> nat) (csize : nat -> gid -> nat) (le : rel rep) (g : gid).
Variable G : gid -> group RR.
Variables (svd : nat -> nat -> seq RR -> seq RR * seq RR * seq RR) (big : pred RR).
Variable krylov : op RR -> res (darr RR).
Local Notation sz := (rsize gdim csize).
Local Notation gorth := (fun h => g_orth (G h)).
Local Notation rep_of := (rep_of gdim gorth csize le g).
Local Notation basis := (basis idR sinv linv crho cdrho gdim csize le (the_gens G) (the_lies G) svd big krylov).
Hypothesis HS : setting sinv linv crho cdrho gdim csize le g G svd big krylov.

Theorem tensors_count x d P Es p q : exact_group x d P -> x = Ok (G g) -> gdim g = d -> (0 < d)%N -> basic_group d (G g) ->
  (forall A, fr A = d -> fc A = d -> P A -> isometry (fid RR d) A) -> enumerates d P Es ->
  exists r k Q, [/\ rep_of (T_expr p q) r, sz r = (d ^ (p + q))%N, returns (basis r) (d ^ (p + q)) k Q &
    (size Es)%:R * k%:R = \sum_(D <- Es) trace d D ^+ (p + q) /\
    spans (d ^ (p + q)) k Q (fun v => forall A, fr A = d -> fc A = d -> P A -> fixes (d ^ (p + q)) (fkronl (nseq (p + q) A)) v)].
Proof.
move=> HX EG Ed d0 HB HI HE.
have [r [k [Q [h1 h2 h3 [MQ HQ]]]]] := tensors_iso HS HX EG Ed d0 HB p q HI.
exists r, k, Q; split=> //; split; last by split.
set n := (p + q)%N in h1 h2 h3 MQ HQ *.
have HP A : fr A = d -> fc A = d -> P A -> exists B, invTn d A B.
  by move=> a1 a2 PA; exists A; apply: iso_invTn => //; exact: HI.
have [HLI HC _ O _] := HS.
have KS (D : seq RR) : fr (fkronl (nseq n (unflat d d D))) = (d ^ n)%N /\ fc (fkronl (nseq n (unflat d d D))) = (d ^ n)%N.
  by apply: fkronl_sz.
pose F (D : seq RR) : 'M[RR]_(d ^ n) := mxf (d ^ n) (d ^ n) (fkronl (nseq n (unflat d d D))).
have PU X : fr X = d -> fc X = d -> P X -> P (unflat d d (flat X)).
  have [G0 E0 [_ H0]] := HX => x1 x2 PX; have I0 : in_group d (lmats G0) (gmats G0) X by apply/H0.
  suff : in_group d (lmats G0) (gmats G0) (unflat d d (flat X)) by case/H0.
  by apply: (in_group_meq _ I0) => //; rewrite -{1}x1 -x2; exact: unflat_flat.
rewrite -(averaging (F := F) MQ).
- apply: eq_bigr => D _; rewrite /F tr_mxf ?(KS D).1 // (ftrace_pow n (d := d)) // /trace /ftrace /=.
- move=> D1 H1; rewrite mulmx_sumr -[RHS](perm_big _ (mul_perm HX EG HP HE H1)) big_map.
  apply: eq_big_seq => D HD; rewrite /F -(mxf_mul _ _ (k := (d ^ n)%N)) ?(KS D1).2 //.
  apply: mxf_meq; rewrite /= ?(KS D1).1 ?(KS D).2 //.
  apply: meq_trans (kron_mulp _ _ _ _ _) _; rewrite // /mulE.
  apply: fkronl_nseq_meq; apply: meq_sym.
  exact: (unflat_flat (fmul (unflat d d D1) (unflat d d D))).
move=> v Sv; rewrite -(HQ v Sv); split=> H.
  move=> A a1 a2 PA; have [s1 s2] := fkronl_sz n a1 a2.
  have HD : flat A \in Es by apply/(proj2 HE); split; [rewrite size_flat a1 a2 | exact: PU].
  have MA : meq (unflat d d (flat A)) A by rewrite -{1}a1 -a2; exact: unflat_flat.
  have := H _ HD; rewrite /F => E.
  apply/(fixes_meq _ s2 s1 (meq_sym (fkronl_nseq_meq n MA))) => i Hi.
  have /matrixP/(_ (Ordinal Hi) ord0) := E; rewrite !mxE big_mkord /= muln1 addn0 => <-.
  by apply: eq_bigr => j _; rewrite !mxE /= muln1 addn0.
move=> D HD; have [SD PD] := proj1 (proj2 HE D) HD; have := H (unflat d d D) erefl erefl PD => K.
apply/matrixP => i j; rewrite !mxE /= !ord1 muln1 addn0 -(K i (ltn_ord i)) big_mkord.
by apply: eq_bigr => l _; rewrite !mxE /= muln1 addn0.
Qed.
End Main.
