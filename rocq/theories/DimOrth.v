(** * DimOrth: the equivariant tensors of O(n), SO(n) and of groups that contain -I. *)
From Coq Require Import Reals String ClassicalEpsilon Lra.
From mathcomp Require Import all_ssreflect all_algebra all_fingroup.
From mathcomp Require Import zify.
From Verif Require Import Np NpLemmas Spec SpecLemmas LinOp LinOpSpec LinOpInv LinOpProofs MxBridge Rep RepSpec RepMat RepWf RepAlg RepMul RepFun RepExpr RhoProofs RepThm RepThm1 Solver SolSpec Rstruct Expm GrpSpec GrpProofs.
From Verif Require Import Groups GroupsSpec GroupsPerm GroupsSpecR GroupsInit GroupsCtor GroupsThm GroupsFlag GroupsReal GroupsForm ExactSpec GroupsExact GroupsExactL GroupsExactD.
From Verif Require Import Nn NnSpec NnThm Data DataSpec DataAlg DataThm DataGroups DataCubeThm DimSpec DimAlg DimComb DimTenSpec DimGrp DimTen DimPerm DimThm.
Set Implicit Arguments.
Unset Strict Implicit.
Unset Printing Implicit Defensive.
Import GRing.Theory.
Local Open Scope ring_scope.

Lemma opp_zero (a : RR) : - a = a -> a = 0.
Proof. by move=> H; have h : Ropp a = a := H; change (@eq R a R0); lra. Qed.
Lemma num2 n i j : num n [:: i; j] = (i * n + j)%N.
Proof. by rewrite /= expn1 expn0 muln1 addn0. Qed.
Lemma tuple2 n t : tuple_ok n 2 t -> exists i j, [/\ t = [:: i; j], (i < n)%N & (j < n)%N].
Proof. by case: t => [|i [|j [|? ?]]] [] //= _ H; case/and3P: H => *; exists i, j. Qed.

Section Main.
Variables (close : seq RR -> seq RR -> bool) (recip : nat -> RR).
Variables (sinv : RR -> RR) (linv : nat -> seq RR -> seq RR).
Variables (crho cdrho : nat -> option gid -> gel RR -> res (op RR)).
Variables (gdim : gid -> nat) (csize : nat -> gid -> nat) (le : rel rep) (g : gid).
Variable G : gid -> group RR.
Variables (svd : nat -> nat -> seq RR -> seq RR * seq RR * seq RR) (big : pred RR).
Variable krylov : op RR -> res (darr RR).
Local Notation sz := (rsize gdim csize).
Local Notation gorth := (fun h => g_orth (G h)).
Local Notation rep_of := (rep_of gdim gorth csize le g).
Local Notation basis := (basis idR sinv linv crho cdrho gdim csize le (the_gens G) (the_lies G) svd big krylov).
Hypothesis HS : setting sinv linv crho cdrho gdim csize le g G svd big krylov.

(** ** groups with -I have no invariant tensors of odd rank *)
Theorem dim_odd x d P p q : exact_group x d P -> x = Ok (G g) -> gdim g = d -> (0 < d)%N -> basic_group d (G g) ->
  (forall A, fr A = d -> fc A = d -> P A -> exists B, invTn d A B) ->
  (g_orth (G g) -> forall A, fr A = d -> fc A = d -> P A -> isometry (fid RR d) A) ->
  (forall A, meq A (fopp (fid RR d)) -> P A) -> odd (p + q) ->
  exists r Q, [/\ rep_of (T_expr p q) r, sz r = (d ^ (p + q))%N & returns (basis r) (d ^ (p + q)) 0 Q].
Proof.
move=> HX EG Ed d0 HB HP HO HN OD; have [r [k [Q [R1 R2 R3 [HQ HU]]]]] := tensors HS HX EG Ed d0 HB p q HP HO.
exists r, Q; split=> //; suff -> : 0%N = k by [].
apply/eqP; rewrite eq_sym -leqn0.
apply: (@points_le (d ^ (p + q))%N k Q _ [::] HQ HU) => // v Sv Uv _ i Hi.
pose M := smat d (fun=> -1) (iota 0 d).
have EM : meq M (fopp (fid RR d)) by split=> //= a b Ha Hb; rewrite nth_iota // mulN1r.
have IM : isometry (fid RR d) M by apply: smat_isometry; [exact: is_perm_iota | move=> a _; rewrite mulrNN mulr1].
have II := @iso_invTn d M erefl erefl IM.
have := Uv M M II (HN M EM); have [s1 s2] := @tensor_sz d p q RR M M erefl erefl erefl erefl.
rewrite (fixes_meq _ _ _ (tensor_same p q (meq_refl M))) // => F; have [t Ht <-] := num_surj Hi.
have := fixes_smat (is_perm_iota d) F Ht; rewrite (moved_id _ Ht); last by move=> a Ha; rewrite nth_iota.
case: Ht => St _; rewrite big_const_seq count_predT St iter_mulr_1 -signr_odd OD mulN1r; exact: opp_zero.
Qed.

(** ** invariant matrices of O(n) and SO(n) *)
Theorem tensors_scalar x n P p q : exact_group x n P -> x = Ok (G g) -> gdim g = n -> (0 < n)%N -> basic_group n (G g) ->
  (forall A, fr A = n -> fc A = n -> P A -> isometry (fid RR n) A) ->
  (forall i j, (i < n)%N -> (j < n)%N -> i != j -> exists2 s, s i * s j = -1 & P (smat n s (iota 0 n))) ->
  (forall i j, (i < n)%N -> (j < n)%N -> i != j -> exists2 s, s i * s i = 1 & P (smat n s (swap n i j))) ->
  (p + q = 2)%N ->
  exists r Q, [/\ rep_of (T_expr p q) r, sz r = (n * n)%N, returns (basis r) (n * n) 1 Q & spans (n * n) 1 Q (scalar_tensor n)].
Proof.
move=> HX EG Ed n0 HB HI HF HW E2; have [r [k [Q [R1 R2 R3]]]] := tensors_iso HS HX EG Ed n0 HB p q HI.
rewrite E2 in R2 R3 *; rewrite expnS expn1 in R2 R3 *; set U := (X in spans _ _ _ X) => HU.
have UE v : size v = (n * n)%N -> U v <-> scalar_tensor n v.
  move=> Sv; split=> [Hv|[c Hc] A a1 a2 PA i Hi].
    have H s w : P (smat n s w) -> is_perm n w -> forall i j, (i < n)%N -> (j < n)%N ->
        s i * s j * nth 0 v (nth 0%N w i * n + nth 0%N w j)%N = nth 0 v (i * n + j)%N.
      move=> Pw W i j Hi Hj; have Ok2 : tuple_ok n 2 [:: i; j] by split=> //=; rewrite Hi Hj.
      have F : fixes (n ^ 2) (fkronl (nseq 2 (smat n s w))) v by rewrite expnS expn1; exact: (Hv (smat n s w)).
      by have := fixes_smat W F Ok2; rewrite !num2 big_cons big_seq1.
    have O i j : (i < n)%N -> (j < n)%N -> i != j -> nth 0 v (i * n + j)%N = 0.
      move=> Hi Hj ne; have [s E1 Ps] := HF i j Hi Hj ne; apply: opp_zero.
      by have := H s _ Ps (is_perm_iota n) i j Hi Hj; rewrite !nth_iota // E1 mulN1r.
    have D i j : (i < n)%N -> (j < n)%N -> nth 0 v (i * n + i)%N = nth 0 v (j * n + j)%N.
      move=> Hi Hj; have [-> //|ne] := eqVneq i j; have [s E1 Ps] := HW i j Hi Hj ne.
      have := H s _ Ps (swap_perm Hi Hj) i i Hi Hi; by rewrite !swap_nth // eqxx E1 mul1r.
    exists (nth 0 v 0); move=> i j Hi Hj; have [<-|ne] := eqVneq i j; last by rewrite mulr0 O.
    by rewrite mulr1 (D i 0%N).
  have I := HI A a1 a2 PA; have [[_ _ _ _] [[_ _ AA] _]] := iso_invTn a1 a2 I.
  have [t Ht] : exists2 t, tuple_ok n 2 t & num n t = i by apply: num_surj; rewrite expnS expn1.
  have [a [b [-> Ha Hb]]] := tuple2 Ht; rewrite num2 => <-.
  have K : meq (fkronl (nseq 2 A)) (fkron A A) by apply: meq_fkron; [exact: meq_refl | exact: fkron_1_r].
  have [s1 s2] := fkronl_sz 2 a1 a2; rewrite expnS expn1 in s1 s2.
  have Lt : (a * n + b < n * n)%N by nia.
  have := act_meq (nth 0 v) K (_ : (a * n + b < fr (fkronl (nseq 2 A)))%N).
  rewrite s1 => /(_ Lt); rewrite {1}/act s2 => ->; rewrite act_kron // Hc //.
  rewrite (eq_sum (g := fun e => c * (fe A a e * fe A b e))) => [|e He]; last first.
    rewrite (sum_only (i := e)) // ?Hc // ?eqxx ?mulr1 1?mulrC // => f Hf ne.
    by rewrite Hc // eq_sym (negbTE ne) mulr0 mulr0.
  by rewrite -mulr_sumr; congr (_ * _); have := AA a b; rewrite /= a1 a2 => ->.
have SU := spans_iff UE HU; have [HQ' HU'] := SU.
have E1 : k = 1%N.
  apply: (@points_eq (n * n)%N k Q (scalar_tensor n) [:: 0%N] HQ' HU').
  - by move=> y; rewrite inE => /eqP ->; rewrite muln_gt0 n0.
  - case=> // _; exists (mkseq (fun i => (i %/ n == i %% n)%N%:R : RR) (n * n)); first by rewrite size_mkseq.
    split; last by case=> // _; rewrite /= nth_mkseq ?muln_gt0 ?n0 // div0n mod0n.
    exists 1 => i j Hi Hj; rewrite nth_mkseq; last by nia.
    by rewrite divnMDl // modnMDl divn_small // modn_small // addn0 mul1r.
  - move=> v Sv [c Hc] H i Hi.
    have c0 : c = 0 by have := Hc 0%N 0%N n0 n0; rewrite mul0n addn0 H ?inE // eqxx mulr1.
    by rewrite (divn_eq i n) Hc ?c0 ?mul0r // ?ltn_mod // ltn_divLR.
by subst k; exists r, Q.
Qed.

Definition flip (i : nat) (k : nat) : RR := if k == i then -1 else 1.
Lemma flip_sq i k : flip i k * flip i k = 1.
Proof. by rewrite /flip; case: eqP => _; rewrite ?mulrNN mulr1. Qed.
Theorem scalar_o n p q : (0 < n)%N -> g_o idR close n = Ok (G g) -> gdim g = n -> (p + q = 2)%N ->
  exists r Q, [/\ rep_of (T_expr p q) r, sz r = (n * n)%N, returns (basis r) (n * n) 1 Q & spans (n * n) 1 Q (scalar_tensor n)].
Proof.
move=> n0 EG Ed E2; have B : basic_group n (G g).
  case: n n0 EG {Ed} => // n _ EG; have [a [h [Ea Eh B]]] := o_ok idR close n.
  by apply: built_basic B EG _ _; [eexists | exact: arr_items].
apply: (tensors_scalar (exact_o idR close n0) EG Ed n0 B) => //.
- move=> i j Hi Hj ne; exists (flip i); first by rewrite /flip eqxx eq_sym (negbTE ne) mulr1.
  by apply: smat_isometry => [|k _]; [exact: is_perm_iota | exact: flip_sq].
- move=> i j Hi Hj ne; exists (fun=> 1); first by rewrite mulr1.
  by apply: smat_isometry => [|k _]; [exact: swap_perm | rewrite mulr1].
Qed.
Lemma prod_flip n i : (i < n)%N -> \prod_(k < n) flip i k = -1.
Proof.
move=> Hi; rewrite (bigD1 (Ordinal Hi)) //= {1}/flip eqxx big1 ?mulr1 // => k ne.
by rewrite /flip (negbTE (ne : (k != i :> nat))).
Qed.
Theorem scalar_so n p q : (2 < n)%N -> g_so idR close n = Ok (G g) -> gdim g = n -> (p + q = 2)%N ->
  exists r Q, [/\ rep_of (T_expr p q) r, sz r = (n * n)%N, returns (basis r) (n * n) 1 Q & spans (n * n) 1 Q (scalar_tensor n)].
Proof.
move=> n2 EG Ed E2; have n1 : (1 < n)%N by lia.
have n0 : (0 < n)%N by lia.
have B : basic_group n (G g).
  have [a Ea B] := so_ok idR close n1.
  by apply: built_basic B EG _ _; [eexists | exact: arr_items].
apply: (tensors_scalar (exact_so idR close n1) EG Ed n0 B) => //; first by move=> A _ _ [].
- move=> i j Hi Hj ne; have [l Hl /andP[li lj]] : exists2 l, (l < n)%N & (l != i) && (l != j).
    case: (ltngtP 0 i) => // h0; case: (ltngtP 0 j) => // h1; try by exists 0%N; rewrite // !neq_ltn ?h0 ?h1.
    + by subst j; case: (ltngtP 1 i) => h2; [exists 1%N | lia | exists 2%N]; rewrite //; lia.
    + by subst i; case: (ltngtP 1 j) => h2; [exists 1%N | lia | exists 2%N]; rewrite //; lia.
    + by subst i j.
  exists (fun k => flip i k * flip l k).
    by rewrite /flip eqxx [i == l]eq_sym (negbTE li) [j == i]eq_sym (negbTE ne) [j == l]eq_sym (negbTE lj) !mulr1.
  split; first by apply: smat_isometry => [|k _]; [exact: is_perm_iota | rewrite mulrACA !flip_sq mulr1].
  by rewrite det_smat big_split /= !prod_flip // det_pid mulr1 mulrNN mulr1.
- move=> i j Hi Hj ne; exists (flip i); first exact: flip_sq.
  split; first by apply: smat_isometry => [|k _]; [exact: swap_perm | exact: flip_sq].
  by rewrite det_smat prod_flip // det_swap // mulrNN mulr1.
Qed.
End Main.
