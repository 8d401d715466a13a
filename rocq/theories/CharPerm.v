(** * CharPerm: the number of invariant tensors of a finite group of permutations; the cube. *)
From Coq Require Import Reals Lra String.
From mathcomp Require Import all_ssreflect all_algebra.
From mathcomp Require Import zify.
From Verif Require Import Np NpLemmas Spec SpecLemmas LinOp LinOpSpec LinOpInv MxBridge Rep RepSpec RepWf RepExpr Solver SolSpec Rstruct Expm GrpSpec.
From Verif Require Import Groups GroupsSpec GroupsSpecR GroupsInit GroupsCtor GroupsThm GroupsFlag GroupsReal GroupsPerm GroupsTol ExactSpec GroupsExact GroupsExactD GroupsExactE.
From Verif Require Import Nn NnSpec NnThm Data DataSpec DataGroups DataCubeThm DimTenSpec DimGrp DimTen DimPerm CharSpec CharThm CharTen CharTrig CharRot.
Set Implicit Arguments.
Unset Strict Implicit.
Unset Printing Implicit Defensive.
Import GRing.Theory.
Local Open Scope ring_scope.

Lemma tr_perm n p : ftrace (perm_mat RR n p) = (fixed_points n p)%:R.
Proof. by rewrite /ftrace /fixed_points /= natr_sum. Qed.
Lemma perm_mat_inj n p q : is_perm n p -> is_perm n q -> meq (perm_mat RR n p) (perm_mat RR n q) -> p = q.
Proof.
move=> Pp Pq [_ _ H]; apply: (@eq_from_nth _ 0%N); first by rewrite (is_perm_size Pp) (is_perm_size Pq).
move=> i; rewrite (is_perm_size Pp) => Hi; have := H i (nth 0%N p i) Hi (is_perm_nth Pp Hi).
by rewrite /= eqxx; case: eqP => // _ /eqP; rewrite oner_eq0.
Qed.

Section Main.
Variable close : seq RR -> seq RR -> bool.
Variables (sinv : RR -> RR) (linv : nat -> seq RR -> seq RR).
Variables (crho cdrho : nat -> option gid -> gel RR -> res (op RR)).
Variables (gdim : gid -> nat) (csize : nat -> gid -> nat) (le : rel rep) (g : gid).
Variable G : gid -> group RR.
Variables (svd : nat -> nat -> seq RR -> seq RR * seq RR * seq RR) (big : pred RR).
Variable krylov : op RR -> res (darr RR).
Local Notation sz := (rsize gdim csize).
Local Notation gorth := (fun h => g_orth (G h)).
Local Notation rep_of := (rep_of gdim gorth csize le g).
Local Notation basis := (basis idR sinv linv crho cdrho gdim csize le (the_gens G) (the_lies G) svd big krylov).
Hypothesis HS : setting sinv linv crho cdrho gdim csize le g G svd big krylov.

Theorem perms_count x n (ps : seq (seq nat)) p q : uniq ps -> (forall s, s \in ps -> is_perm n s) ->
  exact_group x n (fun X => exists2 s, s \in ps & meq X (perm_mat RR n s)) ->
  x = Ok (G g) -> gdim g = n -> (0 < n)%N -> basic_group n (G g) ->
  exists r k Q, [/\ rep_of (T_expr p q) r, sz r = (n ^ (p + q))%N, returns (basis r) (n ^ (p + q)) k Q &
    (size ps * k = \sum_(s <- ps) fixed_points n s ^ (p + q))%N].
Proof.
move=> Us Ps HX EG Ed n0 HB.
have HI A : fr A = n -> fc A = n -> (exists2 s, s \in ps & meq A (perm_mat RR n s)) -> isometry (fid RR n) A.
  move=> a1 a2 [s /Ps Hs E]; apply: meq_trans (perm_isometry Hs); apply: meq_fmul => //; first exact: meq_ftr.
  by apply: meq_fmul.
have HE : enumerates n (fun X => exists2 s, s \in ps & meq X (perm_mat RR n s)) [seq flat (perm_mat RR n s) | s <- ps].
  by apply: (enum_map Us) => // a b /Ps Ha /Ps Hb; exact: perm_mat_inj.
have [r [k [Q [h1 h2 h3 [h4 _]]]]] := tensors_count HS p q HX EG Ed n0 HB HI HE.
exists r, k, Q; split=> //; apply: nat_inj; move: h4; rewrite size_map natrM => ->.
rewrite natr_sum big_map; apply: eq_bigr => s _.
by rewrite trace_flat // tr_perm natrX.
Qed.
Definition rots : seq (seq nat) := filter rotation (permutations (iota 0 6)).
Lemma rots_fix : perm_eq (map (fixed_points 6) rots) (6%N :: nseq 9 2%N ++ nseq 14 0%N).
Proof.
have -> : map (fixed_points 6) rots = map (fun p => count (fun i => nth 0%N p i == i) (iota 0 6)) rots.
  apply: eq_map => s; rewrite /fixed_points /index_iota subn0; elim: (iota 0 6) => [|i l IH]; rewrite ?big_nil // big_cons IH.
  by [].
by vm_compute.
Qed.
Theorem dim_cube p q : (0 < p + q)%N -> g_cube idR close = Ok (G g) -> gdim g = 6%N ->
  exists r Q, [/\ rep_of (T_expr p q) r, sz r = (6 ^ (p + q))%N & returns (basis r) (6 ^ (p + q)) ((6 ^ (p + q) + 9 * 2 ^ (p + q)) %/ 24) Q].
Proof.
move=> n0 EG Ed.
have HB : basic_group 6 (G g) by apply: built_basic (cube_ok idR close) EG _ _; [eexists | exact: perm_items].
have E s : (s \in rots) = rotation s.
  by rewrite mem_filter mem_permutations; case R : (rotation s) => //=; case/and3P: R.
have HX : exact_group (g_cube idR close) 6 (fun X => exists2 s, s \in rots & meq X (perm_mat RR 6 s)).
  have [G0 E0 [h1 h2]] := exact_cube idR close; exists G0 => //; split=> // X; rewrite h2.
  by split=> -[x1 x2 [s Hs M]]; split=> //; exists s => //; rewrite ?E // -E.
have Ps s : s \in rots -> is_perm 6 s by rewrite E => /and3P[].
have [r [k [Q [h1 h2 h3 h4]]]] := perms_count p q (filter_uniq _ (permutations_uniq _)) Ps HX EG Ed isT HB.
exists r, Q; split=> //; set n := (p + q)%N in h4 h3 n0 *.
suff <- : (24 * k = 6 ^ n + 9 * 2 ^ n)%N by rewrite mulKn.
have <- : size rots = 24%N by vm_compute.
rewrite h4 -(big_map (fixed_points 6) xpredT (fun a => a ^ n)%N) (perm_big _ rots_fix) /=.
rewrite !big_cons big_nil !(exp0n n0); lia.
Qed.
End Main.
