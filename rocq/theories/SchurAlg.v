(** * SchurAlg: tensors of rank two as matrices, matrices that commute with a group. *)
From Coq Require Import Reals Lra.
From mathcomp Require Import all_ssreflect all_algebra.
From mathcomp Require Import zify.
From Verif Require Import Np NpLemmas Spec SpecLemmas LinOp LinOpSpec LinOpInv MxBridge Rep SolSpec Rstruct Expm GroupsSpec.
From Verif Require Import DataAlg DimAlg DimTenSpec DimTen SchurSpec.
Set Implicit Arguments.
Unset Strict Implicit.
Unset Printing Implicit Defensive.
Import GRing.Theory.
Local Open Scope ring_scope.

Lemma mul_zero (a b : RR) : a * b = 0 -> a <> 0 -> b = 0.
Proof. by move=> H N; case: (Rmult_integral a b H) => // /N. Qed.

(** ** the action on tensors of rank two *)
Lemma fixes_kron n (A B : fmat RR) v : fr A = n -> fc A = n -> fr B = n -> fc B = n ->
  fixes (n * n) (fkron A B) v <-> mxf n n A *m toM n n v *m (mxf n n B)^T = toM n n v.
Proof.
move=> a1 a2 b1 b2.
have E (i j : 'I_n) : \sum_(0 <= t < n * n) fe (fkron A B) (i * n + j)%N t * nth 0 v t = (mxf n n A *m toM n n v *m (mxf n n B)^T) i j.
  rewrite sum_mul mxE big_mkord.
  have -> : \sum_(k < n) (mxf n n A *m toM n n v) i k * (mxf n n B)^T k j = \sum_(f < n) \sum_(e < n) fe A i e * fe B j f * nth 0 v (e * n + f)%N.
    apply: eq_bigr => f _; rewrite !mxE mulr_suml; apply: eq_bigr => e _; rewrite !mxE /=; by rewrite -!mulrA; congr (_ * _); rewrite mulrC.
  rewrite [RHS]exchange_big /=; apply: eq_bigr => e _; rewrite big_mkord; apply: eq_bigr => f _.
  rewrite /= b1 b2 !divnMDl ?modnMDl; try (by case: (n) i => [[]|]).
  by rewrite !divn_small // !modn_small // !addn0.
split=> H.
  apply/matrixP => i j; rewrite -E H ?toME //; exact: idx_lt.
move=> t Ht; have n0 : (0 < n)%N by case: n Ht {a1 a2 b1 b2 E H}.
have h1 : (t %/ n < n)%N by rewrite ltn_divLR.
have h2 : (t %% n < n)%N by rewrite ltn_mod.
by have := E (Ordinal h1) (Ordinal h2); rewrite H toME /= -divn_eq.
Qed.
Lemma tensor2 p q (A B : fmat RR) : (p + q = 2)%N ->
  meq (tensor p q A B) (fkron (if p is 0 then B else A) (if q is 0 then A else B)).
Proof.
case: p q => [|[|[|p]]] [|[|[|q]]] //= _; rewrite /tensor /=.
- apply: meq_trans (fkron_1_l _) _; apply: meq_fkron; [exact: meq_refl | exact: fkron_1_r].
- by apply: meq_fkron; exact: fkron_1_r.
- apply: meq_trans (fkron_1_r _) _; apply: meq_fkron; [exact: meq_refl | exact: fkron_1_r].
Qed.
Lemma fixes2 n p q (A B : fmat RR) v : (p + q = 2)%N -> fr A = n -> fc A = n -> fr B = n -> fc B = n ->
  fixes (n ^ 2) (tensor p q A B) v <->
  mxf n n (if p is 0 then B else A) *m toM n n v *m (mxf n n (if q is 0 then A else B))^T = toM n n v.
Proof.
move=> E a1 a2 b1 b2; have [s1 s2] := @tensor_sz n p q RR A B a1 a2 b1 b2; rewrite E in s1 s2.
rewrite (fixes_meq v s2 s1 (tensor2 A B E)) expnS expn1; apply: fixes_kron; by case: (p) (q) => [|?] [|?].
Qed.
Lemma inv_mx n (A B : fmat RR) : invTn n A B -> mxf n n A *m (mxf n n B)^T = 1%:M /\ (mxf n n B)^T *m mxf n n A = 1%:M.
Proof.
case=> -[a1 a2 b1 b2] [H1 H2]; rewrite -mxf_tr.
have -> : mxf n n A *m mxf n n (ftr B) = mxf n n (fmul A (ftr B)) by rewrite (@mxf_mul _ _ _ n).
have -> : mxf n n (ftr B) *m mxf n n A = mxf n n (fmul (ftr B) A) by rewrite (@mxf_mul _ _ _ n).
by rewrite (mxf_meq H1) //= ?b1 // (mxf_meq H2) /= ?b2 // mxf_id.
Qed.

(** ** matrices that commute with enough matrices are multiples of the identity *)
Lemma commutes_scalar n (P : fmat RR -> Prop) :
  (forall i j, (i < n)%N -> (j < n)%N -> i != j -> exists A, [/\ fr A = n, fc A = n, P A,
     (forall a b, (a < n)%N -> (b < n)%N -> a != b -> fe A a b = 0) & fe A i i <> fe A j j]) ->
  (forall j, (j < n)%N -> exists2 k, (k < n)%N & (exists A, [/\ fr A = n, fc A = n, P A & fe A 0 k <> 0]) /\
     exists A, [/\ fr A = n, fc A = n, P A & fe A j k <> 0]) ->
  irreducible_on n P.
Proof.
move=> H1 H2 M m1 m2 HC; exists (fe M 0 0).
have C A i j : fr A = n -> fc A = n -> P A -> (i < n)%N -> (j < n)%N ->
    \sum_(0 <= k < n) fe A i k * fe M k j = \sum_(0 <= k < n) fe M i k * fe A k j.
  by move=> a1 a2 PA Hi Hj; have [_ _ E] := HC A a1 a2 PA; have := E i j; rewrite /= a1 a2 m2; apply.
have O i j : (i < n)%N -> (j < n)%N -> i != j -> fe M i j = 0.
  move=> Hi Hj ne; have [A [a1 a2 PA D ND]] := H1 i j Hi Hj ne; have := C A i j a1 a2 PA Hi Hj.
  rewrite (sum_only (i := i)) //; last by move=> k Hk nk; rewrite D ?mul0r // eq_sym.
  rewrite (sum_only (i := j)) // => [E|k Hk nk]; last by rewrite D ?mulr0.
  apply: (@mul_zero (fe A i i - fe A j j)); first by rewrite mulrBl E [fe M i j * _]mulrC subrr.
  by move=> Z; apply: ND; apply/eqP; rewrite -subr_eq0 Z.
split=> //= i j; rewrite m1 m2 => Hi Hj; case: eqP => [<-|/eqP ne]; last by rewrite O // mulr0.
have D a k A : fr A = n -> fc A = n -> P A -> (a < n)%N -> (k < n)%N -> fe A a k <> 0 -> fe M a a = fe M k k.
  move=> a1 a2 PA Hi' Hk N0; have := C A a k a1 a2 PA Hi' Hk.
  rewrite (sum_only (i := k)) //; last by move=> l Hl nl; rewrite O ?mulr0.
  rewrite (sum_only (i := a)) // => [E|l Hl nl]; last by rewrite O ?mul0r // eq_sym.
  suff Z : fe M k k - fe M a a = 0 by apply/eqP; rewrite eq_sym -subr_eq0 Z.
  by apply: (mul_zero _ N0); rewrite mulrBr E mulrC subrr.
rewrite mulr1; have n0 : (0 < n)%N by case: (n) Hi.
have [k Hk [[A [a1 a2 PA NA]] [B [b1 b2 PB NB]]]] := H2 i Hi.
by rewrite (D i k B) // (D 0%N k A).
Qed.
Lemma scalar_mx n (P : fmat RR -> Prop) (M : 'M[RR]_n) : irreducible_on n P ->
  (forall A, fr A = n -> fc A = n -> P A -> mxf n n A *m M = M *m mxf n n A) -> exists c, M = c%:M.
Proof.
move=> I H; pose F := unflat n n (ofM M); have EF : mxf n n F = M := toM_ofM M.
have [//|//|A a1 a2 PA|c E] := I F.
  by apply: meq_mxf; rewrite /= ?a1 ?a2 // !(@mxf_mul _ _ _ n) // EF H.
exists c; rewrite -EF (mxf_meq E) // mxf_scale mxf_id scale_scalar_mx mulr1.
by [].
Qed.
Lemma irreducible_sub n (P P' : fmat RR -> Prop) : (forall A, fr A = n -> fc A = n -> P A -> P' A) -> irreducible_on n P -> irreducible_on n P'.
Proof. by move=> S I M m1 m2 H; apply: I => // A a1 a2 PA; apply: H => //; exact: S. Qed.
