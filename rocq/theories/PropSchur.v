(** * PropSchur: C89 and C90, the equivariant maps and the invariant tensors of the non-compact groups. *)
From Coq Require Import Reals Lra String.
From mathcomp Require Import all_ssreflect all_algebra.
From Verif Require Import Np Spec LinOp LinOpSpec LinOpInv Rep RepSpec RepWf RepAlg Solver SolSpec Rstruct Expm GrpSpec GrpThm.
From Verif Require Import Groups GroupsSpec GroupsSpecR GroupsThm GroupsFlag GroupsReal ExactSpec Nn NnSpec NnThm Data DataSpec ExGrp ExNn ExData ExData2.
From Verif Require Import SvdReal SvdThm DimSpec DimTenSpec ExDim SchurSpec SchurThm SchurGrp SchurLor SchurDim SchurScal ExSchur.
Set Implicit Arguments.
Unset Strict Implicit.
Unset Printing Implicit Defensive.
Import GRing.Theory.
Local Open Scope ring_scope.

Section Schur.
Variable recip : nat -> RR.
Variables (sinv : RR -> RR) (linv : nat -> seq RR -> seq RR).
Variables (crho cdrho : nat -> option gid -> gel RR -> res (op RR)).
Variables (gdim : gid -> nat) (csize : nat -> gid -> nat) (le : rel rep) (g : gid).
Variable G : gid -> group RR.
Variables (svd : nat -> nat -> seq RR -> seq RR * seq RR * seq RR) (big : pred RR).
Variable krylov : op RR -> res (darr RR).
Local Notation sz := (rsize gdim csize).
Local Notation rep_of := (rep_of gdim (fun h => g_orth (G h)) csize le g).
Local Notation basis := (basis idR sinv linv crho cdrho gdim csize le (the_gens G) (the_lies G) svd big krylov).
Local Notation setting := (setting sinv linv crho cdrho gdim csize le g G svd big krylov).
(** T(p,q).equivariant_basis() has exactly one column, and it spans the multiples of J *)
Let one (p q n : nat) (J : fmat RR) : Prop :=
  exists r Q, [/\ rep_of (T_expr p q) r, sz r = (n * n)%N, returns (basis r) (n * n) 1 Q & spans (n * n) 1 Q (form_tensor n J)].
(** T(p,q).equivariant_basis() has no column *)
Let none (p q d : nat) : Prop := exists r Q, [/\ rep_of (T_expr p q) r, sz r = (d ^ (p + q))%N & returns (basis r) (d ^ (p + q)) 0 Q].

(** C89.  Schur's lemma for the computed bases: if only the multiples of the identity commute
    with the matrices of the group, T(1,1) has one equivariant basis element, the identity; and
    if the group preserves a form J with J^-1 = J or -J, so do T(2,0) and T(0,2), with J *)
Theorem C89_maps x n (P : fmat RR -> Prop) : setting -> exact_group x n P -> x = Ok (G g) -> gdim g = n -> (0 < n)%N ->
  basic_group n (G g) -> tested n (G g) -> (forall A, fr A = n -> fc A = n -> P A -> exists B, invTn n A B) ->
  irreducible_on n P -> one 1 1 n (fid RR n).
Proof. by move=> HS HX EG Ed n0 HB HT HP; exact: (schur_maps HS HX EG Ed n0 HB HT HP). Qed.
Theorem C89_forms x n (P : fmat RR -> Prop) J a b : setting -> exact_group x n P -> x = Ok (G g) -> gdim g = n -> (0 < n)%N ->
  basic_group n (G g) -> tested n (G g) -> (forall A, fr A = n -> fc A = n -> P A -> exists B, invTn n A B) ->
  irreducible_on n P -> fr J = n -> fc J = n -> (exists s : RR, s * s = 1 /\ meq (fmul (fscale s J) J) (fid RR n)) ->
  (a < n)%N -> (b < n)%N -> fe J a b = 1 -> (forall A, fr A = n -> fc A = n -> P A -> isometry J A) ->
  one 2 0 n J /\ one 0 2 n J.
Proof. by move=> HS HX EG Ed n0 HB HT HP; exact: (schur_forms HS HX EG Ed n0 HB HT HP). Qed.
Theorem C89_sl n : setting -> (1 < n)%N -> g_sl idR (@same RR) n = Ok (G g) -> gdim g = n -> one 1 1 n (fid RR n).
Proof. by move=> HS n1 EG Ed; exact: (maps_sl HS n1 EG Ed). Qed.
Theorem C89_gl n : setting -> (0 < n)%N -> g_gl idR (@same RR) n = Ok (G g) -> gdim g = n -> one 1 1 n (fid RR n).
Proof. by move=> HS n0 EG Ed; exact: (maps_gl HS n0 EG Ed). Qed.
Theorem C89_sp m : setting -> (0 < m)%N -> g_sp idR (@same RR) m = Ok (G g) -> gdim g = (2 * m)%N ->
  [/\ one 1 1 (2 * m) (fid RR (2 * m)), one 2 0 (2 * m) (sympl RR m) & one 0 2 (2 * m) (sympl RR m)].
Proof. by move=> HS m0 EG Ed; exact: (schur_sp HS m0 EG Ed). Qed.
Let minkowskian (n : nat) : Prop :=
  [/\ one 1 1 n (fid RR n), one 2 0 n (minkowski RR n) & one 0 2 n (minkowski RR n)].
Theorem C89_so13p : setting -> g_so13p idR recip (@same RR) = Ok (G g) -> gdim g = 4%N -> minkowskian 4.
Proof. move=> HS; exact (schur_so13p HS). Qed.
Theorem C89_so13 : setting -> g_so13 idR recip (@same RR) = Ok (G g) -> gdim g = 4%N -> minkowskian 4.
Proof. move=> HS; exact (schur_so13 HS). Qed.
Theorem C89_lorentz : setting -> g_lorentz idR recip (@same RR) = Ok (G g) -> gdim g = 4%N -> minkowskian 4.
Proof. move=> HS; rewrite /g_lorentz; exact (schur_o13 HS (s := "Lorentz"%string)). Qed.
Theorem C89_o11 : setting -> g_o11 idR (@same RR) = Ok (G g) -> gdim g = 2%N -> minkowskian 2.
Proof. move=> HS; exact (schur_o11 HS). Qed.

(** C90.  Tensors that no element fixes: GL(n) and Scaling(n) have no invariant tensor with
    different numbers of upper and lower indices, SL(n) none unless the numbers agree modulo n *)
Theorem C90_gl n p q : setting -> (0 < n)%N -> g_gl idR (@same RR) n = Ok (G g) -> gdim g = n -> p <> q -> none p q n.
Proof. by move=> HS n0 EG Ed /eqP ne; exact: (none_gl HS n0 EG Ed ne). Qed.
Theorem C90_scaling n p q : setting -> (0 < n)%N -> g_scaling idR (@same RR) n = Ok (G g) -> gdim g = n -> p <> q -> none p q n.
Proof. by move=> HS n0 EG Ed /eqP ne; exact: (none_scaling HS n0 EG Ed ne). Qed.
Theorem C90_sl n p q : setting -> (1 < n)%N -> g_sl idR (@same RR) n = Ok (G g) -> gdim g = n -> (p <> q %[mod n])%N -> none p q n.
Proof. by move=> HS n1 EG Ed; exact: (none_sl HS n1 EG Ed). Qed.
(** in contrast every tensor with as many upper as lower indices is invariant under Scaling(n) *)
Theorem C90_scaling_all n p : setting -> (0 < n)%N -> g_scaling idR (@same RR) n = Ok (G g) -> gdim g = n ->
  exists r Q, [/\ rep_of (T_expr p p) r, sz r = (n ^ (p + p))%N & returns (basis r) (n ^ (p + p)) (n ^ (p + p)) Q].
Proof. by move=> HS n0 EG Ed; exact: (all_scaling HS p n0 EG Ed). Qed.
End Schur.
Print Assumptions C89_maps.
Print Assumptions C89_forms.
Print Assumptions C89_sl.
Print Assumptions C89_gl.
Print Assumptions C89_sp.
Print Assumptions C89_so13p.
Print Assumptions C89_so13.
Print Assumptions C89_lorentz.
Print Assumptions C89_o11.
Print Assumptions C90_gl.
Print Assumptions C90_scaling.
Print Assumptions C90_scaling_all.
Print Assumptions C90_sl.
(** the hypotheses can be met: the group objects and exact solvers exist, and the groups have
    only the multiples of the identity in their commutants *)
Example C89_example_sl n : (1 < n)%N -> exists G, usable_as (g_sl idR (@same RR) n) n G. Proof. exact: u_sl. Qed.
Example C89_example_gl n : (0 < n)%N -> exists G, usable_as (g_gl idR (@same RR) n) n G. Proof. exact: u_gl. Qed.
Example C89_example_sp m : (0 < m)%N -> exists G, usable_as (g_sp idR (@same RR) m) (2 * m) G. Proof. exact: u_sp. Qed.
Example C89_example_so13p recip : exists G, usable_as (g_so13p idR recip (@same RR)) 4 G. Proof. exact (u_so13p recip). Qed.
Example C89_example_so13 recip : exists G, usable_as (g_so13 idR recip (@same RR)) 4 G. Proof. exact (u_so13 recip). Qed.
Example C89_example_lorentz recip : exists G, usable_as (g_lorentz idR recip (@same RR)) 4 G. Proof. exact (u_lorentz recip). Qed.
Example C89_example_o11 : exists G, usable_as (g_o11 idR (@same RR)) 2 G. Proof. exact u_o11. Qed.
Example C89_example_irreducible : irreducible_on 4 special /\ forall m, irreducible_on (2 * m) (isometry (sympl RR m)).
Proof. by split; [exact: irr_so13p | exact: irr_sp]. Qed.
Example C90_example_scaling n : (0 < n)%N -> exists G, usable_as (g_scaling idR (@same RR) n) n G. Proof. exact: u_scaling. Qed.
