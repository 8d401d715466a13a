(** * PropDim: C73 to C78, the number of equivariant basis elements. *)
From Coq Require Import Reals Lra String.
From mathcomp Require Import all_ssreflect all_algebra.
From Verif Require Import Np Spec LinOp LinOpSpec LinOpInv Rep RepSpec RepWf RepCode RepAlg Solver SolSpec Rstruct Expm GrpSpec GrpThm.
From Verif Require Import Groups GroupsSpec GroupsSpecR GroupsThm GroupsFlag GroupsReal GroupsPerm ExactSpec Nn NnSpec NnThm Data DataSpec ExGrp ExNn ExData ExData2.
From Verif Require Import SvdReal SvdThm DimSpec DimComb DimTenSpec DimTen DimPerm DimThm DimOrth DimSO DimForm Vis VisThm ExDim.
Set Implicit Arguments.
Unset Strict Implicit.
Unset Printing Implicit Defensive.
Import GRing.Theory.
Local Open Scope ring_scope.

(** C73.  Exact solvers exist over the reals, for every group and every representation: the
    hypothesis of C26 to C28, C41 to C48 and C74 to C78 on the solvers can be met *)
Theorem C73_solvers sinv linv crho cdrho gdim csize gens lies c :
  solver_ok idR gdim sinv linv crho cdrho csize gens lies real_svd nonzero real_krylov c.
Proof. exact: real_solvers. Qed.
Print Assumptions C73_solvers.

Section Dim.
Variables (close : seq RR -> seq RR -> bool) (recip : nat -> RR).
Variables (sinv : RR -> RR) (linv : nat -> seq RR -> seq RR).
Variables (crho cdrho : nat -> option gid -> gel RR -> res (op RR)).
Variables (gdim : gid -> nat) (csize : nat -> gid -> nat) (le : rel rep) (g : gid).
Variable G : gid -> group RR.
Variables (svd : nat -> nat -> seq RR -> seq RR * seq RR * seq RR) (big : pred RR).
Variable krylov : op RR -> res (darr RR).
Local Notation sz := (rsize gdim csize).
Local Notation rep_of := (rep_of gdim (fun h => g_orth (G h)) csize le g).
Local Notation basis := (basis idR sinv linv crho cdrho gdim csize le (the_gens G) (the_lies G) svd big krylov).
Local Notation setting := (setting sinv linv crho cdrho gdim csize le g G svd big krylov).

(** C74.  T(p,q)(G).equivariant_basis() for a group object whose group is the set of the
    invertible matrices with P: its columns are an orthonormal basis of the tensors with p upper
    and q lower indices that every matrix of the group fixes *)
Theorem C74_tensors x d (P : fmat RR -> Prop) p q : setting -> exact_group x d P -> x = Ok (G g) -> gdim g = d -> (0 < d)%N ->
  basic_group d (G g) -> (forall A, fr A = d -> fc A = d -> P A -> exists B, invTn d A B) ->
  (g_orth (G g) -> forall A, fr A = d -> fc A = d -> P A -> isometry (fid RR d) A) ->
  exists r k Q, [/\ rep_of (T_expr p q) r, sz r = (d ^ (p + q))%N, returns (basis r) (d ^ (p + q)) k Q &
    spans (d ^ (p + q)) k Q (fun v => forall A B, invTn d A B -> P A -> fixes (d ^ (p + q)) (tensor p q A B) v)].
Proof. by move=> HS HX EG Ed d0 HB; exact: (tensors HS HX EG Ed d0 HB). Qed.

(** C75.  For a group of permutation matrices the basis has one column per orbit of index
    tuples: S(n) set partitions with at most n blocks (Bell numbers), Z(n) n^(p+q-1),
    Trivial(n) all n^(p+q) *)
Theorem C75_orbits x n (Ps : seq nat -> Prop) p q xs : setting ->
  exact_group x n (fun X => exists2 s, Ps s & meq X (perm_mat RR n s)) -> (forall s, Ps s -> is_perm n s) ->
  x = Ok (G g) -> gdim g = n -> (0 < n)%N -> basic_group n (G g) -> transversal n (p + q) Ps xs ->
  exists r Q, [/\ rep_of (T_expr p q) r, sz r = (n ^ (p + q))%N & returns (basis r) (n ^ (p + q)) (size xs) Q].
Proof. by move=> HS HX HP EG Ed n0 HB; exact: (tensors_orbits HS HX HP EG Ed n0 HB). Qed.
Theorem C75_s n p q : setting -> (1 < n)%N -> g_s idR close n = Ok (G g) -> gdim g = n ->
  exists r Q, [/\ rep_of (T_expr p q) r, sz r = (n ^ (p + q))%N &
    returns (basis r) (n ^ (p + q)) (sumn [seq stirling2 (p + q) m | m <- iota 0 n.+1]) Q].
Proof. by move=> HS; exact: (dim_s HS). Qed.
Theorem C75_s_bell n p q : setting -> (1 < n)%N -> g_s idR close n = Ok (G g) -> gdim g = n -> (p + q <= n)%N ->
  exists r Q, [/\ rep_of (T_expr p q) r, sz r = (n ^ (p + q))%N & returns (basis r) (n ^ (p + q)) (bell (p + q)) Q].
Proof. by move=> HS n1 EG Ed Hn; rewrite -(bell_sum Hn); apply: (dim_s HS _ _ n1 EG Ed). Qed.
Theorem C75_z n p q k : setting -> (0 < n)%N -> g_z idR close n = Ok (G g) -> gdim g = n -> (p + q = k.+1)%N ->
  exists r Q, [/\ rep_of (T_expr p q) r, sz r = (n ^ (p + q))%N & returns (basis r) (n ^ (p + q)) (n ^ k) Q].
Proof. by move=> HS; exact: (dim_z HS). Qed.
Theorem C75_trivial n p q : setting -> (0 < n)%N -> g_trivial idR close n = Ok (G g) -> gdim g = n ->
  exists r Q, [/\ rep_of (T_expr p q) r, sz r = (n ^ (p + q))%N & returns (basis r) (n ^ (p + q)) (n ^ (p + q)) Q].
Proof. by move=> HS; exact: (dim_trivial HS). Qed.

(** C76.  Groups that contain -1 have no invariant tensors of odd rank: O(n), SO(2m), Sp(m), SO13
    and the Lorentz group *)
Let none (p q d : nat) : Prop := exists r Q, [/\ rep_of (T_expr p q) r, sz r = (d ^ (p + q))%N & returns (basis r) (d ^ (p + q)) 0 Q].
Theorem C76_o n p q : setting -> odd (p + q) -> (0 < n)%N -> g_o idR close n = Ok (G g) -> gdim g = n -> none p q n.
Proof. by move=> HS OD; exact: (odd_o HS OD). Qed.
Theorem C76_so m p q : setting -> odd (p + q) -> (0 < m)%N -> g_so idR close (2 * m) = Ok (G g) -> gdim g = (2 * m)%N -> none p q (2 * m).
Proof. by move=> HS OD; exact: (odd_so HS OD). Qed.
Theorem C76_sp m p q : setting -> odd (p + q) -> (0 < m)%N -> g_sp idR (@same RR) m = Ok (G g) -> gdim g = (2 * m)%N -> none p q (2 * m).
Proof. by move=> HS OD; exact: (odd_sp HS OD). Qed.
Theorem C76_so13 p q : setting -> odd (p + q) -> g_so13 idR recip (@same RR) = Ok (G g) -> gdim g = 4%N -> none p q 4.
Proof. move=> HS OD; exact (odd_so13 HS OD). Qed.
Theorem C76_lorentz p q : setting -> odd (p + q) -> g_lorentz idR recip (@same RR) = Ok (G g) -> gdim g = 4%N -> none p q 4.
Proof. move=> HS OD; rewrite /g_lorentz; exact (odd_o13 HS OD (s := "Lorentz"%string)). Qed.

(** C77.  The invariant tensors of small rank: multiples of the identity for O(n) and for SO(n),
    n >= 3; those and multiples of the quarter turn for SO(2); multiples of the Levi-Civita
    tensor for SO(3) in rank 3 *)
Theorem C77_o n p q : setting -> (0 < n)%N -> g_o idR close n = Ok (G g) -> gdim g = n -> (p + q = 2)%N ->
  exists r Q, [/\ rep_of (T_expr p q) r, sz r = (n * n)%N, returns (basis r) (n * n) 1 Q & spans (n * n) 1 Q (scalar_tensor n)].
Proof. by move=> HS; exact: (scalar_o HS). Qed.
Theorem C77_so n p q : setting -> (2 < n)%N -> g_so idR close n = Ok (G g) -> gdim g = n -> (p + q = 2)%N ->
  exists r Q, [/\ rep_of (T_expr p q) r, sz r = (n * n)%N, returns (basis r) (n * n) 1 Q & spans (n * n) 1 Q (scalar_tensor n)].
Proof. by move=> HS; exact: (scalar_so HS). Qed.
Theorem C77_so2 p q : setting -> g_so idR close 2 = Ok (G g) -> gdim g = 2%N -> (p + q = 2)%N ->
  exists r Q, [/\ rep_of (T_expr p q) r, sz r = 4%N, returns (basis r) 4 2 Q & spans 4 2 Q complex_tensor].
Proof. by move=> HS; exact: (complex_so2 HS). Qed.
Theorem C77_so3 p q : setting -> g_so idR close 3 = Ok (G g) -> gdim g = 3%N -> (p + q = 3)%N ->
  exists r Q, [/\ rep_of (T_expr p q) r, sz r = 27%N, returns (basis r) 27 1 Q & spans 27 1 Q levi_tensor].
Proof. by move=> HS; exact: (levi_so3 HS). Qed.
End Dim.
Print Assumptions C74_tensors.
Print Assumptions C75_orbits.
Print Assumptions C75_s.
Print Assumptions C75_s_bell.
Print Assumptions C75_z.
Print Assumptions C75_trivial.
Print Assumptions C76_o.
Print Assumptions C76_so.
Print Assumptions C76_sp.
Print Assumptions C76_so13.
Print Assumptions C76_lorentz.
Print Assumptions C77_o.
Print Assumptions C77_so.
Print Assumptions C77_so2.
Print Assumptions C77_so3.

(** the setting can be met for all these groups, with exact solvers *)
Example C74_example close recip n : (1 < n)%N ->
  [/\ exists G, usable_as (g_s idR close n) n G, exists G, usable_as (g_z idR close n) n G,
      exists G, usable_as (g_o idR close n) n G, exists G, usable_as (g_so idR close n) n G &
      (exists G, usable_as (g_sp idR (@same RR) n) (2 * n) G) /\ exists G, usable_as (g_lorentz idR recip (@same RR)) 4 G].
Proof.
move=> n1; have n0 := ltnW n1; split; [exact: u_s | exact: u_z | exact: u_o | exact: u_so |].
by split; [exact: u_sp | exact: u_lorentz].
Qed.
(** S(4) has 52 - 1 invariant tensors of rank 5, S(n) has two of rank 2 and 15 of rank 4 *)
Example C75_example close : exists G r Q, [/\ usable_as (g_s idR close 4) 4 G,
  DataSpec.rep_of (ndim 4) (fun h => g_orth (G h)) (ncs 4) le_asc 0%N (T_expr 3 2) r &
  returns (Solver.basis idR exsinv linvE excr excr (ndim 4) (ncs 4) le_asc (the_gens G) (the_lies G) real_svd nonzero real_krylov r) (4 ^ 5) 51 Q].
Proof.
have [G [E HS]] := u_s close (isT : (1 < 4)%N); have [r [Q [h1 _ h3]]] := @C75_s close _ _ _ _ _ _ _ _ _ _ _ _ 4 3 2 HS isT E erefl.
by exists G, r, Q.
Qed.
Example C75_example_numbers : [seq bell k | k <- iota 0 7] = [:: 1; 1; 2; 5; 15; 52; 203]%N /\
  sumn [seq stirling2 5 m | m <- iota 0 5] = 51%N /\ transversal 2 2 (is_perm 2) [:: [:: 0; 0]; [:: 0; 1]]%N.
Proof. split; [by vm_compute | split; [by vm_compute | exact: (@sym_transversal 2 2)]]. Qed.
Example C77_example close : exists G r Q, [/\ usable_as (g_so idR close 3) 3 G,
  DataSpec.rep_of (ndim 3) (fun h => g_orth (G h)) (ncs 3) le_asc 0%N (T_expr 3 0) r,
  returns (Solver.basis idR exsinv linvE excr excr (ndim 3) (ncs 3) le_asc (the_gens G) (the_lies G) real_svd nonzero real_krylov r) 27 1 Q &
  spans 27 1 Q levi_tensor].
Proof.
have [G [E HS]] := u_so close (isT : (1 < 3)%N); have [r [Q [h1 _ h3 h4]]] := @C77_so3 close _ _ _ _ _ _ _ _ _ _ _ _ 3 0 HS E erefl erefl.
by exists G, r, Q.
Qed.

(** C78.  vis: for a representation that acts by permutations the number of clusters it asks
    KMeans for is the number of distinct values: no projected vector has more (also after
    rounding), and some vector has as many *)
Section Vis.
Variables (sinv : RR -> RR) (linv : nat -> seq RR -> seq RR).
Variables (crho cdrho : nat -> option gid -> gel RR -> res (op RR)).
Variables (gdim : gid -> nat) (csize : nat -> gid -> nat) (le : rel rep) (g : gid).
Variables (svd : nat -> nat -> seq RR -> seq RR * seq RR * seq RR) (big : pred RR).
Variable krylov : op RR -> res (darr RR).
Local Notation sz := (rsize gdim csize).
Local Notation wfr := (wfr gdim csize le (pred1 g)).
Local Notation total_order := (total_order_on (key gdim csize le (pred1 g)) le).
Let clusters (gorth : gid -> bool) gens lies a b : Prop :=
  exists k, (forall rnd randn, (forall n, size (randn n) = n) ->
      exists2 u, vis idR sinv linv crho cdrho gdim gorth csize le gens lies svd big krylov rnd randn a b = Ok (k, u) &
        size u = (sz b * sz a)%N /\ (size (undup u) <= k)%N) /\
    exists2 randn, (forall n, size (randn n) = n) &
      exists2 u, vis idR sinv linv crho cdrho gdim gorth csize le gens lies svd big krylov id randn a b = Ok (k, u) & size (undup u) = k.
Theorem C78_vis gorth gens lies a b r : linv_ok linv -> customs_ok sinv linv crho cdrho gdim csize (pred1 g) ->
  generators_ok idR gdim sinv linv crho cdrho csize (pred1 g) gens lies -> total_order ->
  wfr a -> wfr b -> rshift gdim gorth csize le a b = Ok r ->
  (forall c, c \in systems gdim csize r -> solver_ok idR gdim sinv linv crho cdrho csize gens lies svd big krylov c) ->
  acts_by_permutations idR sinv linv crho gdim csize (element sinv linv gdim gens lies g) r -> clusters gorth gens lies a b.
Proof. by move=> h1 h2 h3 h4; exact: vis_thm. Qed.
(** in particular if b<<a is flagged as a permutation representation (C35) *)
Theorem C78_vis_flag (G : gid -> group RR) (cperm : nat -> bool) a b r : linv_ok linv -> customs_ok sinv linv crho cdrho gdim csize (pred1 g) ->
  generators_ok idR gdim sinv linv crho cdrho csize (pred1 g) (the_gens G) (the_lies G) -> total_order -> tested (gdim g) (G g) ->
  (forall c C M, element sinv linv gdim (the_gens G) (the_lies G) g M -> crho c (Some g) M = Ok C -> cperm c -> isperm (csize c g) (den C)) ->
  wfr a -> wfr b -> rshift gdim (fun h => g_orth (G h)) csize le a b = Ok r -> Rep.isperm (fun h => g_perm (G h)) cperm r ->
  (forall c, solver_ok idR gdim sinv linv crho cdrho csize (the_gens G) (the_lies G) svd big krylov c) ->
  clusters (fun h => g_orth (G h)) (the_gens G) (the_lies G) a b.
Proof. exact: vis_flagged. Qed.
End Vis.
Print Assumptions C78_vis.
Print Assumptions C78_vis_flag.
(** not so for SO(2): vis(V,V) asks for two clusters, but (2,1,-1,2) is invariant and has three values *)
Theorem C78_vis_refuted close : exists G r Q v, [/\ usable_as (g_so idR close 2) 2 G,
  DataSpec.rep_of (ndim 2) (fun h => g_orth (G h)) (ncs 2) le_asc 0%N (T_expr 1 1) r,
  returns (Solver.basis idR exsinv linvE excr excr (ndim 2) (ncs 2) le_asc (the_gens G) (the_lies G) real_svd nonzero real_krylov r) 4 2 Q,
  exists2 w, size w = 2%N & matvec 4 2 Q w = v & size (undup v) = 3%N].
Proof. exact: so2_values. Qed.
Print Assumptions C78_vis_refuted.
(** S(n): the hypotheses of C78_vis_flag hold for V -> V *)
Example C78_example n : (1 < n)%N -> exists G r, [/\ usable_as (g_s idR (@same RR) n) n G,
  generators_ok idR (ndim n) exsinv linvE excr excr (ncs n) (pred1 0%N) (the_gens G) (the_lies G), tested n (G 0%N),
  wfr (ndim n) (ncs n) le_asc (pred1 0%N) (RBase (Some 0%N)) &
  rshift (ndim n) (fun h => g_orth (G h)) (ncs n) le_asc (RBase (Some 0%N)) (RBase (Some 0%N)) = Ok r /\
  Rep.isperm (fun h => g_perm (G h)) (fun=> false) r].
Proof. exact: vis_example. Qed.
