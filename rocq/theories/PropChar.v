(** * PropChar: C80 to C82, the number of equivariant basis elements of finite groups and of the
    groups of the plane. *)
From Coq Require Import Reals Lra String.
From mathcomp Require Import all_ssreflect all_algebra.
From Verif Require Import Np Spec LinOp LinOpSpec LinOpInv Rep RepSpec RepWf RepCode RepAlg Solver SolSpec Rstruct Expm GrpSpec GrpThm.
From Verif Require Import Groups GroupsSpec GroupsSpecR GroupsThm GroupsTol GroupsFlag GroupsReal GroupsCtor ExactSpec GroupsExactD GroupsExactE Nn NnSpec NnThm Data DataSpec ExGrp ExNn ExData ExData2.
From Verif Require Import SvdReal SvdThm DimSpec DimTenSpec DimTen DimThm ExDim CharSpec CharThm CharTen CharTrig CharRot CharPerm CharSO2.
Set Implicit Arguments.
Unset Strict Implicit.
Unset Printing Implicit Defensive.
Import GRing.Theory.
Local Open Scope ring_scope.

Section Char.
Variable close : seq RR -> seq RR -> bool.
Variables (sinv : RR -> RR) (linv : nat -> seq RR -> seq RR).
Variables (crho cdrho : nat -> option gid -> gel RR -> res (op RR)).
Variables (gdim : gid -> nat) (csize : nat -> gid -> nat) (le : rel rep) (g : gid).
Variable G : gid -> group RR.
Variables (svd : nat -> nat -> seq RR -> seq RR * seq RR * seq RR) (big : pred RR).
Variable krylov : op RR -> res (darr RR).
Local Notation sz := (rsize gdim csize).
Local Notation wfr := (wfr gdim csize le (pred1 g)).
Local Notation rep_of := (rep_of gdim (fun h => g_orth (G h)) csize le g).
Local Notation basis := (basis idR sinv linv crho cdrho gdim csize le (the_gens G) (the_lies G) svd big krylov).
Local Notation setting := (setting sinv linv crho cdrho gdim csize le g G svd big krylov).
Local Notation rho_dense := (rho_dense idR sinv linv crho).

(** C80.  Finite groups, listed by the flat arrays Es: for every representation r the number of
    columns of r.equivariant_basis() is the average over the group of the traces of r.rho_dense(g)
    (the sum of the traces is the number of group elements times the number of columns) *)
Theorem C80_character x d (P : fmat RR -> Prop) Es r : setting -> exact_group x d P -> x = Ok (G g) -> gdim g = d ->
  (forall A, fr A = d -> fc A = d -> P A -> exists B, invTn d A B) -> basic_group d (G g) -> enumerates d P Es -> wfr r ->
  exists k Q Ds, [/\ returns (basis r) (sz r) k Q, mapM (fun D => rho_dense r (GMat (OArr d d D))) Es = Ok Ds,
    forall X, X \in Ds -> X.1 = (sz r, sz r) & \sum_(X <- Ds) trace (sz r) X.2 = (size Es)%:R * k%:R].
Proof. by case=> h1 h2 _ h4 [_ h6] HX EG Ed HP HB HE W; exact: (character h1 h2 h4 HX EG Ed HP HB HE W (fun c _ => h6 c)). Qed.
(** for tensors of rank p + q of a finite group of orthogonal matrices: the average of the
    (p+q)-th powers of the traces of the matrices *)
Theorem C80_tensors x d (P : fmat RR -> Prop) Es p q : setting -> exact_group x d P -> x = Ok (G g) -> gdim g = d -> (0 < d)%N ->
  basic_group d (G g) -> (forall A, fr A = d -> fc A = d -> P A -> isometry (fid RR d) A) -> enumerates d P Es ->
  exists r k Q, [/\ rep_of (T_expr p q) r, sz r = (d ^ (p + q))%N, returns (basis r) (d ^ (p + q)) k Q &
    (size Es)%:R * k%:R = \sum_(D <- Es) trace d D ^+ (p + q)].
Proof. by move=> HS HX EG Ed d0 HB HI HE; have [r [k [Q [h1 h2 h3 [h4 _]]]]] := tensors_count HS p q HX EG Ed d0 HB HI HE; exists r, k, Q. Qed.
(** for a group of permutations ps (Burnside's lemma): the average of the powers of the numbers
    of fixed points *)
Theorem C80_perms x n (ps : seq (seq nat)) p q : setting -> uniq ps -> (forall s, s \in ps -> is_perm n s) ->
  exact_group x n (fun X => exists2 s, s \in ps & meq X (perm_mat RR n s)) ->
  x = Ok (G g) -> gdim g = n -> (0 < n)%N -> basic_group n (G g) ->
  exists r k Q, [/\ rep_of (T_expr p q) r, sz r = (n ^ (p + q))%N, returns (basis r) (n ^ (p + q)) k Q &
    (size ps * k = \sum_(s <- ps) fixed_points n s ^ (p + q))%N].
Proof. by move=> HS; exact: (perms_count HS). Qed.

(** C81.  The number of invariant tensors of rank p + q of the finite groups C(k), D(k), Parity,
    TimeReversal and Cube *)
Let dims (p q d k : nat) : Prop := exists r Q, [/\ rep_of (T_expr p q) r, sz r = (d ^ (p + q))%N & returns (basis r) (d ^ (p + q)) k Q].
Theorem C81_c k p q : setting -> (0 < k)%N -> g_c idR cosR sinR close k = Ok (G g) -> gdim g = 2%N ->
  dims p q 2 (balanced k (p + q)).
Proof. by move=> HS; exact: (dim_c HS). Qed.
Theorem C81_d k p q : setting -> (0 < k)%N -> (0 < p + q)%N -> g_dihedral idR cosR sinR close k = Ok (G g) -> gdim g = 2%N ->
  dims p q 2 (balanced k (p + q))./2.
Proof. by move=> HS; exact: (dim_d HS). Qed.
Theorem C81_parity p q : setting -> g_parity idR close = Ok (G g) -> gdim g = 4%N ->
  dims p q 4 (if odd (p + q) then (4 ^ (p + q) - 2 ^ (p + q))./2 else (4 ^ (p + q) + 2 ^ (p + q))./2)%N.
Proof. by move=> HS; exact: (dim_parity HS). Qed.
Theorem C81_time p q : setting -> g_time idR close = Ok (G g) -> gdim g = 4%N -> dims p q 4 (4 ^ (p + q) + 2 ^ (p + q))./2.
Proof. by move=> HS; exact: (dim_time HS). Qed.
Theorem C81_cube p q : setting -> (0 < p + q)%N -> g_cube idR close = Ok (G g) -> gdim g = 6%N ->
  dims p q 6 ((6 ^ (p + q) + 9 * 2 ^ (p + q)) %/ 24).
Proof. by move=> HS; exact: (dim_cube HS). Qed.

(** C82.  SO(2) and O(2), any rank: none if the rank is odd; if it is even a central binomial
    coefficient for SO(2), and half of it for O(2) *)
Theorem C82_so2 p q : setting -> g_so idR close 2 = Ok (G g) -> gdim g = 2%N ->
  dims p q 2 (if odd (p + q) then 0 else 'C(p + q, (p + q)./2))%N.
Proof. by move=> HS; exact: (dim_so2 HS). Qed.
Theorem C82_o2 p q : setting -> (0 < p + q)%N -> g_o idR close 2 = Ok (G g) -> gdim g = 2%N ->
  dims p q 2 (if odd (p + q) then 0 else 'C(p + q, (p + q)./2)./2)%N.
Proof. by move=> HS; exact: (dim_o2 HS). Qed.
End Char.
Print Assumptions C80_character.
Print Assumptions C80_tensors.
Print Assumptions C80_perms.
Print Assumptions C81_c.
Print Assumptions C81_d.
Print Assumptions C81_parity.
Print Assumptions C81_time.
Print Assumptions C81_cube.
Print Assumptions C82_so2.
Print Assumptions C82_o2.

(** the hypotheses hold for C(k) and D(k), all k > 0, with exact solvers and V as representation *)
Example C80_example close k : (0 < k)%N ->
  (exists G Es, [/\ usable_as (g_c idR cosR sinR close k) 2 G, basic_group 2 (G 0%N), size Es = k,
    enumerates 2 (fun X => exists2 j, (j < k)%N & meq X (rot (Rmult (INR j) (Rdiv (Rmult 2 PI) (INR k))))) Es &
    wfr (ndim 2) (ncs 2) le_asc (pred1 0%N) (RBase (Some 0%N))]) /\
  exists G, usable_as (g_dihedral idR cosR sinR close k) 2 G.
Proof. exact: char_example. Qed.
Example C81_example close : exists G r Q, [/\ usable_as (g_cube idR close) 6 G,
  DataSpec.rep_of (ndim 6) (fun h => g_orth (G h)) (ncs 6) le_asc 0%N (T_expr 1 1) r &
  returns (Solver.basis idR exsinv linvE excr excr (ndim 6) (ncs 6) le_asc (the_gens G) (the_lies G) real_svd nonzero real_krylov r) 36 3 Q].
Proof.
have [G [E HS]] := u_cube close; have [r [Q [h1 _ h3]]] := @C81_cube close _ _ _ _ _ _ _ _ _ _ _ _ 1 1 HS isT E erefl.
by exists G, r, Q.
Qed.
(** C(4): 2, 8 and 32 invariant tensors of ranks 2, 4 and 6 (SO(2) has 2, 6 and 20) *)
Example C81_example_numbers : [seq balanced 4 n | n <- [:: 0; 1; 2; 3; 4; 6]%N] = [:: 1; 0; 2; 0; 8; 32]%N /\
  [seq (balanced 3 n) | n <- [:: 1; 2; 3]%N] = [:: 0; 2; 2]%N.
Proof. by rewrite /balanced unlock; vm_compute. Qed.
Example C82_example close : exists G r Q, [/\ usable_as (g_so idR close 2) 2 G,
  DataSpec.rep_of (ndim 2) (fun h => g_orth (G h)) (ncs 2) le_asc 0%N (T_expr 2 2) r &
  returns (Solver.basis idR exsinv linvE excr excr (ndim 2) (ncs 2) le_asc (the_gens G) (the_lies G) real_svd nonzero real_krylov r) 16 6 Q].
Proof.
have [G [E HS]] := u_so close (isT : (1 < 2)%N); have [r [Q [h1 _ h3]]] := @C82_so2 close _ _ _ _ _ _ _ _ _ _ _ _ 2 2 HS E erefl.
by exists G, r, Q.
Qed.
