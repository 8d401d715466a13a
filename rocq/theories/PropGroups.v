(** * PropGroups: C32, C33 and C40, the constructors of emlp/groups.py and their generators. *)
From Coq Require Import String.
From mathcomp Require Import all_ssreflect all_algebra.
From Verif Require Import Np Spec LinOp Cplx Groups GroupsSpec GroupsLie GroupsU GroupsPerm GroupsThm.
Set Implicit Arguments.
Unset Strict Implicit.
Unset Printing Implicit Defensive.
Import GRing.Theory.
Local Open Scope ring_scope.

Section Real.
Variables (R : comRingType) (conj re : R -> R) (im : R) (recip cosk sink : nat -> R) (close : seq R -> seq R -> bool).

(** C32.  The Lie algebra arrays hold in every slot an element of a basis of the Lie algebra,
    which is the space of all matrices that satisfy the defining linear equation.  [tri n] is
    n(n-1)/2; char2: 2x=0 only for x=0. *)
Theorem C32_so n : char2 R -> (1 < n)%N -> lie_basis id (g_so conj close n) n (tri n) (@skew R).
Proof. exact: thm_so. Qed.
Theorem C32_o n : char2 R -> (0 < n)%N -> lie_basis id (g_o conj close n) n (tri n) (@skew R).
Proof. exact: thm_o. Qed.
Theorem C32_gl n : (0 < n)%N -> lie_basis id (g_gl conj close n) n (n * n) (fun _ : fmat R => True).
Proof. exact: thm_gl. Qed.
Theorem C32_sl n : (1 < n)%N -> lie_basis id (g_sl conj close n) n (n * n - 1) (@traceless R).
Proof. exact: thm_sl. Qed.
Theorem C32_sp m : (0 < m)%N -> lie_basis id (g_sp conj close m) (2 * m) (m * (2 * m + 1)) (preserves (sympl R m)).
Proof. exact: thm_sp. Qed.
Theorem C32_so13p : char2 R -> lie_basis id (g_so13p conj recip close) 4 6 (preserves (minkowski R 4)).
Proof. exact: thm_so13p. Qed.
Theorem C32_so13 : char2 R -> lie_basis id (g_so13 conj recip close) 4 6 (preserves (minkowski R 4)).
Proof. exact: thm_so13. Qed.
Theorem C32_o13 : char2 R -> lie_basis id (g_o13 conj recip close) 4 6 (preserves (minkowski R 4)).
Proof. exact: thm_o13. Qed.
Theorem C32_lorentz : char2 R -> lie_basis id (g_lorentz conj recip close) 4 6 (preserves (minkowski R 4)).
Proof. exact: thm_o13. Qed.
Theorem C32_so11p : char2 R -> lie_basis id (g_so11p conj close) 2 1 (preserves (minkowski R 2)).
Proof. exact: thm_so11p. Qed.
Theorem C32_o11 : char2 R -> lie_basis id (g_o11 conj close) 2 1 (preserves (minkowski R 2)).
Proof. exact: thm_o11. Qed.

(** C33.  The words in the discrete generators and their inverses are: for S(n) exactly the
    permutation matrices, for Z(n) exactly the n cyclic shifts, for Cube() exactly the 24
    rotations of a cube. *)
Theorem C33_s n : (1 < n)%N -> gens_are (g_s conj close n) n (fun gs =>
  forall X, words n gs X <-> exists2 p, is_perm n p & meq X (perm_mat R n p)).
Proof. exact: thm_s. Qed.
Theorem C33_z n : (0 < n)%N -> gens_are (g_z conj close n) n (fun gs =>
  forall X, words n gs X <-> exists2 k, (k < n)%N & meq X (shift_mat R n k)).
Proof. exact: thm_z. Qed.
Theorem C33_z_distinct n k l : (k < n)%N -> (l < n)%N -> meq (shift_mat R n k) (shift_mat R n l) -> k = l.
Proof. exact: shift_inj. Qed.
Theorem C33_cube : gens_are (g_cube conj close) 6 (fun gs =>
  forall X, words 6 gs X <-> exists2 p, rotation p & meq X (perm_mat R 6 p)).
Proof. exact: thm_cube. Qed.
Theorem C33_cube_24 : exists ps, [/\ size ps = 24%N, uniq ps & forall p, rotation p = (p \in ps)].
Proof. exact: cube_count. Qed.
Theorem C33_cube_distinct n p q : is_perm n p -> is_perm n q -> meq (perm_mat R n p) (perm_mat R n q) -> p = q.
Proof. exact: perm_mat_inj. Qed.
(** the generators of O(n), O13 and O11, and hence all words, preserve the form *)
Theorem C33_o n : (0 < n)%N -> gens_are (g_o conj close n) n (keeps (fid R n) n).
Proof. exact: thm_o_gens. Qed.
Theorem C33_o13 : gens_are (g_o13 conj recip close) 4 (keeps (minkowski R 4) 4).
Proof. exact: thm_o13_gens. Qed.
Theorem C33_lorentz : gens_are (g_lorentz conj recip close) 4 (keeps (minkowski R 4) 4).
Proof. exact: thm_o13_gens. Qed.
Theorem C33_o11 : gens_are (g_o11 conj close) 2 (keeps (minkowski R 2) 2).
Proof. exact: thm_o11_gens. Qed.

(** C40.  The constructors return a group of the documented dimension ... *)
Theorem C40_total_2 n : (1 < n)%N ->
  [/\ constructs (g_so conj close n) n, constructs (g_sl conj close n) n & constructs (g_s conj close n) n].
Proof. exact: total2. Qed.
Theorem C40_total_1 n : (0 < n)%N ->
  [/\ constructs (g_trivial conj close n) n, constructs (g_o conj close n) n, constructs (g_gl conj close n) n &
      [/\ constructs (g_sp conj close n) (2 * n), constructs (g_z conj close n) n, constructs (g_scaling conj close n) n &
          constructs (g_c conj cosk sink close n) 2 /\ constructs (g_dihedral conj cosk sink close n) 2]].
Proof. exact: total1. Qed.
Theorem C40_total_zkszn k n : k \in [:: 2; 4]%N -> (0 < n)%N -> constructs (g_zkszn conj close k n) (k * (n * n)).
Proof. exact: total_zkszn. Qed.
Theorem C40_total_0 : [/\ constructs (g_so13p conj recip close) 4, constructs (g_so13 conj recip close) 4,
  constructs (g_o13 conj recip close) 4, constructs (g_lorentz conj recip close) 4 &
  [/\ constructs (g_so11p conj close) 2, constructs (g_o11 conj close) 2, constructs (g_parity conj close) 4,
      constructs (g_time conj close) 4 & constructs (g_cube conj close) 6 /\ constructs (g_rubik conj close) 48]].
Proof. exact: total0. Qed.
(** ... but SO(1), SL(1), S(1) and SU(1) raise TypeError, for every test and all numbers *)
Theorem C40_total_refuted : [/\ g_so conj close 1 = Err TypeError, g_sl conj close 1 = Err TypeError,
  g_s conj close 1 = Err TypeError & g_su conj im recip close 1 = Err TypeError].
Proof. exact: fails1. Qed.
End Real.

Section Cx.
Variables (F : comRingType) (rk : nat -> F) (close : seq (cplx_comRingType F) -> seq (cplx_comRingType F) -> bool).
Local Notation rc := (fun n => Cx (rk n) 0 : cplx_comRingType F).

(** C32 and C40 for the complex groups; rk n is 1/n, and a basis is one over the real numbers *)
Theorem C32_u n : (forall n, (0 < n)%N -> n%:R * rk n = 1) -> (0 < n)%N ->
  lie_basis (@cemb F) (g_u (@cconj F) (cI F) close n) n (n ^ 2) (skew_herm (@cconj F)).
Proof. move=> h; exact: (thm_u h). Qed.
Theorem C32_su n : (forall n, (0 < n)%N -> n%:R * rk n = 1) -> (1 < n)%N ->
  lie_basis (@cemb F) (g_su (@cconj F) (cI F) rc close n) n (n ^ 2 - 1) (fun X => skew_herm (@cconj F) X /\ traceless X).
Proof. move=> h; exact: (thm_su h). Qed.
Theorem C40_total_u n : ((0 < n)%N -> constructs (g_u (@cconj F) (cI F) close n) n) /\
  ((1 < n)%N -> constructs (g_su (@cconj F) (cI F) rc close n) n).
Proof. exact: total_u. Qed.
End Cx.

(** the hypotheses hold over the rational numbers *)
Example C32_ex_char2 : char2 [comRingType of rat].
Proof. by move=> x /eqP; rewrite -mulr2n Num.Theory.mulrn_eq0 => /eqP. Qed.
Example C32_ex_recip n : (0 < n)%N -> n%:R * (n%:R)^-1 = 1 :> rat.
Proof. by move=> H; rewrite divff // Num.Theory.pnatr_eq0 -lt0n. Qed.
Example C32_ex_dims : [/\ tri 5 = 10, (3 * (2 * 3 + 1) = 21) & (4 ^ 2 - 1 = 15)]%N.
Proof. by []. Qed.
Example C33_ex_perm : is_perm 4 [:: 2; 0; 3; 1]%N /\ rotation [:: 5; 1; 4; 3; 2; 0]%N /\ ~~ rotation [:: 5; 1; 2; 3; 4; 0]%N.
Proof. by []. Qed.

Print Assumptions C32_so.
Print Assumptions C32_o.
Print Assumptions C32_gl.
Print Assumptions C32_sl.
Print Assumptions C32_sp.
Print Assumptions C32_so13p.
Print Assumptions C32_so13.
Print Assumptions C32_o13.
Print Assumptions C32_lorentz.
Print Assumptions C32_so11p.
Print Assumptions C32_o11.
Print Assumptions C32_u.
Print Assumptions C32_su.
Print Assumptions C33_s.
Print Assumptions C33_z.
Print Assumptions C33_z_distinct.
Print Assumptions C33_cube.
Print Assumptions C33_cube_24.
Print Assumptions C33_cube_distinct.
Print Assumptions C33_o.
Print Assumptions C33_o13.
Print Assumptions C33_lorentz.
Print Assumptions C33_o11.
Print Assumptions C40_total_2.
Print Assumptions C40_total_1.
Print Assumptions C40_total_zkszn.
Print Assumptions C40_total_0.
Print Assumptions C40_total_u.
Print Assumptions C40_total_refuted.
