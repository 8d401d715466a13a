(** * PropExact: C57, the built-in group objects generate exactly the groups they are named after. *)
From Coq Require Import Reals Lra String.
From mathcomp Require Import all_ssreflect all_algebra.
From Verif Require Import Np NpLemmas Spec LinOp LinOpSpec Rep RepSpec Rstruct Expm GrpSpec.
From Verif Require Import Groups GroupsSpec GroupsSpecR GroupsThm GroupsProd GroupsTol GroupsEmb ExactSpec.
From Verif Require Import GroupsExact GroupsExactL GroupsExactS GroupsExactD GroupsExactE GroupsExactP RubikSpec GroupsRubikG ExExact.
Set Implicit Arguments.
Unset Strict Implicit.
Unset Printing Implicit Defensive.
Import GRing.Theory.
Local Open Scope ring_scope.

(** Real scalars; conj, recip and close stand for jnp.conj, 1/n and the tolerance test of
    the constructor, whose value does not matter here. *)
Section C57.
Variables (conj : RR -> RR) (recip : nat -> RR) (close : seq RR -> seq RR -> bool).

(** SL(n), GL(n), SO(n), O(n) *)
Theorem C57_sl n : (1 < n)%N -> exact_group (g_sl conj close n) n (fun X => fdet n X = 1).
Proof. exact: exact_sl. Qed.
Theorem C57_gl n : (0 < n)%N -> exact_group (g_gl conj close n) n (fun X => Rlt R0 (fdet n X)).
Proof. exact: exact_gl. Qed.
(** so GL(n) is only the identity component of the general linear group *)
Theorem C57_gl_refuted n : (0 < n)%N -> exists2 G, g_gl conj close n = Ok G &
  exists X, [/\ fr X = n, fc X = n, fdet n X <> 0 & ~ in_group n (lmats G) (gmats G) X].
Proof. exact: gl_not. Qed.
Theorem C57_so n : (1 < n)%N -> exact_group (g_so conj close n) n (fun X => isometry (fid RR n) X /\ fdet n X = 1).
Proof. exact: exact_so. Qed.
Theorem C57_o n : (0 < n)%N -> exact_group (g_o conj close n) n (isometry (fid RR n)).
Proof. exact: exact_o. Qed.
(** Sp(m) *)
Theorem C57_sp m : (0 < m)%N -> exact_group (g_sp conj close m) (2 * m) (isometry (sympl RR m)).
Proof. exact: exact_sp. Qed.
(** the Lorentz groups; s is the class name, O13 or Lorentz *)
Theorem C57_so13p : exact_group (g_so13p conj recip close) 4
  (fun X => [/\ isometry (minkowski RR 4) X, fdet 4 X = 1 & Rlt R0 (fe X 0 0)]).
Proof. exact: exact_so13p. Qed.
Theorem C57_so13 : exact_group (g_so13 conj recip close) 4 (fun X => isometry (minkowski RR 4) X /\ fdet 4 X = 1).
Proof. exact: exact_so13. Qed.
Theorem C57_o13 s : exact_group (g_o13_as conj recip close s) 4 (isometry (minkowski RR 4)).
Proof. exact: exact_o13. Qed.
Theorem C57_so11p : exact_group (g_so11p conj close) 2
  (fun X => [/\ isometry (minkowski RR 2) X, fdet 2 X = 1 & Rlt R0 (fe X 0 0)]).
Proof. exact: exact_so11p. Qed.
Theorem C57_o11 : exact_group (g_o11 conj close) 2 (isometry (minkowski RR 2)).
Proof. exact: exact_o11. Qed.
Theorem C57_parity : exact_group (g_parity conj close) 4 (fun X => meq X (fid RR 4) \/ meq X (minkowski RR 4)).
Proof. exact: exact_parity. Qed.
Theorem C57_time : exact_group (g_time conj close) 4 (fun X => meq X (fid RR 4) \/ meq X (fopp (minkowski RR 4))).
Proof. exact: exact_time. Qed.
Theorem C57_scaling n : (0 < n)%N -> exact_group (g_scaling conj close n) n (fun X => exists2 c : RR, Rlt R0 c & meq X (fscale c (fid RR n))).
Proof. exact: exact_scaling. Qed.
(** C(k) and D(k): the k rotations, the k rotations and k reflections *)
Theorem C57_c k : (0 < k)%N -> exact_group (g_c conj cosR sinR close k) 2
  (fun X => exists2 j, (j < k)%N & meq X (rot (Rmult (INR j) (Rdiv (Rmult 2 PI) (INR k))))).
Proof. exact: exact_c. Qed.
Theorem C57_d k : (0 < k)%N -> exact_group (g_dihedral conj cosR sinR close k) 2
  (fun X => exists2 j, (j < k)%N & meq X (rot (Rmult (INR j) (Rdiv (Rmult 2 PI) (INR k)))) \/
                                   meq X (ref (Rmult (INR j) (Rdiv (Rmult 2 PI) (INR k))))).
Proof. exact: exact_d. Qed.
(** the permutation groups *)
Theorem C57_trivial n : exact_group (g_trivial conj close n) n (fun X => meq X (fid RR n)).
Proof. exact: exact_trivial. Qed.
Theorem C57_s n : (1 < n)%N -> exact_group (g_s conj close n) n (fun X => exists2 p, is_perm n p & meq X (perm_mat RR n p)).
Proof. exact: exact_s. Qed.
Theorem C57_z n : (0 < n)%N -> exact_group (g_z conj close n) n (fun X => exists2 k, (k < n)%N & meq X (shift_mat RR n k)).
Proof. exact: exact_z. Qed.
Theorem C57_cube : exact_group (g_cube conj close) 6 (fun X => exists2 p, rotation p & meq X (perm_mat RR 6 p)).
Proof. exact: exact_cube. Qed.
(** RubiksCube(): all permutations of the 48 stickers that permute the corner stickers among
    themselves and evenly permute the edge stickers among themselves *)
Theorem C57_rubik : exact_group (g_rubik conj close) 48
  (fun X => exists2 p, keeps_kinds p & meq X (perm_mat RR 48 p) /\ fdet 24 (edge_part X) = 1).
Proof. exact: exact_rubik. Qed.
(** Embed(G,d,slice) for a group given by arrays; SO2eR3, O2eR3 and DkeR3(k) *)
Theorem C57_embed G d sl ix g k1 k2 : arrays id G g k1 k2 -> (0 < k1 + k2)%N -> slice_ix d sl = Ok ix -> size ix = g ->
  exists2 G', g_embed conj id close G d sl = Ok G' & g_d G' = Some d /\
    forall X, in_group d (lmats G') (gmats G') X <-> exists2 Y, in_group g (lmats G) (gmats G) Y & meq X (emb d ix 1 Y).
Proof. exact: exact_embed. Qed.
Theorem C57_so2er3 : exact_group (g_so2er3 conj id close) 3
  (fun X => exists Y, [/\ fr Y = 2%N, fc Y = 2%N, isometry (fid RR 2) Y, fdet 2 Y = 1 & meq X (plane Y)]).
Proof. exact: exact_so2er3. Qed.
Theorem C57_o2er3 : exact_group (g_o2er3 conj id close) 3
  (fun X => exists Y, [/\ fr Y = 2%N, fc Y = 2%N, isometry (fid RR 2) Y & meq X (plane Y)]).
Proof. exact: exact_o2er3. Qed.
Theorem C57_dker3 k : (0 < k)%N -> exact_group (g_dker3 conj id cosR sinR close k) 3
  (fun X => exists2 j, (j < k)%N & meq X (plane (rot (Rmult (INR j) (Rdiv (Rmult 2 PI) (INR k))))) \/
                                   meq X (plane (ref (Rmult (INR j) (Rdiv (Rmult 2 PI) (INR k)))))).
Proof. exact: exact_dker3. Qed.
(** G1*G2 consists of the tensor products of the elements *)
Theorem C57_product d1 d2 (G1 G2 : group RR) : usable conj d1 G1 -> usable conj d2 G2 ->
  (0 < size (gitems (g_lie G1)) + size (gitems (g_gens G1)) + size (gitems (g_lie G2)) + size (gitems (g_gens G2)))%N ->
  exists2 G, g_prod conj close G1 G2 = Ok G & g_d G = Some (d1 * d2)%N /\
    forall X, in_group (d1 * d2) (lmats G) (gmats G) X <->
      exists Y Z, [/\ in_group d1 (lmats G1) (gmats G1) Y, in_group d2 (lmats G2) (gmats G2) Z & meq X (fkron Y Z)].
Proof. exact: exact_prod. Qed.
End C57.
Print Assumptions C57_sl.
Print Assumptions C57_gl.
Print Assumptions C57_gl_refuted.
Print Assumptions C57_so.
Print Assumptions C57_o.
Print Assumptions C57_sp.
Print Assumptions C57_so13p.
Print Assumptions C57_so13.
Print Assumptions C57_o13.
Print Assumptions C57_so11p.
Print Assumptions C57_o11.
Print Assumptions C57_parity.
Print Assumptions C57_time.
Print Assumptions C57_scaling.
Print Assumptions C57_c.
Print Assumptions C57_d.
Print Assumptions C57_trivial.
Print Assumptions C57_s.
Print Assumptions C57_z.
Print Assumptions C57_cube.
Print Assumptions C57_rubik.
Print Assumptions C57_embed.
Print Assumptions C57_so2er3.
Print Assumptions C57_o2er3.
Print Assumptions C57_dker3.
Print Assumptions C57_product.
(** elements of the groups: rotations, diag(2,1/2), a boost, a turn of the cube; diag(-1,1,..,1)
    is not in GL(n) *)
Example C57_example_so t : isometry (fid RR 2) (rot t) /\ fdet 2 (rot t) = 1.
Proof. exact: rot_elem. Qed.
Example C57_example_sl : fdet 2 (mx2 (IZR 2) 0 0 half) = 1.
Proof. exact: stretch_det. Qed.
Example C57_example_sp : isometry (sympl RR 1) (mx2 (IZR 2) 0 0 half).
Proof. exact: stretch_sp. Qed.
Example C57_example_so11p : [/\ isometry (minkowski RR 2) boost, fdet 2 boost = 1 & Rlt R0 (fe boost 0 0)].
Proof. by split; [exact: boost_iso | exact: boost_det | rewrite /=; lra]. Qed.
Example C57_example_cube : rotation [:: 0; 2; 3; 4; 1; 5]%N.
Proof. by []. Qed.
Example C57_example_embed : slice_ix 3 (s_upto 2) = Ok [:: 0; 1]%N /\ slice_ix 4 (s_upto 3) = Ok [:: 0; 1; 2]%N.
Proof. by []. Qed.
(** a quarter turn of the corner stickers of one face alone *)
Example C57_example_rubik : let p := [:: 2; 1; 7; 3; 4; 0; 6; 5]%N ++ iota 8 40 in
  [&& perm_eq p (iota 0 48), all (fun x => at_corner (nth 0%N p x) == at_corner x) (iota 0 48) & p != iota 0 48].
Proof. by vm_compute. Qed.
