(** * PropGroups2: C34, C35 and C36, the flags of a group and its samples. *)
From Coq Require Import Reals String.
From mathcomp Require Import all_ssreflect all_algebra.
From Verif Require Import Np NpLemmas Spec LinOp LinOpSpec Rep RepSpec RepWf Order RepThm1 Rstruct Expm GrpSpec ExGrp.
From Verif Require Import Groups GroupsSpec GroupsSpecR GroupsInit GroupsPerm GroupsThm GroupsFlag GroupsReal GroupsRepPerm GroupsNum GroupsTol GroupsSample GroupsOrthT ExGroups.
Set Implicit Arguments.
Unset Strict Implicit.
Unset Printing Implicit Defensive.
Import GRing.Theory.
Local Open Scope ring_scope.

(** C34.  G was built by Group.__init__ with the flags left to the test, the test being exact:
    is_orthogonal is set if and only if every element of the group generated by the discrete
    generators and the exponentials of the Lie algebra is orthogonal. *)
Theorem C34_orthogonal_flag d G : tested d G ->
  g_orth G <-> forall X, in_group d (lmats G) (gmats G) X -> orthm d X.
Proof. exact: orth_iff. Qed.

(** then every representation of every element is orthogonal, and rho of r.T is rho of r *)
Section Reps.
Variables (sinv : RR -> RR) (linv : nat -> seq RR -> seq RR).
Variables (crho : nat -> option gid -> gel RR -> res (op RR)).
Variables (gdim : gid -> nat) (csize : nat -> gid -> nat) (le : rel rep).
Variable G : gid -> group RR.
Local Notation sz := (rsize gdim csize).
Local Notation rho_dense := (rho_dense idR sinv linv crho).
Theorem C34_orthogonal_representations (gs : pred gid) M X r :
  (forall g, gs g -> tested (gdim g) (G g) /\ g_orth (G g)) ->
  generated gdim gs (the_gens G) (the_lies G) X ->
  (forall g, gs g -> exists2 A, glook M (Some g) = Ok A & meq (den A) (X g)) ->
  group_elem idR sinv linv crho gdim csize gs M ->
  (forall g c C, gs g -> crho c (Some g) M = Ok C -> orthm (csize c g) (den C)) ->
  wfr gdim csize le gs r ->
  exists2 D, rho_dense r M = Ok (sz r, sz r, D) & orthm (sz r) (unflat (sz r) (sz r) D).
Proof. exact: generated_orth. Qed.
Theorem C34_orthogonal_dual (g : gid) M X r :
  total_order_on (key gdim csize le (pred1 g)) le -> tested (gdim g) (G g) -> g_orth (G g) ->
  generated gdim (pred1 g) (the_gens G) (the_lies G) X ->
  (exists2 A, glook M (Some g) = Ok A & meq (den A) (X g)) ->
  group_elem idR sinv linv crho gdim csize (pred1 g) M ->
  (forall c C, crho c (Some g) M = Ok C -> orthm (csize c g) (den C)) ->
  wfr gdim csize le (pred1 g) r ->
  exists r' D, [/\ tr gdim (fun h => g_orth (G h)) csize le r = Ok r',
    rho_dense r M = Ok (sz r, sz r, D) & rho_dense r' M = Ok (sz r, sz r, D)].
Proof. exact: generated_T. Qed.

(** C35.  If is_permutation is set by the test every element of the group is a permutation
    matrix, and so is its matrix in every representation flagged is_permutation. *)
Theorem C35_permutation_flag d (H : group RR) X : tested d H -> g_perm H ->
  in_group d (lmats H) (gmats H) X -> isperm d X.
Proof. exact: perm_group. Qed.
Theorem C35_permutation_representations (gs : pred gid) (cperm : nat -> bool) M X r :
  (forall g, gs g -> tested (gdim g) (G g)) ->
  generated gdim gs (the_gens G) (the_lies G) X ->
  (forall g, gs g -> exists2 A, glook M (Some g) = Ok A & meq (den A) (X g)) ->
  group_elem idR sinv linv crho gdim csize gs M ->
  (forall g c C, gs g -> cperm c -> crho c (Some g) M = Ok C -> isperm (csize c g) (den C)) ->
  wfr gdim csize le gs r -> Rep.isperm (fun g => g_perm (G g)) cperm r ->
  exists2 p, is_perm (sz r) p & rho_dense r M = Ok (sz r, sz r, flat (perm_mat RR (sz r) p)).
Proof. exact: generated_perm. Qed.
End Reps.

(** D(k) adds a reflection after the test: is_orthogonal is right *)
Theorem C34_dihedral k : (0 < k)%N ->
  exists G, [/\ g_dihedral idR cosR sinR (@same RR) k = Ok G, g_d G = Some 2%N, g_orth G &
    forall X, in_group 2 (lmats G) (gmats G) X -> orthm 2 X].
Proof. exact: dihedral_orth. Qed.
(** but is_permutation of D(1) is wrong: it is set and the reflection diag(-1,1) is not a
    permutation matrix *)
Theorem C35_dihedral_refuted : exists G h,
  [/\ g_dihedral idR cosR sinR (@same RR) 1 = Ok G, g_perm G, g_d G = Some 2%N,
      List.In h (gmats G) & ~ isperm 2 h].
Proof. exact: d1_perm. Qed.

(** The test itself is rel_err < 1e-6.  Over any ordered field it accepts all orthogonal
    groups ... *)
Theorem C34_tolerance_complete (F : realFieldType) (conj : F -> F) d r (a : attrs F) (G : group F) :
  (0 < d)%N -> group_init conj (@near F) r a = Ok G -> g_d G = Some d ->
  gok conj d (g_lie G) -> gok conj d (g_gens G) -> a_orth a = None -> a_perm a = None ->
  (forall A, List.In A (lmats G) -> skew A) -> (forall h, List.In h (gmats G) -> orthm d h) -> g_orth G.
Proof. exact: near_flag. Qed.
(** ... but also the generator [[1 + 1/4000000]], and it flags a shear as a permutation *)
Theorem C34_tolerance_refuted (F : realFieldType) : exists G h,
  [/\ user 1 [:: 1 + quarter F] = Ok G, g_orth G, g_d G = Some 1%N, gmats G = [:: h] & ~ orthm 1 h].
Proof. exact: stretch_orth. Qed.
Theorem C35_tolerance_refuted (F : realFieldType) : exists G h,
  [/\ user 2 [:: 1; quarter F; 0; 1] = Ok G, g_perm G, g_d G = Some 2%N, gmats G = [:: h] & ~ isperm 2 h].
Proof. exact: shear_perm. Qed.

Example C34_example :
  [/\ group_init idR (@same RR) "User" (with_gens (GArr swapA)) = Ok swapG, tested 2 swapG, g_orth swapG && g_perm swapG,
      generated exdim (pred1 0%N) (the_gens exG) (the_lies exG) swapX &
      group_elem idR exsinv linvE excr exdim excsz (pred1 0%N) (GMat swapM)].
Proof. by split=> //; [exact: swap_init | exact: swap_tested | exact: swap_gen | exact: swap_elem]. Qed.

(** C36.  For all random draws z, ks and perm, Group.sample returns the product of the
    exponential of a linear combination of the Lie algebra and of integer powers of the
    discrete generators; [moves] lists the generators drawn and their exponents. *)
Section Samples.
Variables (linv : nat -> seq RR -> seq RR) (expm : nat -> seq RR -> seq RR).
Theorem C36_sample_product (G : group RR) d z ks perm : linv_ok linv -> expm_ok expm ->
  g_d G = Some d -> gok idR d (g_lie G) -> gok idR d (g_gens G) ->
  (forall h, List.In h (gmats G) -> exists V, [/\ fr V = d, fc V = d, meq (fmul h V) (fid RR d) & meq (fmul V h) (fid RR d)]) ->
  size z = size (lmats G) -> (if g_zscale G is Some zs then size zs = size z else True) ->
  (forall k, all (fun i => i < size (gmats G))%N (perm k)) ->
  exists D Es Ys, [/\ sample idR linv expm G z ks perm = Ok D, meq (unflat d d D) (mprod d (Es ++ Ys)), size D = (d * d)%N,
    (if nilp (lmats G) then Es = [::]
     else exists2 E, Es = [:: E] & is_exp d (lincomb id d (nth 0 (noise G z)) (lmats G)) E) &
    size Ys = size (moves ks perm) /\ forall t, (t < size Ys)%N ->
      is_zpow d (nth no (gmats G) (nth (0%N, 0) (moves ks perm) t).1) (nth (0%N, 0) (moves ks perm) t).2 (nth no Ys t)].
Proof. move=> H1 H2 H3 H4 H5 H6; exact: (sample_ok H1 H2 H3 H4 H5 H6). Qed.
Theorem C36_sample_in_group (G : group RR) d z ks perm : linv_ok linv -> expm_ok expm ->
  g_d G = Some d -> gok idR d (g_lie G) -> gok idR d (g_gens G) ->
  (forall h, List.In h (gmats G) -> exists V, [/\ fr V = d, fc V = d, meq (fmul h V) (fid RR d) & meq (fmul V h) (fid RR d)]) ->
  size z = size (lmats G) -> (if g_zscale G is Some zs then size zs = size z else True) ->
  (forall k, all (fun i => i < size (gmats G))%N (perm k)) ->
  exists2 D, sample idR linv expm G z ks perm = Ok D & in_group d (lmats G) (gmats G) (unflat d d D).
Proof. exact: sample_in. Qed.
End Samples.
Example C36_example :
  [/\ linv_ok linvE, expm_ok expmE, g_d swapG = Some 2%N, gok idR 2 (g_lie swapG) & gok idR 2 (g_gens swapG)] /\
  size (gmats swapG) = 1%N /\ meq (fmul (nth no (gmats swapG) 0) (den swapM)) (fid RR 2).
Proof. by split; [split; [exact: linvE_ok | exact: expmE_ok | by [] | by [] | exact: swap_gok] | split; last exact: swap_two]. Qed.

Print Assumptions C34_orthogonal_flag.
Print Assumptions C34_orthogonal_representations.
Print Assumptions C34_orthogonal_dual.
Print Assumptions C34_dihedral.
Print Assumptions C34_tolerance_complete.
Print Assumptions C34_tolerance_refuted.
Print Assumptions C34_example.
Print Assumptions C35_permutation_flag.
Print Assumptions C35_permutation_representations.
Print Assumptions C35_dihedral_refuted.
Print Assumptions C35_tolerance_refuted.
Print Assumptions C36_sample_product.
Print Assumptions C36_sample_in_group.
Print Assumptions C36_example.
