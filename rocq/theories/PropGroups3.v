(** * PropGroups3: C37, C38 and C39, the Rubik's cube group, product groups and embeddings. *)
From Coq Require Import String.
From mathcomp Require Import all_ssreflect all_algebra.
From Verif Require Import Np NpLemmas Spec LinOp LinOpSpec Cplx Rep RepSpec RepWf RepExpr RepCode ExRep Solver SolSpec ExSol.
From Verif Require Import Groups GroupsSpec GroupsU GroupsInit GroupsThm GroupsRubik GroupsProd GroupsEmb ExGroups3.
Set Implicit Arguments.
Unset Strict Implicit.
Unset Printing Implicit Defensive.
Import GRing.Theory.
Local Open Scope ring_scope.

Section C37.
Variables (R : comRingType) (conj : R -> R) (close : seq R -> seq R -> bool).
(** C37.  Every word permutes the 48 stickers, corner stickers among corner stickers and edge
    stickers among edge stickers. *)
Theorem C37_sticker_kinds : gens_are (g_rubik conj close) 48 (fun gs => forall X, words 48 gs X ->
  exists2 p, is_perm 48 p & meq X (perm_mat R 48 p) /\ forall i, (i < 48)%N -> corner (nth 0%N p i) = corner i).
Proof. exact: rubik_kinds. Qed.
(** But whatever triples of corner stickers are taken to be the corner cubies, some generator
    tears one apart: it moves two stickers of one cubie to two different cubies.  The same for
    pairs of edge stickers.  So the claim is false for every labelling of the cube. *)
Theorem C37_corners_refuted (b : nat -> nat) : (forall x, (x < 48)%N -> corner x -> stickers b x = 3%N) ->
  exists2 G, g_rubik conj close = Ok G & torn b G.
Proof. exact: corners_torn. Qed.
Theorem C37_edges_refuted (b : nat -> nat) : (forall x, (x < 48)%N -> ~~ corner x -> stickers b x = 2%N) ->
  exists2 G, g_rubik conj close = Ok G & torn b G.
Proof. exact: edges_torn. Qed.
End C37.
(* the stickers of the cubies of a cube: classes of 3 and 2; the first generator keeps them
   together, the other five do not *)
Example C37_example : all (fun x => stickers cubie x == if corner x then 3 else 2)%N (iota 0 48) /\
  map (kept cubie) rubik_perms = [:: true; false; false; false; false; false].
Proof. exact: cubie_ok. Qed.

(** C38.  G1*G2: the generators are those of the factors on separate tensor axes. *)
Theorem C38_generators (R : comRingType) (conj : R -> R) (close : seq R -> seq R -> bool) d1 d2 (G1 G2 : group R) :
  usable conj d1 G1 -> usable conj d2 G2 ->
  (0 < size (gitems (g_lie G1)) + size (gitems (g_gens G1)) + size (gitems (g_lie G2)) + size (gitems (g_gens G2)))%N ->
  exists2 G, g_prod conj close G1 G2 = Ok G & [/\ usable conj (d1 * d2) G, g_repr G = cat (g_repr G1) (cat "x" (g_repr G2)),
    meqs (gmats G) (map (left_ax d2) (gmats G1) ++ map (right_ax d1) (gmats G2)) &
    meqs (lmats G) (map (left_ax d2) (lmats G1) ++ map (right_ax d1) (lmats G2))].
Proof. exact: prod_ok. Qed.
(** the product of two groups without generators has no dimension *)
Theorem C38_no_generators (R : comRingType) (conj : R -> R) (close : seq R -> seq R -> bool) d1 d2 (G1 G2 : group R) :
  g_d G1 = Some d1 -> g_d G2 = Some d2 ->
  (size (gitems (g_lie G1)) + size (gitems (g_gens G1)) + size (gitems (g_lie G2)) + size (gitems (g_gens G2)) = 0)%N ->
  exists2 G, g_prod conj close G1 G2 = Ok G & g_d G = None.
Proof. exact: prod_none. Qed.
(** the dual of V(G1*G2) cannot be evaluated at a generator that comes from a plain array *)
Theorem C38_dual_error (R : comRingType) (conj : R -> R) (close : seq R -> seq R -> bool) (sinv : R -> R) linv crho d1 d2 (G1 G2 G : group R) m n D :
  usable conj d1 G1 -> usable conj d2 G2 -> g_prod conj close G1 G2 = Ok G ->
  List.In (OArr m n D) (gitems (g_gens G1)) ->
  exists2 h, List.In h (gitems (g_gens G)) &
    (forall (p : gid) M, glook M (Some p) = Ok h -> rho_dense conj sinv linv crho (RDual (RBase (Some p))) M = Err AttributeError).
Proof. exact: prod_dual_err. Qed.
Section C38.
Variables (R : comRingType) (conj : R -> R) (close : seq R -> seq R -> bool).
Variables (sinv : R -> R) (linv : nat -> seq R -> seq R).
Variables (crho cdrho : nat -> option gid -> gel R -> res (op R)).
Variables (gdim : gid -> nat) (csize : nat -> gid -> nat) (le : rel rep).
Variables (G : gid -> group R) (p g1 g2 : gid).
Local Notation gs := (predU (pred1 g1) (pred1 g2)).
Local Notation gens := (fun g => gitems (g_gens (G g))).
Local Notation lies := (fun g => gitems (g_lie (G g))).
Local Notation V g := (RBase (Some g)).
Local Notation invariant := (fun gs => invariant conj gdim sinv linv crho cdrho csize gs gens lies).
(** p is the group G1*G2: V(p) and V(g1)*V(g2) have the same size and the same invariant vectors *)
Theorem C38_invariants : g1 != g2 -> total_order_on (key gdim csize le gs) le ->
  generators_ok conj gdim sinv linv crho cdrho csize gs gens lies ->
  usable conj (gdim g1) (G g1) -> usable conj (gdim g2) (G g2) ->
  g_prod conj close (G g1) (G g2) = Ok (G p) -> gdim p = (gdim g1 * gdim g2)%N ->
  (0 < size (lies g1) + size (gens g1) + size (lies g2) + size (gens g2))%N ->
  exists r, [/\ mul gdim csize le (V g1) (V g2) = Ok r, wfr gdim csize le gs r, rsize gdim csize r = gdim p &
    forall v, invariant (pred1 p) (V p) v <-> invariant gs r v].
Proof. exact: prod_invariants. Qed.
End C38.
Example C38_example : [/\ total_order_on (key famd cs1 le_asc (predU (pred1 0%N) (pred1 1%N))) le_asc,
  generators_ok idz famd idz (@linv2 R0) (@cr1 R0) (@cd1 R0) cs1 (predU (pred1 0%N) (pred1 1%N))
    (fun g => gitems (g_gens (fam g))) (fun g => gitems (g_lie (fam g))),
  usable idz (famd 0%N) (fam 0%N) /\ usable idz (famd 1%N) (fam 1%N),
  g_prod idz yes (fam 0%N) (fam 1%N) = Ok (fam 2%N) & (size (gitems (g_gens (fam 2%N))), size (gitems (g_lie (fam 2%N)))) = (1, 1)%N].
Proof.
split; [exact: le_asc_total | exact: fam_gens | by split; apply: fam_usable | exact: fam_prod | by vm_compute].
Qed.

(** C39.  Embed(G,d,slice), the slice selecting as many coordinates as G acts on: the
    generators act on those coordinates as the generators of G, the Lie algebra by 0 and the
    discrete generators by 1 on the others. *)
Theorem C39_acts_on_slice (R : comRingType) (conj re : R -> R) (close : seq R -> seq R -> bool) (G : group R) d sl ix g k1 k2 :
  arrays re G g k1 k2 -> (0 < k1 + k2)%N -> slice_ix d sl = Ok ix -> size ix = g ->
  exists2 G', g_embed conj re close G d sl = Ok G' & [/\ g_d G' = Some d, size (lmats G') = k1, size (gmats G') = k2 &
     (forall t, (t < k1)%N -> acts_on d ix 0 (nth (fzero R 0 0) (lmats G) t) (nth (fzero R 0 0) (lmats G') t)) /\
     (forall t, (t < k2)%N -> acts_on d ix 1 (nth (fzero R 0 0) (gmats G) t) (nth (fzero R 0 0) (gmats G') t))].
Proof. exact: embed_ok. Qed.
(** the indices of a slice are distinct coordinates *)
Theorem C39_slices d sl ix : slice_ix d sl = Ok ix -> uniq ix /\ all (fun i => i < d)%N ix.
Proof. exact: slice_ok. Qed.
(** the failures *)
Theorem C39_errors (R : comRingType) (conj re : R -> R) (close : seq R -> seq R -> bool) (G : group R) d sl :
  (forall g k1 k2 ix, arrays re G g k1 k2 -> slice_ix d sl = Ok ix -> size ix <> g -> g <> 1%N ->
     g_embed conj re close G d sl = Err ValueError) /\
  (forall g k1 k2, arrays re G g k1 k2 -> s_step sl = Some 0 -> g_embed conj re close G d sl = Err ValueError) /\
  (forall l, g_gens G = GOps l \/ g_lie G = GOps l -> g_embed conj re close G d sl = Err AttributeError).
Proof. split; [move=> g k1 k2 ix; exact: embed_size | split; [move=> g k1 k2; exact: embed_step0 | exact: embed_list]]. Qed.
Theorem C39_no_generators (R : comRingType) (conj re : R -> R) (close : seq R -> seq R -> bool) (G : group R) d sl ix g :
  arrays re G g 0 0 -> slice_ix d sl = Ok ix -> size ix = g ->
  exists2 G', g_embed conj re close G d sl = Ok G' & g_d G' = None.
Proof. exact: embed_none. Qed.
(** Two embeddings that act differently are equal: SO(2) on the first two and on the last two
    coordinates of R^3.  The entry (1,0) of the Lie algebra element differs. *)
Theorem C39_equality_refuted (R : comRingType) (conj : R -> R) (close : seq R -> seq R -> bool) :
  exists G G1 G2, [/\ g_so conj close 2 = Ok G, g_embed conj id close G 3 (s_upto 2) = Ok G1,
   g_embed conj id close G 3 (s_mid 1 3) = Ok G2, g_eq G1 G2 &
   fe (nth (fzero R 0 0) (lmats G1) 0) 1 0 = 1 /\ fe (nth (fzero R 0 0) (lmats G2) 0) 1 0 = 0].
Proof. exact: embed_same_name. Qed.
(** A group that acts on one coordinate embedded on two: its matrix is broadcast and the
    generator is singular. *)
Theorem C39_broadcast_refuted (R : comRingType) (conj : R -> R) (close : seq R -> seq R -> bool) :
  exists G G1 h, [/\ g_o conj close 1 = Ok G, g_embed conj id close G 3 (s_upto 2) = Ok G1, gmats G1 = [:: h] &
  forall i, (i < 3)%N -> \sum_(0 <= j < 3) fe h i j * nth 0 [:: 1; -1; 0] j = 0].
Proof. exact: embed_broadcast. Qed.
(** The imaginary parts of a complex group are dropped: U(1) on its own coordinate becomes trivial. *)
Theorem C39_complex_refuted (F : comRingType) (close : seq (cplx_comRingType F) -> seq (cplx_comRingType F) -> bool) :
  exists G G1 A B, [/\ g_u (@cconj F) (cI F) close 1 = Ok G, g_embed (@cconj F) (@creal F) close G 1 s_all = Ok G1,
  lmats G = [:: A] /\ lmats G1 = [:: B] & fe A 0 0 = cI F /\ fe B 0 0 = 0].
Proof. exact: embed_complex. Qed.
(* SO(2) on the coordinates 3 and 1 of R^4 (slice(3,0,-2)) *)
Example C39_example : slice_ix 4 (Slice (Some 3%:Z) (Some 0) (Some (-2%:Z))) = Ok [:: 3; 1]%N /\
  forall (R : comRingType) (conj : R -> R) close G, g_so conj close 2 = Ok G -> arrays id G 2 1 0.
Proof. by split; [vm_compute | move=> R conj close G; exact: so2_arrays]. Qed.

Print Assumptions C37_sticker_kinds.
Print Assumptions C37_corners_refuted.
Print Assumptions C37_edges_refuted.
Print Assumptions C37_example.
Print Assumptions C38_generators.
Print Assumptions C38_no_generators.
Print Assumptions C38_dual_error.
Print Assumptions C38_invariants.
Print Assumptions C38_example.
Print Assumptions C39_acts_on_slice.
Print Assumptions C39_slices.
Print Assumptions C39_errors.
Print Assumptions C39_no_generators.
Print Assumptions C39_equality_refuted.
Print Assumptions C39_broadcast_refuted.
Print Assumptions C39_complex_refuted.
Print Assumptions C39_example.
