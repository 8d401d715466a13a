(** * PropCube: C60 and C61, the data sets BrokenRubiksCube and InvertedCube. *)
From Coq Require Import Reals.
From mathcomp Require Import all_ssreflect all_algebra.
From Verif Require Import Np Spec LinOp LinOpSpec Rep RepSpec RepWf RepCode RepExpr Rstruct Expm GrpSpec ExRep ExGrp.
From Verif Require Import Groups GroupsSpec GroupsSpecR GroupsFlag GroupsReal GroupsThm ExactSpec Nn NnSpec Data DataSpec DataAlg DataThm ExNn ExData DataGroups.
From Verif Require Import RubikSpec GroupsExactD GroupsRubikG DataCube DataCubeThm DataCubeSets ExData2 ExCube.
Set Implicit Arguments.
Unset Strict Implicit.
Unset Printing Implicit Defensive.
Import GRing.Theory.
Local Open Scope ring_scope.

Section Cubes.
Variables (sinv : RR -> RR) (linv : nat -> seq RR -> seq RR).
Variables (crho cdrho : nat -> option gid -> gel RR -> res (op RR)).
Variables (gdim : gid -> nat) (csize : nat -> gid -> nat) (le : rel rep) (g : gid).
Variable G : gid -> group RR.
Local Notation sz := (rsize gdim csize).
Local Notation elem := (element sinv linv gdim (the_gens G) (the_lies G) g).
Local Notation gorth := (fun h => g_orth (G h)).
Local Notation rep_of := (rep_of gdim gorth csize le g).
Local Notation acts_rows := (acts_rows idR sinv linv crho gdim csize).
Local Notation equivariant := (equivariant idR sinv linv crho gdim csize elem).
Local Notation customs := (customs_ok sinv linv crho cdrho gdim csize (pred1 g) /\
  forall c C M, elem M -> crho c (Some g) M = Ok C -> g_orth (G g) -> orthm (csize c g) (den C)).
Local Notation total_order := (total_order_on (key gdim csize le (pred1 g)) le).
Local Notation customs_nonempty := (forall c, (0 < csize c g)%N).
(** X is in the group that the group object generates *)
Local Notation inG k := (in_group k (lmats (G g)) (gmats (G g))).
(** an element of the group moves u to v *)
Local Notation linked rin u v := (exists2 M, elem M & acts_rows rin (fun=> M) 1 u v).
(** the samples gs of shape (N,k,k) are elements of the group *)
Local Notation samples N k gs := (forall b, (b < N)%N -> inG k (FM k k (fun i j => nth 0 gs (b * (k * k) + (i * k + j))%N))).

(** C60.  The symmetry object RubiksCube() moves the solvable configuration of the data set to
    the broken one.  So every function that is equivariant for it has one value on all rows
    of the training set and of every test set, whatever their labels. *)
Theorem C60_broken_refuted close : customs -> total_order -> customs_nonempty -> gdim g = 48%N ->
  g_rubik idR close = Ok (G g) ->
  exists rin rout, [/\ rep_of cube_in rin, rep_of cube_out rout, sz rin = 288%N, sz rout = 2%N &
    [/\ linked rin (row_of 288 0 (broken_X RR)) (row_of 288 11 (broken_X RR)),
        nth 0 (broken_Y RR) 0 = 1, nth 0 (broken_Y RR) 11 = 0 &
        forall f, equivariant rin rout f -> exists2 y,
          forall i, (i < 22)%N -> f 1%N (row_of 288 i (broken_X RR)) = Ok y &
          forall gs p, size gs = (440 * (48 * 48))%N -> samples 440 48 gs -> is_perm 440 p ->
            exists X Y, broken_test gs p = Ok (X, Y) /\ forall i, (i < 440)%N -> f 1%N (row_of 288 i X) = Ok y]].
Proof. move=> [HC HCo] O C0 Ek EG; exact (broken_refuted HC HCo O C0 (exact_rubik idR close) EG Ek). Qed.
(** nor do the three ways of constructing invalid cubes leave the orbit of any state *)
Theorem C60_ways_refuted close : customs -> total_order -> customs_nonempty -> gdim g = 48%N ->
  g_rubik idR close = Ok (G g) ->
  exists2 rin, rep_of cube_in rin & sz rin = 288%N /\
    forall col S, one_hot col S -> [/\
      linked rin S (UBedge_flip S) /\ (exists col', one_hot col' (UBedge_flip S)),
      forall i, linked rin S (ULBcorner_rot i S) /\ (exists col', one_hot col' (ULBcorner_rot i S)) &
      linked rin S (LBface_swap S) /\ (exists col', one_hot col' (LBface_swap S))].
Proof. move=> [HC HCo] O C0 Ek EG; exact (broken_ways HC HCo O C0 (exact_rubik idR close) EG Ek). Qed.

(** C61.  For InvertedCube and Cube() there is such a function that tells the two
    configurations apart and classifies every row of every test set correctly. *)
Theorem C61_inverted close : customs -> total_order -> customs_nonempty -> gdim g = 6%N ->
  g_cube idR close = Ok (G g) ->
  exists rin rout, [/\ rep_of cube_in rin, rep_of cube_out rout, sz rin = 36%N, sz rout = 2%N &
    exists2 f, equivariant rin rout f &
      [/\ f 1%N (row_of 36 0 (inverted_X RR)) = Ok [:: 1; 0], f 1%N (row_of 36 1 (inverted_X RR)) = Ok [:: 0; 1] &
          forall gs p, size gs = (100 * (6 * 6))%N -> samples 100 6 gs -> is_perm 100 p ->
            exists X Y, inverted_test gs p = Ok (X, Y) /\
              forall i, (i < 100)%N -> f 1%N (row_of 36 i X) = Ok [:: nth 0 Y i; 1 - nth 0 Y i]]].
Proof. move=> [HC HCo] O C0 Ek EG; exact (inverted_learnable HC HCo O C0 (exact_cube idR close) EG Ek). Qed.
End Cubes.
Print Assumptions C60_broken_refuted.
Print Assumptions C60_ways_refuted.
Print Assumptions C61_inverted.
(** the two group objects exist and satisfy the hypotheses *)
Example C60_example close : ready (g_rubik idR close) 48.
Proof. exact: ready_rubik. Qed.
Example C61_example close : ready (g_cube idR close) 6.
Proof. exact: ready_cube. Qed.
(** the solved cube is a one-hot state; it differs from the broken cube of the data set and
    from the results of the three functions *)
Example C60_example_solved : one_hot (fun x => x %/ 8)%N (solved_state RR).
Proof. exact: solved_one_hot. Qed.
Example C60_example_run : let S := solved_state Z0 in
  [/\ parity_state Z0 != S, UBedge_flip S != S, ULBcorner_rot 1 S != S, LBface_swap S != S &
      nth 0 S (0 * 48 + 1) = 1 /\ nth 0 (UBedge_flip S) (0 * 48 + 1) = 0].
Proof. by vm_compute. Qed.
(** the test set of InvertedCube for 100 identity matrices and the identity permutation *)
Example C61_example_run : match inverted_test (flatten (nseq 100 (mkseq (fun t => (t %/ 6 == t %% 6)%N%:R : Z0) 36))) (iota 0 100) with
  | Ok (X, Y) => [&& row_of 36 49 X == row_of 36 0 (inverted_X Z0), row_of 36 50 X == row_of 36 1 (inverted_X Z0),
                     nth 0 Y 49 == 1, nth 0 Y 50 == 0 & size X == 3600%N]
  | Err _ => false end.
Proof. by vm_compute. Qed.
