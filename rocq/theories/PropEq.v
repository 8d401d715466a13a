(** * PropEq: C21 (immutability), C22 (re-instantiation), C23 (equality and hashing). *)
From mathcomp Require Import all_ssreflect all_algebra.
From Verif Require Import Np Spec LinOp LinOpSpec Rep RepSpec RepWf RepExpr RepThm RepCode ExRep Order Heap Eq EqProofs EqThm.
Set Implicit Arguments.
Unset Strict Implicit.
Unset Printing Implicit Defensive.
Import GRing.Theory.
Local Open Scope ring_scope.

(** C21.  Whatever API calls follow, every object built so far keeps its value, ... *)
Theorem C21_objects_unchanged :
  forall gdim gorth csize ghash nhash hash (st : state) (cs : seq cmd) (i : nat),
  (i < size (objs st))%N ->
  nth RScalar (objs (run gdim gorth csize ghash nhash hash st cs)) i = nth RScalar (objs st) i.
Proof. exact: run_objs. Qed.
Print Assumptions C21_objects_unchanged.

(** ... and the group of Scalar changes only when a representation containing Scalar is
    called. *)
Theorem C21_scalar_changed_only_by_call :
  forall gdim gorth csize ghash nhash hash (st : state) (c : cmd),
  harmless st c -> scalar_G (step gdim gorth csize ghash nhash hash st c) = scalar_G st.
Proof. exact: step_G. Qed.
Print Assumptions C21_scalar_changed_only_by_call.

Example C21_example :
  let st := St None [:: V0; RScalar] in
  harmless st (CCall 0 (Some 1%N)) /\
  objs (run gd2 noorth cs1 (fun g => Posz g) 0 (fun _ => 0) st [:: CCall 0 (Some 1%N); CCall 1 (Some 3%N)]) =
    [:: V0; RScalar; RBase (Some 1%N); RScalar].
Proof. by vm_compute. Qed.

(** Scalar(G) stores G in the module-level Scalar.  Afterwards Scalar<V(H) changes from
    True to False when hash(H)<hash(G), and V(H)+Scalar, built from the same two objects,
    is stored in another order. *)
Theorem C21_scalar_refuted :
  exists (gdim : gid -> nat) (gorth : gid -> bool) (csize : nat -> gid -> nat) (ghash : gid -> int) (nhash : int)
    (hash : rep -> int) (G H : gid),
    let st := St None [:: RScalar; RBase (Some H)] in
    let st' := step gdim gorth csize ghash nhash hash st (CCall 0 (Some G)) in
    let lt s := lt_s gdim csize ghash nhash hash (scalar_G s) RScalar (RBase (Some H)) in
    let sum s := add gdim csize (le_s gdim csize ghash nhash hash (scalar_G s)) (RBase (Some H)) RScalar in
    [/\ scalar_G st' = Some G, lt st = Ok true, lt st' = Ok false & sum st <> sum st'].
Proof.
exists gd2, noorth, cs1, (fun g => Posz g), 0, (fun _ => 0), 1%N, 0%N.
by split; vm_compute.
Qed.
Print Assumptions C21_scalar_refuted.

(** C22.  V, Scalar, user-defined classes and their duals are re-instantiated for the new
    group; so is a sum of them, if the new summands are distinct and in the same order
    and the size is unchanged. *)
Theorem C22_atoms :
  forall gdim gorth csize le (g : gid) (r : rep), simple r ->
  call gdim gorth csize le r (Some g) = Ok (relabel gorth g r).
Proof. by move=> gdim gorth csize le g r; apply: call_simple. Qed.
Print Assumptions C22_atoms.

Theorem C22_sum_of_other_group :
  forall gdim gorth csize le (g : gid) (d : dict) (p : seq nat),
  total_order_on (key gdim csize le (pred1 g)) le -> all simple (keys d) ->
  let d' := [seq (relabel gorth g x.1, x.2) | x <- d] in
  okdict le (key gdim csize le (pred1 g)) d' -> is_perm (rsize gdim csize (RSum d' p)) p ->
  call gdim gorth csize le (RSum d p) (Some g) = Ok (RSum d' p).
Proof. by move=> gdim gorth csize le g d p O; apply: call_sum. Qed.
Print Assumptions C22_sum_of_other_group.

(** Calling with the group it already has gives the same representation, for sums of
    these (with duals only if the group is not orthogonal; otherwise T creates none). *)
Theorem C22_same_group :
  forall gdim gorth csize le (g : gid) (r : rep),
  total_order_on (key gdim csize le (pred1 g)) le -> wfr gdim csize le (pred1 g) r ->
  (if r is RSum d _ then all (fun k => simple k && (if k is RDual _ then ~~ gorth g else true)) (keys d)
   else simple r && (if r is RDual _ then ~~ gorth g else true)) ->
  call gdim gorth csize le r (Some g) = Ok r.
Proof. by move=> gdim gorth csize le g r O; apply: call_same. Qed.
Print Assumptions C22_same_group.

(* 1+V.T+V of group 0, for group 0 again and for group 1 *)
Example C22_example :
  let p := [:: 0; 3; 4; 1; 2]%N in
  let r g := RSum [:: (RScalar, 1%N); (RBase (Some g), 1%N); (RDual (RBase (Some g)), 1%N)] p in
  [/\ ord0, wf0 exS, exS = r 0%N, call gd2 noorth cs1 le_asc exS (Some 0%N) = Ok (r 0%N) &
    [/\ all simple [:: RScalar; V0; Vd], total_order_on (key gd2 cs1 le_asc (pred1 1%N)) le_asc &
    okdict le_asc (key gd2 cs1 le_asc (pred1 1%N)) [seq (relabel noorth 1%N x.1, x.2) | x <- [:: (RScalar, 1%N); (V0, 1%N); (Vd, 1%N)]] &&
    is_perm 5 p /\ call gd2 noorth cs1 le_asc exS (Some 1%N) = Ok (r 1%N)]].
Proof.
split; [exact: ord0_ok | by vm_compute | by vm_compute | by vm_compute |].
by split; [| exact: le_asc_total | vm_compute].
Qed.

(** Not for all: products cannot be called at all, ... *)
Theorem C22_product_refuted :
  exists gdim gorth csize le (g : gid) (r : rep),
    [/\ total_order_on (key gdim csize le (pred1 g)) le, wfr gdim csize le (pred1 g) r &
      call gdim gorth csize le r (Some g) = Err NotImplementedError].
Proof.
exists gd2, noorth, cs1, le_asc, 0%N, (the V0 (do x <- mul0 V0 V0; add0 x RScalar)).
by split; [exact: le_asc_total | vm_compute..].
Qed.
Print Assumptions C22_product_refuted.

(** ... the permutation of a sum is not adapted to a group of another dimension, ... *)
Theorem C22_dimension_refuted :
  exists gdim gorth csize le (g h : gid) (r : rep) d p,
    [/\ total_order_on (key gdim csize le predT) le, wfr gdim csize le (pred1 g) r,
      call gdim gorth csize le r (Some h) = Ok (RSum d p) &
      size p != rsize gdim csize (RSum d p)].
Proof.
exists (fun g => if g == 0 then 2 else 3)%N, noorth, cs1, le_asc, 0%N, 1%N, (the V0 (add0 V0 RScalar)).
exists [:: (RScalar, 1); (RBase (Some 1), 1)]%N, [:: 2; 0; 1]%N.
by split; [exact: le_asc_total | vm_compute..].
Qed.
Print Assumptions C22_dimension_refuted.

(** ... V and V.T collapse into one summand for an orthogonal group, ... *)
Theorem C22_orthogonal_refuted :
  exists gdim gorth csize le (g h : gid) (r r' : rep),
    [/\ total_order_on (key gdim csize le predT) le, wfr gdim csize le (pred1 g) r,
      call gdim gorth csize le r (Some h) = Ok r', rsize gdim csize r = 4%N & rsize gdim csize r' = 2%N].
Proof.
exists gd2, (fun g => g == 1%N), cs1, le_asc, 0%N, 1%N, (the V0 (add0 V0 Vd)).
exists (RSum [:: (RBase (Some 1), 1)]%N [:: 0; 1]%N).
by split; [exact: le_asc_total | vm_compute..].
Qed.
Print Assumptions C22_orthogonal_refuted.

(** ... and if the summands of the new group sort differently, they get each other's
    coordinates. *)
Theorem C22_order_refuted :
  exists gdim gorth csize le (g h : gid) (r r' : rep) (M : gel int_comRing) D D',
    [/\ total_order_on (key gdim csize le predT) le, wfr gdim csize le (pred1 g) r,
      call gdim gorth csize le r (Some h) = Ok r',
      rho_z r M = Ok (3%N, 3%N, D) /\ rho_z r' M = Ok (3%N, 3%N, D') & D <> D'].
Proof.
exists gd2, noorth, cs1, le_flip, 0%N, 1%N,
  (RSum [:: (V0, 1); (RCustom 0 (Some 0), 1)] [:: 0; 1; 2])%N,
  (RSum [:: (RCustom 0 (Some 1), 1); (RBase (Some 1), 1)] [:: 0; 1; 2])%N, (@shear int_comRing 3%:Z).
exists [:: 1; 3%:Z; 0; 0; 1; 0; 0; 0; 1], [:: 1; 0; 0; 0; 1; 3%:Z; 0; 0; 1].
by split; [exact: le_flip_total | vm_compute..].
Qed.
Print Assumptions C22_order_refuted.

(** C23.  == is equality, between two sums and from anything that is not a sum; in
    particular it does not raise, and equal representations have equal hashes (or both
    raise) and equal matrices. *)
Theorem C23_eq_is_equality :
  forall gdim csize le gs (a b : rep),
  total_order_on (key gdim csize le gs) le -> wfr gdim csize le gs a -> wfr gdim csize le gs b ->
  ~~ (issum gdim csize le gs a && ~~ issum gdim csize le gs b) ->
  py_eq a b = Ok (a == b).
Proof.
move=> gdim csize le gs a b O Wa Wb H; apply: (eq_wfr O Wa Wb); move: H; rewrite negb_and negbK.
by case/orP=> H; [left; case/orP: Wa => // E; rewrite E in H | right].
Qed.
Print Assumptions C23_eq_is_equality.

Theorem C23_equal_hash_and_matrices :
  forall gdim csize le gs (R : comRingType) (conj sinv : R -> R) linv crho (a b : rep),
  total_order_on (key gdim csize le gs) le -> wfr gdim csize le gs a -> wfr gdim csize le gs b ->
  ~~ (issum gdim csize le gs a && ~~ issum gdim csize le gs b) ->
  py_eq a b = Ok true ->
  hash_val a = hash_val b /\ forall M, rho_dense conj sinv linv crho a M = rho_dense conj sinv linv crho b M.
Proof.
move=> gdim csize le gs R conj sinv linv crho a b O Wa Wb H.
by rewrite (C23_eq_is_equality O Wa Wb H) => -[/eqP ->].
Qed.
Print Assumptions C23_equal_hash_and_matrices.

Example C23_example :
  [/\ ord0, wf0 exS && wf0 exP && wf0 Vd, py_eq exS exS = Ok true, py_eq exP Vd = Ok false & py_eq Vd exS = Ok false].
Proof. by split; [exact: ord0_ok | vm_compute..]. Qed.

(** A sum compared with V (or Scalar, ...) raises. *)
Theorem C23_sum_raises_refuted :
  exists gdim csize le gs (a b : rep),
    [/\ total_order_on (key gdim csize le gs) le, wfr gdim csize le gs a, wfr gdim csize le gs b &
      py_eq a b = Err AttributeError].
Proof.
exists gd2, cs1, le_asc, predT, exS, V0.
by split; [exact: le_asc_total | vm_compute..].
Qed.
Print Assumptions C23_sum_raises_refuted.

(** A sum compared with a product compares the dictionaries only: for a group of
    dimension 2, V+V==V*V, with the same hash, though the matrices differ (and V*V==V+V
    is False). *)
Theorem C23_sum_equals_product_refuted :
  exists gdim csize le gs (a b : rep) (M : gel int_comRing),
    [/\ total_order_on (key gdim csize le gs) le, wfr gdim csize le gs a /\ wfr gdim csize le gs b,
      py_eq a b = Ok true /\ py_eq b a = Ok false, hash_val a = hash_val b & rho_z a M <> rho_z b M].
Proof.
exists gd2, cs1, le_asc, predT, (RSum [:: (V0, 2)] [:: 0; 1; 2; 3])%N, (RProd [:: (V0, 2)] [:: 0; 1; 2; 3])%N, (@shear int_comRing 1).
by split; [exact: le_asc_total | vm_compute..].
Qed.
Print Assumptions C23_sum_equals_product_refuted.

(** A representation whose coordinates are permuted has no hash. *)
Theorem C23_hash_raises_refuted :
  exists gdim csize le gs (a : rep),
    [/\ total_order_on (key gdim csize le gs) le, wfr gdim csize le gs a & hash_val a = Err AssertionError].
Proof.
exists gd2, cs1, le_asc, predT, exS.
by split; [exact: le_asc_total | vm_compute..].
Qed.
Print Assumptions C23_hash_raises_refuted.
