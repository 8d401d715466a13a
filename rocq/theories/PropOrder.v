(** * PropOrder: C20, the comparison of representations, and C12 for Python's hashes. *)
From mathcomp Require Import all_ssreflect all_algebra.
From Verif Require Import Np Spec LinOp LinOpSpec Rep RepSpec RepWf RepExpr RepThm1 Order OrderProofs ExRep.
Set Implicit Arguments.
Unset Strict Implicit.
Unset Printing Implicit Defensive.
Local Open Scope ring_scope.
Import Order.TTheory GRing.Theory Num.Theory.

(** C20.  On the summands that representations of one group of dimension at least 2 can
    have, < never raises and is a strict weak order, whatever the hash function; user
    classes must be larger than V and hash below their duals. *)
Theorem C20_strict_weak_order :
  forall (gdim : gid -> nat) (csize : nat -> gid -> nat) (ghash : gid -> int) (nhash : int) (hash : rep -> int)
    (le : rel rep) (g : gid),
  (1 < gdim g)%N ->
  (forall c, (gdim g < csize c g)%N /\ hash (RCustom c (Some g)) < hash (RDual (RCustom c (Some g)))) ->
  exists lt : rel rep,
    [/\ forall a b, key gdim csize le (pred1 g) a -> key gdim csize le (pred1 g) b ->
          py_lt gdim csize ghash nhash hash a b = Ok (lt a b),
        forall a, lt a a = false,
        forall a b, lt a b -> ~~ lt b a,
        forall a b c, lt a b -> lt b c -> lt a c &
        forall a b c, ~~ lt a b -> ~~ lt b c -> ~~ lt a c].
Proof.
move=> gdim csize ghash nhash hash le g G2 HC; exists (klt gdim csize hash); split.
- exact: (lt_key ghash nhash G2 HC).
- exact: klt_irr.
- exact: klt_total.
- by move=> a b c; apply: klt_trans.
exact: klt_incomp.
Qed.
Print Assumptions C20_strict_weak_order.

(** It is total when representations of the same size have different hashes, so that
    canonical forms are well defined. *)
Theorem C20_total_order :
  forall (gdim : gid -> nat) (csize : nat -> gid -> nat) (ghash : gid -> int) (nhash : int) (hash : rep -> int)
    (le : rel rep) (g : gid),
  (1 < gdim g)%N ->
  (forall c, (gdim g < csize c g)%N /\ hash (RCustom c (Some g)) < hash (RDual (RCustom c (Some g)))) ->
  (forall a b, key gdim csize le (pred1 g) a -> key gdim csize le (pred1 g) b ->
     rsize gdim csize a = rsize gdim csize b -> hash a = hash b -> a = b) ->
  total_order_on (key gdim csize le (pred1 g)) (py_le gdim csize ghash nhash hash).
Proof. by move=> gdim csize ghash nhash hash le g; apply: py_total. Qed.
Print Assumptions C20_total_order.

(** C12 for the comparison of Python: two runs with different hashes give the same
    matrices. *)
Theorem C12_hash_seeds :
  forall (gdim : gid -> nat) (gorth : gid -> bool) (csize : nat -> gid -> nat)
    (ghash1 ghash2 : gid -> int) (nhash1 nhash2 : int) (hash1 hash2 : rep -> int) (g : gid)
    (R : comRingType) (conj sinv : R -> R) (linv : nat -> seq R -> seq R)
    (crho : nat -> option gid -> gel R -> res (op R)) (e : expr) (M : gel R) (A B : option nat -> fmat R) (X : fmat R),
  let le1 := py_le gdim csize ghash1 nhash1 hash1 in let le2 := py_le gdim csize ghash2 nhash2 hash2 in
  (1 < gdim g)%N ->
  (forall c, [/\ (gdim g < csize c g)%N, hash1 (RCustom c (Some g)) < hash1 (RDual (RCustom c (Some g))) &
     hash2 (RCustom c (Some g)) < hash2 (RDual (RCustom c (Some g)))]) ->
  (forall a b, key gdim csize le1 (pred1 g) a -> key gdim csize le1 (pred1 g) b ->
     rsize gdim csize a = rsize gdim csize b -> hash1 a = hash1 b -> a = b) ->
  (forall a b, key gdim csize le2 (pred1 g) a -> key gdim csize le2 (pred1 g) b ->
     rsize gdim csize a = rsize gdim csize b -> hash2 a = hash2 b -> a = b) ->
  group_elem conj sinv linv crho gdim csize (pred1 g) M -> orth_elem crho gdim csize gorth (pred1 g) M ->
  rho_leaves crho g M A B -> espec A B e = Some (SMat X) ->
  exists r1 r2, [/\ eval gdim gorth csize le1 (Some g) e = Ok (VRep r1),
    eval gdim gorth csize le2 (Some g) e = Ok (VRep r2) &
    rho_dense conj sinv linv crho r1 M = rho_dense conj sinv linv crho r2 M /\
    rho_dense conj sinv linv crho r1 M = Ok (fr X, fc X, flat X)].
Proof.
move=> gdim gorth csize ghash1 ghash2 nhash1 nhash2 hash1 hash2 g R conj sinv linv crho e M A B X le1 le2 G2 HC H1 H2 HM HO HL E.
have G0 : (0 < gdim g)%N by apply: leq_trans G2.
have C0 c : (0 < csize c g)%N by have [h _ _] := HC c; apply: leq_trans h.
have O1 : total_order_on (key gdim csize le1 (pred1 g)) le1.
  by apply: py_total => // c; have [h1 h2 h3] := HC c.
have O2 : total_order_on (key gdim csize le2 (pred1 g)) le2.
  by apply: py_total => // c; have [h1 h2 h3] := HC c.
have [[r1 [E1 _ R1]] _] := expr_thm O1 G0 C0 HM HO HL E.
have [[r2 [E2 _ R2]] _] := expr_thm O2 G0 C0 HM HO HL E.
by exists r1, r2; split=> //; rewrite R1 R2.
Qed.
Print Assumptions C12_hash_seeds.

(* hashes: V.T before V, everything else by an injective code *)
Definition exhash (s : int) (r : rep) : int :=
  match r with
  | RCustom c _ => (2 * c)%N%:Z | RDual (RCustom c _) => (2 * c)%N.+1%:Z
  | RBase _ => s | RDual _ => - s | _ => 7%:Z end.
Example C20_example :
  let V := RBase (Some 0%N) in let W := RDual V in
  let P := RProd [:: (V, 1); (W, 1)]%N (iota 0 4) in
  let le := py_le gd2 (fun _ _ => 3%N) (fun _ => 0) 0 (exhash 1) in
  [/\ (1 < gd2 0)%N, all (key gd2 (fun _ _ => 3%N) le (pred1 0%N)) [:: RScalar; V; W; P],
      forall c, (gd2 0 < 3)%N /\ exhash 1 (RCustom c (Some 0%N)) < exhash 1 (RDual (RCustom c (Some 0%N))) &
      sort le [:: P; W; V; RScalar] = [:: RScalar; V; W; P]].
Proof.
split; [by [] | by vm_compute | | by vm_compute].
by move=> c; split=> //; rewrite /exhash ltz_nat ltnS.
Qed.

(** Without these restrictions < is not an order.  Two groups: both V(G0)<V(G1).T and
    V(G1).T<V(G0). *)
Theorem C20_two_groups_refuted :
  exists (gdim : gid -> nat) (csize : nat -> gid -> nat) (ghash : gid -> int) (nhash : int) (hash : rep -> int) (a b : rep),
    let lt := py_lt gdim csize ghash nhash hash in
    let k := key gdim csize (py_le gdim csize ghash nhash hash) predT in
    [/\ k a, k b, lt a b = Ok true & lt b a = Ok true].
Proof.
exists (fun _ => 2%N), (fun _ _ => 1%N), (fun g => - Posz g), 0, (fun _ => 0), (RBase (Some 0%N)), (RDual (RBase (Some 1%N))).
by vm_compute.
Qed.
Print Assumptions C20_two_groups_refuted.

(** Products of several groups: a cycle of three. *)
Theorem C20_direct_product_refuted :
  exists (gdim : gid -> nat) (csize : nat -> gid -> nat) (ghash : gid -> int) (nhash : int) (hash : rep -> int) (a b c : rep),
    let lt := py_lt gdim csize ghash nhash hash in
    let k := key gdim csize (py_le gdim csize ghash nhash hash) predT in
    [/\ k a /\ k b, k c, lt a b = Ok true, lt b c = Ok true & lt c a = Ok true].
Proof.
exists (fun g => if g == 0 then 5 else 2)%N, (fun _ _ => 1%N), (fun g => Posz g), 0, (fun _ => 0),
  (RBase (Some 0%N)), (RBase (Some 1%N)), (RDir [:: (RBase (Some 1), 1); (RBase (Some 2), 1)]%N (iota 0 4)).
by vm_compute.
Qed.
Print Assumptions C20_direct_product_refuted.

(** A user-defined class smaller than V: V<C.T and C.T<V. *)
Theorem C20_small_class_refuted :
  exists (gdim : gid -> nat) (csize : nat -> gid -> nat) (ghash : gid -> int) (nhash : int) (hash : rep -> int) (a b : rep),
    let lt := py_lt gdim csize ghash nhash hash in
    let k := key gdim csize (py_le gdim csize ghash nhash hash) (pred1 0%N) in
    [/\ k a, k b, lt a b = Ok true & lt b a = Ok true].
Proof.
exists (fun _ => 3%N), (fun _ _ => 2%N), (fun g => 0), 0, (fun _ => 0), (RBase (Some 0%N)), (RDual (RCustom 0 (Some 0%N))).
by vm_compute.
Qed.
Print Assumptions C20_small_class_refuted.

(** A one-dimensional group: Scalar is incomparable with V and with V.T, but V<V.T. *)
Theorem C20_one_dimensional_refuted :
  exists (gdim : gid -> nat) (csize : nat -> gid -> nat) (ghash : gid -> int) (nhash : int) (hash : rep -> int) (a b c : rep),
    let lt := py_lt gdim csize ghash nhash hash in
    let k := key gdim csize (py_le gdim csize ghash nhash hash) (pred1 0%N) in
    [/\ k a /\ k b, k c, lt a b = Ok false /\ lt b a = Ok false, lt a c = Ok false /\ lt c a = Ok false & lt b c = Ok true].
Proof.
exists (fun _ => 1%N), (fun _ _ => 2%N), (fun g => 0), 0, (fun r => if r == RScalar then 0 else -1),
  RScalar, (RBase (Some 0%N)), (RDual (RBase (Some 0%N))).
by vm_compute.
Qed.
Print Assumptions C20_one_dimensional_refuted.
