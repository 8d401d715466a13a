(** * PropDir: C19, products of representations of different groups. *)
From mathcomp Require Import all_ssreflect all_algebra.
From Verif Require Import Np Spec LinOp LinOpSpec Rep RepSpec RepWf RepExpr RepThm RepThm1 RepCode ExRep RepDir DirThm.
Set Implicit Arguments.
Unset Strict Implicit.
Unset Printing Implicit Defensive.
Import GRing.Theory.
Local Open Scope ring_scope.

Section Dir.
Variable R : comRingType.
Variables (conj sinv : R -> R) (linv : nat -> seq R -> seq R).
Variables (crho cdrho : nat -> option gid -> gel R -> res (op R)).
Variables (gdim : gid -> nat) (csize : nat -> gid -> nat) (le : rel rep).
Local Notation sz := (rsize gdim csize).
Local Notation wfr := (wfr gdim csize le).
Local Notation mul := (mul gdim csize le).
Local Notation rho_dense := (rho_dense conj sinv linv crho).
Local Notation drho_dense := (drho_dense conj cdrho).
Local Notation total_order gs := (total_order_on (key gdim csize le gs) le).

(** C19.  If no group of a is a group of b, (a*b).rho(M) is the Kronecker product of
    a.rho(M) and b.rho(M), in this order, and drho(M) the Kronecker sum. *)
Theorem C19_disjoint_product (gs1 gs2 : pred gid) a b M :
  (forall g, gs1 g -> ~~ gs2 g) -> total_order (predU gs1 gs2) ->
  wfr gs1 a -> wfr gs2 b -> group_elem conj sinv linv crho gdim csize (predU gs1 gs2) M ->
  exists r Da Db, [/\ mul a b = Ok r, wfr (predU gs1 gs2) r,
    rho_dense a M = Ok (sz a, sz a, Da), rho_dense b M = Ok (sz b, sz b, Db) &
    rho_dense r M = Ok (sz a * sz b, sz a * sz b, kron2 (sz a) Da (sz b) Db)%N].
Proof. move=> D O; exact: (dirmul_thm D O). Qed.

Theorem C19_disjoint_product_drho (gs1 gs2 : pred gid) a b M :
  (forall g, gs1 g -> ~~ gs2 g) -> total_order (predU gs1 gs2) ->
  wfr gs1 a -> wfr gs2 b -> lie_elem conj cdrho gdim csize (predU gs1 gs2) M ->
  exists r Da Db, [/\ mul a b = Ok r, wfr (predU gs1 gs2) r,
    drho_dense a M = Ok (sz a, sz a, Da), drho_dense b M = Ok (sz b, sz b, Db) &
    drho_dense r M = Ok (sz a * sz b, sz a * sz b, kronsum2 (sz a) Da (sz b) Db)%N].
Proof. move=> D O; exact: (dirdmul_thm D O). Qed.

(** a.rho of the dictionary is a.rho of the entry of a's group *)
Theorem C19_dictionary_entry (g : gid) a M A :
  group_elem conj sinv linv crho gdim csize (pred1 g) M -> glook M (Some g) = Ok A ->
  wfr (pred1 g) a -> rho_dense a M = rho_dense a (GMat A).
Proof. exact: rho_entry. Qed.
End Dir.
Print Assumptions C19_disjoint_product.
Print Assumptions C19_disjoint_product_drho.
Print Assumptions C19_dictionary_entry.

Definition V1 : rep := RBase (Some 1%N).
(* {G0: (1 1; 0 1), G1: (1 3; 0 1)} *)
Definition two : gel int_comRing :=
  GDict (fun g => Some (OArr 2 2 [:: 1; if g == 0%N then 1 else 3%:Z; 0; 1])).
Lemma two_ok gs : group_elem idz idz (@linv2 int_comRing) (@cr1 int_comRing) gd2 cs1 gs two.
Proof.
move=> g _; exists (OArr 2 2 [:: 1; if g == 0%N then 1 else 3%:Z; 0; 1]) => //; split; first exact: inv_shear.
by move=> c; exists (OArr 1 1 [:: 1]) => //; split=> //; apply: inv11.
Qed.

(* V0.T*V1 is stored as V1, V0.T with a permutation *)
Example C19_example :
  let r := RDir [:: (V1, 1); (Vd, 1)]%N [:: 0; 2; 1; 3]%N in
  [/\ forall g, pred1 0%N g -> ~~ pred1 1%N g, wfr gd2 cs1 le_asc (pred1 0%N) Vd /\ wfr gd2 cs1 le_asc (pred1 1%N) V1,
    total_order_on (key gd2 cs1 le_asc (predU (pred1 0%N) (pred1 1%N))) le_asc,
    group_elem idz idz (@linv2 int_comRing) (@cr1 int_comRing) gd2 cs1 (predU (pred1 0%N) (pred1 1%N)) two &
    mul gd2 cs1 le_asc Vd V1 = Ok r /\
    rho_z r two = Ok (4%N, 4%N, [:: 1; 3%:Z; 0; 0; 0; 1; 0; 0; -1; -3%:Z; 1; 3%:Z; 0; -1; 0; 1])].
Proof.
split; [by move=> g /eqP -> | by vm_compute | exact: le_asc_total | exact: two_ok | by vm_compute].
Qed.

Definition exM : rep :=
  RDir [:: (V1, 1); (RProd [:: (V0, 1); (Vd, 1)] (iota 0 4), 1)]%N [:: 0; 2; 1; 3; 4; 6; 5; 7]%N.
(** A further factor of a group that already occurs is merged with the wrong coordinates
    when the sort puts a factor of another group in between: here it gives V0, V1, V0.T,
    which is regrouped into V0*V0.T and V1 without adjusting the permutation.  The
    matrix of (V0.T*V1)*V0 is not the Kronecker product of those of V0.T*V1 and V0. *)
Theorem C19_merge_refuted :
  exists (gdim : gid -> nat) (csize : nat -> gid -> nat) (le : rel rep) (a b r : rep) (M : gel int_comRing) Da Db Dr,
    let rho := rho_dense idz idz (@linv2 int_comRing) (@cr1 int_comRing) in
    [/\ total_order_on (key gdim csize le predT) le /\ group_elem idz idz (@linv2 int_comRing) (@cr1 int_comRing) gdim csize predT M,
      wfr gdim csize le predT a /\ wfr gdim csize le predT b, mul gdim csize le a b = Ok r,
      rho a M = Ok (4%N, 4%N, Da) /\ rho b M = Ok (2%N, 2%N, Db) &
      rho r M = Ok (8%N, 8%N, Dr) /\ Dr <> kron2 4 Da 2 Db].
Proof.
exists gd2, cs1, le_asc, (RDir [:: (V1, 1); (Vd, 1)]%N [:: 0; 2; 1; 3]%N), V0,
  exM, two.
exists [:: 1; 3%:Z; 0; 0; 0; 1; 0; 0; -1; -3%:Z; 1; 3%:Z; 0; -1; 0; 1], [:: 1; 1; 0; 1].
exists (if rho_z exM two is Ok (_, _, D) then D else [::]).
split; [by split; [exact: le_asc_total | exact: two_ok] | by vm_compute | by vm_compute | by vm_compute |].
by split; [vm_compute | move/eqP; vm_compute].
Qed.
Print Assumptions C19_merge_refuted.

(** ... and sometimes it raises: the merged factor is not canonical and has no hash *)
Theorem C19_merge_raises_refuted :
  exists (gdim : gid -> nat) (csize : nat -> gid -> nat) (le : rel rep) (a b : rep),
    [/\ total_order_on (key gdim csize le predT) le, wfr gdim csize le predT a, wfr gdim csize le predT b &
      mul gdim csize le a b = Err AssertionError].
Proof.
exists gd2, cs1, le_asc, (the V0 (do x <- mul0 V0 V0; mul0 x V1)), Vd.
by split; [exact: le_asc_total | vm_compute..].
Qed.
Print Assumptions C19_merge_raises_refuted.
