(** * PropLinOp: properties C01-C06 (lazy linear operators). *)
From mathcomp Require Import all_ssreflect all_algebra.
From Verif Require Import Np Spec LinOp LinOpSpec LinOpMM LinOpMore LinOpInv Cplx LinOpThm.
Set Implicit Arguments.
Unset Strict Implicit.
Unset Printing Implicit Defensive.
Import GRing.Theory.
Local Open Scope ring_scope.

(** An expression used by the examples: (shift (x) dense) + 2 (swap (x) rot . perm),
    under a direct sum with multiplicities 2 and 1. *)
Definition exA : op int_comRing :=
  OSum (OKron [:: OShift int_comRing 3 1; OLazy 2 2 [:: 1; 2; 3; 4 : int]])
       (OScaled (OKron [:: OPerm int_comRing [:: 2; 0; 1]%N; OArr 2 2 [:: 0; 1; 1; 0 : int]]) 2).
Definition exB : op int_comRing := ODsum [:: exA; OI int_comRing 2] [:: 2; 1]%N.

(** C01: A@X is the matrix product, for every operator expression without
    transposed views and every X of any width. *)
Theorem C01_matmul_is_matrix_product :
  forall (R : comRingType) (conj : R -> R) (A : op R) (K : nat) (X : seq R),
  wf A -> plain A -> size X = (cols A * K)%N ->
  matmat conj A K X = Ok (flat (fmul (den A) (unflat (cols A) K X))).
Proof. exact matmul_lem. Qed.
Print Assumptions C01_matmul_is_matrix_product.
Example C01_example :
  wf exB /\ plain exB /\ cols exB = 14%N /\
  matmat id exB 2 [seq Posz i | i <- iota 1 28] =
  Ok (flat (fmul (den exB) (unflat 14 2 [seq Posz i | i <- iota 1 28]))) /\
  (exists Y, matmat id exB 2 [seq Posz i | i <- iota 1 28] = Ok Y /\ nth 0 Y 0 = 53%:Z).
Proof.
split; first by vm_compute. split; first by vm_compute. split; first by vm_compute.
split; first by apply: C01_matmul_is_matrix_product; vm_compute.
by eexists; split; [vm_compute; reflexivity | ].
Qed.

(** C02 *)
Theorem C02_to_dense_is_the_matrix :
  forall (R : comRingType) (conj : R -> R) (A : op R),
  wf A -> plain A -> dsum_ne A ->
  to_dense conj A = Ok (fr (den A), fc (den A), flat (den A)) /\
  matmat conj A (cols A) (eye R (cols A)) = Ok (flat (den A)).
Proof. exact todense_lem. Qed.
Print Assumptions C02_to_dense_is_the_matrix.
Example C02_example : wf exB /\ plain exB /\ dsum_ne exB /\
  (exists D, to_dense id exB = Ok (14%N, 14%N, D) /\ nth 0 D 4 = 1%:Z).
Proof.
split; first by vm_compute. split; first by vm_compute. split; first by vm_compute.
by eexists; split; [vm_compute; reflexivity | ].
Qed.

(** C03, real data (conjugation is the identity): .T and .H *)
Theorem C03_transpose_matmul :
  forall (R : comRingType) (conj : R -> R), (forall x, conj x = x) ->
  forall (A : op R) (K : nat) (X : seq R),
  wf A -> supp false A -> size X = (rows A * K)%N ->
  matmat conj (transpose A) K X = Ok (flat (fmul (ftr (den A)) (unflat (rows A) K X))).
Proof. exact transpose_lem. Qed.
Print Assumptions C03_transpose_matmul.

Theorem C03_adjoint_matmul :
  forall (R : comRingType) (conj : R -> R), (forall x, conj x = x) ->
  forall A : op R, is_op A -> wf A -> supp false A ->
  exists B, adjoint conj A = Ok B /\
    forall K X, size X = (rows A * K)%N ->
      matmat conj B K X = Ok (flat (fmul (ftr (den A)) (unflat (rows A) K X))).
Proof. exact adjoint_lem. Qed.
Print Assumptions C03_adjoint_matmul.

Theorem C03_transpose_involutive :
  forall (R : comRingType) (conj : R -> R), (forall x, conj x = x) ->
  forall (A : op R) (K : nat) (X : seq R),
  is_op A -> wf A -> supp true A -> size X = (cols A * K)%N ->
  matmat conj (transpose (transpose A)) K X = matmat conj A K X /\
  matmat conj A K X = Ok (flat (fmul (den A) (unflat (cols A) K X))).
Proof. exact transposeK_lem. Qed.
Print Assumptions C03_transpose_involutive.

(** Vertical concatenations: any number of columns except one. *)
Theorem C03_concat_transpose :
  forall (R : comRingType) (conj : R -> R), (forall x, conj x = x) ->
  forall (Ms : seq (op R)) (K : nat) (X : seq R),
  wf (OConcat Ms) -> all (supp false) Ms -> K != 1%N ->
  size X = (rows (OConcat Ms) * K)%N ->
  matmat conj (transpose (OConcat Ms)) K X =
  Ok (flat (fmul (ftr (den (OConcat Ms))) (unflat (rows (OConcat Ms)) K X))).
Proof. exact concatT_lem. Qed.
Print Assumptions C03_concat_transpose.

(** The operators whose transposed product raises. *)
Theorem C03_transposes_that_raise :
  forall (R : comRingType) (conj : R -> R),
  [/\ forall Ms c K X, size X = (rows (ODsum Ms c) * K)%N ->
        matmat conj (transpose (ODsum Ms c)) K X = Err TypeError,
      forall Ms c, adjoint conj (ODsum Ms c) = Err TypeError,
      forall n k K X, size X = (n * n * K)%N ->
        matmat conj (transpose (ORot90 R n k)) K X =
        Err (if K == 0%N then ValueError else NotImplementedError) &
      forall Ms X, size X = rows (OConcat Ms) ->
        matmat conj (transpose (OConcat Ms)) 1 X = Err NotImplementedError].
Proof. exact raises_lem. Qed.
Print Assumptions C03_transposes_that_raise.
Example C03_example :
  wf exA /\ supp false exA /\ rows exA = 6%N /\
  matmat id (transpose exA) 1 [:: 1; 0; 0; 0; 0; 0 : int] = Ok [:: 0; 0; 0; 0; 1; 4 : int] /\
  (let C := OConcat [:: exA; exA] in wf C /\ rows C = 12%N /\
   is_ok (matmat id (transpose C) 2 (nseq 24 (1 : int)))).
Proof. by vm_compute. Qed.

(** C04 is false of the code: with complex entries .H does not conjugate, and
    P = Q@Q.H is not idempotent although Q has orthonormal columns. *)
Theorem C04_adjoint_is_conjugate_transpose_refuted :
  exists (A : op (cplx_comRingType int_comRing)) (X Y : seq (cplx int_comRing)),
  [/\ wf A, rmap (fun B => matmat (@cconj int_comRing) B 1 X) (adjoint (@cconj int_comRing) A) = Ok (Ok Y) &
      Y <> flat (fmul (ftr (fconj (@cconj int_comRing) (den A))) (unflat (rows A) 1 X))].
Proof.
pose i : cplx int_comRing := Cx 0 1.
exists (OLazy 1 1 [:: i]), [:: 1], [:: i]; split; first by vm_compute.
  exact: erefl.
rewrite /flat /fmul /= /mkseq /= big_nat1 => /(congr1 (fun Y => im (nth 0 Y 0))).
by vm_compute.
Qed.
Print Assumptions C04_adjoint_is_conjugate_transpose_refuted.

Theorem C04_projector_from_adjoint_refuted :
  exists Q : op (cplx_comRingType int_comRing),
  (* Q^H Q = 1 *)
  [/\ wf Q, meq (fmul (ftr (fconj (@cconj int_comRing) (den Q))) (den Q)) (fid _ (cols Q)) &
  exists QH P, [/\ adjoint (@cconj int_comRing) Q = Ok QH, mkProd Q QH = Ok P &
  exists X Y, matmat (@cconj int_comRing) P 1 X = Ok Y /\
    matmat (@cconj int_comRing) P 1 Y <> Ok Y]].
Proof.
pose i : cplx int_comRing := Cx 0 1.
exists (OLazy 1 1 [:: i]); split; first by vm_compute.
  split=> // [[|a]] [|b] //= _ _; rewrite big_nat1; exact: erefl.
eexists; eexists; split; [exact: erefl | exact: erefl | ].
exists [:: 1], [:: -1]; split; first exact: erefl.
case=> /(congr1 (fun z : int => z)); by vm_compute.
Qed.
Print Assumptions C04_projector_from_adjoint_refuted.

(** C05: the contract of jnp.linalg.inv is a hypothesis. *)
Theorem C05_invT_is_inverse_transpose :
  forall (R : comRingType) (sinv : R -> R) (linv : nat -> seq R -> seq R)
         (good : nat -> seq R -> bool),
  (forall n D, good n D ->
     [/\ size (linv n D) = (n * n)%N,
         meq (fmul (unflat n n D) (unflat n n (linv n D))) (fid R n) &
         meq (fmul (unflat n n (linv n D)) (unflat n n D)) (fid R n)]) ->
  forall A, wf A -> invable good A ->
  exists B, [/\ invT sinv linv A = Ok B, wf B, shape B = shape A & is_invT (den A) (den B)].
Proof. exact invT_lem. Qed.
Print Assumptions C05_invT_is_inverse_transpose.
Definition ex_linv (n : nat) (D : seq int) : seq int := [:: -2; 1; 1; 0 : int].
Definition ex_good (n : nat) (D : seq int) : bool := (n == 2%N) && (D == [:: 0; 1; 1; 2]).
Definition exC : op int_comRing :=
  OProd (OKron [:: OShift int_comRing 3 1; OLazy 2 2 [:: 0; 1; 1; 2 : int]])
        (OPow (OPerm int_comRing [:: 1; 2; 0; 4; 5; 3]%N) 2).
Example C05_example :
  (forall n D, ex_good n D ->
     [/\ size (ex_linv n D) = (n * n)%N,
         meq (fmul (unflat n n D) (unflat n n (ex_linv n D))) (fid int_comRing n) &
         meq (fmul (unflat n n (ex_linv n D)) (unflat n n D)) (fid int_comRing n)]) /\
  wf exC /\ invable ex_good exC.
Proof.
split; last by vm_compute.
move=> n D /andP[/eqP -> /eqP ->]; split=> //; split=> // [[|[|a]]] [|[|b]] //= _ _;
  by rewrite ?(big_nat_recr 1) ?(big_nat_recr 0) ?big_geq //; vm_compute.
Qed.

(** ... and the classes whose invT is wrong or raises. *)
Theorem C05_invT_of_sum_refuted :
  exists (A B : op int_comRing), [/\ wf A, invT id (fun _ D => D) A = Ok B & ~ is_invT (den A) (den B)].
Proof.
exists (OSum (OI int_comRing 1) (OI int_comRing 1)).
eexists; split; [by vm_compute | exact: erefl |].
case=> [[_ _ /(_ 0%N 0%N isT isT) H] _]; move: H.
by rewrite /= big_nat1; vm_compute.
Qed.
Print Assumptions C05_invT_of_sum_refuted.

Theorem C05_invT_of_scaled_refuted :
  exists (A B : op int_comRing),
  [/\ wf A, invT id (fun _ D => D) A = Ok B & ~ is_invT (den A) (den B)].
Proof.
exists (OScaled (OShift int_comRing 3 1) 1).
eexists; split; [by vm_compute | exact: erefl |].
case=> [[_ _ /(_ 0%N 0%N isT isT) H] _]; move: H.
by rewrite /= ?(big_nat_recr 2) ?(big_nat_recr 1) ?(big_nat_recr 0) ?big_geq //; vm_compute.
Qed.
Print Assumptions C05_invT_of_scaled_refuted.

Theorem C05_invT_that_raises :
  forall (R : comRingType) (sinv : R -> R) linv,
  [/\ forall Ms Bs c, mapM (invT sinv linv) Ms = Ok Bs ->
        invT sinv linv (ODsum Ms c) = Err TypeError,
      forall m n D Ms, invT sinv linv (OKron (OArr m n D :: Ms)) = Err AttributeError &
      forall Ms, invT sinv linv (OConcat Ms) = Err AttributeError].
Proof. exact invT_raises_lem. Qed.
Print Assumptions C05_invT_that_raises.

(** C06 *)
Theorem C06_wrong_height_raises :
  forall (R : comRingType) (conj : R -> R) (A : op R) (K : nat) (X : seq R),
  is_op A -> size X != (cols A * K)%N -> matmat conj A K X = Err ValueError.
Proof. exact wrong_height_lem. Qed.
Print Assumptions C06_wrong_height_raises.
Theorem C06_mismatched_operands_raise :
  forall (R : comRingType) (A B : op R),
  [/\ shape A <> shape B -> mkSum A B = Err ValueError,
      cols A <> rows B -> mkProd A B = Err ValueError,
      rows A <> cols A -> forall p, mkPow A p = Err ValueError,
      is_op A -> is_op B -> shape A = shape B -> mkSum A B = Ok (OSum A B) &
      is_op A -> is_op B -> cols A = rows B -> mkProd A B = Ok (OProd A B)].
Proof. exact wrong_shapes_lem. Qed.
Print Assumptions C06_mismatched_operands_raise.
Theorem C06_result_shape :
  forall (R : comRingType) (conj : R -> R) (A : op R) (K : nat) (X : seq R),
  wf A -> plain A -> size X = (cols A * K)%N ->
  exists Y, matmat conj A K X = Ok Y /\ size Y = (rows A * K)%N.
Proof. exact result_size_lem. Qed.
Print Assumptions C06_result_shape.
Example C06_example :
  is_op exA /\ matmat id exA 2 (nseq 13 (1 : int)) = Err ValueError /\
  mkSum exA (OI int_comRing 5) = Err ValueError /\
  rmap size (matmat id exA 2 (nseq 12 (1 : int))) = Ok 12%N.
Proof.
split; first by vm_compute.
split; first by apply: C06_wrong_height_raises; vm_compute.
by split; [exact: erefl | vm_compute].
Qed.
