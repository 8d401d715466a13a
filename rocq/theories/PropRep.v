(** * PropRep: properties C07-C18 of representations.

    In every statement: [R] is any commutative ring of scalars; [linv]/[sinv] are
    jnp.linalg.inv and scalar inversion; [crho]/[cdrho] are rho/drho of user-defined
    classes, of size [csize]; [gdim]/[gorth] are d and is_orthogonal of the groups; [le]
    is the order used by sorted(), any total order on the summands that can occur;
    [wfr gs] holds of the concrete representations that the API builds from groups in
    [gs]. *)
From mathcomp Require Import all_ssreflect all_algebra.
From Verif Require Import Np Spec LinOp LinOpSpec Rep RepSpec RepWf RepMul RepExpr DualNum RepThm DrhoThm RepThm1 RepCode ExRep.
Set Implicit Arguments.
Unset Strict Implicit.
Unset Printing Implicit Defensive.
Import GRing.Theory.
Local Open Scope ring_scope.

Section Props.
Variables (gdim : gid -> nat) (gorth : gid -> bool) (csize : nat -> gid -> nat) (le : rel rep).
Variable R : comRingType.
Variables (conj sinv : R -> R) (linv : nat -> seq R -> seq R).
Variables (crho cdrho : nat -> option gid -> gel R -> res (op R)).
Local Notation sz := (rsize gdim csize).
Local Notation total_order gs := (total_order_on (key gdim csize le gs) le).
Local Notation wfr := (wfr gdim csize le).
Local Notation rho_dense := (rho_dense conj sinv linv crho).
Local Notation drho_dense := (drho_dense conj cdrho).
Local Notation group_elem := (group_elem conj sinv linv crho gdim csize).
Local Notation lie_elem := (lie_elem conj cdrho gdim csize).
Local Notation orth_elem := (orth_elem crho gdim csize gorth).
Local Notation orth_lie := (orth_lie cdrho gorth).
Local Notation add := (add gdim csize le).
Local Notation mul := (mul gdim csize le).
Local Notation tr := (tr gdim gorth csize le).
Local Notation eval := (eval gdim gorth csize le).
Local Notation call_val := (call_val gdim gorth csize le).

(** C07.  (a+b).rho(M) is the block diagonal matrix of a.rho(M) and b.rho(M), for
    representations of any number of groups. *)
Theorem C07_sum_is_block_diagonal gs a b M :
  total_order gs -> wfr gs a -> wfr gs b -> group_elem gs M ->
  exists r Da Db, [/\ add a b = Ok r,
    rho_dense a M = Ok (sz a, sz a, Da), rho_dense b M = Ok (sz b, sz b, Db) &
    rho_dense r M = Ok (sz a + sz b, sz a + sz b, bdiag (sz a) Da (sz b) Db)%N].
Proof. move=> O; exact: (add_thm O). Qed.

Theorem C07_sum_drho_is_block_diagonal gs a b M :
  total_order gs -> wfr gs a -> wfr gs b -> lie_elem gs M ->
  exists r Da Db, [/\ add a b = Ok r,
    drho_dense a M = Ok (sz a, sz a, Da), drho_dense b M = Ok (sz b, sz b, Db) &
    drho_dense r M = Ok (sz a + sz b, sz a + sz b, bdiag (sz a) Da (sz b) Db)%N].
Proof. move=> O; exact: (dadd_thm O). Qed.

(* exS is (1 + V.T) + V; it is stored as 1, V, V.T with a permutation *)
Example C07_example :
  [/\ ord0, elem0 (shear 3%:Z), wf0 exS,
    exS = RSum [:: (RScalar, 1%N); (V0, 1%N); (Vd, 1%N)] [:: 0; 3; 4; 1; 2]%N &
    rho_z exS (shear 3%:Z) = Ok (5%N, 5%N, [:: 1; 0; 0; 0; 0; 0; 1; 0; 0; 0; 0; -3%:Z; 1; 0; 0; 0; 0; 0; 1; 3%:Z; 0; 0; 0; 0; 1])].
Proof. by split; [exact: ord0_ok | exact: shear0_ok | vm_compute | vm_compute | vm_compute]. Qed.

(** C08.  (a*b).rho(M) is the Kronecker product; (a*b).drho(A) the Kronecker sum. *)
Theorem C08_product_is_kronecker g a b M :
  total_order (pred1 g) -> wfr (pred1 g) a -> wfr (pred1 g) b -> group_elem (pred1 g) M ->
  exists r Da Db, [/\ mul a b = Ok r, wfr (pred1 g) r,
    rho_dense a M = Ok (sz a, sz a, Da), rho_dense b M = Ok (sz b, sz b, Db) &
    rho_dense r M = Ok (sz a * sz b, sz a * sz b, kron2 (sz a) Da (sz b) Db)%N].
Proof. move=> O; exact: (mul_thm O). Qed.

Theorem C08_product_drho_is_kronecker_sum g a b M :
  total_order (pred1 g) -> wfr (pred1 g) a -> wfr (pred1 g) b -> lie_elem (pred1 g) M ->
  exists r Da Db, [/\ mul a b = Ok r, wfr (pred1 g) r,
    drho_dense a M = Ok (sz a, sz a, Da), drho_dense b M = Ok (sz b, sz b, Db) &
    drho_dense r M = Ok (sz a * sz b, sz a * sz b, kronsum2 (sz a) Da (sz b) Db)%N].
Proof. move=> O; exact: (dmul_thm O). Qed.

(* ((1 + V.T) + V) * V: distribution over a permuted sum *)
Example C08_example :
  [/\ ord0, elem0 (shear 3%:Z), lie0 (nilp2 3%:Z), wf0 exS /\ wf0 V0 &
    rmap (fun r => rsize gd2 cs1 r) (mul0 exS V0) = Ok 10%N].
Proof.
by split; [exact: ord0_ok | exact: shear0_ok | exact: nilp0_ok | vm_compute | vm_compute].
Qed.

(** C09.  a.T is the inverse transpose; the same matrices for orthogonal groups; on the
    Lie algebra it is minus the transpose. *)
Theorem C09_dual_is_inverse_transpose g a M :
  total_order (pred1 g) -> wfr (pred1 g) a -> group_elem (pred1 g) M -> orth_elem (pred1 g) M ->
  exists r D D', [/\ tr a = Ok r, wfr (pred1 g) r,
    rho_dense a M = Ok (sz a, sz a, D), rho_dense r M = Ok (sz a, sz a, D') &
    is_invT (unflat (sz a) (sz a) D) (unflat (sz a) (sz a) D') /\ (gorth g -> D' = D)].
Proof. move=> O; exact: (tr_thm O). Qed.

Theorem C09_dual_drho_is_minus_transpose g a M :
  total_order (pred1 g) -> wfr (pred1 g) a -> lie_elem (pred1 g) M -> orth_lie (pred1 g) M ->
  exists r D D', [/\ tr a = Ok r, wfr (pred1 g) r,
    drho_dense a M = Ok (sz a, sz a, D), drho_dense r M = Ok (sz a, sz a, D') &
    D' = flat (fopp (ftr (unflat (sz a) (sz a) D)))].
Proof. move=> O; exact: (dtr_thm O). Qed.

Example C09_example :
  [/\ ord0, elem0 (shear 3%:Z) /\ elem0 (turn int_comRing),
    RepSpec.orth_elem (@cr1 int_comRing) gd2 cs1 allorth (pred1 0%N) (turn int_comRing), wf0 exS &
    (do r <- tr0 exP; rho_z r (shear 3%:Z)) =
    Ok (4%N, 4%N, [:: 1; 3%:Z; 0; 0; 0; 1; 0; 0; -3%:Z; -9%:Z; 1; 3%:Z; 0; -3%:Z; 0; 1])].
Proof.
by split; [exact: ord0_ok | split; [exact: shear0_ok | exact: turn_elem] | exact: turn_orth | vm_compute | vm_compute].
Qed.

(** C10.  Sizes. *)
Theorem C10_sizes g n a b :
  total_order (pred1 g) -> wfr (pred1 g) a -> wfr (pred1 g) b ->
  [/\ size_py gdim csize a = Ok (sz a) /\
      (exists r, [/\ add a b = Ok r, wfr (pred1 g) r & size_py gdim csize r = Ok (sz a + sz b)%N]),
      (exists r, [/\ mul a b = Ok r, wfr (pred1 g) r & size_py gdim csize r = Ok (sz a * sz b)%N]),
      (exists r, [/\ tr a = Ok r, wfr (pred1 g) r & size_py gdim csize r = Ok (sz a)]),
      (exists r, [/\ mul_int gdim csize le a (Posz n.+1) = Ok (VRep r), wfr (pred1 g) r &
         size_py gdim csize r = Ok (n.+1 * sz a)%N]) &
      (exists r, [/\ pow gdim csize le a n = Ok r, wfr (pred1 g) r & size_py gdim csize r = Ok (sz a ^ n)%N])].
Proof.
by move=> O Wa Wb; split; [split; [exact: (size_py_ok Wa) | exact: (add_size O Wa Wb)] | exact: (mul_size O Wa Wb)
  | exact: (tr_size gorth O Wa) | exact: (mulint_size O n Wa) | exact: (pow_size O n Wa)].
Qed.

Theorem C10_size_of_T (g : gid) p q :
  total_order (pred1 g) -> (0 < gdim g)%N -> (forall c, 0 < csize c g)%N ->
  exists r, [/\ tensor_T gdim gorth csize le p q (Some g) = Ok r, wfr (pred1 g) r &
    size_py gdim csize r = Ok (gdim g ^ (p + q))%N].
Proof. exact: tensorT_size. Qed.

Theorem C10_rho_is_square gs a M : wfr gs a -> group_elem gs M ->
  exists2 D, rho_dense a M = Ok (sz a, sz a, D) & size D = (sz a * sz a)%N.
Proof. exact: wf_size. Qed.

Example C10_example :
  rmap (rsize gd2 cs1) (tensor_T gd2 noorth cs1 le_asc 2 1 (Some 0%N)) = Ok 8%N /\ wf0 exS /\ wf0 exP.
Proof. by vm_compute. Qed.

(** C11.  canonicalize() *)
Theorem C11_canonicalize gs a M :
  total_order gs -> wfr gs a -> group_elem gs M ->
  exists c p Da Dc, [/\ canonicalize gdim csize le a = Ok (c, p),
    [/\ is_perm (sz a) p, wfr gs c, sz c = sz a & canonp gdim csize c],
    rho_dense a M = Ok (sz a, sz a, Da), rho_dense c M = Ok (sz a, sz a, Dc) &
    forall i j, (i < sz a)%N -> (j < sz a)%N ->
      nth 0 Dc (i * sz a + j)%N = nth 0 Da (nth 0%N p i * sz a + nth 0%N p j)%N].
Proof. move=> O; exact: (canon_thm O). Qed.

Example C11_example :
  [/\ ord0, wf0 exS, elem0 (shear 3%:Z) &
      canonicalize gd2 cs1 le_asc exS =
      Ok (RSum [:: (RScalar, 1%N); (V0, 1%N); (Vd, 1%N)] [:: 0; 1; 2; 3; 4]%N, [:: 0; 3; 4; 1; 2]%N)].
Proof. by split; [exact: ord0_ok | vm_compute | exact: shear0_ok | vm_compute]. Qed.

(** C12/C13.  The matrices of an expression, whatever the order used by sorted(), and
    whether it is built from V(G) or from V and instantiated later, are those of
    [espec]/[dspec]. *)
Theorem C13_expression_matrices (g : gid) e M A B X :
  total_order (pred1 g) -> (0 < gdim g)%N -> (forall c, 0 < csize c g)%N ->
  group_elem (pred1 g) M -> orth_elem (pred1 g) M -> rho_leaves crho g M A B ->
  espec A B e = Some (SMat X) ->
  (exists r, [/\ eval (Some g) e = Ok (VRep r), wfr (pred1 g) r &
     rho_dense r M = Ok (fr X, fc X, flat X)]) /\
  (exists v r, [/\ eval None e = Ok v, call_val v (Some g) = Ok (VRep r), wfr (pred1 g) r &
     rho_dense r M = Ok (fr X, fc X, flat X)]).
Proof. move=> O G0 C0; exact: (expr_thm O G0 C0). Qed.

Theorem C13_expression_drho_matrices (g : gid) e M A B X :
  total_order (pred1 g) -> (0 < gdim g)%N -> (forall c, 0 < csize c g)%N ->
  lie_elem (pred1 g) M -> orth_lie (pred1 g) M -> drho_leaves cdrho g M A B ->
  dspec A B e = Some (SMat X) ->
  (exists r, [/\ eval (Some g) e = Ok (VRep r), wfr (pred1 g) r &
     drho_dense r M = Ok (fr X, fc X, flat X)]) /\
  (exists v r, [/\ eval None e = Ok v, call_val v (Some g) = Ok (VRep r), wfr (pred1 g) r &
     drho_dense r M = Ok (fr X, fc X, flat X)]).
Proof. move=> O G0 C0; exact: (dexpr_thm O G0 C0). Qed.

(* (V.T + V)*V + 1, deferred and direct, with both orders *)
Definition ex_e : expr := EAdd (EMul (EAdd (ET EV) EV) EV) (EInt 1).
Definition ex_direct (l : rel rep) : res (darr int_comRing) :=
  do v <- RepExpr.eval gd2 noorth cs1 l (Some 0%N) ex_e;
  if v is VRep r then rho_z r (shear 3%:Z) else Err TypeError.
Definition ex_deferred (l : rel rep) : res (darr int_comRing) :=
  do d <- RepExpr.eval gd2 noorth cs1 l None ex_e;
  do v <- RepExpr.call_val gd2 noorth cs1 l d (Some 0%N);
  if v is VRep r then rho_z r (shear 3%:Z) else Err TypeError.
Example C13_example :
  [/\ rmap (fun D => D.1) (ex_direct le_asc) = Ok (9, 9)%N, ex_direct le_asc = ex_deferred le_asc &
      ex_direct le_asc = ex_direct le_desc].
Proof. by vm_compute. Qed.

(** C14.  Integers. *)
Theorem C14_integer_multiple gs n a M :
  total_order gs -> wfr gs a -> group_elem gs M ->
  exists r Da, [/\ mul_int gdim csize le a (Posz n.+1) = Ok (VRep r), wfr gs r,
    rho_dense a M = Ok (sz a, sz a, Da) &
    rho_dense r M = Ok (n.+1 * sz a, n.+1 * sz a, flat (fdsuml (nseq n.+1 (unflat (sz a) (sz a) Da))))%N].
Proof. move=> O; exact: (mulint_thm O). Qed.

Theorem C14_zero a : mul_int gdim csize le a 0 = Ok (VInt 0) /\
  add_val gdim csize le (VRep a) (VInt 0) = Ok (VRep a) /\
  add_val gdim csize le (VInt 0) (VRep a) = Ok (VRep a).
Proof. by []. Qed.

Theorem C14_integer_sum g n a M :
  total_order (pred1 g) -> wfr (pred1 g) a -> group_elem (pred1 g) M ->
  exists r r' Da, [/\ add_val gdim csize le (VRep a) (VInt (Posz n)) = Ok (VRep r),
    add_val gdim csize le (VInt (Posz n)) (VRep a) = Ok (VRep r'),
    rho_dense a M = Ok (sz a, sz a, Da),
    rho_dense r M = Ok (sz a + n, sz a + n, flat (fdsum (unflat (sz a) (sz a) Da) (fid R n)))%N &
    rho_dense r' M = Ok (n + sz a, n + sz a, flat (fdsum (fid R n) (unflat (sz a) (sz a) Da)))%N].
Proof. move=> O; exact: (addint_thm O). Qed.

Theorem C14_power g n a M :
  total_order (pred1 g) -> wfr (pred1 g) a -> group_elem (pred1 g) M ->
  exists r Da, [/\ pow gdim csize le a n = Ok r, wfr (pred1 g) r, rho_dense a M = Ok (sz a, sz a, Da) &
    rho_dense r M = Ok (sz a ^ n, sz a ^ n, flat (fkronl (nseq n (unflat (sz a) (sz a) Da))))%N].
Proof. move=> O; exact: (pow_thm O). Qed.

Theorem C14_power_zero a : pow gdim csize le a 0 = Ok RScalar.
Proof. by []. Qed.

(** a negative multiple of a concrete representation raises *)
Theorem C14_negative_multiple gs n a : wfr gs a -> mul_int gdim csize le a (Negz n) = Err ValueError.
Proof. by move=> W; rewrite /mul_int (concrete_wfr W). Qed.

Example C14_example :
  [/\ wf0 exS,
    rmap (fun D => D.1) (do v <- add_val gd2 cs1 le_asc (VRep exS) (VInt 2);
      if v is VRep r then rho_z r (shear 3%:Z) else Err TypeError) = Ok (7, 7)%N &
    (do r <- pow gd2 cs1 le_asc V0 2; rho_z r (shear 3%:Z)) =
      Ok (4%N, 4%N, [:: 1; 3%:Z; 3%:Z; 9%:Z; 0; 1; 0; 3%:Z; 0; 0; 1; 3%:Z; 0; 0; 0; 1])].
Proof. by vm_compute. Qed.

(** C15.  rho is a homomorphism. *)
Theorem C15_rho_mul gs a M1 M2 M3 :
  wfr gs a -> group_elem gs M1 -> group_elem gs M2 -> group_elem gs M3 ->
  (forall g A1 A2 A3, gs g -> glook M1 (Some g) = Ok A1 -> glook M2 (Some g) = Ok A2 ->
     glook M3 (Some g) = Ok A3 -> meq (den A3) (fmul (den A1) (den A2))) ->
  (forall g c C1 C2 C3, gs g -> crho c (Some g) M1 = Ok C1 -> crho c (Some g) M2 = Ok C2 ->
     crho c (Some g) M3 = Ok C3 -> meq (den C3) (fmul (den C1) (den C2))) ->
  exists D1 D2, [/\ rho_dense a M1 = Ok (sz a, sz a, D1), rho_dense a M2 = Ok (sz a, sz a, D2) &
    rho_dense a M3 = Ok (sz a, sz a, mat_mul (sz a) D1 D2)].
Proof. exact: rho_mul_thm. Qed.

Theorem C15_rho_id gs a M :
  wfr gs a -> group_elem gs M ->
  (forall g, gs g -> forall A, glook M (Some g) = Ok A -> meq (den A) (fid R (gdim g))) ->
  (forall g c, gs g -> forall C, crho c (Some g) M = Ok C -> meq (den C) (fid R (csize c g))) ->
  rho_dense a M = Ok (sz a, sz a, flat (fid R (sz a))).
Proof. exact: rho_id_thm. Qed.

Theorem C15_rho_inverse gs a M1 M2 :
  wfr gs a -> group_elem gs M1 -> group_elem gs M2 ->
  (forall g A1 A2, gs g -> glook M1 (Some g) = Ok A1 -> glook M2 (Some g) = Ok A2 ->
     meq (fmul (den A1) (den A2)) (fid R (gdim g))) ->
  (forall g c C1 C2, gs g -> crho c (Some g) M1 = Ok C1 -> crho c (Some g) M2 = Ok C2 ->
     meq (fmul (den C1) (den C2)) (fid R (csize c g))) ->
  exists D1 D2, [/\ rho_dense a M1 = Ok (sz a, sz a, D1), rho_dense a M2 = Ok (sz a, sz a, D2) &
    mat_mul (sz a) D1 D2 = flat (fid R (sz a))].
Proof. exact: rho_inv_thm. Qed.

(* the shear by 3 composed with the shear by 4 is the shear by 7 *)
Example C15_example :
  [/\ elem0 (shear 3%:Z), elem0 (shear 4%:Z), elem0 (shear 7%:Z) &
   forall g A1 A2 A3, pred1 0%N g -> glook (shear 3%:Z) (Some g) = Ok A1 ->
     glook (shear 4%:Z) (Some g) = Ok A2 ->
     glook (shear 7%:Z) (Some g) = Ok A3 -> meq (den A3) (fmul (den A1) (den A2))].
Proof.
split; try exact: shear0_ok.
move=> g A1 A2 A3 _ [<-] [<-] [<-]; split=> // [[|[|i]]] [|[|j]] //= _ _;
  by rewrite !big_nat_recr //= big_geq.
Qed.

(** C17.  drho is a Lie algebra homomorphism. *)
Theorem C17_drho_linear gs (c : R) r M1 M2 M3 :
  wfr gs r -> lie_elem gs M1 -> lie_elem gs M2 -> lie_elem gs M3 ->
  (forall g A1 A2 A3, gs g -> glook M1 (Some g) = Ok A1 -> glook M2 (Some g) = Ok A2 ->
     glook M3 (Some g) = Ok A3 -> meq (den A3) (fadd (fscale c (den A1)) (den A2))) ->
  (forall g k C1 C2 C3, gs g -> cdrho k (Some g) M1 = Ok C1 -> cdrho k (Some g) M2 = Ok C2 ->
     cdrho k (Some g) M3 = Ok C3 -> meq (den C3) (fadd (fscale c (den C1)) (den C2))) ->
  exists D1 D2, [/\ drho_dense r M1 = Ok (sz r, sz r, D1), drho_dense r M2 = Ok (sz r, sz r, D2) &
    drho_dense r M3 = Ok (sz r, sz r, flat (fadd (fscale c (unflat (sz r) (sz r) D1)) (unflat (sz r) (sz r) D2)))].
Proof. exact: drho_lin_thm. Qed.

Theorem C17_drho_bracket gs r M1 M2 M3 :
  wfr gs r -> lie_elem gs M1 -> lie_elem gs M2 -> lie_elem gs M3 ->
  (forall g A1 A2 A3, gs g -> glook M1 (Some g) = Ok A1 -> glook M2 (Some g) = Ok A2 ->
     glook M3 (Some g) = Ok A3 -> meq (den A3) (fsub (fmul (den A1) (den A2)) (fmul (den A2) (den A1)))) ->
  (forall g k C1 C2 C3, gs g -> cdrho k (Some g) M1 = Ok C1 -> cdrho k (Some g) M2 = Ok C2 ->
     cdrho k (Some g) M3 = Ok C3 -> meq (den C3) (fsub (fmul (den C1) (den C2)) (fmul (den C2) (den C1)))) ->
  exists D1 D2, [/\ drho_dense r M1 = Ok (sz r, sz r, D1), drho_dense r M2 = Ok (sz r, sz r, D2) &
    let X := unflat (sz r) (sz r) D1 in let Y := unflat (sz r) (sz r) D2 in
    drho_dense r M3 = Ok (sz r, sz r, flat (fsub (fmul X Y) (fmul Y X)))].
Proof. exact: drho_br_thm. Qed.

(* [E, F] = H in sl(2), on V (x) V.T *)
Definition sl2 (D : seq int) : gel int_comRing := GMat (OArr 2 2 D).
Example C17_example :
  [/\ lie0 (sl2 [:: 0; 1; 0; 0]), lie0 (sl2 [:: 0; 0; 1; 0]), lie0 (sl2 [:: 1; 0; 0; -1]), wf0 exP &
   drho_z exP (sl2 [:: 1; 0; 0; -1]) =
     Ok (4%N, 4%N, [:: 0; 0; 0; 0; 0; 2%:Z; 0; 0; 0; 0; -2%:Z; 0; 0; 0; 0; 0])].
Proof.
have H (D : seq int) : size D = 4%N -> lie0 (sl2 D).
  move=> S g _; exists (OArr 2 2 D) => //; split; first exact: lie_arr.
  by move=> c; exists (OArr 1 1 [:: 0]) => //; split=> //; apply: lie_arr.
by split; [apply: H | apply: H | apply: H | vm_compute | vm_compute].
Qed.

(** C18.  vec(W) is fixed by (repin>>repout).rho(M) iff W is equivariant. *)
Theorem C18_linear_maps g a b M (w : seq R) :
  total_order (pred1 g) -> wfr (pred1 g) a -> wfr (pred1 g) b ->
  group_elem (pred1 g) M -> orth_elem (pred1 g) M -> size w = (sz b * sz a)%N ->
  exists r Da Db Dr, [/\ rshift gdim gorth csize le a b = Ok r,
    lshift gdim gorth csize le b a = Ok r /\ (do t <- tr a; mul b t) = Ok r,
    rho_dense a M = Ok (sz a, sz a, Da) /\ rho_dense b M = Ok (sz b, sz b, Db),
    rho_dense r M = Ok (sz b * sz a, sz b * sz a, Dr)%N &
    (flat (fmul (unflat (sz b * sz a) (sz b * sz a) Dr) (unflat (sz b * sz a) 1 w)) = w <->
     meq (fmul (unflat (sz b) (sz b) Db) (unflat (sz b) (sz a) w))
         (fmul (unflat (sz b) (sz a) w) (unflat (sz a) (sz a) Da)))].
Proof. move=> O; exact: (rshift_thm O). Qed.

Example C18_example :
  [/\ ord0, elem0 (shear 3%:Z), wf0 V0 /\ wf0 exS &
    rmap (fun D => D.1) (do r <- rshift gd2 noorth cs1 le_asc V0 exS; rho_z r (shear 3%:Z)) = Ok (10, 10)%N].
Proof. by split; [exact: ord0_ok | exact: shear0_ok | vm_compute | vm_compute]. Qed.
End Props.

(** C12.  Two different orders give the same matrices. *)
Theorem C12_order_independent :
  forall (gdim : gid -> nat) (gorth : gid -> bool) (csize : nat -> gid -> nat) (le1 le2 : rel rep) (g : gid)
    (R : comRingType) (conj sinv : R -> R) (linv : nat -> seq R -> seq R)
    (crho cdrho : nat -> option gid -> gel R -> res (op R)) (e : expr) (M : gel R) (A B : option nat -> fmat R) (X : fmat R),
  total_order_on (key gdim csize le1 (pred1 g)) le1 -> total_order_on (key gdim csize le2 (pred1 g)) le2 ->
  (0 < gdim g)%N -> (forall c, 0 < csize c g)%N ->
  group_elem conj sinv linv crho gdim csize (pred1 g) M -> orth_elem crho gdim csize gorth (pred1 g) M ->
  rho_leaves crho g M A B -> espec A B e = Some (SMat X) ->
  exists r1 r2, [/\ eval gdim gorth csize le1 (Some g) e = Ok (VRep r1),
    eval gdim gorth csize le2 (Some g) e = Ok (VRep r2) &
    rho_dense conj sinv linv crho r1 M = rho_dense conj sinv linv crho r2 M /\
    rho_dense conj sinv linv crho r1 M = Ok (fr X, fc X, flat X)].
Proof.
move=> gdim gorth csize le1 le2 g R conj sinv linv crho cdrho e M A B X O1 O2 G0 C0 HM HO HL E.
have [[r1 [E1 _ H1]] _] := expr_thm O1 G0 C0 HM HO HL E.
have [[r2 [E2 _ H2]] _] := expr_thm O2 G0 C0 HM HO HL E.
by exists r1, r2; split=> //; rewrite H1 H2.
Qed.

Theorem C12_order_independent_drho :
  forall (gdim : gid -> nat) (gorth : gid -> bool) (csize : nat -> gid -> nat) (le1 le2 : rel rep) (g : gid)
    (R : comRingType) (conj : R -> R)
    (cdrho : nat -> option gid -> gel R -> res (op R)) (e : expr) (M : gel R) (A B : option nat -> fmat R) (X : fmat R),
  total_order_on (key gdim csize le1 (pred1 g)) le1 -> total_order_on (key gdim csize le2 (pred1 g)) le2 ->
  (0 < gdim g)%N -> (forall c, 0 < csize c g)%N ->
  lie_elem conj cdrho gdim csize (pred1 g) M -> orth_lie cdrho gorth (pred1 g) M ->
  drho_leaves cdrho g M A B -> dspec A B e = Some (SMat X) ->
  exists r1 r2, [/\ eval gdim gorth csize le1 (Some g) e = Ok (VRep r1),
    eval gdim gorth csize le2 (Some g) e = Ok (VRep r2) &
    drho_dense conj cdrho r1 M = drho_dense conj cdrho r2 M /\
    drho_dense conj cdrho r1 M = Ok (fr X, fc X, flat X)].
Proof.
move=> gdim gorth csize le1 le2 g R conj cdrho e M A B X O1 O2 G0 C0 HM HO HL E.
have [[r1 [E1 _ H1]] _] := dexpr_thm O1 G0 C0 HM HO HL E.
have [[r2 [E2 _ H2]] _] := dexpr_thm O2 G0 C0 HM HO HL E.
by exists r1, r2; split=> //; rewrite H1 H2.
Qed.

(* the stored objects do differ *)
Example C12_example :
  [/\ ord0, total_order_on (key gd2 cs1 le_desc (pred1 0%N)) le_desc,
    eval gd2 noorth cs1 le_asc (Some 0%N) ex_e <> eval gd2 noorth cs1 le_desc (Some 0%N) ex_e &
    ex_direct le_asc = ex_direct le_desc].
Proof.
split; [exact: ord0_ok | exact: le_desc_total | | by vm_compute].
move=> H; have {H} : (if eval gd2 noorth cs1 le_asc (Some 0%N) ex_e is Ok (VRep r) then keys (sum_counter r) else [::]) =
  (if eval gd2 noorth cs1 le_desc (Some 0%N) ex_e is Ok (VRep r) then keys (sum_counter r) else [::]) by rewrite H.
by vm_compute.
Qed.

(** C16.  drho is the derivative of rho: over the dual numbers, rho(1 + eps A) = 1 + eps drho(A). *)
Theorem C16_drho_is_derivative :
  forall (R : comRingType) (conj : R -> R) (cdrho : nat -> option gid -> gel R -> res (op R))
    (conjS sinvS : dual R -> dual R) (linvS : nat -> seq (dual R) -> seq (dual R))
    (crhoS : nat -> option gid -> gel (dual_comRingType R) -> res (op (dual_comRingType R)))
    (gdim : gid -> nat) (csize : nat -> gid -> nat) (le : rel rep) (gs : pred gid)
    (r : rep) (A : gel R) (M : gel (dual_comRingType R)),
  wfr gdim csize le gs r ->
  lie_elem conj cdrho gdim csize gs A -> group_elem conjS sinvS linvS crhoS gdim csize gs M ->
  (forall g X Y, gs g -> glook A (Some g) = Ok X -> glook M (Some g) = Ok Y ->
     forall i j, (i < gdim g)%N -> (j < gdim g)%N -> fe (den Y) i j = Du (i == j)%:R (fe (den X) i j)) ->
  (forall g c X Y, gs g -> cdrho c (Some g) A = Ok X -> crhoS c (Some g) M = Ok Y ->
     forall i j, (i < csize c g)%N -> (j < csize c g)%N -> fe (den Y) i j = Du (i == j)%:R (fe (den X) i j)) ->
  exists D D', [/\ drho_dense conj cdrho r A = Ok (rsize gdim csize r, rsize gdim csize r, D),
    rho_dense conjS sinvS linvS crhoS r M = Ok (rsize gdim csize r, rsize gdim csize r, D') &
    forall i j, (i < rsize gdim csize r)%N -> (j < rsize gdim csize r)%N ->
      nth 0 D' (i * rsize gdim csize r + j) = Du (i == j)%:R (nth 0 D (i * rsize gdim csize r + j))].
Proof. exact: deriv_thm. Qed.

(* 1 + eps E for the nilpotent E = (0 3; 0 0) *)
Example C16_example :
  [/\ lie0 (nilp2 3%:Z),
    group_elem id id (@linv2 (dual_comRingType int_comRing)) (@cr1 (dual_comRingType int_comRing)) gd2 cs1 (pred1 0%N)
      (@shear (dual_comRingType int_comRing) (Du 0 3%:Z)) &
    forall g X Y, pred1 0%N g -> glook (nilp2 3%:Z) (Some g) = Ok X ->
      glook (@shear (dual_comRingType int_comRing) (Du 0 3%:Z)) (Some g) = Ok Y ->
      forall i j, (i < gd2 g)%N -> (j < gd2 g)%N -> fe (den Y) i j = Du (i == j)%:R (fe (den X) i j)].
Proof.
split; [exact: nilp0_ok | exact: shear_elem |].
by move=> g X Y _ [<-] [<-] [|[|i]] [|[|j]] //= _ _; exact: erefl.
Qed.
Print Assumptions C07_sum_is_block_diagonal.
Print Assumptions C07_sum_drho_is_block_diagonal.
Print Assumptions C08_product_is_kronecker.
Print Assumptions C08_product_drho_is_kronecker_sum.
Print Assumptions C09_dual_is_inverse_transpose.
Print Assumptions C09_dual_drho_is_minus_transpose.
Print Assumptions C10_sizes.
Print Assumptions C10_size_of_T.
Print Assumptions C10_rho_is_square.
Print Assumptions C11_canonicalize.
Print Assumptions C13_expression_matrices.
Print Assumptions C13_expression_drho_matrices.
Print Assumptions C14_integer_multiple.
Print Assumptions C14_zero.
Print Assumptions C14_integer_sum.
Print Assumptions C14_power.
Print Assumptions C14_power_zero.
Print Assumptions C14_negative_multiple.
Print Assumptions C15_rho_mul.
Print Assumptions C15_rho_id.
Print Assumptions C15_rho_inverse.
Print Assumptions C17_drho_linear.
Print Assumptions C17_drho_bracket.
Print Assumptions C18_linear_maps.
Print Assumptions C12_order_independent.
Print Assumptions C12_order_independent_drho.
Print Assumptions C16_drho_is_derivative.
