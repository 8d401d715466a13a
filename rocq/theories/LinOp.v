(** * LinOp: model of emlp/reps/linear_operator_base.py and
    emlp/reps/linear_operators.py.

    Simplifications, once for the file: exact arithmetic in a commutative ring
    [R] instead of float32; [np.conj] is the parameter [conj]; [1/alpha] is
    [sinv alpha]; [jnp.linalg.inv] is the parameter [linv n data]; dtypes,
    jit and device placement are ignored.  A 1-d array of length n and an
    (n,1) array have the same flat data, and the code routes both to
    [matvec] (LinearOperator.dot, linear_operator_base.py:338): the model
    takes K = 1 for both. *)
From mathcomp Require Import all_ssreflect all_algebra.
From Verif Require Import Np.
Set Implicit Arguments.
Unset Strict Implicit.
Unset Printing Implicit Defensive.
Import GRing.Theory.
Local Open Scope ring_scope.

Section Dense.
Variable R : ringType.

(** sum_{i<n} f i, executable. *)
Definition rsum (n : nat) (f : nat -> R) : R := foldr (fun i a => f i + a) 0 (iota 0 n).

(** A@X for flat dense arrays of shapes (m,n) and (n,K) (jnp.matmul). *)
Definition matmul (m n K : nat) (A X : seq R) : seq R :=
  mkseq (fun t => rsum n (fun j => nth 0 A ((t %/ K)%N * n + j)%N * nth 0 X (j * K + (t %% K))%N))
        (m * K)%N.

(** jnp.eye(n) *)
Definition eye (n : nat) : seq R := mkseq (fun t => ((t %/ n)%N == (t %% n)%N)%:R) (n * n)%N.

Definition vadd (X Y : seq R) : seq R := [seq p.1 + p.2 | p <- zip X Y].
Definition vscale (a : R) (X : seq R) : seq R := [seq a * x | x <- X].

(** jnp.kron of dense arrays of shapes (m1,n1), (m2,n2) *)
Definition dkron (m1 n1 : nat) (A : seq R) (m2 n2 : nat) (B : seq R) : seq R :=
  mkseq (fun t => let i := (t %/ (n1 * n2))%N in let j := (t %% (n1 * n2))%N in
                  nth 0 A ((i %/ m2)%N * n1 + j %/ n2)%N * nth 0 B ((i %% m2)%N * n2 + j %% n2)%N)
        ((m1 * m2) * (n1 * n2))%N.

(** kronsum(A,B), linear_operators.py:62-63, for square A (d1,d1), B (d2,d2) *)
Definition dkronsum (d1 : nat) (A : seq R) (d2 : nat) (B : seq R) : seq R :=
  vadd (dkron d1 d1 A d2 d2 (eye d2)) (dkron d1 d1 (eye d1) d2 d2 B).

(** jax.scipy.linalg.block_diag of two blocks *)
Definition dblock (m1 n1 : nat) (A : seq R) (m2 n2 : nat) (B : seq R) : seq R :=
  mkseq (fun t => let i := (t %/ (n1 + n2))%N in let j := (t %% (n1 + n2))%N in
                  if (i < m1)%N then (if (j < n1)%N then nth 0 A (i * n1 + j)%N else 0)
                  else (if (j < n1)%N then 0 else nth 0 B ((i - m1) * n2 + (j - n1))%N))
        ((m1 + m2) * (n1 + n2))%N.
End Dense.

Section Model.
Variable R : comRingType.
Variable conj : R -> R.
Variable sinv : R -> R.
Variable linv : nat -> seq R -> seq R.

(** One constructor per class; [OArr] is a raw ndarray of shape (m,n) used in
    place of an operator (the code accepts both, lazify/densify
    linear_operators.py:10-18).  [OCustom m n Ms mults pre post] is the
    [LinearOperator(shape=(m,n),matvec=f,matmat=f)] built from the closures
    lazy_Q / lazy_P of product_sum_reps.py:82-84,91-93, i.e.
    f X = lazy_direct_matmat(X[pre],Ms,mults)[post]. *)
Inductive op : Type :=
| OArr (m n : nat) (A : seq R)
| OLazy (m n : nat) (A : seq R)
| OI (n : nat)
| OKron (Ms : seq op)
| OKronsum (Ms : seq op)
| OConcat (Ms : seq op)
| ODsum (Ms : seq op) (mults : seq nat)
| OCustom (m n : nat) (Ms : seq op) (mults : seq nat) (pre : option (seq nat)) (post : seq nat)
| OPerm (p : seq nat)
| OShift (n : nat) (k : int)
| OSwap (swaprows : seq nat) (n : nat)
| ORot90 (n : nat) (k : int)
| OSum (A B : op)
| OProd (A B : op)
| OScaled (A : op) (alpha : R)
| OPow (A : op) (p : nat)
| OAdj (A : op)
| OTrans (A : op).

(** isinstance(A, LinearOperator) *)
Definition is_op (A : op) : bool := if A is OArr _ _ _ then false else true.

(** A.shape (the shape passed to LinearOperator.__init__ by each class:
    linear_operators.py:22,37,70,124,140-141,180,195,210,224;
    linear_operator_base.py:482,502,539,570,606,641,723).  LazyDirectSum uses
    shape[0] of its operands for both entries (linear_operators.py:140-141). *)
Fixpoint shape (A : op) : nat * nat :=
  match A with
  | OArr m n _ | OLazy m n _ => (m, n)
  | OI n => (n, n)
  | OKron Ms | OKronsum Ms =>
      (prodn [seq (shape M).1 | M <- Ms], prodn [seq (shape M).2 | M <- Ms])
  | OConcat Ms => (sumn [seq (shape M).1 | M <- Ms], head 0%N [seq (shape M).2 | M <- Ms])
  | ODsum Ms mults =>
      let n := sumn [seq (p.1 * p.2)%N | p <- zip [seq (shape M).1 | M <- Ms] mults] in (n, n)
  | OCustom m n _ _ _ _ => (m, n)
  | OPerm p => (size p, size p)
  | OShift n _ => (n, n)
  | OSwap _ n => (n, n)
  | ORot90 n _ => ((n * n)%N, (n * n)%N)
  | OSum A _ => shape A
  | OProd A B => ((shape A).1, (shape B).2)
  | OScaled A _ => shape A
  | OPow A _ => shape A
  | OAdj A | OTrans A => ((shape A).2, (shape A).1)
  end.
Definition rows (A : op) : nat := (shape A).1.
Definition cols (A : op) : nat := (shape A).2.

(** A factor of a product as seen by the loops below: shape and action
    ([M@X] for an X with K columns). *)
Record fac := Fac { frows : nat; fcols : nat; fact : nat -> seq R -> res (seq R) }.

(** One pass of the loop body of LazyKron._matmat (linear_operators.py:45-48):
    apply factor number i along axis i. *)
Definition kron_step (i : nat) (M : fac) (ev : nd R) : res (nd R) :=
  let ev_front := moveaxis 0 ev i 0 in
  do K <- infer (fcols M) (size (dat ev_front));
  do Y <- fact M K (dat ev_front);
  do Mev_front <- reshape (frows M :: behead (dims ev_front)) (ND [:: frows M; K] Y);
  Ok (moveaxis 0 Mev_front 0 i).

Fixpoint kron_loop (i : nat) (Ms : seq fac) (ev : nd R) : res (nd R) :=
  match Ms with
  | [::] => Ok ev
  | M :: Ms' => do ev' <- kron_step i M ev; kron_loop i.+1 Ms' ev'
  end.

(** LazyKron._matmat, linear_operators.py:43-49 *)
Definition kron_mm (Ms : seq fac) (v : seq R) : res (seq R) :=
  let ns := [seq fcols M | M <- Ms] in
  do K <- infer (prodn ns) (size v);
  do ev <- kron_loop 0 Ms (ND (rcons ns K) v);
  do out <- reshape [:: prodn [seq frows M | M <- Ms]; last 0%N (dims ev)] ev;
  Ok (dat out).

(** The loop of LazyKronsum._matmat (linear_operators.py:81-84); [out += y]
    raises ValueError when the shapes differ (no broadcasting is possible for
    the shapes that occur, simplification). *)
Fixpoint kronsum_loop (i : nat) (Ms : seq fac) (ev out : nd R) : res (nd R) :=
  match Ms with
  | [::] => Ok out
  | M :: Ms' =>
      do y <- kron_step i M ev;
      if dims y == dims out then
        kronsum_loop i.+1 Ms' ev (ND (dims out) (vadd (dat out) (dat y)))
      else Err ValueError
  end.

(** LazyKronsum._matmat, linear_operators.py:78-85 *)
Definition kronsum_mm (Ms : seq fac) (v : seq R) : res (seq R) :=
  let ns := [seq fcols M | M <- Ms] in
  do K <- infer (prodn ns) (size v);
  let ev := ND (rcons ns K) v in
  do out <- kronsum_loop 0 Ms ev (ND (rcons ns K) (vscale 0 v));
  do out' <- reshape [:: prodn [seq frows M | M <- Ms]; last 0%N (dims ev)] out;
  Ok (dat out').

(** The loop of lazy_direct_matmat, linear_operators.py:163-174; [i] is the
    running row offset; v has k columns. *)
Fixpoint direct_loop (k i : nat) (Ms : seq fac) (mults : seq nat) (v : seq R) : res (seq R) :=
  match Ms, mults with
  | M :: Ms', c :: mults' =>
      let i_end := (i + c * fcols M)%N in
      (* v[i:i_end].T.reshape(k*multiplicity,M.shape[-1]).T *)
      let sl := srows k i i_end v in
      if size sl != (c * fcols M * k)%N then Err ValueError else
      let blk := tr2 0 (k * c) (fcols M) (tr2 0 (c * fcols M) k sl) in
      do elems <- fact M (k * c)%N blk;
      (* elems.T.reshape(k,multiplicity*M.shape[0]).T *)
      let y := tr2 0 k (c * frows M) (tr2 0 (frows M) (k * c) elems) in
      do ys <- direct_loop k i_end Ms' mults' v;
      Ok (y ++ ys)
  | _, _ => Ok [::]
  end.
(** jnp.concatenate of an empty list raises ValueError. *)
Definition direct_mm (k : nat) (Ms : seq fac) (mults : seq nat) (v : seq R) : res (seq R) :=
  if nilp Ms || nilp mults then Err ValueError else direct_loop k 0 Ms mults v.

(** Row index read by row i: jnp.roll(V,k,axis=0)[i] = V[(i-k) mod n]
    (LazyShift._matmat, linear_operators.py:198-201) *)
Definition shift_idx (n : nat) (k : int) : seq nat :=
  mkseq (fun i => absz ((Posz i - k) %% Posz n)%Z) n.

(** index_update(V, rows, V[rows[::-1]]) (SwapMatrix._matmat, linear_operators.py:212-214) *)
Definition swap_idx (rows : seq nat) (n : nat) : seq nat :=
  mkseq (fun i => if i \in rows then nth 0%N (rev rows) (index i rows) else i) n.

(** jnp.rot90(V.reshape((n,n,-1)),k) as a row selection (Rot90._matmat,
    linear_operators.py:228-231; numpy: k=1 is transpose(flip(m,1)), k=2 both
    flips, k=3 is flip(transpose(m),1)) *)
Definition rot_src (n : nat) (k : nat) (i j : nat) : nat :=
  match k with
  | 0 => i * n + j
  | 1 => j * n + (n - 1 - i)
  | 2 => (n - 1 - i) * n + (n - 1 - j)
  | _ => (n - 1 - j) * n + i
  end%N.
Definition rot_idx (n : nat) (k : int) : seq nat :=
  mkseq (fun t => rot_src n (absz (k %% 4%:Z)%Z) (t %/ n) (t %% n)) (n * n)%N.

(** n-fold iteration of a step that may raise (_PowerLinearOperator._power,
    linear_operator_base.py:644-648) *)
Fixpoint iterM (p : nat) (f : seq R -> res (seq R)) (x : seq R) : res (seq R) :=
  if p is p'.+1 then do y <- f x; iterM p' f y else Ok x.

(** sum([...]) of arrays, starting from the integer 0 (ConcatLazy._rmatmat) *)
Fixpoint vsum (l : seq (seq R)) (acc : seq R) : seq R :=
  if l is x :: l' then vsum l' (vadd acc x) else acc.

(** [mm true A K X] is [A@X] (dot -> matvec for K = 1, matmat otherwise);
    [mm false A K X] is [A._rmatvec(X)] / [A._rmatmat(X)], with the
    default implementation [self.H.matvec(X)] / [self.H.matmat(X)]
    (linear_operator_base.py:241-247,308-313) inlined for the classes that
    override _adjoint.  On a raw array [mm false] is [M.T@X].

    - shape checks: matvec/matmat raise ValueError (linear_operator_base.py:193-194,
      272-274); jnp.matmul of raw arrays raises TypeError;
    - Lazy: linear_operator_base.py:725-732;  I: linear_operators.py:24-29;
    - LazyKron: linear_operators.py:41-51;  LazyKronsum: 75-88 (adjoint = product of Mi.T);
    - ConcatLazy: linear_operators.py:127-131; it has no _rmatvec and no _adjoint, so a
      single column raises NotImplementedError (linear_operator_base.py:243-245);
    - LazyDirectSum: linear_operators.py:146-152; its _adjoint calls the
      constructor without multiplicities, whose zip(Ms,None) raises TypeError (line 140);
    - custom operators: _rmatvec raises NotImplementedError
      (linear_operator_base.py:458-462), _rmatmat ends up calling None (TypeError);
    - LazyPerm/LazyShift/SwapMatrix: linear_operators.py:183-188,198-203,212-218;
    - Rot90 has no adjoint: _rmatvec raises NotImplementedError, np.hstack([]) ValueError;
    - sum/product/scaled/power: linear_operator_base.py:541-551,573-583,609-619,644-660;
    - adjoint/transposed views: linear_operator_base.py:487-497,507-519. *)
Fixpoint mm (fwd : bool) (A : op) (K : nat) (X : seq R) {struct A} : res (seq R) :=
  if size X != ((if fwd then cols A else rows A) * K)%N
  then Err (if is_op A then ValueError else TypeError) else
  match A with
  | OArr m n D | OLazy m n D =>
      Ok (if fwd then matmul m n K D X else matmul n m K (tr2 0 m n D) X)
  | OI _ => Ok X
  | OKron Ms =>
      if fwd then kron_mm [seq Fac (rows M) (cols M) (mm true M) | M <- Ms] X
      else kron_mm [seq Fac (cols M) (rows M)
                       (fun K X => if is_op M then rmap (map conj) (mm false M K (map conj X))
                                   else mm false M K X) | M <- Ms] X
  | OKronsum Ms =>
      if fwd then kronsum_mm [seq Fac (rows M) (cols M) (mm true M) | M <- Ms] X
      else kronsum_mm [seq Fac (cols M) (rows M)
                       (fun K X => if is_op M then rmap (map conj) (mm false M K (map conj X))
                                   else mm false M K X) | M <- Ms] X
  | OConcat Ms =>
      if fwd then rmap flatten (sequence [seq mm true M K X | M <- Ms])
      else if K == 1%N then Err NotImplementedError
      else
        (* Vs = jnp.split(V,len(Ms)); all blocks have the height of Ms[0] *)
        let h := head 0%N [seq rows M | M <- Ms] in
        let ys := (fix go (i : nat) (l : seq op) : seq (res (seq R)) :=
                     match l with
                     | [::] => [::]
                     | M :: l' =>
                         let V := srows K (i * h) (i.+1 * h) X in
                         (if is_op M then rmap (map conj) (mm false M K (map conj V))
                          else mm false M K V) :: go i.+1 l'
                     end) 0%N Ms in
        do ys' <- sequence ys;
        Ok (vsum ys' (nseq (cols A * K) 0))
  | ODsum Ms mults =>
      if fwd then direct_mm K [seq Fac (rows M) (cols M) (mm true M) | M <- Ms] mults X
      else Err TypeError
  | OCustom m n Ms mults pre post =>
      if fwd then
        let X' := if pre is Some p then grows 0 K X p else X in
        do Y <- direct_mm K [seq Fac (rows M) (cols M) (mm true M) | M <- Ms] mults X';
        Ok (grows 0 K Y post)
      else if K == 0%N then Err ValueError
      else if K == 1%N then Err NotImplementedError else Err TypeError
  | OPerm p => Ok (grows 0 K X (if fwd then p else argsort p))
  | OShift n k => Ok (grows 0 K X (shift_idx n (if fwd then k else - k)))
  | OSwap sw n => Ok (grows 0 K X (swap_idx sw n))
  | ORot90 n k =>
      if fwd then Ok (grows 0 K X (rot_idx n k))
      else if K == 0%N then Err ValueError else Err NotImplementedError
  | OSum A B => do Y <- mm fwd A K X; do Z <- mm fwd B K X; Ok (vadd Y Z)
  | OProd A B =>
      if fwd then do Y <- mm true B K X; mm true A K Y
      else do Y <- mm false A K X; mm false B K Y
  | OScaled A alpha =>
      rmap (vscale (if fwd then alpha else conj alpha)) (mm fwd A K X)
  | OPow A p => iterM p (mm fwd A K) X
  | OAdj A => mm (~~ fwd) A K X
  | OTrans A => rmap (map conj) (mm (~~ fwd) A K (map conj X))
  end.

(** A@X *)
Definition matmat (A : op) (K : nat) (X : seq R) : res (seq R) := mm true A K X.

(** A.T: every LinearOperator inherits _transpose (linear_operator_base.py:422-424);
    a raw array is transposed. *)
Definition transpose (A : op) : op :=
  if A is OArr m n D then OArr n m (tr2 0 m n D) else OTrans A.

(** Constructors with their checks. *)

(** LazyKron.__new__/__init__, linear_operators.py:35-39,57-59: a one-element
    list returns its element (and, when that element is itself a LazyKron, re-runs
    __init__ on it with Ms=[self], after which every use recurses forever); an empty list
    fails in reduce. *)
Definition mkKron (Ms : seq op) : res op :=
  match Ms with
  | [::] => Err TypeError
  | [:: OKron _] => Err RecursionError
  | [:: M] => Ok M
  | _ => Ok (OKron Ms)
  end.
(** LazyKronsum, linear_operators.py:68-73,92-94 *)
Definition mkKronsum (Ms : seq op) : res op :=
  match Ms with
  | [::] => Err TypeError
  | [:: OKronsum _] => Err RecursionError
  | [:: M] => Ok M
  | _ => Ok (OKronsum Ms)
  end.
(** ConcatLazy.__init__, linear_operators.py:120-125 *)
Definition mkConcat (Ms : seq op) : res op :=
  match Ms with
  | [::] => Err IndexError
  | M :: _ => if all (fun M' => rows M' == rows M) Ms then Ok (OConcat Ms) else Err AssertionError
  end.
(** LazyDirectSum(Ms,multiplicities), linear_operators.py:137-142: without
    multiplicities the constructor always raises TypeError (zip with None). *)
Definition mkDsum (Ms : seq op) (mults : option (seq nat)) : res op :=
  if mults is Some c then Ok (ODsum Ms c) else Err TypeError.
(** _SumLinearOperator.__init__, linear_operator_base.py:531-539 *)
Definition mkSum (A B : op) : res op :=
  if ~~ (is_op A && is_op B) then Err ValueError
  else if shape A != shape B then Err ValueError else Ok (OSum A B).
(** _ProductLinearOperator.__init__, linear_operator_base.py:562-571 *)
Definition mkProd (A B : op) : res op :=
  if ~~ (is_op A && is_op B) then Err ValueError
  else if cols A != rows B then Err ValueError else Ok (OProd A B).
(** _PowerLinearOperator.__init__, linear_operator_base.py:633-642 (p a nat here;
    negative p raises ValueError) *)
Definition mkPow (A : op) (p : nat) : res op :=
  if ~~ is_op A then Err ValueError
  else if rows A != cols A then Err ValueError else Ok (OPow A p).
(** _ScaledLinearOperator.__init__, linear_operator_base.py:600-607 *)
Definition mkScaled (A : op) (alpha : R) : res op :=
  if is_op A then Ok (OScaled A alpha) else Err ValueError.

(** lazify, linear_operators.py:10-13 *)
Definition lazify (A : op) : op := if A is OArr m n D then OLazy m n D else A.

(** -A: LinearOperator.__neg__ (linear_operator_base.py:379-380); a raw array is negated *)
Definition neg (A : op) : op :=
  if A is OArr m n D then OArr m n (map -%R D) else OScaled A (-1).
(** A - B for operators: __sub__ = __add__(-x), linear_operator_base.py:382-383 *)
Definition sub (A B : op) : res op := mkSum A (neg B).

(** A.H: _adjoint of each class (linear_operators.py:28,50,87,151,187,202,217;
    linear_operator_base.py:418-420,553-555,585-587,621-623,662-664).  A raw array has
    no .H.  For a custom operator the code returns another custom operator whose
    matvec is None, so that using it raises; the model returns the generic view, whose use
    raises as well (simplified exception class). *)
Fixpoint adjoint (A : op) : res op :=
  match A with
  | OArr _ _ _ => Err AttributeError
  | OI n => Ok (OI n)
  | OKron Ms => mkKron (map transpose Ms)
  | OKronsum Ms => mkKronsum (map transpose Ms)
  | ODsum Ms _ => mkDsum (map transpose Ms) None
  | OPerm p => Ok (OPerm (argsort p))
  | OShift n k => Ok (OShift n (- k))
  | OSwap sw n => Ok (OSwap sw n)
  | OSum A B => do A' <- adjoint A; do B' <- adjoint B; mkSum A' B'
  | OProd A B => do B' <- adjoint B; do A' <- adjoint A; mkProd B' A'
  | OScaled A alpha => do A' <- adjoint A; mkScaled A' (conj alpha)
  | OPow A p => do A' <- adjoint A; mkPow A' p
  | _ => Ok (OAdj A)
  end.

(** A.invT(): linear_operators.py:30-31,52-53,153-154,189-190,204-205,219-220,232-233;
    linear_operator_base.py:557-559,589-591,624-626,665-667,735-736.  Classes without the
    method (and raw arrays) raise AttributeError; inverting a non-square array raises
    (LinAlgError, a ValueError subclass). *)
Fixpoint invT (A : op) : res op :=
  match A with
  | OI n => Ok (OI n)
  | OKron Ms => do Ms' <- sequence [seq invT M | M <- Ms]; mkKron Ms'
  | ODsum Ms _ => do Ms' <- sequence [seq invT M | M <- Ms]; mkDsum Ms' None
  | OPerm p => Ok (OPerm p)
  | OShift n k => Ok (OShift n k)
  | OSwap sw n => Ok (OSwap sw n)
  | ORot90 n k => Ok (ORot90 n k)
  | OSum A B => do A' <- invT A; do B' <- invT B; mkSum A' B'
  | OProd A B => do A' <- invT A; do B' <- invT B; mkProd A' B'
  | OScaled A alpha => mkScaled (transpose A) (sinv alpha)
  | OPow A p => do A' <- invT A; mkPow A' p
  | OLazy m n D => if m == n then Ok (OLazy n n (tr2 0 n n (linv n D))) else Err ValueError
  | _ => Err AttributeError
  end.

(** reduce(kron / kronsum / block_diag, ...) over (shape, data) triples. *)
Definition darr : Type := (nat * nat * seq R)%type.
Definition dk2 (a b : darr) : darr :=
  ((a.1.1 * b.1.1)%N, (a.1.2 * b.1.2)%N, dkron a.1.1 a.1.2 a.2 b.1.1 b.1.2 b.2).
Definition dks2 (a b : darr) : darr :=
  ((a.1.1 * b.1.1)%N, (a.1.2 * b.1.2)%N, dkronsum a.1.2 a.2 b.1.2 b.2).
Definition db2 (a b : darr) : darr :=
  ((a.1.1 + b.1.1)%N, (a.1.2 + b.1.2)%N, dblock a.1.1 a.1.2 a.2 b.1.1 b.1.2 b.2).
Definition reduce1 (f : darr -> darr -> darr) (l : seq darr) : res darr :=
  if l is a :: l' then Ok (foldl f a l') else Err TypeError.
(** jax.scipy.linalg.block_diag: no blocks give an array of shape (1,0) *)
Definition block_diag (l : seq darr) : darr :=
  if l is a :: l' then foldl db2 a l' else (1%N, 0%N, [::]).
(** jnp.concatenate(..., axis=0) *)
Definition concat0 (l : seq darr) : res darr :=
  match l with
  | [::] => Err ValueError
  | a :: _ => if all (fun b => b.1.2 == a.1.2) l
              then Ok (sumn [seq b.1.1 | b <- l], a.1.2, flatten [seq b.2 | b <- l])
              else Err TypeError
  end.

(** A.to_dense(), shape and flat data:
    linear_operators.py:54-56,89-91,132-134,155-158; linear_operator_base.py:426-430,
    592-596,627-629,733-734; a raw array densifies to itself. *)
Fixpoint to_dense (A : op) : res darr :=
  match A with
  | OArr m n D | OLazy m n D => Ok (m, n, D)
  | OKron Ms => do Ds <- sequence [seq to_dense M | M <- Ms]; reduce1 dk2 Ds
  | OKronsum Ms => do Ds <- sequence [seq to_dense M | M <- Ms]; reduce1 dks2 Ds
  | OConcat Ms => do Ds <- sequence [seq to_dense M | M <- Ms]; concat0 Ds
  | ODsum Ms mults =>
      do Ds <- sequence [seq to_dense M | M <- Ms];
      Ok (block_diag (flatten [seq nseq p.2 p.1 | p <- zip Ds mults]))
  | OProd A B =>
      do DA <- to_dense A; do DB <- to_dense B;
      if DA.1.2 != DB.1.1 then Err TypeError else
      Ok (DA.1.1, DB.1.2, matmul DA.1.1 DA.1.2 DB.1.2 DA.2 DB.2)
  | OScaled A alpha => do DA <- to_dense A; Ok (DA.1, vscale alpha DA.2)
  | _ => rmap (pair (rows A, cols A)) (mm true A (cols A) (eye R (cols A)))
  end.

End Model.
