(** * DescUpto: when the descent converges, the first attempt of the solver is the last one. *)
From mathcomp Require Import all_ssreflect all_algebra.
From Verif Require Import Np Spec LinOp SolSpec Krylov DescSpec DescThm.
Set Implicit Arguments.
Unset Strict Implicit.
Unset Printing Implicit Defensive.
Import GRing.Theory Num.Theory.
Local Open Scope ring_scope.
Opaque max_iter.

Theorem first_attempt (F : archiFieldType) (sc : rat -> F) m n D lr L e b :
  sc (9%:Q / 10%:Q) = 9%:R / 10%:R -> 0 < sc lr -> bounded_by m n D L -> sc lr * L < 5%:R^-1 -> 0 < e ->
  exists T, forall (conv diverging : seq F -> bool) tsvd big gap W0 r k f, size (W0 k 0%N) = (n * r)%N ->
    sumsq (matmul m n r D (W0 k 0%N)) <= b ->
    (forall X, size X = (m * r)%N -> sumsq X < e -> conv X) ->
    (forall X, size X = (m * r)%N -> sumsq X <= sumsq (matmul m n r D (W0 k 0%N)) -> ~~ diverging X) -> (T < max_iter)%N ->
    exists W' its, upto id id sc conv diverging tsvd big gap W0 f.+1 m n r D k 0 lr =
      Some (finish tsvd big gap n r W', [:: (lr, its)]) /\ (its <= T.+1)%N.
Proof.
move=> h1 h2 h3 h4 h5; have [T H] := descent_converges b h1 h2 h3 h4 h5; exists T => conv dv tsvd big gap W0 r k f SW Hb Hc Hd Tk.
have [W' [its [E Hi]]] := H conv dv r (W0 k 0%N) max_iter SW Hb Hc Hd Tk.
by exists W', its; split=> //=; rewrite E.
Qed.
