(** * ExKry: concrete runs of the iterative solver, for the examples and refutations. *)
From mathcomp Require Import all_ssreflect all_algebra.
From Verif Require Import Np NpLemmas Spec SpecLemmas LinOp Cplx SolSpec SolSvd MxBridge Krylov KrySpec KryProofs KryThm.
Set Implicit Arguments.
Unset Strict Implicit.
Unset Printing Implicit Defensive.
Import GRing.Theory Num.Theory.
Local Open Scope ring_scope.
Opaque max_iter.

Definition Q_ := rat_comRing.
Definition idq : Q_ -> Q_ := id.
(** exact tests: the residual is zero; a singular value is not zero *)
Definition zconv (l : seq Q_) : bool := all (fun x => x == 0) l.
Definition zdiv (l : seq Q_) : bool := false.
Definition zbig : pred Q_ := fun x => x != 0.
Definition zgap (x y : Q_) : bool := x == 0.
Definition fam (n r : nat) (F : nat -> nat -> bool) : seq Q_ :=
  mkseq (fun t => (F (t %/ r)%N (t %% r)%N)%:R) (n * r).
Lemma famE n r F i j : (i < n)%N -> (j < r)%N -> nth 0 (fam n r F) (i * r + j) = (F i j)%:R.
Proof. by move=> Hi Hj; rewrite nth_mkseq ?idx_lt // idx_div // idx_mod. Qed.
Lemma fam_size n r F : size (fam n r F) = (n * r)%N.
Proof. by rewrite size_mkseq. Qed.

(** the matrix (1 0): null space spanned by (0 1) *)
Definition D1 : seq Q_ := [:: 1; 0].
Definition N1 : seq Q_ := [:: 0; 1].
Definition rk (k : nat) : nat := (5 * 2 ^ k.+1)%N.
Definition W1 (k a : nat) : seq Q_ := fam 2 (rk k) (fun i j => (i == 1%N) && (j == 0%N)).
Definition svd1 (n r : nat) (W : seq Q_) : seq Q_ * seq Q_ * seq Q_ :=
  ([:: 0; 1; 1; 0], [:: 1; 0], fam 2 r (fun i j => i == j)).
(** the matrix (0 0 0) *)
Definition D2 : seq Q_ := [:: 0; 0; 0].
Definition N2 : seq Q_ := [:: 1; 0; 0; 0; 1; 0; 0; 0; 1].
Definition W2 (k a : nat) : seq Q_ := fam 3 (rk k) (fun i j => i == j).
Definition svd2 (n r : nat) (W : seq Q_) : seq Q_ * seq Q_ * seq Q_ :=
  ([:: 1; 0; 0; 0; 1; 0; 0; 0; 1], [:: 1; 1; 1], fam 3 r (fun i j => i == j)).

Lemma rkS k : exists r', rk k = (4 + r')%N.
Proof.
exists (rk k - 4)%N; rewrite subnKC //; apply: leq_trans (_ : 5 <= _)%N => //.
by rewrite /rk -[X in (X <= _)%N]muln1 leq_mul2l expn_gt0.
Qed.

Lemma sum4 (R : zmodType) (r' : nat) (F : nat -> R) : (forall l, (3 <= l)%N -> F l = 0) ->
  \sum_(0 <= l < 4 + r') F l = F 0%N + F 1%N + F 2%N.
Proof.
move=> H; have E : \sum_(0 <= l < 3) F l = F 0%N + F 1%N + F 2%N.
  by rewrite !big_nat_recr //= big_geq // add0r.
rewrite (@big_cat_nat _ _ _ 3) //= E.
by rewrite [X in _ + X]big_nat_cond big1 ?addr0 // => l /andP[/andP[Hl _] _]; apply: H.
Qed.

Lemma nb1 : null_basis idq 1 2 D1 1 N1.
Proof.
split=> //.
- by split=> //= -[|i] [|j] // _ _; rewrite !big_nat_recr //= big_geq.
case=> [|x [|y []]] // _; rewrite /matvec /flat /mkseq /= !big_nat_recr //= !big_geq //= /fam.
rewrite /idq ?(mul0r, mul1r, mulr0, mulr1, add0r, addr0).
by split=> [[->]|[<-]].
Qed.
Lemma nb2 : null_basis idq 1 3 D2 3 N2.
Proof.
split=> //.
- by split=> //= -[|[|[|i]]] [|[|[|j]]] // _ _; rewrite !big_nat_recr //= big_geq.
case=> [|x [|y [|z []]]] // _; rewrite /matvec /flat /mkseq /= !big_nat_recr //= !big_geq //=.
by rewrite /D2 /N2 /idq /= ?(mul0r, mul1r, mulr0, mulr1, add0r, addr0).
Qed.

(** when the start solves the equations the iteration does not move *)
Lemma iter_fix m n r (D : seq Q_) lr (W : seq Q_) t : size W = (n * r)%N -> matmul m n r D W = nseq (m * r) 0 ->
  iter t (sgd idq idq idq m n r D lr) (W, nseq (n * r) 0) = (W, nseq (n * r) 0).
Proof.
move=> SW E; elim: t => [|t IH] //=; rewrite IH /sgd /= E.
have -> : matmul n m r (ctr idq m n D) (nseq (m * r) 0) = nseq (n * r) 0.
  by apply: (@toM_inj _ n r); rewrite ?size_matmul ?size_nseq // toM_matmul !toM_nseq0 mulmx0.
have Z (c : Q_) l : vscale c (nseq l 0) = nseq l 0.
  by rewrite /vscale; elim: l => //= l ->; rewrite mulr0.
have A (l : nat) : vadd (nseq l 0) (nseq l (0 : Q_)) = nseq l 0.
  by elim: l => //= l; rewrite /vadd /= addr0 => ->.
have B (v : seq Q_) : vadd v (nseq (size v) 0) = v.
  by elim: v => //= x v; rewrite /vadd /= addr0 => ->.
by rewrite map_nseq Z A Z -SW B.
Qed.

Lemma attempt_fix m n (D : seq Q_) v N tsvd (W0 : nat -> nat -> seq Q_) k a : size (W0 k a) = (n * rk k)%N ->
  generic idq n (rk k) v N (W0 k a) -> (forall j, (j < rk k)%N -> forall i, (i < m)%N ->
     \sum_(0 <= l < n) nth 0 D (i * n + l) * nth 0 (W0 k a) (l * rk k + j) = 0) ->
  tsvd_exact idq tsvd zbig zgap n (rk k) (W0 k a) ->
  exact_attempt idq idq idq zconv tsvd zbig zgap W0 m n D v N k (rk k) a.
Proof.
move=> SW G H X; have E : matmul m n (rk k) D (W0 k a) = nseq (m * rk k) 0.
  apply: (@toM_inj _ m (rk k)); rewrite ?size_matmul ?size_nseq // toM_matmul toM_nseq0.
  apply/matrixP=> i j; rewrite !mxE; under eq_bigr do rewrite !toME.
  by have := H j (ltn_ord j) i (ltn_ord i); rewrite big_mkord.
by split=> // t _ _; rewrite /residual /iterate iter_fix.
Qed.

Lemma orth_fam n k i j : (n <= 3)%N -> (i < n)%N -> (j < n)%N ->
  \sum_(0 <= l < rk k) nth 0 (fam n (rk k) (fun i j => i == j)) (i * rk k + l) *
     nth 0 (fam n (rk k) (fun i j => i == j)) (j * rk k + l) = (i == j)%:R.
Proof.
move=> Hn Hi Hj; have Hi3 := leq_trans Hi Hn; have Hj3 := leq_trans Hj Hn.
under eq_big_nat => l /andP[_ Hl] do rewrite !famE //.
have [r' ->] := rkS k; rewrite sum4 => [|l Hl].
  by move: i j Hi3 Hj3 {Hi Hj} => [|[|[|i]]] [|[|[|j]]].
by rewrite (_ : i == l = false) ?mul0r //; apply/negbTE; rewrite neq_ltn (leq_trans Hi3 Hl).
Qed.

Lemma exact1 k a : exact_attempt idq idq idq zconv svd1 zbig zgap W1 1 2 D1 1 N1 k (rk k) a.
Proof.
have [r' Er] := rkS k.
have R2 : (2 <= rk k)%N by rewrite Er.
have R0 : (0 < rk k)%N by rewrite Er.
apply: attempt_fix; first by rewrite fam_size.
- exists (fam (rk k) 1 (fun i j => i == 0%N)); left; split=> //= -[|i] [|j] // _ _.
  under eq_big_nat => l /andP[_ Hl].
    rewrite !big_nat_recr //= big_geq // /idq /N1 /= !famE //.
    rewrite mul0r mul1r !add0r.
  over.
  rewrite Er sum4 // => l Hl; by rewrite (_ : l == 0%N = false) ?mul0r //; case: l Hl.
- move=> j Hj [|i] // _; rewrite !big_nat_recr //= big_geq // !famE // /D1 /=.
  by rewrite !mul0r !mulr0 !addr0.
rewrite /tsvd_exact /svd1 (minn_idPl R2); split=> //=.
- by split=> //= -[|[|i]] [|[|j]] // _ _; rewrite !big_nat_recr //= big_geq.
- split=> //= i j Hi Hj; exact: orth_fam.
- split=> //= i j Hi Hj; rewrite !big_nat_recr //= !big_geq // !famE //.
  by move: i j Hi {Hj} => [|[|i]] [|[|j]] //.
split=> //; [by case=> [|[|i]] [|[|j]] | by move=> x; rewrite !inE => /orP[] /eqP -> //; exists 1 |].
by move=> x _; rewrite negbK => /eqP.
Qed.
Lemma exact2 k a : exact_attempt idq idq idq zconv svd2 zbig zgap W2 1 3 D2 3 N2 k (rk k) a.
Proof.
have [r' Er] := rkS k.
have R3 : (3 <= rk k)%N by rewrite Er.
apply: attempt_fix; first by rewrite fam_size.
- exists (fam (rk k) 3 (fun i j => i == j)); left; split=> //= i j Hi Hj.
  under eq_big_nat => l /andP[_ Hl].
    rewrite !big_nat_recr //= big_geq // /idq !famE //.
  over.
  rewrite Er sum4 => [|l Hl].
    by move: i j Hi Hj => [|[|[|i]]] [|[|[|j]]].
  have F x : (x < 3)%N -> x == l = false by move=> Hx; apply/negbTE; rewrite neq_ltn (leq_trans Hx Hl).
  by rewrite !F // !mulr0 !addr0 mul0r.
- by move=> j Hj [|i] // _; rewrite !big_nat_recr //= big_geq // /D2 /= !mul0r.
rewrite /tsvd_exact /svd2 (minn_idPl R3); split=> //=.
- by split=> //= -[|[|[|i]]] [|[|[|j]]] // _ _; rewrite !big_nat_recr //= big_geq.
- split=> //= i j Hi Hj; exact: orth_fam.
- split=> //= i j Hi Hj; rewrite !big_nat_recr //= !big_geq // !famE //.
  by move: i j Hi {Hj} => [|[|[|i]]] [|[|[|j]]] //.
split=> //; [by case=> [|[|[|i]]] [|[|[|j]]] | by move=> x; rewrite !inE => /or3P[] /eqP -> //; exists 1 |].
by move=> x _; rewrite negbK => /eqP.
Qed.

Definition kry1 := krylov_solve idq idq idq zconv zdiv svd1 zbig zgap W1 (OArr 1 2 D1).
Definition kry2 := krylov_solve idq idq idq zconv zdiv svd2 zbig zgap W2 (OArr 1 3 D2).
Lemma kry1_run : kry1 = Some (Ok (2%N, 1%N, [:: 0; 1], false)).
Proof. by vm_compute. Qed.
Lemma kry2_run : kry2 = Some (Err IndexError).
Proof. by vm_compute. Qed.
