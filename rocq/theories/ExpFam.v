(** * ExpFam: the derivative at the identity of the matrix of a representation along a
    curve of group elements is the matrix of drho. *)
From Coq Require Import Reals.
From mathcomp Require Import all_ssreflect all_algebra.
From mathcomp Require Import zify.
From Verif Require Import Np NpLemmas Spec SpecLemmas LinOp LinOpSpec LinOpProofs LinOpMM Rep RepMat RepWf RepProd RepAlg RepMul RepFun RepOps RhoProofs Rstruct Expm.
Set Implicit Arguments.
Unset Strict Implicit.
Unset Printing Implicit Defensive.
Import GRing.Theory.
Local Open Scope ring_scope.

(** *** relations between a family of matrices of rho and a matrix of drho *)
Section Closed.
Variables (R1 R2 : comRingType) (T : Type).
Variable Q : nat -> (T -> fmat R1) -> fmat R2 -> Prop.
Hypothesis Q0 : Q 0 (fun _ => fzero R1 0 0) (fzero R2 0 0).
Hypothesis Q1 : Q 1 (fun _ => fid R1 1) (fzero R2 1 1).
Hypothesis Qsum : forall m n A A' B B', Q m A B -> Q n A' B' -> Q (m + n) (fun t => fdsum (A t) (A' t)) (fdsum B B').
Hypothesis Qkron : forall m n A A' B B', (0 < m)%N -> (0 < n)%N -> Q m A B -> Q n A' B' ->
  Q (m * n) (fun t => fkron (A t) (A' t)) (fkronsum B B').
Hypothesis Qscat : forall n p A B, is_perm n p -> Q n A B -> Q n (fun t => fscat p (A t)) (fscat p B).

Variables (gdim : gid -> nat) (csize : nat -> gid -> nat) (le : rel rep) (gs : pred gid).
Local Notation sz := (rsize gdim csize).
Variables (a1 : T -> rep -> fmat R1) (a2 : rep -> fmat R2).
Hypothesis Qatom : forall r, atomic gdim csize gs r -> Q (sz r) (a1^~ r) (a2 r).
Let QQ r := Q (sz r) (fun t => rmat (a1 t) r) (dmat a2 r).

Hypothesis Qext : forall n A A' B, (forall t, A t = A' t) -> Q n A B -> Q n A' B.

Lemma F_sum l : (forall r, r \in l -> QQ r) ->
  Q (sumn (map sz l)) (fun t => fdsuml (map (rmat (a1 t)) l)) (fdsuml (map (dmat a2) l)).
Proof.
elim: l => [|r l IH] //= H; apply: Qsum; first by apply: H; rewrite mem_head.
by apply: IH => x Hx; apply: H; rewrite inE Hx orbT.
Qed.

Lemma F_kron l : (forall r, r \in l -> QQ r /\ (0 < sz r)%N) ->
  (0 < prodn (map sz l))%N /\
  Q (prodn (map sz l)) (fun t => fkronl (map (rmat (a1 t)) l)) (fkronsuml (map (dmat a2) l)).
Proof.
elim: l => [|r l IH] //= H; have [Hr P] := H r (mem_head _ _).
have [|P' IH'] := IH; first by move=> x Hx; apply: H; rewrite inE Hx orbT.
by split; [rewrite muln_gt0 P | apply: Qkron].
Qed.

Lemma F_prodlike d p (P : pred rep) : all P (keys d) ->
  (forall k, P k -> QQ k /\ (0 < sz k)%N) -> is_perm (sz (RProd d p)) p ->
  Q (sz (RProd d p)) (fun t => fscat p (fkronl (map (rmat (a1 t)) (dexp d))))
    (fscat p (fkronsuml (map (dmat a2) (dexp d)))).
Proof.
move=> A H Pp; apply: Qscat => //.
have [|_] := @F_kron (dexp d).
  by move=> r /dexp_in Hr; apply: H; apply: (allP A).
by rewrite prodn_dexp.
Qed.

Lemma F_atomic r : atomic gdim csize gs r -> QQ r.
Proof. by move=> H; move: (Qatom H); rewrite /QQ; case: (r) H. Qed.

Lemma F_isprod r : isprod gdim csize le gs r -> QQ r.
Proof.
case: r => // d p /andP[/and3P[/and5P[_ A _ _ _] _ _] P]; rewrite /QQ /= dexp_dmat.
apply: Qext (F_prodlike A _ P) => [t|k Hk]; first by rewrite /= dexp_rmat.
split; last exact: atomic_sz Hk.
exact: F_atomic.
Qed.

Lemma F_nonsum r : nonsum gdim csize le gs r -> QQ r.
Proof.
case/or4P=> [/eqP ->|/F_atomic|/F_isprod|] //.
case: r => // d p /andP[/and4P[/and5P[_ A _ _ _] _ _ _] P]; rewrite /QQ /= dexp_dmat.
apply: Qext (F_prodlike A _ P) => [t|k Hk]; first by rewrite /= dexp_rmat.
split; last exact: dkey_sz Hk.
by case/orP: Hk => [/F_atomic|/andP[/F_isprod]].
Qed.

Theorem F_wfr r : wfr gdim csize le gs r -> QQ r.
Proof.
case/orP=> [/F_nonsum //|].
case: r => // d p /andP[/and5P[_ A _ _ _] P]; rewrite /QQ /= dexp_dmat -sumn_dexp.
move: P; rewrite /= -sumn_dexp => P.
apply: (Qext (A := fun t => fscat p (fdsuml (map (rmat (a1 t)) (dexp d))))); first by move=> t; rewrite dexp_rmat.
apply: Qscat => //; apply: F_sum.
by move=> k /dexp_in Hk; have /andP[/F_nonsum] := allP A _ Hk.
Qed.
End Closed.

(** *** curves through the identity *)
Definition curve (n : nat) (X : R -> fmat RR) (Y : fmat RR) : Prop :=
  [/\ forall t, sqn n (X t), sqn n Y, meq (X R0) (fid RR n) &
      forall i j, (i < n)%N -> (j < n)%N -> derivable_pt_lim (fun t => fe (X t) i j) R0 (fe Y i j)].

Lemma curve_meq n X Y X' Y' : (forall t, meq (X t) (X' t)) -> meq Y Y' -> curve n X Y -> curve n X' Y'.
Proof.
move=> HX HY [h1 [h2 h2'] h3 h4]; split.
- by move=> t; have [k1 k2 _] := HX t; have [m1 m2] := h1 t; split; rewrite -?k1 -?k2.
- by have [k1 k2 _] := HY; split; rewrite -?k1 -?k2.
- exact: meq_trans (meq_sym (HX _)) h3.
move=> i j Hi Hj; apply: dl_ext (h4 i j Hi Hj) => [t|].
  by have [_ _ ->] := HX t; have [e1 e2] := h1 t; rewrite ?e1 ?e2.
by have [_ _ ->] := HY; rewrite ?h2 ?h2'.
Qed.
Lemma dl0 (c : RR) t : derivable_pt_lim (fun _ => c) t (0 : RR).
Proof. exact: derivable_pt_lim_const. Qed.

Lemma curve_dsum m n A A' B B' : curve m A B -> curve n A' B' ->
  curve (m + n) (fun t => fdsum (A t) (A' t)) (fdsum B B').
Proof.
move=> [h1 [h2 h2'] h3 h4] [k1 [k2 k2'] k3 k4]; split.
- by move=> t; have [a1 a2] := h1 t; have [b1 b2] := k1 t; split; rewrite /= ?a1 ?a2 ?b1 ?b2.
- by split; rewrite /= ?h2 ?h2' ?k2 ?k2'.
- have [a1 a2] := h1 R0; have [b1 b2] := k1 R0; have [_ _ e1] := h3; have [_ _ e2] := k3.
  split; rewrite /= ?a1 ?a2 ?b1 ?b2 // => i j Hi Hj.
  case: (ltnP i m) => Im; case: (ltnP j m) => Jm.
  + by rewrite e1 ?a1 ?a2.
  + by have -> : (i == j) = false by apply/eqP; lia.
  + by have -> : (i == j) = false by apply/eqP; lia.
  rewrite e2 ?b1 ?b2 /=; try lia.
  by congr (nat_of_bool _)%:R; apply/eqP/eqP; lia.
move=> i j Hi Hj; have [q1 q2] := (h2, h2').
case Im : (i < m)%N; case Jm : (j < m)%N.
- apply: dl_ext (h4 i j Im Jm) => [t|]; rewrite /= ?q1 ?q2 ?Im ?Jm //.
  by have [-> ->] := h1 t; rewrite Im Jm.
- apply: dl_ext (dl0 0 R0) => [t|]; rewrite /= ?q1 ?q2 ?Im ?Jm //.
  by have [-> ->] := h1 t; rewrite Im Jm.
- apply: dl_ext (dl0 0 R0) => [t|]; rewrite /= ?q1 ?q2 ?Im ?Jm //.
  by have [-> ->] := h1 t; rewrite Im Jm.
have Hi' : (i - m < n)%N by clear -Hi Im; lia.
have Hj' : (j - m < n)%N by clear -Hj Jm; lia.
apply: dl_ext (k4 _ _ Hi' Hj') => [t|]; rewrite /= ?q1 ?q2 ?Im ?Jm //.
by have [-> ->] := h1 t; rewrite Im Jm.
Qed.

Lemma curve_kron m n A A' B B' : (0 < m)%N -> (0 < n)%N -> curve m A B -> curve n A' B' ->
  curve (m * n) (fun t => fkron (A t) (A' t)) (fkronsum B B').
Proof.
move=> m0 n0 [h1 [h2 h2'] h3 h4] [k1 [k2 k2'] k3 k4]; split.
- by move=> t; have [a1 a2] := h1 t; have [b1 b2] := k1 t; split; rewrite /= ?a1 ?a2 ?b1 ?b2.
- by split; rewrite /= ?h2 ?h2' ?k2 ?k2'.
- have [a1 a2] := h1 R0; have [b1 b2] := k1 R0.
  apply: meq_trans (meq_fkron h3 k3) _; exact: fkron_id.
move=> i j Hi Hj.
have Hi1 : (i %/ n < m)%N by rewrite ltn_divLR.
have Hj1 : (j %/ n < m)%N by rewrite ltn_divLR.
have Hi2 : (i %% n < n)%N by rewrite ltn_mod.
have Hj2 : (j %% n < n)%N by rewrite ltn_mod.
have [a1 a2] := h1 R0; have [b1 b2] := k1 R0; have [_ _ e1] := h3; have [_ _ e2] := k3.
apply: dl_ext (dl_mul (h4 _ _ Hi1 Hj1) (k4 _ _ Hi2 Hj2)) => [t|].
  by rewrite /=; have [-> ->] := k1 t.
by rewrite /= k2 k2' e1 ?e2 ?a1 ?a2 ?b1 ?b2 //=.
Qed.

Lemma curve_scat n p A B : is_perm n p -> curve n A B -> curve n (fun t => fscat p (A t)) (fscat p B).
Proof.
move=> P [h1 [h2 h2'] h3 h4]; have S := is_perm_size P; split.
- by move=> t; split; rewrite /= S.
- by split; rewrite /= S.
- have [a1 a2] := h1 R0; split; rewrite /= ?S // => i j Hi Hj.
  have Ii : (index i p < n)%N by rewrite -S index_mem (is_perm_mem _ P).
  have Ij : (index j p < n)%N by rewrite -S index_mem (is_perm_mem _ P).
  have [_ _ ->] := h3; rewrite ?a1 ?a2 //=; congr (nat_of_bool _)%:R.
  by apply/eqP/eqP=> [|-> //]; move/(congr1 (nth 0%N p)); rewrite !nth_index ?(is_perm_mem _ P).
move=> i j Hi Hj /=.
by apply: h4; rewrite -S index_mem (is_perm_mem _ P).
Qed.

Section Rep.
Variables (gdim : gid -> nat) (csize : nat -> gid -> nat) (le : rel rep) (gs : pred gid).
Local Notation sz := (rsize gdim csize).
Theorem rmat_curve (a1 : R -> rep -> fmat RR) (a2 : rep -> fmat RR) r :
  wfr gdim csize le gs r -> (forall k, atomic gdim csize gs k -> curve (sz k) (a1^~ k) (a2 k)) ->
  curve (sz r) (fun t => rmat (a1 t) r) (dmat a2 r).
Proof.
move=> W H; apply: (@F_wfr RR RR R curve _ _ _ _ _ gdim csize le gs a1 a2 H _ r W).
- by split=> //; split.
- by split=> // i j _ _; apply: dl0.
- exact: curve_dsum.
- exact: curve_kron.
- exact: curve_scat.
by move=> n A A' B E [h1 h2 h3 h4]; split=> // [t||i j Hi Hj]; rewrite -?E //; apply: dl_ext (h4 i j Hi Hj) => // t; rewrite E.
Qed.
End Rep.

(** *** one-parameter groups *)
(** if X(t) B(t)^T = 1 and X(s+t) = X(s)X(t), the inverse transpose is a curve too *)
Lemma curve_dual n X Y B : curve n X Y -> (forall t, sqn n (B t)) ->
  (forall t s, meq (X (Rplus t s)) (fmul (X t) (X s))) ->
  (forall t, meq (fmul (X t) (ftr (B t))) (fid RR n) /\ meq (fmul (ftr (B t)) (X t)) (fid RR n)) ->
  curve n B (fopp (ftr Y)).
Proof.
move=> [h1 [h2 h2'] h3 h4] hB hM hI.
have E t : meq (ftr (X (Ropp t))) (B t).
  have [x1 x2] := h1 t; have [y1 y2] := h1 (Ropp t); have [b1 b2] := hB t; have [I1 I2] := hI t.
  have D : meq (fmul (X t) (X (Ropp t))) (fid RR n).
    by apply: meq_trans (meq_sym (hM _ _)) _; rewrite Rplus_opp_r.
  apply: (meq_trans (meq_ftr (B := ftr (B t)) _)); last by split.
  apply: meq_trans (meq_sym (fmul_id_l (n := n) _)) _ => //.
  apply: meq_trans (meq_fmul (meq_sym I2) (meq_refl _) _) _; rewrite /= ?y1 //.
  apply: meq_trans (meq_sym (fmul_assoc _ _ _)) _.
  by apply: meq_trans (meq_fmul (meq_refl _) D _) _; rewrite /= ?b1 ?x1 //; apply: fmul_id_r.
apply: (curve_meq E (meq_refl _)); split.
- by move=> t; have [y1 y2] := h1 (Ropp t); split.
- by split.
- by rewrite Ropp_0; apply: meq_trans (meq_ftr h3) (ftr_fid _ _).
move=> i j Hi Hj /=.
have d0 : derivable_pt_lim Ropp R0 (Ropp R1) by apply: dl_ext (derivable_pt_lim_opp _ _ _ (derivable_pt_lim_id R0)).
have d1 : derivable_pt_lim (fun t => fe (X t) j i) (Ropp R0) (fe Y j i) by rewrite Ropp_0; exact: h4.
apply: dl_ext (derivable_pt_lim_comp _ _ _ _ _ d0 d1) => //.
by rewrite Rmult_comm Ropp_mult_distr_l_reverse Rmult_1_l.
Qed.
