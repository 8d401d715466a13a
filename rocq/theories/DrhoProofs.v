(** * DrhoProofs: the matrix of drho is the first order part of the matrix of rho. *)
From mathcomp Require Import all_ssreflect all_algebra.
From mathcomp Require Import zify.
From Verif Require Import Np NpLemmas Spec SpecLemmas LinOp LinOpSpec LinOpProofs LinOpMM Rep RepMat RepWf RepProd RepAlg RepMul RepFun RepOps RhoProofs DualNum.
Set Implicit Arguments.
Unset Strict Implicit.
Unset Printing Implicit Defensive.
Import GRing.Theory.
Local Open Scope ring_scope.

Section Closed.
Variables (R1 R2 : comRingType).
Variable Q : nat -> fmat R1 -> fmat R2 -> Prop.
Hypothesis Q0 : Q 0 (fzero R1 0 0) (fzero R2 0 0).
Hypothesis Q1 : Q 1 (fid R1 1) (fzero R2 1 1).
Hypothesis Qsum : forall m n A A' B B', Q m A B -> Q n A' B' -> Q (m + n) (fdsum A A') (fdsum B B').
Hypothesis Qkron : forall m n A A' B B', (0 < m)%N -> (0 < n)%N -> Q m A B -> Q n A' B' ->
  Q (m * n) (fkron A A') (fkronsum B B').
Hypothesis Qscat : forall n p A B, is_perm n p -> Q n A B -> Q n (fscat p A) (fscat p B).

Variables (gdim : gid -> nat) (csize : nat -> gid -> nat) (le : rel rep) (gs : pred gid).
Local Notation sz := (rsize gdim csize).
Variables (a1 : rep -> fmat R1) (a2 : rep -> fmat R2).
Hypothesis Qatom : forall r, atomic gdim csize gs r -> Q (sz r) (a1 r) (a2 r).
Let QQ r := Q (sz r) (rmat a1 r) (dmat a2 r).

Lemma D_sum l : (forall r, r \in l -> QQ r) ->
  Q (sumn (map sz l)) (fdsuml (map (rmat a1) l)) (fdsuml (map (dmat a2) l)).
Proof.
elim: l => [|r l IH] //= H; apply: Qsum; first by apply: H; rewrite mem_head.
by apply: IH => x Hx; apply: H; rewrite inE Hx orbT.
Qed.

Lemma D_kron l : (forall r, r \in l -> QQ r /\ (0 < sz r)%N) ->
  (0 < prodn (map sz l))%N /\
  Q (prodn (map sz l)) (fkronl (map (rmat a1) l)) (fkronsuml (map (dmat a2) l)).
Proof.
elim: l => [|r l IH] //= H; have [Hr P] := H r (mem_head _ _).
have [|P' IH'] := IH; first by move=> x Hx; apply: H; rewrite inE Hx orbT.
by split; [rewrite muln_gt0 P | apply: Qkron].
Qed.

Lemma D_prodlike d p (P : pred rep) : all P (keys d) ->
  (forall k, P k -> QQ k /\ (0 < sz k)%N) -> is_perm (sz (RProd d p)) p ->
  Q (sz (RProd d p)) (fscat p (fkronl (map (rmat a1) (dexp d))))
    (fscat p (fkronsuml (map (dmat a2) (dexp d)))).
Proof.
move=> A H Pp; apply: Qscat => //.
have [|_] := @D_kron (dexp d).
  by move=> r /dexp_in Hr; apply: H; apply: (allP A).
by rewrite prodn_dexp.
Qed.

Lemma D_atomic r : atomic gdim csize gs r -> QQ r.
Proof. by move=> H; move: (Qatom H); rewrite /QQ; case: (r) H. Qed.

Lemma D_isprod r : isprod gdim csize le gs r -> QQ r.
Proof.
case: r => // d p /andP[/and3P[/and5P[_ A _ _ _] _ _] P]; rewrite /QQ /= dexp_rmat dexp_dmat.
apply: (D_prodlike A) P => k Hk; split; last exact: atomic_sz Hk.
exact: D_atomic.
Qed.

Lemma D_nonsum r : nonsum gdim csize le gs r -> QQ r.
Proof.
case/or4P=> [/eqP ->|/D_atomic|/D_isprod|] //.
case: r => // d p /andP[/and4P[/and5P[_ A _ _ _] _ _ _] P]; rewrite /QQ /= dexp_rmat dexp_dmat.
apply: (D_prodlike A) P => k Hk; split; last exact: dkey_sz Hk.
by case/orP: Hk => [/D_atomic|/andP[/D_isprod]].
Qed.

Theorem D_wfr r : wfr gdim csize le gs r -> QQ r.
Proof.
case/orP=> [/D_nonsum //|].
case: r => // d p /andP[/and5P[_ A _ _ _] P]; rewrite /QQ /= dexp_rmat dexp_dmat -sumn_dexp.
move: P; rewrite /= -sumn_dexp => P; apply: Qscat => //; apply: D_sum.
by move=> k /dexp_in Hk; have /andP[/D_nonsum] := allP A _ Hk.
Qed.
End Closed.

Section Eps.
Variables (R S : comRingType) (f : {rmorphism R -> S}).

(** 1 + e X *)
Definition feps (e : S) (X : fmat R) : fmat S :=
  FM (fr X) (fc X) (fun i j => (i == j)%:R + e * f (fe X i j)).

Lemma meq_feps e X Y : meq X Y -> meq (feps e X) (feps e Y).
Proof. by case=> h1 h2 h; split=> //= i j Hi Hj; rewrite h. Qed.

Lemma feps0 e n : meq (feps e (fzero R n n)) (fid S n).
Proof. by split=> //= i j _ _; rewrite rmorph0 mulr0 addr0. Qed.

Lemma feps_dsum e m n X Y : sqn m X -> sqn n Y ->
  meq (fdsum (feps e X) (feps e Y)) (feps e (fdsum X Y)).
Proof.
move=> [h1 h2] [k1 k2]; split=> //= i j; rewrite h1 h2 k1 k2 => Hi Hj.
case: (ltnP i m) => Him; case: (ltnP j m) => Hjm //.
- have -> : (i == j) = false by apply/eqP; lia.
  by rewrite rmorph0 mulr0 addr0.
- have -> : (i == j) = false by apply/eqP; lia.
  by rewrite rmorph0 mulr0 addr0.
congr (_%:R + _); congr nat_of_bool; apply/eqP/eqP; lia.
Qed.

Lemma feps_kron e m n X Y : e * e = 0 -> sqn m X -> sqn n Y -> (0 < n)%N ->
  meq (fkron (feps e X) (feps e Y)) (feps e (fkronsum X Y)).
Proof.
move=> E2 [h1 h2] [k1 k2] n0; split=> //= [|i j]; rewrite ?h1 ?h2 ?k1 ?k2 // => Hi Hj.
have E : (i == j) = (i %/ n == j %/ n)%N && (i %% n == j %% n)%N.
  apply/eqP/andP=> [-> //|[/eqP e1 /eqP e2]]; by rewrite (divn_eq i n) (divn_eq j n) e1 e2.
rewrite E -mulnb natrM mulrDl mulrDr -addrA; congr (_ + _).
rewrite !rmorphD !rmorphM /= !rmorph_nat mulrDr addrC; set a := _%:R; set b := _%:R.
rewrite mulrDr mulrACA E2 mul0r addr0 mulrA; congr (_ + _).
  by rewrite mulrA.
by rewrite mulrCA mulrA.
Qed.

Lemma feps_scat e n p X : is_perm n p -> sqn n X -> meq (fscat p (feps e X)) (feps e (fscat p X)).
Proof.
move=> P [h1 h2]; split=> //= i j Hi Hj; congr (_%:R + _); congr nat_of_bool.
have Si := is_perm_size P.
by apply/eqP/eqP=> [|-> //]; move/(congr1 (nth 0%N p)); rewrite !nth_index ?(is_perm_mem _ P) -?Si.
Qed.

Variables (gdim : gid -> nat) (csize : nat -> gid -> nat) (le : rel rep) (gs : pred gid).
Local Notation sz := (rsize gdim csize).

Theorem rmat_eps e (b : rep -> fmat S) (a : rep -> fmat R) r : e * e = 0 ->
  wfr gdim csize le gs r ->
  (forall k, atomic gdim csize gs k -> sqn (sz k) (a k) /\ meq (b k) (feps e (a k))) ->
  sqn (sz r) (dmat a r) /\ meq (rmat b r) (feps e (dmat a r)).
Proof.
move=> E2 W H.
pose Q n (A : fmat S) (B : fmat R) := sqn n B /\ meq A (feps e B).
apply: (@D_wfr S R Q) W; rewrite /Q /=.
- by split=> //; split.
- by split=> //; apply: meq_sym; apply: feps0.
- move=> m n A A' B B' [s1 H1] [s2 H2]; split.
    by case: s1 s2 => [h1 h2] [k1 k2]; split; rewrite /= ?h1 ?h2 ?k1 ?k2.
  exact: meq_trans (meq_fdsum H1 H2) (feps_dsum e s1 s2).
- move=> m n A A' B B' m0 n0 [s1 H1] [s2 H2]; split.
    by case: s1 s2 => [h1 h2] [k1 k2]; split; rewrite /= ?h1 ?h2 ?k1 ?k2.
  exact: meq_trans (meq_fkron H1 H2) (feps_kron E2 s1 s2 n0).
- move=> n p A B P [s1 H1]; have [h1 h2] := s1; split; first by split; rewrite /= (is_perm_size P).
  apply: meq_trans (feps_scat e P s1).
  by apply: meq_fscat => //; have [-> -> _] := H1; rewrite /= h1 ?h2.
exact: H.
Qed.
End Eps.
