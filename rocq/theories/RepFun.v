(** * RepFun: relations preserved by the matrix of a representation. *)
From mathcomp Require Import all_ssreflect all_algebra.
From mathcomp Require Import zify.
From Verif Require Import Np NpLemmas Spec LinOp SpecLemmas LinOpInv Rep RepMat RepWf RepProd RepAlg.
Set Implicit Arguments.
Unset Strict Implicit.
Unset Printing Implicit Defensive.
Import GRing.Theory.
Local Open Scope ring_scope.

(** A relation between matrices of size n that contains (1,1,1) and is closed under
    block sums, Kronecker products and permutations of the coordinates holds of the
    matrices of r as soon as it holds of its atoms. *)
Section Closed.
Variables (R1 R2 R3 : comRingType).
Variable Q : nat -> fmat R1 -> fmat R2 -> fmat R3 -> Prop.
Hypothesis Q0 : Q 0 (fzero R1 0 0) (fzero R2 0 0) (fzero R3 0 0).
Hypothesis Q1 : Q 1 (fid R1 1) (fid R2 1) (fid R3 1).
Hypothesis Qsum : forall m n A A' B B' C C', Q m A B C -> Q n A' B' C' ->
  Q (m + n) (fdsum A A') (fdsum B B') (fdsum C C').
Hypothesis Qkron : forall m n A A' B B' C C', (0 < m)%N -> (0 < n)%N -> Q m A B C -> Q n A' B' C' ->
  Q (m * n) (fkron A A') (fkron B B') (fkron C C').
Hypothesis Qscat : forall n p A B C, is_perm n p -> Q n A B C -> Q n (fscat p A) (fscat p B) (fscat p C).

Variables (gdim : gid -> nat) (csize : nat -> gid -> nat) (le : rel rep) (gs : pred gid).
Local Notation sz := (rsize gdim csize).
Variables (a1 : rep -> fmat R1) (a2 : rep -> fmat R2) (a3 : rep -> fmat R3).
Hypothesis Qatom : forall r, atomic gdim csize gs r -> Q (sz r) (a1 r) (a2 r) (a3 r).
Let QQ r := Q (sz r) (rmat a1 r) (rmat a2 r) (rmat a3 r).

Lemma Q_dexp d (P : pred rep) : all P (keys d) -> (forall k, P k -> QQ k) -> forall r, r \in dexp d -> QQ r.
Proof.
move=> A H r /flattenP[s /mapP[x Hx ->] /nseqP[-> _]].
by apply: H; apply: (allP A); apply: map_f.
Qed.

Lemma Q_sum l : (forall r, r \in l -> QQ r) ->
  Q (sumn (map sz l)) (fdsuml (map (rmat a1) l)) (fdsuml (map (rmat a2) l)) (fdsuml (map (rmat a3) l)).
Proof.
elim: l => [|r l IH] //= H; apply: Qsum; first by apply: H; rewrite mem_head.
by apply: IH => x Hx; apply: H; rewrite inE Hx orbT.
Qed.

Lemma Q_kron l : (forall r, r \in l -> QQ r /\ (0 < sz r)%N) ->
  (0 < prodn (map sz l))%N /\
  Q (prodn (map sz l)) (fkronl (map (rmat a1) l)) (fkronl (map (rmat a2) l)) (fkronl (map (rmat a3) l)).
Proof.
elim: l => [|r l IH] //= H; have [Hr P] := H r (mem_head _ _).
have [|P' IH'] := IH; first by move=> x Hx; apply: H; rewrite inE Hx orbT.
by split; [rewrite muln_gt0 P | apply: Qkron].
Qed.

Lemma sumn_dexp d : sumn (map sz (dexp d)) = sumn [seq (sz x.1 * x.2)%N | x <- d].
Proof. by rewrite /dexp; elim: d => [|x d IH] //=; rewrite map_cat sumn_cat IH map_nseq sumn_nseq. Qed.

Lemma Q_prodlike d p (P : pred rep) : all P (keys d) ->
  (forall k, P k -> QQ k /\ (0 < sz k)%N) -> is_perm (sz (RProd d p)) p ->
  Q (sz (RProd d p)) (fscat p (fkronl (map (rmat a1) (dexp d))))
    (fscat p (fkronl (map (rmat a2) (dexp d)))) (fscat p (fkronl (map (rmat a3) (dexp d)))).
Proof.
move=> A H Pp; apply: Qscat => //.
have [|_] := @Q_kron (dexp d).
  move=> r /flattenP[s /mapP[x Hx ->] /nseqP[-> _]].
  by apply: H; apply: (allP A); apply: map_f.
by rewrite prodn_dexp.
Qed.

Lemma Q_isprod r : isprod gdim csize le gs r -> QQ r.
Proof.
case: r => // d p /andP[/and3P[/and5P[_ A _ _ _] _ _] P]; rewrite /QQ /= !dexp_rmat.
apply: (Q_prodlike A) P => k Hk; split; last exact: atomic_sz Hk.
by move: (Qatom Hk); rewrite /QQ; case: (k) Hk.
Qed.

Lemma Q_atomic r : atomic gdim csize gs r -> QQ r.
Proof. by move=> H; move: (Qatom H); rewrite /QQ; case: (r) H. Qed.

Lemma Q_nonsum r : nonsum gdim csize le gs r -> QQ r.
Proof.
case/or4P=> [/eqP ->|/Q_atomic|/Q_isprod|] //.
case: r => // d p /andP[/and4P[/and5P[_ A _ _ _] _ _ _] P]; rewrite /QQ /= !dexp_rmat.
apply: (Q_prodlike A) P => k Hk; split; last exact: dkey_sz Hk.
by case/orP: Hk => [/Q_atomic|/andP[/Q_isprod]].
Qed.

Theorem Q_wfr r : wfr gdim csize le gs r -> QQ r.
Proof.
case/orP=> [/Q_nonsum //|].
case: r => // d p /andP[/and5P[_ A _ _ _] P]; rewrite /QQ /= !dexp_rmat -sumn_dexp.
move: P; rewrite /= -sumn_dexp => P; apply: Qscat => //; apply: Q_sum.
by apply: (Q_dexp A) => k /andP[/Q_nonsum].
Qed.
End Closed.

Section Scat.
Variable R : comRingType.
Implicit Types A B : fmat R.

Lemma sum_index n (p : seq nat) (f : nat -> R) : is_perm n p ->
  \sum_(0 <= j < n) f (index j p) = \sum_(0 <= k < n) f k.
Proof.
move=> P; have S := is_perm_size P.
rewrite /index_iota subn0 -(perm_big _ P) /= -{1}[p](mkseq_nth 0%N) S.
rewrite big_map big_seq [RHS]big_seq; apply: eq_bigr => k; rewrite mem_iota add0n => /= Hk.
by rewrite index_uniq ?S // (is_perm_uniq P).
Qed.

Lemma fmul_fscat n p A B : is_perm n p -> fr A = n -> fc A = n -> fr B = n -> fc B = n ->
  meq (fmul (fscat p A) (fscat p B)) (fscat p (fmul A B)).
Proof.
move=> P a1 a2 b1 b2; split=> //= x y Hx Hy.
by rewrite a2 (is_perm_size P) (sum_index (fun k => fe A _ k * fe B k _) P).
Qed.

Lemma fscat_fid n p : is_perm n p -> meq (fscat p (fid R n)) (fid R n).
Proof.
move=> P; split=> /=; rewrite ?(is_perm_size P) // => x y Hx Hy; congr (_%:R).
congr nat_of_bool; apply/eqP/eqP=> [E|->] //.
have Mx : x \in p by rewrite (is_perm_mem _ P).
have My : y \in p by rewrite (is_perm_mem _ P).
by rewrite -(nth_index 0%N Mx) E nth_index.
Qed.

(** sizes, with [n] the common size *)
Definition sqn n A := fr A = n /\ fc A = n.
End Scat.

Section Uses.
Variable R : comRingType.
Variables (gdim : gid -> nat) (csize : nat -> gid -> nat) (le : rel rep) (gs : pred gid).
Local Notation sz := (rsize gdim csize).
Local Notation wfr := (wfr gdim csize le gs).
Local Notation atomic := (atomic gdim csize gs).
Implicit Types A B C : fmat R.

(** C = A B *)
Theorem rmat_mul (a1 a2 a3 : rep -> fmat R) r : wfr r ->
  (forall k, atomic k -> [/\ sqn (sz k) (a1 k), sqn (sz k) (a2 k) & meq (fmul (a1 k) (a2 k)) (a3 k)]) ->
  meq (fmul (rmat a1 r) (rmat a2 r)) (rmat a3 r).
Proof.
move=> W H.
pose Q n A B C := [/\ sqn n A, sqn n B & meq (fmul A B) C].
have : Q (sz r) (rmat a1 r) (rmat a2 r) (rmat a3 r); last by case.
apply: (@Q_wfr R R R Q) W => [||m n A A' B B' C C'|m n A A' B B' C C'|n p A B C|k Hk]; last exact: H.
- by split=> //; split.
- by split=> //; apply: fmul_id_l.
- move=> [[h1 h2] [h3 h4] h5] [[k1 k2] [k3 k4] k5]; split; try by rewrite /sqn /= ?h1 ?h2 ?h3 ?h4 ?k1 ?k2 ?k3 ?k4.
  apply: meq_trans (fmul_fdsum _ _) _; rewrite ?h2 ?h3 ?k2 ?k3 //; exact: meq_fdsum.
- move=> _ _ [[h1 h2] [h3 h4] h5] [[k1 k2] [k3 k4] k5]; split; try by rewrite /sqn /= ?h1 ?h2 ?h3 ?h4 ?k1 ?k2 ?k3 ?k4.
  apply: meq_trans (fmul_fkron _ _) _; rewrite ?h2 ?h3 ?k2 ?k3 //; exact: meq_fkron.
- move=> P [[h1 h2] [h3 h4] h5]; split; try by rewrite /sqn /= (is_perm_size P).
  apply: meq_trans (fmul_fscat P _ _ _ _) _ => //.
  by apply: meq_fscat => //=; rewrite ?h1 ?h4.
Qed.

(** B = 1 *)
Theorem rmat_id (a : rep -> fmat R) r : wfr r -> (forall k, atomic k -> meq (a k) (fid R (sz k))) ->
  meq (rmat a r) (fid R (sz r)).
Proof.
move=> W H.
pose Q n A (_ _ : fmat R) := meq A (fid R n).
suff : Q (sz r) (rmat a r) (rmat a r) (rmat a r) by [].
apply: (@Q_wfr R R R Q) W => [||m n A A' B B' C C'|m n A A' B B' C C'|n p A B C|k Hk]; last exact: H.
- by split.
- exact: meq_refl.
- by move=> HA HB; apply: meq_trans (meq_fdsum HA HB) (fdsum_id _ _ _).
- by move=> _ _ HA HB; apply: meq_trans (meq_fkron HA HB) (fkron_id _ _ _).
- move=> P HA; have [h1 h2 _] := HA.
  by apply: meq_trans (meq_fscat HA _ _) (fscat_fid _ P); rewrite ?h1 ?h2.
Qed.

(** B = A^T *)
Theorem rmat_tr (a1 a2 : rep -> fmat R) r : wfr r ->
  (forall k, atomic k -> sqn (sz k) (a1 k) /\ meq (ftr (a1 k)) (a2 k)) ->
  meq (ftr (rmat a1 r)) (rmat a2 r).
Proof.
move=> W H.
pose Q n A B (_ : fmat R) := sqn n A /\ meq (ftr A) B.
suff : Q (sz r) (rmat a1 r) (rmat a2 r) (rmat a2 r) by case.
apply: (@Q_wfr R R R Q) W => [||m n A A' B B' C C'|m n A A' B B' C C'|n p A B C|k Hk]; last exact: H.
- by split.
- by split=> //; apply: ftr_fid.
- move=> [[h1 h2] h] [[k1 k2] k]; split; first by rewrite /sqn /= h1 h2 k1 k2.
  exact: meq_trans (ftr_fdsum _ _) (meq_fdsum h k).
- move=> _ _ [[h1 h2] h] [[k1 k2] k]; split; first by rewrite /sqn /= h1 h2 k1 k2.
  exact: meq_trans (ftr_fkron _ _) (meq_fkron h k).
- move=> P [[h1 h2] h]; split; first by rewrite /sqn /= (is_perm_size P).
  have : meq (fscat p (ftr A)) (fscat p B) by apply: meq_fscat => //=; rewrite ?h1 ?h2.
  exact.
Qed.

(** B = A *)
Theorem rmat_meq (a1 a2 : rep -> fmat R) r : wfr r ->
  (forall k, atomic k -> sqn (sz k) (a1 k) /\ meq (a1 k) (a2 k)) ->
  meq (rmat a1 r) (rmat a2 r).
Proof.
move=> W H.
pose Q n A B (_ : fmat R) := sqn n A /\ meq A B.
suff : Q (sz r) (rmat a1 r) (rmat a2 r) (rmat a2 r) by case.
apply: (@Q_wfr R R R Q) W => [||m n A A' B B' C C'|m n A A' B B' C C'|n p A B C|k Hk]; last exact: H.
- by split.
- by split=> //; apply: meq_refl.
- move=> [[h1 h2] h] [[k1 k2] k]; split; first by rewrite /sqn /= h1 h2 k1 k2.
  exact: meq_fdsum.
- move=> _ _ [[h1 h2] h] [[k1 k2] k]; split; first by rewrite /sqn /= h1 h2 k1 k2.
  exact: meq_fkron.
- move=> P [[h1 h2] h]; split; first by rewrite /sqn /= (is_perm_size P).
  by apply: meq_fscat => //=; rewrite ?h1 ?h2.
Qed.

(** B = A^-T *)
Theorem rmat_invT (a1 a2 : rep -> fmat R) r : wfr r ->
  (forall k, atomic k -> invTn (sz k) (a1 k) (a2 k)) ->
  invTn (sz r) (rmat a1 r) (rmat a2 r).
Proof.
move=> W H.
pose Q n A B (_ : fmat R) := sqn n A /\ sqn n B.
have : Q (sz r) (rmat a1 r) (rmat a2 r) (rmat a2 r).
  apply: (@Q_wfr R R R Q) W => [||m n A A' B B' C C'|m n A A' B B' C C'|n p A B C|k Hk].
  - by [].
  - by [].
  - by move=> [[h1 h2] [h3 h4]] [[k1 k2] [k3 k4]]; rewrite /Q /sqn /= ?h1 ?h2 ?h3 ?h4 ?k1 ?k2 ?k3 ?k4.
  - by move=> _ _ [[h1 h2] [h3 h4]] [[k1 k2] [k3 k4]]; rewrite /Q /sqn /= ?h1 ?h2 ?h3 ?h4 ?k1 ?k2 ?k3 ?k4.
  - by move=> P _; rewrite /Q /sqn /= (is_perm_size P).
  - by have [[h1 h2 h3 h4] _] := H k Hk.
case=> [[h1 h2] [h3 h4]]; split=> //.
pose t k := ftr (a2 k).
have HT : meq (ftr (rmat a2 r)) (rmat t r).
  by apply: rmat_tr => // k /H[[? ? ? ?] _].
have [t1 t2 _] := HT; rewrite /= in t1 t2.
have I : meq (rmat (fun k => fid R (sz k)) r) (fid R (sz r)) by apply: rmat_id.
split; apply: meq_trans _ I.
  apply: meq_trans (meq_fmul (meq_refl _) HT _) _; first by rewrite /= h2 h4.
  apply: rmat_mul => // k /H[[k1 k2 k3 k4] [K1 K2]]; split=> //; by rewrite /sqn /= k3 k4.
apply: meq_trans (meq_fmul HT (meq_refl _) _) _; first by rewrite /= h1 h3.
apply: rmat_mul => // k /H[[k1 k2 k3 k4] [K1 K2]]; split=> //; by rewrite /sqn /= k3 k4.
Qed.

Theorem rmat_sqn (a : rep -> fmat R) r : wfr r -> (forall k, atomic k -> sqn (sz k) (a k)) ->
  sqn (sz r) (rmat a r).
Proof.
move=> W H; pose Q n A (_ _ : fmat R) := sqn n A.
suff : Q (sz r) (rmat a r) (rmat a r) (rmat a r) by [].
apply: (@Q_wfr R R R Q) W => [||m n A A' B B' C C'|m n A A' B B' C C'|n p A B C|k Hk]; last exact: H.
- by [].
- by [].
- by move=> [h1 h2] [k1 k2]; rewrite /Q /sqn /= ?h1 ?h2 ?k1 ?k2.
- by move=> _ _ [h1 h2] [k1 k2]; rewrite /Q /sqn /= ?h1 ?h2 ?k1 ?k2.
- by move=> P _; rewrite /Q /sqn /= (is_perm_size P).
Qed.
End Uses.
