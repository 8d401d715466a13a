(** * SpecLemmas: algebra of [fmat] matrices. *)
From mathcomp Require Import all_ssreflect all_algebra.
From mathcomp Require Import zify.
From Verif Require Import Np NpLemmas Spec LinOp.
Set Implicit Arguments.
Unset Strict Implicit.
Unset Printing Implicit Defensive.
Import GRing.Theory.
Local Open Scope ring_scope.

Section Sums.
Variable R : ringType.

Lemma rsumE n (f : nat -> R) : rsum n f = \sum_(0 <= j < n) f j.
Proof.
rewrite /rsum /index_iota subn0.
by elim: (iota 0 n) => [|x s IH] /=; rewrite ?big_nil // big_cons IH.
Qed.

Lemma sum_mul m n (f : nat -> R) :
  \sum_(0 <= t < m * n) f t = \sum_(0 <= i < m) \sum_(0 <= j < n) f (i * n + j)%N.
Proof.
elim: m => [|m IH]; first by rewrite mul0n !big_geq.
rewrite big_nat_recr //= -IH mulSn addnC.
rewrite (@big_cat_nat _ _ _ (m * n)) //= ?leq_addr //; congr (_ + _).
rewrite -{1}[(m * n)%N]add0n big_addn addKn.
by apply: eq_bigr => j _; rewrite addnC.
Qed.

Lemma sum_add m n (f : nat -> R) :
  \sum_(0 <= t < m + n) f t = \sum_(0 <= i < m) f i + \sum_(0 <= j < n) f (m + j)%N.
Proof.
rewrite (@big_cat_nat _ _ _ m) //= ?leq_addr //; congr (_ + _).
rewrite -{1}[m]add0n big_addn addKn.
by apply: eq_bigr => j _; rewrite addnC.
Qed.

Lemma sum_only n (f : nat -> R) i : (i < n)%N ->
  (forall j, (j < n)%N -> j != i -> f j = 0) -> \sum_(0 <= j < n) f j = f i.
Proof.
move=> H Hf; rewrite big_mkord (bigD1 (Ordinal H)) //= big1 ?addr0 // => j Hj.
by apply: Hf.
Qed.

Lemma sum0 n (f : nat -> R) :
  (forall j, (j < n)%N -> f j = 0) -> \sum_(0 <= j < n) f j = 0.
Proof. by move=> H; rewrite big_nat big1 // => j Hj; apply: H. Qed.

Lemma sum_delta n (f : nat -> R) i : (i < n)%N ->
  \sum_(0 <= j < n) (i == j)%:R * f j = f i.
Proof.
move=> H; rewrite (sum_only H) ?eqxx ?mul1r // => j _ Hj.
by rewrite eq_sym (negbTE Hj) mul0r.
Qed.

Lemma sum_delta' n (f : nat -> R) i : (i < n)%N ->
  \sum_(0 <= j < n) f j * (j == i)%:R = f i.
Proof.
move=> H; rewrite (sum_only H) ?eqxx ?mulr1 // => j _ Hj.
by rewrite (negbTE Hj) mulr0.
Qed.

Lemma eq_sum n (f g : nat -> R) : (forall j, (j < n)%N -> f j = g j) ->
  \sum_(0 <= j < n) f j = \sum_(0 <= j < n) g j.
Proof. by move=> H; apply: eq_big_nat => j /andP[_ Hj]; apply: H. Qed.
End Sums.

Section Meq.
Variable R : ringType.
Implicit Types A B C D : fmat R.

Lemma meq_refl A : meq A A. Proof. by split. Qed.
Lemma meq_sym A B : meq A B -> meq B A.
Proof. by case=> h1 h2 h; split=> // i j Hi Hj; rewrite h ?h1 ?h2. Qed.
Lemma meq_trans A B C : meq A B -> meq B C -> meq A C.
Proof.
case=> h1 h2 h [k1 k2 k]; split; rewrite ?h1 ?h2 //.
by move=> i j Hi Hj; rewrite h ?h1 ?h2 // k.
Qed.

Lemma meq_fmul A B C D : meq A B -> meq C D -> fc A = fr C -> meq (fmul A C) (fmul B D).
Proof.
case=> h1 h2 h [k1 k2 k] E; split=> //= i j Hi Hj.
rewrite h2; apply: eq_sum => t Ht; rewrite h ?k ?h2 //; first by rewrite -E h2.
Qed.

Lemma meq_ftr A B : meq A B -> meq (ftr A) (ftr B).
Proof. by case=> h1 h2 h; split=> //= i j Hi Hj; rewrite h. Qed.

Lemma meq_fkron A B C D : meq A B -> meq C D -> meq (fkron A C) (fkron B D).
Proof.
case=> h1 h2 h [k1 k2 k]; split=> /=; rewrite ?h1 ?h2 ?k1 ?k2 // => i j Hi Hj.
have [r0 c0] : (0 < fr D)%N /\ (0 < fc D)%N by split; nia.
rewrite h ?k ?h1 ?h2 ?k1 ?k2 ?ltn_mod ?ltn_divLR //.
Qed.

Lemma meq_fdsum A B C D : meq A B -> meq C D -> meq (fdsum A C) (fdsum B D).
Proof.
case=> h1 h2 h [k1 k2 k]; split=> /=; rewrite ?h1 ?h2 ?k1 ?k2 // => i j Hi Hj.
case: ltnP => Hi'; case: ltnP => Hj' //; first by rewrite h ?h1 ?h2.
by rewrite k ?k1 ?k2 //; lia.
Qed.

Lemma meq_fadd A B C D : meq A B -> meq C D -> fr A = fr C -> fc A = fc C ->
  meq (fadd A C) (fadd B D).
Proof.
case=> h1 h2 h [k1 k2 k] E1 E2; split=> //= i j Hi Hj.
by rewrite h // k // -?E1 -?E2.
Qed.

Lemma flat_meq A B : meq A B -> flat A = flat B.
Proof.
case=> h1 h2 h; rewrite /flat h1 h2; apply: (@eq_from_nth _ 0); rewrite !size_mkseq // => t Ht.
have c0 : (0 < fc B)%N by case: (fc B) Ht => //; rewrite muln0.
by rewrite !nth_mkseq // h ?h1 ?h2 ?ltn_mod ?ltn_divLR.
Qed.

Lemma size_flat A : size (flat A) = (fr A * fc A)%N. Proof. exact: size_mkseq. Qed.

Lemma nth_flat A i j : (i < fr A)%N -> (j < fc A)%N ->
  nth 0 (flat A) (i * fc A + j)%N = fe A i j.
Proof. by move=> Hi Hj; rewrite nth_mkseq ?idx_lt // idx_div // idx_mod. Qed.

Lemma unflat_flat A : meq (unflat (fr A) (fc A) (flat A)) A.
Proof. by split=> //= i j Hi Hj; rewrite nth_flat. Qed.

Lemma flat_unflat m n (X : seq R) : size X = (m * n)%N -> flat (unflat m n X) = X.
Proof.
move=> S; apply: (@mat_ext _ 0 m n) => //; first by rewrite size_flat.
by move=> i k Hi Hk; rewrite (@nth_flat (unflat m n X)).
Qed.

Lemma flat_inj A B : fr A = fr B -> fc A = fc B -> flat A = flat B -> meq A B.
Proof.
move=> E1 E2 E; split=> // i j Hi Hj.
by rewrite -(nth_flat Hi Hj) E E2 nth_flat // -?E1 -?E2.
Qed.

Lemma fmul_id_l A n : n = fr A -> meq (fmul (fid R n) A) A.
Proof. by move=> ->; split=> //= i j Hi Hj; rewrite sum_delta. Qed.

Lemma fmul_id_r A n : n = fc A -> meq (fmul A (fid R n)) A.
Proof. by move=> ->; split=> //= i j Hi Hj; rewrite sum_delta'. Qed.

Lemma fmul_assoc A B C : meq (fmul A (fmul B C)) (fmul (fmul A B) C).
Proof.
split=> //= i k Hi Hk.
under eq_bigr do rewrite big_distrr /=.
rewrite exchange_big /=; apply: eq_bigr => j _.
by rewrite big_distrl /=; apply: eq_bigr => t _; rewrite mulrA.
Qed.

Lemma fmul_sel_l m n s A i k : fe (fmul (fsel R m n s) A) i k =
  if (s i < n)%N then fe A (s i) k else 0.
Proof.
rewrite /=; case: ltnP => H; first by rewrite sum_delta.
by rewrite sum0 // => j Hj; case: eqP => [E|_]; rewrite ?mul0r //; lia.
Qed.

Lemma ftr_fid n : meq (ftr (fid R n)) (fid R n).
Proof. by split=> //= i j _ _; rewrite eq_sym. Qed.

Lemma fr_fpow A p : fr (fpow A p) = fr A. Proof. by case: p. Qed.
Lemma fc_fpow A p : fr A = fc A -> fc (fpow A p) = fc A.
Proof. by elim: p => //= p IH E; rewrite IH. Qed.
End Meq.

Section Com.
Variable R : comRingType.
Implicit Types A B C D : fmat R.

Lemma ftr_fmul A B : fc A = fr B -> meq (ftr (fmul A B)) (fmul (ftr B) (ftr A)).
Proof. by move=> E; split=> //= i j Hi Hj; rewrite E; apply: eq_bigr => t _; rewrite mulrC. Qed.

Lemma fmul_fkron A B C D : fc A = fr C -> fc B = fr D ->
  meq (fmul (fkron A B) (fkron C D)) (fkron (fmul A C) (fmul B D)).
Proof.
move=> E1 E2; split=> //= i k Hi Hk; rewrite sum_mul /=.
rewrite big_distrl /=; apply: eq_sum => a Ha.
rewrite big_distrr /=; apply: eq_sum => b Hb.
rewrite -E2 idx_div // idx_mod //.
by rewrite !mulrA; congr (_ * _); rewrite -!mulrA; congr (_ * _); rewrite mulrC.
Qed.

Lemma fkron_id m n : meq (fkron (fid R m) (fid R n)) (fid R (m * n)).
Proof.
split=> //= i j Hi Hj; rewrite -natrM mulnb; congr (nat_of_bool _)%:R.
apply/andP/eqP => [[/eqP E1 /eqP E2]|->] //.
by rewrite (divn_eq i n) (divn_eq j n) E1 E2.
Qed.

Lemma ftr_fkron A B : meq (ftr (fkron A B)) (fkron (ftr A) (ftr B)).
Proof. by split. Qed.

Lemma fkron_1_l A : meq (fkron (fid R 1) A) A.
Proof.
split=> /=; rewrite ?mul1n // => i j Hi Hj.
by rewrite !divn_small // !modn_small // eqxx mul1r.
Qed.

Lemma fkron_1_r A : meq (fkron A (fid R 1)) A.
Proof.
split=> /=; rewrite ?muln1 // => i j Hi Hj.
by rewrite !divn1 !modn1 eqxx mulr1.
Qed.

Lemma fkron_assoc A B C : meq (fkron A (fkron B C)) (fkron (fkron A B) C).
Proof.
split=> /=; rewrite ?mulnA // => i j Hi Hj.
rewrite !mulrA -!divnMA !modn_divl !modn_dvdm ?dvdn_mull //.
by rewrite ![(fr C * fr B)%N]mulnC ![(fc C * fc B)%N]mulnC.
Qed.

Lemma fdsum_assoc A B C : meq (fdsum A (fdsum B C)) (fdsum (fdsum A B) C).
Proof.
split=> /=; rewrite ?addnA // => i j Hi Hj.
rewrite !subnDA.
by case: (ltnP i (fr A)) => H1; case: (ltnP j (fc A)) => H2;
   case: (ltnP i (fr A + fr B)) => H3; case: (ltnP j (fc A + fc B)) => H4 //=;
   try lia; case: (ltnP (i - fr A) (fr B)) => H5; case: (ltnP (j - fc A) (fc B)) => H6 //; lia.
Qed.

Lemma fmul_fdsum A B C D : fc A = fr C -> fc B = fr D ->
  meq (fmul (fdsum A B) (fdsum C D)) (fdsum (fmul A C) (fmul B D)).
Proof.
move=> E1 E2; split=> //= i k Hi Hk; rewrite sum_add.
have F t : (fc A + t < fc A)%N = false by lia.
under eq_big_nat => t /andP[_ Ht] do rewrite -E1 Ht.
under [X in _ + X]eq_bigr => t _ do rewrite -E1 F addKn.
case: ltnP => Hi'; case: ltnP => Hk'.
- rewrite [X in _ + X]sum0 ?addr0 // => t _; exact: mul0r.
- by rewrite !sum0 ?addr0 // => t _; rewrite ?mul0r ?mulr0.
- by rewrite !sum0 ?addr0 // => t _; rewrite ?mul0r ?mulr0.
- rewrite sum0 ?add0r // => t _; exact: mul0r.
Qed.

Lemma fdsum_id m n : meq (fdsum (fid R m) (fid R n)) (fid R (m + n)).
Proof.
split=> //= i j Hi Hj; case: ltnP => Hi'; case: ltnP => Hj' //.
- by case: eqP => // ?; lia.
- by case: eqP => // ?; lia.
- by congr (nat_of_bool _)%:R; apply/eqP/eqP; lia.
Qed.

Lemma ftr_fdsum A B : meq (ftr (fdsum A B)) (fdsum (ftr A) (ftr B)).
Proof. by split=> //= i j _ _; case: ltnP; case: ltnP. Qed.
End Com.
