(** * SolAlg: solution bases of families of linear constraints, and how they combine
    under permutations, direct sums and tensor products of different groups. *)
From mathcomp Require Import all_ssreflect all_algebra.
From mathcomp Require Import zify.
From Verif Require Import Np NpLemmas Spec SpecLemmas LinOp LinOpProofs LinOpMore Rep RepMat RepFun.
Set Implicit Arguments.
Unset Strict Implicit.
Unset Printing Implicit Defensive.
Import GRing.Theory.
Local Open Scope ring_scope.

Section Sol.
Variable R : comRingType.
Variable conj : R -> R.
Hypothesis conjM : forall x y, conj (x * y) = conj x * conj y.
Hypothesis conjD : forall x y, conj (x + y) = conj x + conj y.
Hypothesis conj0 : conj 0 = 0.
Hypothesis conj1 : conj 1 = 1.
Implicit Types A B C Q : fmat R.

(** matrix times vector *)
Definition mv A (v : nat -> R) (i : nat) : R := \sum_(0 <= j < fc A) fe A i j * v j.
(** conjugate transpose *)
Definition fH A : fmat R := ftr (fconj conj A).

Definition kills (X : Type) (c : X -> fmat R) (v : nat -> R) : Prop :=
  forall x i, (i < fr (c x))%N -> mv (c x) v i = 0.
Definition fixedby n A (v : nat -> R) : Prop := forall i, (i < n)%N -> mv A v i = v i.

(** the columns of Q are an orthonormal basis of the common null space of the c x *)
Definition sol (X : Type) n (c : X -> fmat R) Q : Prop :=
  [/\ fr Q = n, forall x, fc (c x) = n, meq (fmul (fH Q) Q) (fid R (fc Q)) &
      forall v, kills c v <-> fixedby n (fmul Q (fH Q)) v].

Lemma mv_eq A B (v w : nat -> R) i : meq A B -> (i < fr A)%N ->
  (forall j, (j < fc A)%N -> v j = w j) -> mv A v i = mv B w i.
Proof.
case=> h1 h2 h Hi Hv; rewrite /mv h2; apply: eq_sum => j Hj.
by rewrite h ?h2 // Hv ?h2.
Qed.
Lemma mv_ext A (v w : nat -> R) i : (forall j, (j < fc A)%N -> v j = w j) -> mv A v i = mv A w i.
Proof. by move=> Hv; apply: eq_sum => j Hj; rewrite Hv. Qed.

Lemma mv_mul A B v i : fc A = fr B -> mv (fmul A B) v i = mv A (mv B v) i.
Proof.
move=> E; rewrite /mv /=.
rewrite (eq_sum (g := fun k => \sum_(0 <= j < fc A) fe A i j * (fe B j k * v k))); last first.
  by move=> k _; rewrite big_distrl /=; apply: eq_bigr => j _; rewrite mulrA.
rewrite exchange_big /=; apply: eq_bigr => j _.
by rewrite big_distrr.
Qed.

Lemma meq_fH A B : meq A B -> meq (fH A) (fH B).
Proof. by case=> h1 h2 h; split=> //= i j Hi Hj; rewrite h. Qed.

Lemma meq_fixedby n A B v : meq A B -> fr A = n -> fixedby n A v <-> fixedby n B v.
Proof.
move=> M E; split=> H i Hi; first by rewrite -(mv_eq (v := v) M) ?E // H.
by rewrite (mv_eq M (w := v)) ?E // H.
Qed.

Lemma sol_ext X n (c c' : X -> fmat R) Q Q' : (forall x, meq (c x) (c' x)) -> meq Q Q' ->
  sol n c Q -> sol n c' Q'.
Proof.
move=> Hc HQ [h1 h2 h3 h4]; have [q1 q2 q3] := HQ.
split=> [|x||v]; first by rewrite -q1.
- by have [_ <- _] := Hc x.
- rewrite -q2; apply: meq_trans h3; apply: meq_sym; apply: meq_fmul => //; exact: meq_fH.
have -> : kills c' v <-> kills c v.
  split=> H x i Hi; have [e1 e2 e3] := Hc x.
    by rewrite (mv_eq (Hc x) (w := v)) // H -?e1.
  by rewrite -(mv_eq (Hc x) (v := v)) ?e1 // H ?e1.
rewrite h4; apply: meq_fixedby => //=; apply: meq_fmul => //; exact: meq_fH.
Qed.

(** *** permutations *)
Definition frowp p Q : fmat R := FM (size p) (fc Q) (fun i j => fe Q (index i p) j).

Lemma mv_fscat n p A v i : is_perm n p -> sqn n A -> (i < n)%N ->
  mv (fscat p A) v i = mv A (fun k => v (nth 0%N p k)) (index i p).
Proof.
move=> P [a1 a2] Hi; rewrite /mv /= a2 (is_perm_size P).
rewrite -(sum_index (fun k => fe A (index i p) k * v (nth 0%N p k)) P).
by apply: eq_sum => j Hj; rewrite nth_index // (is_perm_mem _ P).
Qed.

Lemma fscat_proj n p Q : is_perm n p -> fr Q = n ->
  meq (fmul (frowp p Q) (fH (frowp p Q))) (fscat p (fmul Q (fH Q))).
Proof. by move=> P E; split. Qed.

Lemma sol_scat X n p (c : X -> fmat R) Q : is_perm n p -> (forall x, sqn n (c x)) ->
  sol n c Q -> sol n (fun x => fscat p (c x)) (frowp p Q).
Proof.
move=> P Hc [h1 h2 h3 h4]; have Sp := is_perm_size P.
have In i : (i < n)%N -> (index i p < n)%N.
  by move=> Hi; rewrite -Sp index_mem (is_perm_mem _ P).
have Nn k : (k < n)%N -> (nth 0%N p k < n)%N.
  by move=> Hk; rewrite -(is_perm_mem _ P) mem_nth ?Sp.
have Ip k : (k < n)%N -> index (nth 0%N p k) p = k.
  by move=> Hk; rewrite index_uniq ?Sp ?(is_perm_uniq P).
have Ni i : (i < n)%N -> nth 0%N p (index i p) = i.
  by move=> Hi; rewrite nth_index ?(is_perm_mem _ P).
have sqP : sqn n (fmul Q (fH Q)) by split.
split=> //= [|v].
- apply: meq_trans h3; split=> //= i j Hi Hj.
  by rewrite Sp h1 (sum_index (fun k => conj (fe Q k i) * fe Q k j) P).
rewrite (meq_fixedby _ (fscat_proj P h1)) //=.
split=> H.
  have K : kills c (fun k => v (nth 0%N p k)).
    move=> x i Hi; have [e1 e2] := Hc x; move: Hi; rewrite e1 => Hi.
    have := H x (nth 0%N p i); rewrite /= Sp => /(_ (Nn _ Hi)).
    by rewrite (mv_fscat (n := n)) ?Nn // Ip.
  move=> i Hi; rewrite (mv_fscat v P sqP Hi).
  by rewrite (proj1 (h4 _) K) ?In // Ni.
have K : fixedby n (fmul Q (fH Q)) (fun k => v (nth 0%N p k)).
  move=> k Hk; have := H _ (Nn _ Hk); rewrite (mv_fscat v P sqP (Nn _ Hk)) Ip //.
move=> x i; rewrite /= Sp => Hi; have [e1 e2] := Hc x.
by rewrite (mv_fscat (n := n)) // (proj2 (h4 _) K) // e1 In.
Qed.

(** *** direct sums *)
Lemma mv_fdsum A B v i : mv (fdsum A B) v i =
  if (i < fr A)%N then mv A v i else mv B (fun j => v (fc A + j)%N) (i - fr A)%N.
Proof.
rewrite /mv /= sum_add; case: ifP => Hi.
  rewrite [X in _ + X]sum0 ?addr0; first by apply: eq_sum => j ->.
  by move=> j Hj; rewrite ltnNge leq_addr mul0r.
rewrite [X in X + _]sum0 ?add0r; last by move=> j ->; rewrite mul0r.
by apply: eq_sum => j Hj; rewrite ltnNge leq_addr /= addKn.
Qed.

Lemma fH_fdsum A B : meq (fH (fdsum A B)) (fdsum (fH A) (fH B)).
Proof.
split=> //= i j Hi Hj; case: (j < _)%N; case: (i < _)%N => //; by rewrite conj0.
Qed.

Lemma sol_dsum X m n (c d : X -> fmat R) Q P : (forall x, sqn m (c x)) -> (forall x, sqn n (d x)) ->
  sol m c Q -> sol n d P -> sol (m + n) (fun x => fdsum (c x) (d x)) (fdsum Q P).
Proof.
move=> Hc Hd [h1 h2 h3 h4] [k1 k2 k3 k4]; split=> /= [|x||v]; rewrite ?h1 ?k1 ?h2 ?k2 //.
- apply: meq_trans (meq_trans (meq_fdsum h3 k3) (fdsum_id _ _ _)).
  apply: meq_trans (fmul_fdsum _ _); rewrite //=.
  by apply: meq_fmul; [exact: fH_fdsum | exact: meq_refl | ].
have E : meq (fmul (fdsum Q P) (fH (fdsum Q P))) (fdsum (fmul Q (fH Q)) (fmul P (fH P))).
  apply: meq_trans (fmul_fdsum _ _) => //.
  by apply: meq_fmul => //; exact: fH_fdsum.
rewrite (meq_fixedby _ E) /= ?h1 ?k1 //.
split=> H.
  have K1 : kills c v.
    move=> x i; have [e1 e2] := Hc x; have [f1 f2] := Hd x; rewrite e1 => Hi.
    by have := H x i; rewrite mv_fdsum /= e1 f1 Hi; apply; rewrite ltn_addr.
  have K2 : kills d (fun j => v (m + j)%N).
    move=> x i; have [e1 e2] := Hc x; have [f1 f2] := Hd x; rewrite f1 => Hi.
    have := H x (m + i)%N; rewrite mv_fdsum /= e1 e2 f1 ltn_add2l => /(_ Hi).
    by rewrite ltnNge leq_addr /= addKn.
  move=> i Hi; rewrite mv_fdsum /= h1; case: ltnP => Hm; first exact: (proj1 (h4 _) K1).
  rewrite (proj1 (k4 _) K2) ?subnKC // ltn_subLR //.
have K1 : fixedby m (fmul Q (fH Q)) v.
  by move=> i Hi; have := H i; rewrite mv_fdsum /= h1 Hi; apply; rewrite ltn_addr.
have K2 : fixedby n (fmul P (fH P)) (fun j => v (m + j)%N).
  move=> i Hi; have := H (m + i)%N; rewrite ltn_add2l mv_fdsum /= h1 => /(_ Hi).
  by rewrite ltnNge leq_addr /= addKn.
move=> x i; have [e1 e2] := Hc x; have [f1 f2] := Hd x.
rewrite mv_fdsum /= e1 e2 f1 => Hi; case: ltnP => Hm; first by rewrite (proj2 (h4 _) K1) ?e1.
rewrite (proj2 (k4 _) K2) // f1 ltn_subLR //.
Qed.

Lemma sol_dnil X : sol 0 (fun _ : X => fzero R 0 0) (fzero R 0 0).
Proof. by split. Qed.

(** *** tensor products *)
Lemma mv_fkron1 A n v i : (0 < n)%N -> mv (fkron A (fid R n)) v i =
  mv A (fun k => v (k * n + i %% n)%N) (i %/ n)%N.
Proof.
move=> n0; rewrite /mv /= sum_mul; apply: eq_sum => k Hk.
rewrite (eq_sum (g := fun j => ((i %% n)%N == j)%:R * (fe A (i %/ n)%N k * v (k * n + j)%N))); last first.
  by move=> j Hj; rewrite idx_div // idx_mod // mulrAC mulrC.
by rewrite sum_delta // ltn_mod.
Qed.
Lemma mv_1fkron B m v i : (0 < fc B)%N -> (i %/ fr B < m)%N -> mv (fkron (fid R m) B) v i =
  mv B (fun k => v (i %/ fr B * fc B + k)%N) (i %% fr B)%N.
Proof.
move=> n0 Hi; rewrite /mv /= sum_mul.
rewrite (eq_sum (g := fun k => ((i %/ fr B)%N == k)%:R * \sum_(0 <= j < fc B) fe B (i %% fr B)%N j * v (k * fc B + j)%N)); last first.
  move=> k Hk; rewrite big_distrr /=; apply: eq_sum => j Hj.
  by rewrite idx_div // idx_mod // mulrA.
by rewrite sum_delta.
Qed.

Lemma idx_lt m n i j : (i < m)%N -> (j < n)%N -> (i * n + j < m * n)%N.
Proof.
move=> Hi Hj; apply: (@leq_trans (i.+1 * n)); first by rewrite mulSn addnC ltn_add2r.
by rewrite leq_mul2r Hi orbT.
Qed.
Lemma mod_lt m n i : (i < m * n)%N -> (i %% n < n)%N.
Proof. by move=> H; rewrite ltn_mod; case: n H => //; rewrite muln0. Qed.
Lemma div_lt m n i : (i < m * n)%N -> (i %/ n < m)%N.
Proof. by move=> H; rewrite ltn_divLR //; case: n H => //; rewrite muln0. Qed.

Lemma fixed_cols m n A v : (0 < n)%N -> sqn m A ->
  fixedby (m * n) (fkron A (fid R n)) v <->
  (forall j, (j < n)%N -> fixedby m A (fun k => v (k * n + j)%N)).
Proof.
move=> n0 [a1 a2]; split=> [H j Hj i Hi|H i Hi].
  by have := H _ (idx_lt Hi Hj); rewrite mv_fkron1 // idx_div // idx_mod.
by rewrite mv_fkron1 // H ?(mod_lt Hi) ?(div_lt Hi) // -divn_eq.
Qed.
Lemma fixed_rows m n A v : (0 < n)%N -> sqn n A ->
  fixedby (m * n) (fkron (fid R m) A) v <->
  (forall k, (k < m)%N -> fixedby n A (fun j => v (k * n + j)%N)).
Proof.
move=> n0 [a1 a2]; split=> [H k Hk j Hj|H i Hi].
  have := H _ (idx_lt Hk Hj); rewrite mv_1fkron ?a1 ?a2 ?idx_div // idx_mod //.
by rewrite mv_1fkron ?a1 ?a2 ?(div_lt Hi) // (H _ (div_lt Hi)) ?(mod_lt Hi) // -divn_eq.
Qed.

Lemma mv_add A B v i : fc A = fc B -> mv (fadd A B) v i = mv A v i + mv B v i.
Proof. by move=> E; rewrite /mv /= -E -big_split /=; apply: eq_bigr => j _; rewrite mulrDl. Qed.
Lemma mv_zero m n v i : mv (fzero R m n) v i = 0.
Proof. by apply: sum0 => j _ /=; rewrite mul0r. Qed.
Lemma mv0 A v i : (forall j, (j < fc A)%N -> v j = 0) -> mv A v i = 0.
Proof. by move=> H; apply: sum0 => j Hj; rewrite H // mulr0. Qed.

Lemma mv_kronsum m n A B v i : sqn m A -> sqn n B -> (0 < n)%N -> (i < m * n)%N ->
  mv (fkronsum A B) v i =
  mv A (fun k => v (k * n + i %% n)%N) (i %/ n)%N + mv B (fun j => v (i %/ n * n + j)%N) (i %% n)%N.
Proof.
move=> [a1 a2] [b1 b2] n0 Hi; rewrite mv_add /= ?a1 ?a2 ?b1 ?b2 // mv_fkron1 // mv_1fkron ?b1 ?b2 //.
exact: (div_lt Hi).
Qed.

Lemma fH_fkron A B : meq (fH (fkron A B)) (fkron (fH A) (fH B)).
Proof. by split=> //= i j Hi Hj; rewrite conjM. Qed.

Lemma proj_idem Q : meq (fmul (fH Q) Q) (fid R (fc Q)) ->
  meq (fmul (fmul Q (fH Q)) (fmul Q (fH Q))) (fmul Q (fH Q)).
Proof.
move=> H; apply: meq_trans (meq_sym (fmul_assoc _ _ _)) _; apply: meq_fmul => //.
apply: meq_trans (fmul_assoc _ _ _) _.
apply: meq_trans (meq_fmul H (meq_refl _) _) _ => //.
exact: fmul_id_l.
Qed.

Lemma sol_kron X m n (c d : X -> fmat R) Q P : (0 < n)%N ->
  (forall x, sqn m (c x)) -> (forall x, sqn n (d x)) ->
  (forall x, meq (c x) (fzero R m m) \/ meq (d x) (fzero R n n)) ->
  sol m c Q -> sol n d P -> sol (m * n) (fun x => fkronsum (c x) (d x)) (fkron Q P).
Proof.
move=> n0 Hc Hd Z [h1 h2 h3 h4] [k1 k2 k3 k4].
split=> /= [|x||v]; rewrite ?h1 ?k1 //.
- by have [_ ->] := Hc x; have [-> _] := Hd x.
- apply: meq_trans (meq_trans (meq_fkron h3 k3) (fkron_id _ _ _)).
  apply: meq_trans (fmul_fkron _ _); rewrite //=.
  by apply: meq_fmul; [exact: fH_fkron | exact: meq_refl | ].
set PQ := fmul Q (fH Q) in h4 *; set PP := fmul P (fH P) in k4 *.
have sQ : sqn m PQ by split.
have sP : sqn n PP by split.
have iQ : meq (fmul PQ PQ) PQ by apply: proj_idem.
have iP : meq (fmul PP PP) PP by apply: proj_idem.
have E : meq (fmul (fkron Q P) (fH (fkron Q P))) (fkron PQ PP).
  apply: meq_trans (fmul_fkron _ _) => //.
  by apply: meq_fmul => //; exact: fH_fkron.
rewrite (meq_fixedby _ E) /= ?h1 ?k1 // {E}; clearbody PQ PP.
have fixP : fixedby (m * n) (fkron PQ PP) v <->
    fixedby (m * n) (fkron PQ (fid R n)) v /\ fixedby (m * n) (fkron (fid R m) PP) v.
  have [q1 q2] := sQ; have [p1 p2] := sP.
  split=> [H|[H1 H2] i Hi]; last first.
    have E1 : meq (fkron PQ PP) (fmul (fkron PQ (fid R n)) (fkron (fid R m) PP)).
      apply: meq_sym; apply: meq_trans (fmul_fkron _ _) _; rewrite ?q2 ?p1 //.
      by apply: meq_fkron; [apply: fmul_id_r | apply: fmul_id_l].
    rewrite (mv_eq E1 (w := v)) /= ?q1 ?p1 // mv_mul /= ?q2 ?p1 //.
    rewrite (mv_ext (w := v)); first exact: H1.
    by move=> j; rewrite /= q2 => Hj; apply: H2.
  have comm A B : sqn m A -> sqn n B -> meq (fmul A PQ) PQ -> meq (fmul B PP) PP ->
     fixedby (m * n) (fkron A B) v.
    move=> [a1 a2] [b1 b2] EA EB i Hi.
    rewrite (mv_ext (w := mv (fkron PQ PP) v)); last by move=> j; rewrite /= a2 b2 => Hj; rewrite H.
    rewrite -mv_mul /= ?a2 ?b2 ?q1 ?p1 //.
    rewrite -[RHS]H // ; apply: mv_eq => //; last by rewrite /= a1 b1.
    apply: meq_trans (fmul_fkron _ _) _; rewrite ?a2 ?b2 ?q1 ?p1 //.
    exact: meq_fkron.
  by split; apply: comm => //; apply: fmul_id_l.
rewrite fixP (fixed_cols _ n0 sQ) (fixed_rows _ _ n0 sP).
have killP : kills (fun x => fkronsum (c x) (d x)) v <->
   (forall j, (j < n)%N -> kills c (fun k => v (k * n + j)%N)) /\
   (forall k, (k < m)%N -> kills d (fun j => v (k * n + j)%N)).
  have dec x i j : (i < m)%N -> (j < n)%N -> mv (fkronsum (c x) (d x)) v (i * n + j)%N =
      mv (c x) (fun k => v (k * n + j)%N) i + mv (d x) (fun k => v (i * n + k)%N) j.
    by move=> Hi Hj; rewrite (mv_kronsum v (Hc x) (Hd x) n0 (idx_lt Hi Hj)) idx_div // idx_mod.
  have or0 x i j : (i < m)%N -> (j < n)%N ->
      mv (c x) (fun k => v (k * n + j)%N) i = 0 \/ mv (d x) (fun k => v (i * n + k)%N) j = 0.
    move=> Hi Hj; case: (Z x) => Hz; [left|right].
      by rewrite (mv_eq Hz (w := fun k => v (k * n + j)%N)) ?mv_zero //; have [-> _] := Hc x.
    by rewrite (mv_eq Hz (w := fun k => v (i * n + k)%N)) ?mv_zero //; have [-> _] := Hd x.
  have szk x : fr (fkronsum (c x) (d x)) = (m * n)%N.
    by rewrite /=; have [-> _] := Hc x; have [-> _] := Hd x.
  split=> [H|[H1 H2] x i].
    have both x i j : (i < m)%N -> (j < n)%N ->
      mv (c x) (fun k => v (k * n + j)%N) i = 0 /\ mv (d x) (fun k => v (i * n + k)%N) j = 0.
      move=> Hi Hj; have := H x (i * n + j)%N; rewrite szk idx_lt // dec // => /(_ isT).
      by case: (or0 x i j Hi Hj) => ->; rewrite ?add0r ?addr0.
    split=> [j Hj x i|k Hk x j].
      by have [-> _] := Hc x => Hi; have [] := both x i j Hi Hj.
    by have [-> _] := Hd x => Hj; have [] := both x k j Hk Hj.
  rewrite szk => Hi; rewrite (divn_eq i n) dec ?(div_lt Hi) ?(mod_lt Hi) //.
  rewrite H1 ?(mod_lt Hi) // ?H2 ?addr0 ?(div_lt Hi) //.
    by have [-> _] := Hd x; rewrite (mod_lt Hi).
  by have [-> _] := Hc x; rewrite (div_lt Hi).
rewrite killP; split=> -[H1 H2]; split=> j Hj.
- exact/h4/H1.
- exact/k4/H2.
- exact/h4/H1.
exact/k4/H2.
Qed.

(** the trivial one-dimensional representation *)
Lemma sol_one X : sol 1 (fun _ : X => fzero R 1 1) (fid R 1).
Proof.
split=> // [|v].
  split=> //= i j; rewrite !ltnS !leqn0 => /eqP -> /eqP ->.
  by rewrite big_nat1 /= conj1 mulr1.
split=> [_ i|_ x i Hi]; last by rewrite mv_zero.
rewrite ltnS leqn0 => /eqP ->; rewrite /mv /= big_nat1 /= big_nat1 /= conj1 !mul1r //.
Qed.
End Sol.
