(** * GroupsFlag: what the flags is_orthogonal and is_permutation, computed with an exact
    comparison, say about the generators. *)
From Coq Require Import String.
From mathcomp Require Import all_ssreflect all_algebra.
From mathcomp Require Import zify.
From Verif Require Import Np NpLemmas Spec SpecLemmas LinOp LinOpSpec LinOpMM LinOpMore LinOpInv MxBridge Rep RepMat RepWf RepFun RepSpec RhoProofs.
From Verif Require Import Groups GroupsSpec GroupsLoop GroupsInit GroupsCtor GroupsPerm GroupsThm.
Set Implicit Arguments.
Unset Strict Implicit.
Unset Printing Implicit Defensive.
Import GRing.Theory.
Local Open Scope ring_scope.

Section Flag.
Variables (R : comRingType) (conj : R -> R).
(** comparison without tolerance *)
Definition same (X Y : seq R) : bool := X == Y.

(** Group.__init__ backwards *)
Lemma init_inv close r (a : attrs R) G : group_init conj close r a = Ok G ->
  [/\ g_d G = init_d a, or_zeros (init_d a) (a_lie a) = Ok (g_lie G) & or_zeros (init_d a) (a_gens a) = Ok (g_gens G)].
Proof.
rewrite /group_init; case: or_zeros => //= lie; case: or_zeros => //= gens.
by case: (if a_perm a == _ then _ else _) => //= o; case: (if o && _ then _ else _) => //= p [<-].
Qed.
Lemma init_flags close r (a : attrs R) G d : group_init conj close r a = Ok G -> g_d G = Some d ->
  gok conj d (g_lie G) -> gok conj d (g_gens G) ->
  g_orth G = the_orth close d a (g_lie G) (g_gens G) /\ g_perm G = the_perm close d a (g_lie G) (g_gens G).
Proof.
move=> E Ed Hl Hg; have [E1 E2 E3] := init_inv E; rewrite E1 in Ed; rewrite Ed in E2 E3.
by move: E; rewrite (init_eq close r Ed E2 E3 Hl Hg) => -[<-].
Qed.

Lemma flatten_map_inj (T : Type) (k : nat) (f g : T -> seq R) l :
  (forall x, List.In x l -> size (f x) = k /\ size (g x) = k) -> flatten (map f l) = flatten (map g l) ->
  forall x, List.In x l -> f x = g x.
Proof.
elim: l => [|y l IH] //= H E x; have [h1 h2] := H y (or_introl erefl).
move: E => /eqP; rewrite eqseq_cat ?h1 ?h2 // => /andP[/eqP E1 /eqP E2] [<- //|].
by apply: IH E2 x => z Hz; apply: H; right.
Qed.
Lemma size_flat_gop d A : gop conj d A -> size (flat (den A)) = (d * d)%N.
Proof. by move=> /gop_sz[h1 h2]; rewrite size_flat h1 h2. Qed.
Lemma tr2_flat d A : fr A = d -> fc A = d -> tr2 0 d d (flat A) = flat (ftr A : fmat R).
Proof.
move=> h1 h2; apply: (@toM_inj R d d); rewrite ?size_tr2 ?size_flat /= ?h1 ?h2 //.
by rewrite toM_tr2 !toM_flat //= mxf_tr.
Qed.
Lemma matmul_flat d A B : fr A = d -> fc A = d -> fr B = d -> fc B = d ->
  LinOp.matmul d d d (flat A) (flat B) = flat (fmul A B : fmat R).
Proof.
move=> h1 h2 k1 k2; apply: (@toM_inj R d d); rewrite ?size_matmul ?size_flat /= ?h1 ?k2 //.
by rewrite toM_matmul !toM_flat //= (mxf_mul _ _ _ h2).
Qed.
Lemma opp_flat (A : fmat R) : map -%R (flat A) = flat (fopp A).
Proof. by rewrite /flat -map_comp. Qed.
Lemma flat_injd d (A B : fmat R) : fr A = d -> fc A = d -> fr B = d -> fc B = d -> flat A = flat B -> meq A B.
Proof. by move=> h1 h2 k1 k2 E; apply: flat_inj; rewrite ?h1 ?h2 ?k1 ?k2. Qed.

Lemma glen0 (x : garr R) : glen x = 0%N -> gitems x = [::].
Proof. by case: x => [a|[|? ?]] //= ->. Qed.
Lemma same_mapP (T : Type) (k : nat) (f g : T -> seq R) l :
  (forall x, List.In x l -> size (f x) = k /\ size (g x) = k) ->
  same (flatten (map f l)) (flatten (map g l)) <-> forall x, List.In x l -> f x = g x.
Proof.
move=> H; split=> [/eqP|E]; first exact: flatten_map_inj H.
apply/eqP; congr flatten; elim: l E {H} => //= x l IH E; rewrite E; last by left.
by rewrite IH // => y Hy; apply: E; right.
Qed.
Lemma lie_flagP d x : gok conj d x -> lie_flag same d x <-> forall A, List.In A (gitems x) -> skew (den A).
Proof.
move=> H; rewrite /lie_flag; case: eqP => [/glen0 ->|_] /=; first by split.
have E A : List.In A (gitems x) -> map -%R (tr2 0 d d (flat (den A))) = flat (fopp (ftr (den A))).
  by move=> /H /gop_sz[h1 h2]; rewrite tr2_flat // opp_flat.
rewrite (same_mapP (k := (d * d)%N)); last first.
  move=> A HA; have [k1 k2] := gop_sz (H A HA); by rewrite E // !size_flat /= k1 k2.
split=> F A HA; have [h1 h2] := gop_sz (H A HA); have := F A HA; rewrite E // => Q.
  have [q1 q2 q3] := @flat_injd d (fopp (ftr (den A))) (den A) h2 h1 h1 h2 Q.
  split=> /=; rewrite ?h1 ?h2 // => i j Hi Hj.
  by have := q3 i j; rewrite /= h1 h2 => /(_ Hi Hj) <-; rewrite opprK.
have [q1 q2 q3] := Q; apply: flat_meq; split=> /=; rewrite ?h1 ?h2 // => i j Hi Hj.
by have := q3 i j; rewrite /= h1 h2 => /(_ Hi Hj) ->; rewrite opprK.
Qed.
Lemma gen_flagP d x : gok conj d x ->
  gen_flag same d x <-> forall A, List.In A (gitems x) -> meq (fmul (ftr (den A)) (den A)) (fid R d).
Proof.
move=> H; rewrite /gen_flag; case: eqP => [/glen0 ->|_] /=; first by split.
have E A : List.In A (gitems x) -> LinOp.matmul d d d (tr2 0 d d (flat (den A))) (flat (den A)) = flat (fmul (ftr (den A)) (den A)).
  by move=> /H /gop_sz[h1 h2]; rewrite tr2_flat // matmul_flat.
rewrite (same_mapP (k := (d * d)%N)); last first.
  move=> A HA; have [k1 k2] := gop_sz (H A HA); by rewrite E // size_flat size_mkseq /= k2.
split=> F A HA; have [h1 h2] := gop_sz (H A HA); have := F A HA; rewrite E // eye_flat => Q; last exact: flat_meq.
by apply: flat_injd Q.
Qed.

(** square matrices *)
Lemma one_sided d (A B : fmat R) : fr A = d -> fc A = d -> fr B = d -> fc B = d ->
  meq (fmul A B) (fid R d) -> meq (fmul B A) (fid R d).
Proof.
move=> a1 a2 b1 b2 H.
have := mxf_meq H a1 b2; rewrite mxf_id (mxf_mul _ _ _ a2) => /mulmx1C E.
have S1 : fr (fmul B A) = d by []. have S2 : fc (fmul B A) = d by [].
by apply: meq_mxf; rewrite ?S1 ?S2 // (mxf_mul _ _ _ b2) E mxf_id.
Qed.

(** is_orthogonal *)
Definition orthm (d : nat) (X : fmat R) : Prop :=
  [/\ fr X = d, fc X = d, meq (fmul X (ftr X)) (fid R d) & meq (fmul (ftr X) X) (fid R d)].
Theorem orth_flag r (a : attrs R) G d : group_init conj same r a = Ok G -> g_d G = Some d ->
  gok conj d (g_lie G) -> gok conj d (g_gens G) -> a_orth a = None -> a_perm a = None ->
  g_orth G <-> (forall A, List.In A (lmats G) -> skew A) /\ (forall h, List.In h (gmats G) -> orthm d h).
Proof.
move=> E Ed Hl Hg Ho Hp; have [-> _] := init_flags E Ed Hl Hg; rewrite /the_orth Ho Hp /=.
split=> [/andP[/(lie_flagP Hl) F1 /(gen_flagP Hg) F2]|[F1 F2]].
  split=> [A /List.in_map_iff[B [<- HB]]|h /List.in_map_iff[B [<- HB]]]; first exact: F1.
  have [h1 h2] := gop_sz (Hg B HB); split=> //; last exact: F2.
  by apply: one_sided (F2 B HB).
apply/andP; split; [apply/(lie_flagP Hl) | apply/(gen_flagP Hg)] => A HA.
  by apply: F1; apply: List.in_map.
by have [] := F2 (den A) (List.in_map _ _ _ HA).
Qed.

(** a matrix with orthonormal rows, one entry 1 in every row, over a ring in which a sum of
    squares vanishes only if all terms do *)
Definition formally_real : Prop :=
  forall n (f : nat -> R), \sum_(0 <= i < n) f i * f i = 0 -> forall i, (i < n)%N -> f i = 0.
Lemma one_row d (X : fmat R) i : fr X = d -> fc X = d -> (i < d)%N ->
  srows d i i.+1 (flat X) = mkseq (fe X i) d.
Proof.
move=> h1 h2 Hi; rewrite /srows /slice mulSnr addnC addnK.
have L : (i * d + d <= size (flat X))%N by rewrite size_flat h1 h2 -mulSnr leq_mul2r Hi orbT.
apply: (@eq_from_nth _ 0).
  rewrite [RHS]size_mkseq size_take size_drop; move: (size (flat X)) (i * d)%N L => s t L; clear -L; case: ltnP => // HH; lia.
move=> j; rewrite size_take size_drop => Hj.
have {}Hj : (j < d)%N by clear -Hj; move: Hj; move: (size _ - _)%N => s; case: (ltnP d s) => // HH Hj; exact: leq_trans Hj HH.
by rewrite nth_take // nth_drop [RHS]nth_mkseq // -[in (i * d)%N]h2 nth_flat ?h1 ?h2.
Qed.
Lemma isperm_orth d (X : fmat R) : formally_real -> orthm d X ->
  (forall i, (i < d)%N -> (0 < count (pred1 1%R) (mkseq (fe X i) d))%N) -> isperm d X.
Proof.
move=> FR [h1 h2 O1 O2] H1.
have ex i : (i < d)%N -> exists j, (j < d)%N && (fe X i j == 1).
  move=> /H1; rewrite -has_count => /hasP[x /mapP[j]]; rewrite mem_iota add0n => /= Hj -> /= E; by exists j; rewrite Hj.
pose f i := if (i < d)%N =P true is ReflectT Hi then xchoose (ex i Hi) else 0%N.
have fP i : (i < d)%N -> (f i < d)%N /\ fe X i (f i) = 1.
  by move=> Hi; rewrite /f; case: eqP => // Hi'; have /andP[? /eqP ?] := xchooseP (ex i Hi').
have row i j : (i < d)%N -> (j < d)%N -> fe X i j = (f i == j)%:R.
  move=> Hi Hj; have [Hf Ef] := fP i Hi; have [_ _ Q] := O1.
  have := Q i i; rewrite /= h1 h2 eqxx => /(_ Hi Hi) S.
  have Z : \sum_(0 <= l < d) (if l == f i then 0 else fe X i l) * (if l == f i then 0 else fe X i l) = 0.
    have D : \sum_(0 <= l < d) (if l == f i then fe X i l * fe X i l else 0) = 1.
      by rewrite (sum_only Hf) ?eqxx ?Ef ?mulr1 // => l _ /negbTE ->.
    rewrite -[RHS](subrr (1 : R)) -{1}[1](S : _ = 1) -D -sumrB; apply: eq_bigr => l _.
    by case: eqP => _; rewrite ?mulr0 ?subrr ?subr0.
  case: eqP => [<-|ne]; first by rewrite Ef.
  by have := FR _ _ Z j Hj; case: eqP ne => // ->.
have inj i i' : (i < d)%N -> (i' < d)%N -> f i = f i' -> i = i'.
  move=> Hi Hi' E; have [_ _ Q] := O1; have := Q i i'; rewrite /= h1 h2 => /(_ Hi Hi').
  have [Hf _] := fP i Hi; rewrite (sum_only Hf); last first.
    by move=> l Hl ne; rewrite row // eq_sym (negbTE ne) mul0r.
  rewrite !row // -E eqxx mulr1; by case: eqP => // _ /eqP; rewrite oner_eq0.
have Pp : is_perm d (mkseq f d).
  apply: is_permP; first by rewrite size_mkseq.
    by rewrite /mkseq map_inj_in_uniq ?iota_uniq // => i j; rewrite !mem_iota !add0n /=; exact: inj.
  by apply/allP => x /mapP[i]; rewrite mem_iota add0n => /= Hi ->; have [] := fP i Hi.
apply/isperm_mat; exists (mkseq f d) => //.
by split=> //= i j; rewrite h1 h2 => Hi Hj; rewrite nth_mkseq // row.
Qed.
Theorem perm_flag r (a : attrs R) G d : formally_real -> group_init conj same r a = Ok G -> g_d G = Some d ->
  gok conj d (g_lie G) -> gok conj d (g_gens G) -> a_orth a = None -> a_perm a = None -> g_perm G ->
  lmats G = [::] /\ forall h, List.In h (gmats G) -> isperm d h.
Proof.
move=> FR E Ed Hl Hg Ho Hp; have [EO EP] := init_flags E Ed Hl Hg; rewrite EP /the_perm Hp -EO andbT /=.
case: (boolP (g_orth G)) => // /(orth_flag E Ed Hl Hg Ho Hp)[_ F] /andP[/eqP /glen0 L HO].
split; first by rewrite /lmats L.
move=> h /List.in_map_iff[A [<- HA]]; have := F _ (List.in_map _ _ _ HA) => OA.
have [h1 h2 _ _] := OA; apply: isperm_orth => // i Hi; move: HO; rewrite /one_flag.
have -> : (glen (g_gens G) == 0%N) = false by apply/eqP => /glen0 Z; move: HA; rewrite Z.
elim: (gitems (g_gens G)) HA => //= B l IH [->|HA] /andP[H H']; last exact: IH.
have := allP H i; rewrite mem_iota add0n one_row // => /(_ Hi) /eqP ->; by [].
Qed.
End Flag.
