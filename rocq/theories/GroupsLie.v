(** * GroupsLie: the Lie algebra arrays are bases. *)
From mathcomp Require Import all_ssreflect all_algebra.
From mathcomp Require Import zify.
From Verif Require Import Np Spec SpecLemmas LinOp LinOpSpec Groups GroupsSpec GroupsLoop.
Set Implicit Arguments.
Unset Strict Implicit.
Unset Printing Implicit Defensive.
Import GRing.Theory.
Local Open Scope ring_scope.

(** *** bases from dual functionals *)
Section Dual.
Variables (K R : comRingType) (emb : K -> R) (T : eqType).
Variables (n : nat) (P : fmat R -> Prop) (ps : seq T) (f : T -> nat -> nat -> R) (phi : T -> (nat -> nat -> R) -> K).
Variables (As : seq (fmat R)) (t0 : T).
Local Notation F t := (FM n n (f t)).
Hypothesis Ups : uniq ps.
Hypothesis Sz : size As = size ps.
Hypothesis HA : forall k, (k < size ps)%N -> meq (nth (fzero R 0 0) As k) (F (nth t0 ps k)).
Hypothesis emb0 : emb 0 = 0.
Hypothesis phi_ext : forall t g h, t \in ps -> (forall i j, (i < n)%N -> (j < n)%N -> g i j = h i j) -> phi t g = phi t h.
Hypothesis phi_sub : forall t g h, phi t (fun i j => g i j - h i j) = phi t g - phi t h.
Hypothesis phi_lin : forall t m (c : nat -> K) (g : nat -> nat -> nat -> R),
  phi t (fun i j => \sum_(0 <= k < m) emb (c k) * g k i j) = \sum_(0 <= k < m) c k * phi t (g k).
Hypothesis phi_dual : forall t t', t \in ps -> t' \in ps -> phi t (f t') = (t == t')%:R.
Hypothesis Pm : forall X Y, meq X Y -> fr X = n -> fc X = n -> P X -> P Y.
Hypothesis Pl : forall c X Y, fr X = n -> fc X = n -> fr Y = n -> fc Y = n -> P X -> P Y ->
  P (FM n n (fun i j => fe X i j - emb c * fe Y i j)).
Hypothesis PF : forall t, t \in ps -> P (F t).
Hypothesis P0 : forall X, fr X = n -> fc X = n -> P X -> (forall t, t \in ps -> phi t (fe X) = 0) ->
  forall i j, (i < n)%N -> (j < n)%N -> fe X i j = 0.

Lemma phi_comb c k : (k < size ps)%N -> phi (nth t0 ps k) (fe (lincomb emb n c As)) = c k.
Proof.
move=> Hk; have Mk : nth t0 ps k \in ps by exact: mem_nth.
rewrite (phi_ext (h := fun i j => \sum_(0 <= l < size ps) emb (c l) * f (nth t0 ps l) i j)) //.
  rewrite phi_lin (eq_sum (g := fun l => (k == l)%:R * c l)); last first.
    by move=> l Hl; rewrite phi_dual ?mem_nth // nth_uniq // mulrC.
  by rewrite sum_delta.
move=> i j Hi Hj /=; rewrite Sz; apply: eq_sum => l Hl.
by have [e1 e2 ->] := HA Hl; rewrite ?e1 ?e2.
Qed.
Lemma dual_basis : is_basis emb n P As.
Proof.
split.
- move=> A /(List.In_nth _ _ (fzero R 0 0)) [k [/ltP Hk <-]].
  have E : List.nth k As (fzero R 0 0) = nth (fzero R 0 0) As k.
    by elim: (As) k {Hk} => [|a l IH] [|k] //=.
  rewrite E; move: Hk; rewrite -[length As]/(size As) Sz => Hk; have M := HA Hk.
  have [e1 e2 _] := M; split=> //; apply: (Pm (X := F (nth t0 ps k))) => //; first exact: meq_sym.
  by apply: PF; apply: mem_nth.
- move=> c H k; rewrite Sz => Hk; rewrite -(phi_comb c Hk).
  rewrite (phi_ext (h := fun i j => 0 - 0)) ?mem_nth //; last first.
    by move=> i j Hi Hj; have [_ _ ->] := H; rewrite //= subrr.
  by rewrite phi_sub subrr.
move=> X X1 X2 PX; pose c k := phi (nth t0 ps k) (fe X); exists c.
pose Y m := FM n n (fun i j => fe X i j - \sum_(0 <= k < m) emb (c k) * f (nth t0 ps k) i j).
have PY m : (m <= size ps)%N -> P (Y m).
  elim: m => [|m IH] Hm.
    by apply: (Pm (X := X)) => //; split=> //= i j _ _; rewrite big_geq // subr0.
  apply: (Pm (X := FM n n (fun i j => fe (Y m) i j - emb (c m) * fe (F (nth t0 ps m)) i j))) => //.
    by split=> //= i j _ _; rewrite big_nat_recr //= opprD addrA.
  by apply: Pl => //; [apply: IH; apply: ltnW | apply: PF; apply: mem_nth].
have Z : forall i j, (i < n)%N -> (j < n)%N -> fe (Y (size ps)) i j = 0.
  apply: P0 => //; first exact: PY.
  move=> t Ht /=; rewrite phi_sub phi_lin.
  rewrite (eq_sum (g := fun l => (index t ps == l)%:R * c l)).
    by rewrite sum_delta ?index_mem // /c nth_index // subrr.
  move=> l Hl; rewrite phi_dual ?mem_nth // mulrC; congr (_%:R * _).
  by rewrite -{1}(nth_index t0 Ht) nth_uniq // index_mem.
split=> //= i j; rewrite X1 X2 => Hi Hj; have /eqP := Z i j Hi Hj; rewrite /= subr_eq0 => /eqP ->.
by rewrite Sz; apply: eq_sum => l Hl; have [e1 e2 ->] // := HA Hl; rewrite ?e1 ?e2.
Qed.
End Dual.

(** *** tags of the elements: kind, row, column *)
Definition tag : Type := (nat * nat * nat)%type.
Lemma uniq_ij (g : nat -> nat -> seq tag) (l : nat -> seq nat) (m : seq nat) :
  uniq m -> (forall i, uniq (l i)) -> (forall i j, uniq (g i j)) -> (forall i j t, t \in g i j -> t.1.2 = i /\ t.2 = j) ->
  uniq (flatten [seq flatten [seq g i j | j <- l i] | i <- m]).
Proof.
move=> Um Ul Ug G; apply: (uniq_flat (key := fun t : tag => t.1.2)) => // [i _|i t _ /flatten_mapP[j _ Ht]].
  by apply: (uniq_flat (key := fun t : tag => t.2)) => // j t _ /G[].
by case: (G _ _ _ Ht).
Qed.
Lemma mem_ij (g : nat -> nat -> seq tag) (l : nat -> seq nat) (m : seq nat) (t : tag) :
  (forall i j t, t \in g i j -> t.1.2 = i /\ t.2 = j) ->
  (t \in flatten [seq flatten [seq g i j | j <- l i] | i <- m]) =
  [&& t.1.2 \in m, t.2 \in l t.1.2 & t \in g t.1.2 t.2].
Proof.
move=> G; apply/flatten_mapP/and3P => [[i Hi /flatten_mapP[j Hj Ht]]|[H1 H2 H3]].
  by have [-> ->] := G _ _ _ Ht.
by exists t.1.2 => //; apply/flatten_mapP; exists t.2.
Qed.
Lemma flat2 (U : Type) (f : tag -> U) (g : nat -> nat -> seq tag) (l : nat -> seq nat) (m : seq nat) :
  flatten [seq flatten [seq map f (g i j) | j <- l i] | i <- m] =
  map f (flatten [seq flatten [seq g i j | j <- l i] | i <- m]).
Proof. by rewrite -flat_map_map; congr flatten; apply: eq_map => i; rewrite flat_map_map. Qed.

(** *** counting *)
Definition tri (m : nat) : nat := ((m * (m - 1)) %/ 2)%N.
Lemma triS m : tri m.+1 = (tri m + m)%N.
Proof.
rewrite /tri; case: m => [|m] //; rewrite !subSS !subn0 addnC -divnMDl //; congr (_ %/ 2)%N.
by rewrite !mulSn !mulnS mulnC; lia.
Qed.
Lemma iotaS0 m : iota 0 m.+1 = rcons (iota 0 m) m.
Proof. by rewrite -addn1 iotaD cats1. Qed.
Lemma size_flat_rcons (U : Type) (g : nat -> seq U) m :
  size (flatten (map g (iota 0 m.+1))) = (size (flatten (map g (iota 0 m))) + size (g m))%N.
Proof. by rewrite iotaS0 map_rcons -cats1 flatten_cat size_cat /= cats0. Qed.
Lemma size_flat_const (U : Type) (V : Type) (g : V -> seq U) c (l : seq V) :
  (forall x, size (g x) = c) -> size (flatten (map g l)) = (size l * c)%N.
Proof. by move=> H; elim: l => [|x l IH] //=; rewrite size_cat H IH mulSn. Qed.
Lemma size_tri (U : Type) (g : nat -> nat -> seq U) c m : (forall i j, size (g i j) = c) ->
  size (flatten [seq flatten [seq g i j | j <- iota 0 i] | i <- iota 0 m]) = (tri m * c)%N.
Proof.
move=> H; elim: m => [|m IH] //; rewrite size_flat_rcons IH triS mulnDl; congr (_ + _)%N.
by rewrite (size_flat_const (c := c)) // size_iota.
Qed.

Section Real.
Variable R : comRingType.
Local Notation fn := (nat -> nat -> R).
Definition goodk (D n : nat) (s : nd R * nat) (fs : seq fn) : Prop := filled D n s.1 fs f0 /\ s.2 = size fs.
Definition ent (t : tag) (g : fn) : R := g t.1.2 t.2.

(** the matrices of the elements of an array *)
Definition mats (a : nd R) : seq (fmat R) := map (@den R) (gitems (GArr a)).
Lemma mats_filled D n a (ps : seq tag) (f : tag -> fn) : filled D n a (map f ps) f0 -> size ps = D ->
  size (mats a) = size ps /\
  forall k, (k < size ps)%N -> meq (nth (fzero R 0 0) (mats a) k) (FM n n (f (nth (0%N, 0%N, 0%N) ps k))).
Proof.
move=> H Sz; have [|S1 H1] := items_filled H; first by rewrite size_map.
rewrite /mats size_map S1 Sz; split=> // k Hk; have [B E [_ M]] := H1 k Hk.
rewrite (nth_map (OI R 0)) ?S1 // E /=; apply: meq_trans M _.
by rewrite (nth_map (0%N, 0%N, 0%N)) ?Sz.
Qed.

Lemma for2 D n (g : nat -> nat -> seq tag) (f : tag -> fn) (l : nat -> seq nat) (m : seq nat) body s fs :
  (forall i j s fs, i \in m -> j \in l i -> goodk D n s fs -> (size fs + size (g i j) <= D)%N ->
     exists2 s', body s i j = Ok s' & goodk D n s' (fs ++ map f (g i j))) ->
  goodk D n s fs ->
  let ps := flatten [seq flatten [seq g i j | j <- l i] | i <- m] in
  (size fs + size ps <= D)%N ->
  exists2 s', for_ m s (fun s i => for_ (l i) s (fun s j => body s i j)) = Ok s' & goodk D n s' (fs ++ map f ps).
Proof.
move=> H G ps Hs; have := @for_fill _ _ _ (goodk D n) D m (fun i => flatten [seq map f (g i j) | j <- l i])
  (fun s i => for_ (l i) s (fun s j => body s i j)) s fs.
rewrite flat2; apply => // [i s2 fs2 Hi G' Hs'|]; last by rewrite size_map.
apply: (for_fill (D := D) (good := goodk D n) (F := fun j => map f (g i j))) => // j s1 fs1 Hj G1.
by rewrite size_map; apply: H.
Qed.

(** *** SO *)
Definition so_tags (n : nat) : seq tag := flatten [seq flatten [seq [:: (0, i, j)%N] | j <- iota 0 i] | i <- iota 0 n].
Definition so_f (t : tag) : fn := upd (upd f0 t.1.2 t.2 1) t.2 t.1.2 (-1).
Lemma so_mem n t : (t \in so_tags n) = [&& t.1.1 == 0, t.2 < t.1.2 & t.1.2 < n]%N.
Proof.
rewrite mem_ij; last by move=> i j t'; rewrite inE => /eqP ->.
rewrite !mem_iota !add0n /= inE; case: t => [[k i] j] /=; rewrite !xpair_eqE !eqxx !andbT.
by case: (k == 0%N); rewrite ?andbF ?andbT //= andbC.
Qed.
Lemma so_uniq n : uniq (so_tags n).
Proof.
apply: uniq_ij; [exact: iota_uniq | by move=> i; exact: iota_uniq | by [] |].
by move=> i j t; rewrite inE => /eqP ->.
Qed.
Lemma so_size n : size (so_tags n) = tri n.
Proof. by rewrite /so_tags (size_tri (c := 1)) ?muln1. Qed.
Lemma so_filled n : exists2 a, so_lie R n = Ok a & filled (tri n) n a (map so_f (so_tags n)) f0.
Proof.
have [||| [a k] E [/= G _]] := @for2 (tri n) n (fun i j => [:: (0, i, j)%N]) so_f (fun i => iota 0 i) (iota 0 n)
  (fun (s : nd R * nat) i j => let: (a, k) := s in
      do a <- put a [:: k; i; j] 1; do a <- put a [:: k; j; i] (-1); Ok (a, k.+1))
  (zeros R [:: tri n; n; n], 0%N) [::].
- move=> i j [a k] fs; rewrite !mem_iota !add0n /= => Hi Hj [/= G ->]; rewrite addn1 => Hs.
  have Hj' : (j < n)%N := ltn_trans Hj Hi.
  have [a1 -> G1] := filled_put 1 G Hs Hi Hj'; have [a2 E2 G2] := filled_put (-1) G1 Hs Hj' Hi.
  rewrite /= E2 /=; eexists; first by []; split=> /=; last by rewrite size_cat addn1.
  by rewrite cats1; apply: filled_next; apply: filled_ext G2.
- by split=> //; exact: filled_zeros.
- by rewrite add0n -/(so_tags n) so_size.
by exists a => //; rewrite /so_lie -/(tri n) E.
Qed.

(** 2x = 0 only for x = 0 *)
Definition char2 : Prop := forall x : R, x + x = 0 -> x = 0.
Lemma skew_lin n (c : R) (X Y : fmat R) : fr X = n -> fc X = n -> fr Y = n -> fc Y = n -> skew X -> skew Y ->
  skew (FM n n (fun i j => fe X i j - c * fe Y i j)).
Proof.
move=> x1 x2 y1 y2 [_ _ HX] [_ _ HY]; split=> //= i j Hi Hj.
have := HX i j; have := HY i j; rewrite /= x1 x2 y1 y2 => -> // -> //.
by rewrite mulrN !opprD.
Qed.
Lemma skew_meq n (X Y : fmat R) : meq X Y -> fr X = n -> fc X = n -> skew X -> skew Y.
Proof.
move=> M x1 x2 H; have [e1 e2 _] := M; apply: meq_trans (meq_trans H _); first exact: meq_sym (meq_ftr M).
by have [f1 f2 f3] := M; split=> //= i j Hi Hj; rewrite f3.
Qed.
Lemma so_dual n t t' : t \in so_tags n -> t' \in so_tags n -> ent t (so_f t') = (t == t')%:R.
Proof.
rewrite !so_mem; case: t t' => [[k i] j] [[k' i'] j'] /= /and3P[/eqP -> Hj Hi] /and3P[/eqP -> Hj' Hi'].
rewrite /ent /so_f /upd /= !xpair_eqE eqxx /=.
case: (i =P j') => [E|_] /=; last by case: ifP.
case: (j =P i') => [E'|_] /=; last by case: ifP.
by move: Hj'; rewrite -E -E' ltnNge (ltnW Hj).
Qed.
Theorem so_basis n : char2 ->
  exists2 a, so_lie R n = Ok a & [/\ dims a = [:: tri n; n; n], size (mats a) = tri n & is_basis id n (@skew R) (mats a)].
Proof.
move=> C2; have [a E G] := so_filled n; exists a => //; have [Ed _ _] := G.
have [S1 HA] := mats_filled G (so_size n).
split=> //; first by rewrite S1 so_size.
apply: (dual_basis (f := so_f) (phi := ent) (so_uniq n) S1 HA) => //.
- by move=> t g h; rewrite so_mem => /and3P[_ H1 H2] H; rewrite /ent H // (ltn_trans H1).
- exact: so_dual.
- exact: skew_meq.
- exact: skew_lin.
- move=> [[k i] j]; rewrite so_mem => /and3P[_ /= H1 H2]; split=> //= a' b' Ha Hb; rewrite /so_f /upd /=.
  rewrite [(b' == j) && _]andbC [(b' == i) && _]andbC.
  case: (boolP ((a' == i) && (b' == j))) => [/andP[/eqP -> /eqP ->]|_]; last by case: ifP; rewrite /f0 ?opprK ?oppr0.
  by case: eqP => //= E0; move: H1; rewrite E0 ltnn.
move=> X x1 x2 [_ _ HX] Hz i j Hi Hj.
have L a' b' : (b' < a')%N -> (a' < n)%N -> fe X a' b' = 0 by move=> H1 H2; apply: (Hz (0%N, a', b')); rewrite so_mem /= H1.
have := HX i j; rewrite /= x1 x2 => /(_ Hi Hj); case: (ltngtP i j) => [Hij|Hij|<-].
- by rewrite (L j i) // => /eqP; rewrite eq_sym oppr_eq0 => /eqP.
- by rewrite (L i j).
by move=> Es; apply: C2; rewrite {1}Es addNr.
Qed.

(** *** GL *)
Definition gl_tags (n : nat) : seq tag := flatten [seq flatten [seq [:: (0, i, j)%N] | j <- iota 0 n] | i <- iota 0 n].
Definition gl_f (t : tag) : fn := upd f0 t.1.2 t.2 1.
Lemma gl_mem n t : (t \in gl_tags n) = [&& t.1.1 == 0, t.1.2 < n & t.2 < n]%N.
Proof.
rewrite mem_ij; last by move=> i j t'; rewrite inE => /eqP ->.
rewrite !mem_iota !add0n /= inE; case: t => [[k i] j] /=; rewrite !xpair_eqE !eqxx !andbT.
by case: (k == 0%N); rewrite ?andbF ?andbT.
Qed.
Lemma gl_uniq n : uniq (gl_tags n).
Proof.
apply: uniq_ij; [exact: iota_uniq | by move=> i; exact: iota_uniq | by [] |].
by move=> i j t; rewrite inE => /eqP ->.
Qed.
Lemma gl_size n : size (gl_tags n) = (n * n)%N.
Proof.
rewrite /gl_tags (size_flat_const (c := n)) ?size_iota // => i.
by rewrite (size_flat_const (c := 1%N)) ?size_iota ?muln1.
Qed.
Lemma gl_filled n : exists2 a, gl_lie R n = Ok a & filled (n * n) n a (map gl_f (gl_tags n)) f0.
Proof.
have [||| [a k] E [/= G _]] := @for2 (n * n) n (fun i j => [:: (0, i, j)%N]) gl_f (fun i => iota 0 n) (iota 0 n)
  (fun (s : nd R * nat) i j => let: (a, k) := s in do a <- put a [:: k; i; j] 1; Ok (a, k.+1))
  (zeros R [:: n * n; n; n]%N, 0%N) [::].
- move=> i j [a k] fs; rewrite !mem_iota !add0n /= => Hi Hj [/= G ->]; rewrite addn1 => Hs.
  have [a1 -> G1] := filled_put 1 G Hs Hi Hj.
  rewrite /=; eexists; first by []; split=> /=; last by rewrite size_cat addn1.
  by rewrite cats1; apply: filled_next; apply: filled_ext G1.
- by split=> //; exact: filled_zeros.
- by rewrite add0n -/(gl_tags n) gl_size.
by exists a => //; rewrite /gl_lie E.
Qed.
Theorem gl_basis n :
  exists2 a, gl_lie R n = Ok a & [/\ dims a = [:: n * n; n; n]%N, size (mats a) = (n * n)%N & is_basis id n (fun _ : fmat R => True) (mats a)].
Proof.
have [a E G] := gl_filled n; exists a => //; have [Ed _ _] := G.
have [S1 HA] := mats_filled G (gl_size n).
split=> //; first by rewrite S1 gl_size.
apply: (dual_basis (f := gl_f) (phi := ent) (gl_uniq n) S1 HA) => //.
- by move=> t g h; rewrite gl_mem => /and3P[_ H1 H2] H; rewrite /ent H.
- move=> [[k i] j] [[k' i'] j']; rewrite !gl_mem /ent /gl_f /upd /= !xpair_eqE.
  by move=> /and3P[/eqP -> _ _] /and3P[/eqP -> _ _] /=; case: ifP.
by move=> X x1 x2 _ Hz i j Hi Hj; apply: (Hz (0%N, i, j)); rewrite gl_mem /= Hi Hj.
Qed.

(** *** SL *)
Definition sl_g (i j : nat) : seq tag := if i == j then [::] else [:: (0, i, j)%N].
Definition sl_tags (n : nat) : seq tag :=
  flatten [seq flatten [seq sl_g i j | j <- iota 0 n] | i <- iota 0 n] ++ [seq (1, l, l)%N | l <- iota 0 n.-1].
Definition sl_f (n : nat) (t : tag) : fn :=
  if t.1.1 == 0%N then upd f0 t.1.2 t.2 1 else upd (upd f0 t.1.2 t.2 1) n.-1 n.-1 (-1).
Lemma sl_g_mem i j t : t \in sl_g i j -> t.1.2 = i /\ t.2 = j.
Proof. by rewrite /sl_g; case: ifP => // _; rewrite inE => /eqP ->. Qed.
Lemma sl_mem n t : (t \in sl_tags n) =
  [&& t.1.1 == 0, t.1.2 < n, t.2 < n & t.1.2 != t.2]%N || [&& t.1.1 == 1, t.1.2 < n.-1 & t.1.2 == t.2]%N.
Proof.
rewrite mem_cat mem_ij; last exact: sl_g_mem.
rewrite !mem_iota !add0n /= /sl_g; case: t => [[k i] j] /=; congr orb.
  by case: eqP; rewrite ?andbF // inE !xpair_eqE !eqxx !andbT; case: (k == 0%N); rewrite ?andbF ?andbT.
apply/mapP/and3P => [[l]|[/eqP -> H /eqP <-]]; last by exists i; rewrite // mem_iota.
by rewrite mem_iota /= add0n => Hl [-> -> ->].
Qed.
Lemma sl_uniq n : uniq (sl_tags n).
Proof.
rewrite /sl_tags cat_uniq; apply/and3P; split.
- apply: uniq_ij; [exact: iota_uniq | by move=> i; exact: iota_uniq | by move=> i j; rewrite /sl_g; case: ifP | exact: sl_g_mem].
- apply/hasP => -[t /mapP[l _ ->]]; rewrite inE mem_ij; last exact: sl_g_mem.
  by rewrite /sl_g eqxx /= !andbF.
by rewrite map_inj_uniq ?iota_uniq // => x y [].
Qed.
Lemma size_row n i : (i < n)%N -> size (flatten [seq sl_g i j | j <- iota 0 n]) = n.-1.
Proof.
move=> Hi; have -> : size (flatten [seq sl_g i j | j <- iota 0 n]) = count (predC (pred1 i)) (iota 0 n).
  by elim: (iota 0 n) => [|x l IH] //=; rewrite size_cat IH /sl_g [x == i]eq_sym; case: eqP.
have := count_predC (pred1 i) (iota 0 n); rewrite size_iota count_uniq_mem ?iota_uniq // mem_iota Hi /= add1n => H.
by rewrite -[in RHS]H.
Qed.
Lemma size_flat_const_in (U : Type) (V : eqType) (g : V -> seq U) c (l : seq V) :
  (forall x, x \in l -> size (g x) = c) -> size (flatten (map g l)) = (size l * c)%N.
Proof.
elim: l => [|x l IH] //= H; rewrite size_cat H ?mem_head // IH ?mulSn // => y Hy.
by apply: H; rewrite in_cons Hy orbT.
Qed.
Lemma sl_size1 n : size (flatten [seq flatten [seq sl_g i j | j <- iota 0 n] | i <- iota 0 n]) = (n * n.-1)%N.
Proof. by rewrite (size_flat_const_in (c := n.-1)) ?size_iota // => i; rewrite mem_iota; apply: size_row. Qed.
Lemma sl_size n : (0 < n)%N -> size (sl_tags n) = (n * n - 1)%N.
Proof. by case: n => // n _; rewrite size_cat sl_size1 size_map size_iota /=; lia. Qed.
Lemma sl_filled n : (0 < n)%N -> exists2 a, sl_lie R n = Ok a & filled (n * n - 1) n a (map (sl_f n) (sl_tags n)) f0.
Proof.
move=> n0; have Sz := sl_size n0; move: (Sz); rewrite {1}/sl_tags size_cat size_map size_iota => Sz'.
have [||| s E G] := @for2 (n * n - 1) n sl_g (sl_f n) (fun i => iota 0 n) (iota 0 n)
  (fun (s : nd R * nat) i j => let: (a, k) := s in if i == j then Ok (a, k) else do a <- put a [:: k; i; j] 1; Ok (a, k.+1))
  (zeros R [:: n * n - 1; n; n]%N, 0%N) [::].
- move=> i j [a k] fs; rewrite !mem_iota !add0n /= => Hi Hj [/= G ->]; rewrite /sl_g; case: (i =P j) => Eij /=.
    by rewrite cats0 => _; exists (a, size fs).
  rewrite addn1 => Hs; have [a1 -> G1] := filled_put 1 G Hs Hi Hj.
  rewrite /=; eexists; first by []; split=> /=; last by rewrite size_cat addn1.
  by rewrite cats1; apply: filled_next; apply: filled_ext G1.
- by split=> //; exact: filled_zeros.
- by rewrite add0n sl_size1 -Sz' sl_size1 leq_addr.
have [||[a k] E2 [/= G2 _]] := @for_fill _ _ _ (goodk (n * n - 1) n) (n * n - 1)%N (iota 0 n.-1)
  (fun l => [:: sl_f n (1, l, l)%N])
  (fun (s : nd R * nat) l => let: (a, k) := s in
    do a <- put a [:: k; l; l] 1; do a <- put a [:: k; n.-1; n.-1] (-1); Ok (a, k.+1)) s _ _ G.
- move=> l [a k] fs; rewrite mem_iota add0n /= => Hl [/= G1 ->]; rewrite addn1 => Hs.
  have Hl' : (l < n)%N by apply: leq_trans Hl (leq_pred n).
  have Hn : (n.-1 < n)%N by rewrite prednK.
  have [a1 -> G2] := filled_put 1 G1 Hs Hl' Hl'; have [a2 E2 G3] := filled_put (-1) G2 Hs Hn Hn.
  rewrite /= E2 /=; eexists; first by []; split=> /=; last by rewrite size_cat addn1.
  by rewrite cats1; apply: filled_next; apply: filled_ext G3.
- rewrite size_map sl_size1 (size_flat_const (c := 1%N)) // size_iota muln1 -Sz' sl_size1 //.
exists a; first by rewrite /sl_lie eqn0Ngt n0 /= E /= E2.
have E3 : flatten [seq [:: sl_f n (1%N, l, l)] | l <- iota 0 n.-1] = [seq sl_f n i | i <- [seq (1, l, l)%N | l <- iota 0 n.-1]].
  by rewrite -map_comp; elim: (iota 0 n.-1) => [|x l IH] //=; rewrite IH.
by rewrite /sl_tags map_cat -E3.
Qed.
Lemma tr_lin n (c : R) (X Y : fmat R) : fr X = n -> fc X = n -> fr Y = n -> fc Y = n -> traceless X -> traceless Y ->
  traceless (FM n n (fun i j => fe X i j - c * fe Y i j)).
Proof.
rewrite /traceless /= => -> _ -> _ H1 H2.
by rewrite sumrB H1 -mulr_sumr H2 mulr0 subr0.
Qed.
Lemma tr_meq n (X Y : fmat R) : meq X Y -> fr X = n -> fc X = n -> traceless X -> traceless Y.
Proof.
move=> [e1 e2 e3] x1 x2; rewrite /traceless -e1 x1 => H; rewrite -[RHS]H; apply: eq_sum => i Hi; rewrite e3 ?x1 ?x2 //.
Qed.
Theorem sl_basis n : (0 < n)%N ->
  exists2 a, sl_lie R n = Ok a & [/\ dims a = [:: n * n - 1; n; n]%N, size (mats a) = (n * n - 1)%N & is_basis id n (@traceless R) (mats a)].
Proof.
move=> n0; have [a E G] := sl_filled n0; exists a => //; have [Ed _ _] := G.
have [S1 HA] := mats_filled G (sl_size n0).
have Hn : (n.-1 < n)%N by rewrite prednK.
split=> //; first by rewrite S1 sl_size.
apply: (dual_basis (f := sl_f n) (phi := ent) (sl_uniq n) S1 HA) => //.
- move=> [[k i] j] g h; rewrite sl_mem /ent /= => /orP[/and4P[_ H1 H2 _]|/and3P[_ H1 /eqP <-]] H; rewrite H //;
  exact: leq_trans H1 (leq_pred n).
- move=> [[k i] j] [[k' i'] j']; rewrite !sl_mem /ent /sl_f /upd /= !xpair_eqE.
  move=> /orP[/and4P[/eqP -> H1 H2 H3]|/and3P[/eqP -> H1 /eqP <-]] /orP[/and4P[/eqP -> G1 G2 G3]|/and3P[/eqP -> G1 /eqP <-]] /=.
  + by case: ifP.
  + case: (i =P n.-1) => [E1|_] /=; first by rewrite -E1 eq_sym (negbTE H3) /=; case: (i =P i') => //= <-; rewrite eq_sym (negbTE H3).
    by case: (i =P i') => //= <-; rewrite eq_sym (negbTE H3).
  + by case: (i =P i') => //= E1; rewrite E1 (negbTE G3).
  + by rewrite (ltn_eqF H1) /=; case: ifP.
- exact: tr_meq.
- exact: tr_lin.
- move=> [[k i] j]; rewrite sl_mem => /orP[/and4P[/eqP /= -> /= H1 H2 H3]|/and3P[/eqP /= -> /= H1 /eqP /= <-]];
    rewrite /traceless /sl_f /upd /=.
    apply: sum0 => l Hl; case: ifP => // /andP[/eqP E1 /eqP E2].
    by move: H3; rewrite -E1 -E2 eqxx.
  rewrite (eq_sum (g := fun l => (i == l)%:R * 1 + (n.-1 == l)%:R * -1)); last first.
    move=> l Hl; rewrite !andbb [n.-1 == l]eq_sym [i == l]eq_sym mulr1; case: (l =P n.-1) => [->|_].
      by rewrite (gtn_eqF H1) add0r mul1r.
    by case: ifP; rewrite /f0 mul0r addr0.
  by rewrite big_split /= sum_delta ?(leq_trans H1 (leq_pred n)) // sum_delta // subrr.
move=> X x1 x2 HX Hz i j Hi Hj.
have O : forall i j, (i < n)%N -> (j < n)%N -> i != j -> fe X i j = 0.
  by move=> i' j' Hi' Hj' Hij; apply: (Hz (0%N, i', j')); rewrite sl_mem /= Hi' Hj' Hij.
have L l : (l < n.-1)%N -> fe X l l = 0 by move=> Hl; apply: (Hz (1%N, l, l)); rewrite sl_mem /= Hl eqxx.
case: (i =P j) => [<-|/eqP]; last exact: O.
case: (ltnP i n.-1) => [|Hi']; first exact: L.
have -> : i = n.-1 by apply/eqP; rewrite eqn_leq Hi' andbT -ltnS prednK.
move: HX; rewrite /traceless x1 -{1}(prednK n0) big_nat_recr //= sum0 ?add0r // => l Hl; exact: L.
Qed.

(** *** Sp *)
Definition sp_g (m : nat) (i j : nat) : seq tag := [:: (1, m + i, j)%N; (2, i, m + j)%N].
Definition sp_tags (m : nat) : seq tag :=
  flatten [seq flatten [seq [:: (0, i, j)%N] | j <- iota 0 m] | i <- iota 0 m] ++
  flatten [seq flatten [seq sp_g m i j | j <- iota 0 i.+1] | i <- iota 0 m].
Definition sp_f (m : nat) (t : tag) : fn :=
  let: (k, i, j) := t in
  if k == 0%N then upd (upd f0 i j 1) (m + j) (m + i) (-1)
  else if k == 1%N then upd (upd f0 i j 1) (m + j) (i - m) 1 else upd (upd f0 i j 1) (j - m) (m + i) 1.
Definition sp_in (m : nat) (t : tag) : bool :=
  let: (k, i, j) := t in
  [|| [&& k == 0, i < m & j < m], [&& k == 1, m <= i, i < 2 * m & m + j <= i] |
      [&& k == 2, m <= j, i < m & j <= m + i]]%N.
Lemma sp_mem m t : (t \in sp_tags m) = sp_in m t.
Proof.
rewrite mem_cat -/(gl_tags m) gl_mem /sp_in; case: t => [[k i] j]; congr orb.
apply/flatten_mapP/idP.
  move=> [i' Hi' /flatten_mapP[j' Hj']]; move: Hi' Hj'; rewrite !mem_iota !add0n !inE !xpair_eqE /= => Hi Hj.
  by case/orP => /andP[/andP[/eqP -> /eqP ->] /eqP ->]; apply/orP; [left | right]; rewrite eqxx /=; lia.
case/orP => /and4P[/eqP -> H1 H2 H3].
  exists (i - m)%N; first by rewrite mem_iota; lia.
  apply/flatten_mapP; exists j; first by rewrite mem_iota; lia.
  by rewrite inE subnKC // eqxx.
exists i; first by rewrite mem_iota; lia.
apply/flatten_mapP; exists (j - m)%N; first by rewrite mem_iota; lia.
by rewrite !inE subnKC // eqxx orbT.
Qed.
Lemma sp_uniq m : uniq (sp_tags m).
Proof.
rewrite /sp_tags cat_uniq gl_uniq andTb; apply/andP; split.
  apply/hasP => -[[[k i] j]]; rewrite inE => /flatten_mapP[i' _ /flatten_mapP[j' _ H]].
  by rewrite gl_mem /=; move: H; rewrite !inE !xpair_eqE => /orP[] /andP[/andP[/eqP ->]].
(* reuse the generic lemma with decoded tags *)
pose dec (t : tag) : tag := let: (k, i, j) := t in if k == 1%N then (k, i - m, j)%N else (k, i, j - m)%N.
apply: (@map_uniq _ _ dec); rewrite (map_flatten dec) -map_comp.
rewrite (@eq_map _ _ _ (fun i => flatten [seq [:: (1, i, j)%N; (2, i, j)%N] | j <- iota 0 i.+1])); last first.
  move=> i; rewrite /comp map_flatten -map_comp; congr flatten; apply: eq_map => j /=.
  by rewrite !addKn.
apply: uniq_ij; [exact: iota_uniq | by move=> i; exact: iota_uniq | by [] |].
by move=> i j t; rewrite !inE => /orP[] /eqP ->.
Qed.
Lemma size_triS (U : Type) (g : nat -> nat -> seq U) c m : (forall i j, size (g i j) = c) ->
  size (flatten [seq flatten [seq g i j | j <- iota 0 i.+1] | i <- iota 0 m]) = (tri m.+1 * c)%N.
Proof.
move=> H; elim: m => [|m IH] //; rewrite size_flat_rcons IH [tri m.+2]triS mulnDl; congr (_ + _)%N.
by rewrite (size_flat_const (c := c)) // size_iota.
Qed.
Lemma tri2 m : (tri m.+1 * 2 = m * m.+1)%N.
Proof. by elim: m => [|m IH] //; rewrite triS mulnDl IH; lia. Qed.
Lemma sp_size m : size (sp_tags m) = (m * (2 * m + 1))%N.
Proof.
by rewrite size_cat -/(gl_tags m) gl_size (size_triS (c := 2)) // tri2; lia.
Qed.
Lemma sp_filled m : exists2 a, sp_lie R m = Ok a & filled (m * (2 * m + 1)) (2 * m) a (map (sp_f m) (sp_tags m)) f0.
Proof.
have Sz := sp_size m; move: (Sz); rewrite {1}/sp_tags size_cat => Sz'.
set D := (m * (2 * m + 1))%N in Sz Sz' *.
have [||| s E G] := @for2 D (2 * m) (fun i j => [:: (0, i, j)%N]) (sp_f m) (fun i => iota 0 m) (iota 0 m)
  (fun (s : nd R * nat) i j => let: (a, k) := s in
      do a <- put a [:: k; i; j] 1;
      do a <- put a [:: k; (m + j)%N; (m + i)%N] (-1);
      Ok (a, k.+1)) (zeros R [:: D; 2 * m; 2 * m]%N, 0%N) [::].
- move=> i j [a k] fs; rewrite !mem_iota !add0n /= => Hi Hj [/= G ->]; rewrite addn1 => Hs.
  have [||a1 -> G1] := filled_put (i := i) (j := j) 1 G Hs; [by lia | by lia |].
  have [||a2 E2 G2] := filled_put (i := m + j) (j := m + i) (-1) G1 Hs; [by lia | by lia |].
  rewrite /= E2 /=; eexists; first by []; split=> /=; last by rewrite size_cat addn1.
  by rewrite cats1; apply: filled_next.
- by split=> //; exact: filled_zeros.
- by rewrite add0n -Sz' leq_addr.
have [|| [a k] E2 [/= G2 _]] := @for2 D (2 * m) (sp_g m) (sp_f m) (fun i => iota 0 i.+1) (iota 0 m)
  (fun (s : nd R * nat) i j => let: (a, k) := s in
      do a <- put a [:: k; (m + i)%N; j] 1;
      do a <- put a [:: k; (m + j)%N; i] 1;
      let k := k.+1 in
      do a <- put a [:: k; i; (m + j)%N] 1;
      do a <- put a [:: k; j; (m + i)%N] 1;
      Ok (a, k.+1)) s _ _ G.
- move=> i j [a k] fs; rewrite !mem_iota !add0n => Hi Hj [/= G1 ->] Hs.
  have Hs1 : (size fs < D)%N by apply: leq_trans Hs; rewrite addn2 ltnS leqnSn.
  have [||a1 -> G2] := filled_put (i := m + i) (j := j) 1 G1 Hs1; [by lia | by lia |].
  have [||a2 E2 G3] := filled_put (i := m + j) (j := i) 1 G2 Hs1; [by lia | by lia |].
  have G4 := filled_next G3.
  have Hs2 : (size (rcons fs (upd (upd f0 (m + i) j 1) (m + j) i 1)) < D)%N by rewrite size_rcons; move: Hs; rewrite addn2.
  have [||a3 E3 G5] := filled_put (i := i) (j := m + j) 1 G4 Hs2; [by lia | by lia |].
  have [||a4 E4 G6] := filled_put (i := j) (j := m + i) 1 G5 Hs2; [by lia | by lia |].
  rewrite size_rcons in E3 E4.
  rewrite /= E2 /= E3 /= E4 /=; eexists; first by []; split=> /=; last by rewrite size_cat addn2.
  have := filled_next G6; rewrite -!cats1 -catA /= !addKn.
  by [].
- by rewrite size_map -Sz' leqnn.
exists a; first by rewrite /sp_lie E /= E2.
by rewrite /sp_tags map_cat.
Qed.

End Real.
