(** * GroupsU: the Lie algebras of U(n) and SU(n). *)
From mathcomp Require Import all_ssreflect all_algebra.
From mathcomp Require Import zify.
From Verif Require Import Np Spec SpecLemmas LinOp LinOpSpec Cplx Groups GroupsSpec GroupsLoop GroupsLie.
Set Implicit Arguments.
Unset Strict Implicit.
Unset Printing Implicit Defensive.
Import GRing.Theory.
Local Open Scope ring_scope.

Section Loop.
Variables (R : comRingType) (iu : R).
Local Notation fn := (nat -> nat -> R).
Definition goodc (D n : nat) (s : nd R * nd R * nat) (fs : seq (fn * fn)) : Prop :=
  [/\ filled D n s.1.1 (map fst fs) f0, filled D n s.1.2 (map snd fs) f0 & s.2 = size fs].
Lemma for2c D n (g : nat -> nat -> seq tag) (f : tag -> fn * fn) (l : nat -> seq nat) (m : seq nat) body s fs :
  (forall i j s fs, i \in m -> j \in l i -> goodc D n s fs -> (size fs + size (g i j) <= D)%N ->
     exists2 s', body s i j = Ok s' & goodc D n s' (fs ++ map f (g i j))) ->
  goodc D n s fs ->
  let ps := flatten [seq flatten [seq g i j | j <- l i] | i <- m] in
  (size fs + size ps <= D)%N ->
  exists2 s', for_ m s (fun s i => for_ (l i) s (fun s j => body s i j)) = Ok s' & goodc D n s' (fs ++ map f ps).
Proof.
move=> H G ps Hs; have := @for_fill _ _ _ (goodc D n) D m (fun i => flatten [seq map f (g i j) | j <- l i])
  (fun s i => for_ (l i) s (fun s j => body s i j)) s fs.
rewrite flat2; apply => // [i s2 fs2 Hi G' Hs'|]; last by rewrite size_map.
apply: (for_fill (D := D) (good := goodc D n) (F := fun j => map f (g i j))) => // j s1 fs1 Hj G1.
by rewrite size_map; apply: H.
Qed.
Definition u_g (i j : nat) : seq tag := [:: (0, i, j)%N; (1, i, j)%N].
Definition u_pairs (n : nat) : seq tag := flatten [seq flatten [seq u_g i j | j <- iota 0 i] | i <- iota 0 n].
Definition u_diag (n : nat) : seq tag := [seq (2, l, l)%N | l <- iota 0 n].
(** real and imaginary parts *)
Definition u_p (dg : nat -> fn) (t : tag) : fn * fn :=
  let: (k, i, j) := t in
  if k == 0%N then (upd (upd f0 i j 1) j i (-1), f0)
  else if k == 1%N then (f0, upd (upd f0 i j 1) j i 1) else (f0, dg i).
Lemma u_g_mem i j t : t \in u_g i j -> t.1.2 = i /\ t.2 = j.
Proof. by rewrite !inE => /orP[] /eqP ->. Qed.
Lemma u_mem n m t : (t \in u_pairs n ++ u_diag m) =
  [&& t.1.1 < 2, t.1.2 < n & t.2 < t.1.2]%N || [&& t.1.1 == 2, t.1.2 < m & t.1.2 == t.2]%N.
Proof.
rewrite mem_cat mem_ij; last exact: u_g_mem.
rewrite !mem_iota !add0n /=; case: t => [[k i] j] /=; congr orb.
  by rewrite !inE !xpair_eqE !eqxx !andbT; case: k => [|[|k]]; rewrite ?andbF ?andbT.
apply/mapP/and3P => [[l]|[/eqP -> H /eqP <-]]; last by exists i; rewrite // mem_iota.
by rewrite mem_iota /= add0n => Hl [-> -> ->].
Qed.
Lemma u_uniq n m : uniq (u_pairs n ++ u_diag m).
Proof.
rewrite cat_uniq; apply/and3P; split.
- by apply: uniq_ij; [exact: iota_uniq | by move=> i; exact: iota_uniq | by [] | exact: u_g_mem].
- apply/hasP => -[t /mapP[l _ ->]]; rewrite inE mem_ij; last exact: u_g_mem.
  by rewrite !inE /= !andbF.
by rewrite map_inj_uniq ?iota_uniq // => x y [].
Qed.
Lemma u_size n m : size (u_pairs n ++ u_diag m) = (n * n.-1 + m)%N.
Proof.
rewrite size_cat size_map size_iota (size_tri (c := 2)) //; congr addn.
by case: n => // n; rewrite tri2 mulnC.
Qed.
Lemma u_loopP D n dg : (n * n.-1 <= D)%N ->
  exists2 s, u_loop n (zeros R [:: D; n; n], zeros R [:: D; n; n], 0%N) = Ok s & goodc D n s (map (u_p dg) (u_pairs n)).
Proof.
move=> Hn; apply: (@for2c D n u_g (u_p dg) (fun i => iota 0 i) (iota 0 n)
  (fun s i j => let: (a, b, k) := s in
      do a <- put a [:: k; i; j] 1;
      do a <- put a [:: k; j; i] (-1);
      let k := k.+1 in
      do b <- put b [:: k; i; j] 1;
      do b <- put b [:: k; j; i] 1;
      Ok (a, b, k.+1)) _ [::]).
- move=> i j [[a b] k] fs; rewrite !mem_iota !add0n /= => Hi Hj [/= Ga Gb ->]; rewrite addn2 => Hs.
  have Hj' := ltn_trans Hj Hi; have Hs1 : (size fs < D)%N := ltnW Hs.
  have E1 : size fs = size (map fst fs) by rewrite size_map.
  have E2 : (size fs).+1 = size (rcons (map snd fs) f0) by rewrite size_rcons size_map.
  rewrite {1 2}E1; have Hs1' : (size (map fst fs) < D)%N by rewrite size_map.
  have [a1 -> G1] := filled_put 1 Ga Hs1' Hi Hj'; have [a2 E3 G2] := filled_put (-1) G1 Hs1' Hj' Hi.
  rewrite /= E3 /= {1}E2.
  have Hs2 : (size (rcons (map snd fs) f0) < D)%N by rewrite -E2.
  have [b1 E4 G3] := filled_put 1 (filled_next Gb) Hs2 Hi Hj'; have [b2 E5 G4] := filled_put 1 G3 Hs2 Hj' Hi.
  rewrite E4 /= E2 E5 /= -E2; eexists; first by []; split=> /=; last by rewrite size_cat addn2.
    by rewrite map_cat /= -cat_rcons cats1; apply: filled_next; apply: filled_next.
  by rewrite map_cat /= -cat_rcons cats1; apply: filled_next.
- by split=> //; exact: filled_zeros.
rewrite add0n -/(u_pairs n); have := u_size n 0; rewrite cats0 addn0 => -> //.
Qed.
Lemma cplx_filled D n a b (fs : seq (fn * fn)) : filled D n a (map fst fs) f0 -> filled D n b (map snd fs) f0 ->
  filled D n (cplx_arr iu a b) (map (fun p i j => p.1 i j + p.2 i j * iu) fs) f0.
Proof.
move=> [a1 a2 Ha] [b1 b2 Hb]; split=> //=; first by rewrite size_map size_zip a2 b2 minnn.
move=> k i j Hk Hi Hj; have P : (k * (n * n) + (i * n + j) < D * (n * n))%N by exact: pos3_lt.
rewrite (nth_map (0, 0)) ?size_zip ?a2 ?b2 ?minnn // nth_zip ?a2 ?b2 //= Ha // Hb // !size_map.
case: ifP => Hs; first by rewrite !(nth_map (f0, f0)).
by case: ifP; rewrite /f0 mul0r addr0.
Qed.
(** the inner loop of SU *)
Lemma put_diag D n (b : nd R) (fs : seq fn) (g : fn) (p : pred nat) (r : R) (l : seq nat) : filled D n b fs g -> (size fs < D)%N -> all (fun j => j < n)%N l ->
  exists2 b', for_ l b (fun b j => if p j then Ok b else put b [:: size fs; j; j] r) = Ok b' &
    filled D n b' fs (fun i j => if (i == j) && (i \in l) && ~~ p i then r else g i j).
Proof.
elim: l b g => [|x l IH] b g G Hs /=; first by exists b => //; apply: filled_ext G => i j _ _; rewrite in_nil andbF.
case/andP => Hx Hl; rewrite /for_ /=; case: (boolP (p x)) => Px.
  have [b' E G'] := IH b g G Hs Hl; exists b'; first exact: E.
  apply: filled_ext G' => i j Hi Hj; rewrite in_cons; case: (i =P x) => [->|_] //=.
  by rewrite Px !andbF.
have [b1 -> G1] := filled_put r G Hs Hx Hx; have [b' E G'] := IH b1 _ G1 Hs Hl; exists b'; first exact: E.
apply: filled_ext G' => i j Hi Hj; rewrite in_cons /upd; case: (i =P x) => [->|_] //=.
rewrite Px andbT /= andbT [x == j]eq_sym; case: (j == x) => //=; by case: ifP.
Qed.
End Loop.

Section Basis.
Variable F : comRingType.
Variable rk : nat -> F.
Hypothesis rkE : forall n, (0 < n)%N -> n%:R * rk n = 1.
Local Notation C := (cplx_comRingType F).
Definition cemb (x : F) : C := Cx x 0.
Definition cI : C := Cx 0 1.
Local Notation fn := (nat -> nat -> C).
Local Notation rc := (fun n => cemb (rk n)).

Lemma char2F : char2 F.
Proof. by move=> x H; rewrite -[x]mul1r -(rkE (n := 2)) // mulrAC mulr2n mulrDl mul1r H mul0r. Qed.
Lemma reD (x y : C) : re (x + y) = re x + re y. Proof. by []. Qed.
Lemma imD (x y : C) : im (x + y) = im x + im y. Proof. by []. Qed.
Lemma reN (x : C) : re (- x) = - re x. Proof. by []. Qed.
Lemma imN (x : C) : im (- x) = - im x. Proof. by []. Qed.
Lemma reE (c : F) (x : C) : re (cemb c * x) = c * re x. Proof. by rewrite /= mul0r subr0. Qed.
Lemma imE (c : F) (x : C) : im (cemb c * x) = c * im x. Proof. by rewrite /= mul0r addr0. Qed.
Lemma re_sum m (g : nat -> C) : re (\sum_(0 <= k < m) g k) = \sum_(0 <= k < m) re (g k).
Proof. by elim: m => [|m IH]; [rewrite !big_geq | rewrite !big_nat_recr // reD IH]. Qed.
Lemma im_sum m (g : nat -> C) : im (\sum_(0 <= k < m) g k) = \sum_(0 <= k < m) im (g k).
Proof. by elim: m => [|m IH]; [rewrite !big_geq | rewrite !big_nat_recr // imD IH]. Qed.
Lemma cx_eq (x y : C) : re x = re y -> im x = im y -> x = y.
Proof. by case: x y => [a b] [c d] /= -> ->. Qed.

Lemma herm_ent n (X : fmat C) : fr X = n -> fc X = n ->
  (skew_herm (@cconj F) X <-> forall i j, (i < n)%N -> (j < n)%N -> re (fe X j i) = - re (fe X i j) /\ im (fe X j i) = im (fe X i j)).
Proof.
move=> x1 x2; split=> [[_ _ H] i j Hi Hj|H].
  have := H i j; rewrite /= x1 x2 => /(_ Hi Hj) E; split; first by move: (congr1 (@re F) E).
  by move: (congr1 (@im F) E) => /= /oppr_inj.
split; rewrite /= ?x1 ?x2 // => i j Hi Hj; have [E1 E2] := H i j Hi Hj; apply: cx_eq => /=; by rewrite ?E1 ?E2.
Qed.
Lemma herm_meq n (X Y : fmat C) : meq X Y -> fr X = n -> fc X = n -> skew_herm (@cconj F) X -> skew_herm (@cconj F) Y.
Proof.
move=> M x1 x2 /(herm_ent x1 x2) H; have [e1 e2 e3] := M; apply/(@herm_ent n); rewrite -?e1 -?e2 // => a b Ha Hb.
by rewrite -!e3 ?x1 ?x2 //; apply: H.
Qed.
Lemma herm_lin n c (X Y : fmat C) : fr X = n -> fc X = n -> fr Y = n -> fc Y = n ->
  skew_herm (@cconj F) X -> skew_herm (@cconj F) Y ->
  skew_herm (@cconj F) (FM n n (fun i j => fe X i j - cemb c * fe Y i j)).
Proof.
move=> x1 x2 y1 y2 /(herm_ent x1 x2) HX /(herm_ent y1 y2) HY; apply/(@herm_ent n) => //= a b Ha Hb.
have [X1 X2] := HX a b Ha Hb; have [Y1 Y2] := HY a b Ha Hb.
by rewrite X1 X2 Y1 Y2 !mul0r !subr0 !addr0; split=> //; rewrite mulrN opprB opprK addrC.
Qed.

Definition u_f (dg : nat -> fn) (t : tag) : fn := fun i j => (u_p dg t).1 i j + (u_p dg t).2 i j * cI.
Lemma u_fill n m D dg (body : nd C * nd C * nat -> nat -> res (nd C * nd C * nat)) : (n * n.-1 + m = D)%N ->
  (forall l s fs, (l < m)%N -> goodc D n s fs -> (size fs < D)%N ->
    exists2 s', body s l = Ok s' & goodc D n s' (rcons fs (f0, dg l))) ->
  exists2 a, (do s <- u_loop n (zeros C [:: D; n; n], zeros C [:: D; n; n], 0%N);
              do s <- for_ (iota 0 m) s body; Ok (cplx_arr cI s.1.1 s.1.2)) = Ok a &
    filled D n a (map (u_f dg) (u_pairs n ++ u_diag m)) f0.
Proof.
move=> HD Hb; have [|s1 E G] := @u_loopP C D n dg; first by rewrite -HD leq_addr.
have Sz : size (u_pairs n) = (n * n.-1)%N by have := u_size n 0; rewrite cats0 addn0.
have [||s2 E2 G2] := @for_fill _ _ _ (goodc D n) D (iota 0 m) (fun l => [:: (f0, dg l)]) body s1 _ _ G.
- move=> l s' fs; rewrite mem_iota add0n /= addn1 cats1; exact: Hb.
- by rewrite size_map Sz (size_flat_const (c := 1%N)) // size_iota muln1 HD.
exists (cplx_arr cI s2.1.1 s2.1.2); first by rewrite E /= E2.
have E3 : map (u_p dg) (u_pairs n ++ u_diag m) = [seq u_p dg i | i <- u_pairs n] ++ flatten [seq [:: (f0, dg l)] | l <- iota 0 m].
  by rewrite map_cat; congr (_ ++ _); rewrite -map_comp; elim: (iota 0 m) => [|x l IH] //=; rewrite IH.
have [Ga Gb _] := G2; have := cplx_filled cI Ga Gb; rewrite -E3 -map_comp.
by [].
Qed.
Definition u_dg (i : nat) : fn := upd f0 i i 1.
Lemma u_filled n : exists2 a, u_lie cI n = Ok a & filled (n ^ 2) n a (map (u_f u_dg) (u_pairs n ++ u_diag n)) f0.
Proof.
apply: u_fill; [by case: n => // n; rewrite expnS expn1; lia |].
move=> l [[a b] k] fs Hl [/= Ga Gb ->] Hs.
have Hs' : (size (map snd fs) < n ^ 2)%N by rewrite size_map.
have [b1 E G1] := filled_put 1 Gb Hs' Hl Hl; rewrite size_map in E; rewrite E /=.
eexists; first by []; split; rewrite /= ?size_rcons //.
  by rewrite map_rcons; apply: filled_next.
by rewrite map_rcons; apply: filled_next.
Qed.
Definition su_dg (n i : nat) : fn := fun a b => if a == b then (if a == i then 1 else - cemb (rk n.-1)) else 0.
Lemma su_filled n : (0 < n)%N ->
  exists2 a, su_lie cI rc n = Ok a & filled (n ^ 2 - 1) n a (map (u_f (su_dg n)) (u_pairs n ++ u_diag n.-1)) f0.
Proof.
move=> n0; apply: u_fill; [by case: n n0 => // n _; rewrite expnS expn1 /=; lia |].
move=> l [[a b] k] fs Hl [/= Ga Gb ->] Hs.
have Hl' : (l < n)%N := leq_trans Hl (leq_pred n).
have Hs' : (size (map snd fs) < n ^ 2 - 1)%N by rewrite size_map.
have [b1 E G1] := filled_put 1 Gb Hs' Hl' Hl'; rewrite size_map in E; rewrite E /=.
have [|b2 E2 G2] := put_diag (pred1 l) (- cemb (rk n.-1)) (l := iota 0 n) G1 Hs'.
  by apply/allP => j; rewrite mem_iota.
rewrite size_map in E2.
have -> : for_ (iota 0 n) b1 (fun b j => if l == j then Ok b else put b [:: size fs; j; j] (- cemb (rk n.-1))) = Ok b2.
  rewrite -E2 /for_; elim: (iota 0 n) b1 {E E2 G1 G2} => [|x r IH] b1 //=; rewrite [x == l]eq_sym.
  by case: ifP => //= _; case: put.
rewrite /=; eexists; first by []; split; rewrite /= ?size_rcons //.
  by rewrite map_rcons; apply: filled_next.
rewrite map_rcons; apply: filled_next; apply: filled_ext G2 => i j Hi Hj.
rewrite mem_iota Hi /su_dg /upd /f0 /=; case: (i =P j) => [<-|ne] /=.
  by rewrite andbb; case: (i == l).
by case: ifP => // /andP[/eqP e1 /eqP e2]; case: ne; rewrite e1 e2.
Qed.

(** the dual functionals *)
Definition u_phi (last : nat) (s : F) (t : tag) (g : fn) : F :=
  let: (k, i, j) := t in
  if k == 0%N then re (g i j) else if k == 1%N then im (g i j) else (im (g i j) - im (g last last)) * s.
Definition u_phi' (t : tag) (g : fn) : F :=
  let: (k, i, j) := t in if k == 0%N then re (g i j) else im (g i j).
Lemma phi_lin last s t m (c : nat -> F) (g : nat -> fn) :
  u_phi last s t (fun i j => \sum_(0 <= k < m) cemb (c k) * g k i j) = \sum_(0 <= k < m) c k * u_phi last s t (g k).
Proof.
have Re i j : re (\sum_(0 <= k < m) cemb (c k) * g k i j) = \sum_(0 <= k < m) c k * re (g k i j).
  by rewrite re_sum; apply: eq_sum => l _; rewrite reE.
have Im i j : im (\sum_(0 <= k < m) cemb (c k) * g k i j) = \sum_(0 <= k < m) c k * im (g k i j).
  by rewrite im_sum; apply: eq_sum => l _; rewrite imE.
case: t => [[k i] j] /=; case: ifP => // _; case: ifP => // _.
by rewrite !Im -sumrB mulr_suml; apply: eq_sum => l _; rewrite -mulrBr mulrA.
Qed.
Lemma phi_lin' t m (c : nat -> F) (g : nat -> fn) :
  u_phi' t (fun i j => \sum_(0 <= k < m) cemb (c k) * g k i j) = \sum_(0 <= k < m) c k * u_phi' t (g k).
Proof.
case: t => [[k i] j] /=; case: ifP => _; first by rewrite re_sum; apply: eq_sum => l _; rewrite reE.
by rewrite im_sum; apply: eq_sum => l _; rewrite imE.
Qed.
Lemma re_f dg t i j : (forall l, im (dg l i j) = 0) -> re (u_f dg t i j) = re ((u_p dg t).1 i j).
Proof.
move=> H; rewrite /u_f /=; case: t => [[k a] b] /=; case: ifP => _ /=; first by rewrite mulr0 mul0r subr0 addr0.
case: ifP => _ /=; rewrite mulr0 mulr1 add0r ?H ?oppr0 ?add0r //.
by rewrite /upd /f0; case: ifP => _ /=; [rewrite oppr0 | case: ifP; rewrite /= oppr0].
Qed.
Lemma im_f dg t i j : im (u_f dg t i j) = re ((u_p dg t).2 i j).
Proof.
rewrite /u_f /=; case: t => [[k a] b] /=; case: ifP => _ /=.
  rewrite mul0r mul0r !addr0 /upd /f0; case: ifP => _ /=; first by rewrite oppr0.
  by case: ifP.
by case: ifP => _ /=; rewrite mulr1 mulr0 add0r addr0.
Qed.
Variant u_spec n m : tag -> Prop :=
| U0 i j of (i < n)%N & (j < i)%N : u_spec n m (0, i, j)%N
| U1 i j of (i < n)%N & (j < i)%N : u_spec n m (1, i, j)%N
| U2 i of (i < m)%N : u_spec n m (2, i, i)%N.
Lemma uP n m t : t \in u_pairs n ++ u_diag m -> u_spec n m t.
Proof.
rewrite u_mem; case: t => [[k i] j] /= /orP[/and3P[]|/and3P[/eqP -> H /eqP <-]]; last by constructor.
by case: k => [|[|k]] //= _ *; constructor.
Qed.
Lemma u_fherm n m dg t : (m <= n)%N -> (forall l a b, dg l a b = dg l b a) -> (forall l a b, im (dg l a b) = 0) ->
  t \in u_pairs n ++ u_diag m -> skew_herm (@cconj F) (FM n n (u_f dg t)).
Proof.
move=> Hm Hs Hi Ht; apply/(@herm_ent n) => // a b Ha Hb; rewrite -[fe _]/(u_f dg t) !re_f // !im_f.
move: Ht => /uP [i j H1 H2|i j H1 H2|i H1] /=; rewrite /upd /f0 ?oppr0 //; split=> //; rewrite ?(Hs _ b a) //.
  rewrite ![(b == _) && _]andbC; case: (boolP ((a == i) && (b == j))) => [/andP[/eqP -> /eqP ->]|_] /=.
    by rewrite (ltn_eqF H2) /= ?opprK ?oppr0 [i == j]eq_sym (ltn_eqF H2).
  by case: ifP => _; rewrite /= ?opprK ?oppr0.
by rewrite ![(b == _) && _]andbC; case: (_ && _); case: (_ && _).
Qed.

Lemma tag_eq (k i j k' i' j' : nat) : ((k, i, j) == (k', i', j')) = [&& k == k', i == i' & j == j'].
Proof. by rewrite !xpair_eqE andbA. Qed.
(** the entry below the diagonal of the off-diagonal generators *)
Lemma low i j a b (x : C) : (j < i)%N -> (b < a)%N -> upd (upd f0 a b 1) b a x i j = ((i == a) && (j == b))%:R :> C.
Proof.
move=> H1 H2; rewrite /upd /f0; case: (i =P b) => [E|_] /=.
  by case: (j =P a) => [E2|_] /=; [move: H1; rewrite E E2 ltnNge (ltnW H2) | case: ifP].
by case: ifP.
Qed.
Lemma low0 i a b (x : C) : (b < a)%N -> upd (upd f0 a b 1) b a x i i = 0 :> C.
Proof.
move=> H; rewrite /upd /f0; case: ifP => [/andP[/eqP -> /eqP E]|_]; first by move: H; rewrite -E ltnn.
by case: ifP => // /andP[/eqP -> /eqP E]; move: H; rewrite -E ltnn.
Qed.
Lemma re_nat (b : bool) : re (b%:R : C) = b%:R. Proof. by case: b. Qed.
Lemma u_dual n t t' : t \in u_pairs n ++ u_diag n -> t' \in u_pairs n ++ u_diag n -> u_phi' t (u_f u_dg t') = (t == t')%:R.
Proof.
have D l i j : im (u_dg l i j) = 0 by rewrite /u_dg /upd /f0; case: ifP.
move=> /uP [i j Hi Hj|i j Hi Hj|i Hi] /uP [a b Ha Hb|a b Ha Hb|a Ha]; rewrite tag_eq /u_phi' ?re_f ?im_f //=.
- by rewrite low // re_nat.
- by rewrite low // re_nat.
- rewrite /u_dg /upd /f0; case: ifP => // /andP[/eqP E1 /eqP E2]; by move: Hj; rewrite E1 E2 ltnn.
- by rewrite low0.
by rewrite /u_dg /upd /f0 andbb; case: (i == a).
Qed.
Lemma off0 n m (X : fmat C) : fr X = n -> fc X = n -> skew_herm (@cconj F) X ->
  (forall t, t \in u_pairs n ++ u_diag m -> t.1.1 != 2%N -> u_phi' t (fe X) = 0) ->
  forall i j, (i < n)%N -> (j < n)%N -> i != j -> fe X i j = 0.
Proof.
move=> x1 x2 /(herm_ent x1 x2) H Hz.
have L i j : (i < n)%N -> (j < i)%N -> fe X i j = 0.
  move=> Hi Hj; apply: cx_eq.
    by apply: (Hz (0, i, j)%N) => //; rewrite u_mem /= Hi Hj.
  by apply: (Hz (1, i, j)%N) => //; rewrite u_mem /= Hi Hj.
move=> i j Hi Hj; rewrite neq_ltn => /orP[] Hij; last exact: L.
have [E1 E2] := H i j Hi Hj; apply: cx_eq; last by rewrite -E2 L.
by apply: oppr_inj; rewrite -E1 L //= oppr0.
Qed.
Lemma diag_re n (X : fmat C) i : fr X = n -> fc X = n -> skew_herm (@cconj F) X -> (i < n)%N -> re (fe X i i) = 0.
Proof. by move=> x1 x2 /(herm_ent x1 x2) H Hi; apply: char2F; have [{1}-> _] := H i i Hi Hi; rewrite addNr. Qed.
Theorem u_basis n :
  exists2 a, u_lie cI n = Ok a & [/\ dims a = [:: n ^ 2; n; n]%N, size (mats a) = (n ^ 2)%N & is_basis cemb n (skew_herm (@cconj F)) (mats a)].
Proof.
have [a E G] := u_filled n; exists a => //; have [Ed _ _] := G.
have Sz : size (u_pairs n ++ u_diag n) = (n ^ 2)%N by rewrite u_size; case: n {E G Ed} => // n; rewrite expnS expn1 /=; lia.
have [S1 HA] := mats_filled G Sz.
split=> //; first by rewrite S1 Sz.
apply: (dual_basis (K := F) (emb := cemb) (f := u_f u_dg) (phi := u_phi') (u_uniq n n) S1 HA) => //.
- move=> t g h /uP [i j Hi Hj|i j Hi Hj|i Hi] H; rewrite /u_phi' /= H // (ltn_trans Hj) //.
- by move=> [[k i] j] g h /=; case: ifP.
- exact: phi_lin'.
- exact: u_dual.
- exact: herm_meq.
- exact: herm_lin.
- move=> t; apply: u_fherm => // l i j; rewrite /u_dg /upd /f0; last by case: ifP.
  by rewrite andbC.
move=> X x1 x2 HX Hz i j Hi Hj; case: (i =P j) => [<-|/eqP ne].
  apply: cx_eq; first exact: (diag_re x1 x2 HX).
  by apply: (Hz (2, i, i)%N); rewrite u_mem /= Hi eqxx.
by apply: (off0 (m := n) x1 x2 HX) => // t Ht _; apply: Hz.
Qed.
Lemma su_dual n t t' : (1 < n)%N -> t \in u_pairs n ++ u_diag n.-1 -> t' \in u_pairs n ++ u_diag n.-1 ->
  u_phi n.-1 ((n.-1)%:R * rk n) t (u_f (su_dg n) t') = (t == t')%:R.
Proof.
move=> n1; have D l i j : im (su_dg n l i j) = 0 by rewrite /su_dg; do 2 case: ifP => //=; rewrite oppr0.
have off l i j : i != j -> su_dg n l i j = 0 by rewrite /su_dg => /negbTE ->.
move=> /uP [i j Hi Hj|i j Hi Hj|i Hi] /uP [a b Ha Hb|a b Ha Hb|a Ha]; rewrite tag_eq /u_phi ?re_f ?im_f //=.
- by rewrite low // re_nat.
- by rewrite low // re_nat.
- by rewrite off //= gtn_eqF.
- by rewrite /= subrr mul0r.
- by rewrite !low0 //= subrr mul0r.
rewrite /su_dg !eqxx (gtn_eqF Ha) /=.
have R1 : (n.-1)%:R * rk n.-1 = 1 :> F by apply: rkE; rewrite -subn1 subn_gt0.
case: (i =P a) => _ /=; last by rewrite subrr mul0r.
rewrite opprK mulrA mulrDl mul1r [rk n.-1 * _]mulrC R1 -mulrSr prednK ?(ltnW n1) //.
by apply: rkE; apply: ltnW.
Qed.
Lemma ctr_lin n c (X Y : fmat C) : fr X = n -> fc X = n -> fr Y = n -> fc Y = n ->
  traceless X -> traceless Y -> traceless (FM n n (fun i j => fe X i j - cemb c * fe Y i j)).
Proof. exact: tr_lin. Qed.
Lemma su_tr n t : (1 < n)%N -> t \in u_pairs n ++ u_diag n.-1 -> traceless (FM n n (u_f (su_dg n) t)).
Proof.
move=> n1; rewrite /traceless /= => Ht.
have D l i j : im (su_dg n l i j) = 0 by rewrite /su_dg; do 2 case: ifP => //=; rewrite oppr0.
have R1 : (n.-1)%:R * rk n.-1 = 1 :> F by apply: rkE; rewrite -subn1 subn_gt0.
apply: cx_eq; rewrite ?re_sum ?im_sum.
  apply: sum0 => l Hl; rewrite re_f //.
  by move: Ht => /uP [i j Hi Hj|i j Hi Hj|i Hi] //=; rewrite low0.
rewrite (eq_sum (g := fun l => re ((u_p (su_dg n) t).2 l l))); last by move=> l _; rewrite im_f.
move: Ht => /uP [i j Hi Hj|i j Hi Hj|i Hi] /=; try by apply: sum0 => l _; rewrite ?low0.
rewrite (eq_sum (g := fun l => (i == l)%:R * (1 + rk n.-1) + - rk n.-1)); last first.
  move=> l _; rewrite /su_dg eqxx [l == i]eq_sym; case: (i == l) => /=; first by rewrite mul1r addrK.
  by rewrite mul0r add0r.
rewrite big_split /= sum_delta ?(leq_trans Hi (leq_pred n)) //.
rewrite big_const_nat subn0 iter_addr addr0 mulNrn -mulr_natl -{2}(prednK (ltnW n1)) mulrS mulrDl mul1r R1.
by rewrite addrC [rk _ + 1]addrC addNr.
Qed.
Theorem su_basis n : (1 < n)%N ->
  exists2 a, su_lie cI rc n = Ok a & [/\ dims a = [:: n ^ 2 - 1; n; n]%N, size (mats a) = (n ^ 2 - 1)%N &
    is_basis cemb n (fun X => skew_herm (@cconj F) X /\ traceless X) (mats a)].
Proof.
move=> n1; have n0 := ltnW n1; have [a E G] := su_filled n0; exists a => //; have [Ed _ _] := G.
have Sz : size (u_pairs n ++ u_diag n.-1) = (n ^ 2 - 1)%N.
  by rewrite u_size; case: n n0 {E G Ed n1} => // n _; rewrite expnS expn1 /=; lia.
have [S1 HA] := mats_filled G Sz.
split=> //; first by rewrite S1 Sz.
have Hn : (n.-1 < n)%N by rewrite prednK.
apply: (dual_basis (K := F) (emb := cemb) (f := u_f (su_dg n)) (phi := u_phi n.-1 ((n.-1)%:R * rk n)) (u_uniq n n.-1) S1 HA) => //.
- move=> t g h /uP [i j Hi Hj|i j Hi Hj|i Hi] H; rewrite /u_phi /= !H //; try exact: (ltn_trans Hj).
  + exact: (leq_trans Hi (leq_pred n)).
  + exact: (leq_trans Hi (leq_pred n)).
- move=> [[k i] j] g h /=; case: ifP => // _; case: ifP => // _.
  by rewrite -mulrBl; congr (_ * _); rewrite !opprB addrACA [RHS]addrACA; congr (_ + _); rewrite addrC.
- exact: phi_lin.
- by move=> t t'; apply: su_dual.
- by move=> X Y M x1 x2 [H1 H2]; split; [exact: (herm_meq M x1 x2 H1) | exact: (tr_meq M x1 x2 H2)].
- by move=> c X Y x1 x2 y1 y2 [H1 H2] [H3 H4]; split; [apply: herm_lin | apply: ctr_lin].
- move=> t Ht; split; last exact: su_tr.
  apply: u_fherm Ht; first exact: leq_pred.
    by move=> l i j; rewrite /su_dg [i == j]eq_sym; case: (j =P i) => // ->.
  by move=> l i j; rewrite /su_dg; do 2 case: ifP => //=; rewrite oppr0.
move=> X x1 x2 [HX HT] Hz.
have O := off0 (m := n.-1) x1 x2 HX.
have {}O : forall i j, (i < n)%N -> (j < n)%N -> i != j -> fe X i j = 0.
  apply: O => -[[k i] j] Ht /= Hk; have := Hz _ Ht; move: Hk; rewrite /u_phi.
  by move: Ht => /uP; case: k => [|[|[|k]]] //= H; inversion H.
have R1 : n%:R * rk n = 1 :> F by apply: rkE.
have R2 : (n.-1)%:R * rk n.-1 = 1 :> F by apply: rkE; rewrite -subn1 subn_gt0.
have Dg i : (i < n)%N -> im (fe X i i) = im (fe X n.-1 n.-1).
  move=> Hi; case: (ltnP i n.-1) => Hi'; last by congr (im (fe X _ _)); apply/eqP; rewrite eqn_leq Hi' andbT -ltnS prednK.
  have := Hz (2, i, i)%N; rewrite u_mem /= Hi' eqxx => /(_ isT) E2.
  apply/eqP; rewrite -subr_eq0; apply/eqP.
  have := congr1 (fun x => x * (n%:R * rk n.-1)) E2; rewrite mul0r => <-.
  by rewrite -mulrA [_ * rk n]mulrC mulrACA [rk n * _]mulrC R1 R2 mulr1 mulr1.
have Z : im (fe X n.-1 n.-1) = 0.
  have := congr1 (@im F) HT; rewrite x1 im_sum (eq_sum (g := fun _ => im (fe X n.-1 n.-1))) //.
  rewrite big_const_nat subn0 iter_addr addr0 -mulr_natl => /(congr1 (fun x => rk n * x)) /=.
  by rewrite mulrA [rk n * _]mulrC R1 mul1r mulr0.
move=> i j Hi Hj; case: (i =P j) => [<-|/eqP ne]; last exact: O.
by apply: cx_eq; [exact: (diag_re x1 x2 HX) | rewrite Dg].
Qed.
End Basis.
