(** * DimComb: orbits of the symmetric and cyclic groups on index tuples. *)
From mathcomp Require Import all_ssreflect.
From mathcomp Require Import zify.
From Verif Require Import Np NpLemmas DimSpec.
Set Implicit Arguments.
Unset Strict Implicit.
Unset Printing Implicit Defensive.

Lemma num_lt n s : all (fun x => x < n) s -> num n s < n ^ size s.
Proof.
elim: s => //= x s IH /andP[Hx /IH H]; rewrite expnS.
by apply: (@leq_trans (x * n ^ size s + n ^ size s)); rewrite ?ltn_add2l // addnC -mulSn leq_mul2r Hx orbT.
Qed.
Lemma num_inj n s t : size s = size t -> all (fun x => x < n) s -> all (fun x => x < n) t -> num n s = num n t -> s = t.
Proof.
elim: s t => [|x s IH] [|y t] //= [E] /andP[Hx Hs] /andP[Hy Ht] H.
have Ls := num_lt Hs; have Lt := num_lt Ht; rewrite -E in H Lt.
have P : 0 < n ^ size s by lia.
have D z a : a < n ^ size s -> (z * n ^ size s + a) %/ n ^ size s = z by move=> L; rewrite divnMDl // divn_small // addn0.
have e1 : x = y by rewrite -(D x _ Ls) -(D y _ Lt) H.
by rewrite e1 (IH t) //; move: H; rewrite e1; lia.
Qed.
Lemma num_surj n k i : i < n ^ k -> exists2 s, tuple_ok n k s & num n s = i.
Proof.
elim: k i => [|k IH] i; first by rewrite expn0 ltnS leqn0 => /eqP ->; exists [::].
rewrite expnS => Hi; have P : 0 < n ^ k by case: (n ^ k) Hi => //; rewrite muln0.
have [s [Ss As] Es] := IH (i %% n ^ k) (ltn_pmod _ P).
exists (i %/ n ^ k :: s); last by rewrite /= Ss Es -divn_eq.
by split; rewrite /= ?Ss // As andbT ltn_divLR.
Qed.

(** ** equal patterns *)
Definition eqpat (s t : seq nat) : bool := (size s == size t) &&
  all (fun i => all (fun j => (nth 0 s i == nth 0 s j) == (nth 0 t i == nth 0 t j)) (iota 0 (size s))) (iota 0 (size s)).
Lemma eqpatP s t : reflect (size s = size t /\ forall i j, i < size s -> j < size s -> (nth 0 s i == nth 0 s j) = (nth 0 t i == nth 0 t j)) (eqpat s t).
Proof.
apply: (iffP andP) => [[/eqP E /allP H]|[E H]].
  split=> // i j Hi Hj; have Mi : i \in iota 0 (size s) by rewrite mem_iota.
  have Mj : j \in iota 0 (size s) by rewrite mem_iota.
  exact: (eqP (allP (H i Mi) j Mj)).
split; first exact/eqP.
by apply/allP=> i; rewrite mem_iota => /andP[_ Hi]; apply/allP=> j; rewrite mem_iota => /andP[_ Hj]; rewrite H.
Qed.
Lemma eqpat_refl s : eqpat s s. Proof. exact/eqpatP. Qed.
Lemma eqpat_sym s t : eqpat s t -> eqpat t s.
Proof. by case/eqpatP=> E H; apply/eqpatP; split=> // i j Hi Hj; rewrite H ?E. Qed.
Lemma eqpat_trans s t u : eqpat s t -> eqpat t u -> eqpat s u.
Proof.
case/eqpatP=> E H /eqpatP[E' H']; apply/eqpatP; rewrite E; split=> // i j Hi Hj.
by rewrite H ?E // H'.
Qed.
Lemma eqpat_map (f : nat -> nat) s : {in s &, injective f} -> eqpat s (map f s).
Proof.
move=> I; apply/eqpatP; rewrite size_map; split=> // i j Hi Hj; rewrite !(nth_map 0) //.
by apply/eqP/eqP => [->//|/I]; apply; exact: mem_nth.
Qed.
Lemma eqpat_rcons s t x y : eqpat (rcons s x) (rcons t y) -> [/\ eqpat s t & forall i, i < size s -> (nth 0 s i == x) = (nth 0 t i == y)].
Proof.
case/eqpatP; rewrite !size_rcons => -[E] H; split.
  apply/eqpatP; split=> // i j Hi Hj; have := H i j (leqW Hi) (leqW Hj).
  by rewrite !nth_rcons -E Hi Hj.
move=> i Hi; have := H i (size s) (leqW Hi) (leqnn _).
by rewrite !nth_rcons -E Hi ltnn eqxx.
Qed.
Lemma rcons_eqpat s t x y : eqpat s t -> (forall i, i < size s -> (nth 0 s i == x) = (nth 0 t i == y)) -> eqpat (rcons s x) (rcons t y).
Proof.
case/eqpatP=> E H K; apply/eqpatP; rewrite !size_rcons E; split=> // i j; rewrite !ltnS => Hi Hj; rewrite !nth_rcons -E.
case: (ltngtP i (size s)) => [Li|/leq_trans/(_ Hi)|ei]; [|by rewrite E ltnn|];
case: (ltngtP j (size s)) => [Lj|/leq_trans/(_ Hj)|ej]; try by rewrite E ltnn.
- exact: H.
- exact: K.
- by rewrite eq_sym K // eq_sym.
by rewrite !eqxx.
Qed.

(** ** restricted growth strings: k letters, the first occurrences being 0, 1, ..., m-1 *)
Fixpoint rgs (k m : nat) : seq (seq nat) :=
  match k, m with
  | 0, 0 => [:: [::]]
  | k'.+1, m'.+1 => [seq rcons p x | p <- rgs k' m'.+1, x <- iota 0 m'.+1] ++ [seq rcons p m' | p <- rgs k' m']
  | _, _ => [::]
  end.
Lemma rgsS k m : rgs k.+1 m.+1 = [seq rcons p x | p <- rgs k m.+1, x <- iota 0 m.+1] ++ [seq rcons p m | p <- rgs k m].
Proof. by []. Qed.
Lemma size_rgs k m : size (rgs k m) = stirling2 k m.
Proof.
elim: k m => [|k IH] [|m] //; rewrite rgsS size_cat size_allpairs size_map !IH size_iota mulnC.
by [].
Qed.
Lemma rgs_split k m p : p \in rgs k.+1 m -> exists q x, p = rcons q x /\
  ((q \in rgs k m /\ x < m) \/ (q \in rgs k x /\ m = x.+1)).
Proof.
case: m => [//|m]; rewrite rgsS mem_cat => /orP[/allpairsP[[q x] [/= Hq Hx ->]]|/mapP[q Hq ->]].
  by exists q, x; split=> //; left; move: Hx; rewrite (mem_iota 0 m.+1).
by exists q, m; split=> //; right.
Qed.
Lemma rgs_mem k m p : p \in rgs k m -> size p = k /\ forall x, (x \in p) = (x < m).
Proof.
elim: k m p => [|k IH] m p; first by case: m => // /[!inE] /eqP ->.
move=> /rgs_split[q [x [-> [[Hq Hx]|[Hq ->]]]]]; have [Sq Mq] := IH _ _ Hq; rewrite size_rcons Sq; split=> // y;
  rewrite mem_rcons inE Mq; first by case: eqP => // ->.
by rewrite ltnS [in RHS]leq_eqVlt.
Qed.
Lemma rgs_unique k m m' p q : p \in rgs k m -> q \in rgs k m' -> eqpat p q -> p = q.
Proof.
elim: k m m' p q => [|k IH] m m' p q.
  by move=> Hp Hq _; have [/size0nil-> _] := rgs_mem Hp; have [/size0nil-> _] := rgs_mem Hq.
move=> /rgs_split[p' [x [-> Hx]]] /rgs_split[q' [y [-> Hy]]] /eqpat_rcons[E K].
have [a Ha Xa] : exists2 a, p' \in rgs k a & x <= a by case: Hx => -[H1 H2]; [exists m => //; exact: ltnW | exists x].
have [b Hb Yb] : exists2 b, q' \in rgs k b & y <= b by case: Hy => -[H1 H2]; [exists m' => //; exact: ltnW | exists y].
have e := IH _ _ _ _ Ha Hb E; rewrite -e in Hb K *; congr rcons.
have [_ Ma] := rgs_mem Ha; have [_ Mb] := rgs_mem Hb.
have ab : a = b by case: (ltngtP a b) => // L; [have := Ma a; rewrite Mb L ltnn | have := Mb b; rewrite Ma L ltnn].
rewrite -{}ab in Yb; case: (ltngtP x a) => [L|/leq_trans/(_ Xa)|ex]; last 2 first.
- by rewrite ltnn.
- case: (ltngtP y a) => [L|/leq_trans/(_ Yb)|->//]; last by rewrite ltnn.
  have Hy' : y \in p' by rewrite Ma.
  have Hi : index y p' < size p' by rewrite index_mem.
  by have := K _ Hi; rewrite nth_index // eqxx => /eqP.
have Hx' : x \in p' by rewrite Ma.
have Hi : index x p' < size p' by rewrite index_mem.
by have := K _ Hi; rewrite nth_index // eqxx => /esym/eqP.
Qed.
Lemma rgs_exists s : exists2 p, p \in rgs (size s) (size (undup s)) & eqpat s p.
Proof.
elim/last_ind: s => [|s x [p Hp E]]; first by exists [::].
have [Sp Mp] := rgs_mem Hp; have [_ K] := eqpatP _ _ E; rewrite size_rcons.
have U : size (undup (rcons s x)) = if x \in s then size (undup s) else (size (undup s)).+1.
  have P : perm_eq (undup (rcons s x)) (undup (x :: s)) by apply: perm_undup => y; rewrite mem_rcons.
  by rewrite (perm_size P) /=; case: ifP.
rewrite U; case: ifP => Hx.
  have Hi : index x s < size s by rewrite index_mem.
  exists (rcons p (nth 0 p (index x s))).
    have L : nth 0 p (index x s) < size (undup s) by rewrite -Mp mem_nth // Sp.
    case: (size (undup s)) Hp L => // m Hp L; rewrite rgsS mem_cat; apply/orP; left.
    by apply/allpairsP; exists (p, nth 0 p (index x s)); split=> //=; rewrite (mem_iota 0 m.+1).
  by apply: rcons_eqpat => // i Hii; rewrite -K // nth_index.
exists (rcons p (size (undup s))).
  by rewrite rgsS mem_cat; apply/orP; right; apply/mapP; exists p.
apply: rcons_eqpat => // i Hi.
have -> : (nth 0 s i == x) = false by apply/negbTE/eqP => e; move: Hx; rewrite -e mem_nth.
by apply/esym/negbTE/eqP => e; have := mem_nth 0 (_ : i < size p); rewrite Sp => /(_ Hi); rewrite Mp e ltnn.
Qed.
Lemma rgs_uniq k m : uniq (rgs k m).
Proof.
elim: k m => [|k IH] [|m] //; rewrite rgsS cat_uniq; apply/and3P; split.
- apply: allpairs_uniq => //; first exact: (iota_uniq 0 m.+1).
  by move=> [p x] [q y] _ _ /= /rcons_inj[-> ->].
- apply/hasPn => s /mapP[q Hq ->]; apply/negP => /allpairsP[[p x] [/= Hp Hx /rcons_inj[e _]]].
  have [_ Mq] := rgs_mem Hq; have [_ Mp] := rgs_mem Hp; have := Mq m; rewrite e Mp ltnSn ltnn //.
- by rewrite map_inj_uniq // => p q /rcons_inj[].
Qed.
Definition pats (n k : nat) : seq (seq nat) := flatten [seq rgs k m | m <- iota 0 n.+1].
Lemma size_pats n k : size (pats n k) = sumn [seq stirling2 k m | m <- iota 0 n.+1].
Proof. by rewrite size_flatten /shape -map_comp; congr sumn; apply: eq_map => m /=; rewrite size_rgs. Qed.
Lemma pats_mem n k p : reflect (exists2 m, m <= n & p \in rgs k m) (p \in pats n k).
Proof.
apply: (iffP flatten_mapP) => -[m]; rewrite ?mem_iota => Hm Hp; exists m => //.
by rewrite mem_iota.
Qed.
Lemma pats_unique n k p q : p \in pats n k -> q \in pats n k -> eqpat p q -> p = q.
Proof. by move=> /pats_mem[m _ Hp] /pats_mem[m' _ Hq]; exact: rgs_unique Hp Hq. Qed.
Lemma pats_uniq n k : uniq (pats n k).
Proof.
rewrite /pats; have : uniq (iota 0 n.+1) by exact: iota_uniq.
elim: (iota 0 n.+1) => //= m l IH /andP[Hm /IH U]; rewrite cat_uniq rgs_uniq U andbT /=.
apply/hasPn => p /flatten_mapP[m' Hm' Hp]; apply/negP => Hp'; have [_ M] := rgs_mem Hp; have [_ M'] := rgs_mem Hp'.
case: (ltngtP m m') => [L|L|e].
- by have := M m; rewrite M' L ltnn.
- by have := M m'; rewrite M' L ltnn.
by move: Hm; rewrite e Hm'.
Qed.
(** ** permutations between tuples of equal pattern *)
Lemma perm_between n s t : all (fun x => x < n) s -> all (fun x => x < n) t -> eqpat s t ->
  exists2 p, is_perm n p & moved_by p s = t.
Proof.
move=> As At /eqpatP[E H]; pose f x := nth 0 t (index x s).
have fs i : i < size s -> f (nth 0 s i) = nth 0 t i.
  move=> Hi; have Hx : index (nth 0 s i) s < size s by rewrite index_mem mem_nth.
  by apply/eqP; rewrite /f -H // nth_index ?mem_nth.
have Mf : [seq f x | x <- s] = t.
  apply: (@eq_from_nth _ 0); rewrite size_map // => i Hi; rewrite (nth_map 0) //; exact: fs.
have If : {in s &, injective f}.
  move=> x y Hx Hy /eqP; rewrite /f -H ?index_mem // !nth_index //; exact: eqP.
pose L := undup s ++ [seq x <- iota 0 n | x \notin s].
pose L' := map f (undup s) ++ [seq x <- iota 0 n | x \notin t].
have PL : perm_eq L (iota 0 n).
  apply: uniq_perm; rewrite ?iota_uniq //.
    rewrite cat_uniq undup_uniq filter_uniq ?iota_uniq // andbT /=.
    by apply/hasPn => x; rewrite mem_filter => /andP[N _]; rewrite /= mem_undup.
  move=> x; rewrite mem_cat mem_undup mem_filter mem_iota add0n /=.
  by case: (boolP (x \in s)) => //= Hx; rewrite (allP As _ Hx).
have PL' : perm_eq L' (iota 0 n).
  have Mt x : (x \in map f (undup s)) = (x \in t).
    rewrite -[in RHS]Mf; apply/mapP/mapP => -[y Hy ->]; exists y => //; move: Hy; by rewrite mem_undup.
  apply: uniq_perm; rewrite ?iota_uniq //.
    rewrite cat_uniq filter_uniq ?iota_uniq // andbT map_inj_in_uniq ?undup_uniq /=; last first.
      by move=> x y; rewrite !mem_undup; exact: If.
    by apply/hasPn => x; rewrite mem_filter => /andP[N _]; rewrite /= Mt.
  move=> x; rewrite mem_cat Mt mem_filter mem_iota add0n /=.
  by case: (boolP (x \in t)) => //= Hx; rewrite (allP At _ Hx).
have SL : size L = n by rewrite (perm_size PL) size_iota.
have SL' : size L' = n by rewrite (perm_size PL') size_iota.
pose p := mkseq (fun x => nth 0 L' (index x L)) n.
have ML x : x < n -> x \in L by move=> Hx; rewrite (perm_mem PL) mem_iota.
have UL : uniq L by rewrite (perm_uniq PL) iota_uniq.
have UL' : uniq L' by rewrite (perm_uniq PL') iota_uniq.
exists p.
  rewrite /is_perm /p /mkseq; apply: (perm_trans _ PL').
  have EL : L' = [seq nth 0 L' (index x L) | x <- L].
    apply: (@eq_from_nth _ 0); first by rewrite size_map SL.
    by rewrite SL' => i Hi; rewrite (nth_map 0) ?SL // index_uniq ?SL.
  rewrite [X in perm_eq _ X]EL; by apply: perm_map; rewrite perm_sym.
rewrite -[RHS]Mf; apply/eq_in_map => x Hx; rewrite nth_mkseq ?(allP As) //.
have Hu : x \in undup s by rewrite mem_undup.
rewrite /L index_cat Hu /L' nth_cat size_map index_mem Hu (nth_map 0) ?index_mem // nth_index //.
Qed.
Lemma moved_pat n p s : is_perm n p -> all (fun x => x < n) s -> eqpat s (moved_by p s).
Proof.
move=> P As; apply: eqpat_map => x y Hx Hy /eqP; rewrite nth_uniq ?(is_perm_size P) ?(allP As) //; first exact: eqP.
by rewrite (perm_uniq P) iota_uniq.
Qed.
(** the symmetric group: one tuple per partition of the positions into at most n blocks *)
Lemma sym_transversal n k : transversal n k (is_perm n) (pats n k).
Proof.
have OK s : s \in pats n k -> tuple_ok n k s.
  move=> /pats_mem[m Hm /rgs_mem[S M]]; split=> //; apply/allP=> x; rewrite M => Hx; exact: leq_trans Hx Hm.
split=> // [i j p Hi Hj P E|s [S A]].
  have [_ A] := OK _ (mem_nth [::] Hi).
  have := moved_pat P A; rewrite E => /(pats_unique (mem_nth _ Hi) (mem_nth _ Hj))/eqP.
  by rewrite nth_uniq ?pats_uniq // => /eqP.
have [q Hq E] := rgs_exists s; rewrite S in Hq.
have Hq' : q \in pats n k.
  apply/pats_mem; exists (size (undup s)) => //; rewrite -[X in _ <= X](size_iota 0); apply: uniq_leq_size; first exact: undup_uniq.
  by move=> x; rewrite mem_undup mem_iota add0n => /(allP A).
have [_ A'] := OK _ Hq'; have [p Pp Ep] := perm_between A A' E.
by exists p => //; rewrite Ep.
Qed.
Lemma bell_sum n k : k <= n -> sumn [seq stirling2 k m | m <- iota 0 n.+1] = bell k.
Proof.
have Z a b : a < b -> stirling2 a b = 0.
  elim: a b => [|a IH] [|b] //= L; rewrite (IH b) ?(IH b.+1) ?muln0 //; exact: ltnW.
move=> H; rewrite /bell -(subnKC H) -addSn iotaD map_cat sumn_cat add0n; set q := sumn (map _ (iota k.+1 _)).
suff -> : q = 0 by rewrite addn0.
have G d a : k < a -> sumn [seq stirling2 k m | m <- iota a d] = 0.
  by elim: d a => //= d IH a Ha; rewrite Z // IH // ltnW.
exact: G.
Qed.
