(** * RepMat: the matrix of a stored representation, given the matrices of its
    atoms, and the combinatorics of direct sums.

    [rmat atom r] is the meaning of the data structure (dictionary + permutation),
    written with the matrix vocabulary of [Spec] only.  RhoProofs shows that the lazy
    operator returned by rho has this matrix; the results below say how the
    constructors act on it. *)
From mathcomp Require Import all_ssreflect all_algebra.
From mathcomp Require Import zify.
From Verif Require Import Np NpLemmas Spec LinOp SpecLemmas Rep.
Set Implicit Arguments.
Unset Strict Implicit.
Unset Printing Implicit Defensive.
Import GRing.Theory.
Local Open Scope ring_scope.

Section RMat.
Variable R : comRingType.

(** P^-1 D P for the permutation matrix of v |-> v[p]. *)
Definition fscat (p : seq nat) (D : fmat R) : fmat R :=
  FM (size p) (size p) (fun x y => fe D (index x p) (index y p)).

Variable atom : rep -> fmat R.

Fixpoint rmat (r : rep) : fmat R :=
  match r with
  | RScalar => fid R 1
  | RSum d p => fscat p (fdsuml (flatten [seq nseq x.2 (rmat x.1) | x <- d]))
  | RProd d p | RDir d p => fscat p (fkronl (flatten [seq nseq x.2 (rmat x.1) | x <- d]))
  | RDefSum _ | RDefProd _ => fzero R 0 0
  | _ => atom r
  end.

Lemma dexp_rmat d : flatten [seq nseq x.2 (rmat x.1) | x <- d] = [seq rmat r | r <- dexp d].
Proof.
rewrite /dexp map_flatten -map_comp; congr flatten; apply: eq_map => x /=.
by rewrite map_nseq.
Qed.

Lemma meq_fscat p A B : meq A B -> is_perm (fr A) p -> fc A = fr A -> meq (fscat p A) (fscat p B).
Proof.
case=> h1 h2 h P E; split=> //= x y Hx Hy.
have S := is_perm_size P.
by rewrite h // ?E -?S index_mem (is_perm_mem _ P) -S.
Qed.

Lemma fscat_id A : fc A = fr A -> meq (fscat (iota 0 (fr A)) A) A.
Proof.
move=> E; split=> //=; rewrite ?size_iota // => x y Hx Hy.
by rewrite !index_in_iota ?subn0 ?add0n.
Qed.

Lemma fscat_fscat n p q A : is_perm n p -> is_perm n q ->
  meq (fscat p (fscat q A)) (fscat (gather 0%N p q) A).
Proof.
move=> P Q; split=> /=; rewrite ?size_gather ?(is_perm_size P) ?(is_perm_size Q) //.
have E x : (x < n)%N -> index x (gather 0%N p q) = index (index x p) q.
  move=> Hx.
  have Hip : (index x p < n)%N by rewrite -(is_perm_size P) index_mem (is_perm_mem _ P).
  have Hiq : (index (index x p) q < n)%N by rewrite -(is_perm_size Q) index_mem (is_perm_mem _ Q).
  have U : uniq (gather 0%N p q) by exact: is_perm_uniq (is_perm_gather P Q).
  rewrite -{1}[x](_ : nth 0%N (gather 0%N p q) (index (index x p) q) = _).
    by rewrite index_uniq // size_gather (is_perm_size Q).
  rewrite (@nth_gather _ 0%N 0%N) ?(is_perm_size Q) //.
  by rewrite nth_index ?nth_index // (is_perm_mem _ Q, is_perm_mem _ P).
by move=> x y Hx Hy; rewrite !E.
Qed.
End RMat.

(** ** Blocks.  A block is a representation and the list of the coordinates it
    occupies. *)
Section Dec.
Variable R : comRingType.
Variable K : rep -> fmat R.        (* matrix of a summand *)
Variable sz : rep -> nat.          (* its size *)
Implicit Types (A : fmat R) (B : seq (rep * seq nat)).

Definition blk_ok (b : rep * seq nat) : Prop :=
  [/\ size b.2 = sz b.1, fr (K b.1) = sz b.1 & fc (K b.1) = sz b.1].

(** A is block diagonal with the blocks B. *)
Definition dec (n : nat) A B : Prop :=
  [/\ fr A = n, fc A = n, perm_eq (flatten (map snd B)) (iota 0 n),
      forall b, b \in B -> blk_ok b &
      forall b c x y, b \in B -> c \in B -> (x < size b.2)%N -> (y < size c.2)%N ->
        fe A (nth 0%N b.2 x) (nth 0%N c.2 y) = if b == c then fe (K b.1) x y else 0].

Lemma dec_perm n A B B' : perm_eq B B' -> dec n A B -> dec n A B'.
Proof.
move=> P [h1 h2 h3 h4 h5]; split=> //.
- apply: perm_trans h3; apply: perm_flatten; rewrite perm_sym; exact: perm_map.
- by move=> b; rewrite -(perm_mem P); apply: h4.
- by move=> b c x y; rewrite -!(perm_mem P); apply: h5.
Qed.

Lemma dec_pos n A B i : dec n A B -> (i < n)%N ->
  exists b x, [/\ b \in B, (x < size b.2)%N & nth 0%N b.2 x = i].
Proof.
case=> _ _ P _ _ Hi.
have : i \in flatten (map snd B) by rewrite (perm_mem P) mem_iota.
case/flattenP=> s /mapP[b Hb ->] Hs; exists b, (index i b.2).
by rewrite index_mem nth_index.
Qed.

Lemma dec_uniq n A A' B : dec n A B -> dec n A' B -> meq A A'.
Proof.
move=> D D'; have [h1 h2 _ _ h5] := D; have [k1 k2 _ _ k5] := D'.
split; rewrite ?h1 ?h2 ?k1 ?k2 // => i j Hi Hj.
have [b [x [Hb Hx <-]]] := dec_pos D Hi; have [c [y [Hc Hy <-]]] := dec_pos D Hj.
by rewrite h5 // k5.
Qed.

Lemma dec_meq n A A' B : meq A A' -> dec n A B -> dec n A' B.
Proof.
case=> h1 h2 h [k1 k2 k3 k4 k5]; split; rewrite -?h1 -?h2 //.
move=> b c x y Hb Hc Hx Hy; rewrite -k5 // h //.
  rewrite k1; have : nth 0%N b.2 x \in flatten (map snd B).
    by apply/flattenP; exists b.2; [apply: map_f | apply: mem_nth].
  by rewrite (perm_mem k3) mem_iota.
rewrite k2; have : nth 0%N c.2 y \in flatten (map snd B).
  by apply/flattenP; exists c.2; [apply: map_f | apply: mem_nth].
by rewrite (perm_mem k3) mem_iota.
Qed.

Definition bshift (n : nat) (b : rep * seq nat) : rep * seq nat := (b.1, [seq (n + x)%N | x <- b.2]).
Definition bmap (q : seq nat) (b : rep * seq nat) : rep * seq nat := (b.1, gather 0%N q b.2).

Lemma bshift_inj n : injective (bshift n).
Proof.
move=> [r s] [r' s'] [-> E]; congr pair.
by apply: (inj_map _ E) => x y /addnI.
Qed.

Lemma dec_nil : dec 0 (fzero R 0 0) [::].
Proof. by split. Qed.

Lemma flatten_bshift n B : flatten (map snd (map (bshift n) B)) = [seq (n + x)%N | x <- flatten (map snd B)].
Proof. by rewrite -map_comp map_flatten -!map_comp. Qed.

Lemma dec_cat n m A A' B B' : dec n A B -> dec m A' B' ->
  dec (n + m) (fdsum A A') (B ++ map (bshift n) B').
Proof.
move=> D D'; have [h1 h2 h3 h4 h5] := D; have [k1 k2 k3 k4 k5] := D'.
have L b x : b \in B -> (x < size b.2)%N -> (nth 0%N b.2 x < n)%N.
  move=> Hb Hx; have : nth 0%N b.2 x \in flatten (map snd B).
    by apply/flattenP; exists b.2; [apply: map_f | apply: mem_nth].
  by rewrite (perm_mem h3) mem_iota.
have NE b c x y : b \in B -> c \in B' -> (x < size b.2)%N -> (y < size c.2)%N -> b == bshift n c = false.
  move=> Hb Hc Hx Hy; apply/eqP=> E; have := L _ _ Hb Hx; rewrite E /= (nth_map 0%N); first lia.
  by move: Hx; rewrite E /= size_map.
split=> /=; rewrite ?h1 ?k1 ?h2 ?k2 //.
- rewrite map_cat flatten_cat flatten_bshift iotaD add0n perm_cat //.
  have -> : iota n m = [seq (n + x)%N | x <- iota 0 m] by rewrite -iotaDl addn0.
  exact: perm_map.
- move=> b; rewrite mem_cat => /orP[/h4 //|/mapP[c /k4 [e1 e2 e3] ->]].
  by split=> //=; rewrite size_map.
move=> b c x y; rewrite !mem_cat => /orP[Hb|/mapP[b' Hb ->]] /orP[Hc|/mapP[c' Hc ->]] Hx Hy.
- by rewrite !L // h5.
- rewrite L // /= (nth_map 0%N); last by rewrite /= size_map in Hy.
  have -> : (n + nth 0%N c'.2 y < n)%N = false by lia.
  by rewrite (@NE b c' x y) //; rewrite /= size_map in Hy.
- rewrite (L c y) // /= (nth_map 0%N); last by rewrite /= size_map in Hx.
  have -> : (n + nth 0%N b'.2 x < n)%N = false by lia.
  by rewrite eq_sym (@NE c b' y x) //; rewrite /= size_map in Hx.
rewrite /= !size_map in Hx Hy.
rewrite /= !(nth_map 0%N) //.
have -> : (n + nth 0%N b'.2 x < n)%N = false by lia.
have -> : (n + nth 0%N c'.2 y < n)%N = false by lia.
by rewrite !addKn k5 // (inj_eq (@bshift_inj n)).
Qed.

Lemma dec_scat n A B q : is_perm n q -> dec n A B -> dec n (fscat q A) (map (bmap q) B).
Proof.
move=> Q D; have [h1 h2 h3 h4 h5] := D; have Sq := is_perm_size Q.
have L b x : b \in B -> (x < size b.2)%N -> (nth 0%N b.2 x < n)%N.
  move=> Hb Hx; have : nth 0%N b.2 x \in flatten (map snd B).
    by apply/flattenP; exists b.2; [apply: map_f | apply: mem_nth].
  by rewrite (perm_mem h3) mem_iota.
split=> //.
- have -> : flatten (map snd (map (bmap q) B)) = gather 0%N q (flatten (map snd B)).
    by rewrite gather_flatten -!map_comp.
  by apply: is_perm_gather.
- move=> b /mapP[c /h4 [e1 e2 e3] ->]; split=> //=; by rewrite size_gather.
move=> b c x y /mapP[b' Hb ->] /mapP[c' Hc ->] /=; rewrite !size_gather => Hx Hy.
rewrite !(@nth_gather _ 0%N 0%N) // !index_uniq ?(is_perm_uniq Q) ?Sq ?L //.
rewrite h5 //; congr (if _ then _ else _).
apply/eqP/eqP => [->//|[E1 E2]].
case: b' c' Hb Hc E1 E2 Hx Hy => [r s] [r' s'] /= Hb Hc -> E2 Hx Hy; congr pair.
have Es : size s = size s' by rewrite -(@size_gather _ 0%N q s) E2 size_gather.
apply: (@eq_from_nth _ 0%N) => // i Hi.
apply: (is_perm_inj Q); [exact: (L _ _ Hb Hi) | by apply: (L _ _ Hc); rewrite /= -Es |].
by rewrite -!(@nth_gather _ 0%N 0%N) // ?E2 // -Es.
Qed.

Definition blocks (rs : seq rep) (p : seq nat) : seq (rep * seq nat) :=
  zip rs (seq.reshape (map sz rs) p).

Lemma size_blocks rs p : size (blocks rs p) = size rs.
Proof. by rewrite size_zip /seq.reshape size_reshape size_map minnn. Qed.

Lemma blocks_cat rs rs' p p' : size p = sumn (map sz rs) ->
  blocks (rs ++ rs') (p ++ p') = blocks rs p ++ blocks rs' p'.
Proof.
rewrite /blocks; elim: rs p => [|r rs IH] p /= S; first by rewrite (size0nil S).
have Ht : (sz r <= size p)%N by rewrite S leq_addr.
congr cons; first by congr pair; rewrite takel_cat.
have -> : drop (sz r) (p ++ p') = drop (sz r) p ++ p'.
  rewrite drop_cat; case: ltnP => // Hs.
  by rewrite (eqP (_ : sz r - size p == 0)%N) ?drop0 ?drop_oversize // subn_eq0.
by rewrite IH // size_drop S addKn.
Qed.

Lemma blocks1 r p : size p = sz r -> blocks [:: r] p = [:: (r, p)].
Proof. by move=> S; rewrite /blocks /= -S take_size. Qed.

Lemma map_bmap_blocks rs q p :
  map (bmap q) (blocks rs p) = blocks rs (gather 0%N q p).
Proof.
rewrite /blocks; elim: rs p => [|r rs IH] p //=; congr cons.
  by rewrite /bmap /= /gather map_take.
by rewrite IH /gather map_drop.
Qed.

Lemma map_bshift_blocks rs n p :
  map (bshift n) (blocks rs p) = blocks rs [seq (n + x)%N | x <- p].
Proof.
rewrite /blocks; elim: rs p => [|r rs IH] p //=; congr cons.
  by rewrite /bshift /= map_take.
by rewrite IH map_drop.
Qed.

Lemma blocks_keys rs p : map fst (blocks rs p) = rs.
Proof. by rewrite -/unzip1 unzip1_zip // size_reshape size_map. Qed.

Lemma flatten_blocks rs p : size p = sumn (map sz rs) -> flatten (map snd (blocks rs p)) = p.
Proof.
by move=> S; rewrite -/unzip2 unzip2_zip ?size_reshape ?size_map // reshapeKr // S.
Qed.

Definition kok (r : rep) : Prop := fr (K r) = sz r /\ fc (K r) = sz r.

Lemma dec_fdsuml rs : (forall r, r \in rs -> kok r) ->
  dec (sumn (map sz rs)) (fdsuml (map K rs)) (blocks rs (iota 0 (sumn (map sz rs)))).
Proof.
elim: rs => [|r rs IH] H /=; first exact: dec_nil.
have [e1 e2] := H r (mem_head _ _).
have IH' := IH (fun k Hk => H k (@mem_behead _ (r :: rs) k Hk)).
have D1 : dec (sz r) (K r) (blocks [:: r] (iota 0 (sz r))).
  rewrite blocks1 ?size_iota //; split=> //.
  - by rewrite /= cats0.
  - by move=> b; rewrite inE => /eqP ->; split=> //=; rewrite size_iota.
  move=> b c x y; rewrite !inE => /eqP -> /eqP -> /=; rewrite size_iota => Hx Hy.
  by rewrite eqxx !nth_iota.
have := dec_cat D1 IH'; rewrite map_bshift_blocks -iotaDl addn0 -blocks_cat ?size_iota //=.
  by rewrite -{1}[sz r in X in _ ++ iota X _]add0n -iotaD.
by rewrite addn0.
Qed.

Lemma fr_fdsuml rs : (forall r, r \in rs -> kok r) -> fr (fdsuml (map K rs)) = sumn (map sz rs).
Proof. by move/dec_fdsuml=> []. Qed.
Lemma fc_fdsuml rs : (forall r, r \in rs -> kok r) -> fc (fdsuml (map K rs)) = sumn (map sz rs).
Proof. by move/dec_fdsuml=> []. Qed.

Lemma dec_blocks rs p : (forall r, r \in rs -> kok r) -> is_perm (sumn (map sz rs)) p ->
  dec (sumn (map sz rs)) (fscat p (fdsuml (map K rs))) (blocks rs p).
Proof.
move=> H P; have := dec_scat P (dec_fdsuml H).
by rewrite map_bmap_blocks -{2}(is_perm_size P) gather_iota.
Qed.
End Dec.

Section SumCanon.
Variables (gdim : gid -> nat) (csize : nat -> gid -> nat).
Local Notation sz := (rsize gdim csize).
Local Notation blocks := (blocks sz).

Lemma dexp_cat c d : dexp (c ++ d) = dexp c ++ dexp d.
Proof. by rewrite /dexp map_cat flatten_cat. Qed.
Lemma dexp_cons x d : dexp (x :: d) = nseq x.2 x.1 ++ dexp d. Proof. by []. Qed.

Lemma mem_dexp d r : r \in dexp d -> r \in keys d.
Proof. by case/flattenP=> s /mapP[x Hx ->] /nseqP[-> _]; apply: map_f. Qed.

Lemma sumn_dexp d : sumn (map sz (dexp d)) = sumn [seq (sz x.1 * x.2)%N | x <- d].
Proof.
elim: d => [|x d IH] //=; rewrite map_cat sumn_cat IH; congr addn.
by rewrite map_nseq sumn_nseq.
Qed.

Lemma cnt_notin d r : r \notin keys d -> cnt d r = 0%N.
Proof.
move=> H; rewrite /cnt nth_default // size_map; move: H.
by rewrite -index_mem -leqNgt size_map.
Qed.

Lemma cnt_catr c d r : r \notin keys c -> cnt (c ++ d) r = cnt d r.
Proof.
move=> H; rewrite /cnt /keys /vals !map_cat index_cat -/(keys c) (negbTE H) nth_cat.
by rewrite !size_map ltnNge leq_addr /= addKn.
Qed.

Lemma cnt_head x d : cnt (x :: d) x.1 = x.2.
Proof. by rewrite /cnt /= eqxx. Qed.

Definition sinv (us : seq rep) (s : dict * nat * seq nat) (rem : dict) : Prop :=
  [/\ exists pre, s.1.1 = pre ++ rem, uniq (keys s.1.1),
      keys rem = [seq r <- us | r \in keys s.1.1] &
      size (drop s.1.2 s.2) = sumn (map sz (dexp rem))].

Definition adv_rem (r : rep) (rem : dict) : dict :=
  if r \in keys rem then behead rem else rem.

Lemma filter_blocks_notin r rs p : r \notin rs -> [seq b <- blocks rs p | b.1 == r] = [::].
Proof.
move=> H; apply/eqP; rewrite -(negbK (_ == [::])) -has_filter; apply/hasPn=> b Hb.
by apply: contra H => /eqP <-; rewrite -[rs](blocks_keys sz rs p); apply: map_f.
Qed.

Lemma filter_blocks_nseq r c p : [seq b <- blocks (nseq c r) p | b.1 == r] = blocks (nseq c r) p.
Proof.
apply/all_filterP/allP=> b Hb; have : b.1 \in nseq c r.
  by rewrite -[nseq c r](blocks_keys sz _ p); apply: map_f.
by case/nseqP=> ->.
Qed.

Lemma sinv_head r us s rem : uniq (r :: us) -> sinv (r :: us) s rem -> r \in keys s.1.1 ->
  exists2 rem', rem = (r, cnt s.1.1 r) :: rem' & r \notin keys rem'.
Proof.
move=> /= /andP[Hr U] [[pre E] Uk Ek _] Hin.
rewrite /= Hin in Ek; case: rem E Ek => [|[k c] rem] //= E [Ek1 Ek].
have N : r \notin keys rem by rewrite Ek mem_filter (negbTE Hr) andbF.
exists rem => //; rewrite Ek1 E cnt_catr ?cnt_head; last first.
  move: Uk; rewrite E /keys map_cat cat_uniq /= Ek1 => /and3P[_ /norP[]] //.
by rewrite -Ek1 (cnt_head (k, c)).
Qed.

Lemma sinv_step r us s rem : uniq (r :: us) -> sinv (r :: us) s rem ->
  [/\ sinv us (sum_adv gdim csize r s) (adv_rem r rem),
      blocks (nseq (cnt s.1.1 r) r) (sum_chunk gdim csize r s) =
        [seq b <- blocks (dexp rem) (drop s.1.2 s.2) | b.1 == r],
      size (sum_chunk gdim csize r s) = sumn (map sz (nseq (cnt s.1.1 r) r)) &
      forall r', r' \in us ->
        [seq b <- blocks (dexp rem) (drop s.1.2 s.2) | b.1 == r'] =
        [seq b <- blocks (dexp (adv_rem r rem)) (drop (sum_adv gdim csize r s).1.2 (sum_adv gdim csize r s).2) | b.1 == r']].
Proof.
move=> U H; have HH := sinv_head U H; case: s H HH => [[c i] p] [[pre E] Uk Ek Es] /= HH.
rewrite /= in E Uk Ek Es.
have [Hr Uu] : r \notin us /\ uniq us by case/andP: U.
have SN n : sumn (map sz (nseq n r)) = (n * sz r)%N by rewrite map_nseq sumn_nseq mulnC.
have [Hin|Hin] := boolP (r \in keys c); last first.
  rewrite (negbTE Hin) in Ek.
  have N : r \notin keys rem by rewrite Ek mem_filter negb_and Hin.
  have A : adv_rem r rem = rem by rewrite /adv_rem (negbTE N).
  rewrite (cnt_notin Hin) mul0n addn0 A; split=> //.
  - by split=> //; exists pre.
  - rewrite filter_blocks_notin //; apply: contra N; exact: mem_dexp.
  - by rewrite /slice subnn take0.
have [rem' Erem N] := HH Hin.
set k := cnt c r in Erem *.
have A : adv_rem r rem = rem' by rewrite /adv_rem Erem inE eqxx.
rewrite Erem dexp_cons /= map_cat sumn_cat SN in Es.
have Hk : (k * sz r <= size (drop i p))%N by rewrite Es leq_addr.
have Sc : size (slice i (i + k * sz r) p) = (k * sz r)%N by rewrite /slice addKn size_takel.
have Ed : drop i p = slice i (i + k * sz r) p ++ drop (i + k * sz r) p.
  by rewrite /slice addKn -{1}(cat_take_drop (k * sz r) (drop i p)) drop_drop addnC.
have EB : blocks (dexp rem) (drop i p) =
    blocks (nseq k r) (slice i (i + k * sz r) p) ++ blocks (dexp rem') (drop (i + k * sz r) p).
  by rewrite Erem dexp_cons /= Ed blocks_cat // SN.
rewrite A EB; split=> //.
- split=> //=; first by exists (rcons pre (r, k)); rewrite cat_rcons E Erem.
    by have := Ek; rewrite Erem /= Hin => -[].
  by have := Es; rewrite Ed size_cat Sc => /addnI.
- rewrite filter_cat filter_blocks_nseq [X in _ ++ X]filter_blocks_notin ?cats0 //.
  by apply: contra N; apply: mem_dexp.
- by rewrite Sc SN.
move=> r' Hr'; rewrite filter_cat filter_blocks_notin //.
by apply/negP=> /nseqP[E' _]; rewrite -E' Hr' in Hr.
Qed.

Lemma sum_loop_ok us (ss : seq (dict * nat * seq nat * dict)) :
  uniq us -> (forall x, x \in ss -> sinv us x.1 x.2) ->
  let dp := sum_loop gdim csize us (map fst ss) in
  [/\ dp.1 = [seq (r, sumn [seq cnt x.1.1.1 r | x <- ss]) | r <- us],
      size dp.2 = sumn (map sz (dexp dp.1)) &
      blocks (dexp dp.1) dp.2 =
      flatten [seq flatten [seq [seq b <- blocks (dexp x.2) (drop x.1.1.2 x.1.2) | b.1 == r] | x <- ss] | r <- us]].
Proof.
elim: us ss => [|r us IH] ss U H //.
pose nx (x : dict * nat * seq nat * dict) := (sum_adv gdim csize r x.1, adv_rem r x.2).
have [] := IH (map nx ss).
- by case/andP: U.
- by move=> y /mapP[x Hx ->]; have [] := sinv_step U (H _ Hx).
have -> : map fst (map nx ss) = map (sum_adv gdim csize r) (map fst ss) by rewrite -!map_comp.
have Ecnt k : [seq cnt x.1.1.1 k | x <- map nx ss] = [seq cnt x.1.1.1 k | x <- ss].
  by rewrite -map_comp; apply: eq_map => -[[[c i] p] d].
rewrite /=; case E: (sum_loop gdim csize us _) => [d p] /= H1 H2 H3.
split=> //=.
- congr (_ :: _); last by rewrite H1; apply: eq_map => k; rewrite Ecnt.
  by rewrite -map_comp.
- rewrite size_cat dexp_cons map_cat sumn_cat H2; congr addn => /=.
  rewrite -map_comp size_flatten /shape; elim: ss H {IH E Ecnt H1 H2 H3} => [|x ss IH] H //=.
  rewrite (IH (fun y Hy => H y (@mem_behead _ (x :: ss) y Hy))) nseqD map_cat sumn_cat.
  by have [_ _ -> _] := sinv_step U (H x (mem_head _ _)).
rewrite dexp_cons /= blocks_cat; last first.
  rewrite -map_comp size_flatten /shape; elim: ss H {IH E Ecnt H1 H2 H3} => [|x ss IH] H //=.
  rewrite (IH (fun y Hy => H y (@mem_behead _ (x :: ss) y Hy))) nseqD map_cat sumn_cat.
  by have [_ _ -> _] := sinv_step U (H x (mem_head _ _)).
congr (_ ++ _).
  elim: ss H {IH E Ecnt H1 H2 H3} => [|x ss IH] H //=.
  have [_ E1 E2 _] := sinv_step U (H x (mem_head _ _)).
  by rewrite nseqD blocks_cat // E1 IH // => y Hy; apply: H; rewrite inE Hy orbT.
rewrite H3; congr flatten; apply/eq_in_map => k Hk; rewrite -map_comp; congr flatten.
apply/eq_in_map => x Hx /=; have [_ _ _ E4] := sinv_step U (H x Hx).
by rewrite E4.
Qed.
End SumCanon.
