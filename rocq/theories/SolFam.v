(** * SolFam: the constraints of a representation, one matrix per generator, and the
    solution basis assembled from the bases of its factors. *)
From mathcomp Require Import all_ssreflect all_algebra.
From mathcomp Require Import zify.
From Verif Require Import Np NpLemmas Spec SpecLemmas LinOp LinOpSpec LinOpProofs LinOpMM LinOpMore LinOpInv LinOpThm Rep RepSpec RepMat RepWf RepProd RepAlg RepDist RepMul RepFun RepOps RhoProofs RepThm DualNum DrhoProofs DrhoThm RepDir DirThm Solver SolSpec SolAlg.
Set Implicit Arguments.
Unset Strict Implicit.
Unset Printing Implicit Defensive.
Import GRing.Theory.
Local Open Scope ring_scope.

Section Fam.
Variable R : comRingType.
Variables (conj sinv : R -> R) (linv : nat -> seq R -> seq R).
Variables (crho cdrho : nat -> option gid -> gel R -> res (op R)).
Variables (gdim : gid -> nat) (csize : nat -> gid -> nat).
Variables (le : rel rep) (gs : pred gid).
Variables (gens lies : gid -> seq (op R)).
Local Notation sz := (rsize gdim csize).
Local Notation atomic := (atomic gdim csize).
Local Notation wfr := (wfr gdim csize le).
Local Notation dkey := (dkey gdim csize le).
Local Notation key := (key gdim csize le).
Local Notation nonsum := (nonsum gdim csize le).
Local Notation isprod := (isprod gdim csize le).
Local Notation group_elem := (group_elem conj sinv linv crho gdim csize).
Local Notation lie_elem := (lie_elem conj cdrho gdim csize).
Local Notation arho := (arho sinv linv crho).
Local Notation adrho := (adrho cdrho).
Local Notation elemG := (@elemG R gdim).
Local Notation elemL := (@elemL R gdim).

Hypothesis HG : forall g h, gs g -> List.In h (gens g) -> group_elem gs (elemG g h).
Hypothesis HL : forall g A, gs g -> List.In A (lies g) -> lie_elem gs (elemL g A).
(** user-defined representations send the identity to the identity and 0 to 0 *)
Hypothesis crho1 : forall c g C, gs g -> crho c (Some g) (GMat (OI R (gdim g))) = Ok C ->
  meq (den C) (fid R (csize c g)).
Hypothesis cdrho0 : forall c g C, gs g ->
  cdrho c (Some g) (GMat (OArr (gdim g) (gdim g) (nseq (gdim g * gdim g) 0))) = Ok C ->
  meq (den C) (fzero R (csize c g) (csize c g)).

(** a generator of one of the groups: discrete or infinitesimal *)
Record gix := Gix { gx : gid; gh : op R + op R;
  gxP : gs gx /\ match gh with inl h => List.In h (gens gx) | inr A => List.In A (lies gx) end }.

(** the constraint matrix of one generator: rho(h)-1 or drho(A) *)
Definition cm (x : gix) (r : rep) : fmat R :=
  match gh x with
  | inl h => fsub (rmat (arho (elemG (gx x) h)) r) (fid R (sz r))
  | inr A => dmat (adrho (elemL (gx x) A)) r
  end.

Lemma cm_sq x r : wfr gs r -> sqn (sz r) (cm x r).
Proof.
case: x => g [h|A] [Hg Hi] W; rewrite /cm /=.
  by have [h1 h2] := rmat_kok (HG Hg Hi) W; split.
exact: dmat_sq (HL Hg Hi) W.
Qed.

Lemma cm_scalar x : meq (cm x RScalar) (fzero R 1 1).
Proof.
case: x => g [h|A] ? //; split=> //= -[|i] [|j] // _ _.
by rewrite eqxx subrr.
Qed.

(** *** algebra *)
Implicit Types A B : fmat R.
Lemma fsub_id n A : meq A (fid R n) -> meq (fsub A (fid R n)) (fzero R n n).
Proof. by case=> h1 h2 h; split=> //= i j Hi Hj; rewrite h // subrr. Qed.
Lemma fsub_meq A B C D : meq A B -> meq C D -> fr A = fr C -> fc A = fc C -> meq (fsub A C) (fsub B D).
Proof. by move=> [h1 h2 h] [k1 k2 k] e1 e2; split=> //= i j Hi Hj; rewrite h // k // -?e1 -?e2. Qed.

Lemma fsub_fscat n p A : is_perm n p -> sqn n A -> meq (fsub (fscat p A) (fid R n)) (fscat p (fsub A (fid R n))).
Proof.
move=> P [a1 a2]; have [_ _ H] := fscat_fid R P.
split=> //= i j; rewrite (is_perm_size P) => Hi Hj.
by congr (_ - _); symmetry; apply: (H i j) => /=; rewrite (is_perm_size P).
Qed.

Lemma fsub_fdsum m n A B : sqn m A -> sqn n B ->
  meq (fsub (fdsum A B) (fid R (m + n))) (fdsum (fsub A (fid R m)) (fsub B (fid R n))).
Proof.
move=> [a1 a2] [b1 b2].
have [_ _ /= H] := fdsum_id R m n; split=> //= i j; rewrite a1 a2 b1 b2 => Hi Hj.
rewrite -(H i j) //=; case: ifP => Hm; case: ifP => Hn //; by rewrite subr0.
Qed.

Lemma fsub_kron1 m n A : sqn m A -> meq (fsub (fkron A (fid R n)) (fid R (m * n))) (fkronsum (fsub A (fid R m)) (fzero R n n)).
Proof.
move=> [a1 a2]; have [_ _ /= H] := fkron_id R m n; split=> //= i j; rewrite a1 a2 => Hi Hj.
by rewrite -(H i j) //= mulrDl mulNr mulr0 addr0.
Qed.
Lemma fsub_1kron m n B : sqn n B -> meq (fsub (fkron (fid R m) B) (fid R (m * n))) (fkronsum (fzero R m m) (fsub B (fid R n))).
Proof.
move=> [b1 b2]; have [_ _ /= H] := fkron_id R m n; split=> /=; rewrite ?b1 ?b2 // => i j Hi Hj.
by rewrite -(H i j) //= mulrDr mulrN mul0r add0r.
Qed.

Lemma fsub_dsuml (f : rep -> fmat R) l : (forall k, k \in l -> sqn (sz k) (f k)) ->
  meq (fsub (fdsuml (map f l)) (fid R (sumn (map sz l)))) (fdsuml [seq fsub (f k) (fid R (sz k)) | k <- l]) /\
  sqn (sumn (map sz l)) (fdsuml (map f l)).
Proof.
elim: l => [|k l IH] H; first by split.
have [E1 E2] := IH (fun x Hx => H x (mem_behead (s := k :: l) Hx)).
have Hk := H k (mem_head _ _); split.
  apply: meq_trans (fsub_fdsum Hk E2) _; apply: meq_fdsum => //; exact: meq_refl.
by case: E2 Hk => e1 e2 [h1 h2]; rewrite /sqn /= e1 e2 h1 h2.
Qed.

(** all but one of the factors trivial *)
Lemma fkronl_id (f : rep -> fmat R) l : (forall k, k \in l -> meq (f k) (fid R (sz k))) ->
  meq (fkronl (map f l)) (fid R (prodn (map sz l))).
Proof.
elim: l => [|k l IH] H /=; first exact: meq_refl.
apply: meq_trans (meq_fkron (H k (mem_head _ _)) (IH _)) (fkron_id _ _ _).
by move=> x Hx; apply: H; rewrite inE Hx orbT.
Qed.
Lemma fkronsum0 m n : meq (fkronsum (fzero R m m) (fzero R n n)) (fzero R (m * n) (m * n)).
Proof. by split=> //= i j Hi Hj; rewrite mul0r mulr0 addr0. Qed.
Lemma fkronsuml_0 (f : rep -> fmat R) l : (forall k, k \in l -> meq (f k) (fzero R (sz k) (sz k))) ->
  meq (fkronsuml (map f l)) (fzero R (prodn (map sz l)) (prodn (map sz l))).
Proof.
elim: l => [|k l IH] H /=; first exact: meq_refl.
have Hk := H k (mem_head _ _).
have Hl : meq (fkronsuml (map f l)) (fzero R (prodn (map sz l)) (prodn (map sz l))).
  by apply: IH => x Hx; apply: H; rewrite inE Hx orbT.
have [k1 k2 _] := Hk; have [l1 l2 _] := Hl.
apply: meq_trans (meq_fkronsum Hk Hl _ _) (fkronsum0 _ _); by rewrite ?k1 ?k2 ?l1 ?l2.
Qed.

(** *** constraints of sums and products in terms of their factors *)
Lemma dexp_ones d : all (fun c => c == 1%N) (vals d) -> dexp d = keys d.
Proof. by elim: d => [|[k c] d IH] //= /andP[/eqP -> /IH E]; rewrite -E. Qed.

Lemma key_wfr k : key gs k -> wfr gs k. Proof. by case/andP=> /nonsum_wfr. Qed.
Lemma dkey_wfr k : dkey gs k -> wfr gs k.
Proof. by move=> /(@sub_dkey gdim csize le gs) /key_wfr. Qed.

Lemma cm_sum x d p : wfr gs (RSum d p) ->
  meq (cm x (RSum d p)) (fscat p (fdsuml (map (cm x) (dexp d)))).
Proof.
case/orP=> [/or4P[] //|/andP[/and5P[_ A _ _ _] P]].
have W k : k \in dexp d -> wfr gs k by move/mem_dexp/(allP A)/key_wfr.
have sqs (f : rep -> fmat R) : (forall k, wfr gs k -> sqn (sz k) (f k)) -> sqn (sumn (map sz (dexp d))) (fdsuml (map f (dexp d))).
  by move=> H; have [|_] // := @fsub_dsuml f (dexp d); move=> k /W /H.
case: x => g [h|B] Hx; have [Hg Hi] := Hx; rewrite /cm /=; last by rewrite dexp_dmat; exact: meq_refl.
rewrite dexp_rmat -sumn_dexp.
have H k : wfr gs k -> sqn (sz k) (rmat (arho (elemG g h)) k) by move=> Wk; apply: rmat_kok (HG Hg Hi) Wk.
have P' : is_perm (sumn (map sz (dexp d))) p by rewrite sumn_dexp.
apply: meq_trans (fsub_fscat P' (sqs _ H)) _.
have [e1 e2] := sqs _ H.
apply: meq_fscat; rewrite /= ?e1 ?e2 //.
have [|E _] := @fsub_dsuml (rmat (arho (elemG g h))) (dexp d); first by move=> k /W /H.
exact: meq_trans E (meq_refl _).
Qed.

Lemma cm_prod x d : (forall k, k \in dexp d -> wfr gs k /\ (0 < sz k)%N) ->
  exists G, sqn (sz (RProd d [::])) G /\
    forall p, is_perm (sz (RProd d p)) p -> meq (cm x (RProd d p)) (fscat p G).
Proof.
move=> W; case: x => g [h|B] Hx; have [Hg Hi] := Hx; rewrite /cm /=.
  have H k : k \in dexp d -> kok (rmat (arho (elemG g h))) sz k by case/W=> Wk _; apply: rmat_kok (HG Hg Hi) Wk.
  have [e1 e2] := size_fkronl H; rewrite prodn_dexp /= in e1 e2.
  exists (fsub (fkronl (map (rmat (arho (elemG g h))) (dexp d))) (fid R (sz (RProd d [::])))).
  split; first by split.
  by move=> p P; rewrite dexp_rmat; apply: fsub_fscat.
have H k : k \in dexp d -> sqn (sz k) (dmat (adrho (elemL g B)) k) by case/W=> Wk _; apply: dmat_sq (HL Hg Hi) Wk.
exists (fkronsuml (map (dmat (adrho (elemL g B))) (dexp d))); split; last by move=> p P; rewrite dexp_dmat; exact: meq_refl.
have A : all (fun D => fr D == fc D) (map (dmat (adrho (elemL g B))) (dexp d)).
  by rewrite all_map; apply/allP=> k /H[/= -> ->].
split; rewrite ?fr_fkronsuml ?fc_fkronsuml // -?map_comp -/(prodn _).
  by rewrite -prodn_dexp; congr prodn; apply/eq_in_map=> k /H[].
by rewrite -prodn_dexp; congr prodn; apply/eq_in_map=> k /H[].
Qed.

Lemma cm_canon x r : wfr gs r -> ~~ is_sum r -> (if r is RDir _ _ then false else true) ->
  meq (cm x r) (fscat (cpm gdim csize r) (cm x (canon gdim csize r))).
Proof.
move=> W S D; have [c1 c2] := cm_sq x W.
case/orP: (W) => [|/= H]; last by case: r H S {W D c1 c2}.
case/or4P=> [/eqP Er|A|P|P]; last by case: r P D {W S c1 c2}.
- rewrite Er /=; apply: meq_sym; apply: meq_trans (meq_fscat (cm_scalar x) _ _) _ => //.
    by rewrite Er in c1 c2; rewrite c1.
    by rewrite Er in c1 c2; rewrite c1 c2.
  apply: meq_trans (meq_sym (cm_scalar x)).
  exact: (@fscat_id _ (fzero R 1 1)).
- rewrite (atomic_cpm A) (atomic_canon A) -c1; apply: meq_sym; apply: fscat_id; by rewrite c1 c2.
case: r P W S D c1 c2 => // d p P W _ _ c1 c2 /=.
have /andP[/and3P[/and5P[_ A _ _ _] _ _] Pp] := P.
have [|G [sG HGp]] := @cm_prod x d.
  move=> k /mem_dexp /(allP A) Ak; split; last exact: atomic_sz Ak.
  by apply/nonsum_wfr/atomic_sub.
apply: meq_trans (HGp p Pp) _.
have [g1 g2] := sG; rewrite /= in g1 g2; rewrite /= in Pp.
apply: meq_fscat; rewrite ?g1 ?g2 //.
have E := HGp (iota 0 (sz (RProd d p))) (perm_refl _).
apply: meq_sym; apply: meq_trans E _; rewrite /= -g1; apply: fscat_id; by rewrite g1 g2.
Qed.

(** *** a generator of one group acts trivially on representations of another one *)
Lemma atomic_grp g k : atomic gs k -> gattr k = Some (Some g) -> atomic (pred1 g) k.
Proof.
by case: k => // [[h|]|c [h|]|[|[h|]|c [h|]|?|? ?|? ?|? ?|?|?]] //= /andP[_ ->] [->]; rewrite eqxx.
Qed.
Lemma dkey_grp g k : dkey gs k -> gattr k = Some (Some g) -> dkey (pred1 g) k.
Proof.
case/orP=> [A E|/andP[P C] E]; first by rewrite /RepWf.dkey (atomic_grp A E).
rewrite /RepWf.dkey C andbT; apply/orP; right.
case: k P C E => // d p /andP[/and3P[/and5P[h1 h2 h3 h4 h5] h6 h7] h8] _ E.
rewrite /= h8 andbT; apply/and3P; split=> //; apply/and5P; split=> //.
apply/allP=> k Hk; apply: (atomic_grp (allP h2 _ Hk)).
rewrite (eqP (allP h7 _ Hk)) -E; case: d {h1 h2 h3 h4 h5 h6 h7 h8 Hk} E => [|[a b] d] //.
Qed.
(** a representation with an attribute G is one of the group G *)
Lemma single_grp g k : wfr gs k -> gattr k = Some (Some g) -> wfr (pred1 g) k /\ gs g.
Proof.
case/orP=> [/or4P[/eqP -> //|A E|P E|]|]; try by case: k.
- split; first by apply/nonsum_wfr/atomic_sub; exact: atomic_grp A E.
  by case: k A E => // [[h|]|c [h|]|[|[h|]|c [h|]|?|? ?|? ?|? ?|?|?]] //= /andP[Hg _] [<-].
case: k P E => // d p /andP[/and3P[/and5P[h1 h2 h3 h4 h5] h6 h7] h8] E; split.
  apply: nonsum_wfr; apply/or4P; apply: Or43; rewrite /= h8 andbT; apply/and3P; split=> //; apply/and5P; split=> //.
  apply/allP=> k Hk; apply: (atomic_grp (allP h2 _ Hk)).
  rewrite (eqP (allP h7 _ Hk)) -E; case: d {h1 h2 h3 h4 h5 h6 h7 h8 Hk} E => [|[a b] d] //.
case: d h2 E {h1 h3 h4 h5 h6 h7 h8} => [|[a b] d] //= /andP[A _].
by case: a A => // [[h|]|c [h|]|[|[h|]|c [h|]|?|? ?|? ?|? ?|?|?]] //= /andP[Hg _] [<-].
Qed.
Lemma dkey_grp_wfr g k : dkey gs k -> gattr k = Some (Some g) -> wfr (pred1 g) k.
Proof.
move=> D E; have := dkey_grp D E.
by move=> /(@sub_dkey gdim csize le (pred1 g)) /andP[/nonsum_wfr].
Qed.

Lemma invT_fid n (A B : fmat R) : sqn n A -> sqn n B -> meq A (fid R n) -> is_invT A B -> meq B (fid R n).
Proof.
move=> [a1 a2] [b1 b2] E [H _].
have : meq (ftr B) (fid R n).
  apply: meq_trans (meq_sym (fmul_id_l (n := n) _)) _; first by rewrite /= b2.
  rewrite a1 in H; apply: meq_trans H; apply: meq_fmul; rewrite /= ?b2 //; exact: meq_sym.
case=> _ _ h; split=> // i j; rewrite b1 b2 => Hi Hj.
by have := h j i; rewrite /= b1 b2 => -> //; rewrite eq_sym.
Qed.

Lemma gs_group_elem g h : gs g -> List.In h (gens g) -> forall g', gs g' -> group_elem (pred1 g') (elemG g h).
Proof. by move=> Hg Hh g' Hg' g'' /eqP ->; apply: HG. Qed.
Lemma gs_lie_elem g (A : op R) : gs g -> List.In A (lies g) -> forall g', gs g' -> lie_elem (pred1 g') (elemL g A).
Proof. by move=> Hg Hh g' Hg' g'' /eqP ->; apply: HL. Qed.

Lemma arho_triv g h g' k : gs g -> List.In h (gens g) -> gs g' -> g' != g -> atomic (pred1 g') k ->
  meq (arho (elemG g h) k) (fid R (sz k)).
Proof.
move=> Hg Hh Hg' N Ak; rewrite /RhoProofs.arho /atomf.
have [A0 E0 [I0 IC]] := HG Hg Hh Hg'.
have EA : A0 = OI R (gdim g') by move: E0; rewrite /= (negbTE N) => -[].
subst A0.
case: k Ak => // [[a|]|c [a|]|[|[a|]|c [a|]|?|? ?|? ?|? ?|?|?]] //= /andP[/eqP -> _]; rewrite ?E0 /=.
- by rewrite (negbTE N); exact: meq_refl.
- by have [C -> [E1 _]] := IC c; apply: crho1 E1.
- by rewrite (negbTE N) /=; exact: meq_refl.
have [C -> [E1 [GC [B EB [GB IB]]]]] := IC c; rewrite /= EB.
apply: (invT_fid (A := den C)) => //; [exact: gop_sz GC | exact: gop_sz GB | exact: crho1 E1].
Qed.

Lemma adrho_triv g (A : op R) g' k : gs g -> List.In A (lies g) -> gs g' -> g' != g -> atomic (pred1 g') k ->
  meq (adrho (elemL g A) k) (fzero R (sz k) (sz k)).
Proof.
move=> Hg Hh Hg' N Ak; rewrite /RhoProofs.adrho /atomf.
have [A0 E0 [I0 IC]] := HL Hg Hh Hg'.
have EA : A0 = OArr (gdim g') (gdim g') (nseq (gdim g' * gdim g') 0) by move: E0; rewrite /= (negbTE N) => -[].
subst A0.
have n0 n t : nth (0 : R) (nseq n 0) t = 0 by rewrite nth_nseq if_same.
have tz n (X : fmat R) : meq X (fzero R n n) -> meq (fopp (ftr X)) (fzero R n n).
  by case=> h1 h2 h; split=> //= i j Hi Hj; rewrite h //= oppr0.
case: k Ak => // [[a|]|c [a|]|[|[a|]|c [a|]|?|? ?|? ?|? ?|?|?]] //= /andP[/eqP -> _]; rewrite ?E0 /=.
- by rewrite (negbTE N); split=> //= i j Hi Hj; rewrite n0.
- by have [C -> [E1 _]] := IC c; apply: cdrho0 E1.
- rewrite (negbTE N); have [G1 G2] := I0; apply: meq_trans (negT_den G1) _; apply: tz.
  by split=> //= i j Hi Hj; rewrite n0.
have [C -> [E1 [GC GB]]] := IC c; rewrite /=.
apply: meq_trans (negT_den GC) _; apply: tz; exact: cdrho0 E1.
Qed.

Lemma dmat_zero gs' (a : rep -> fmat R) r : wfr gs' r -> (forall k, atomic gs' k -> meq (a k) (fzero R (sz k) (sz k))) ->
  meq (dmat a r) (fzero R (sz r) (sz r)).
Proof.
move=> W H.
apply: (@D_wfr R R (fun n _ B => meq B (fzero R n n)) _ _ _ _ _ gdim csize le gs' a a) W => //.
- move=> m n _ _ A B h k; apply: meq_trans (meq_fdsum h k) _; split=> //= i j Hi Hj.
  by case: ifP; case: ifP.
- move=> m n _ _ A B _ _ h k; have [h1 h2 _] := h; have [k1 k2 _] := k.
  apply: meq_trans (meq_fkronsum h k _ _) (fkronsum0 _ _); by rewrite ?h1 ?h2 ?k1 ?k2.
move=> n p _ B P h; have [h1 h2 _] := h.
apply: meq_trans (meq_fscat h _ _) _; rewrite ?h1 ?h2 //.
by split=> //=; rewrite (is_perm_size P).
Qed.

Lemma cm_triv_gen x k g : wfr (pred1 g) k -> gs g -> g != gx x -> meq (cm x k) (fzero R (sz k) (sz k)).
Proof.
move=> W Hg' N.
case: x N => g' [h|A] Hx /= N; have [Hg Hi] := Hx; rewrite /cm /=.
  by apply: fsub_id; apply: (rmat_id W) => a Ha; apply: (arho_triv Hg Hi Hg').
by apply: (dmat_zero W) => a Ha; apply: (adrho_triv Hg Hi Hg').
Qed.
Lemma cm_triv x k g : dkey gs k -> gattr k = Some (Some g) -> g != gx x -> meq (cm x k) (fzero R (sz k) (sz k)).
Proof.
move=> D E N; have W := dkey_grp_wfr D E.
have [g' E' Hg'] := dkey_gattr D; move: E'; rewrite E => -[Eg]; subst g'.
case: x N => g' [h|A] Hx /= N; have [Hg Hi] := Hx; rewrite /cm /=.
  by apply: fsub_id; apply: (rmat_id W) => a Ha; apply: (arho_triv Hg Hi Hg').
by apply: (dmat_zero W) => a Ha; apply: (adrho_triv Hg Hi Hg').
Qed.

Lemma rm_triv g h k g' : gs g -> List.In h (gens g) -> dkey gs k -> gattr k = Some (Some g') -> g' != g ->
  meq (rmat (arho (elemG g h)) k) (fid R (sz k)).
Proof.
move=> Hg Hi D E N; have W := dkey_grp_wfr D E.
have [g2 E' Hg'] := dkey_gattr D; move: E'; rewrite E => -[Eg]; subst g2.
by apply: (rmat_id W) => a Ha; apply: (arho_triv Hg Hi Hg').
Qed.

(** of the factors of a DirectProduct at most one is moved by a generator *)
Lemma others_triv x k ks : all (dkey gs) (k :: ks) -> uniq [seq gattr i | i <- k :: ks] ->
  gattr k = Some (Some (gx x)) -> forall i, i \in ks -> exists2 g, gattr i = Some (Some g) & g != gx x.
Proof.
move=> /= /andP[_ A] /andP[N _] E i Hi.
have [g Eg _] := dkey_gattr (allP A _ Hi); exists g => //.
by apply: contra N => /eqP Ex; rewrite E -Ex -Eg; apply: map_f.
Qed.

Lemma kronsum_triv x ks : all (dkey gs) ks ->
  (forall i, i \in ks -> exists2 g, gattr i = Some (Some g) & g != gx x) ->
  meq (fkronsuml (map (cm x) ks)) (fzero R (prodn (map sz ks)) (prodn (map sz ks))).
Proof.
move=> A H; apply: fkronsuml_0 => k Hk; have [g E N] := H k Hk.
exact: cm_triv (allP A _ Hk) E N.
Qed.

Lemma kron_cm g h (Hx : gs g /\ List.In h (gens g)) ks :
  let x := @Gix g (inl h) Hx in
  all (dkey gs) ks -> uniq [seq gattr i | i <- ks] ->
  meq (fsub (fkronl (map (rmat (arho (elemG g h))) ks)) (fid R (prodn (map sz ks))))
      (fkronsuml (map (cm x) ks)).
Proof.
move=> x; have [Hg Hi] := Hx; elim: ks => [|k ks IH] A U.
  by split=> //= -[|i] [|j] // _ _; rewrite eqxx subrr.
have [g' Eg Hg'] := dkey_gattr (allP A _ (mem_head _ _)).
have /andP[Ak As] : dkey gs k && all (dkey gs) ks by [].
set K := rmat (arho (elemG g h)) in IH *.
have sK i : i \in k :: ks -> sqn (sz i) (K i).
  by move=> Hk; apply: rmat_kok (HG Hg Hi) (dkey_wfr (allP A _ Hk)).
have [e1 e2] := @size_fkronl gdim csize R (arho (elemG g h)) ks (fun i Hk => sK i (mem_behead (s := k :: ks) Hk)); rewrite -/K in e1 e2.
have [c1 c2] := cm_sq x (dkey_wfr Ak).
have {}IH := IH As (_ : uniq [seq gattr i | i <- ks]).
have {}IH : meq (fsub (fkronl [seq K i | i <- ks]) (fid R (prodn [seq sz i | i <- ks]))) (fkronsuml [seq cm x i | i <- ks]).
  by apply: IH; case/andP: U.
have [i1 i2 _] := IH; rewrite /= e1 e2 in i1 i2.
have sk := sK k (mem_head _ _); have [k1 k2] := sk.
rewrite [fkronl _]/= [prodn _]/= [fkronsuml _]/=.
case: (boolP (g' == g)) => [/eqP Ge|Ng].
  have H := others_triv A U (etrans Eg (congr1 (Some \o Some) Ge) : gattr k = Some (Some (gx x))).
  have Z := kronsum_triv As H.
  have I : meq (fkronl (map K ks)) (fid R (prodn (map sz ks))).
    apply: fkronl_id => i Hik; have [g2 E2 N2] := H i Hik.
    exact: rm_triv Hg Hi (allP As _ Hik) E2 N2.
  apply: meq_trans (fsub_meq (meq_fkron (meq_refl _) I) (meq_refl _) _ _) _; rewrite /= ?k1 ?k2 ?e1 ?e2 //.
  apply: meq_trans (fsub_kron1 _ sk) _.
  apply: meq_fkronsum; rewrite /= ?k1 ?k2 //.
  exact: meq_sym.
have Z := cm_triv (x := x) Ak Eg Ng.
have I : meq (K k) (fid R (sz k)) by apply: rm_triv Hg Hi Ak Eg Ng.
apply: meq_trans (fsub_meq (meq_fkron I (meq_refl _)) (meq_refl _) _ _) _; rewrite /= ?k1 ?k2 ?e1 ?e2 //.
apply: meq_trans (fsub_1kron _ (Logic.conj e1 e2)) _.
apply: meq_fkronsum; rewrite /= ?e1 ?e2 //.
exact: meq_sym.
Qed.

Lemma cm_dir x d p : wfr gs (RDir d p) ->
  meq (cm x (RDir d p)) (fscat p (fkronsuml (map (cm x) (keys d)))).
Proof.
case/orP=> [/or4P[] // /andP[/and4P[/and5P[_ A _ _ _] V1 _ U] P]|//].
have E1 := dexp_ones V1; have Es : prodn (map sz (keys d)) = sz (RDir d p) by rewrite -E1 prodn_dexp.
case: x => g [h|B] Hx; have [Hg Hi] := Hx; last by rewrite /cm /= dexp_dmat E1; exact: meq_refl.
set x := Gix _.
have -> : cm x (RDir d p) = fsub (fscat p (fkronl (map (rmat (arho (elemG g h))) (dexp d)))) (fid R (sz (RDir d p))).
  by rewrite -dexp_rmat.
rewrite E1 -Es; rewrite -Es in P.
have sK i : i \in keys d -> kok (rmat (arho (elemG g h))) sz i.
  by move=> Hk; apply: rmat_kok (HG Hg Hi) (dkey_wfr (allP A _ Hk)).
have [e1 e2] := size_fkronl sK.
apply: meq_trans (fsub_fscat P (Logic.conj e1 e2)) _.
by apply: meq_fscat; rewrite /= ?e1 ?e2 //; apply: (kron_cm Hx).
Qed.

(** *** the solution basis of a representation from those of its factors *)
Hypothesis conjM : forall x y, conj (x * y) = conj x * conj y.
Hypothesis conj0 : conj 0 = 0.
Hypothesis conj1 : conj 1 = 1.
Local Notation sol := (sol conj).

Lemma sol_dsuml (q : rep -> fmat R) l : (forall k, k \in l -> wfr gs k /\ sol (sz k) (cm^~ k) (q k)) ->
  sol (sumn (map sz l)) (fun x => fdsuml (map (cm x) l)) (fdsuml (map q l)) /\
  forall x, sqn (sumn (map sz l)) (fdsuml (map (cm x) l)).
Proof.
elim: l => [|k l IH] H; first by split=> //; apply: sol_dnil.
have [Wk Sk] := H k (mem_head _ _).
have [|S1 S2] := IH; first by move=> i Hi; apply: H; rewrite inE Hi orbT.
have sk x := cm_sq x Wk.
split; first exact: (sol_dsum conj0 sk S2 Sk S1).
by move=> x; have [h1 h2] := sk x; have [k1 k2] := S2 x; rewrite /sqn /= h1 h2 k1 k2.
Qed.

Lemma sol_kronl (q : rep -> fmat R) l : all (dkey gs) l -> uniq [seq gattr i | i <- l] ->
  (forall k, k \in l -> sol (sz k) (cm^~ k) (q k)) ->
  sol (prodn (map sz l)) (fun x => fkronsuml (map (cm x) l)) (fkronl (map q l)) /\
  forall x, sqn (prodn (map sz l)) (fkronsuml (map (cm x) l)).
Proof.
elim: l => [|k l IH] A U H; first by split=> //; apply: sol_one.
have /andP[Ak As] : dkey gs k && all (dkey gs) l by [].
have Sk := H k (mem_head _ _).
have [|||S1 S2] := IH => //; first by case/andP: U.
  by move=> i Hi; apply: H; rewrite inE Hi orbT.
have sk x := cm_sq x (dkey_wfr Ak).
split; last by move=> x; have [h1 h2] := sk x; have [k1 k2] := S2 x; rewrite /sqn /= ?h1 ?h2 ?k1 ?k2.
apply: (sol_kron conjM _ sk S2 _ Sk S1).
  rewrite /prodn; elim: (l) As => [|i s IHs] //= /andP[Hi /IHs Hs].
  by rewrite muln_gt0 Hs (dkey_sz Hi).
move=> x; have [g' Eg Hg'] := dkey_gattr Ak.
case: (boolP (g' == gx x)) => [/eqP Ge|Ng].
  right; apply: kronsum_triv => //; apply: (others_triv A U).
  by rewrite Eg Ge.
by left; apply: cm_triv Ak Eg Ng.
Qed.

Definition qns (q : rep -> fmat R) (r : rep) : fmat R :=
  match r with
  | RScalar => fid R 1
  | RDir d p => frowp p (fkronl (map q (keys d)))
  | _ => frowp (cpm gdim csize r) (q (canon gdim csize r))
  end.
Definition qmat (q : rep -> fmat R) (r : rep) : fmat R :=
  if r is RSum d p then frowp p (fdsuml (map (qns q) (dexp d))) else qns q r.

(** the systems that are solved for r *)
Definition problems_ns (r : rep) : seq rep :=
  match r with
  | RScalar => [::]
  | RDir d _ => keys d
  | _ => [:: canon gdim csize r]
  end.
Definition problems (r : rep) : seq rep :=
  if r is RSum d p then flatten [seq problems_ns k | k <- keys d] else problems_ns r.

Lemma sol_ns (q : rep -> fmat R) r : nonsum gs r ->
  (forall c, c \in problems_ns r -> sol (sz c) (cm^~ c) (q c)) -> sol (sz r) (cm^~ r) (qns q r).
Proof.
move=> N H; have W := nonsum_wfr N.
have one : ~~ is_sum r -> (if r is RDir _ _ then false else true) -> r <> RScalar ->
   sol (sz r) (cm^~ r) (frowp (cpm gdim csize r) (q (canon gdim csize r))).
  move=> S D NS.
  have Hc : sol (sz (canon gdim csize r)) (cm^~ (canon gdim csize r)) (q (canon gdim csize r)).
    by apply: H; case: (r) S D NS => // *; rewrite ?mem_head.
  rewrite sz_canon in Hc.
  have sq x : sqn (sz r) (cm x (canon gdim csize r)).
    by rewrite -(sz_canon gdim csize r); apply: cm_sq; apply: canon_wfr.
  apply: sol_ext (meq_refl _) (sol_scat (is_perm_cpm W) sq Hc) => x.
  by apply: meq_sym; apply: cm_canon.
case/or4P: (N) => [/eqP E|A|P|P].
- rewrite E; apply: sol_ext (meq_refl _) (sol_one conj1 _) => x; apply: meq_sym; exact: cm_scalar.
- have -> : qns q r = frowp (cpm gdim csize r) (q (canon gdim csize r)) by case: (r) A.
  by apply: one; case: (r) A.
- have -> : qns q r = frowp (cpm gdim csize r) (q (canon gdim csize r)) by case: (r) P.
  by apply: one; case: (r) P.
case: r P N W H {one} => // d p P N W H.
have /andP[/and4P[/and5P[_ A _ _ _] V1 _ U] Pp] := P.
have Es : prodn (map sz (keys d)) = sz (RDir d p) by rewrite -(dexp_ones V1) prodn_dexp.
have [S1 S2] := sol_kronl A U H; rewrite Es in S1 S2.
apply: sol_ext (meq_refl _) (sol_scat Pp S2 S1) => x.
by apply: meq_sym; apply: cm_dir.
Qed.

Theorem sol_wfr (q : rep -> fmat R) r : wfr gs r ->
  (forall c, c \in problems r -> sol (sz c) (cm^~ c) (q c)) -> sol (sz r) (cm^~ r) (qmat q r).
Proof.
move=> W H; case/orP: (W) => [N|].
  have S : ~~ is_sum r by case/or4P: N; case: (r).
  have -> : qmat q r = qns q r by case: (r) S.
  by apply: sol_ns => // c Hc; apply: H; case: (r) S Hc.
case: r W H => // d p W H S.
have /andP[/and5P[_ A _ _ _] Pp] := S.
have [|S1 S2] := @sol_dsuml (qns q) (dexp d).
  move=> k /mem_dexp Hk; have Kk := allP A _ Hk; split; first exact: key_wfr.
  have /andP[Nk _] := Kk; apply: sol_ns => // c Hc; apply: H; apply/flattenP.
  by exists (problems_ns k) => //; apply: map_f.
rewrite sumn_dexp in S1 S2.
apply: sol_ext (meq_refl _) (sol_scat Pp S2 S1) => x.
by apply: meq_sym; apply: cm_sum.
Qed.
End Fam.
