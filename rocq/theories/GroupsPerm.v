(** * GroupsPerm: the groups generated by permutations. *)
From mathcomp Require Import all_ssreflect all_algebra.
From mathcomp Require Import zify.
From Verif Require Import Np NpLemmas Spec SpecLemmas LinOp LinOpSpec LinOpMM LinOpInv.
From Verif Require Import Groups GroupsSpec GroupsCtor.
Set Implicit Arguments.
Unset Strict Implicit.
Unset Printing Implicit Defensive.
Import GRing.Theory.
Local Open Scope ring_scope.

Section Perm.
Variable R : comRingType.
Local Notation M n f := (fsel R n n f).

Lemma inv_uniq n (X Y Z : fmat R) : fr X = n -> fc X = n -> fr Y = n -> fc Y = n -> fr Z = n -> fc Z = n ->
  meq (fmul X Y) (fid R n) -> meq (fmul Z X) (fid R n) -> meq Y Z.
Proof.
move=> x1 x2 y1 y2 z1 z2 H1 H2.
have HY : meq (fmul (fid R n) Y) Y by apply: fmul_id_l.
apply: (meq_trans (meq_sym HY)).
apply: meq_trans (meq_fmul (meq_sym H2) (meq_refl Y) _) _; first by rewrite /= y1.
apply: meq_trans (meq_sym (fmul_assoc _ _ _)) _.
apply: meq_trans (meq_fmul (meq_refl Z) H1 _) _; first by rewrite /= z2.
by apply: fmul_id_r.
Qed.
Lemma words_sz n gens (X : fmat R) : (forall h, List.In h gens -> fr h = n /\ fc h = n) -> words n gens X -> fr X = n /\ fc X = n.
Proof.
move=> Hg; elim=> [Y [-> -> _] //|h Y Hh [-> -> _]|X' Y Z _ [x1 x2] _ [y1 y2] [-> -> _]|] //=; exact: Hg.
Qed.
Lemma words_meq n gens (X Y : fmat R) : meq X Y -> fr X = n -> fc X = n -> words n gens X -> words n gens Y.
Proof.
move=> E x1 x2 H; apply: (W_mul H (W_one _ (meq_refl (fid R n)))).
by apply: meq_trans (meq_sym E) _; apply: meq_sym; apply: fmul_id_r.
Qed.

(** *** products of permutation matrices *)
Definition bij (n : nat) (f g : nat -> nat) : Prop :=
  forall i, (i < n)%N -> [/\ (f i < n)%N, (g i < n)%N, g (f i) = i & f (g i) = i].
Definition isperm (n : nat) (X : fmat R) : Prop := exists f g, bij n f g /\ meq X (M n f).
Lemma bij_inv n f g : bij n f g -> meq (fmul (M n f) (M n g)) (fid R n).
Proof.
move=> H; apply: meq_trans (fmul_sel R _ _ _) _; first by move=> i /H[].
by split=> //= i j /H[_ _ -> _].
Qed.
Lemma bij_sym n f g : bij n f g -> bij n g f.
Proof. by move=> H i /H[]. Qed.
Lemma isperm_words n gens (X : fmat R) : (forall h, List.In h gens -> isperm n h) -> words n gens X -> isperm n X.
Proof.
move=> Hg; elim=> {X} [Y E|h Y Hh E|X Y Z _ [f [g [B1 E1]]] _ [f' [g' [B2 E2]]] E|X Y _ [f [g [B E]]] y1 y2 H1 H2].
- by exists id, id; split=> [i Hi //|]; apply: meq_trans E _; split.
- by have [f [g [B E2]]] := Hg _ Hh; exists f, g; split=> //; apply: meq_trans E E2.
- exists (f' \o f), (g \o g'); split.
    move=> i Hi /=; have [h1 h2 h3 h4] := B1 i Hi; have [k1 k2 k3 k4] := B2 i Hi.
    have [a1 _ a3 _] := B2 _ h1; have [_ b2 _ b4] := B1 _ k2; by rewrite a3 b4.
  apply: (meq_trans E); apply: meq_trans (meq_fmul E1 E2 _) _; first by have [_ -> _] := E1; have [-> _ _] := E2.
  by apply: fmul_sel => i /B1[].
exists g, f; split; first exact: bij_sym.
apply: (@inv_uniq n X) => //; try by have [-> -> _] := E.
have B' := bij_inv (bij_sym B).
by apply: meq_trans (meq_fmul (meq_refl _) E _) B'; have [-> _ _] := E.
Qed.
Lemma isperm_mat n (X : fmat R) : isperm n X <-> exists2 p, is_perm n p & meq X (perm_mat R n p).
Proof.
split=> [[f [g [B E]]]|[p Hp E]].
  exists (mkseq f n); last first.
    by apply: (meq_trans E); split=> //= i j Hi Hj; rewrite nth_mkseq.
  apply: is_permP; first by rewrite size_mkseq.
    rewrite /mkseq map_inj_in_uniq ?iota_uniq // => i j; rewrite !mem_iota !add0n /= => /B[_ _ Ei _] /B[_ _ Ej _] E2.
    by rewrite -Ei -Ej E2.
  by apply/allP => x /mapP[i]; rewrite mem_iota add0n => /= /B[Hi _ _ _] ->.
exists (nth 0%N p), (nth 0%N (argsort p)); split; last exact: E.
move=> i Hi; split; [exact: (is_perm_nth Hp) | exact: (is_perm_nth (argsort_perm Hp)) |  |].
  exact: (argsort_perm_nth Hp).
exact: (perm_argsort Hp).
Qed.

(** *** S(n) *)
Definition s_mats (n : nat) : seq (fmat R) := map (@den R) (gitems (GOps (map (OPerm R) (s_perms n)))).
Lemma s_isperm n h : List.In h (s_mats n) -> isperm n h.
Proof.
rewrite /s_mats /= -map_comp => /List.in_map_iff[p [<- Hp]]; apply/isperm_mat.
have Hp' : is_perm n p.
  move: (s_perms_perm n) => /allP; apply; elim: (s_perms n) Hp => //= q l IH [->|/IH Hl]; by rewrite in_cons ?eqxx // Hl orbT.
exists p => //; by rewrite /= (is_perm_size Hp').
Qed.
Lemma s_swap n t : (t < n)%N -> words n (s_mats n) (M n (swap0 t)).
Proof.
case: t => [|t] Ht.
  by apply: W_one; split=> //= i j _ _; rewrite /swap0; case: (i =P 0%N) => [->|].
apply: (@W_gen _ _ _ (den (OPerm R (mkseq (swap0 t.+1) n)))).
  rewrite /s_mats s_permsE /= -!map_comp.
  apply: (List.in_map (fun t => den (OPerm R (mkseq (swap0 t.+1) n)))).
  have : t \in iota 0 n.-1 by rewrite mem_iota add0n /= -ltnS prednK //; apply: leq_ltn_trans Ht.
  by elim: (iota 0 n.-1) => //= x l IH; rewrite in_cons => /orP[/eqP ->|/IH]; [left | right].
by rewrite /= size_mkseq; split=> //= i j Hi Hj; rewrite nth_mkseq.
Qed.
Lemma s_gen n m f g : (m <= n)%N -> bij n f g -> (forall i, (m <= i < n)%N -> f i = i) -> words n (s_mats n) (M n f).
Proof.
elim: m f g => [|m IH] f g Hm B Fx.
  by apply: W_one; split=> //= i j Hi Hj; rewrite Fx.
have [Hk _ _ _] := B m Hm; set k := f m in Hk.
have Km : (k <= m)%N.
  rewrite leqNgt; apply/negP => Hmk; have [_ _ E1 _] := B m Hm; have [_ _ E2 _] := B k Hk.
  have Fk : f k = k by apply: Fx; rewrite Hmk Hk.
  by rewrite -/k -{1}Fk E2 in E1; move: Hmk; rewrite E1 ltnn.
pose f' i := swap0 m (swap0 k (f i)); pose g' i := g (swap0 k (swap0 m i)).
have B' : bij n f' g'.
  move=> i Hi; have [h1 h2 h3 h4] := B i Hi; have Sm := swap0_lt Hm; have Sk := swap0_lt Hk.
  have [_ a2 _ a4] := B _ (Sk _ (Sm _ Hi)).
  rewrite /f' /g'; split=> //; [by apply: Sm; apply: Sk | by rewrite !swap0K | by rewrite a4 !swap0K].
have W' : words n (s_mats n) (M n f').
  apply: (IH f' g') => //; first exact: ltnW.
  move=> i /andP[Hi1 Hi2]; rewrite /f'; case: (m =P i) => [<-|/eqP ne].
    by rewrite -/k /swap0 eqxx; case: (0%N =P m) => [<-|].
  have Hmi : (m < i)%N by rewrite ltn_neqAle ne.
  rewrite Fx ?Hmi // /swap0 (gtn_eqF (leq_ltn_trans Km Hmi)) (gtn_eqF (leq_ltn_trans (leq0n m) Hmi)).
  by rewrite (gtn_eqF Hmi) (gtn_eqF (leq_ltn_trans (leq0n m) Hmi)).
have W1 := W_mul W' (s_swap Hm) (meq_refl _).
apply: (W_mul W1 (s_swap Hk)).
have E1 := @fmul_sel R n n n f' (swap0 m) (fun i Hi => let: And4 h _ _ _ := B' i Hi in h).
apply: meq_sym; apply: meq_trans (meq_fmul E1 (meq_refl _) _) _ => //.
apply: meq_trans (fmul_sel R _ _ _) _.
  by move=> i /B'[h _ _ _] /=; apply: swap0_lt.
by split=> //= i j Hi Hj; rewrite /f' swap0K swap0K.
Qed.
Theorem s_words n X : words n (s_mats n) X <-> exists2 p, is_perm n p & meq X (perm_mat R n p).
Proof.
split=> [/(isperm_words (@s_isperm n)) /isperm_mat //|].
case/isperm_mat => f [g [B E]]; apply: (words_meq (meq_sym E)) => //.
by apply: (s_gen (leqnn n) B) => i; rewrite leqNgt => /andP[/negP h1 /h1].
Qed.

(** *** Z(n) *)
Lemma fshift_nat n k : meq (fshift R n (Posz k)) (shift_mat R n k).
Proof. by split=> //= i j _ _; rewrite modz_nat eqz_nat. Qed.
Lemma shift_mod n k : meq (shift_mat R n (k %% n)) (shift_mat R n k).
Proof. by split=> //= i j _ _; rewrite modnDmr. Qed.
Lemma shift_id n : meq (shift_mat R n 0) (fid R n).
Proof. by split=> //= i j _ Hj; rewrite addn0 modn_small. Qed.
Lemma shift_mul n k l : meq (fmul (shift_mat R n k) (shift_mat R n l)) (shift_mat R n (k + l)).
Proof.
split=> //= i j Hi Hj; have n0 : (0 < n)%N by exact: leq_ltn_trans Hi.
rewrite (sum_delta' (fun t => (i == (t + k) %% n)%N%:R)) ?ltn_pmod //.
by rewrite modnDml -addnA [(l + k)%N]addnC.
Qed.
Lemma shift_inv n k : (k <= n)%N -> meq (fmul (shift_mat R n k) (shift_mat R n (n - k))) (fid R n).
Proof.
move=> Hk; apply: meq_trans (shift_mul n k (n - k)) _; rewrite subnKC //.
by apply: meq_trans (meq_sym (shift_mod n n)) _; rewrite modnn; apply: shift_id.
Qed.
Definition z_mats (n : nat) : seq (fmat R) := map (@den R) (gitems (GOps [:: OShift R n 1])).
Theorem z_words n X : (0 < n)%N -> words n (z_mats n) X <-> exists2 k, (k < n)%N & meq X (shift_mat R n k).
Proof.
move=> n0; split.
  elim=> {X} [X E|h X /= [<-|//] E|X Y Z _ [k _ E1] _ [l _ E2] E|X Y _ [k Hk E] y1 y2 H1 H2].
  - by exists 0%N => //; apply: meq_trans E (meq_sym (shift_id n)).
  - exists (1 %% n)%N; first by rewrite ltn_pmod.
    apply: (meq_trans E); apply: meq_trans (fshift_nat n 1) _; exact: meq_sym (shift_mod n 1).
  - exists ((k + l) %% n)%N; first by rewrite ltn_pmod.
    apply: (meq_trans E); apply: meq_trans (meq_fmul E1 E2 _) _; first by have [_ -> _] := E1; have [-> _ _] := E2.
    apply: meq_trans (shift_mul n k l) _; exact: meq_sym (shift_mod n _).
  exists ((n - k) %% n)%N; first by rewrite ltn_pmod.
  apply: meq_trans (meq_sym (shift_mod n _)); apply: (@inv_uniq n X) => //; try by have [-> -> _] := E.
  apply: meq_trans (meq_fmul (meq_refl _) E _) _; first by have [-> _ _] := E.
  apply: meq_trans (shift_mul n _ _) _; rewrite addnC; apply: meq_trans (meq_sym (shift_mul n _ _)) _.
  exact: (shift_inv (ltnW Hk)).
case=> k _ E; elim: k X E => [|k IH] X E; first by apply: W_one; apply: meq_trans E (shift_id n).
apply: (@W_mul _ n _ (shift_mat R n 1) (shift_mat R n k)); last 1 first.
- apply: (meq_trans E); apply: meq_sym; exact: shift_mul.
- by apply: (@W_gen _ _ _ (den (OShift R n 1))); [left | apply: meq_sym; apply: fshift_nat].
exact: IH (meq_refl _).
Qed.
Lemma shift_inj n k l : (k < n)%N -> (l < n)%N -> meq (shift_mat R n k) (shift_mat R n l) -> k = l.
Proof.
move=> Hk Hl [_ _ H]; have n0 : (0 < n)%N by exact: leq_ltn_trans Hk.
have := H k 0%N Hk n0; rewrite /= !add0n !modn_small // eqxx.
by case: eqP => // _ /eqP; rewrite oner_eq0.
Qed.

(** *** finite groups of permutations, by closure of a list *)
Lemma perm_mul n p q : is_perm n p -> is_perm n q ->
  meq (fmul (perm_mat R n p) (perm_mat R n q)) (perm_mat R n (gather 0%N q p)).
Proof.
move=> Hp Hq; apply: meq_trans (fmul_sel R _ _ _) _; first by move=> i; apply: is_perm_nth.
by split=> //= i j Hi _; rewrite nth_gather // (is_perm_size Hp).
Qed.
Lemma perm_mat_inj n p q : is_perm n p -> is_perm n q -> meq (perm_mat R n p) (perm_mat R n q) -> p = q.
Proof.
move=> Hp Hq [_ _ H]; apply: (@eq_from_nth _ 0%N); rewrite ?(is_perm_size Hp) ?(is_perm_size Hq) // => i Hi.
have := H i (nth 0%N p i) Hi (is_perm_nth Hp Hi); rewrite /= eqxx eq_sym.
by case: eqP => // _ /eqP; rewrite oner_eq0.
Qed.
Definition p_mats (ps : seq (seq nat)) : seq (fmat R) := map (@den R) (gitems (GOps (map (OPerm R) ps))).
Lemma p_in n ps h : all (is_perm n) ps -> List.In h (p_mats ps) -> exists2 p, p \in ps & h = perm_mat R n p.
Proof.
rewrite /p_mats /= -map_comp; elim: ps => //= p ps IH /andP[Hp Hps] [<-|H].
  by exists p; rewrite ?mem_head // /= (is_perm_size Hp).
by have [q Hq ->] := IH Hps H; exists q => //; rewrite in_cons Hq orbT.
Qed.
Lemma in_p n ps p : all (is_perm n) ps -> p \in ps -> List.In (perm_mat R n p) (p_mats ps).
Proof.
rewrite /p_mats /= -map_comp; elim: ps => //= q ps IH /andP[Hq Hps]; rewrite in_cons => /orP[/eqP ->|H].
  by left; rewrite /= (is_perm_size Hq).
by right; apply: IH.
Qed.
Lemma list_words n ps (L : seq (seq nat)) X :
  all (is_perm n) ps -> all (is_perm n) L -> iota 0 n \in L -> all (fun p => p \in L) ps ->
  all (fun p => all (fun q => gather 0%N q p \in L) L) L -> all (fun p => argsort p \in L) L ->
  words n (p_mats ps) X -> exists2 p, p \in L & meq X (perm_mat R n p).
Proof.
move=> Hp /allP HL H1 /allP Hg /allP Hm /allP Hi; elim=> {X} [X E|h X /(p_in Hp)[p Hps ->] E|X Y Z _ [p P E1] _ [q Q E2] E|X Y _ [p P E] y1 y2 H _].
- by exists (iota 0 n) => //; apply: (meq_trans E); split=> //= i j Hi' _; rewrite nth_iota.
- by exists p => //; apply: Hg.
- exists (gather 0%N q p); first by move/allP: (Hm p P); apply.
  apply: (meq_trans E); apply: meq_trans (meq_fmul E1 E2 _) _; first by have [_ -> _] := E1; have [-> _ _] := E2.
  by apply: perm_mul; apply: HL.
exists (argsort p); first exact: Hi.
apply: (@inv_uniq n X) => //; try by have [-> -> _] := E.
apply: meq_trans (meq_fmul (meq_refl _) E _) _; first by have [-> _ _] := E.
have Pp := HL p P; apply: meq_trans (perm_mul (argsort_perm Pp) Pp) _.
split=> //= i j Hi' _; rewrite nth_gather ?size_argsort ?(is_perm_size Pp) //.
by rewrite (perm_argsort Pp).
Qed.
(** the permutation of a word in the generators *)
Definition ev (n : nat) (ps : seq (seq nat)) (w : seq nat) : seq nat :=
  foldr (fun i acc => gather 0%N acc (nth [::] ps i)) (iota 0 n) w.
Lemma ev_words n ps w : all (is_perm n) ps -> all (fun i => i < size ps)%N w ->
  is_perm n (ev n ps w) /\ words n (p_mats ps) (perm_mat R n (ev n ps w)).
Proof.
move=> Hp; elim: w => [_|i w IH /= /andP[Hi /IH[P W]]] /=.
  by split; [exact: is_perm_iota | apply: W_one; split=> //= i j Hi _; rewrite nth_iota].
have Q : is_perm n (nth [::] ps i) by move/allP: Hp; apply; apply: mem_nth.
split; first exact: is_perm_gather.
apply: (W_mul _ W (meq_sym (perm_mul Q P))).
apply: W_gen (meq_refl _); apply: in_p => //; exact: mem_nth.
Qed.

(** *** Cube *)
Definition cube_words : seq (seq nat) :=
  [:: [::]; [:: 0]; [:: 1]; [:: 0; 0]; [:: 1; 0]; [:: 0; 1]; [:: 1; 1]; [:: 0; 0; 0]; [:: 1; 0; 0]; [:: 0; 1; 0]; [:: 1; 1; 0]; [:: 0; 0; 1]; [:: 0; 1; 1]; [:: 1; 1; 1]; [:: 1; 0; 0; 0]; [:: 0; 1; 0; 0]; [:: 1; 1; 0; 0]; [:: 0; 0; 1; 0]; [:: 1; 1; 1; 0]; [:: 0; 0; 0; 1]; [:: 0; 1; 1; 1]; [:: 0; 1; 0; 0; 0]; [:: 0; 0; 0; 1; 0]; [:: 0; 1; 1; 1; 0]]%N.
Definition cube24 : seq (seq nat) := map (ev 6 cube_perms) cube_words.
Lemma cube_closed : [&& size cube24 == 24%N, uniq cube24, all rotation cube24, iota 0 6 \in cube24,
  all (fun p => p \in cube24) cube_perms,
  all (fun p => all (fun q => gather 0%N q p \in cube24) cube24) cube24 & all (fun p => argsort p \in cube24) cube24].
Proof. by vm_compute. Qed.
Lemma cube_all : all (fun a => all (fun b => all (fun c =>
  let p := [:: a; b; c; opposite b; opposite c; opposite a] in rotation p ==> (p \in cube24)) (iota 0 6)) (iota 0 6)) (iota 0 6).
Proof. by vm_compute. Qed.
Lemma rotation_in p : rotation p = (p \in cube24).
Proof.
apply/idP/idP => [H|H]; last by have /and3P[_ _ /andP[/allP A _]] := cube_closed; apply: A.
have /and3P[Hp /allP Ho _] := H.
have Sp : size p = 6%N by rewrite (perm_size Hp) size_iota.
have B i : (i < 6)%N -> nth 0%N p i \in iota 0 6 by move=> Hi; rewrite -(perm_mem Hp) mem_nth // Sp.
have E : p = [:: nth 0%N p 0; nth 0%N p 1; nth 0%N p 2; opposite (nth 0%N p 1); opposite (nth 0%N p 2); opposite (nth 0%N p 0)].
  have h0 := eqP (Ho 0%N isT); have h1 := eqP (Ho 1%N isT); have h2 := eqP (Ho 2%N isT).
  rewrite -h0 -h1 -h2 /opposite /=.
  by clear -Sp; case: p Sp => [|? [|? [|? [|? [|? [|? [|? ?]]]]]]].
have /allP/(_ _ (B 0%N isT))/allP/(_ _ (B 1%N isT))/allP/(_ _ (B 2%N isT)) := cube_all.
by rewrite /= -E H.
Qed.
Definition cube_mats : seq (fmat R) := p_mats cube_perms.
Theorem cube_iff X : words 6 cube_mats X <-> exists2 p, rotation p & meq X (perm_mat R 6 p).
Proof.
have /and5P[_ _ Hr H1 /and3P[H2 H3 H4]] := cube_closed.
have HL : all (is_perm 6) cube24 by apply: sub_all Hr => p /and3P[].
split=> [H|[p]].
  by have [p Hp E] := list_words (isT : all (is_perm 6) cube_perms) HL H1 H2 H3 H4 H; exists p; rewrite ?rotation_in.
rewrite rotation_in => /mapP[w Hw ->] E.
have Hb : all (all (fun i => i < size cube_perms)%N) cube_words by [].
have [_ W] := @ev_words 6 cube_perms w isT (allP Hb w Hw).
exact: (words_meq (meq_sym E)) W.
Qed.
Lemma cube_count : exists ps, [/\ size ps = 24%N, uniq ps & forall p, rotation p = (p \in ps)].
Proof. by have /and3P[/eqP S U _] := cube_closed; exists cube24; split=> //; exact: rotation_in. Qed.

(** *** isometries *)
Lemma iso_words n gens (J X : fmat R) : fr J = n -> fc J = n ->
  (forall h, List.In h gens -> [/\ fr h = n, fc h = n & isometry J h]) ->
  words n gens X -> [/\ fr X = n, fc X = n & isometry J X].
Proof.
move=> j1 j2 Hg; rewrite /isometry.
have cong A B : fr B = n -> fc B = n -> meq A B -> isometry J B -> isometry J A.
  move=> b1 b2 E H; have [a1 a2 _] := E; apply: meq_trans H.
  apply: meq_fmul; [exact: meq_ftr | apply: (meq_fmul (meq_refl _) E); by rewrite j2 a1 b1 | by rewrite /= a1 j1 b1].
have mul A B : fr A = n -> fc A = n -> fr B = n -> fc B = n -> isometry J A -> isometry J B -> isometry J (fmul A B).
  move=> a1 a2 b1 b2 HA HB; apply: meq_trans HB.
  apply: meq_trans (meq_fmul (ftr_fmul (etrans a2 (esym b1))) (meq_refl _) _) _; first by rewrite /= a1 j1.
  apply: meq_trans (meq_sym (fmul_assoc _ _ _)) _.
  apply: meq_fmul; [exact: meq_refl | | by rewrite /= b1 a2].
  apply: meq_trans (meq_fmul (meq_refl _) (fmul_assoc _ _ _) _) _; first by rewrite /= a1 j1.
  apply: meq_trans (fmul_assoc _ _ _) _.
  by apply: meq_fmul; [exact: HA | exact: meq_refl | rewrite /= a2 b1].
elim=> {X} [X E|h X /Hg[h1 h2 h3] E|X Y Z _ [x1 x2 x3] _ [y1 y2 y3] E|X Y _ [x1 x2 x3] y1 y2 H1 H2].
- have [e1 e2 _] := E; split=> //; apply: (cong _ (fid R n)) => //.
  rewrite /isometry; apply: meq_trans (meq_fmul (ftr_fid _ _) (meq_refl _) _) _; first by rewrite /= j1.
  by apply: meq_trans (fmul_id_l _) _; rewrite /= ?j1 //; apply: fmul_id_r.
- by have [-> -> _] := E; split=> //; apply: (cong _ h).
- by have [-> -> _] := E; split=> //; apply: (cong _ (fmul X Y)) => //; apply: mul.
split=> //.
(* J = (X Y)^T J (X Y) = Y^T (X^T J X) Y = Y^T J Y *)
have E0 : isometry J (fmul X Y).
  apply: (cong _ (fid R n)) => //.
  rewrite /isometry; apply: meq_trans (meq_fmul (ftr_fid _ _) (meq_refl _) _) _; first by rewrite /= j1.
  by apply: meq_trans (fmul_id_l _) _; rewrite /= ?j1 //; apply: fmul_id_r.
apply: meq_trans E0; apply: meq_sym.
apply: meq_trans (meq_fmul (ftr_fmul (etrans x2 (esym y1))) (meq_refl _) _) _; first by rewrite /= x1 j1.
apply: meq_trans (meq_sym (fmul_assoc _ _ _)) _.
apply: meq_fmul; [exact: meq_refl | | by rewrite /= x2 y1].
apply: meq_trans (meq_fmul (meq_refl _) (fmul_assoc _ _ _) _) _; first by rewrite /= x1 j1.
apply: meq_trans (fmul_assoc _ _ _) _.
by apply: meq_fmul; [exact: x3 | exact: meq_refl | rewrite /= x2 y1].
Qed.
End Perm.
