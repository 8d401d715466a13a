(** * GroupsRubik: no identification of stickers with cubies is respected by RubiksCube(). *)
From Coq Require Import String.
From mathcomp Require Import all_ssreflect all_algebra.
From Verif Require Import Np NpLemmas Spec SpecLemmas LinOp LinOpSpec LinOpProofs LinOpMM LinOpInv LinOpMore.
From Verif Require Import Groups GroupsSpec GroupsInit GroupsCtor GroupsPerm GroupsThm.
Set Implicit Arguments.
Unset Strict Implicit.
Unset Printing Implicit Defensive.
Import GRing.Theory.
Local Open Scope ring_scope.

(** ** the permutations *)
(** b gives the cubie of each sticker; a move p takes the sticker at p[i] to i *)
Definition kept (b : nat -> nat) (p : seq nat) : bool :=
  all (fun i => all (fun i' => (b (nth 0%N p i) == b (nth 0%N p i')) ==> (b i == b i')) (iota 0 48)) (iota 0 48).
(** number of stickers of the cubie of x *)
Definition stickers (b : nat -> nat) (x : nat) : nat := count (fun y => b y == b x) (iota 0 48).

Definition inv_perms : seq (seq nat) := Eval vm_compute in map argsort rubik_perms.
Definition act (w : seq nat) (x : nat) : nat := foldl (fun x k => nth 0%N (nth [::] inv_perms k) x) x w.
Definition cert0 : seq (seq nat) := [:: [::]; [:: 0; 0; 0; 1; 0; 4; 0]; [:: 0; 1; 0; 0; 0]; [:: 1; 0; 0; 0; 2]; [:: 1; 0; 4]; [:: 1; 0; 0; 1]; [:: 1; 0; 0; 1]; [:: 1; 0; 4]; [::]; [::]; [::]; [:: 1; 0; 2; 1; 1]; [:: 1; 3]; [:: 1; 0; 0; 1]; [:: 1; 0; 0; 1]; [:: 1; 3]; [::]; [::]; [::]; [:: 1; 0; 2; 2; 2]; [:: 2; 4]; [:: 1; 1; 2; 2]; [:: 1; 1; 2; 2]; [:: 2; 4]; [::]; [::]; [::]; [:: 2; 0; 3; 3; 3]; [:: 1; 3]; [:: 1; 1; 3; 3]; [:: 1; 1; 3; 3]; [:: 1; 3]; [::]; [::]; [::]; [:: 1; 5; 4; 4; 4]; [:: 2; 4]; [:: 1; 1; 4; 4]; [:: 1; 1; 4; 4]; [:: 2; 4]; [::]; [::]; [::]; [::]; [::]; [::]; [::]; [::]]%N.
Definition cert1 : seq (seq nat) := [:: [:: 0; 0; 0; 1; 0]; [::]; [:: 0; 1; 0; 0; 0]; [:: 0; 0; 0; 1; 0]; [:: 1; 0; 4]; [:: 1; 0; 0; 1]; [:: 1; 0; 0; 1]; [:: 1; 0; 4]; [::]; [::]; [::]; [:: 1; 0; 2; 1; 1]; [:: 1; 3]; [:: 1; 0; 0; 1]; [:: 1; 0; 0; 1]; [:: 1; 3]; [::]; [::]; [::]; [:: 1; 0; 2; 2; 2]; [:: 2; 4]; [:: 1; 1; 2; 2]; [:: 1; 1; 2; 2]; [:: 2; 4]; [::]; [::]; [::]; [:: 2; 0; 3; 3; 3]; [:: 1; 3]; [:: 1; 1; 3; 3]; [:: 1; 1; 3; 3]; [:: 1; 3]; [::]; [::]; [::]; [:: 1; 5; 4; 4; 4]; [:: 2; 4]; [:: 1; 1; 4; 4]; [:: 1; 1; 4; 4]; [:: 2; 4]; [::]; [::]; [::]; [::]; [::]; [::]; [::]; [::]]%N.
(** the words keep x and bring every other y to a place where the Down turn moves it in a
    4-cycle, while the Down turn keeps x *)
Definition cert_ok (x : nat) (c : seq (seq nat)) : bool :=
  (act [:: 5]%N x == x) && all (fun y => (y == x) || let w := nth [::] c y in let z := act w y in
    [&& all (fun k => k < 6)%N w, act w x == x & uniq [:: x; z; act [:: 5]%N z; act [:: 5; 5]%N z]]) (iota 0 48).
Lemma cert0_ok : cert_ok 0 cert0. Proof. by vm_compute. Qed.
Lemma cert1_ok : cert_ok 1 cert1. Proof. by vm_compute. Qed.
Lemma inv_range : all (fun q => (size q == 48%N) && all (fun x => x < 48)%N q) inv_perms. Proof. by vm_compute. Qed.
Lemma inv_inv : all2 (fun p q => all (fun x => nth 0%N p (nth 0%N q x) == x) (iota 0 48)) rubik_perms inv_perms. Proof. by vm_compute. Qed.
Lemma perms_size : size rubik_perms = 6%N. Proof. by vm_compute. Qed.

Section Kept.
Variable b : nat -> nat.
Hypothesis Hb : all (kept b) rubik_perms.
Lemma in48 x : (x < 48)%N -> x \in iota 0 48. Proof. by rewrite mem_iota. Qed.
Lemma step_lt k x : (k < 6)%N -> (x < 48)%N -> (nth 0%N (nth [::] inv_perms k) x < 48)%N.
Proof.
move=> Hk Hx; have /(all_nthP [::])/(_ k Hk)/andP[/eqP S /(all_nthP 0%N) A] := inv_range.
by apply: A; rewrite S.
Qed.
Lemma step k x y : (k < 6)%N -> (x < 48)%N -> (y < 48)%N -> b x = b y ->
  b (nth 0%N (nth [::] inv_perms k) x) = b (nth 0%N (nth [::] inv_perms k) y).
Proof.
move=> Hk Hx Hy E; have Hk' : (k < size rubik_perms)%N by rewrite perms_size.
have /(all_nthP [::])/(_ k Hk') /allP K := Hb.
have R z : (z < 48)%N -> nth 0%N (nth [::] rubik_perms k) (nth 0%N (nth [::] inv_perms k) z) = z.
  move=> Hz; have := inv_inv; rewrite all2E => /andP[_ /(all_nthP ([::], [::]))/(_ k)].
  rewrite size_zip perms_size minnn => /(_ Hk); rewrite nth_zip ?perms_size // => A0.
  have /allP A : all (fun x => nth 0%N (nth [::] rubik_perms k) (nth 0%N (nth [::] inv_perms k) x) == x) (iota 0 48) := A0.
  exact/eqP/(A z (in48 Hz)).
have /allP K2 := K _ (in48 (step_lt Hk Hx)); have /implyP := K2 _ (in48 (step_lt Hk Hy)).
by rewrite !R // E eqxx => /(_ isT)/eqP.
Qed.
Lemma word w x y : all (fun k => k < 6)%N w -> (x < 48)%N -> (y < 48)%N -> b x = b y ->
  [/\ (act w x < 48)%N, (act w y < 48)%N & b (act w x) = b (act w y)].
Proof.
elim: w x y => //= k w IH x y /andP[Hk Hw] Hx Hy E.
by apply: IH => //; [exact: step_lt | exact: step_lt | exact: step].
Qed.
Lemma big_class x c : (x < 48)%N -> cert_ok x c -> (1 < stickers b x)%N -> (3 < stickers b x)%N.
Proof.
move=> Hx /andP[/eqP D /allP C] S1.
have [y Hy /andP[ne /eqP E]] : exists2 y, (y < 48)%N & (y != x) && (b y == b x).
  have [/hasP[y]|N] := boolP (has (fun y => (y != x) && (b y == b x)) (iota 0 48)); first by rewrite mem_iota => /= Hy P; exists y.
  have L : (stickers b x <= count (pred1 x) (iota 0 48))%N.
    have -> : stickers b x = count (fun z => (z == x) && (b z == b x)) (iota 0 48); last by apply: sub_count => z; case/andP.
    apply: eq_in_count => z Hz; have [-> //|nz] := eqVneq z x; case Ez: (b z == b x) => //; case/negP: N; by apply/hasP; exists z => //; rewrite nz Ez.
  move: (leq_trans S1 L); rewrite count_uniq_mem ?iota_uniq //; by case: (_ \in _).
have := C y (in48 Hy); rewrite (negbTE ne) orFb => /and3P[Hw /eqP Wx].
have [z1 z2 Ez] := word Hw Hy Hx E; rewrite Wx in z2 Ez.
move: z1 Ez; set z := act _ y => z1 Ez U.
have W5 : all (fun k => k < 6)%N [:: 5]%N by [].
have [t1 _ Et] := word W5 z1 z2 Ez; rewrite D in Et.
have [u1 _ Eu] := word W5 t1 z2 Et; rewrite D in Eu.
have L : (count (mem [:: x; z; act [:: 5]%N z; act [:: 5; 5]%N z]) (iota 0 48) <= stickers b x)%N.
  apply: sub_count => t /=; rewrite !inE => /or4P[] /eqP ->; by rewrite ?Ez ?Et ?Eu.
apply: leq_trans L; rewrite -size_filter.
have -> : (3 < size [seq t <- iota 0 48 | mem [:: x; z; act [:: 5]%N z; act [:: 5; 5]%N z] t])%N = (size [:: x; z; act [:: 5]%N z; act [:: 5; 5]%N z] <= size [seq t <- iota 0 48 | mem [:: x; z; act [:: 5]%N z; act [:: 5; 5]%N z] t])%N by [].
apply: uniq_leq_size => // t Ht; rewrite mem_filter; apply/andP; split; first exact: Ht.
apply: in48.
by move: Ht; rewrite !inE => /or4P[] /eqP ->.
Qed.
End Kept.

(** corner stickers of a face are 0, 2, 5, 7, edge stickers 1, 3, 4, 6 *)
Definition corner (x : nat) : bool := (x %% 8)%N \in [:: 0; 2; 5; 7]%N.

Local Opaque rubik_perms.
Section Matrices.
Variables (R : comRingType) (conj : R -> R) (close : seq R -> seq R -> bool).
Definition torn (b : nat -> nat) (G : group R) : Prop := exists h i j i' j', List.In h (gmats G) /\
  [/\ [/\ i < 48, j < 48, i' < 48 & j' < 48]%N, fe h i j = 1, fe h i' j' = 1, b j = b j' & b i <> b i'].
Lemma rubik_perm p : p \in rubik_perms -> is_perm 48 p.
Proof. have /allP H : all (is_perm 48) rubik_perms by vm_compute. exact: H. Qed.
Lemma kept_or_torn b (ps : seq (seq nat)) : all (is_perm 48) ps -> all (kept b) ps \/
  exists h i j i' j', List.In h (map (fun p => den (OPerm R p)) ps) /\ 
  [/\ [/\ i < 48, j < 48, i' < 48 & j' < 48]%N, fe h i j = 1, fe h i' j' = 1, b j = b j' & b i <> b i'].
Proof.
elim: ps => [|p ps IH] /=; first by left.
case/andP=> P /IH{IH}[K|[h [i [j [i' [j' [Hh H]]]]]]]; last by right; exists h, i, j, i', j'; split; [right | exact: H].
have [|/allPn[i Hi /allPn[i' Hi']]] := boolP (kept b p); first by left.
rewrite negb_imply => /andP[/eqP E /eqP N]; right; exists (den (OPerm R p)), i, (nth 0%N p i), i', (nth 0%N p i').
rewrite !mem_iota !add0n in Hi Hi'; split; first by left.
split; rewrite /= ?eqxx //; by split=> //; apply: is_perm_nth.
Qed.
Lemma rubik_G : exists2 G, g_rubik conj close = Ok G & [/\ g_d G = Some 48%N, gok conj 48 (g_gens G) & gmats G = map (fun p => den (OPerm R p)) rubik_perms].
Proof.
have [G E [E1 E2 E3 [_ E4]]] := rubik_ok conj close; exists G; first exact: E.
split; [exact: E1 | rewrite E3; exact: E4 |].
rewrite /gmats E3 /gitems -map_comp; exact: eq_map.
Qed.
Lemma torn_or b : all (kept b) rubik_perms \/ exists2 G, g_rubik conj close = Ok G & torn b G.
Proof.
have [G E [_ _ EG]] := rubik_G.
have [K|T] := kept_or_torn b (introT allP rubik_perm); first exact: or_introl K.
by right; exists G; [exact: E | rewrite /torn EG; exact: T].
Qed.
(** any identification of the corner stickers as triples is torn by a generator *)
Theorem corners_torn b : (forall x, (x < 48)%N -> corner x -> stickers b x = 3%N) -> exists2 G, g_rubik conj close = Ok G & torn b G.
Proof.
move=> H; have [K|T] := torn_or b; last exact: T.
by have := big_class K (isT : 0 < 48)%N cert0_ok; rewrite H // => /(_ isT).
Qed.
Theorem edges_torn b : (forall x, (x < 48)%N -> ~~ corner x -> stickers b x = 2%N) -> exists2 G, g_rubik conj close = Ok G & torn b G.
Proof.
move=> H; have [K|T] := torn_or b; last exact: T.
by have := big_class K (isT : 1 < 48)%N cert1_ok; rewrite H // => /(_ isT).
Qed.

(** every word permutes the stickers, corner stickers among themselves *)
Lemma kinds : all (fun p => all (fun i => corner (nth 0%N p i) == corner i) (iota 0 48)) rubik_perms. Proof. by vm_compute. Qed.
Definition kindperm (n : nat) (c : nat -> bool) (X : fmat R) : Prop :=
  exists f g, [/\ bij n f g, meq X (fsel R n n f) & forall i, (i < n)%N -> c (f i) = c i].
Lemma kind_words n c gens (X : fmat R) : (forall h, List.In h gens -> kindperm n c h) -> words n gens X -> kindperm n c X.
Proof.
move=> Hg; elim=> {X} [Y E|h Y Hh E|X Y Z _ [f [g [B1 E1 C1]]] _ [f' [g' [B2 E2 C2]]] E|X Y _ [f [g [B E C]]] y1 y2 H1 H2].
- by exists id, id; split=> [i Hi //||//]; apply: meq_trans E _; split.
- by have [f [g [B E2 C]]] := Hg _ Hh; exists f, g; split=> //; apply: meq_trans E E2.
- exists (f' \o f), (g \o g'); split.
  + move=> i Hi /=; have [h1 h2 h3 h4] := B1 i Hi; have [k1 k2 k3 k4] := B2 i Hi.
    have [a1 _ a3 _] := B2 _ h1; have [_ b2 _ b4] := B1 _ k2; by rewrite a3 b4.
  + apply: (meq_trans E); apply: meq_trans (meq_fmul E1 E2 _) _; first by have [_ -> _] := E1; have [-> _ _] := E2.
    by apply: fmul_sel => i /B1[].
  by move=> i Hi /=; rewrite C2 ?C1 //; case: (B1 i Hi).
exists g, f; split; first exact: bij_sym.
- apply: (@inv_uniq R n X) => //; try by have [-> -> _] := E.
  have B' := bij_inv R (bij_sym B).
  by apply: meq_trans (meq_fmul (meq_refl _) E _) B'; have [-> _ _] := E.
by move=> i Hi; have [_ gi _ fg] := B i Hi; rewrite -{2}fg C.
Qed.
Theorem rubik_kinds : gens_are (g_rubik conj close) 48 (fun gs => forall X, words 48 gs X ->
  exists2 p, is_perm 48 p & meq X (perm_mat R 48 p) /\ forall i, (i < 48)%N -> corner (nth 0%N p i) = corner i).
Proof.
apply: (built_gens_are (rubik_ok conj close)) => X; rewrite /gitems -map_comp => W.
have HK : forall h, List.In h [seq (@den R \o OPerm R) p | p <- rubik_perms] -> kindperm 48 corner h.
  move=> h Hh; have [p Hp' <-] : exists2 p, p \in rubik_perms & den (OPerm R p) = h.
    elim: (rubik_perms) Hh => //= q l IH [E|/IH[p Hp E]]; first by exists q => //; rewrite inE eqxx.
    by exists p => //; rewrite inE Hp orbT.
  have P := rubik_perm Hp'.
  have /allP/(_ _ Hp') /allP K := kinds.
  exists (nth 0%N p), (nth 0%N (argsort p)); split; last by move=> i Hi; apply/eqP/K; exact: in48.
    move=> i Hi; split; [exact: (is_perm_nth P) | exact: (is_perm_nth (argsort_perm P)) |  |].
      exact: (argsort_perm_nth P).
    exact: (perm_argsort P).
  have S := is_perm_size P; by split=> //=; rewrite ?S.
have [f [g [B E C]]] := kind_words HK W.
exists (mkseq f 48); last by split=> [|i Hi]; [apply: (meq_trans E); split=> //= i j Hi Hj; rewrite nth_mkseq | rewrite nth_mkseq // C].
apply: is_permP; first by rewrite size_mkseq.
  rewrite /mkseq map_inj_in_uniq ?iota_uniq // => i j; rewrite !mem_iota !add0n => /B[_ _ Ei _] /B[_ _ Ej _] E2.
  by rewrite -Ei -Ej E2.
by apply/allP => x /mapP[i]; rewrite mem_iota add0n => /B[Hi _ _ _] ->.
Qed.
End Matrices.

(** the stickers of a cube with the faces U, F, R, B, L, D *)
Definition cubies : seq (seq nat) :=
  [:: [:: 0; 26; 32]; [:: 2; 18; 24]; [:: 5; 8; 34]; [:: 7; 10; 16]; [:: 13; 39; 40]; [:: 15; 21; 42]; [:: 31; 37; 45]; [:: 23; 29; 47];
      [:: 1; 25]; [:: 3; 33]; [:: 4; 17]; [:: 6; 9]; [:: 11; 36]; [:: 12; 19]; [:: 14; 41]; [:: 20; 27]; [:: 22; 44]; [:: 28; 35]; [:: 30; 46]; [:: 38; 43]]%N.
Definition cubie (x : nat) : nat := find (fun c => x \in c) cubies.
Lemma cubie_ok : all (fun x => stickers cubie x == if corner x then 3 else 2)%N (iota 0 48) /\
  map (kept cubie) rubik_perms = [:: true; false; false; false; false; false].
Proof. by vm_compute. Qed.
