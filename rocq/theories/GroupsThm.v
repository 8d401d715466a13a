(** * GroupsThm: generators of the built-in groups, in terms of the constructors. *)
From Coq Require Import String.
From mathcomp Require Import all_ssreflect all_algebra.
From mathcomp Require Import zify.
From Verif Require Import Np NpLemmas Spec SpecLemmas LinOp LinOpSpec Cplx.
From Verif Require Import Groups GroupsSpec GroupsLoop GroupsLie GroupsSp GroupsLor GroupsU GroupsInit GroupsCtor GroupsPerm.
Set Implicit Arguments.
Unset Strict Implicit.
Unset Printing Implicit Defensive.
Import GRing.Theory.
Local Open Scope ring_scope.
Local Opaque so13_lie so13_z.

Section Thm.
Variables (R : comRingType) (conj re : R -> R) (im : R) (recip cosk sink : nat -> R) (close : seq R -> seq R -> bool).

(** the matrices of the Lie algebra generators and of the discrete generators of a group *)
Definition lmats (G : group R) : seq (fmat R) := map (@den R) (gitems (g_lie G)).
Definition gmats (G : group R) : seq (fmat R) := map (@den R) (gitems (g_gens G)).
(** x constructs a group of dimension d whose Lie algebra generators are a basis, over the
    ring embedded by emb, of the d x d matrices that satisfy P, k of them, one in every
    slot of the allocated array *)
Definition lie_basis (K : comRingType) (emb : K -> R) (x : res (group R)) (d k : nat) (P : fmat R -> Prop) : Prop :=
  exists2 G, x = Ok G & [/\ g_d G = Some d, size (lmats G) = k, gshape (g_lie G) = Ok [:: k; d; d] & is_basis emb d P (lmats G)].
(** x constructs a group of dimension d whose discrete generators satisfy P *)
Definition gens_are (x : res (group R)) (d : nat) (P : seq (fmat R) -> Prop) : Prop :=
  exists2 G, x = Ok G & g_d G = Some d /\ P (gmats G).

Lemma built_basis (K : comRingType) (emb : K -> R) x d k a gens P :
  built conj x d (GArr a) gens -> dims a = [:: k; d; d] -> size (mats a) = k -> is_basis emb d P (mats a) ->
  lie_basis emb x d k P.
Proof. by move=> [G -> [g1 g2 _ _]] Ed S B; exists G => //; rewrite /lmats g2 -/(mats a); split=> //; rewrite /gshape Ed. Qed.
Lemma built_gens_are x d lie gens (P : seq (fmat R) -> Prop) : built conj x d lie gens -> P (map (@den R) (gitems gens)) -> gens_are x d P.
Proof. by move=> [G -> [g1 _ g3 _]] H; exists G => //; rewrite /gmats g3. Qed.

Lemma thm_so n : char2 R -> (1 < n)%N -> lie_basis id (g_so conj close n) n (tri n) (@skew R).
Proof.
move=> C2 n1; have [a E B] := so_ok conj close n1; have [b E2 [Ed S1 I]] := so_basis n C2.
by move: E2; rewrite E => -[?]; subst b; apply: (built_basis B).
Qed.
Lemma thm_o n : char2 R -> (0 < n)%N -> lie_basis id (g_o conj close n) n (tri n) (@skew R).
Proof.
case: n => // n C2 _; have [a [h [E _ B]]] := o_ok conj close n; have [b E2 [Ed S1 I]] := so_basis n.+1 C2.
by move: E2; rewrite E => -[?]; subst b; apply: (built_basis B).
Qed.
Lemma thm_gl n : (0 < n)%N -> lie_basis id (g_gl conj close n) n (n * n) (fun _ : fmat R => True).
Proof.
case: n => // n _; have [a E B] := gl_ok conj close n; have [b E2 [Ed S1 I]] := gl_basis R n.+1.
by move: E2; rewrite E => -[?]; subst b; apply: (built_basis B).
Qed.
Lemma thm_sl n : (1 < n)%N -> lie_basis id (g_sl conj close n) n (n * n - 1) (@traceless R).
Proof.
move=> n1; have [a E B] := sl_ok conj close n1; have [b E2 [Ed S1 I]] := sl_basis R (ltnW n1).
by move: E2; rewrite E => -[?]; subst b; apply: (built_basis B).
Qed.
Lemma thm_sp m : (0 < m)%N -> lie_basis id (g_sp conj close m) (2 * m) (m * (2 * m + 1)) (preserves (sympl R m)).
Proof.
case: m => // m _; have [a E B] := sp_ok conj close m; have [b E2 [Ed S1 I]] := sp_basis R m.+1.
by move: E2; rewrite E => -[?]; subst b; apply: (built_basis B).
Qed.
Lemma thm_so13p : char2 R -> lie_basis id (g_so13p conj recip close) 4 6 (preserves (minkowski R 4)).
Proof.
move=> C2; have [a E B] := so13p_ok conj recip close; have [b E2 [Ed S1 I]] := so13_basis C2.
by move: E2; rewrite E => -[?]; subst b; apply: (built_basis B).
Qed.
Lemma thm_so13 : char2 R -> lie_basis id (g_so13 conj recip close) 4 6 (preserves (minkowski R 4)).
Proof.
move=> C2; have [a E B] := so13_ok conj recip close; have [b E2 [Ed S1 I]] := so13_basis C2.
by move: E2; rewrite E => -[?]; subst b; apply: (built_basis B).
Qed.
Lemma thm_o13 s : char2 R -> lie_basis id (g_o13_as conj recip close s) 4 6 (preserves (minkowski R 4)).
Proof.
move=> C2; have [a [h [E _ B]]] := o13_ok conj recip close s; have [b E2 [Ed S1 I]] := so13_basis C2.
by move: E2; rewrite E => -[?]; subst b; apply: (built_basis B).
Qed.
Lemma thm_so11p : char2 R -> lie_basis id (g_so11p conj close) 2 1 (preserves (minkowski R 2)).
Proof. by move=> C2; have [Ed S1 I] := so11_basis C2; apply: (built_basis (so11p_ok conj close)). Qed.
Lemma thm_o11 : char2 R -> lie_basis id (g_o11 conj close) 2 1 (preserves (minkowski R 2)).
Proof. by move=> C2; have [Ed S1 I] := so11_basis C2; have [h _ B] := o11_ok conj close; apply: (built_basis B). Qed.

(** ** discrete generators *)
Lemma thm_s n : (1 < n)%N -> gens_are (g_s conj close n) n (fun gs =>
  forall X, words n gs X <-> exists2 p, is_perm n p & meq X (perm_mat R n p)).
Proof. by move=> n1; apply: (built_gens_are (s_ok conj close n1)); apply: s_words. Qed.
Lemma thm_z n : (0 < n)%N -> gens_are (g_z conj close n) n (fun gs =>
  forall X, words n gs X <-> exists2 k, (k < n)%N & meq X (shift_mat R n k)).
Proof. by move=> n0; apply: (built_gens_are (z_ok conj close n)) => X; apply: z_words. Qed.
Lemma thm_cube : gens_are (g_cube conj close) 6 (fun gs =>
  forall X, words 6 gs X <-> exists2 p, rotation p & meq X (perm_mat R 6 p)).
Proof. by apply: (built_gens_are (cube_ok conj close)) => X; apply: cube_iff. Qed.

(** every word preserves the form *)
Definition keeps (J : fmat R) (n : nat) (gs : seq (fmat R)) : Prop :=
  forall X, words n gs X -> isometry J X.
Lemma keepsI J n gs : fr J = n -> fc J = n ->
  (forall h, List.In h gs -> [/\ fr h = n, fc h = n & isometry J h]) -> keeps J n gs.
Proof. by move=> h1 h2 H X W; have [] := iso_words h1 h2 H W. Qed.
(** diagonal matrices with entries of square 1 preserve diagonal forms *)
Lemma diag_iso n (J h : fmat R) (a b : nat -> R) : meq J (FM n n (fun i j => if i == j then a i else 0)) ->
  meq h (FM n n (fun i j => if i == j then b i else 0)) -> (forall i, b i * b i = 1) -> isometry J h.
Proof.
move=> EJ Eh Hb; have [j1 j2 j3] := EJ; have [h1 h2 h3] := Eh.
pose D c : fmat R := FM n n (fun i j : nat => if i == j then c i else 0).
have DD c d : meq (fmul (D c) (D d)) (D (fun i => c i * d i)).
  split=> //= i j Hi Hj; rewrite (sum_only Hi) ?eqxx; last by move=> l _ /negbTE; rewrite eq_sym => ->; rewrite mul0r.
  by case: eqP => [->|_]; rewrite ?mulr0.
have Dt c : meq (ftr (D c)) (D c) by split=> //= i j _ _; rewrite eq_sym; case: eqP => [->|].
apply: meq_trans (meq_fmul (meq_ftr Eh) (meq_fmul EJ Eh _) _) _; first by rewrite j2 h1.
  by rewrite /= h1 j1.
apply: meq_trans (meq_fmul (Dt b) (DD a b) _) _ => //.
apply: meq_trans (DD _ _) _; apply: meq_trans _ (meq_sym EJ).
by split=> //= i j _ _; case: eqP => // _; rewrite mulrCA Hb mulr1.
Qed.
Lemma mats_list D n (a : nd R) fs : filled D n a fs f0 -> size fs = D ->
  forall h, List.In h (mats a) -> exists2 g, List.In g fs & meq h (FM n n g).
Proof.
move=> F S h /List.in_map_iff[A [<-]] /(List.In_nth _ _ (OI R 0)) [k [/ltP Hk]].
have [S1 H] := items_filled F S; have Hk' : (k < D)%N by rewrite -S1.
have [B E [_ M]] := H k Hk'.
have -> : List.nth k (gitems (GArr a)) (OI R 0) = nth (OI R 0) (gitems (GArr a)) k.
  by elim: (gitems _) k {Hk Hk' H B E M} => [|x l IH] [|k] //=.
move=> <-; rewrite E /=; exists (nth f0 fs k) => //.
have : (k < size fs)%N by rewrite S.
by elim: fs k {F S H Hk Hk' E M} => //= g fs IH [|k] Hk; [left | right; apply: IH].
Qed.
Lemma dl_diag (i j : nat) : - dl R i j = if i == j then -1 else 0.
Proof. by rewrite /dl; case: eqP => _; rewrite ?oppr0. Qed.
Lemma refl_diag (i j : nat) : refl0 R i j = if i == j then (if i == 0%N then -1 else 1) else 0.
Proof. by rewrite /refl0 /upd /dl; case: i j => [|i] [|j] //=; rewrite eqSS; case: eqP. Qed.
Lemma fid_diag n : meq (fid R n) (FM n n (fun i j : nat => if i == j then (fun=> 1) i else 0)).
Proof. by split=> //= i j _ _; case: eqP. Qed.
Lemma mink_diag n : meq (minkowski R n) (FM n n (fun i j : nat => if i == j then (fun i => if i == 0%N then 1 else -1) i else 0)).
Proof. by []. Qed.
Lemma keeps_two J n h (a : nat -> R) : two_gens R n.+1 = Ok h ->
  meq J (FM n.+1 n.+1 (fun i j : nat => if i == j then a i else 0)) -> keeps J n.+1 (mats h).
Proof.
move=> E EJ; have [h' E' /filled_next F] := put_two R n; move: E'; rewrite E => -[?]; subst h'.
have [j1 j2 _] := EJ.
apply: keepsI => // g /(mats_list F erefl) [f [<-|[<-|//]] M]; have [-> -> _] := M; split=> //.
  apply: (diag_iso (b := fun=> -1) EJ); last by move=> i; rewrite mulrNN mulr1.
  by apply: (meq_trans M); split=> //= i j _ _; rewrite dl_diag.
apply: (diag_iso (b := fun i => if i == 0%N then -1 else 1) EJ); last by move=> i; case: ifP; rewrite ?mulrNN mulr1.
by apply: (meq_trans M); split=> //= i j _ _; rewrite refl_diag.
Qed.
Lemma thm_o_gens n : (0 < n)%N -> gens_are (g_o conj close n) n (keeps (fid R n) n).
Proof.
case: n => // n _; have [a [h [_ E B]]] := o_ok conj close n; apply: (built_gens_are B); rewrite -/(mats h).
have [h' E' /filled_next F] := put_eye R n; move: E'; rewrite E => -[?]; subst h'.
apply: keepsI => // g /(mats_list F erefl) [f [<-|//] M]; have [-> -> _] := M; split=> //.
apply: (diag_iso (b := fun i => if i == 0%N then -1 else 1) (fid_diag _)); last by move=> i; case: ifP; rewrite ?mulrNN mulr1.
by apply: (meq_trans M); split=> //= i j _ _; rewrite refl_diag.
Qed.
Lemma thm_o13_gens s : gens_are (g_o13_as conj recip close s) 4 (keeps (minkowski R 4) 4).
Proof.
have [a [h [_ E B]]] := o13_ok conj recip close s; apply: (built_gens_are B).
exact: (keeps_two E (mink_diag 4)).
Qed.
Lemma thm_o11_gens : gens_are (g_o11 conj close) 2 (keeps (minkowski R 2) 2).
Proof.
have [h E B] := o11_ok conj close; apply: (built_gens_are B).
exact: (keeps_two E (mink_diag 2)).
Qed.

(** ** totality *)
Definition constructs (x : res (group R)) (d : nat) : Prop := exists2 G, x = Ok G & g_d G = Some d.
Lemma built_constructs x d l g : built conj x d l g -> constructs x d.
Proof. by move=> [G -> [H _ _ _]]; exists G. Qed.
Lemma total2 n : (1 < n)%N -> [/\ constructs (g_so conj close n) n, constructs (g_sl conj close n) n & constructs (g_s conj close n) n].
Proof.
move=> n1; have [a _ Ba] := so_ok conj close n1; have [b _ Bb] := sl_ok conj close n1.
by split; [exact: built_constructs Ba | exact: built_constructs Bb | exact: built_constructs (s_ok conj close n1)].
Qed.
Lemma total1 n : (0 < n)%N ->
  [/\ constructs (g_trivial conj close n) n, constructs (g_o conj close n) n, constructs (g_gl conj close n) n &
      [/\ constructs (g_sp conj close n) (2 * n), constructs (g_z conj close n) n, constructs (g_scaling conj close n) n &
          constructs (g_c conj cosk sink close n) 2 /\ constructs (g_dihedral conj cosk sink close n) 2]].
Proof.
move=> n0; have H : n.-1.+1 = n by rewrite prednK.
have [a [h [_ _ B1]]] := o_ok conj close n.-1; have [b _ B2] := gl_ok conj close n.-1; have [c _ B3] := sp_ok conj close n.-1.
rewrite H in B1 B2 B3; split; [exact: built_constructs (trivial_ok conj close n) | exact: built_constructs B1 | exact: built_constructs B2 |].
split; [exact: built_constructs B3 | exact: built_constructs (z_ok conj close n) | exact: built_constructs (scaling_ok conj close n) |].
by split; [exact: built_constructs (c_ok conj cosk sink close n0) | exact: built_constructs (d_ok conj cosk sink close n0)].
Qed.
Lemma total_zkszn k n : k \in [:: 2; 4]%N -> (0 < n)%N -> constructs (g_zkszn conj close k n) (k * (n * n)).
Proof. by move=> Hk Hn; exact: built_constructs (zkszn_ok conj close Hk Hn). Qed.
Lemma total0 : [/\ constructs (g_so13p conj recip close) 4, constructs (g_so13 conj recip close) 4,
  constructs (g_o13 conj recip close) 4, constructs (g_lorentz conj recip close) 4 &
  [/\ constructs (g_so11p conj close) 2, constructs (g_o11 conj close) 2, constructs (g_parity conj close) 4,
      constructs (g_time conj close) 4 & constructs (g_cube conj close) 6 /\ constructs (g_rubik conj close) 48]].
Proof.
have [a _ B1] := so13p_ok conj recip close; have [b _ B2] := so13_ok conj recip close.
have [c [d [_ _ B3]]] := o13_ok conj recip close "O13"; have [e [f [_ _ B4]]] := o13_ok conj recip close "Lorentz".
have [g _ B5] := o11_ok conj close; have [h _ B6] := parity_ok conj close; have [i _ B7] := time_ok conj close.
split; [exact: built_constructs B1 | exact: built_constructs B2 | exact: built_constructs B3 | exact: built_constructs B4 |].
split; [exact: built_constructs (so11p_ok conj close) | exact: built_constructs B5 | exact: built_constructs B6 | exact: built_constructs B7 |].
by split; [exact: built_constructs (cube_ok conj close) | exact: built_constructs (rubik_ok conj close)].
Qed.
(** at n=1 the generator array is empty, so d is never set *)
Lemma fails1 : [/\ g_so conj close 1 = Err TypeError, g_sl conj close 1 = Err TypeError,
  g_s conj close 1 = Err TypeError & g_su conj im recip close 1 = Err TypeError].
Proof. by []. Qed.
End Thm.

Section Cx.
Variables (F : comRingType) (rk : nat -> F) (rkE : forall n, (0 < n)%N -> n%:R * rk n = 1).
Variable close : seq (cplx_comRingType F) -> seq (cplx_comRingType F) -> bool.
Local Notation C := (cplx_comRingType F).
Local Notation rc := (fun n => Cx (rk n) 0 : C).
Lemma u_ok n : (0 < n)%N -> exists2 a, u_lie (cI F) n = Ok a & built (@cconj F) (g_u (@cconj F) (cI F) close n) n (GArr a) (no_gens C n).
Proof.
move=> n0; have [a E G] := u_filled F n; exists a => //; rewrite /g_u E /=.
apply: (@built_lie _ _ _ _ (n ^ 2).-1); rewrite prednK ?expn_gt0 ?n0 //; exact: filled_arr3 G.
Qed.
Lemma su_ok n : (1 < n)%N -> exists2 a, su_lie (cI F) rc n = Ok a & built (@cconj F) (g_su (@cconj F) (cI F) rc close n) n (GArr a) (no_gens C n).
Proof.
move=> n1; have [a E G] := su_filled rk (ltnW n1); exists a; first exact: E.
rewrite /g_su (gtn_eqF n1) (gtn_eqF (ltnW n1)) E bindOk.
apply: (@built_lie _ _ _ _ (n ^ 2 - 1).-1); rewrite prednK; first exact: filled_arr3 G.
by rewrite subn_gt0 -{1}(exp1n 2) ltn_exp2r.
Qed.
Lemma thm_u n : (0 < n)%N -> lie_basis (@cemb F) (g_u (@cconj F) (cI F) close n) n (n ^ 2) (skew_herm (@cconj F)).
Proof.
move=> n0; have [a E B] := u_ok n0; have [b E2 [Ed S1 I]] := u_basis rkE n.
by move: E2; rewrite E => -[?]; subst b; apply: (built_basis B).
Qed.
Lemma thm_su n : (1 < n)%N ->
  lie_basis (@cemb F) (g_su (@cconj F) (cI F) rc close n) n (n ^ 2 - 1) (fun X => skew_herm (@cconj F) X /\ traceless X).
Proof.
move=> n1; have [a E B] := su_ok n1; have [b E2 [Ed S1 I]] := su_basis rkE n1.
by move: E2; rewrite E => -[?]; subst b; apply: (built_basis B).
Qed.
Lemma total_u n : ((0 < n)%N -> constructs (g_u (@cconj F) (cI F) close n) n) /\
  ((1 < n)%N -> constructs (g_su (@cconj F) (cI F) rc close n) n).
Proof.
split=> [/u_ok[a _ B]|/su_ok[a _ B]]; exact: built_constructs B.
Qed.
End Cx.
