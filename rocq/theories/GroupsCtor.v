(** * GroupsCtor: what the constructors of emlp/groups.py build. *)
From Coq Require Import String.
From mathcomp Require Import all_ssreflect all_algebra.
From mathcomp Require Import zify.
From Verif Require Import Np NpLemmas Spec SpecLemmas LinOp LinOpSpec LinOpMM LinOpMore Rep RepSpec RhoProofs RepThm.
From Verif Require Import Groups GroupsSpec GroupsLoop GroupsLie GroupsSp GroupsLor GroupsU GroupsInit.
Set Implicit Arguments.
Unset Strict Implicit.
Unset Printing Implicit Defensive.
Import GRing.Theory.
Local Open Scope ring_scope.

Section Ctor.
Variables (R : comRingType) (conj re : R -> R) (im : R) (recip cosk sink : nat -> R) (close : seq R -> seq R -> bool).

(** x is a group of dimension d with the generators lie and gens, all of them d x d *)
Definition built (x : res (group R)) (d : nat) (lie gens : garr R) : Prop :=
  exists2 G, x = Ok G & [/\ g_d G = Some d, g_lie G = lie, g_gens G = gens & gok conj d lie /\ gok conj d gens].
Definition no_gens (d : nat) : garr R := GArr (zeros R [:: 0; d; d]%N).

Lemma built_lie r k d (a : nd R) : arr3 k.+1 d a -> built (group_init conj close r (with_lie (GArr a))) d (GArr a) (no_gens d).
Proof.
move=> H; rewrite (init_lie _ _ r H) /=; eexists; first by []; split=> //; split; first exact: gok_arr H.
exact: gok_none.
Qed.
Lemma built_gens r d (x : garr R) : glen x != 0%N -> last_dim x = d -> gok conj d x ->
  built (group_init conj close r (with_gens x)) d (no_gens d) x.
Proof.
move=> H1 H2 H3; rewrite (init_gens _ r H1 H2 H3) /=; eexists; first by []; split=> //; split=> //; exact: gok_none.
Qed.
Lemma built_both r d (lie gens : garr R) z : glen gens != 0%N -> last_dim gens = d -> glen lie != 0%N ->
  gok conj d lie -> gok conj d gens ->
  built (group_init conj close r (Attrs None (Some lie) (Some gens) None None z)) d lie gens.
Proof. by move=> H1 H2 H3 H4 H5; rewrite (init_both close r z H1 H2 H3 H4 H5); eexists. Qed.
(** an empty array of discrete generators or of Lie algebra elements still gives a group *)
Lemma built_one r d (lie gens : garr R) : (glen gens != 0%N -> last_dim gens = d) -> (glen lie != 0%N -> last_dim lie = d) ->
  (glen gens != 0%N) || (glen lie != 0%N) -> gok conj d lie -> gok conj d gens ->
  built (group_init conj close r (with_both lie gens)) d lie gens.
Proof.
move=> H1 H2 H3 H4 H5; rewrite (@init_eq _ _ close r _ d lie gens) //; first by eexists.
rewrite /init_d /=; case: (boolP (glen gens != 0%N)) H1 H3 => [_ -> //|_ _ /= H]; by rewrite H H2.
Qed.
Lemma filled_arr3 k d (a : nd R) fs g : filled k d a fs g -> arr3 k d a.
Proof. by case. Qed.

Lemma trivial_ok n : built (g_trivial conj close n) n (no_gens n) (no_gens n).
Proof.
rewrite /g_trivial (@init_eq _ _ close _ _ n (no_gens n) (no_gens n)) //=; eexists; by [].
Qed.
Lemma tri_gt0 n : (1 < n)%N -> (0 < tri n)%N.
Proof. by case: n => [|[|n]] // _; rewrite triS addnS. Qed.
Lemma so_ok n : (1 < n)%N -> exists2 a, so_lie R n = Ok a & built (g_so conj close n) n (GArr a) (no_gens n).
Proof.
move=> n1; have [a E G] := so_filled R n; exists a => //; rewrite /g_so E.
by move: (filled_arr3 G) (tri_gt0 n1); case: (tri n) => // k H _; apply: built_lie H.
Qed.
Definition dl (i j : nat) : R := (i == j)%:R.
Lemma nth_eye n i j : (i < n)%N -> (j < n)%N -> nth 0 (eye R n) (i * n + j)%N = dl i j.
Proof.
move=> Hi Hj; rewrite nth_mkseq; last exact: pos_lt.
by rewrite divnMDl ?(leq_ltn_trans (leq0n _) Hj) // divn_small // addn0 modnMDl modn_small.
Qed.
Lemma eye_filled n : filled 1 n (eye1 R n) [::] dl.
Proof.
split=> //=; first by rewrite size_mkseq mul1n.
by case=> // i j _ Hi Hj; rewrite mul0n add0n nth_eye.
Qed.
Lemma two_filled n : filled 2 n (ND [:: 2; n; n]%N (map -%R (eye R n) ++ eye R n)) [:: fun i j => - dl i j] dl.
Proof.
split=> //=; first by rewrite size_cat size_map !size_mkseq mul2n addnn.
case=> [|[|//]] i j _ Hi Hj; rewrite nth_cat size_map size_mkseq ?mul0n ?mul1n ?add0n /=.
  by rewrite (pos_lt Hi Hj) (nth_map 0) ?size_mkseq ?(pos_lt Hi Hj) // nth_eye.
by rewrite ltnNge leq_addr /= addKn nth_eye.
Qed.
(** the reflection of O(n), and the generators of O13 and O11 *)
Definition refl0 : nat -> nat -> R := upd dl 0 0 (-1).
Lemma put_eye n : exists2 a, put (eye1 R n.+1) [:: 0; 0; 0]%N (-1) = Ok a & filled 1 n.+1 a [::] refl0.
Proof. exact: (filled_put (fs := [::]) (i := 0) (j := 0) (-1) (eye_filled n.+1)). Qed.
Lemma put_two n : exists2 h, two_gens R n.+1 = Ok h & filled 2 n.+1 h [:: fun i j => - dl i j] refl0.
Proof. exact: (filled_put (i := 0) (j := 0) (-1) (two_filled n.+1)). Qed.
Lemma eye_arr3 n : arr3 1 n (eye1 R n). Proof. by split=> //=; rewrite size_mkseq mul1n. Qed.
Lemma o_ok n : exists a h, [/\ so_lie R n.+1 = Ok a, put (eye1 R n.+1) [:: 0; 0; 0]%N (-1) = Ok h & built (g_o conj close n.+1) n.+1 (GArr a) (GArr h)].
Proof.
have [a E G] := so_filled R n.+1; have [h E2 /filled_arr3 H2] := put_eye n; exists a, h; split=> //.
rewrite /g_o E2 /= E /=; have Ga := filled_arr3 G.
apply: built_one; rewrite ?(last_arr H2) ?(glen_arr H2) ?(glen_arr Ga) //.
- by move: Ga; case: (tri n.+1) => // k Ga _; apply: last_arr Ga.
- exact: gok_arr Ga.
exact: gok_arr H2.
Qed.
Lemma c_ok k : (0 < k)%N -> built (g_c conj cosk sink close k) 2 (no_gens 2) (GArr (c_gens cosk sink k)).
Proof. by case: k => // k _; apply: built_gens => //; apply: (@gok_arr _ _ 1). Qed.
Lemma d_ok k : (0 < k)%N -> built (g_dihedral conj cosk sink close k) 2 (no_gens 2) (GArr (d_gens (c_gens cosk sink k))).
Proof.
case: k => // k _; rewrite /g_dihedral /= (@init_gens _ conj close _ 2 (GArr (c_gens cosk sink k.+1))) //=.
  by eexists; first by []; split=> //; split=> //; apply: (@gok_arr _ _ 2).
exact: (@gok_arr _ _ 1).
Qed.
Lemma scaling_ok n : built (g_scaling conj close n) n (GArr (eye1 R n)) (no_gens n).
Proof. exact: built_lie (eye_arr3 n). Qed.
Lemma so13_arr : exists2 a, so13_lie R = Ok a & arr3 6 4 a.
Proof. by eexists; [exact: so13E | ]. Qed.
Local Opaque so13_lie so13_z.
Lemma built_lie_z r k d (a : nd R) z : arr3 k.+1 d a ->
  built (group_init conj close r (Attrs None (Some (GArr a)) None None None z)) d (GArr a) (no_gens d).
Proof.
move=> H; rewrite (@init_eq _ _ close r _ d (GArr a) (no_gens d)) //.
- by eexists; first by []; split=> //; split; [exact: gok_arr H | exact: gok_none].
- by rewrite /init_d /= (last_arr H); have [-> _] := H.
exact: gok_arr H.
Qed.
Lemma so13p_ok : exists2 a, so13_lie R = Ok a & built (g_so13p conj recip close) 4 (GArr a) (no_gens 4).
Proof.
have [a E H] := so13_arr; exists a; first exact: E.
by rewrite /g_so13p E bindOk; apply: (@built_lie_z _ 5 4 a _ H).
Qed.
Lemma built_arrs r k l d (a h : nd R) z : arr3 k.+1 d a -> arr3 l.+1 d h ->
  built (group_init conj close r (Attrs None (Some (GArr a)) (Some (GArr h)) None None z)) d (GArr a) (GArr h).
Proof.
move=> H1 H2; apply: built_both; [by rewrite (glen_arr H2) | exact: last_arr H2 | by rewrite (glen_arr H1) | |].
  exact: gok_arr H1.
exact: gok_arr H2.
Qed.
Lemma neye_arr3 n : arr3 1 n (neye1 R n). Proof. by split=> //=; rewrite size_map size_mkseq mul1n. Qed.
Lemma so13_ok : exists2 a, so13_lie R = Ok a & built (g_so13 conj recip close) 4 (GArr a) (GArr (neye1 R 4)).
Proof.
have [a E H] := so13_arr; exists a; first exact: E; rewrite /g_so13 E bindOk.
apply: (built_arrs _ _ H (neye_arr3 4)).
Qed.
Lemma o13_ok s : exists a h, [/\ so13_lie R = Ok a, two_gens R 4 = Ok h & built (g_o13_as conj recip close s) 4 (GArr a) (GArr h)].
Proof.
have [a E H] := so13_arr; have [h E2 /filled_arr3 H2] := put_two 3; exists a, h; split; [exact: E | exact: E2 |].
rewrite /g_o13_as E bindOk E2 bindOk.
apply: (built_arrs _ _ H H2).
Qed.
Lemma so11p_ok : built (g_so11p conj close) 2 (GArr (so11_lie R)) (no_gens 2).
Proof. exact: (@built_lie _ 0). Qed.
Lemma o11_ok : exists2 h, two_gens R 2 = Ok h & built (g_o11 conj close) 2 (GArr (so11_lie R)) (GArr h).
Proof.
have [h E2 /filled_arr3 H2] := put_two 1; exists h => //; rewrite /g_o11 E2 /=.
by apply: (@built_arrs _ 0 1 2 _ _ _ _ H2).
Qed.
Lemma parity_ok : exists2 h, put (neye1 R 4) [:: 0; 0; 0]%N 1 = Ok h & built (g_parity conj close) 4 (no_gens 4) (GArr h).
Proof.
have H : exists2 h, put (neye1 R 4) [:: 0; 0; 0]%N 1 = Ok h & arr3 1 4 h by rewrite /put /=; eexists.
have [h E H2] := H; exists h => //; rewrite /g_parity E /=.
by apply: built_gens; rewrite ?(glen_arr H2) ?(last_arr H2) //; exact: gok_arr H2.
Qed.
Lemma time_ok : exists2 h, put (eye1 R 4) [:: 0; 0; 0]%N (-1) = Ok h & built (g_time conj close) 4 (no_gens 4) (GArr h).
Proof.
have [h E /filled_arr3 H2] := put_eye 3; exists h => //; rewrite /g_time E /=.
by apply: built_gens; rewrite ?(glen_arr H2) ?(last_arr H2) //; exact: gok_arr H2.
Qed.
Lemma sp_ok m : exists2 a, sp_lie R m.+1 = Ok a & built (g_sp conj close m.+1) (2 * m.+1) (GArr a) (no_gens (2 * m.+1)).
Proof.
have [a E G] := sp_filled R m.+1; exists a => //; rewrite /g_sp E /=.
apply: (@built_lie _ (m.+1 * (2 * m.+1 + 1)).-1); rewrite prednK; last by rewrite muln_gt0 addn1.
exact: filled_arr3 G.
Qed.
Lemma sl_ok n : (1 < n)%N -> exists2 a, sl_lie R n = Ok a & built (g_sl conj close n) n (GArr a) (no_gens n).
Proof.
move=> n1; have [a E G] := sl_filled R (ltnW n1); exists a => //; rewrite /g_sl E /=.
apply: (@built_lie _ (n * n - 1).-1); rewrite prednK; first exact: filled_arr3 G.
by case: n n1 {E G} => [|[|n]] // _; lia.
Qed.
Lemma gl_ok n : exists2 a, gl_lie R n.+1 = Ok a & built (g_gl conj close n.+1) n.+1 (GArr a) (no_gens n.+1).
Proof.
have [a E G] := gl_filled R n.+1; exists a => //; rewrite /g_gl E /=.
apply: (@built_lie _ (n.+1 * n.+1).-1); rewrite prednK //; exact: filled_arr3 G.
Qed.
Lemma gop_shift n k : gop conj n (OShift R n k).
Proof. by split=> //; left. Qed.
Lemma z_ok n : built (g_z conj close n) n (no_gens n) (GOps [:: OShift R n 1]).
Proof. by apply: built_gens => // A /= [<-|//]; exact: gop_shift. Qed.
Lemma gop_perm n p : is_perm n p -> gop conj n (OPerm R p).
Proof. by move=> H; split=> //=; rewrite ?(is_perm_size H) //; left. Qed.
Lemma gok_perms n ps : all (is_perm n) ps -> gok conj n (GOps (map (OPerm R) ps)).
Proof.
move=> /allP H A /= /List.in_map_iff[p [<- Hp]]; apply: gop_perm; apply: H.
by elim: ps Hp => //= q l IH [->|/IH Hl]; rewrite in_cons ?eqxx // Hl orbT.
Qed.
Definition swap0 (t : nat) (i : nat) : nat := if i == t then 0%N else if i == 0%N then t else i.
Lemma s_row n t : (t.+1 < n)%N -> set_nth 0%N (set_nth 0%N (arange n) 0 t.+1) t.+1 0%N = mkseq (swap0 t.+1) n.
Proof.
move=> Ht; apply: (@eq_from_nth _ 0%N).
  rewrite !size_set_nth size_mkseq /arange size_iota (maxn_idPr (leq_ltn_trans (leq0n _) Ht)); exact/maxn_idPr.
move=> i; rewrite !size_set_nth /arange size_iota (maxn_idPr (leq_ltn_trans (leq0n _) Ht)) (maxn_idPr Ht) => Hi.
rewrite nth_mkseq // nth_set_nth /= /swap0; case: eqP => // _; rewrite nth_set_nth /=; case: eqP => // _.
by rewrite nth_iota.
Qed.
Lemma swap0K t : involutive (swap0 t).
Proof.
move=> i; rewrite /swap0; case: (i =P t) => [->|/eqP n1]; first by case: (0%N =P t).
by case: (i =P 0%N) => [->|/eqP n2]; [rewrite eqxx | rewrite (negbTE n1) (negbTE n2)].
Qed.
Lemma swap0_lt t n i : (t < n)%N -> (i < n)%N -> (swap0 t i < n)%N.
Proof. by rewrite /swap0 => Ht Hi; case: ifP => // _; [apply: leq_ltn_trans Hi | case: ifP]. Qed.
Lemma perm_swap0 n t : (t < n)%N -> is_perm n (mkseq (swap0 t) n).
Proof.
move=> Ht; apply: is_permP; first by rewrite size_mkseq.
  by rewrite map_inj_uniq ?iota_uniq //; apply: inv_inj; apply: swap0K.
by apply/allP => x /mapP[i]; rewrite mem_iota add0n => Hi ->; apply: swap0_lt.
Qed.
Lemma s_permsE n : s_perms n = [seq mkseq (swap0 t.+1) n | t <- iota 0 n.-1].
Proof. by apply/eq_in_map => t; rewrite mem_iota add0n /= => Ht; apply: s_row; case: n Ht. Qed.
Lemma s_perms_perm n : all (is_perm n) (s_perms n).
Proof.
rewrite s_permsE; apply/allP => p /mapP[t]; rewrite mem_iota add0n => /= Ht ->.
by apply: perm_swap0; case: n Ht.
Qed.
Lemma last_perms n ps : all (is_perm n) ps -> (0 < size ps)%N -> last_dim (GOps (map (OPerm R) ps)) = n.
Proof. by case: ps => //= p ps /andP[H _] _; rewrite /last_dim /= /cols /= (is_perm_size H). Qed.
Lemma perms_ok r n ps : all (is_perm n) ps -> (0 < size ps)%N ->
  built (group_init conj close r (with_gens (GOps (map (OPerm R) ps)))) n (no_gens n) (GOps (map (OPerm R) ps)).
Proof.
move=> H S; apply: built_gens; [by rewrite /= size_map -lt0n | exact: last_perms | exact: gok_perms].
Qed.
Lemma s_ok n : (1 < n)%N -> built (g_s conj close n) n (no_gens n) (GOps (map (OPerm R) (s_perms n))).
Proof.
move=> n1; rewrite /g_s; case: eqP => [E|_]; first by rewrite E in n1.
apply: perms_ok; first exact: s_perms_perm.
by rewrite size_map size_iota -subn1 subn_gt0.
Qed.
Lemma cube_ok : built (g_cube conj close) 6 (no_gens 6) (GOps (map (OPerm R) cube_perms)).
Proof. exact: perms_ok. Qed.
Lemma rubik_ok : built (g_rubik conj close) 48 (no_gens 48) (GOps (map (OPerm R) rubik_perms)).
Proof. by apply: perms_ok; vm_compute. Qed.
Lemma zkszn_ok k n : k \in [:: 2; 4]%N -> (0 < n)%N ->
  built (g_zkszn conj close k n) (k * (n * n)) (no_gens (k * (n * n)))
    (GOps [:: OKron [:: OI R k; OShift R n 1; OI R n]; OKron [:: OI R k; OI R n; OShift R n 1];
              OKron [:: OShift R k 1; ORot90 R n (Posz (4 %/ k))]]).
Proof.
move=> Hk n0; rewrite /g_zkszn; have [? -> _] := z_ok n; have [? -> _] := z_ok k; rewrite /= Hk /=.
have k0 : (0 < k)%N by move: Hk; rewrite !inE => /orP[] /eqP ->.
apply: built_gens => //; first by rewrite /last_dim /= /cols /= muln1.
move=> A /= [<-|[<-|[<-|//]]]; split=> //=; rewrite ?muln1 ?mulnA //; try by left.
- by rewrite /rows /cols /= k0 n0.
- by rewrite /rows /cols /= k0 n0.
by rewrite /rows /cols /= k0 muln_gt0 n0.
Qed.
End Ctor.
