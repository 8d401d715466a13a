(** * GroupsRubikG: the group that RubiksCube() generates. *)
From Coq Require Import Reals Lra.
From mathcomp Require Import all_ssreflect all_algebra all_fingroup.
From mathcomp Require Import zify.
From Verif Require Import Np NpLemmas Spec SpecLemmas LinOp MxBridge Rstruct Expm GrpSpec RField.
From Verif Require Import Groups GroupsSpec GroupsPerm GroupsSpecR ExactSpec GroupsInit GroupsCtor GroupsThm GroupsRubik GroupsForm GroupsDet GroupsExact GroupsExactD RubikSpec.
Set Implicit Arguments.
Unset Strict Implicit.
Unset Printing Implicit Defensive.
Import GRing.Theory.
Local Open Scope ring_scope.

(** ** three-cycles *)
(** a goes to i, i to x and x to a *)
Definition cyc3 (a i x : nat) : seq nat :=
  map (fun y => if y == a then i else if y == i then x else if y == x then a else y) (iota 0 48).
(** letters 0-5 are the generators, 6-11 their inverses *)
Definition letter (k : nat) : seq nat := if (k < 6)%N then [:: k] else nseq 3 (k - 6)%N.
Definition spell (w : seq nat) : seq nat := flatten (map letter w).
Definition flip (w : seq nat) : seq nat := rev (map (fun k => if k < 6 then k + 6 else k - 6)%N w).
Definition comm (w1 w2 : seq nat) : seq nat := w1 ++ w2 ++ flip w1 ++ flip w2.
Definition baseC : seq nat := flatten (nseq 5 (comm [:: 1; 3; 3]%N [:: 0; 1; 2]%N)).
Definition baseE : seq nat := flatten (nseq 2 (comm [:: 2; 4]%N [:: 0; 1; 5]%N)).
Definition turns (w b : seq nat) : seq nat := spell (w ++ b ++ flip w).
Definition corners : seq nat := Eval vm_compute in filter corner (iota 0 48).
Definition edges : seq nat := Eval vm_compute in filter (fun x => ~~ corner x) (iota 0 48).
Definition wordsC : seq (seq nat) :=
  [:: [:: 2; 9; 2; 0; 2];
      [:: 2; 9; 2; 0; 0; 2];
      [:: 6; 10; 9; 0; 2];
      [:: 7; 10; 11; 9; 4; 0];
      [:: 2; 9; 1; 0; 0];
      [:: 2; 9; 1; 1; 0; 0];
      [:: 6; 9; 1; 0; 4];
      [:: 6; 3; 3; 0; 4];
      [:: 6; 2; 9; 0; 2];
      [:: 2; 9; 5; 2; 5];
      [:: 6; 3; 0; 9; 5];
      [:: 6; 10; 2; 0; 9; 0];
      [:: 4; 7; 0; 0; 1];
      [:: 6; 7; 3; 0; 4];
      [:: 10; 9; 0; 4; 0];
      [:: 10; 9; 6; 7; 0; 2];
      [:: 2; 9; 0; 4; 0];
      [:: 2; 9; 4; 1; 4; 0];
      [:: 2; 9; 0; 0];
      [:: 2; 9; 7; 0; 0];
      [:: 5; 2; 9; 0; 0];
      [:: 11; 2; 9; 7; 0; 0]]%N.
Definition wordsE : seq (seq nat) :=
  [:: [:: 3; 6; 7; 0; 0; 8; 5];
      [:: 2; 0; 10; 0; 8; 7];
      [:: 2; 1; 0; 8; 7];
      [:: 2; 0; 9; 8; 0];
      [:: 0; 1; 8; 6; 1];
      [:: 2; 0; 1; 8; 0];
      [:: 10; 0; 8; 7];
      [:: 2; 0; 8; 7];
      [:: 3; 0; 2; 2; 7];
      [:: 4; 7; 0; 2; 0];
      [:: 2; 0; 8; 7; 0];
      [:: 3; 0; 8; 4; 7];
      [:: 2; 0; 8; 9; 7; 0];
      [:: 2; 0; 8; 7; 3; 3; 0];
      [:: 2; 0; 8; 7; 0; 0];
      [:: 1; 0; 4; 7; 8; 0];
      [:: 10; 0; 8; 7; 0; 0];
      [:: 10; 0; 8; 7; 10; 0; 0];
      [:: 2; 0; 8; 7; 3];
      [:: 1; 5; 0; 8; 7; 0];
      [:: 3; 11; 0; 8; 7; 0];
      [:: 5; 1; 5; 0; 8; 7; 0]]%N.
Definition sigma (c : bool) (i : nat) : seq nat := if c then cyc3 0 2 i else cyc3 1 3 i.
Definition others (c : bool) : seq nat := drop 2 (if c then corners else edges).
Definition ev48 : seq nat -> seq nat := ev 48 rubik_perms.
Definition wlist (c : bool) : seq (seq nat) := if c then map (fun w => turns w baseC) wordsC else map (fun w => turns w baseE) wordsE.
Lemma sigma_words c : map ev48 (wlist c) = map (sigma c) (others c).
Proof. by case: c; vm_compute. Qed.
Lemma wlist_ok c : all (all (fun i => i < size rubik_perms)%N) (wlist c).
Proof. by case: c; vm_compute. Qed.

(** the three-cycle that takes a to i using one of the two reserved stickers of the kind *)
Definition all_of (c : bool) : seq nat := if c then corners else edges.
Definition fst_of (c : bool) : nat := if c then 0%N else 1%N.
Definition snd_of (c : bool) : nat := if c then 2%N else 3%N.
Definition fam (c : bool) (a i : nat) : seq nat := cyc3 a i (if a == fst_of c then snd_of c else fst_of c).
Definition kp (p : seq nat) : bool := is_perm 48 p && all (fun i => corner (nth 0%N p i) == corner i) (iota 0 48).
Definition fam_check (c : bool) (a i : nat) : bool :=
  let t := fam c a i in
  [&& kp t, gather 0%N t (gather 0%N t t) == iota 0 48, nth 0%N t a == i &
      if a == fst_of c then t == gather 0%N (sigma c i) (sigma c i)
      else if a == snd_of c then t == sigma c i else t == gather 0%N (sigma c i) (gather 0%N (sigma c a) (sigma c a))].
Lemma fam_checked : all (fun c => all (fun a => all (fun i => (a != i) ==> fam_check c a i) (others c)) (all_of c)) [:: true; false].
Proof. by vm_compute. Qed.
Lemma famE c a i : a \in all_of c -> i \in others c -> a != i -> fam_check c a i.
Proof.
move=> Ha Hi ne; have /allP/(_ c) := fam_checked; case: c Ha Hi => Ha Hi /(_ isT) /allP/(_ _ Ha)/allP/(_ _ Hi); by rewrite ne.
Qed.
Lemma gens_perm : all (is_perm 48) rubik_perms. Proof. by vm_compute. Qed.
Lemma gens_kp : all kp rubik_perms. Proof. by vm_compute. Qed.
Lemma kind_all c x : (x \in all_of c) = (x < 48)%N && (corner x == c).
Proof.
have K d : all (fun y => (y < 48)%N && (corner y == d)) (all_of d) by case: d; vm_compute.
have L : all (fun y => y \in all_of (corner y)) (iota 0 48) by vm_compute.
apply/idP/idP => [H|/andP[H /eqP <-]]; first by have /allP/(_ _ H) := K c.
by have /allP := L; apply; rewrite mem_iota.
Qed.
Lemma others_all c x : x \in others c = [&& x \in all_of c, x != fst_of c & x != snd_of c].
Proof.
have E : all_of c = fst_of c :: snd_of c :: others c by case: c; vm_compute.
have U : uniq (all_of c) by case: (c); vm_compute.
move: U; rewrite E /= !inE !negb_or => /and3P[/andP[_ h1] h2 _].
case: (x =P fst_of c) => [->|_] /=; first by rewrite (negbTE h1).
by case: (x =P snd_of c) => [->|_] /=; [rewrite (negbTE h2) | rewrite andbT].
Qed.
Lemma kpP p : kp p -> is_perm 48 p /\ forall i, (i < 48)%N -> (nth 0%N p i < 48)%N /\ corner (nth 0%N p i) = corner i.
Proof.
case/andP=> P /allP K; split=> // i Hi; split; first exact: is_perm_nth.
by apply/eqP/K; rewrite mem_iota.
Qed.
Lemma kp_gather p q : kp p -> kp q -> kp (gather 0%N q p).
Proof.
move=> /kpP[P K] /kpP[Q L]; apply/andP; split; first exact: is_perm_gather.
apply/allP => i; rewrite mem_iota add0n => /andP[_ Hi]; have [a b] := K i Hi.
by rewrite nth_gather ?(is_perm_size P) // (proj2 (L _ a)) b.
Qed.
Lemma nth_cyc3 a i x y : (y < 48)%N -> nth 0%N (cyc3 a i x) y = if y == a then i else if y == i then x else if y == x then a else y.
Proof. by move=> Hy; rewrite (nth_map 0%N) ?size_iota // nth_iota. Qed.

Lemma cube_root (d : R) : Rmult (Rmult d d) d = R1 -> d = R1.
Proof.
move=> h; have : Rmult (Rminus d 1) (Rplus (Rplus (Rmult d d) d) 1) = R0.
  by transitivity (Rminus (Rmult (Rmult d d) d) 1); [ring | rewrite h; ring].
by case/Rmult_integral => h2; [lra | exfalso; nra].
Qed.
Local Opaque rubik_perms corners edges cyc3 wlist ev48.
Section Words.
Local Notation mats := (p_mats RR rubik_perms).
Definition Wd (p : seq nat) : Prop := words 48 mats (perm_mat RR 48 p).
Lemma Wd_comp p q : is_perm 48 p -> is_perm 48 q -> Wd p -> Wd q -> Wd (gather 0%N q p).
Proof. by move=> P Q Wp Wq; apply: (W_mul Wp Wq); apply: meq_sym; exact: perm_mul. Qed.
Lemma Wd_gen p : p \in rubik_perms -> Wd p.
Proof. by move=> H; apply: W_gen (meq_refl _); exact: in_p gens_perm H. Qed.
Lemma Wd_sigma c i : i \in others c -> Wd (sigma c i) /\ is_perm 48 (sigma c i).
Proof.
move=> Hi; have : sigma c i \in map (sigma c) (others c) by exact: map_f.
rewrite -sigma_words => /mapP[w Hw ->].
have [P W] := @ev_words RR 48 rubik_perms w gens_perm (allP (wlist_ok c) w Hw).
by split; [exact: W | exact: P].
Qed.
Lemma Wd_fam c a i : a \in all_of c -> i \in others c -> a != i -> Wd (fam c a i).
Proof.
move=> Ha Hi ne; have /and4P[_ _ _] := famE Ha Hi ne.
have [Wi Pi] := Wd_sigma Hi.
case: eqP => [_ /eqP ->|/eqP n1]; first exact: Wd_comp.
case: eqP => [_ /eqP -> //|/eqP n2 /eqP ->].
have [Wa Pa] : Wd (sigma c a) /\ is_perm 48 (sigma c a) by apply: Wd_sigma; rewrite others_all Ha n1 n2.
by apply: Wd_comp => //; [exact: is_perm_gather | exact: Wd_comp].
Qed.

(** ** the edge stickers *)
Definition esub (X : fmat RR) : fmat RR := FM 24 24 (fun i j => fe X (nth 0%N edges i) (nth 0%N edges j)).
Lemma edge_nth i : (i < 24)%N -> (nth 0%N edges i < 48)%N /\ corner (nth 0%N edges i) = false.
Proof. by move=> Hi; have := kind_all false (nth 0%N edges i); rewrite mem_nth // => /esym/andP[-> /eqP ->]. Qed.
Lemma edge_index x : (x < 48)%N -> corner x = false -> exists2 k, (k < 24)%N & nth 0%N edges k = x.
Proof.
move=> Hx Cx; have M : x \in edges by rewrite -[edges]/(all_of false) kind_all Hx Cx.
by exists (index x edges); [rewrite -[24%N]/(size edges) index_mem | rewrite nth_index].
Qed.
Lemma edges_inj i j : (i < 24)%N -> (j < 24)%N -> nth 0%N edges i = nth 0%N edges j -> i = j.
Proof. by move=> Hi Hj /eqP; rewrite nth_uniq // => /eqP. Qed.
Lemma esub_mul p Y : kp p -> fr Y = 48%N -> meq (esub (fmul (perm_mat RR 48 p) Y)) (fmul (esub (perm_mat RR 48 p)) (esub Y)).
Proof.
move=> /kpP[P K] y1; split=> //= i j Hi Hj.
have [e1 e2] := edge_nth Hi; have [k1 k2] := K _ e1; rewrite e2 in k2.
have [k Hk Ek] := edge_index k1 k2.
rewrite (sum_only (i := nth 0%N p (nth 0%N edges i))) // => [|x Hx ne]; last by rewrite eq_sym (negbTE ne) mul0r.
rewrite (sum_only (i := k)) // => [|x Hx ne]; first by rewrite Ek eqxx.
by rewrite -Ek; case: eqP => [/edges_inj e|_]; [case/eqP: ne; rewrite e | rewrite mul0r].
Qed.
Lemma esub_meq X Y : fr X = 48%N -> fc X = 48%N -> meq X Y -> meq (esub X) (esub Y).
Proof. by move=> x1 x2 [_ _ E]; split=> // i j Hi Hj; apply: E; [rewrite x1; have [] := edge_nth Hi | rewrite x2; have [] := edge_nth Hj]. Qed.
Definition edet (p : seq nat) : RR := fdet 24 (esub (perm_mat RR 48 p)).
Lemma edet_comp p q : kp p -> kp q -> edet (gather 0%N q p) = edet p * edet q.
Proof.
move=> Kp Kq; have [P _] := kpP Kp; have [Q _] := kpP Kq.
rewrite /edet -fdet_mul //; apply: fdet_meq => //; apply: meq_trans (esub_mul Kp _) => //.
exact: esub_meq (meq_sym (perm_mul RR P Q)).
Qed.
Lemma edet_id p : (forall i, (i < 24)%N -> nth 0%N p (nth 0%N edges i) = nth 0%N edges i) -> edet p = 1.
Proof.
move=> H; rewrite /edet -[RHS](fdet_id 24); apply: fdet_meq => //; split=> //= i j Hi Hj; rewrite H //.
by congr ((_ : bool)%:R); apply/eqP/eqP => [/edges_inj e|->] //; exact: e.
Qed.
Lemma edet_fam c a i : a \in all_of c -> i \in others c -> a != i -> edet (fam c a i) = 1.
Proof.
move=> Ha Hi ne; have /and4P[K /eqP E _ _] := famE Ha Hi ne.
have := edet_comp (kp_gather K K) K; rewrite E (edet_comp K K).
rewrite edet_id => [|k Hk]; last by rewrite nth_iota //; have [] := edge_nth Hk.
by move=> /esym; exact: cube_root.
Qed.

(** ** reduction to the two reserved stickers of each kind *)
Definition step (c : bool) (p : seq nat) (i : nat) : seq nat :=
  let a := nth 0%N p i in if a == i then p else gather 0%N (fam c a i) p.
Definition red (p : seq nat) : seq nat := foldl (step false) (foldl (step true) p (others true)) (others false).
Definition same (p q : seq nat) : Prop := [/\ kp q, Wd q <-> Wd p & edet q = edet p].
Lemma same_refl p : kp p -> same p p. Proof. by []. Qed.
Lemma same_trans p q r : same p q -> same q r -> same p r.
Proof. by case=> [_ w1 d1] [k2 w2 d2]; split=> //; [split=> [/w2/w1|/w1/w2] | rewrite d2]. Qed.
Definition free (j : nat) : bool := (j \in others true) || (j \in others false).
Lemma free_lt c j : j \in others c -> (j < 48)%N.
Proof. by rewrite others_all kind_all => /and3P[/andP[]]. Qed.
Lemma step_ok c p i : kp p -> i \in others c ->
  [/\ same p (step c p i), nth 0%N (step c p i) i = i & forall j, free j -> nth 0%N p j = j -> nth 0%N (step c p i) j = j].
Proof.
move=> K Hi; rewrite /step; case: eqP => [E|/eqP ne] //.
have [P Kp] := kpP K; have i48 := free_lt Hi; have [a48 ca] := Kp i i48.
set a := nth 0%N p i in ne a48 ca *.
have ci : corner i = c by move: Hi; rewrite others_all kind_all => /and3P[/andP[_ /eqP]].
have Ha : a \in all_of c by rewrite kind_all a48 ca ci eqxx.
have /and4P[Kt /eqP E3 /eqP Ea _] := famE Ha Hi ne; have Wt := Wd_fam Ha Hi ne; have Dt := edet_fam Ha Hi ne.
have [Pt _] := kpP Kt; set t := fam c a i in Kt E3 Ea Wt Dt Pt *.
have sp : size p = 48%N := is_perm_size P.
split; last 2 first.
- by rewrite nth_gather ?sp.
- move=> j Fj Ej; have j48 : (j < 48)%N by case/orP: Fj => /free_lt.
  rewrite nth_gather ?sp // Ej /t /fam nth_cyc3 //.
  case: eqP => [e|_]; first by case/eqP: ne; rewrite -(is_perm_inj P j48 i48) // Ej e.
  case: eqP => [e|_]; first by case/eqP: ne; rewrite /a -e Ej.
  case: eqP => // e; have : free (if a == fst_of c then snd_of c else fst_of c) by rewrite -e.
  by rewrite /free !others_all; case: (c); case: ifP => _; rewrite /= ?andbF.
split; first exact: kp_gather.
- split=> H; last exact: Wd_comp.
  have -> : p = gather 0%N t (gather 0%N t (gather 0%N t p)).
    apply: (@eq_from_nth _ 0%N) => [|j]; rewrite ?size_gather // sp => Hj.
    have [b48 _] := Kp j Hj; rewrite !nth_gather ?size_gather ?sp //.
    have e3 : nth 0%N (gather 0%N t (gather 0%N t t)) (nth 0%N p j) = nth 0%N p j by rewrite E3 nth_iota.
    by rewrite -{1}e3 !nth_gather ?size_gather ?(is_perm_size Pt).
  have P1 := is_perm_gather Pt P; have P2 := is_perm_gather Pt P1.
  exact: (Wd_comp P2 Pt (Wd_comp P1 Pt H Wt) Wt).
- by rewrite edet_comp // Dt mulr1.
Qed.
Lemma steps_ok c l p : kp p -> {subset l <= others c} ->
  [/\ same p (foldl (step c) p l), forall j, j \in l -> nth 0%N (foldl (step c) p l) j = j &
      forall j, free j -> nth 0%N p j = j -> nth 0%N (foldl (step c) p l) j = j].
Proof.
elim: l p => [|i l IH] p K S; first by split.
have Hi : i \in others c by apply: S; rewrite inE eqxx.
have [s1 f1 g1] := step_ok K Hi; have [K1 _ _] := s1.
have [|s2 f2 g2] := IH _ K1; first by move=> j Hj; apply: S; rewrite inE Hj orbT.
split=> /=; first exact: same_trans s1 s2.
- move=> j; rewrite inE => /orP[/eqP ->|]; last exact: f2.
  by apply: g2 => //; case: (c) Hi; rewrite /free => ->; rewrite ?orbT.
- by move=> j Fj /g1 => /(_ Fj); exact: g2.
Qed.
Lemma red_ok p : kp p -> same p (red p) /\ forall j, free j -> nth 0%N (red p) j = j.
Proof.
move=> K; have [s1 f1 _] := steps_ok K (fun x (h : x \in others true) => h); have [K1 _ _] := s1.
have [s2 f2 g2] := steps_ok K1 (fun x (h : x \in others false) => h).
split; first exact: same_trans s1 s2.
move=> j Fj; case/orP: (Fj) => Hj; last exact: f2.
by apply: g2 => //; exact: f1.
Qed.
End Words.

Lemma edge_edges k : (k < 24)%N -> nth 0%N edges k = edge k.
Proof.
move=> Hk; have /allP H : all (fun k => nth 0%N edges k == edge k) (iota 0 24) by vm_compute.
by apply/eqP/H; rewrite mem_iota.
Qed.
(** the four permutations that fix all other stickers *)
Definition sw (b c : bool) : seq nat :=
  map (fun y => if b && (y == 0%N) then 2%N else if b && (y == 2%N) then 0%N
                else if c && (y == 1%N) then 3%N else if c && (y == 3%N) then 1%N else y) (iota 0 48).
Lemma nth_sw b c y : (y < 48)%N -> nth 0%N (sw b c) y = if b && (y == 0%N) then 2%N else if b && (y == 2%N) then 0%N
                else if c && (y == 1%N) then 3%N else if c && (y == 3%N) then 1%N else y.
Proof. by move=> Hy; rewrite (nth_map 0%N) ?size_iota // nth_iota. Qed.
Lemma free_or y : (y < 48)%N -> ~~ free y -> y = fst_of (corner y) \/ y = snd_of (corner y).
Proof.
move=> Hy; rewrite /free !others_all !kind_all Hy /=; case: (corner y) => /=.
  by rewrite orbF negb_and !negbK => /orP[] /eqP; [left | right].
by rewrite negb_and !negbK => /orP[] /eqP; [left | right].
Qed.
Lemma nfree c : ~~ free (fst_of c) /\ ~~ free (snd_of c).
Proof. by rewrite /free !others_all; case: c; rewrite /= ?andbF. Qed.
Lemma red_two p c : kp p -> (forall j, free j -> nth 0%N p j = j) ->
  (nth 0%N p (fst_of c) = fst_of c /\ nth 0%N p (snd_of c) = snd_of c) \/
  (nth 0%N p (fst_of c) = snd_of c /\ nth 0%N p (snd_of c) = fst_of c).
Proof.
move=> /kpP[P K] F; have [n1 n2] := nfree c.
have f48 : (fst_of c < 48)%N by case: (c).
have s48 : (snd_of c < 48)%N by case: (c).
have cf : corner (fst_of c) = c by case: (c).
have cs : corner (snd_of c) = c by case: (c).
have fs : fst_of c != snd_of c by case: (c).
have A x : (x < 48)%N -> corner x = c -> ~~ free x -> nth 0%N p x = fst_of c \/ nth 0%N p x = snd_of c.
  move=> Hx cx nx; have [a b] := K x Hx; rewrite -cx -b; apply: free_or => //.
  apply/negP => Fy; have := F _ Fy => /(is_perm_inj P a Hx) E; by rewrite E (negbTE nx) in Fy.
have I := is_perm_inj P f48 s48.
case: (A _ f48 cf n1) => E1; case: (A _ s48 cs n2) => E2; [|by left|by right|];
  by case/eqP: fs; apply: I; rewrite E1 E2.
Qed.
Lemma red_nf p : kp p -> exists b c, red p = sw b c.
Proof.
move=> K; have [[K1 _ _] F] := red_ok K; have [P _] := kpP K1.
have [b Hb] : exists b : bool, nth 0%N (red p) 0 = (if b then 2 else 0)%N /\ nth 0%N (red p) 2 = (if b then 0 else 2)%N.
  by case: (red_two true K1 F) => H; [exists false | exists true].
have [c Hc] : exists c : bool, nth 0%N (red p) 1 = (if c then 3 else 1)%N /\ nth 0%N (red p) 3 = (if c then 1 else 3)%N.
  by case: (red_two false K1 F) => H; [exists false | exists true].
exists b, c; apply: (@eq_from_nth _ 0%N) => [|y]; first by rewrite (is_perm_size P) size_map size_iota.
rewrite (is_perm_size P) => Hy; rewrite nth_sw //.
have [Fy|/(free_or Hy)] := boolP (free y); last first.
  by case: (corner y) => /= -[] ->; rewrite ?(Hb.1, Hb.2, Hc.1, Hc.2) /=; case: (b); case: (c).
rewrite F //; have [n1 n2] := nfree true; have [n3 n4] := nfree false; rewrite /= in n1 n2 n3 n4.
case: eqP Fy => [->|_]; first by rewrite (negbTE n1).
case: eqP => [->|_]; first by rewrite (negbTE n2).
case: eqP => [->|_]; first by rewrite (negbTE n3).
case: eqP => [->|_]; first by rewrite (negbTE n4).
by rewrite !andbF.
Qed.
Lemma Wd_00 : Wd (sw false false).
Proof. by apply: W_one; split=> //= i j Hi Hj; rewrite nth_sw. Qed.
Lemma red_gens : all (fun p => red p \in [:: sw false false; sw true false]) rubik_perms.
Proof. by vm_compute. Qed.
Lemma red_U : red (nth [::] rubik_perms 0) = sw true false.
Proof. by vm_compute. Qed.
Lemma Wd_10 : Wd (sw true false).
Proof.
have M : nth [::] rubik_perms 0 \in rubik_perms by apply: mem_nth; vm_compute.
have [[_ [_ W] _] _] := red_ok (allP gens_kp _ M); rewrite -red_U; apply: W; exact: Wd_gen.
Qed.
Lemma edet_s0 b : edet (sw b false) = 1.
Proof.
apply: edet_id => i Hi; have [e1 e2] := edge_nth Hi; rewrite nth_sw //=.
by case: eqP e2 => [->|_] //; case: eqP => [->|_] //; rewrite !andbF.
Qed.
Lemma edet_s1 b : edet (sw b true) = - 1.
Proof.
pose s : 'S_24 := tperm (@Ordinal 24 0 isT) (@Ordinal 24 1 isT).
rewrite /edet /fdet (_ : mxf 24 24 _ = perm_mx s); first by rewrite det_perm odd_tperm /= expr1.
apply/matrixP => i j; rewrite !mxE /=; congr ((_ : bool)%:R).
have [e1 e2] := edge_nth (ltn_ord i); rewrite nth_sw //.
have E0 : nth 0%N edges 0 = 1%N by vm_compute.
have E1 : nth 0%N edges 1 = 3%N by vm_compute.
have J k : (k < 24)%N -> (nth 0%N edges i == nth 0%N edges k) = (i == k :> nat).
  by move=> Hk; apply/eqP/eqP => [/edges_inj e|->] //; exact: e.
have -> : b && (nth 0%N edges i == 0%N) = false by case: eqP e2 => [->|_]; rewrite ?andbF.
have -> : b && (nth 0%N edges i == 2%N) = false by case: eqP e2 => [->|_]; rewrite ?andbF.
have L k : (k < 24)%N -> (nth 0%N edges k == nth 0%N edges j) = (k == j :> nat).
  by move=> Hk; apply/eqP/eqP => [/edges_inj e|->] //; exact: e.
have J0 : (nth 0%N edges i == 1%N) = (i == 0%N :> nat) by rewrite -(J 0%N) // E0.
have J1 : (nth 0%N edges i == 3%N) = (i == 1%N :> nat) by rewrite -(J 1%N) // E1.
have L0 : (1%N == nth 0%N edges j) = (0%N == j :> nat) by rewrite -(L 0%N) // E0.
have L1 : (3%N == nth 0%N edges j) = (1%N == j :> nat) by rewrite -(L 1%N) // E1.
rewrite J0 J1 /s; case: tpermP => [->|->|/eqP n1 /eqP n2]; [exact: L1 | exact: L0 |].
have m1 : (i == 0%N :> nat) = false by apply: negbTE n1.
have m2 : (i == 1%N :> nat) = false by apply: negbTE n2.
by rewrite m1 m2; exact: L.
Qed.
Lemma Wd_det p : kp p -> edet p = 1 -> Wd p.
Proof.
move=> K E; have [[_ [W _] D] _] := red_ok K; apply: W; move: D; rewrite E.
have [b [[] ->]] := red_nf K; last by case: (b) => _; [exact: Wd_10 | exact: Wd_00].
rewrite edet_s1 => h; exfalso; move: h; rewrite /GRing.opp /GRing.one /=; lra.
Qed.
Lemma edet_gen p : p \in rubik_perms -> edet p = 1.
Proof.
move=> H; have [[_ _ <-] _] := red_ok (allP gens_kp _ H).
by have := allP red_gens _ H; rewrite !inE => /orP[] /eqP ->; exact: edet_s0.
Qed.
Lemma kp_argsort p : kp p -> kp (argsort p).
Proof.
move=> /kpP[P K]; apply/andP; split; first exact: argsort_perm.
apply/allP => i; rewrite mem_iota add0n => /andP[_ Hi]; have Hj := is_perm_nth (argsort_perm P) Hi.
by have [_ <-] := K _ Hj; rewrite (perm_argsort P).
Qed.
Lemma idp : exists2 e, kp e & [/\ forall i, (i < 48)%N -> nth 0%N e i = i, size e = 48%N, edet e = 1 & meq (perm_mat RR 48 e) (fid RR 48)].
Proof.
exists (iota 0 48); first by vm_compute.
have H i : (i < 48)%N -> nth 0%N (iota 0 48) i = i by move=> Hi; rewrite nth_iota.
move: (iota 0 48) (size_iota 0 48) H => e S H; split; [exact: H | exact: S | |].
  by apply: edet_id => i Hi; have [h _] := edge_nth Hi; exact: H.
by split=> // i j Hi Hj; rewrite /= H.
Qed.
Lemma words_kp X : words 48 (p_mats RR rubik_perms) X -> exists2 p, kp p & meq X (perm_mat RR 48 p) /\ edet p = 1.
Proof.
have [e idk [ide ids idd idm]] := idp.
elim=> {X} [X E|h X Hh E|X Y Z _ [p Kp [E1 D1]] _ [q Kq [E2 D2]] E|X Y _ [p Kp [E D]] y1 y2 H1 H2].
- exists e; first exact: idk.
  by split; [exact: meq_trans E (meq_sym idm) | exact: idd].
- have [p Hp Eh] := p_in gens_perm Hh; exists p; first exact: (allP gens_kp).
  by split; [rewrite -Eh; exact: E | exact: edet_gen].
- exists (gather 0%N q p); first exact: kp_gather.
  have [P _] := kpP Kp; have [Q _] := kpP Kq; split; last by rewrite edet_comp // D1 D2 mulr1.
  apply: (meq_trans E); apply: meq_trans (meq_fmul E1 E2 _) (perm_mul RR P Q).
  by have [_ -> _] := E1; have [-> _ _] := E2.
have Ka := kp_argsort Kp; have [P _] := kpP Kp; have [A _] := kpP Ka; have sp := is_perm_size P.
have Ei : gather 0%N p (argsort p) = e.
  apply: (@eq_from_nth _ 0%N) => [|i]; rewrite size_gather size_argsort sp ?ids // => Hi.
  by rewrite nth_gather ?size_argsort ?sp // (perm_argsort P) // ide.
exists (argsort p); first exact: Ka.
split; last by have := edet_comp Ka Kp; rewrite Ei idd D mulr1.
have [x1 x2 _] := E; apply: (@inv_uniq _ 48 X) => //.
apply: meq_trans (meq_fmul (meq_refl _) E _) _; first by rewrite x1.
by apply: meq_trans (perm_mul RR A P) _; rewrite Ei; exact: idm.
Qed.
Lemma edge_part_esub X : meq (edge_part X) (esub X).
Proof. by split=> //= i j Hi Hj; rewrite !edge_edges. Qed.
Lemma kp_keeps p : kp p <-> keeps_kinds p.
Proof.
split=> [/kpP[P K]|[P K]]; first by split=> // x /K[].
apply/andP; split=> //; apply/allP => i; rewrite mem_iota add0n => /andP[_ Hi]; by apply/eqP; exact: K.
Qed.
Lemma rubik_iff X : words 48 (p_mats RR rubik_perms) X <->
  exists2 p, keeps_kinds p & meq X (perm_mat RR 48 p) /\ fdet 24 (edge_part X) = 1.
Proof.
have D p : meq X (perm_mat RR 48 p) -> fdet 24 (edge_part X) = edet p.
  move=> E; apply: fdet_meq => //; apply: meq_trans (edge_part_esub X) _.
  by have [e1 e2 _] := E; apply: esub_meq E.
split=> [/words_kp[p Kp [E Ed]]|[p /kp_keeps Kp [E Ed]]].
  by exists p; [exact/kp_keeps | split; rewrite ?(D _ E)].
have := Wd_det Kp; rewrite -(D _ E) => /(_ Ed); move=> W; exact: (words_meq (meq_sym E)) W.
Qed.
Lemma exact_rubik conj close : exact_group (g_rubik conj close) 48
  (fun X => exists2 p, keeps_kinds p & meq X (perm_mat RR 48 p) /\ fdet 24 (edge_part X) = 1).
Proof.
apply: (built_exact (rubik_ok conj close)); rewrite no_items => _ Hh X; rewrite in_words.
rewrite rubik_iff; split=> [[p Hp E]|[_ _ H]]; last exact: H.
have [[e1 e2 _] _] := E; split; [exact: e1 | exact: e2 | exists p; [exact: Hp | exact: E]].
Qed.

(** ** colourings *)
Lemma edet_pm p : kp p -> edet p = 1 \/ edet p = - 1.
Proof.
move=> K; have [[_ _ <-] _] := red_ok K; have [b [[] ->]] := red_nf K; [right; exact: edet_s1 | left; exact: edet_s0].
Qed.
Definition swap (a b : nat) : seq nat := mkseq (fun x => if x == a then b else if x == b then a else x) 48.
Lemma nth_swap a b x : (x < 48)%N -> nth 0%N (swap a b) x = if x == a then b else if x == b then a else x.
Proof. by move=> Hx; rewrite nth_mkseq. Qed.
Lemma swap_lt a b x : (a < 48)%N -> (b < 48)%N -> (x < 48)%N -> (nth 0 (swap a b) x < 48)%N.
Proof. by move=> Ha Hb Hx; rewrite nth_swap //; do 2?case: eqP. Qed.
Lemma swapK a b x : (a < 48)%N -> (b < 48)%N -> (x < 48)%N -> nth 0%N (swap a b) (nth 0%N (swap a b) x) = x.
Proof.
move=> Ha Hb Hx; rewrite [LHS]nth_swap ?swap_lt // nth_swap //.
case: (x =P a) => [->|na]; first by rewrite eqxx; case: eqP.
case: (x =P b) => [->|nb]; first by rewrite eqxx.
by case: eqP => //; case: eqP.
Qed.
Lemma swap_kp a b : (a < 48)%N -> (b < 48)%N -> corner a = corner b -> kp (swap a b).
Proof.
move=> Ha Hb E; apply/andP; split.
  apply: is_permP; first by rewrite size_mkseq.
    apply/(uniqP 0%N) => i j; rewrite size_mkseq !inE => Hi Hj e.
    by rewrite -(swapK Ha Hb Hi) e swapK.
  by apply/(all_nthP 0%N) => i; rewrite size_mkseq => Hi; exact: swap_lt.
apply/allP => i; rewrite mem_iota add0n => /andP[_ Hi]; rewrite nth_swap //.
by case: (i =P a) => [->|_]; [rewrite E | case: (i =P b) => // ->; rewrite E].
Qed.
Lemma edet_swap i j : (i < j)%N -> (j < 24)%N -> edet (swap (nth 0%N edges i) (nth 0%N edges j)) = - 1.
Proof.
move=> Hij Hj; have Hi := ltn_trans Hij Hj.
pose s : 'S_24 := tperm (Ordinal Hi) (Ordinal Hj).
rewrite /edet /fdet (_ : mxf 24 24 _ = perm_mx s).
  by rewrite det_perm odd_tperm /= (_ : _ != _) ?expr1 // -val_eqE /=; move/ltn_eqF: Hij => ->.
apply/matrixP => u v; rewrite !mxE /=; congr ((_ : bool)%:R).
have [e1 e2] := edge_nth (ltn_ord u); rewrite nth_swap //.
have J k l : (k < 24)%N -> (l < 24)%N -> (nth 0%N edges k == nth 0%N edges l) = (k == l :> nat).
  by move=> Hk Hl; apply/eqP/eqP => [/edges_inj e|->] //; exact: e.
rewrite !J // /s; case: tpermP => [->|->|/eqP n1 /eqP n2].
- by rewrite eqxx J.
- by rewrite /= eqxx (gtn_eqF Hij) J.
have -> : (u == i :> nat) = false by apply: negbTE n1.
have -> : (u == j :> nat) = false by apply: negbTE n2.
exact: J.
Qed.
Lemma reach p col : kp p -> (forall x, (x < 48)%N -> (col x < 6)%N) ->
  exists2 q, kp q /\ edet q = 1 & forall x, (x < 48)%N -> col (nth 0%N q x) = col (nth 0%N p x) :> nat.
Proof.
move=> Kp Hc; have [P K] := kpP Kp; case: (edet_pm Kp) => D; first by exists p.
have /(uniqPn 0%N)[i [j [Hij Hj E]]] : ~~ uniq (map col (take 7 edges)).
  apply/negP => U; have S : {subset map col (take 7 edges) <= iota 0 6}.
    move=> c /mapP[x Hx ->]; rewrite mem_iota; apply: Hc.
    by have := kind_all false x; rewrite (mem_take Hx) => /esym/andP[].
  by have := uniq_leq_size U S; rewrite size_map size_takel.
rewrite size_map size_takel // in Hj; have Hi := ltn_trans Hij Hj.
rewrite !(nth_map 0%N) ?size_takel // !nth_take // in E.
have j24 : (j < 24)%N by lia. have i24 : (i < 24)%N by lia.
have [a1 a2] := edge_nth i24; have [b1 b2] := edge_nth j24.
set a := nth 0%N edges i in E a1 a2; set b := nth 0%N edges j in E b1 b2.
have Kt : kp (swap a b) by apply: swap_kp; rewrite // a2 b2.
exists (gather 0%N (swap a b) p).
  by split; [exact: kp_gather | rewrite edet_comp // D edet_swap // mulrNN mulr1].
move=> x Hx; have [y48 _] := K x Hx; rewrite nth_gather ?(is_perm_size P) // nth_swap //.
by case: (_ =P a) => [->|_]; [rewrite E | case: (_ =P b) => // ->].
Qed.
Lemma edet_part p : fdet 24 (edge_part (perm_mat RR 48 p)) = edet p.
Proof. by apply: fdet_meq => //; exact: edge_part_esub. Qed.
Lemma in_rubik conj close G p : g_rubik conj close = Ok G -> kp p -> edet p = 1 -> in_group 48 (lmats G) (gmats G) (perm_mat RR 48 p).
Proof.
move=> EG K D; have [G0 E0 [_ H]] := exact_rubik conj close; move: E0; rewrite EG => -[?]; subst G0.
apply/H; split; [exact: erefl | exact: erefl | exists p; first exact/kp_keeps].
split; first exact: meq_refl.
exact: etrans (edet_part p) D.
Qed.
