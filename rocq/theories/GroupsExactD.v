(** * GroupsExactD: the groups generated by the discrete group objects and Scaling(n). *)
From Coq Require Import Reals Lra String.
From Coquelicot Require Import Coquelicot.
From mathcomp Require Import all_ssreflect all_algebra.
From mathcomp Require Import zify.
From Verif Require Import Np NpLemmas Spec SpecLemmas LinOp LinOpSpec LinOpInv MxBridge RepSpec RhoProofs Rstruct Expm GrpSpec RField GenSL GenSO.
From Verif Require Import Groups GroupsSpec GroupsPerm GroupsSpecR ExactSpec GroupsLoop GroupsLie GroupsInit GroupsCtor GroupsThm GroupsFlag GroupsReal GroupsForm GroupsDet GroupsGen GroupsTol GroupsExact GroupsExactL.
Set Implicit Arguments.
Unset Strict Implicit.
Unset Printing Implicit Defensive.
Import GRing.Theory.
Local Open Scope ring_scope.


Lemma span_nil (X : fmat RR) : ~ lie_span [::] X.
Proof. by elim. Qed.
Lemma in_words n hs (X : fmat RR) : in_group n [::] hs X <-> words n hs X.
Proof.
split; elim=> {X}.
- by move=> X; exact: W_one.
- by move=> h X; exact: W_gen.
- by move=> A X /span_nil.
- by move=> X Y Z _ GX _ GY; exact: W_mul GX GY.
- by move=> X Y _ GX; exact: W_inv GX.
- by move=> X; exact: I_one.
- by move=> h X; exact: I_gen.
- by move=> X Y Z _ GX _ GY; exact: I_mul GX GY.
by move=> X Y _ GX; exact: I_inv GX.
Qed.
Lemma words_nil n (X : fmat RR) : words n [::] X <-> meq X (fid RR n).
Proof.
split=> [|H]; last exact: W_one.
elim=> {X} [X //|h X []|X Y Z _ EX _ EY EZ|X Y _ EX h1 h2 E1 E2].
  have [x1 x2 _] := EX; have [y1 y2 _] := EY.
  by apply: meq_trans EZ _; apply: meq_trans (meq_fmul EX EY _) (fmul_id_l _) => //; rewrite x2 y1.
apply: meq_sym; apply: meq_trans (meq_sym E1) _.
by have [x1 x2 _] := EX; apply: meq_trans (meq_fmul EX (meq_refl Y) _) (fmul_id_l _) => //; rewrite x2 h1.
Qed.
(** a group generated by one involution *)
Lemma words_two n h (X : fmat RR) : fr h = n -> fc h = n -> meq (fmul h h) (fid RR n) ->
  words n [:: h] X <-> meq X (fid RR n) \/ meq X h.
Proof.
move=> h1 h2 HH; split=> [|[H|H]]; [|exact: W_one|by apply: W_gen H; left].
have Q (X0 Y : fmat RR) : meq X0 (fid RR n) \/ meq X0 h -> fr Y = n -> meq Y (fid RR n) \/ meq Y h ->
  meq (fmul X0 Y) (fid RR n) \/ meq (fmul X0 Y) h.
  move=> HX y1 HY; case: HX => HX; have [x1 x2 _] := HX; case: HY => HY; have [y1' y2 _] := HY; rewrite /= in x2 y1'.
  - by left; apply: meq_trans (meq_fmul HX HY _) (fmul_id_l _) => //; rewrite x2 y1.
  - by right; apply: meq_trans (meq_fmul HX HY _) (fmul_id_l _) => //; rewrite x2 y1.
  - by right; apply: meq_trans (meq_fmul HX HY _) (fmul_id_r _) => //; rewrite x2 y1 h2.
  by left; apply: meq_trans (meq_fmul HX HY _) HH => //; rewrite x2 y1 h2.
elim=> {X} [X H|g X [<-|//] H|X Y Z _ HX _ HY EZ|X Y _ HX y1 y2 E1 E2]; [by left|by right| |].
  have y1 : fr Y = n by case: HY => -[-> _ _] //.
  by case: (Q X Y HX y1 HY) => H; [left|right]; apply: meq_trans EZ H.
case: HX => EX; have [x1 x2 _] := EX; rewrite /= ?h2 in x2.
  left; apply: meq_sym; apply: meq_trans (meq_sym E1) _.
  by apply: meq_trans (meq_fmul EX (meq_refl Y) _) (fmul_id_l _) => //; rewrite x2 y1.
right; have E3 : meq (fmul h Y) (fid RR n).
  by apply: meq_trans (meq_fmul (meq_sym EX) (meq_refl Y) _) E1; rewrite h2 y1.
apply: meq_trans (meq_sym (fmul_id_l (n := n) _)) _ => //.
apply: meq_trans (meq_fmul (meq_sym HH) (meq_refl Y) _) _; first by rewrite /= y1.
apply: meq_trans (meq_sym (fmul_assoc _ _ _)) _.
by apply: meq_trans (meq_fmul (meq_refl h) E3 _) (fmul_id_r _) => //; rewrite /= h1 h2.
Qed.

(** *** rotations of the plane *)
Lemma meq22 (F G : fmat RR) : fr F = 2%N -> fc F = 2%N -> fr G = 2%N -> fc G = 2%N ->
  fe F 0 0 = fe G 0 0 -> fe F 0 1 = fe G 0 1 -> fe F 1 0 = fe G 1 0 -> fe F 1 1 = fe G 1 1 -> meq F G.
Proof.
move=> f1 f2 g1 g2 E1 E2 E3 E4; split; rewrite ?f1 ?f2 // => i j.
by case: i => [|[|]] //; case: j => [|[|]].
Qed.
Ltac m22 := apply: meq22 => //=; rewrite !(big_nat_recr, big_nil) //= add0r.
Lemma rot_mul a b : meq (fmul (rot a) (rot b)) (rot (Rplus a b)).
Proof. by m22; rewrite ?cos_plus ?sin_plus /GRing.mul /GRing.add /GRing.opp /=; ring. Qed.
Lemma rot_ref a b : meq (fmul (rot a) (ref b)) (ref (Rplus (Ropp a) b)).
Proof. by m22; rewrite ?cos_plus ?sin_plus ?cos_neg ?sin_neg /GRing.mul /GRing.add /GRing.opp /=; ring. Qed.
Lemma ref_rot a b : meq (fmul (ref a) (rot b)) (ref (Rplus a b)).
Proof. by m22; rewrite ?cos_plus ?sin_plus ?cos_neg ?sin_neg /GRing.mul /GRing.add /GRing.opp /=; ring. Qed.
Lemma ref_mul a b : meq (fmul (ref a) (ref b)) (rot (Rplus (Ropp a) b)).
Proof. by m22; rewrite ?cos_plus ?sin_plus ?cos_neg ?sin_neg /GRing.mul /GRing.add /GRing.opp /=; ring. Qed.
Lemma rot0 : meq (fid RR 2) (rot 0).
Proof. by apply: meq22 => //=; rewrite ?cos_0 ?sin_0 //= /GRing.opp /= Ropp_0. Qed.
Section Angles.
Variables (k : nat) (th : R).
Hypotheses (k0 : (0 < k)%N) (Hth : th = Rdiv (Rmult 2 PI) (INR k)).
Lemma kth : Rmult (INR k) th = Rmult 2 PI.
Proof. by rewrite Hth; field; apply: not_0_INR; case: k k0. Qed.
Lemma per j q : cos (Rmult (INR (j + q * k)) th) = cos (Rmult (INR j) th) /\ sin (Rmult (INR (j + q * k)) th) = sin (Rmult (INR j) th).
Proof.
have -> : Rmult (INR (j + q * k)) th = Rplus (Rmult (INR j) th) (Rmult (Rmult 2 (INR q)) PI).
  by rewrite plus_INR mult_INR Rmult_plus_distr_r Rmult_assoc kth; ring.
by rewrite cos_period sin_period.
Qed.
Lemma per_rot j q : meq (rot (Rmult (INR (j + q * k)) th)) (rot (Rmult (INR j) th)).
Proof. by have [E1 E2] := per j q; split=> //= x y _ _; rewrite E1 E2. Qed.
Lemma per_ref j q : meq (ref (Rmult (INR (j + q * k)) th)) (ref (Rmult (INR j) th)).
Proof. by have [E1 E2] := per j q; split=> //= x y _ _; rewrite E1 E2. Qed.
(** -j th is (k-1) j th up to a full turn *)
Lemma neg_th j t : exists2 q, (q < k)%N & (exists i, Rplus (Rmult (Ropp (INR j)) th) (Rmult (INR t) th) = Rminus (Rmult (INR (q + i * k)) th) (Rmult (Rmult 2 (INR j)) PI)).
Proof.
exists ((k * j - j + t) %% k)%N; first by rewrite ltn_mod.
exists ((k * j - j + t) %/ k)%N; rewrite addnC -divn_eq plus_INR minus_INR; last by apply/leP; rewrite -{1}(mul1n j) leq_mul2r k0 orbT.
have := kth; rewrite mult_INR; set K := INR k; set J := INR j => E.
have -> : Rmult (Rmult 2 J) PI = Rmult J (Rmult K th) by rewrite E; ring.
by ring.
Qed.
Lemma back x j : cos (Rminus x (Rmult (Rmult 2 (INR j)) PI)) = cos x /\ sin (Rminus x (Rmult (Rmult 2 (INR j)) PI)) = sin x.
Proof. by rewrite -(cos_period _ j) -(sin_period _ j); split; [congr cos | congr sin]; ring. Qed.
Definition rots (X : fmat RR) : Prop := exists2 j, (j < k)%N & meq X (rot (Rmult (INR j) th)).
Definition refs (X : fmat RR) : Prop := exists2 j, (j < k)%N & meq X (ref (Rmult (INR j) th)).
Lemma to_rots X j : meq X (rot (Rmult (INR j) th)) -> rots X.
Proof.
move=> E; exists (j %% k)%N; first by rewrite ltn_mod.
by apply: meq_trans E _; rewrite {1}(divn_eq j k) addnC; exact: per_rot.
Qed.
Lemma to_refs X j : meq X (ref (Rmult (INR j) th)) -> refs X.
Proof.
move=> E; exists (j %% k)%N; first by rewrite ltn_mod.
by apply: meq_trans E _; rewrite {1}(divn_eq j k) addnC; exact: per_ref.
Qed.
Lemma to_rotsN X j t : meq X (rot (Rplus (Ropp (Rmult (INR j) th)) (Rmult (INR t) th))) -> rots X.
Proof.
rewrite Ropp_mult_distr_l; have [q Hq [i ->]] := neg_th j t; have [E1 E2] := back (Rmult (INR (q + i * k)) th) j.
move=> E; apply: (to_rots (j := q + i * k)); apply: meq_trans E _; split=> //= x y _ _.
by rewrite E1 E2.
Qed.
Lemma to_refsN X j t : meq X (ref (Rplus (Ropp (Rmult (INR j) th)) (Rmult (INR t) th))) -> refs X.
Proof.
rewrite Ropp_mult_distr_l; have [q Hq [i ->]] := neg_th j t; have [E1 E2] := back (Rmult (INR (q + i * k)) th) j.
move=> E; apply: (to_refs (j := q + i * k)); apply: meq_trans E _; split=> //= x y _ _.
by rewrite E1 E2.
Qed.
Definition dk (X : fmat RR) : Prop := rots X \/ refs X.
Lemma rots_mul X Y : rots X -> rots Y -> rots (fmul X Y).
Proof.
move=> [i Hi EX] [j Hj EY]; apply: (to_rots (j := i + j)).
apply: meq_trans (meq_fmul EX EY _) _; first by have [_ -> _] := EX; have [-> _ _] := EY.
by rewrite plus_INR Rmult_plus_distr_r; exact: rot_mul.
Qed.
Lemma dk_mul X Y : dk X -> dk Y -> dk (fmul X Y).
Proof.
move=> [RX|[i Hi EX]] [RY|[j Hj EY]]; first by left; exact: rots_mul.
- right; have [i Hi EX] := RX; apply: (@to_refsN _ i j).
  by apply: meq_trans (meq_fmul EX EY _) (rot_ref _ _); have [_ -> _] := EX; have [-> _ _] := EY.
- right; have [j Hj EY] := RY; apply: (to_refs (j := i + j)).
  rewrite plus_INR Rmult_plus_distr_r.
  by apply: meq_trans (meq_fmul EX EY _) (ref_rot _ _); have [_ -> _] := EX; have [-> _ _] := EY.
left; apply: (@to_rotsN _ i j).
by apply: meq_trans (meq_fmul EX EY _) (ref_mul _ _); have [_ -> _] := EX; have [-> _ _] := EY.
Qed.
Lemma rots_one X : meq X (fid RR 2) -> rots X.
Proof. by move=> E; apply: (to_rots (j := 0)); rewrite /= Rmult_0_l; exact: meq_trans E rot0. Qed.
Lemma rots_sz X : rots X -> fr X = 2%N /\ fc X = 2%N.
Proof. by case=> j _ []. Qed.
Lemma dk_sz X : dk X -> fr X = 2%N /\ fc X = 2%N.
Proof. by case=> [/rots_sz //|[j _ []]]. Qed.
(** a set of invertible matrices closed under products *)
Lemma rots_inv X : rots X -> exists V, [/\ rots V, meq (fmul X V) (fid RR 2) & meq (fmul V X) (fid RR 2)].
Proof.
move=> [j Hj EX]; pose V := rot (Ropp (Rmult (INR j) th)); exists V.
have [x1 x2 _] := EX; split.
- by apply: (@to_rotsN _ j 0); rewrite /= Rmult_0_l Rplus_0_r.
- apply: meq_trans (meq_fmul EX (meq_refl _) _) _; first by rewrite x2.
  by apply: meq_trans (rot_mul _ _) _; rewrite Rplus_opp_r; exact: meq_sym rot0.
apply: meq_trans (meq_fmul (meq_refl _) EX _) _; first by rewrite x1.
by apply: meq_trans (rot_mul _ _) _; rewrite Rplus_opp_l; exact: meq_sym rot0.
Qed.
Lemma dk_inv X : dk X -> exists V, [/\ dk V, meq (fmul X V) (fid RR 2) & meq (fmul V X) (fid RR 2)].
Proof.
move=> [/rots_inv[V [h1 h2 h3]]|[j Hj EX]]; first by exists V; split=> //; left.
exists X; have E2 : meq (fmul X X) (fid RR 2).
  apply: meq_trans (meq_fmul EX EX _) _; first by have [-> -> _] := EX.
  by apply: meq_trans (ref_mul _ _) _; rewrite Rplus_opp_l; exact: meq_sym rot0.
by split=> //; right; exists j.
Qed.
Lemma words_in (P : fmat RR -> Prop) gs X : (forall X, meq X (fid RR 2) -> P X) -> (forall X, P X -> fr X = 2%N /\ fc X = 2%N) ->
  (forall X Y, meq X Y -> P Y -> P X) ->
  (forall X Y, P X -> P Y -> P (fmul X Y)) -> (forall X, P X -> exists V, [/\ P V, meq (fmul X V) (fid RR 2) & meq (fmul V X) (fid RR 2)]) ->
  (forall g, List.In g gs -> P g) -> words 2 gs X -> P X.
Proof.
move=> P1 Psz Pe PM PV Pg; elim=> {X} [X|h X /Pg Ph E|X Y Z _ PX _ PY E|X Y _ PX y1 y2 E1 E2].
- exact: P1.
- exact: Pe E Ph.
- exact: Pe E (PM _ _ PX PY).
have [V [HV V1 V2]] := PV X PX; have [v1 v2] := Psz V HV; have [x1 x2] := Psz X PX.
by apply: Pe HV; apply: (@inv_uniq _ 2 X).
Qed.
Lemma rots_meq X Y : meq X Y -> rots Y -> rots X.
Proof. by move=> E [j Hj H]; exists j => //; apply: meq_trans E H. Qed.
Lemma dk_meq X Y : meq X Y -> dk Y -> dk X.
Proof. by move=> E [H|[j Hj H]]; [left; exact: rots_meq E H | right; exists j => //; apply: meq_trans E H]. Qed.
Lemma c_words g gs X : List.In g gs -> meq g (rot th) -> rots X -> words 2 gs X.
Proof.
move=> Hg Eg [j _ EX]; elim: j X EX => [|j IH] X EX.
  by apply: W_one; apply: meq_trans EX _; rewrite /= Rmult_0_l; exact: meq_sym rot0.
apply: (@W_mul _ _ _ (rot (Rmult (INR j) th)) g); [exact: IH | exact: W_gen Hg (meq_refl _) |].
apply: meq_trans EX _; apply: meq_trans (meq_fmul (meq_refl _) (meq_sym Eg) _); last by [].
apply: meq_trans (meq_sym (rot_mul _ _)).
by rewrite S_INR Rmult_plus_distr_r Rmult_1_l.
Qed.
End Angles.

Section Ctors.
Variables (conj : RR -> RR) (recip : nat -> RR) (close : seq RR -> seq RR -> bool).
Definition angle_ k := Rdiv (Rmult 2 PI) (INR k).
Lemma exact_c k : (0 < k)%N -> exact_group (g_c conj cosR sinR close k) 2
  (fun X => exists2 j, (j < k)%N & meq X (rot (Rmult (INR j) (Rdiv (Rmult 2 PI) (INR k))))).
Proof.
move=> k0; apply: (built_exact (c_ok conj cosR sinR close k0)); rewrite no_items => _ Hh X; rewrite in_words.
set gs := map _ _ in Hh *; pose g := den (OArr 2 2 [:: cosR k; sinR k; - sinR k; cosR k]).
have Eg : gs = [:: g] by [].
have Mg : meq g (rot (Rdiv (Rmult 2 PI) (INR k))) by apply: meq22.
split=> [W|[x1 x2 HX]].
  have [x1 x2] := words_sz Hh W; split=> //.
  apply: (@words_in (rots k _) gs X) W => //.
  - by move=> Y; exact: rots_one.
  - by move=> Y; exact: rots_sz.
  - by move=> Y Z; exact: rots_meq.
  - by move=> Y Z; exact: rots_mul.
  - by move=> Y; exact: rots_inv.
  rewrite Eg => h [<-|//]; apply: (@to_rots _ _ k0 erefl _ 1); apply: meq_trans Mg _.
  by rewrite Rmult_1_l.
by apply: (@c_words k _ g) Mg HX; rewrite Eg; left.
Qed.
Lemma exact_d k : (0 < k)%N -> exact_group (g_dihedral conj cosR sinR close k) 2
  (fun X => exists2 j, (j < k)%N & meq X (rot (Rmult (INR j) (Rdiv (Rmult 2 PI) (INR k)))) \/
                                   meq X (ref (Rmult (INR j) (Rdiv (Rmult 2 PI) (INR k))))).
Proof.
move=> k0; apply: (built_exact (d_ok conj cosR sinR close k0)); rewrite no_items => _ Hh X; rewrite in_words.
set gs := map _ _ in Hh *; pose g := den (OArr 2 2 [:: cosR k; sinR k; - sinR k; cosR k]).
pose f := den (OArr 2 2 [:: -1; 0; 0; 1 : RR]).
have Eg : gs = [:: g; f] by [].
have Mg : meq g (rot (Rdiv (Rmult 2 PI) (INR k))) by apply: meq22.
have Mf : meq f (ref 0) by apply: meq22 => //=; rewrite ?cos_0 ?sin_0 // /GRing.opp /= Ropp_0.
have D (Y : fmat RR) : dk k (Rdiv (Rmult 2 PI) (INR k)) Y <-> (exists2 j, (j < k)%N & meq Y (rot (Rmult (INR j) (Rdiv (Rmult 2 PI) (INR k)))) \/
                                   meq Y (ref (Rmult (INR j) (Rdiv (Rmult 2 PI) (INR k))))).
  split; first by move=> [] [j Hj E]; exists j => //; [left | right].
  by move=> [j Hj [E|E]]; [left|right]; exists j.
split=> [W|[x1 x2 /D HX]].
  have [x1 x2] := words_sz Hh W; split=> //; apply/D.
  apply: (@words_in (dk k _) gs X) W => //.
  - by move=> Y E; left; exact: rots_one.
  - by move=> Y; exact: dk_sz.
  - by move=> Y Z; exact: dk_meq.
  - by move=> Y Z; exact: dk_mul.
  - by move=> Y; exact: dk_inv.
  rewrite Eg => h [<-|[<-|//]].
    left; apply: (@to_rots _ _ k0 erefl _ 1); apply: meq_trans Mg _; by rewrite Rmult_1_l.
  by right; exists 0%N => //; rewrite /= Rmult_0_l.
case: HX => [HX|[j Hj EX]]; first by apply: (@c_words k _ g) Mg HX; rewrite Eg; left.
apply: (@W_mul _ _ _ f (rot (Rmult (INR j) (Rdiv (Rmult 2 PI) (INR k))))).
- by apply: (@W_gen _ _ _ f) => //; rewrite Eg; right; left.
- by apply: (@c_words k (Rdiv (Rmult 2 PI) (INR k)) g) Mg _; [rewrite Eg; left | exists j].
apply: meq_trans EX _; apply: meq_trans (meq_fmul (meq_sym Mf) (meq_refl _) _) => //.
by apply: meq_trans _ (meq_sym (ref_rot _ _)); rewrite Rplus_0_l.
Qed.
Lemma exact_trivial n : exact_group (g_trivial conj close n) n (fun X => meq X (fid RR n)).
Proof.
apply: (built_exact (trivial_ok conj close n)); rewrite no_items => _ _ X; rewrite in_words words_nil.
by split=> [E|[_ _ E]] //; have [e1 e2 _] := E.
Qed.
Lemma exact_s n : (1 < n)%N -> exact_group (g_s conj close n) n (fun X => exists2 p, is_perm n p & meq X (perm_mat RR n p)).
Proof.
move=> n1; apply: (built_exact (s_ok conj close n1)); rewrite no_items => _ Hh X; rewrite in_words.
by rewrite s_words //; split=> [[p Hp E]|[_ _ H]] //; have [e1 e2 _] := E; split=> //; exists p.
Qed.
Lemma exact_z n : (0 < n)%N -> exact_group (g_z conj close n) n (fun X => exists2 k, (k < n)%N & meq X (shift_mat RR n k)).
Proof.
move=> n0; apply: (built_exact (z_ok conj close n)); rewrite no_items => _ Hh X; rewrite in_words.
by rewrite z_words //; split=> [[p Hp E]|[_ _ H]] //; have [e1 e2 _] := E; split=> //; exists p.
Qed.
Lemma exact_cube : exact_group (g_cube conj close) 6 (fun X => exists2 p, rotation p & meq X (perm_mat RR 6 p)).
Proof.
apply: (built_exact (cube_ok conj close)); rewrite no_items => _ Hh X; rewrite in_words.
by rewrite cube_iff //; split=> [[p Hp E]|[_ _ H]] //; have [e1 e2 _] := E; split=> //; exists p.
Qed.
End Ctors.
