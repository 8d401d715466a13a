(** * GroupsTol: the tests of Group.__init__ with the tolerance, and groups that pass them
    without being orthogonal or permutation groups. *)
From Coq Require Import Reals String.
From mathcomp Require Import all_ssreflect all_algebra.
From mathcomp Require Import zify.
From Verif Require Import Np NpLemmas Spec SpecLemmas LinOp LinOpSpec LinOpMore MxBridge Rep RepSpec RhoProofs Rstruct Expm GrpSpec.
From Verif Require Import Groups GroupsSpec GroupsSpecR GroupsNum GroupsInit GroupsCtor GroupsPerm GroupsThm GroupsFlag GroupsReal GroupsRepPerm.
Set Implicit Arguments.
Unset Strict Implicit.
Unset Printing Implicit Defensive.
Import GRing.Theory Num.Theory Order.Theory.
Local Open Scope ring_scope.

Section Near.
Variables (F : realFieldType) (conj : F -> F).
Local Notation same := (@same F).
Local Notation near := (@near F).
Lemma near_same A B : ~~ nilp A -> same A B -> near A B.
Proof. by move=> N /eqP <-; exact: near_refl. Qed.
Lemma nil_flatten (T : Type) (f : T -> seq F) (l : seq T) k : (0 < k)%N -> l <> [::] -> (forall x, List.In x l -> size (f x) = k) ->
  ~~ nilp (flatten (map f l)).
Proof.
case: l => // x l k0 _ H; rewrite /nilp /= size_cat H; last by left.
by rewrite addn_eq0; case: k k0 H.
Qed.
Lemma items_nil (x : garr F) : glen x != 0%N -> gitems x <> [::].
Proof.
case: x => [a|l] /=; last by case: l.
by case: (head 0%N (dims a)).
Qed.
Theorem near_flag d r (a : attrs F) (G : group F) : (0 < d)%N -> group_init conj near r a = Ok G -> g_d G = Some d ->
  gok conj d (g_lie G) -> gok conj d (g_gens G) -> a_orth a = None -> a_perm a = None ->
  (forall A, List.In A (lmats G) -> skew A) -> (forall h, List.In h (gmats G) -> orthm d h) -> g_orth G.
Proof.
move=> d0 E Ed Hl Hg Ho Hp S O; have [-> _] := init_flags E Ed Hl Hg; rewrite /the_orth Ho Hp /=.
have dd : (0 < d * d)%N by rewrite muln_gt0 d0.
have F1 : lie_flag same d (g_lie G) by apply/(lie_flagP Hl) => A HA; apply: S; apply: List.in_map.
have F2 : gen_flag same d (g_gens G) by apply/(gen_flagP Hg) => A HA; have [] := O (den A) (List.in_map _ _ _ HA).
apply/andP; split; [move: F1; rewrite /lie_flag | move: F2; rewrite /gen_flag];
  case: (boolP (glen _ == 0%N)) => //= /items_nil N; apply: near_same; apply: (nil_flatten dd N) => A HA.
- by have [h1 h2] := gop_sz (Hl A HA); rewrite size_map tr2_flat // size_flat /= h1 h2.
- by have [h1 h2] := gop_sz (Hg A HA); rewrite size_matmul.
Qed.
End Near.

(** ** h = [[1+e]] and h = [[1,e],[0,1]] with e = 2.5e-7 *)
Section Witness.
Variable F : realFieldType.
Let e : F := quarter F.
Definition user (d : nat) (p : seq F) : res (group F) :=
  group_init (R := F) id (@near F) "User" (with_gens (GArr (ND [:: 1; d; d]%N p))).
Lemma stretch_orth : exists G h, [/\ user 1 [:: 1 + e] = Ok G, g_orth G, g_d G = Some 1%N, gmats G = [:: h] & ~ orthm 1 h].
Proof.
have [e0 e1 e2] := quarter_lt F.
rewrite /user (@init_gens F id (@near F) "User" 1 (GArr (ND [:: 1; 1; 1]%N [:: 1 + e]))) //; last exact: (@gok_arr F _ 1).
have E : (1 + e) * (1 + e) - 1 = e * 2%:R + e * e.
  by rewrite [1 + e]addrC -expr2 sqrrD1 addrK addrC -mulr_natr expr2.
eexists; exists (FM 1 1 (fun i j => nth 0 [:: 1 + e] (i * 1 + j)%N)); split=> //.
- rewrite /= /the_orth /= /gen_flag /=; apply: near_sum => //=; rewrite /sabs /= ?addr0 ?add0r normr1 mulr1.
  rewrite (_ : rsum 1 _ = (1 + e) * (1 + e)) ?E; last by rewrite rsumE big_nat1.
  by rewrite ger0_norm // addr_ge0 // ltW // mulr_gt0 // ltr0n.
case=> _ _ [_ _ /(_ 0%N 0%N isT isT)]; rewrite /= big_nat1 /= => /eqP; rewrite -subr_eq0 E => H _.
by move: H; rewrite gt_eqF // addr_gt0 // mulr_gt0 // ltr0n.
Qed.
Lemma shear_perm : exists G h, [/\ user 2 [:: 1; e; 0; 1] = Ok G, g_perm G, g_d G = Some 2%N, gmats G = [:: h] & ~ GroupsPerm.isperm 2 h].
Proof.
have [e0 e1 e2] := quarter_lt F; have m0 := micro_gt0 F.
have q1 : e != 1.
  rewrite lt_eqF //; apply: lt_trans (_ : micro F < 1); first by apply: le_lt_trans e1; rewrite mulr_natr mulr2n -addrA ler_addl addr_ge0 // ltW // mulr_gt0.
  rewrite invf_lt1 ?exprn_gt0 ?ltr0n //; apply: exprn_egt1 => //; by rewrite ltr1n.
rewrite /user (@init_gens F id (@near F) "User" 2 (GArr (ND [:: 1; 2; 2]%N [:: 1; e; 0; 1]))) //; last exact: (@gok_arr F _ 1).
eexists; exists (FM 2 2 (fun i j => nth 0 [:: 1; e; 0; 1] (i * 2 + j)%N)); split=> //.
- rewrite /= /the_perm /the_orth /=.
  have -> : gen_flag (@near F) 2 (GArr (ND [:: 1; 2; 2]%N [:: 1; e; 0; 1])).
    have rs2 (f : nat -> F) : rsum 2 f = f 0%N + f 1%N by rewrite rsumE big_nat_recr //= big_nat1.
    rewrite /gen_flag /= !rs2.
    apply: (@near_sum F [:: 1 * 1 + 0 * 0; 1 * e + 0 * 1; e * 1 + 1 * 0; e * e + 1 * 1] [:: 1; 0; 0; 1]) => //=.
    rewrite /sabs /= ?(addr0, add0r, mulr0, mul0r, mulr1, mul1r, subr0, subrr, normr0, normr1).
    have h0 : 0 <= e := ltW e0; have h1 : 0 <= e * e := mulr_ge0 h0 h0; rewrite addrK !ger0_norm //.
    apply: le_lt_trans (_ : _ <= micro F) _; last by rewrite mulrDr mulr1 ltr_addl.
    by apply: ltW; apply: le_lt_trans e1; rewrite mulr_natr mulr2n addrA.
  rewrite /= /one_flag /= !eqxx (negbTE q1) [0 == 1]eq_sym oner_eq0; by [].
case=> f [g [_ [_ _ /(_ 0%N 1%N isT isT)]]] /= /eqP; by case: (f 0%N == 1%N); rewrite ?(negbTE q1) ?(negbTE e2).
Qed.
End Witness.
(** ** D(1) *)
(** np.cos(2*np.pi/k) and np.sin(2*np.pi/k) *)
Definition cosR (k : nat) : RR := cos (Rdiv (Rmult 2 PI) (INR k)).
Definition sinR (k : nat) : RR := sin (Rdiv (Rmult 2 PI) (INR k)).
Section D1.
Local Notation c := cosR.
Local Notation s := sinR.
Lemma d1_perm : exists G h, [/\ g_dihedral idR c s (@same RR) 1 = Ok G, g_perm G, g_d G = Some 2%N,
   List.In h (gmats G) & ~ GroupsPerm.isperm 2 h].
Proof.
have E1 : Rdiv (Rmult 2 PI) (INR 1) = Rmult 2 PI by rewrite /=; field.
have c1 : c 1 = 1 by rewrite /cosR E1 cos_2PI.
have s1 : s 1 = 0 by rewrite /sinR E1 sin_2PI.
rewrite /g_dihedral /= (@init_gens _ idR (@same RR) _ 2 (GArr (c_gens c s 1))) //; last exact: (@gok_arr _ _ 1).
eexists; exists (den (OArr 2 2 [:: -1; 0; 0; 1 : RR])); split; first by [].
- rewrite /= /the_perm /the_orth /=.
  have -> : gen_flag (@same RR) 2 (GArr (c_gens c s 1)).
    apply/(gen_flagP (conj := idR)); first exact: (@gok_arr _ _ 1).
    rewrite /c_gens c1 s1 => A /= [<-|//]; split=> //= -[|[|//]] [|[|//]] _ _; rewrite /= big_nat_recr //= big_nat1 /=;
      by rewrite ?(oppr0, mulr0, mul0r, mulr1, addr0, add0r).
  rewrite /= /one_flag /c_gens c1 s1 oppr0 /= !eqxx /=.
  have -> : (0 == 1 :> RR) = false by apply/negbTE; rewrite eq_sym oner_eq0.
  by [].
- by [].
- by right; left.
case=> f [g [_ [_ _ /(_ 0%N 0%N isT isT)]]] /=; case: (_ == _) => /= /eqP.
  rewrite -subr_eq0 -opprD oppr_eq0 => /eqP; rewrite /GRing.add /GRing.one /GRing.zero /= => H; have := Rlt_0_2; rewrite /IZR -INR_IPR /= H; exact: Rlt_irrefl.
by rewrite oppr_eq0 oner_eq0.
Qed.
End D1.
