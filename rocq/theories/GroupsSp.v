(** * GroupsSp: the Lie algebra of Sp(m). *)
From mathcomp Require Import all_ssreflect all_algebra.
From mathcomp Require Import zify.
From Verif Require Import Np Spec SpecLemmas LinOp LinOpSpec Groups GroupsSpec GroupsLoop GroupsLie.
Set Implicit Arguments.
Unset Strict Implicit.
Unset Printing Implicit Defensive.
Import GRing.Theory.
Local Open Scope ring_scope.

Section Real.
Variable R : comRingType.
Local Notation fn := (nat -> nat -> R).
Definition sp_eqs (m : nat) (X : fn) : Prop :=
  [/\ forall a b, (a < m)%N -> (b < m)%N -> X (m + a)%N b = X (m + b)%N a,
      forall a b, (a < m)%N -> (b < m)%N -> X (m + a)%N (m + b)%N = - X b a &
      forall a b, (a < m)%N -> (b < m)%N -> X a (m + b)%N = X b (m + a)%N].
Lemma sp_left m (X : fn) a b : (b < 2 * m)%N ->
  \sum_(0 <= c < 2 * m) X c a * fe (sympl R m) c b = if (b < m)%N then - X (m + b)%N a else X (b - m)%N a.
Proof.
move=> Hb; case: ifP => H.
  rewrite (eq_sum (g := fun c => ((m + b)%N == c)%:R * - X c a)) ?sum_delta //; first by lia.
  move=> c Hc /=; rewrite (_ : (b == _)%N = false); last by lia.
  by rewrite [c == _]eq_sym; case: eqP => _; rewrite ?mulr0 ?mul0r // mulrN1 mul1r.
rewrite (eq_sum (g := fun c => ((b - m)%N == c)%:R * X c a)) ?sum_delta //; first by lia.
move=> c Hc /=; rewrite (_ : (b == _)%N = ((b - m)%N == c)); last by lia.
case: eqP => E; first by rewrite mulr1 mul1r.
by rewrite (_ : (c == _)%N = false) ?mulr0 ?mul0r //; lia.
Qed.
Lemma sp_right m (X : fn) a b : (a < 2 * m)%N ->
  \sum_(0 <= c < 2 * m) fe (sympl R m) a c * X c b = if (a < m)%N then X (m + a)%N b else - X (a - m)%N b.
Proof.
move=> Ha; case: ifP => H.
  rewrite (eq_sum (g := fun c => ((m + a)%N == c)%:R * X c b)) ?sum_delta //; first by lia.
  move=> c Hc /=; rewrite (_ : (a == _)%N = false); last by lia.
  by rewrite [c == _]eq_sym; case: eqP.
rewrite (eq_sum (g := fun c => ((a - m)%N == c)%:R * - X c b)) ?sum_delta //; first by lia.
move=> c Hc /=; rewrite (_ : (c == _)%N = false); last by lia.
rewrite (_ : (a == _)%N = ((a - m)%N == c)); last by lia.
by case: eqP => E; rewrite ?mul0r // mulN1r mul1r.
Qed.
Lemma sp_pres m (X : fmat R) : fr X = (2 * m)%N -> fc X = (2 * m)%N -> (preserves (sympl R m) X <-> sp_eqs m (fe X)).
Proof.
move=> x1 x2; split.
  move=> [_ _ H]; have {}H a b : (a < 2 * m)%N -> (b < 2 * m)%N ->
    (if (b < m)%N then - fe X (m + b)%N a else fe X (b - m)%N a) + (if (a < m)%N then fe X (m + a)%N b else - fe X (a - m)%N b) = 0.
    move=> Ha Hb; have := H a b; rewrite /= x1 x2 sp_left // sp_right //; apply=> //.
  split=> a b Ha Hb.
  - have := H a b; rewrite Ha Hb => E; apply/eqP; rewrite -subr_eq0 addrC; apply/eqP; apply: E; lia.
  - have := H a (m + b)%N; rewrite Ha addKn (_ : (m + b < m)%N = false); last by lia.
    by move=> E; apply/eqP; rewrite -addr_eq0 addrC; apply/eqP; apply: E; lia.
  - have := H (m + b)%N (m + a)%N; rewrite !addKn (_ : (m + b < m)%N = false); last by lia.
    rewrite (_ : (m + a < m)%N = false); last by lia.
    by move=> E; apply/eqP; rewrite -subr_eq0; apply/eqP; apply: E; lia.
move=> [C1 C2 C3]; split; rewrite /= ?x1 ?x2 // => a b Ha Hb.
rewrite sp_left // sp_right //; case: ifP => Hb'; case: ifP => Ha'.
- by rewrite C1 // addNr.
- have -> : a = (m + (a - m))%N by lia.
  by rewrite C2 ?addKn ?opprK ?subrr //; lia.
- have {2}-> : b = (m + (b - m))%N by lia.
  by rewrite C2 ?subrr //; lia.
have {1}-> : a = (m + (a - m))%N by lia.
have {2}-> : b = (m + (b - m))%N by lia.
by rewrite C3 ?subrr //; lia.
Qed.

Variant sp_spec m : tag -> Prop :=
| Sp0 i j of (i < m)%N & (j < m)%N : sp_spec m (0, i, j)%N
| Sp1 i j of (i < m)%N & (j < m)%N & (j <= i)%N : sp_spec m (1, m + i, j)%N
| Sp2 i j of (i < m)%N & (j < m)%N & (j <= i)%N : sp_spec m (2, i, m + j)%N.
Lemma spP m t : t \in sp_tags m -> sp_spec m t.
Proof.
rewrite sp_mem; case: t => [[k i] j]; rewrite /sp_in.
case/or3P => [/and3P[/eqP -> H1 H2]|/and4P[/eqP -> H1 H2 H3]|/and4P[/eqP -> H1 H2 H3]]; first by constructor.
  by rewrite -(subnKC H1); constructor; lia.
by rewrite -(subnKC H1); constructor; lia.
Qed.
Lemma nm1 m a : (a < m)%N -> forall b, (a == m + b)%N = false. Proof. lia. Qed.
Lemma nm2 m a : (a < m)%N -> forall b, (m + b == a)%N = false. Proof. lia. Qed.
Lemma sp_fE m t : t \in sp_tags m -> sp_eqs m (sp_f R m t).
Proof.
move/spP => [i j Hi Hj|i j Hi Hj Hij|i j Hi Hj Hij]; split=> a b Ha Hb /=; rewrite /upd /f0 ?eqn_add2l ?addKn;
  rewrite ?(nm1 Ha, nm1 Hb, nm1 Hi, nm1 Hj, nm2 Ha, nm2 Hb, nm2 Hi, nm2 Hj) ?andbF /= ?oppr0 //.
- by rewrite [(b == i) && _]andbC; case: ifP; rewrite ?oppr0.
- by rewrite [(a == i) && _]andbC [(a == j) && _]andbC; case: (_ && _); case: (_ && _).
by rewrite [(a == j) && _]andbC [(a == i) && _]andbC; case: (_ && _); case: (_ && _).
Qed.
Lemma sp_lin m (c : R) (X Y : fn) : sp_eqs m X -> sp_eqs m Y -> sp_eqs m (fun i j => X i j - c * Y i j).
Proof.
move=> [X1 X2 X3] [Y1 Y2 Y3]; split=> a b Ha Hb.
- by rewrite X1 // Y1.
- by rewrite X2 // Y2 // mulrN opprB opprK addrC.
by rewrite X3 // Y3.
Qed.
Lemma sp_dual m t t' : t \in sp_tags m -> t' \in sp_tags m -> ent t (sp_f R m t') = (t == t')%:R.
Proof.
move/spP => [i j Hi Hj|i j Hi Hj Hij|i j Hi Hj Hij] /spP[a b Ha Hb|a b Ha Hb Hab|a b Ha Hb Hab];
  rewrite !xpair_eqE /sp_f /ent /= /upd /f0 ?eqn_add2l ?addKn;
  rewrite ?(nm1 Ha, nm1 Hb, nm1 Hi, nm1 Hj, nm2 Ha, nm2 Hb, nm2 Hi, nm2 Hj) ?andbF //=.
- by case: ifP.
- case: (i =P b) => [Eb|_] /=; last by case: ifP.
  case: (j =P a) => [Ea|_] /=; last by case: ifP.
  have Ei : i = j by apply/eqP; rewrite eqn_leq Hij andbT Eb Ea.
  by rewrite -Ea -Eb Ei eqxx.
case: (i =P b) => [Eb|_] /=; last by case: ifP.
case: (j =P a) => [Ea|_] /=; last by case: ifP.
have Ei : i = j by apply/eqP; rewrite eqn_leq Hij andbT Eb Ea.
by rewrite -Ea -Eb Ei eqxx.
Qed.
Theorem sp_basis m :
  exists2 a, sp_lie R m = Ok a &
    [/\ dims a = [:: m * (2 * m + 1); 2 * m; 2 * m]%N, size (mats a) = (m * (2 * m + 1))%N & is_basis id (2 * m) (preserves (sympl R m)) (mats a)].
Proof.
have [a E G] := sp_filled R m; exists a => //; have [Ed _ _] := G.
have [S1 HA] := mats_filled G (sp_size m).
split=> //; first by rewrite S1 sp_size.
apply: (dual_basis (K := R) (emb := id) (f := sp_f R m) (phi := @ent R) (sp_uniq m) S1 HA) => //.
- move=> [[k i] j] g h; rewrite sp_mem /ent /sp_in /= => H0 H; apply: H; lia.
- exact: sp_dual.
- move=> X Y M x1 x2 /(sp_pres x1 x2) HX; have [e1 e2 e3] := M; apply/sp_pres; rewrite -?e1 -?e2 //.
  case: HX => C1 C2 C3; split=> i j Hi Hj; rewrite -!e3 ?x1 ?x2 //; try lia; by [apply: C1|apply: C2|apply: C3].
- move=> c X Y x1 x2 y1 y2 /(sp_pres x1 x2) HX /(sp_pres y1 y2) HY; apply/sp_pres => //=; exact: sp_lin.
- by move=> t Ht; apply/sp_pres => //=; exact: sp_fE.
move=> X x1 x2 /(sp_pres x1 x2) [C1 C2 C3] Hz.
have Z : forall k i j, sp_in m (k, i, j) -> fe X i j = 0 by move=> k i j H; apply: (Hz (k, i, j)); rewrite sp_mem.
have Z1 i j : (i < m)%N -> (j < m)%N -> fe X i j = 0 by move=> Hi Hj; apply: (Z 0%N); rewrite /sp_in Hi Hj.
have Z2 i j : (i < m)%N -> (j < m)%N -> fe X (m + i)%N j = 0.
  move=> Hi Hj; case: (leqP j i) => H; first by apply: (Z 1%N); rewrite /sp_in; lia.
  by rewrite C1 //; apply: (Z 1%N); rewrite /sp_in; lia.
have Z3 i j : (i < m)%N -> (j < m)%N -> fe X i (m + j)%N = 0.
  move=> Hi Hj; case: (leqP j i) => H; first by apply: (Z 2%N); rewrite /sp_in; lia.
  by rewrite C3 //; apply: (Z 2%N); rewrite /sp_in; lia.
move=> i j Hi Hj; case: (ltnP i m) => Hi'; case: (ltnP j m) => Hj'; first exact: Z1.
- by rewrite -(subnKC Hj'); apply: Z3 => //; lia.
- by rewrite -(subnKC Hi'); apply: Z2 => //; lia.
by rewrite -(subnKC Hi') -(subnKC Hj') C2 ?Z1 ?oppr0 //; lia.
Qed.
End Real.
