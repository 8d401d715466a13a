(** * GroupsLor: the Lie algebras of the Lorentz groups. *)
From mathcomp Require Import all_ssreflect all_algebra.
From mathcomp Require Import zify.
From Verif Require Import Np Spec SpecLemmas LinOp LinOpSpec Groups GroupsSpec GroupsLoop GroupsLie.
Set Implicit Arguments.
Unset Strict Implicit.
Unset Printing Implicit Defensive.
Import GRing.Theory.
Local Open Scope ring_scope.

Section Lor.
Variable R : comRingType.
Local Notation fn := (nat -> nat -> R).
Definition eta (a : nat) : R := if a == 0%N then 1 else -1.
Lemma mink_pres n (X : fmat R) : fr X = n -> fc X = n ->
  (preserves (minkowski R n) X <-> forall a b, (a < n)%N -> (b < n)%N -> eta b * fe X b a + eta a * fe X a b = 0).
Proof.
have L (Y : fn) a b : (b < n)%N -> \sum_(0 <= c < n) Y c a * fe (minkowski R n) c b = eta b * Y b a.
  move=> Hb; rewrite (eq_sum (g := fun c => (b == c)%:R * (eta c * Y c a))) ?sum_delta // => c Hc /=.
  by rewrite [c == b]eq_sym /eta; case: eqP => _; rewrite ?mulr0 ?mul0r // mul1r mulrC.
have L' (Y : fn) a b : (a < n)%N -> \sum_(0 <= c < n) fe (minkowski R n) a c * Y c b = eta a * Y a b.
  move=> Ha; rewrite (eq_sum (g := fun c => (a == c)%:R * (eta c * Y c b))) ?sum_delta // => c Hc /=.
  by rewrite /eta; case: (a =P c) => [->|_]; rewrite ?mul0r // mul1r.
move=> x1 x2; split=> [[_ _ H] a b Ha Hb|H].
  by have := H a b; rewrite /= x1 x2 L // L' //; apply.
by split; rewrite /= ?x1 ?x2 // => a b Ha Hb; rewrite L // L' // H.
Qed.
Lemma mink_meq n (X Y : fmat R) : meq X Y -> fr X = n -> fc X = n -> preserves (minkowski R n) X -> preserves (minkowski R n) Y.
Proof.
move=> M x1 x2 /(mink_pres x1 x2) H; have [e1 e2 e3] := M; apply/mink_pres; rewrite -?e1 -?e2 // => a b Ha Hb.
by rewrite -!e3 ?x1 ?x2 // H.
Qed.
Lemma mink_lin n (c : R) (X Y : fmat R) : fr X = n -> fc X = n -> fr Y = n -> fc Y = n ->
  preserves (minkowski R n) X -> preserves (minkowski R n) Y ->
  preserves (minkowski R n) (FM n n (fun i j => fe X i j - c * fe Y i j)).
Proof.
move=> x1 x2 y1 y2 /(mink_pres x1 x2) HX /(mink_pres y1 y2) HY; apply/mink_pres => //= a b Ha Hb.
by rewrite !mulrBr addrACA -opprD HX // add0r !(mulrCA _ c) -mulrDr HY // mulr0 oppr0.
Qed.
Lemma mink_diag n (X : fmat R) a : @char2 R -> fr X = n -> fc X = n -> preserves (minkowski R n) X -> (a < n)%N -> fe X a a = 0.
Proof.
move=> C2 x1 x2 /(mink_pres x1 x2) H Ha; have := C2 _ (H a a Ha Ha); rewrite /eta.
by case: eqP => _; rewrite ?mul1r // mulN1r => /eqP; rewrite oppr_eq0 => /eqP.
Qed.
Lemma mink_sym n (X : fmat R) a b : fr X = n -> fc X = n -> preserves (minkowski R n) X -> (a < n)%N -> (b < n)%N ->
  fe X b a = 0 -> fe X a b = 0.
Proof.
move=> x1 x2 /(mink_pres x1 x2) H Ha Hb E; have := H a b Ha Hb; rewrite E mulr0 add0r /eta.
by case: eqP => _; rewrite ?mul1r // mulN1r => /eqP; rewrite oppr_eq0 => /eqP.
Qed.

(** the boosts (0,i,0) and the rotations (1,i,j) *)
Definition lor_tags : seq tag := [:: (0, 1, 0); (0, 2, 0); (0, 3, 0); (1, 2, 1); (1, 3, 1); (1, 3, 2)]%N.
Definition lor_f (t : tag) : fn := upd (upd f0 t.1.2 t.2 1) t.2 t.1.2 (if t.1.1 == 0%N then 1 else -1).
Lemma so13E : so13_lie R = Ok (ND [:: 6; 4; 4]%N
  ([:: 0; 1; 0; 0;  1; 0; 0; 0;  0; 0; 0; 0;  0; 0; 0; 0] ++
   [:: 0; 0; 1; 0;  0; 0; 0; 0;  1; 0; 0; 0;  0; 0; 0; 0] ++
   [:: 0; 0; 0; 1;  0; 0; 0; 0;  0; 0; 0; 0;  1; 0; 0; 0] ++
   [:: 0; 0; 0; 0;  0; 0; -1; 0;  0; 1; 0; 0;  0; 0; 0; 0] ++
   [:: 0; 0; 0; 0;  0; 0; 0; -1;  0; 0; 0; 0;  0; 1; 0; 0] ++
   [:: 0; 0; 0; 0;  0; 0; 0; 0;  0; 0; 0; -1;  0; 0; 1; 0])).
Proof. by []. Qed.
Lemma four (P : nat -> Prop) : P 0%N -> P 1%N -> P 2%N -> P 3%N -> forall i, (i < 4)%N -> P i.
Proof. by move=> ? ? ? ? [|[|[|[|]]]]. Qed.
Lemma lor_dual t t' : t \in lor_tags -> t' \in lor_tags -> ent t (lor_f t') = (t == t')%:R.
Proof. by rewrite !inE => /or4P[||| /or3P[||]] /eqP -> /or4P[||| /or3P[||]] /eqP ->. Qed.
Theorem so13_basis : @char2 R ->
  exists2 a, so13_lie R = Ok a & [/\ dims a = [:: 6; 4; 4]%N, size (mats a) = 6%N & is_basis id 4 (preserves (minkowski R 4)) (mats a)].
Proof.
move=> C2; eexists; first exact: so13E.
split=> //.
apply: (@dual_basis R R id _ 4 _ lor_tags lor_f (@ent R) _ (0%N, 0%N, 0%N)) => //.
- case=> [|[|[|[|[|[|//]]]]]] _; split=> // i j Hi Hj; move: i Hi j Hj; apply: four; apply: four; by [].
- by move=> t g h; rewrite !inE => /or4P[||| /or3P[||]] /eqP -> H; apply: H.
- exact: lor_dual.
- exact: mink_meq.
- exact: mink_lin.
- move=> t Ht; apply/mink_pres => //= a b Ha Hb; move: a Ha b Hb; move: Ht.
  rewrite !inE => /or4P[||| /or3P[||]] /eqP ->; apply: four; apply: four; rewrite /lor_f /upd /f0 /eta /= ?mulr0 ?mulr1 ?mulN1r ?addr0 ?subrr ?addNr ?opprK ?mulrN1 ?subrr ?addNr //.
move=> X x1 x2 HX Hz.
have Z k i j : (k, i, j) \in lor_tags -> fe X i j = 0 by move=> H; apply: (Hz (k, i, j)).
have D i : (i < 4)%N -> fe X i i = 0 by move=> Hi; apply: (mink_diag C2 x1 x2 HX).
have S i j : (i < 4)%N -> (j < 4)%N -> fe X i j = 0 -> fe X j i = 0 by move=> Hi Hj; apply: (mink_sym x1 x2 HX).
move=> i j Hi Hj; move: i Hi j Hj; apply: four; apply: four; first [exact: D | by apply: (Z 0%N) | by apply: (Z 1%N) | by apply: S => //; apply: (Z 0%N) | by apply: S => //; apply: (Z 1%N)].
Qed.
Lemma two (P : nat -> Prop) : P 0%N -> P 1%N -> forall i, (i < 2)%N -> P i.
Proof. by move=> ? ? [|[|]]. Qed.
Theorem so11_basis : @char2 R ->
  [/\ dims (so11_lie R) = [:: 1; 2; 2]%N, size (mats (so11_lie R)) = 1%N & is_basis id 2 (preserves (minkowski R 2)) (mats (so11_lie R))].
Proof.
move=> C2; split=> //.
apply: (@dual_basis R R id _ 2 _ [:: (0, 1, 0)%N] lor_f (@ent R) _ (0%N, 0%N, 0%N)) => //.
- case=> [|//] _; split=> // i j Hi Hj; move: i Hi j Hj; apply: two; apply: two; by [].
- by move=> t g h; rewrite !inE => /eqP -> H; apply: H.
- by move=> t t'; rewrite !inE => /eqP -> /eqP ->.
- exact: mink_meq.
- exact: mink_lin.
- move=> t; rewrite inE => /eqP ->; apply/mink_pres => //= a b Ha Hb; move: a Ha b Hb.
  by apply: two; apply: two; rewrite /lor_f /upd /f0 /eta /= ?mulr0 ?mulr1 ?addr0 ?subrr ?addNr.
move=> X x1 x2 HX Hz.
have Z : fe X 1 0 = 0 by apply: (Hz (0, 1, 0)%N).
have D i : (i < 2)%N -> fe X i i = 0 by move=> Hi; apply: (mink_diag C2 x1 x2 HX).
by move=> i j Hi Hj; move: i Hi j Hj; apply: two; apply: two; rewrite ?D ?Z //; apply: (mink_sym x1 x2 HX).
Qed.
End Lor.
