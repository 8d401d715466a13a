(** * TrainerAlign: align2ref. *)
From Coq Require Import Ring.
From mathcomp Require Import all_ssreflect all_algebra.
From Verif Require Import Np LinOp Data DataThm Trainer TrainerThm2.
Set Implicit Arguments.
Unset Strict Implicit.
Unset Printing Implicit Defensive.
Import Order.TTheory GRing.Theory Num.Theory.

(** identities in a commutative ring *)
Section Rg.
Variables (R : Type) (O I : R) (ad mu su : R -> R -> R) (op : R -> R).
Hypothesis th : ring_theory O I ad mu su op eq.
Add Ring Rring : th.
Local Notation "a + b" := (ad a b).
Local Notation "a * b" := (mu a b).
Local Notation "a - b" := (su a b).
Local Notation "- a" := (op a).
Lemma kk (a b c k : R) : k * (I + c) = I -> a * a + b * b + c * c = I ->
  k * k * (a * a + b * b) - k - k + I = O /\ I - k * (a * a + b * b) = c.
Proof.
move=> H1 H2; have -> : a * a + b * b = I - c * c by rewrite -H2; ring.
split.
  transitivity (k * (I + c) * (k * (I - c)) - k - k + I); first by ring.
  by rewrite H1; transitivity (I - k * (I + c)); [ring | rewrite H1; ring].
by transitivity (I - k * (I + c) * (I - c)); [ring | rewrite H1; ring].
Qed.
(** the three coordinates of M u *)
Definition al0 (a b c k x y z : R) := x - k * (a * a * x + a * b * y) + a * z.
Definition al1 (a b c k x y z : R) := y - k * (a * b * x + b * b * y) + b * z.
Definition al2 (a b c k x y z : R) := c * z - a * x - b * y.
Lemma al_dot0 (a b c k x y z x' y' z' : R) : k * (I + c) = I -> a * a + b * b + c * c = I ->
  al0 a b c k x y z * al0 a b c k x' y' z' + al1 a b c k x y z * al1 a b c k x' y' z' + al2 a b c k x y z * al2 a b c k x' y' z'
  = x * x' + y * y' + z * z'.
Proof.
move=> H1 H2; have [K1 K2] := kk H1 H2.
transitivity (x * x' + y * y' + (a * x + b * y) * (a * x' + b * y') * (k * k * (a * a + b * b) - k - k + I)
  + (a * a + b * b + c * c) * z * z' + (a * x + b * y) * z' * (I - k * (a * a + b * b) - c) + (a * x' + b * y') * z * (I - k * (a * a + b * b) - c)).
  by rewrite /al0 /al1 /al2; ring.
by rewrite K1 K2 H2; ring.
Qed.
Lemma al_ez0 (a b c k z : R) : al0 a b c k O O z = a * z /\ al1 a b c k O O z = b * z /\ al2 a b c k O O z = c * z.
Proof. by rewrite /al0 /al1 /al2; split; [ring | split; ring]. Qed.
Lemma e0 (a b k x y z : R) : (I + k * (a * - a)) * x + (k * (a * - b) * y + a * z) = x - k * (a * a * x + a * b * y) + a * z.
Proof. by ring. Qed.
Lemma e1 (a b k x y z : R) : k * (b * - a) * x + ((I + k * (b * - b)) * y + b * z) = y - k * (a * b * x + b * b * y) + b * z.
Proof. by ring. Qed.
Lemma e2 (a b c k x y z : R) : I - k * (a * a + b * b) = c -> - a * x + (- b * y + (I + k * (- a * a + - b * b)) * z) = c * z - a * x - b * y.
Proof. by move<-; ring. Qed.
End Rg.
Local Open Scope ring_scope.
Section Fl.
Variable F : fieldType.
Lemma alignE (a b c k x y z : F) : k * (1 + c) = 1 -> a * a + b * b + c * c = 1 ->
  matmul 3 3 1 (align_M k [:: a; b; c]) [:: x; y; z] = [:: x - k * (a * a * x + a * b * y) + a * z; y - k * (a * b * x + b * b * y) + b * z; c * z - a * x - b * y].
Proof.
move=> H1 H2; have [_ K2] := kk (comring_theory F) H1 H2.
rewrite /align_M /vadd /vscale /eye /align_A /matmul /mkseq /rsum /=.
rewrite !(mul0r, mulr0, mul1r, subr0, sub0r, oppr0, subrr, addr0, add0r).
have T := comring_theory F; congr [:: _; _; _]; [exact: (e0 T) | exact: (e1 T) | exact: (e2 T)].
Qed.
Definition dot3 (u v : seq F) : F := nth 0 u 0%N * nth 0 v 0%N + nth 0 u 1%N * nth 0 v 1%N + nth 0 u 2%N * nth 0 v 2%N.
Lemma align_dot (a b c k : F) u v : k * (1 + c) = 1 -> a * a + b * b + c * c = 1 -> size u = 3%N -> size v = 3%N ->
  dot3 (matmul 3 3 1 (align_M k [:: a; b; c]) u) (matmul 3 3 1 (align_M k [:: a; b; c]) v) = dot3 u v.
Proof.
case: u => [|x [|y [|z []]]] //; case: v => [|x' [|y' [|z' []]]] // H1 H2 _ _; rewrite !alignE //.
exact: (al_dot0 (comring_theory F)).
Qed.
Lemma align_ez (a b c k z : F) : k * (1 + c) = 1 -> a * a + b * b + c * c = 1 ->
  matmul 3 3 1 (align_M k [:: a; b; c]) [:: 0; 0; z] = [:: a * z; b * z; c * z].
Proof. by move=> H1 H2; rewrite alignE // !(mulr0, oppr0, addr0, subr0, add0r). Qed.
End Fl.
Section Rc.
Variable F : rcfType.
Local Notation align := (align_one (@Num.sqrt F)).
Theorem align_thm (r : seq F) vecs : size r = 3%N ->
  [/\ align r vecs = None <-> exists2 t : F, 0 <= t & r = [:: 0; 0; - t] &
      forall out, align r vecs = Some out -> [/\ size out = size vecs,
        forall i j, (i < size vecs)%N -> (j < size vecs)%N -> let u := nth [::] vecs i in let v := nth [::] vecs j in
          dot3 (nth [::] out i) (nth [::] out j) = nth 0 u 0%N * nth 0 v 0%N + nth 0 u 1%N * nth 0 v 1%N + dot3 r r * (nth 0 u 2%N * nth 0 v 2%N) &
        forall i, (i < size vecs)%N -> nth [::] vecs i = [:: 0; 0; 1] -> nth [::] out i = r]].
Proof.
case: r => [|a [|b [|c []]]] // _; rewrite /align_one.
set nn := Num.sqrt _; have EN : nn ^+ 2 = a * a + b * b + c * c.
  by rewrite sqr_sqrtr /= ?addr0 ?addr_ge0 ?sqr_ge0 // -!expr2 addrA.
have n0 : 0 <= nn := sqrtr_ge0 _.
have [n_eq0|n_neq0] := eqVneq nn 0.
  rewrite /=; split=> //; split=> // _; exists 0 => //; rewrite oppr0; move: EN; rewrite n_eq0 expr0n /= => /esym/eqP.
  by rewrite -!expr2 !paddr_eq0 ?addr_ge0 ?sqr_ge0 // !sqrf_eq0 => /andP[/andP[/eqP-> /eqP->] /eqP->].
set v := map _ _; have Ev : v = [:: a / nn; b / nn; c / nn] by [].
have V : a / nn * (a / nn) + b / nn * (b / nn) + c / nn * (c / nn) = 1.
  by rewrite !mulf_div -!mulrDl -EN -expr2 divff // expf_neq0.
have [c1|c1] := eqVneq (1 + nth 0 v 2) 0.
  rewrite /=; split=> //; split=> // _.
  move: c1; rewrite Ev /= => /eqP; rewrite addrC addr_eq0 => /eqP c1.
  have {c1} Ec : c = - nn by rewrite -[LHS](divfK n_neq0) c1 mulN1r.
  exists nn => //; rewrite Ec; move: EN; rewrite Ec mulrNN -expr2 => /eqP.
  rewrite -subr_eq0 opprD addrCA subrr addr0 oppr_eq0 -!expr2 paddr_eq0 ?sqr_ge0 // !sqrf_eq0 => /andP[/eqP-> /eqP->] //.
have K : (1 + nth 0 v 2)^-1 * (1 + c / nn) = 1 by rewrite mulVf.
split.
  split=> // -[t t0 [Ea Eb Ec]]; move: EN c1; rewrite Ev /= Ea Eb Ec mulr0 !add0r mulrNN -expr2 => /eqP.
  rewrite eqr_expn2 // => /eqP Et; rewrite -Et mulNr divff // subrr eqxx //.
move=> out [<-]; split; first by rewrite size_map.
  move=> i j Hi Hj /=; rewrite !(nth_map [::]) // Ev align_dot //= /dot3 /= -!expr2.
  by rewrite -EN; congr (_ + _); rewrite mulrACA -expr2 mulrC.
move=> i Hi Ei; rewrite (nth_map [::]) // Ei Ev /= align_ez // mul1r.
by rewrite !divfK.
Qed.
End Rc.
