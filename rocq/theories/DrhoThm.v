(** * DrhoThm: drho is a Lie algebra homomorphism and the derivative of rho; the results in
    terms of drho_dense, as used by PropRep. *)
From mathcomp Require Import all_ssreflect all_algebra.
From mathcomp Require Import zify.
From Verif Require Import Np NpLemmas Spec SpecLemmas LinOp LinOpSpec LinOpProofs LinOpMM LinOpMore LinOpInv LinOpThm Rep RepSpec RepMat RepWf RepProd RepAlg RepDist RepMul RepFun RepOps RepExpr RepExprProofs RepDefer RhoProofs RepThm DualNum DrhoProofs.
Set Implicit Arguments.
Unset Strict Implicit.
Unset Printing Implicit Defensive.
Import GRing.Theory.
Local Open Scope ring_scope.

Section EpsAlg.
Variables (R S : comRingType) (f : {rmorphism R -> S}).
Local Notation feps := (feps f).

Lemma fe_feps_mul (e1 e2 : S) n X Y i k : sqn n X -> sqn n Y -> (i < n)%N -> (k < n)%N ->
  fe (fmul (feps e1 X) (feps e2 Y)) i k =
  (i == k)%:R + e1 * f (fe X i k) + e2 * f (fe Y i k) + e1 * e2 * f (fe (fmul X Y) i k).
Proof.
move=> [h1 h2] [k1 k2] Hi Hk /=; rewrite !h2.
rewrite (eq_sum (g := fun j => (i == j)%:R * ((j == k)%:R + e2 * f (fe Y j k))
  + (e1 * f (fe X i j) * (j == k)%:R + e1 * e2 * f (fe X i j * fe Y j k)))); last first.
  by move=> j _; rewrite mulrDl; congr (_ + _); rewrite mulrDr rmorphM /= mulrACA.
rewrite !big_split /= (sum_delta (fun j => (j == k)%:R + e2 * f (fe Y j k)) Hi).
rewrite (sum_delta' (fun j => e1 * f (fe X i j)) Hk) -mulr_sumr -rmorph_sum /=.
by rewrite !addrA; congr (_ + _); rewrite -!addrA; congr (_ + _); rewrite addrC.
Qed.

Lemma feps_mul e1 e2 n X Y Z (c : R) e : sqn n X -> sqn n Y -> sqn n Z -> e1 * e2 = 0 -> e1 = e * f c -> e2 = e ->
  (forall i j, (i < n)%N -> (j < n)%N -> fe Z i j = c * fe X i j + fe Y i j) ->
  meq (fmul (feps e1 X) (feps e2 Y)) (feps e Z).
Proof.
move=> HX HY [z1 z2] E0 E1 E2 H; have [[x1 x2] [y1 y2]] := (HX, HY).
split; rewrite /= ?x1 ?y2 ?z1 ?z2 // => i k Hi Hk.
rewrite -[LHS]/(fe (fmul (feps e1 X) (feps e2 Y)) i k) (fe_feps_mul _ _ HX HY) // E0 mul0r addr0.
by rewrite H // rmorphD rmorphM /= mulrDr mulrA -E1 E2 -addrA.
Qed.

Lemma feps_tr e X : meq (ftr (feps e X)) (feps e (ftr X)).
Proof. by split=> //= i j _ _; rewrite eq_sym. Qed.

Lemma sqn_tr n (X : fmat R) : sqn n X -> sqn n (ftr X). Proof. by case. Qed.
Lemma sqn_opp n (X : fmat R) : sqn n X -> sqn n (fopp X). Proof. by case. Qed.

Lemma feps_opp e n X : sqn n X -> e * e = 0 -> meq (fmul (feps e X) (feps e (fopp X))) (fid S n).
Proof.
move=> HX E2; apply: meq_trans (feps0 f e n).
have HZ : sqn n (fzero R n n) by [].
apply: (feps_mul (c := 1)) HX (sqn_opp HX) HZ E2 _ _ _; rewrite ?rmorph1 ?mulr1 // => i j _ _ /=.
by rewrite mul1r subrr.
Qed.

Lemma fopp_opp (X : fmat R) : meq (fopp (fopp X)) X.
Proof. by split=> //= i j _ _; rewrite opprK. Qed.

Lemma feps_invT e n X : sqn n X -> e * e = 0 -> invTn n (feps e X) (feps e (fopp (ftr X))).
Proof.
move=> HX E2; have [x1 x2] := HX; split; first by split.
have T : meq (ftr (feps e (fopp (ftr X)))) (feps e (fopp X)).
  by apply: meq_trans (feps_tr _ _) _; split.
have HO := sqn_opp HX.
split.
  apply: meq_trans (feps_opp HX E2); apply: meq_fmul T _; [exact: meq_refl | by rewrite /= x2 x1].
apply: meq_trans (feps_opp HO E2); apply: meq_fmul T _ _; last by rewrite /= x2 x1.
by apply: meq_feps; apply: meq_sym; apply: fopp_opp.
Qed.
End EpsAlg.

Section Hom.
Variable R : comRingType.
Variables (gdim : gid -> nat) (csize : nat -> gid -> nat) (le : rel rep) (gs : pred gid).
Local Notation sz := (rsize gdim csize).
Local Notation atomic := (atomic gdim csize gs).
Local Notation wfr := (wfr gdim csize le gs).
Local Notation feps1 := (feps (dconst_rmorphism R)).
Local Notation eps := (eps R).

Lemma feps_inj X Y : meq (feps1 eps X) (feps1 eps Y) -> meq X Y.
Proof.
case=> h1 h2 H; split=> // i j Hi Hj; have /= := H i j Hi Hj.
move/(congr1 (@deps R)); rewrite !raddfD /= !deps_nat !add0r !mul0r !mul1r !add0r; exact.
Qed.

Lemma dmat_sqn (a : rep -> fmat R) r : wfr r -> (forall k, atomic k -> sqn (sz k) (a k)) -> sqn (sz r) (dmat a r).
Proof.
move=> W H; have [] // := @rmat_eps R _ (dconst_rmorphism R) gdim csize le gs eps (fun k => feps1 eps (a k)) a r (eps2 R) W.
by move=> k /H; split=> //; apply: meq_refl.
Qed.

Lemma dmat_eps (a : rep -> fmat R) r : wfr r -> (forall k, atomic k -> sqn (sz k) (a k)) ->
  meq (rmat (fun k => feps1 eps (a k)) r) (feps1 eps (dmat a r)).
Proof.
move=> W H; have [] // := @rmat_eps R _ (dconst_rmorphism R) gdim csize le gs eps (fun k => feps1 eps (a k)) a r (eps2 R) W.
by move=> k /H; split=> //; apply: meq_refl.
Qed.

Lemma dmat_lin (c : R) (a1 a2 a3 : rep -> fmat R) r : wfr r ->
  (forall k, atomic k -> [/\ sqn (sz k) (a1 k), sqn (sz k) (a2 k) & meq (a3 k) (fadd (fscale c (a1 k)) (a2 k))]) ->
  meq (dmat a3 r) (fadd (fscale c (dmat a1 r)) (dmat a2 r)).
Proof.
move=> W H.
have H1 k : atomic k -> sqn (sz k) (a1 k) by case/H.
have H2 k : atomic k -> sqn (sz k) (a2 k) by case/H.
have H3 k : atomic k -> sqn (sz k) (a3 k) by case/H=> -[h1 h2] _ [e1 e2 _]; split; rewrite ?e1 ?e2.
have S1 := dmat_sqn W H1; have S2 := dmat_sqn W H2; have S3 := dmat_sqn W H3.
pose f := dconst_rmorphism R; pose e' : dual R := eps * f c.
have E' : e' * e' = 0 by rewrite /e' mulrACA eps2 mul0r.
have E'' : e' * eps = 0 by rewrite /e' mulrAC eps2 mul0r.
have Z : sqn (sz r) (fadd (fscale c (dmat a1 r)) (dmat a2 r)) by case: S1.
apply: feps_inj; apply: meq_trans (meq_sym (dmat_eps W H3)) _.
apply: meq_trans; last by apply: (feps_mul (f := f) (e1 := e') (c := c) S1 S2 Z E'').
apply: meq_trans; last first.
  apply: meq_fmul; [| exact: (dmat_eps W H2) |].
    have [_ HH] := @rmat_eps R _ f gdim csize le gs e' (fun k => feps f e' (a1 k)) a1 r E' W (fun k Hk => conj (H1 k Hk) (meq_refl _)).
    exact: HH.
  have [|_ ->] := @rmat_sqn (dual_comRingType R) gdim csize le gs (fun k => feps f e' (a1 k)) r W; first by move=> k /H1[h1 h2]; split.
  by have [|-> _] := @rmat_sqn (dual_comRingType R) gdim csize le gs (fun k => feps f eps (a2 k)) r W; first by move=> k /H2[h1 h2]; split.
apply: meq_sym; apply: (rmat_mul W) => k Ak; split; [by have [] := H1 k Ak | by have [] := H2 k Ak |].
have [_ _ HE] := H k Ak; have [h1 h2] := H1 k Ak.
apply: meq_trans (meq_sym (meq_feps f eps HE)).
by apply: (feps_mul (c := c)) (H1 k Ak) (H2 k Ak) _ E'' _ _ _.
Qed.

(** the commutator *)
Definition fbr (X Y : fmat R) : fmat R := fsub (fmul X Y) (fmul Y X).

Lemma dmat_br (a1 a2 a3 : rep -> fmat R) r : wfr r ->
  (forall k, atomic k -> [/\ sqn (sz k) (a1 k), sqn (sz k) (a2 k) & meq (a3 k) (fbr (a1 k) (a2 k))]) ->
  meq (dmat a3 r) (fbr (dmat a1 r) (dmat a2 r)).
Proof.
move=> W H.
have H1 k : atomic k -> sqn (sz k) (a1 k) by case/H.
have H2 k : atomic k -> sqn (sz k) (a2 k) by case/H.
have H3 k : atomic k -> sqn (sz k) (a3 k).
  by case/H=> -[h1 h2] [k1 k2] [e1 e2 _]; split; rewrite ?e1 ?e2 /=.
have S1 := dmat_sqn W H1; have S2 := dmat_sqn W H2; have S3 := dmat_sqn W H3.
pose D1 := dual_comRingType R; pose D2 := dual_comRingType D1.
pose f : {rmorphism R -> D2} := [rmorphism of dconst_rmorphism D1 \o dconst_rmorphism R].
pose e1 : D2 := dconst (DualNum.eps R); pose e2 : D2 := DualNum.eps D1.
pose e3 : D2 := e1 * e2.
have E1 : e1 * e1 = 0 by rewrite /e1 -rmorphM /= eps2 rmorph0.
have E2 : e2 * e2 = 0 by apply: eps2.
have E3 : e3 * e3 = 0 by rewrite /e3 mulrACA E1 mul0r.
have ev e (a : rep -> fmat R) (Ha : forall k, atomic k -> sqn (sz k) (a k)) (Ee : e * e = 0) :
    meq (rmat (fun k => feps f e (a k)) r) (feps f e (dmat a r)) /\
    (sqn (sz r) (rmat (fun k => feps f e (a k)) r)).
  have [[h1 h2] [k1 k2 k3]] := @rmat_eps R _ f gdim csize le gs e (fun k => feps f e (a k)) a r Ee W (fun k Hk => conj (Ha k Hk) (meq_refl _)).
  by split; [split|split; rewrite ?k1 ?k2].
have [M1 Q1] := ev e1 a1 H1 E1; have [M2 Q2] := ev e2 a2 H2 E2; have [M3 Q3] := ev e3 a3 H3 E3.
(* (1+e1 X)(1+e2 Y) = (1+e1e2[X,Y]) (1+e2 Y)(1+e1 X) *)
have key n X Y Z : sqn n X -> sqn n Y -> sqn n Z ->
    (meq (fmul (feps f e1 X) (feps f e2 Y)) (fmul (feps f e3 Z) (fmul (feps f e2 Y) (feps f e1 X))) <->
     meq Z (fbr X Y)).
  move=> HX HY HZ.
  have [[[x1 x2] [y1 y2]] [z1 z2]] := (HX, HY, HZ).
  have coef i k : (i < n)%N -> (k < n)%N ->
      fe (fmul (feps f e1 X) (feps f e2 Y)) i k - fe (fmul (feps f e3 Z) (fmul (feps f e2 Y) (feps f e1 X))) i k
      = e3 * f (fe (fbr X Y) i k - fe Z i k).
    move=> Hi Hk; rewrite (fe_feps_mul _ _ _ HX HY) //.
    have -> : fe (fmul (feps f e3 Z) (fmul (feps f e2 Y) (feps f e1 X))) i k =
        fe (fmul (feps f e2 Y) (feps f e1 X)) i k + e3 * f (fe Z i k).
      set V := fmul (feps f e2 Y) (feps f e1 X).
      rewrite -[LHS]/(\sum_(0 <= j < fc Z) ((i == j)%:R + e3 * f (fe Z i j)) * fe V j k) z2 /V.
      rewrite (eq_sum (g := fun j => (i == j)%:R * fe (fmul (feps f e2 Y) (feps f e1 X)) j k
         + e3 * f (fe Z i j) * (j == k)%:R)); last first.
        move=> j Hj; rewrite mulrDl; congr (_ + _).
        rewrite (fe_feps_mul _ _ _ HY HX) // !mulrDr.
        have e31 : e3 * e1 = 0 by rewrite /e3 mulrAC E1 mul0r.
        have e32 : e3 * e2 = 0 by rewrite /e3 -mulrA E2 mulr0.
        have kill x e y : e3 * e = 0 -> e3 * x * (e * y) = 0 by move=> E; rewrite mulrACA E mul0r.
        by rewrite !kill ?addr0 // mulrA e32 mul0r.
      by rewrite big_split /= (sum_delta (fun j => fe (fmul (feps f e2 Y) (feps f e1 X)) j k) Hi)
           (sum_delta' (fun j => e3 * f (fe Z i j)) Hk).
    rewrite (fe_feps_mul _ _ _ HY HX) // [e2 * e1]mulrC -/e3.
    rewrite /fbr /fsub -[fe (fadd _ _) i k]/(fe (fmul X Y) i k - fe (fmul Y X) i k).
    rewrite !rmorphB /= !mulrBr.
    set p := _%:R; set q := e1 * _; set s := e2 * _; set t := e3 * _; set u := e3 * _; set v := e3 * _.
    rewrite [p + s + q]addrAC; set w := p + q + s.
    by rewrite -[w + u + v]addrA opprD addrACA subrr add0r opprD addrA.
  split=> [[_ _ K]|[_ _ K]].
    split; rewrite /= ?x1 ?y2 ?z1 ?z2 // => i k Hi Hk; apply/eqP; rewrite eq_sym -subr_eq0; apply/eqP.
    have := coef i k Hi Hk; rewrite K /= ?x1 ?y2 // subrr => /esym.
    move/(congr1 (@deps D1)) => /(congr1 (@deps R)) /=.
    by rewrite !(mul0r, mulr0, add0r, addr0, mul1r, mulr1).
  split; rewrite /= ?x1 ?y2 ?z1 ?z2 // => i k Hi Hk; apply/eqP; rewrite -subr_eq0; apply/eqP.
  move: (coef i k Hi Hk); rewrite [fe (fbr _ _) i k](_ : _ = fe Z i k); last by rewrite K ?z1 ?z2.
  by rewrite subrr rmorph0 mulr0 /= z2 y2 => ->.
apply/(key _ _ _ _ S1 S2 S3).
pose b1 k := feps f e1 (a1 k); pose b2 k := feps f e2 (a2 k); pose b3 k := feps f e3 (a3 k).
pose b12 k := fmul (b1 k) (b2 k); pose b21 k := fmul (b2 k) (b1 k).
have K1 : meq (fmul (rmat b1 r) (rmat b2 r)) (rmat b12 r).
  by apply: (rmat_mul W) => k Ak; split; [have [] := H1 k Ak | have [] := H2 k Ak |]; rewrite //; apply: meq_refl.
have K2 : meq (fmul (rmat b2 r) (rmat b1 r)) (rmat b21 r).
  by apply: (rmat_mul W) => k Ak; split; [have [] := H2 k Ak | have [] := H1 k Ak |]; rewrite //; apply: meq_refl.
have sq21 k : atomic k -> sqn (sz k) (b21 k).
  by move=> Ak; have [h1 h2] := H2 k Ak; have [k1 k2] := H1 k Ak.
have K3 : meq (fmul (rmat b3 r) (rmat b21 r)) (rmat b12 r).
  apply: (rmat_mul W) => k Ak; split; [by have [] := H3 k Ak | exact: sq21 |].
  have [_ _ HE] := H k Ak; apply: meq_sym.
  by apply/(key _ _ _ _ (H1 k Ak) (H2 k Ak) (H3 k Ak)).
have [[[h1 h2] [k1 k2]] [g1 g2]] := (Q1, Q2, Q3).
have Q21 := @rmat_sqn D2 gdim csize le gs b21 r W sq21; have [q1 q2] := Q21.
apply: meq_trans (meq_trans (meq_sym (meq_fmul M1 M2 _)) K1) _; first by rewrite h2 k1.
apply: meq_trans (meq_sym K3) _.
apply: meq_fmul M3 _ _; last by rewrite g2 q1.
apply: meq_trans (meq_sym K2) (meq_fmul M2 M1 _); by rewrite k2 h1.
Qed.
End Hom.

Section Thm.
Variable R : comRingType.
Variable conj : R -> R.
Variable cdrho : nat -> option gid -> gel R -> res (op R).
Variables (gdim : gid -> nat) (gorth : gid -> bool) (csize : nat -> gid -> nat).
Variables (le : rel rep) (gs : pred gid).
Local Notation sz := (rsize gdim csize).
Local Notation atomic := (atomic gdim csize gs).
Local Notation key := (key gdim csize le gs).
Local Notation wfr := (wfr gdim csize le gs).
Local Notation drho := (drho cdrho).
Local Notation drho_dense := (drho_dense conj cdrho).
Local Notation lie_elem := (lie_elem conj cdrho gdim csize gs).
Local Notation adrho := (adrho cdrho).
Local Notation ta := (ta gorth).

Lemma lie_lelem M : lie_elem M -> lelem conj cdrho gdim csize gs M.
Proof.
move=> HM; case=> // [[h|]|c [h|]|[|[h|]|c [h|]|?|? ?|? ?|? ?|?|?]] //= /andP[Hh _];
  have [A E [[GA GT] I]] := HM h Hh.
- by exists A => //; split=> // G [<-]; exists A.
- by have [C EC [EC' [GC GC']]] := I c; exists C => //; split=> // G [<-]; exists A.
- exists (neg (transpose A)); first by rewrite E.
  by split=> // G [<-]; exists A.
- have [C EC [EC' [GC GC']]] := I c; exists (neg (transpose C)); first by rewrite EC.
  by split=> // G [<-]; exists A => //; rewrite EC'.
Qed.

Lemma adrho_sqn M k : lie_elem M -> atomic k -> sqn (sz k) (adrho M k).
Proof.
move=> HM Ak; rewrite /RhoProofs.adrho /atomf.
have [A -> [G _]] := lie_lelem HM Ak; exact: gop_sz G.
Qed.

Lemma drho_dense_ok M r : lie_elem M -> wfr r ->
  drho_dense r M = Ok (sz r, sz r, flat (dmat (adrho M) r)).
Proof.
move=> HM W; have [A E [G H]] := drho_ok (lie_lelem HM) W.
by rewrite /Rep.drho_dense E bindOk (gop_dense G) (flat_meq H).
Qed.

Lemma dmat_sq M r : lie_elem M -> wfr r -> sqn (sz r) (dmat (adrho M) r).
Proof. by move=> HM W; apply: (dmat_sqn W) => k Hk; apply: adrho_sqn. Qed.

Lemma unflat_dmat M r : lie_elem M -> wfr r ->
  meq (unflat (sz r) (sz r) (flat (dmat (adrho M) r))) (dmat (adrho M) r).
Proof.
by move=> HM W; have [h1 h2] := dmat_sq HM W; have := unflat_flat (dmat (adrho M) r); rewrite h1 h2.
Qed.

Lemma neg_den (A : op R) : wf A -> meq (den (neg A)) (fopp (den A)).
Proof.
case: A => [m n D|m n D|n|Ms|Ms|Ms|Ms c|m n Ms c pre post|p|n k|sw n|n k|A B|A B|A a|A p|A|A] W;
  try by split=> //= i j _ _; rewrite mulN1r.
split=> //= i j Hi Hj; move/eqP: W => W; rewrite (nth_map 0) // W.
by apply: (leq_trans (n := (i * n + n)%N)); [rewrite ltn_add2l | rewrite addnC -mulSn leq_mul2r Hi orbT].
Qed.

Lemma negT_den n (A : op R) : gop conj n A -> meq (den (neg (transpose A))) (fopp (ftr (den A))).
Proof.
case=> W _ _ _ _; have [WT [h1 h2 h] _ _ _] := transpose_ok W.
have [k1 k2 k] := neg_den WT; split; rewrite ?k1 ?k2 //= => i j; rewrite ?h1 ?h2 => Hi Hj.
by rewrite k ?k1 ?k2 /= ?h ?h1 ?h2.
Qed.

(** drho of the atoms in terms of the given matrices *)
Lemma adrho_case (P : nat -> fmat R -> Prop) M k : lie_elem M -> atomic k ->
  (forall n A B, meq A B -> P n A -> P n B) ->
  (forall g A, gs g -> glook M (Some g) = Ok A -> gop conj (gdim g) A -> P (gdim g) (den A) /\ P (gdim g) (fopp (ftr (den A)))) ->
  (forall g c C, gs g -> cdrho c (Some g) M = Ok C -> gop conj (csize c g) C -> P (csize c g) (den C) /\ P (csize c g) (fopp (ftr (den C)))) ->
  P (sz k) (adrho M k).
Proof.
move=> HM + Pm PA PC; rewrite /RhoProofs.adrho /atomf.
case: k => // [[h|]|c [h|]|[|[h|]|c [h|]|?|? ?|? ?|? ?|?|?]] //= /andP[Hh _];
  have [A E [[GA GT] I]] := HM h Hh.
- by rewrite E; have [] := PA h A Hh E GA.
- by have [C EC [EC' [GC GC']]] := I c; rewrite EC; have [] := PC h c C Hh EC GC.
- rewrite E bindOk; have [_ H] := PA h A Hh E GA; apply: Pm H; apply: meq_sym; exact: negT_den GA.
- have [C EC [EC' [GC GC']]] := I c; rewrite EC bindOk; have [_ H] := PC h c C Hh EC GC.
  apply: Pm H; apply: meq_sym; exact: negT_den GC.
Qed.

(** drho(c A + B) = c drho(A) + drho(B), drho([A,B]) = [drho A, drho B] *)
Section Bin.
Variable bop : fmat R -> fmat R -> fmat R.
Hypothesis opm : forall n X X' Y Y', sqn n X -> sqn n Y -> meq X X' -> meq Y Y' -> meq (bop X Y) (bop X' Y').
Hypothesis opd : forall n X Y, sqn n X -> sqn n Y ->
  meq (fopp (ftr (bop X Y))) (bop (fopp (ftr X)) (fopp (ftr Y))).
Hypothesis Hop : forall (a1 a2 a3 : rep -> fmat R) r, wfr r ->
  (forall k, atomic k -> [/\ sqn (sz k) (a1 k), sqn (sz k) (a2 k) & meq (a3 k) (bop (a1 k) (a2 k))]) ->
  meq (dmat a3 r) (bop (dmat a1 r) (dmat a2 r)).

Lemma drho_bin r M1 M2 M3 : wfr r -> lie_elem M1 -> lie_elem M2 -> lie_elem M3 ->
  (forall g A1 A2 A3, gs g -> glook M1 (Some g) = Ok A1 -> glook M2 (Some g) = Ok A2 ->
     glook M3 (Some g) = Ok A3 -> meq (den A3) (bop (den A1) (den A2))) ->
  (forall g c C1 C2 C3, gs g -> cdrho c (Some g) M1 = Ok C1 -> cdrho c (Some g) M2 = Ok C2 ->
     cdrho c (Some g) M3 = Ok C3 -> meq (den C3) (bop (den C1) (den C2))) ->
  exists D1 D2, [/\ drho_dense r M1 = Ok (sz r, sz r, D1), drho_dense r M2 = Ok (sz r, sz r, D2) &
    drho_dense r M3 = Ok (sz r, sz r, flat (bop (unflat (sz r) (sz r) D1) (unflat (sz r) (sz r) D2)))].
Proof.
move=> W G1 G2 G3 HA HC.
exists (flat (dmat (adrho M1) r)), (flat (dmat (adrho M2) r)); split; try exact: drho_dense_ok.
rewrite drho_dense_ok //; congr (Ok (_, _)); apply: flat_meq.
apply: meq_trans; last first.
  apply: (opm (n := sz r)); [| | apply: meq_sym; apply: unflat_dmat | apply: meq_sym; apply: unflat_dmat] => //; exact: dmat_sq.
apply: (Hop W) => k Ak; split; [exact: adrho_sqn | exact: adrho_sqn |].
rewrite /RhoProofs.adrho /atomf.
have dual n (A1 A2 A3 : op R) : gop conj n A1 -> gop conj n A2 -> gop conj n A3 -> meq (den A3) (bop (den A1) (den A2)) ->
    meq (den (neg (transpose A3))) (bop (den (neg (transpose A1))) (den (neg (transpose A2)))).
  move=> H1 H2 H3 E; apply: meq_trans (negT_den H3) _.
  have E' : meq (fopp (ftr (den A3))) (fopp (ftr (bop (den A1) (den A2)))).
    by case: E => e1 e2 E; split=> //= i j Hi Hj; rewrite E.
  apply: meq_trans E' (meq_trans (opd (gop_sz H1) (gop_sz H2)) _).
  have T n' (A : op R) : gop conj n' A -> sqn n' (fopp (ftr (den A))) by move=> /gop_sz[].
  by apply: (opm (T _ _ H1) (T _ _ H2)); apply: meq_sym; apply: negT_den; [exact: H1 | exact: H2].
case: k Ak => // [[h|]|c [h|]|[|[h|]|c [h|]|?|? ?|? ?|? ?|?|?]] //= /andP[Hh _];
  have [A1 E1 [[GA1 _] J1]] := G1 h Hh;
  have [A2 E2 [[GA2 _] J2]] := G2 h Hh;
  have [A3 E3 [[GA3 _] J3]] := G3 h Hh.
- by rewrite E1 E2 E3; apply: (HA h).
- have [C1 F1 _] := J1 c; have [C2 F2 _] := J2 c; have [C3 F3 _] := J3 c.
  by rewrite F1 F2 F3; apply: (HC h c).
- by rewrite E1 E2 E3 !bindOk; apply: dual GA1 GA2 GA3 _; apply: (HA h).
- have [C1 F1 [_ [GC1 _]]] := J1 c; have [C2 F2 [_ [GC2 _]]] := J2 c; have [C3 F3 [_ [GC3 _]]] := J3 c.
  by rewrite F1 F2 F3 !bindOk; apply: dual GC1 GC2 GC3 _; apply: (HC h c).
Qed.
End Bin.

Lemma drho_lin_thm (c : R) r M1 M2 M3 : wfr r -> lie_elem M1 -> lie_elem M2 -> lie_elem M3 ->
  (forall g A1 A2 A3, gs g -> glook M1 (Some g) = Ok A1 -> glook M2 (Some g) = Ok A2 ->
     glook M3 (Some g) = Ok A3 -> meq (den A3) (fadd (fscale c (den A1)) (den A2))) ->
  (forall g k C1 C2 C3, gs g -> cdrho k (Some g) M1 = Ok C1 -> cdrho k (Some g) M2 = Ok C2 ->
     cdrho k (Some g) M3 = Ok C3 -> meq (den C3) (fadd (fscale c (den C1)) (den C2))) ->
  exists D1 D2, [/\ drho_dense r M1 = Ok (sz r, sz r, D1), drho_dense r M2 = Ok (sz r, sz r, D2) &
    drho_dense r M3 = Ok (sz r, sz r, flat (fadd (fscale c (unflat (sz r) (sz r) D1)) (unflat (sz r) (sz r) D2)))].
Proof.
move=> W G1 G2 G3 HA HC.
apply: (drho_bin (bop := fun X Y => fadd (fscale c X) Y)) HA HC => // [n X X' Y Y' S1 S2 H1 H2|n X Y [h1 h2] [k1 k2]|].
- case: H1 H2 S1 S2 => x1 x2 H1 [y1 y2 H2] [h1 h2] [k1 k2]; split=> //= i j Hi Hj.
  by move: (Hi) (Hj); rewrite h1 h2 => Hi' Hj'; rewrite H1 ?h1 ?h2 ?H2 ?k1 ?k2.
- by split=> //= i j _ _; rewrite opprD mulrN.
exact: dmat_lin.
Qed.

Lemma drho_br_thm r M1 M2 M3 : wfr r -> lie_elem M1 -> lie_elem M2 -> lie_elem M3 ->
  (forall g A1 A2 A3, gs g -> glook M1 (Some g) = Ok A1 -> glook M2 (Some g) = Ok A2 ->
     glook M3 (Some g) = Ok A3 -> meq (den A3) (fsub (fmul (den A1) (den A2)) (fmul (den A2) (den A1)))) ->
  (forall g k C1 C2 C3, gs g -> cdrho k (Some g) M1 = Ok C1 -> cdrho k (Some g) M2 = Ok C2 ->
     cdrho k (Some g) M3 = Ok C3 -> meq (den C3) (fsub (fmul (den C1) (den C2)) (fmul (den C2) (den C1)))) ->
  exists D1 D2, [/\ drho_dense r M1 = Ok (sz r, sz r, D1), drho_dense r M2 = Ok (sz r, sz r, D2) &
    let X := unflat (sz r) (sz r) D1 in let Y := unflat (sz r) (sz r) D2 in
    drho_dense r M3 = Ok (sz r, sz r, flat (fsub (fmul X Y) (fmul Y X)))].
Proof.
move=> W G1 G2 G3 HA HC.
apply: (drho_bin (bop := @fbr R)) HA HC => // [n X X' Y Y' S1 S2 H1 H2|n X Y S1 S2|].
- case: (S1) (S2) => x1 x2 [y1 y2].
  have [e1 e2 E] : meq (fmul X Y) (fmul X' Y') by apply: meq_fmul H1 H2 _; rewrite x2 y1.
  have [f1 f2 F] : meq (fmul Y X) (fmul Y' X') by apply: meq_fmul H2 H1 _; rewrite y2 x1.
  move: E F; rewrite -[fr (fmul X Y)]/(fr X) -[fc (fmul X Y)]/(fc Y) -[fr (fmul Y X)]/(fr Y) -[fc (fmul Y X)]/(fc X).
  rewrite x1 x2 y1 y2 => E F.
  split=> // i j; rewrite -[fr _]/(fr X) -[fc _]/(fc Y) x1 y2 => Hi Hj.
  by rewrite -[LHS]/(fe (fmul X Y) i j - fe (fmul Y X) i j) E // F.
- case: (S1) (S2) => x1 x2 [y1 y2]; split; rewrite /= ?x1 ?x2 ?y1 ?y2 // => i j Hi Hj.
  rewrite opprB; congr (_ - _); apply: eq_sum => l _; by rewrite mulrNN mulrC.
exact: dmat_br.
Qed.

(** every square array is a Lie algebra element as far as the code is concerned *)
Lemma lie_arr n (D : seq R) : size D = (n * n)%N -> gop conj n (OArr n n D) /\ gop conj n (neg (transpose (OArr n n D))).
Proof.
move=> S; split; first exact: gop_arr.
by apply: gop_arr; rewrite size_map size_tr2.
Qed.
End Thm.

(** the derivative: over the dual numbers *)
Section Deriv.
Variable R : comRingType.
Variable conj : R -> R.
Variable cdrho : nat -> option gid -> gel R -> res (op R).
Local Notation S := (dual_comRingType R).
Variables (conjS sinvS : S -> S) (linvS : nat -> seq S -> seq S).
Variable crhoS : nat -> option gid -> gel S -> res (op S).
Variables (gdim : gid -> nat) (gorth : gid -> bool) (csize : nat -> gid -> nat).
Variables (le : rel rep) (gs : pred gid).
Local Notation sz := (rsize gdim csize).
Local Notation atomic := (atomic gdim csize gs).
Local Notation wfr := (wfr gdim csize le gs).
Local Notation f := (dconst_rmorphism R).

Lemma deriv_thm r (A : gel R) (M : gel S) : wfr r ->
  lie_elem conj cdrho gdim csize gs A -> group_elem conjS sinvS linvS crhoS gdim csize gs M ->
  (forall g X Y, gs g -> glook A (Some g) = Ok X -> glook M (Some g) = Ok Y ->
     forall i j, (i < gdim g)%N -> (j < gdim g)%N -> fe (den Y) i j = Du (i == j)%:R (fe (den X) i j)) ->
  (forall g c X Y, gs g -> cdrho c (Some g) A = Ok X -> crhoS c (Some g) M = Ok Y ->
     forall i j, (i < csize c g)%N -> (j < csize c g)%N -> fe (den Y) i j = Du (i == j)%:R (fe (den X) i j)) ->
  exists D D', [/\ drho_dense conj cdrho r A = Ok (sz r, sz r, D),
    rho_dense conjS sinvS linvS crhoS r M = Ok (sz r, sz r, D') &
    forall i j, (i < sz r)%N -> (j < sz r)%N ->
      nth 0 D' (i * sz r + j) = Du (i == j)%:R (nth 0 D (i * sz r + j))].
Proof.
move=> W HA HM H1 H2.
exists (flat (dmat (adrho cdrho A) r)), (flat (rmat (arho sinvS linvS crhoS M) r)); split.
- exact: drho_dense_ok HA W.
- exact: rho_dense_ok HM W.
have E : meq (rmat (arho sinvS linvS crhoS M) r) (feps f (eps R) (dmat (adrho cdrho A) r)).
  have [] // := @rmat_eps R _ f gdim csize le gs (eps R) (arho sinvS linvS crhoS M) (adrho cdrho A) r (eps2 R) W.
  move=> k Ak; split; first exact: (adrho_sqn HA Ak).
  have val n (X : op R) (Y : op S) : gop conj n X -> gop conjS n Y ->
      (forall i j, (i < n)%N -> (j < n)%N -> fe (den Y) i j = Du (i == j)%:R (fe (den X) i j)) ->
      meq (den Y) (feps f (eps R) (den X)).
    move=> /gop_sz[x1 x2] /gop_sz[y1 y2] HH; split; rewrite /= ?x1 ?y1 ?x2 ?y2 // => i j Hi Hj.
    rewrite HH //; congr Du; rewrite /=; first by rewrite mul0r addr0 dre_nat.
    by rewrite deps_nat mul0r !add0r mul1r.
  have vald n (X : op R) (Y Z : op S) : gop conj n X -> gop conjS n Y -> gop conjS n Z -> is_invT (den Y) (den Z) ->
      (forall i j, (i < n)%N -> (j < n)%N -> fe (den Y) i j = Du (i == j)%:R (fe (den X) i j)) ->
      meq (den Z) (feps f (eps R) (den (neg (transpose X)))).
    move=> GX GY GZ I HH; have I' := invertible_invTn GY GZ I.
    apply: meq_trans; last by apply: meq_feps; apply: meq_sym; apply: negT_den GX.
    apply: (invTn_uniq I'); have := feps_invT f (gop_sz GX) (eps2 R).
    apply: invTn_meq; last exact: meq_refl.
    by apply: meq_sym; apply: val GX GY HH.
  rewrite /arho /adrho /atomf.
  case: k Ak => // [[h|]|c [h|]|[|[h|]|c [h|]|?|? ?|? ?|? ?|?|?]] //= /andP[Hh _];
    have [X EX [[GX _] JX]] := HA h Hh; have [Y EY [[GY [Z EZ [GZ IZ]]] JY]] := HM h Hh.
  - by rewrite EX EY; apply: val GX GY _; apply: (H1 h).
  - have [C FC [_ [GC _]]] := JX c; have [C' FC' [_ [GC' _]]] := JY c.
    by rewrite FC FC'; apply: val GC GC' _; apply: (H2 h c).
  - by rewrite EX EY !bindOk EZ; apply: vald GX GY GZ IZ _; apply: (H1 h).
  - have [C FC [_ [GC _]]] := JX c; have [C' FC' [_ [GC' [Z' EZ' [GZ' IZ']]]]] := JY c.
    by rewrite FC FC' !bindOk EZ'; apply: vald GC GC' GZ' IZ' _; apply: (H2 h c).
have [h1 h2] := dmat_sq HA W; have [k1 k2] := rmat_kok HM W; case: E => _ _ E.
move=> i j Hi Hj; rewrite -{1}k2 nth_flat ?k1 ?k2 // -{1}h2 nth_flat ?h1 ?h2 //.
rewrite E ?k1 ?k2 //; congr Du; rewrite /=; first by rewrite mul0r addr0 dre_nat.
by rewrite deps_nat mul0r !add0r mul1r.
Qed.
End Deriv.
