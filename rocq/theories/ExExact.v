(** * ExExact: elements of the groups, for the examples beside C57. *)
From Coq Require Import Reals Lra String.
From mathcomp Require Import all_ssreflect all_algebra.
From mathcomp Require Import zify.
From Verif Require Import Np NpLemmas Spec SpecLemmas LinOp LinOpSpec MxBridge Rep RepSpec RhoProofs Rstruct Expm GrpSpec.
From Verif Require Import Groups GroupsSpec GroupsSpecR GroupsLoop GroupsLie GroupsInit GroupsCtor GroupsThm ExactSpec GroupsDet GroupsExact GroupsExactD.
Set Implicit Arguments.
Unset Strict Implicit.
Unset Printing Implicit Defensive.
Import GRing.Theory.
Local Open Scope ring_scope.

(** the matrix (a b; c d) *)
Definition mx2 (a b c d : RR) : fmat RR := FM 2 2 (fun i j => if i == 0%N then (if j == 0%N then a else b) else (if j == 0%N then c else d)).
Lemma det2 a b c d : fdet 2 (mx2 a b c d) = a * d - b * c.
Proof.
rewrite /fdet (expand_det_row _ ord0) !big_ord_recl big_ord0 /cofactor !det_mx11 !mxE /= !expr0 !mul1r addr0 expr1.
by rewrite mulN1r mulrN.
Qed.
Lemma iso2 (J : fmat RR) a b c d j0 j1 j2 j3 : meq J (mx2 j0 j1 j2 j3) ->
  a * (j0 * a + j1 * c) + c * (j2 * a + j3 * c) = j0 -> a * (j0 * b + j1 * d) + c * (j2 * b + j3 * d) = j1 ->
  b * (j0 * a + j1 * c) + d * (j2 * a + j3 * c) = j2 -> b * (j0 * b + j1 * d) + d * (j2 * b + j3 * d) = j3 ->
  isometry J (mx2 a b c d).
Proof.
move=> E H0 H1 H2 H3; have [e1 e2 _] := E.
apply: meq_trans (meq_sym E); apply: meq_trans (meq_fmul (meq_refl _) (meq_fmul E (meq_refl _) _) _) _; [by rewrite e2 | by rewrite /= e1|].
by apply: meq22 => //=; rewrite !big_nat_recr ?big_geq //= !add0r.
Qed.
Lemma fid2 : meq (fid RR 2) (mx2 1 0 0 1).
Proof. exact: meq22. Qed.
Lemma mink2 : meq (minkowski RR 2) (mx2 1 0 0 (-1)).
Proof. exact: meq22. Qed.
Lemma sympl2 : meq (sympl RR 1) (mx2 0 1 (-1) 0).
Proof. exact: meq22. Qed.
Definition half : RR := Rdiv 1 2.
Lemma stretch_det : fdet 2 (mx2 (IZR 2) 0 0 half) = 1.
Proof. by rewrite det2 mul0r subr0 /half /GRing.mul /GRing.one /=; lra. Qed.
Lemma stretch_sp : isometry (sympl RR 1) (mx2 (IZR 2) 0 0 half).
Proof.
by apply: (iso2 sympl2); rewrite ?mul0r ?mulr0 ?mul0r ?add0r ?addr0 ?mulr0 ?mulr1 ?mul1r //;
  rewrite /half /GRing.mul /GRing.one /GRing.opp /=; lra.
Qed.
(** a boost *)
Definition boost : fmat RR := mx2 (Rdiv 5 4) (Rdiv 3 4) (Rdiv 3 4) (Rdiv 5 4).
Lemma boost_iso : isometry (minkowski RR 2) boost.
Proof. by apply: (iso2 mink2); rewrite /GRing.mul /GRing.add /GRing.opp /GRing.one /GRing.zero /=; lra. Qed.
Lemma boost_det : fdet 2 boost = 1.
Proof. by rewrite det2 /GRing.mul /GRing.add /GRing.opp /GRing.one /=; lra. Qed.
Lemma rot_elem t : isometry (fid RR 2) (rot t) /\ fdet 2 (rot t) = 1.
Proof.
have E : meq (rot t) (mx2 (cos t) (sin t) (- (sin t : RR)) (cos t)) by apply: meq22.
have P : (cos t : RR) * cos t + (sin t : RR) * sin t = 1.
  by have := sin2_cos2 t; rewrite /Rsqr /GRing.add /GRing.mul /= => H; rewrite Rplus_comm.
split.
  have H : isometry (fid RR 2) (mx2 (cos t) (sin t) (- (sin t : RR)) (cos t)).
    apply: (iso2 fid2); rewrite ?mul1r ?mul0r ?addr0 ?add0r ?mulrN ?mulNr ?opprK //.
    - by rewrite mulrC addrN.
    - by rewrite mulrC addrN.
    by rewrite addrC.
  have Et : meq (ftr (rot t)) (ftr (mx2 (cos t) (sin t) (- (sin t : RR)) (cos t))) by apply: meq_ftr.
  apply: meq_trans H; apply: meq_fmul => //; apply: meq_fmul => //; exact: meq_refl.
by rewrite /fdet (mxf_meq E) // -/(fdet 2 _) det2 mulrN opprK.
Qed.
Lemma refl_det n : fdet n.+1 (FM n.+1 n.+1 (refl0 RR)) = -1.
Proof. by rewrite /fdet mxf_rf ?rf_det //; exact: meq_refl. Qed.
(** GL(n) as constructed does not contain diag(-1,1,...,1) *)
Lemma gl_not (conj : RR -> RR) (close : seq RR -> seq RR -> bool) n : (0 < n)%N -> exists2 G, g_gl conj close n = Ok G &
  exists X, [/\ fr X = n, fc X = n, fdet n X <> 0 & ~ in_group n (lmats G) (gmats G) X].
Proof.
move=> n0; have [G EG [_ H]] := exact_gl conj close n0; exists G => //; case: n n0 EG H => // n _ EG H.
exists (FM n.+1 n.+1 (refl0 RR)); split=> //; first by rewrite refl_det /GRing.opp /GRing.one /GRing.zero /=; lra.
by move/H=> [_ _]; rewrite refl_det /GRing.opp /GRing.one /=; lra.
Qed.
