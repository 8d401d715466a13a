(** * DirThm: products of representations of disjoint sets of groups, as used by PropDir. *)
From mathcomp Require Import all_ssreflect all_algebra.
From mathcomp Require Import zify.
From Verif Require Import Np NpLemmas Spec SpecLemmas LinOp LinOpSpec LinOpProofs LinOpMM LinOpMore LinOpInv LinOpThm Rep RepSpec RepMat RepWf RepProd RepAlg RepDist RepMul RepFun RepOps RepExpr RepExprProofs RepDefer RhoProofs RepThm DualNum DrhoProofs DrhoThm RepThm1 RepDir.
Set Implicit Arguments.
Unset Strict Implicit.
Unset Printing Implicit Defensive.
Import GRing.Theory.
Local Open Scope ring_scope.

Section Dir.
Variable R : comRingType.
Variables (conj sinv : R -> R) (linv : nat -> seq R -> seq R).
Variables (crho cdrho : nat -> option gid -> gel R -> res (op R)).
Variables (gdim : gid -> nat) (csize : nat -> gid -> nat).
Variables (le : rel rep) (gs1 gs2 : pred gid).
Local Notation gs := (predU gs1 gs2).
Local Notation sz := (rsize gdim csize).
Local Notation wfr := (wfr gdim csize le).
Local Notation rho_dense := (rho_dense conj sinv linv crho).
Local Notation drho_dense := (drho_dense conj cdrho).
Local Notation group_elem := (group_elem conj sinv linv crho gdim csize gs).
Local Notation lie_elem := (lie_elem conj cdrho gdim csize gs).
Local Notation arho := (arho sinv linv crho).
Local Notation adrho := (adrho cdrho).
Hypothesis Dis : forall g, gs1 g -> ~~ gs2 g.
Hypothesis O : total_order_on (key gdim csize le gs) le.
Let rok := @rho_dense_ok R conj sinv linv crho gdim csize le gs.
Let drok := @drho_dense_ok R conj cdrho gdim csize le gs.
Let urm := @unflat_rmat R conj sinv linv crho gdim csize le gs.
Let udm := @unflat_dmat R conj cdrho gdim csize le gs.
Let s1 : subpred gs1 gs. Proof. by move=> g H; rewrite /= /= H. Qed.
Let s2 : subpred gs2 gs. Proof. by move=> g H; rewrite /= /= H orbT. Qed.

Lemma wfr_szg gs' r : wfr gs' r -> (0 < sz r)%N.
Proof.
case/orP=> [|]; first exact: nonsum_sz.
case: r => // d p /andP[/and5P[NE A _ _ C] _] /=; rewrite -sumn_dexp.
case: d NE A C => [|[k [|c]] d] //= _ /andP[/andP[N _] _] _.
by rewrite addn_gt0 (nonsum_sz N).
Qed.

Lemma dirmul_thm a b M : wfr gs1 a -> wfr gs2 b -> group_elem M ->
  exists r Da Db, [/\ mul gdim csize le a b = Ok r, wfr gs r,
    rho_dense a M = Ok (sz a, sz a, Da), rho_dense b M = Ok (sz b, sz b, Db) &
    rho_dense r M = Ok (sz a * sz b, sz a * sz b, kron2 (sz a) Da (sz b) Db)%N].
Proof.
move=> W1 W2 HM; have Wa := wfr_mono s1 W1; have Wb := wfr_mono s2 W2.
have [r E [H1 H2 H3]] := mul_dis Dis O (fun k Hk => arho_kok HM Hk) W1 W2.
exists r, (flat (rmat (arho M) a)), (flat (rmat (arho M) b)); split=> //; try exact: rok.
rewrite rok // H2 (flat_meq H3); congr (Ok (_, _)).
by apply: flat_meq; apply: meq_fkron; apply: meq_sym; apply: urm.
Qed.

Lemma dirdmul_thm a b M : wfr gs1 a -> wfr gs2 b -> lie_elem M ->
  exists r Da Db, [/\ mul gdim csize le a b = Ok r, wfr gs r,
    drho_dense a M = Ok (sz a, sz a, Da), drho_dense b M = Ok (sz b, sz b, Db) &
    drho_dense r M = Ok (sz a * sz b, sz a * sz b, kronsum2 (sz a) Da (sz b) Db)%N].
Proof.
move=> W1 W2 HM; have HA k Hk := @adrho_sqn R conj cdrho gdim csize gs M k HM Hk.
have Wa := wfr_mono s1 W1; have Wb := wfr_mono s2 W2.
have [r E [H1 H2 H3]] := mul_dis Dis O (ae_kok HA) W1 W2.
exists r, (flat (dmat (adrho M) a)), (flat (dmat (adrho M) b)); split=> //; try exact: drok.
rewrite drok // H2 (flat_meq (tr_mul HA Wa Wb H1 (wfr_szg Wb) H3)); congr (Ok (_, _)).
have sq x : wfr gs x -> fr (dmat (adrho M) x) = sz x /\ fc (dmat (adrho M) x) = sz x.
  by move=> W; have [] := dmat_sqn W HA.
have [a1 a2] := sq _ Wa; have [b1 b2] := sq _ Wb.
apply: flat_meq; apply: meq_fkronsum; rewrite ?a1 ?a2 ?b1 ?b2 //; apply: meq_sym; exact: udm.
Qed.
End Dir.

(** ** a dictionary of group elements acts on a representation of one group as its entry *)
Section Look.
Variable R : comRingType.
Variables (conj sinv : R -> R) (linv : nat -> seq R -> seq R).
Variables (crho cdrho : nat -> option gid -> gel R -> res (op R)).
Variables (gdim : gid -> nat) (csize : nat -> gid -> nat).
Variables (le : rel rep) (g : gid).
Local Notation wfr := (wfr gdim csize le (pred1 g)).
Local Notation group_elem := (group_elem conj sinv linv crho gdim csize (pred1 g)).

Lemma rho_entry M A r : group_elem M -> glook M (Some g) = Ok A -> wfr r ->
  rho_dense conj sinv linv crho r M = rho_dense conj sinv linv crho r (GMat A).
Proof.
move=> HM E W.
have HG : group_elem (GMat A).
  move=> h /eqP ->; exists A => //; have [A' E' [I H]] := HM g (eqxx _).
  move: E'; rewrite E => -[EA]; subst A'; split=> // c.
  by have [C E1 [E2 E3]] := H c; exists C => //; split.
rewrite !(@rho_dense_ok R conj sinv linv crho gdim csize le (pred1 g)) //.
congr (Ok (_, _)); apply: flat_meq; apply: (rmat_meq W) => k Ak.
split; first by have [h1 h2] := arho_kok HM Ak; move: h1 h2; case: (k) Ak.
rewrite /arho /atomf.
have -> : Rep.rho sinv linv crho k M = Rep.rho sinv linv crho k (GMat A); last exact: meq_refl.
case: k Ak => // [[h|]|c [h|]|[|[h|]|c [h|]|?|? ?|? ?|? ?|?|?]] //= /andP[/eqP -> _].
- by rewrite E.
- have [A' E' [I H]] := HM g (eqxx _); move: E'; rewrite E => -[EA]; subst A'.
  by have [C E1 [E2 E3]] := H c; rewrite E1 E2.
- by rewrite E.
have [A' E' [I H]] := HM g (eqxx _); move: E'; rewrite E => -[EA]; subst A'.
by have [C E1 [E2 E3]] := H c; rewrite E1 E2.
Qed.
End Look.
