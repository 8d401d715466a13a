(** * DataStd: Standardize. *)
From mathcomp Require Import all_ssreflect all_algebra.
From mathcomp Require Import zify.
From Verif Require Import Np NpLemmas Spec SpecLemmas LinOp LinOpSpec LinOpProofs LinOpInv Rep RepSpec RepWf RepCode RepMat RepProd RepAlg RepDist RepMul RepFun RepOps RhoProofs RepThm RepThm1.
From Verif Require Import RepExpr RepExprProofs RepDefer MxBridge GroupsSpec Nn NnSpec Data DataSpec DataAlg DataThm.
Set Implicit Arguments.
Unset Strict Implicit.
Unset Printing Implicit Defensive.
Import GRing.Theory.
Local Open Scope ring_scope.

Section Std.
Variable F : fieldType.
Variables (conj sinv : F -> F) (linv : nat -> seq F -> seq F).
Variables (crho : nat -> option gid -> gel F -> res (op F)).
Variables (gdim : gid -> nat) (csize : nat -> gid -> nat).
Local Notation sz := (rsize gdim csize).
Local Notation rho_dense := (rho_dense conj sinv linv crho).
Local Notation acts_rows := (acts_rows conj sinv linv crho gdim csize).
Variable E : gel F -> Prop.
Local Notation equivariant := (equivariant conj sinv linv crho gdim csize E).
Local Notation invariant_stat := (invariant_stat conj sinv linv crho gdim csize E).
Local Notation commuting_stat := (commuting_stat conj sinv linv crho gdim csize E).
Notation fdiv := (fun a b : F => a / b).

Lemma bcast_ok (op : F -> F -> F) bs n X s : stat_fits n s -> size X = (bs * n)%N ->
  exists2 Y, bcast op bs n X s = Ok Y & size Y = (bs * n)%N /\
    forall b i, (b < bs)%N -> (i < n)%N -> nth 0 Y (b * n + i)%N = op (nth 0 X (b * n + i)%N) (entry n s i).
Proof.
move=> Hs SX.
have L b i : (b < bs)%N -> (i < n)%N -> (b * n + i < size X)%N.
  by move=> Hb Hi; rewrite SX; move: (leq_mul Hb (leqnn n)); rewrite mulSn; lia.
case: s Hs => [c _|v] /=.
  exists [seq op x c | x <- X] => //; rewrite size_map; split=> // b i Hb Hi.
  by rewrite (nth_map 0) ?L.
case: eqP => [Ev _|_ /= Ev].
  eexists; first by []; rewrite size_mkseq; split=> // b i Hb Hi.
  by rewrite nth_mkseq ?L // modnMDl modn_small.
rewrite Ev; eexists; first by []; rewrite size_map; split=> // b i Hb Hi.
by rewrite (nth_map 0) ?L // nth0.
Qed.
(** Subtracting or adding an invariant vector *)
Lemma shift_equiv (f : F -> F -> F) r s : (forall a b, f a b = a - b) \/ (forall a b, f a b = a + b) ->
  invariant_stat r s -> equivariant r r (fun bs X => bcast f bs (sz r) X s).
Proof.
move=> Hf [Hs HI] bs Ms X X' HE [s1 s2 HA].
have [Y EY [sY HY]] := bcast_ok f Hs s1; have [Y' EY' [sY' HY']] := bcast_ok f Hs s2.
exists Y, Y'; split=> //; split=> // b Hb; have [D ED HD] := HA b Hb; exists D => // i Hi.
have [D' ED' HD'] := HI _ (HE b Hb); move: ED'; rewrite ED => -[ED']; subst D'.
rewrite HY' // HD // -[in LHS](HD' i Hi).
by case: Hf => Hf; rewrite Hf -?sumrB -?big_split /=; apply: eq_sum => j Hj; rewrite HY // Hf ?mulrBr ?mulrDr.
Qed.
(** Multiplying or dividing by scales that commute *)
Lemma scale_equiv (f : F -> F -> F) r s : (forall a b, f a b = a / b) \/ (forall a b, f a b = b * a) ->
  nonzero_stat (sz r) s -> commuting_stat r s -> equivariant r r (fun bs X => bcast f bs (sz r) X s).
Proof.
move=> Hf H0 [Hs HI] bs Ms X X' HE [s1 s2 HA].
have [Y EY [sY HY]] := bcast_ok f Hs s1; have [Y' EY' [sY' HY']] := bcast_ok f Hs s2.
exists Y, Y'; split=> //; split=> // b Hb; have [D ED HD] := HA b Hb; exists D => // i Hi.
have [D' ED' HD'] := HI _ (HE b Hb); move: ED'; rewrite ED => -[ED']; subst D'.
rewrite HY' // HD //; case: Hf => Hf; rewrite Hf ?mulr_suml ?mulr_sumr; apply: eq_sum => j Hj; rewrite HY // Hf.
  rewrite mulrAC [X in _ = X]mulrCA [X in _ = X]mulrC; congr (_ * _).
  by apply/eqP; rewrite eqr_div ?H0 // (HD' i j Hi Hj) mulrC.
by rewrite !mulrA (HD' i j Hi Hj).
Qed.
Lemma equiv_comp r1 r2 r3 f h : equivariant r1 r2 f -> equivariant r2 r3 h ->
  equivariant r1 r3 (fun bs X => do Y <- f bs X; h bs Y).
Proof.
move=> H1 H2 bs Ms X X' HE A; have [Y [Y' [e1 e2 A1]]] := H1 bs Ms X X' HE A.
by have [Z [Z' [e3 e4 A2]]] := H2 bs Ms Y Y' HE A1; exists Z, Z'; rewrite e1 e2.
Qed.
Theorem standardize_thm rin rout model muin sin muout sout training :
  equivariant rin rout (model training) ->
  invariant_stat rin muin -> commuting_stat rin sin -> nonzero_stat (sz rin) sin ->
  invariant_stat rout muout -> commuting_stat rout sout -> nonzero_stat (sz rout) sout ->
  equivariant rin rout (standardize2 fdiv model (sz rin) muin sin training) /\
  equivariant rin rout (standardize4 fdiv model (sz rin) (sz rout) (muin, sin, muout, sout) training).
Proof.
move=> HM h1 h2 h3 h4 h5 h6.
have T2 : equivariant rin rout (standardize2 fdiv model (sz rin) muin sin training).
  apply: equiv_comp (shift_equiv (or_introl (fun a b => erefl)) h1) _.
  by apply: equiv_comp HM; apply: scale_equiv => //; left.
split=> //; apply: equiv_comp T2 _.
apply: (@equiv_comp _ rout _ (fun bs y => bcast (fun a b => b * a) bs (sz rout) y sout)).
  by apply: scale_equiv => //; right.
by apply: shift_equiv => //; right.
Qed.
End Std.

(** ** The statistics of the data sets *)
Section Stats.
Variable F : fieldType.
Variables (conj sinv : F -> F) (linv : nat -> seq F -> seq F).
Variables (crho : nat -> option gid -> gel F -> res (op F)).
Variables (gdim : gid -> nat) (gorth : gid -> bool) (csize : nat -> gid -> nat) (le : rel rep) (g : gid).
Local Notation sz := (rsize gdim csize).
Local Notation rho_dense := (rho_dense conj sinv linv crho).
Local Notation group_elem := (group_elem conj sinv linv crho gdim csize (pred1 g)).
Local Notation orth_elem := (orth_elem crho gdim csize gorth (pred1 g)).
Local Notation wfr := (wfr gdim csize le (pred1 g)).
Local Notation rep_of := (rep_of gdim gorth csize le g).
Hypothesis O : total_order_on (key gdim csize le (pred1 g)) le.
Hypothesis G0 : (0 < gdim g)%N.
Hypothesis C0 : forall c, (0 < csize c g)%N.
Variable E : gel F -> Prop.
Hypothesis HE : forall M, E M -> group_elem M /\ orth_elem M.
Local Notation invariant_stat := (invariant_stat conj sinv linv crho gdim csize E).
Local Notation commuting_stat := (commuting_stat conj sinv linv crho gdim csize E).

Lemma zero_stat r : wfr r -> invariant_stat r (SNum 0).
Proof.
move=> W; split=> // M HM; exists (flat (rmat (arho sinv linv crho M) r)); first exact: rho_dense_ok (HE HM).1 W.
by move=> i Hi; rewrite sum0 // => j Hj; rewrite mulr0.
Qed.
Lemma num_stat r c : wfr r -> commuting_stat r (SNum c).
Proof.
move=> W; split=> // M HM; exists (flat (rmat (arho sinv linv crho M) r)); first exact: rho_dense_ok (HE HM).1 W.
by move=> i j _ _ /=; rewrite mulrC.
Qed.
Lemma scalar_inv c : invariant_stat RScalar (SVec [:: c]).
Proof. by split=> // M HM; exists [:: 1] => // -[] //= _; rewrite big_nat1 /= mul1r. Qed.
Lemma scalar_com c : commuting_stat RScalar (SVec [:: c]).
Proof. by split=> // M HM; exists [:: 1] => // -[|i] [|j] //= _ _; rewrite mulrC. Qed.

Lemma copies_off n k (A : fmat F) i j : fr A = n -> fc A = n -> (i < k * n)%N -> (j < k * n)%N -> (i %/ n)%N != (j %/ n)%N ->
  fe (fdsuml (nseq k A)) i j = 0.
Proof.
move=> a1 a2 Hi Hj N.
have n0 : (0 < n)%N by case: (n) Hi; rewrite ?muln0.
have -> : fe (fdsuml (nseq k A)) i j = act (fdsuml (nseq k A)) (fun t => (t == j)%:R) i.
  rewrite /act fc_copies a2 (sum_only (i := j)) //; first by rewrite eqxx mulr1.
  by move=> t _ /negbTE ->; rewrite mulr0.
rewrite {1}(divn_eq i n) (act_copies _ a1 a2) ?ltn_divLR ?ltn_mod //.
rewrite /act a2 sum0 // => b Hb; case: eqP => [E1|]; last by rewrite mulr0.
by case/eqP: N; rewrite -E1 divnMDl // (divn_small Hb) addn0.
Qed.
Lemma spread_stat n k r s : gdim g = n -> (0 < k)%N -> rep_of (EMul (EInt k) EV) r -> commuting_stat r (SVec (spread k n s)).
Proof.
case: k => // k Gn _ Hr.
have [r' Hr' [W Er]] := @rep_exists gdim gorth csize le g O G0 C0 (EMul (EInt k.+1) EV) _ erefl.
rewrite (rep_of_inj Hr' Hr) in W Er; rewrite (fr_copies k.+1 (fid int_comRing (gdim g))) /= Gn in Er.
split; first by rewrite /= size_mkseq Er eqxx.
move=> M HM; have [GM OM] := HE HM; have [A EA [[GA _] _]] := GM g (eqxx g); have [d1 d2] := gop_sz GA.
have := rep_rho O G0 C0 Hr GM OM (erefl : espec _ _ (EMul (EInt k.+1) EV) = Some (SMat (fdsuml (nseq k.+1 _)))).
rewrite (arho_V _ _ _ EA); set X := fdsuml _ => R1.
have X1 : fr X = (k.+1 * n)%N by rewrite fr_copies d1 Gn.
have X2 : fc X = (k.+1 * n)%N by rewrite fc_copies d2 Gn.
rewrite X1 X2 in R1; rewrite Er; exists (flat X) => // i j Hi Hj; rewrite -X2 nth_flat ?X1 ?X2 //.
rewrite /entry size_mkseq eqxx !nth_mkseq //; case: (eqVneq (i %/ n)%N (j %/ n)%N) => [->|N]; first by rewrite mulrC.
by rewrite (copies_off (n := n)) ?d1 ?d2 // ?mulr0 ?mul0r.
Qed.

Theorem inertia_stats_thm rin rout mi si mo so : wfr rin -> wfr rout -> (mi, si, mo, so) = inertia_stats F ->
  [/\ invariant_stat rin mi, commuting_stat rin si, invariant_stat rout mo & commuting_stat rout so] /\
  (nonzero_stat (sz rin) si /\ nonzero_stat (sz rout) so).
Proof.
move=> W1 W2 [-> -> -> ->]; split; last by split=> i _; exact: oner_neq0.
by split; [exact: zero_stat|exact: num_stat|exact: zero_stat|exact: num_stat].
Qed.
Theorem o5_stats_thm sqrt divn N X Y rin mi si mo so : gdim g = 5%N -> rep_of o5_in rin -> wfr rin ->
  o5_stats sqrt divn N X Y = Ok (mi, si, mo, so) ->
  [/\ invariant_stat rin mi, commuting_stat rin si, invariant_stat RScalar mo & commuting_stat RScalar so].
Proof.
move=> G5 Hr W; rewrite /o5_stats /o5_scale; case: eqP => //= _ [<- <- <- <-].
by split; [exact: zero_stat|exact: spread_stat|exact: scalar_inv|exact: scalar_com].
Qed.
Theorem particle_stats_thm sqrt abs divn N X Y rin mi si mo so : gdim g = 4%N -> rep_of particle_in rin -> wfr rin ->
  particle_stats sqrt abs divn N X Y = (mi, si, mo, so) ->
  [/\ invariant_stat rin mi, commuting_stat rin si, invariant_stat RScalar mo & commuting_stat RScalar so].
Proof.
move=> G4 Hr W [<- <- <- <-].
by split; [exact: zero_stat|exact: spread_stat|exact: scalar_inv|exact: scalar_com].
Qed.
Lemma rep_of_wfr e r X : espec (fun l => fid int_comRing (sz (leafrep (Some g) l))) (fun l => fid _ (sz (ta gorth (leafrep (Some g) l)))) e = Some (SMat X) ->
  rep_of e r -> wfr r.
Proof. by move=> Ex Hr; have [r' Hr' [W _]] := rep_exists O G0 C0 Ex; rewrite -(rep_of_inj Hr' Hr). Qed.
End Stats.
