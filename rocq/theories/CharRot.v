(** * CharRot: the numbers of invariant tensors of C(k), D(k), Parity and TimeReversal. *)
From Coq Require Import Reals Lra String.
From mathcomp Require Import all_ssreflect all_algebra.
From mathcomp Require Import zify.
From Verif Require Import Np NpLemmas Spec SpecLemmas LinOp LinOpSpec LinOpInv MxBridge Rep RepSpec RepWf RepExpr Solver SolSpec Rstruct Expm GrpSpec.
From Verif Require Import Groups GroupsSpec GroupsSpecR GroupsInit GroupsCtor GroupsThm GroupsFlag GroupsReal GroupsTol ExactSpec GroupsExact GroupsExactD GroupsExactE.
From Verif Require Import Nn NnSpec NnThm Data DataSpec DataGroups DimTenSpec DimGrp DimTen CharSpec CharThm CharTen CharTrig.
Set Implicit Arguments.
Unset Strict Implicit.
Unset Printing Implicit Defensive.
Import GRing.Theory.
Local Open Scope ring_scope.

Lemma nat_inj a b : (a%:R : RR) = b%:R -> a = b.
Proof. by rewrite !natE => /INR_eq. Qed.
(** a list of matrices enumerates the matrices equal to one of them *)
Lemma enum_map (T : eqType) d (f : T -> fmat RR) (s : seq T) (P : fmat RR -> Prop) :
  uniq s -> (forall a, fr (f a) = d) -> (forall a, fc (f a) = d) ->
  {in s &, forall a b, meq (f a) (f b) -> a = b} -> (forall X, P X <-> exists2 a, a \in s & meq X (f a)) ->
  enumerates d P [seq flat (f a) | a <- s].
Proof.
move=> Us f1 f2 Inj HP; split.
  rewrite map_inj_in_uniq // => a b Ha Hb E; apply: Inj => //.
  by apply: (flat_injd (d := d)); rewrite ?f1 ?f2.
move=> D; split=> [/mapP[a Ha ->]|[SD /HP[a Ha E]]].
  split; first by rewrite size_flat f1 f2.
  by apply/HP; exists a => //; rewrite -{1}(f1 a) -{1}(f2 a); exact: unflat_flat.
by apply/mapP; exists a => //; rewrite -(flat_meq E) flat_unflat.
Qed.
Lemma trace_flat d A : fr A = d -> fc A = d -> trace d (flat A) = ftrace A.
Proof. by move=> a1 a2; rewrite /trace /ftrace a1; apply: eq_sum => i Hi; rewrite -{1}a2 nth_flat ?a1 ?a2. Qed.
Lemma tr_rot t : ftrace (rot t) = 2%:R * cR t.
Proof. by rewrite /ftrace !(big_nat_recr, big_nil) //= add0r mulr_natl mulr2n. Qed.
Lemma tr_ref t : ftrace (ref t) = 0.
Proof. by rewrite /ftrace !(big_nat_recr, big_nil) //= add0r addNr. Qed.
Lemma iso_rot t X : meq X (rot t) -> isometry (fid RR 2) X.
Proof.
move=> E; have [x1 x2 _] := E; apply: meq_trans (_ : meq _ (fmul (rot (Ropp t)) (rot t))) _.
  apply: meq_fmul; last by rewrite /= x1.
    by apply: meq_trans (meq_ftr E) _; apply: meq22 => //=; rewrite ?cos_neg ?sin_neg ?oppE ?Ropp_involutive.
  by apply: meq_trans E; apply: fmul_id_l; rewrite x1.
by apply: meq_trans (rot_mul _ _) _; rewrite Rplus_opp_l; exact: meq_sym rot0.
Qed.
Lemma iso_ref t X : meq X (ref t) -> isometry (fid RR 2) X.
Proof.
move=> E; have [x1 x2 _] := E; apply: meq_trans (_ : meq _ (fmul (ref t) (ref t))) _.
  apply: meq_fmul; last by rewrite /= x1.
    by apply: meq_trans (meq_ftr E) _; apply: meq22.
  by apply: meq_trans E; apply: fmul_id_l; rewrite x1.
by apply: meq_trans (ref_mul _ _) _; rewrite Rplus_opp_l; exact: meq_sym rot0.
Qed.
Section K.
Variable k : nat.
Hypothesis k0 : (0 < k)%N.
Local Notation an j := (Rmult (INR j) (Rdiv (Rmult 2 PI) (INR k))).
Lemma cs_inj i j : (i <= j)%N -> (j < k)%N -> cos (an i) = cos (an j) -> sin (an i) = sin (an j) -> i = j.
Proof.
move=> ij jk Ec Es; case: (posnP (j - i)) => [|r0]; first by lia.
have rk : (j - i < k)%N by lia.
have := sin_half k0 r0 rk; set h := Rdiv _ 2 => H; exfalso.
have E : cos (Rminus (an j) (an i)) = R1.
  by rewrite cos_minus Ec Es; have := sin2_cos2 (an j); rewrite /Rsqr; lra.
have Eh : Rminus (an j) (an i) = Rplus h h.
  by rewrite /h /th minus_INR; [field; exact: INRk | lia].
move: E; rewrite Eh cos_plus; have := sin2_cos2 h; rewrite /Rsqr => E1 E2; nra.
Qed.
Lemma rot_ents a b : meq (rot a) (rot b) -> cos a = cos b /\ sin a = sin b.
Proof. by case=> _ _ H; have := H 0%N 0%N isT isT; have := H 0%N 1%N isT isT. Qed.
Lemma ref_ents a b : meq (ref a) (ref b) -> cos a = cos b /\ sin a = sin b.
Proof.
case=> _ _ H; have := H 1%N 1%N isT isT; have := H 0%N 1%N isT isT => /= E -> /=; split=> //.
by apply: oppr_inj.
Qed.
Lemma rot_not_ref a b : meq (rot a) (ref b) -> False.
Proof.
case=> _ _ H; have E1 : cos a = Ropp (cos b) := H 0%N 0%N isT isT; have E2 : cos a = cos b := H 1%N 1%N isT isT.
have E3 : sin a = Ropp (sin b) := H 0%N 1%N isT isT; have E4 : Ropp (sin a) = Ropp (sin b) := H 1%N 0%N isT isT.
have := sin2_cos2 a; rewrite /Rsqr => E; have c0 : cos a = R0 by lra.
have s0 : sin a = R0 by lra.
by move: E; rewrite c0 s0; lra.
Qed.
Lemma cs_inj' i j : (i < k)%N -> (j < k)%N -> cos (an i) = cos (an j) -> sin (an i) = sin (an j) -> i = j.
Proof.
move=> ik jk Ec Es; have [L|L] := leqP i j; first exact: cs_inj.
by apply: esym; apply: cs_inj => //; exact: ltnW.
Qed.
Lemma enum_c : enumerates 2 (fun X => exists2 j, (j < k)%N & meq X (rot (an j))) [seq flat (rot (an j)) | j <- iota 0 k].
Proof.
apply: (enum_map (iota_uniq 0 k)) => // [a b|X].
  by rewrite !mem_iota /= add0n => Ha Hb /rot_ents[]; exact: cs_inj'.
by split=> -[j Hj E]; exists j => //; rewrite ?mem_iota // in Hj *.
Qed.
Definition dmat (a : bool * nat) : fmat RR := if a.1 then ref (an a.2) else rot (an a.2).
Definition dset : seq (bool * nat) := [seq (false, j) | j <- iota 0 k] ++ [seq (true, j) | j <- iota 0 k].
Lemma in_dset b j : ((b, j) \in dset) = (j < k)%N.
Proof.
rewrite mem_cat; apply/orP/idP => [[] /mapP[i]|Hj]; rewrite ?mem_iota; try by move=> Hi [_ ->]; rewrite add0n in Hi.
by case: b; [right|left]; apply/mapP; exists j; rewrite ?mem_iota.
Qed.
Lemma enum_d : enumerates 2 (fun X => exists2 j, (j < k)%N & meq X (rot (an j)) \/ meq X (ref (an j))) [seq flat (dmat a) | a <- dset].
Proof.
apply: enum_map.
- rewrite cat_uniq !map_inj_uniq ?iota_uniq /= => [|a b []|a b []] //; rewrite andbT.
  by apply/hasPn => a /mapP[i _ ->]; apply/mapP => -[].
- by case=> [[]].
- by case=> [[]].
- move=> [b i] [c j]; rewrite !in_dset /dmat /= => Hi Hj; case: b; case: c => /=.
  + by move/ref_ents=> [Ec Es]; rewrite (cs_inj' Hi Hj).
  + by move/meq_sym/rot_not_ref.
  + by move/rot_not_ref.
  by move/rot_ents=> [Ec Es]; rewrite (cs_inj' Hi Hj).
move=> X; split=> [[j Hj [E|E]]|[[[] j]]].
- by exists (false, j); rewrite ?in_dset.
- by exists (true, j); rewrite ?in_dset.
- by rewrite in_dset => Hj E; exists j => //; right.
by rewrite in_dset => Hj E; exists j => //; left.
Qed.
End K.

Lemma diag4 (J : fmat RR) : fr J = 4%N -> fc J = 4%N -> (forall i j, (i < 4)%N -> (j < 4)%N -> i != j -> fe J i j = 0) ->
  (forall i, (i < 4)%N -> fe J i i * fe J i i = 1) -> isometry (fid RR 4) J.
Proof.
move=> j1 j2 H0 H1; rewrite /isometry; apply: meq_trans (_ : meq _ (fmul (ftr J) J)) _.
  by apply: meq_fmul => //; apply: fmul_id_l; rewrite j1.
split=> //= i j; rewrite j1 j2 => Hi Hj; rewrite (sum_only (i := i)) // => [|l Hl li]; last by rewrite H0 ?mul0r.
by case: eqP => [<-|/eqP ne]; [exact: H1 | rewrite (H0 i j) ?mulr0].
Qed.
Lemma neq1 : (1 : RR) <> -1.
Proof. by change (R1 <> Ropp R1); lra. Qed.
Lemma iso_mink : isometry (fid RR 4) (minkowski RR 4).
Proof.
apply: diag4 => // [i j _ _ /negbTE ne|i _] /=; first by rewrite ?ne.
by rewrite eqxx; case: i => [|i] /=; rewrite ?mulrNN ?mulr1.
Qed.
Lemma iso_mink_opp : isometry (fid RR 4) (fopp (minkowski RR 4)).
Proof.
apply: diag4 => // [i j _ _ /negbTE ne|i _] /=; first by rewrite ?ne ?oppr0.
by rewrite eqxx; case: i => [|i] /=; rewrite ?mulrNN ?mulr1.
Qed.
Lemma mink_not : ~ meq (fid RR 4) (minkowski RR 4).
Proof. by case=> _ _ /(_ 1%N 1%N isT isT) /=; exact: neq1. Qed.
Lemma mink_opp_not : ~ meq (fid RR 4) (fopp (minkowski RR 4)).
Proof. by case=> _ _ /(_ 0%N 0%N isT isT) /=; exact: neq1. Qed.

Section Main.
Variable close : seq RR -> seq RR -> bool.
Variables (sinv : RR -> RR) (linv : nat -> seq RR -> seq RR).
Variables (crho cdrho : nat -> option gid -> gel RR -> res (op RR)).
Variables (gdim : gid -> nat) (csize : nat -> gid -> nat) (le : rel rep) (g : gid).
Variable G : gid -> group RR.
Variables (svd : nat -> nat -> seq RR -> seq RR * seq RR * seq RR) (big : pred RR).
Variable krylov : op RR -> res (darr RR).
Local Notation sz := (rsize gdim csize).
Local Notation gorth := (fun h => g_orth (G h)).
Local Notation rep_of := (rep_of gdim gorth csize le g).
Local Notation basis := (basis idR sinv linv crho cdrho gdim csize le (the_gens G) (the_lies G) svd big krylov).
Hypothesis HS : setting sinv linv crho cdrho gdim csize le g G svd big krylov.
Local Notation spanned p q d k P := (exists r Q, [/\ rep_of (T_expr p q) r, sz r = (d ^ (p + q))%N, returns (basis r) (d ^ (p + q)) k Q &
  spans (d ^ (p + q)) k Q (fun v => forall A, fr A = d%N -> fc A = d%N -> P A -> fixes (d ^ (p + q)) (fkronl (nseq (p + q) A)) v)]).
Local Notation dims p q d k := (exists r Q, [/\ rep_of (T_expr p q) r, sz r = (d ^ (p + q))%N & returns (basis r) (d ^ (p + q)) k Q]).

Lemma span_c k p q : (0 < k)%N -> g_c idR cosR sinR close k = Ok (G g) -> gdim g = 2%N -> spanned p q 2 (balanced k (p + q)) (fun X => exists2 j, (j < k)%N & meq X (rot (Rmult (INR j) (Rdiv (Rmult 2 PI) (INR k))))).
Proof.
move=> k0 EG Ed.
have HB : basic_group 2 (G g) by apply: built_basic (c_ok idR cosR sinR close k0) EG _ _; [eexists | exact: arr_items].
have [|r [m [Q [h1 h2 h3 [h4 h5]]]]] := tensors_count HS p q (exact_c idR close k0) EG Ed isT HB _ (enum_c k0).
  by move=> A _ _ [j _ E]; exact: iso_rot E.
suff E : m = balanced k (p + q) by exists r, Q; rewrite -E.
have e : (k * m)%:R = (k * balanced k (p + q))%:R :> RR.
  rewrite !natrM -(chars_c (p + q) k0); move: h4; rewrite size_map size_iota => ->.
  rewrite big_map /index_iota subn0; apply: eq_bigr => j _.
  by rewrite trace_flat // tr_rot.
by move/nat_inj/eqP: e; rewrite eqn_pmul2l // => /eqP.
Qed.
Theorem dim_c k p q : (0 < k)%N -> g_c idR cosR sinR close k = Ok (G g) -> gdim g = 2%N -> dims p q 2 (balanced k (p + q)).
Proof. by move=> k0 EG Ed; have [r [Q [h1 h2 h3 _]]] := span_c p q k0 EG Ed; exists r, Q. Qed.
Lemma span_d k p q : (0 < k)%N -> (0 < p + q)%N -> g_dihedral idR cosR sinR close k = Ok (G g) -> gdim g = 2%N ->
  spanned p q 2 (balanced k (p + q))./2 (fun X => exists2 j, (j < k)%N & meq X (rot (Rmult (INR j) (Rdiv (Rmult 2 PI) (INR k)))) \/ meq X (ref (Rmult (INR j) (Rdiv (Rmult 2 PI) (INR k))))).
Proof.
move=> k0 n0 EG Ed.
have HB : basic_group 2 (G g) by apply: built_basic (d_ok idR cosR sinR close k0) EG _ _; [eexists | exact: arr_items].
have [|r [m [Q [h1 h2 h3 [h4 h5]]]]] := tensors_count HS p q (exact_d idR close k0) EG Ed isT HB _ (enum_d k0).
  by move=> A _ _ [j _ [E|E]]; [exact: iso_rot E | exact: iso_ref E].
suff E : (2 * m = balanced k (p + q))%N by exists r, Q; rewrite -E mul2n doubleK.
have e : (k * (2 * m))%:R = (k * balanced k (p + q))%:R :> RR.
  rewrite [RHS]natrM -(chars_c (p + q) k0) mulnCA mulnA [LHS]natrM; move: h4.
  have -> : size [seq flat (dmat k a) | a <- dset k] = (2 * k)%N by rewrite size_map size_cat !size_map !size_iota mul2n addnn.
  move=> ->; rewrite big_map big_cat !big_map /= [X in _ + X]big1 ?addr0 => [|j _]; last first.
    by rewrite trace_flat // tr_ref expr0n; case: (p + q)%N n0.
  rewrite /index_iota subn0; apply: eq_bigr => j _.
  by rewrite trace_flat // tr_rot.
by move/nat_inj/eqP: e; rewrite eqn_pmul2l // => /eqP.
Qed.
Theorem dim_d k p q : (0 < k)%N -> (0 < p + q)%N -> g_dihedral idR cosR sinR close k = Ok (G g) -> gdim g = 2%N ->
  dims p q 2 (balanced k (p + q))./2.
Proof. by move=> k0 n0 EG Ed; have [r [Q [h1 h2 h3 _]]] := span_d k0 n0 EG Ed; exists r, Q. Qed.

(** groups of two diagonal matrices *)
Lemma two_count x d J p q : exact_group x d (fun X => meq X (fid RR d) \/ meq X J) -> x = Ok (G g) -> gdim g = d -> (0 < d)%N ->
  basic_group d (G g) -> fr J = d -> fc J = d -> isometry (fid RR d) J -> ~ meq (fid RR d) J ->
  exists r k Q, [/\ rep_of (T_expr p q) r, sz r = (d ^ (p + q))%N, returns (basis r) (d ^ (p + q)) k Q &
    (2 * k)%:R = (d%:R : RR) ^+ (p + q) + ftrace J ^+ (p + q)].
Proof.
move=> HX EG Ed d0 HB j1 j2 IJ NJ.
have HI A : fr A = d -> fc A = d -> meq A (fid RR d) \/ meq A J -> isometry (fid RR d) A.
  move=> a1 a2 [E|E]; rewrite /isometry.
    apply: meq_trans (fmul_id_l (A := fid RR d) erefl); apply: meq_fmul; rewrite /= ?a1 //.
      by apply: meq_trans (meq_ftr E) _; split=> //= i j _ _; rewrite eq_sym.
    by apply: meq_trans (fmul_id_l (A := fid RR d) erefl); apply: meq_fmul.
  by apply: meq_trans IJ; apply: meq_fmul; [exact: meq_ftr | apply: meq_fmul | rewrite /= a1].
pose f b := if b then J else fid RR d.
have HE : enumerates d (fun X => meq X (fid RR d) \/ meq X J) [seq flat (f b) | b <- [:: false; true]].
  apply: enum_map => //; try by case.
    by move=> [] [] // _ _ /= /meq_sym.
  move=> X; split=> [[E|E]|[[] _ E]]; [by exists false | by exists true | by right | by left].
have [r [m [Q [h1 h2 h3 [h4 h5]]]]] := tensors_count HS p q HX EG Ed d0 HB HI HE.
exists r, m, Q; split=> //; rewrite natrM h4 /= !big_cons big_nil addr0 !trace_flat //; congr (_ ^+ _ + _).
by rewrite /ftrace /= (eq_sum (g := fun=> 1)) => [|i _]; rewrite ?eqxx // big_const_nat subn0 iter_addr_0.
Qed.
Lemma tr_mink : ftrace (minkowski RR 4) = - 2%:R.
Proof. rewrite /ftrace !(big_nat_recr, big_nil) //= add0r; rewrite addrN add0r -mulNrn mulr2n //. Qed.
Lemma tr_mink_opp : ftrace (fopp (minkowski RR 4)) = 2%:R.
Proof. rewrite /ftrace !(big_nat_recr, big_nil) //= add0r ?opprK addNr add0r mulr2n //. Qed.

Theorem dim_parity p q : g_parity idR close = Ok (G g) -> gdim g = 4%N ->
  dims p q 4 (if odd (p + q) then (4 ^ (p + q) - 2 ^ (p + q))./2 else (4 ^ (p + q) + 2 ^ (p + q))./2)%N.
Proof.
move=> EG Ed; have [h _ B] := parity_ok idR close.
have HB : basic_group 4 (G g) by apply: built_basic B EG _ _; [eexists | exact: arr_items].
have [r [m [Q [h1 h2 h3 h4]]]] := two_count p q (exact_parity idR close) EG Ed isT HB erefl erefl iso_mink mink_not.
set n := (p + q)%N in h1 h2 h3 h4 *.
suff E : (2 * m + (if odd n then 2 ^ n else 0) = 4 ^ n + (if odd n then 0 else 2 ^ n))%N.
  exists r, Q; suff <- : m = (if odd n then (4 ^ n - 2 ^ n)./2 else (4 ^ n + 2 ^ n)./2)%N by [].
  case: (odd n) E; rewrite ?addn0 => E; first by rewrite -E addnK mul2n doubleK.
  by rewrite -E mul2n doubleK.
apply: nat_inj; rewrite [LHS]natrD [RHS]natrD h4 tr_mink exprNn natrX -signr_odd.
by case: (odd n); rewrite /= ?expr1 ?expr0 ?mulN1r ?mul1r ?mulr0n ?addr0 ?natrX // -addrA addNr addr0.
Qed.
Theorem dim_time p q : g_time idR close = Ok (G g) -> gdim g = 4%N -> dims p q 4 (4 ^ (p + q) + 2 ^ (p + q))./2.
Proof.
move=> EG Ed; have [h _ B] := time_ok idR close.
have HB : basic_group 4 (G g) by apply: built_basic B EG _ _; [eexists | exact: arr_items].
have [r [m [Q [h1 h2 h3 h4]]]] := two_count p q (exact_time idR close) EG Ed isT HB erefl erefl iso_mink_opp mink_opp_not.
suff E : (2 * m = 4 ^ (p + q) + 2 ^ (p + q))%N by exists r, Q; rewrite -E mul2n doubleK.
by apply: nat_inj; rewrite h4 tr_mink_opp natrD !natrX.
Qed.
End Main.
