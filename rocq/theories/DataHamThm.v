(** * DataHamThm: the Hamiltonian field of an invariant function on an even number of copies of V
    is equivariant under orthogonal groups. *)
From Coq Require Import Reals.
From mathcomp Require Import all_ssreflect all_algebra.
From mathcomp Require Import zify.
From Verif Require Import Np NpLemmas Spec SpecLemmas LinOp LinOpSpec LinOpProofs LinOpInv Rep RepSpec RepWf RepAlg RepFun RhoProofs RepExpr Rstruct Expm GrpSpec.
From Verif Require Import GroupsSpec Nn NnSpec Data DataSpec DataAlg DataThm DataHamSpec DataHam.
Set Implicit Arguments.
Unset Strict Implicit.
Unset Printing Implicit Defensive.
Import GRing.Theory.
Local Open Scope ring_scope.

Section Mat.
Variable R : comRingType.
Implicit Types (A D X : fmat R).
Definition orth1 (n : nat) D := [/\ fr D = n, fc D = n & meq (fmul (ftr D) D) (fid R n)].
Lemma iso_orth1 n A : fr A = n -> fc A = n -> isometry (fid R n) A -> orth1 n A.
Proof.
move=> a1 a2 I; split=> //; apply: meq_trans I; apply: meq_fmul => //.
by apply: meq_sym; rewrite -{1}a1; exact: fmul_id_l.
Qed.
Lemma orth1_sum m n A D : orth1 m A -> orth1 n D -> orth1 (m + n) (fdsum A D).
Proof.
move=> [a1 a2 HA] [d1 d2 HD]; split; rewrite /= ?a1 ?a2 ?d1 ?d2 //.
apply: meq_trans (meq_fmul (ftr_fdsum A D) (meq_refl _) _) _; first by rewrite /= a1 d1.
apply: meq_trans (fmul_fdsum _ _) _ => //.
by apply: meq_trans (fdsum_id R m n); apply: meq_fdsum.
Qed.
Lemma orth1_copies k n A : orth1 n A -> orth1 (k * n) (fdsuml (nseq k A)).
Proof. by move=> HA; elim: k => [|k IH]; [split=> //; split | rewrite mulSn; exact: orth1_sum]. Qed.
Lemma sympl_sum p D : orth1 p D -> isometry (sympl R p) (fdsum D D).
Proof.
move=> [d1 d2 [_ _ H]]; split=> /=; rewrite ?d2; try lia.
move=> i j Hi Hj; rewrite d1.
have HD a b : (a < p)%N -> (b < p)%N -> \sum_(0 <= k < p) fe D k a * fe D k b = (a == b)%:R.
  by move=> Ha Hb; have := H a b; rewrite /= d2 d1 => ->.
pose X a k : R := fe (fdsum D D) a k.
have E a : (a < p + p)%N -> \sum_(0 <= k < 2 * p) (if k == (p + a)%N then 1 else if a == (p + k)%N then -1 else 0) * X k j =
    if (a < p)%N then X (p + a)%N j else - X (a - p)%N j.
  move=> Ha; case: ltnP => Hp.
    rewrite (sum_only (i := (p + a)%N)) ?eqxx ?mul1r //; first by lia.
    by move=> k Hk /negbTE ->; case: eqP => [|_]; [lia | rewrite mul0r].
  rewrite (sum_only (i := (a - p)%N)) ?subnKC ?eqxx //; [|by lia|].
    by case: eqP => [|_]; [lia | rewrite mulN1r].
  by move=> k Hk ne; case: eqP => [|_]; [lia|]; case: eqP => [e|_]; [case/eqP: ne; lia | rewrite mul0r].
transitivity (\sum_(0 <= a < p + p) X a i * (if (a < p)%N then X (p + a)%N j else - X (a - p)%N j)).
  by apply: eq_sum => a Ha; rewrite -(E a Ha) /X /= d1 d2.
rewrite sum_add.
transitivity (\sum_(0 <= a < p) X a i * X (p + a)%N j - \sum_(0 <= a < p) X (p + a)%N i * X a j).
  rewrite -sumrN; congr (_ + _); apply: eq_sum => a Ha; first by rewrite Ha.
  by rewrite ltnNge leq_addr /= addKn mulrN.
have X1 a k : (a < p)%N -> X a k = if (k < p)%N then fe D a k else 0 by move=> Ha; rewrite /X /= d1 d2 Ha.
have X2 a k : X (p + a)%N k = if (k < p)%N then 0 else fe D a (k - p) by rewrite /X /= d1 d2 ltnNge leq_addr /= addKn.
rewrite (eq_sum (g := fun a => (if (i < p)%N then fe D a i else 0) * (if (j < p)%N then 0 else fe D a (j - p)))) => [|a Ha]; last by rewrite X1 // X2.
rewrite [Y in _ - Y](eq_sum (g := fun a => (if (i < p)%N then 0 else fe D a (i - p)) * (if (j < p)%N then fe D a j else 0))) => [|a Ha]; last by rewrite X2 X1.
case: (ltnP i p) => Hip; case: (ltnP j p) => Hjp.
- rewrite !sum0 => [|a _|a _]; rewrite ?mulr0 ?mul0r // subr0; case: eqP => [|_]; [lia|]; by case: eqP => [|_]; [lia|].
- rewrite HD //; last by lia.
  rewrite sum0 => [|a _]; last by rewrite mul0r.
  rewrite subr0; case: eqP => [e|ne].
    by have -> : (j == (p + i)%N) = true by lia.
  have /negbTE -> : j != (p + i)%N by lia.
  by case: eqP => [|_]; [lia|].
- rewrite sum0 ?sub0r => [|a _]; last by rewrite mul0r.
  rewrite HD //; last by lia.
  have /negbTE -> : j != (p + i)%N by lia.
  case: eqP => [e|ne]; first by have -> : (i == (p + j)%N) = true by lia.
  have /negbTE -> : i != (p + j)%N by lia.
  by rewrite oppr0.
rewrite !sum0 => [|a _|a _]; rewrite ?mulr0 ?mul0r // subr0; case: eqP => [|_]; [lia|]; by case: eqP => [|_]; [lia|].
Qed.
End Mat.

Section Main.
Variables (sinv : RR -> RR) (linv : nat -> seq RR -> seq RR).
Variables (crho : nat -> option gid -> gel RR -> res (op RR)).
Variables (gdim : gid -> nat) (gorth : gid -> bool) (csize : nat -> gid -> nat) (le : rel rep) (g : gid).
Local Notation sz := (rsize gdim csize).
Local Notation rep_of := (rep_of gdim gorth csize le g).
Local Notation equivariant := (equivariant idR sinv linv crho gdim csize).
Local Notation isometries := (isometries idR sinv linv crho gdim gorth csize g).
Hypothesis O : total_order_on (key gdim csize le (pred1 g)) le.
Hypothesis G0 : (0 < gdim g)%N.
Hypothesis C0 : forall c, (0 < csize c g)%N.
Variable E : gel RR -> Prop.

Lemma iso_meq (J A B : fmat RR) n : fr J = n -> fc J = n -> fr A = n -> meq A B -> isometry J B -> isometry J A.
Proof.
move=> j1 j2 a1 H I; apply: meq_trans I; have [e1 _ _] := H; apply: meq_fmul; first exact: meq_ftr.
  by apply: meq_fmul => //; rewrite j2.
by rewrite /= j1.
Qed.
Lemma scalar_row M (Y Y' : seq RR) : acts_rows idR sinv linv crho gdim csize RScalar (fun=> M) 1 Y Y' -> Y' = Y.
Proof.
case=> s1 s2 H; have [D] := H 0%N isT; rewrite /rho_dense /= => -[<-] /(_ 0%N isT); rewrite big_nat1 /= mul1r.
by case: Y Y' s1 s2 {H} => [|y []] // [|y' []] //= _ _ ->.
Qed.
Lemma scalar_rows bs Ms (Y Y' : seq RR) : acts_rows idR sinv linv crho gdim csize RScalar Ms bs Y Y' -> Y' = Y.
Proof.
case=> s1 s2 H; apply: (@eq_from_nth _ 0); first by rewrite s1 s2.
move=> i; rewrite s2 muln1 => Hi; have [D] := H i Hi; rewrite /rho_dense /= => -[<-] /(_ 0%N isT).
by rewrite big_nat1 /= mul1r !muln1 !addn0.
Qed.
Local Notation acts1 := (acts1 idR sinv linv crho gdim csize).
(** a function whose values do not change when an element of E acts on its argument *)
Definition inv_on rin (H : seq RR -> RR) := forall M z z', E M -> acts1 rin M z z' -> H z' = H z.
Lemma inv_of rin f H : equivariant E rin RScalar f -> (forall z, size z = sz rin -> f 1%N z = Ok [:: H z]) -> inv_on rin H.
Proof.
move=> Hf HH M z z' HM T; have [S1 S2 _] := T; rewrite mul1n in S1; rewrite mul1n in S2.
have [Y [Y' [e1 e2 /scalar_row e3]]] := Hf 1%N (fun=> M) z z' (fun _ _ => HM) T.
by move: e1 e2; rewrite !HH // e3 => -[<-] [->].
Qed.
Definition field_ok rin H gr := forall M z z', E M -> acts1 rin M z z' -> gradient_at (sz rin) H z (gr z) ->
  gradient_at (sz rin) H z' (gr z') ->
  exists w w', [/\ hamiltonian_dynamics gr z = Ok w, hamiltonian_dynamics gr z' = Ok w' & acts1 rin M w w'].
Lemma acts_takes ein (Fi : forall S : comRingType, fmat S -> fmat S) m n rin :
  gdim g = n -> isometries (fid RR n) E ->
  (forall S A B, @espec S A B ein = Some (SMat (Fi S (A None)))) ->
  (forall S A, fr A = n -> fc A = n -> meq (Fi S A) (fdsuml (nseq (2 * m) A))) -> rep_of ein rin ->
  sz rin = (2 * (m * n))%N /\ forall M, E M -> exists D, [/\ fr D = (2 * (m * n))%N, fc D = (2 * (m * n))%N,
    isometry (sympl RR (m * n)) D, orth1 (2 * (m * n)) D & forall y y', acts1 rin M y y' <-> takes (2 * (m * n)) D y y'].
Proof.
move=> Gn HI ei eF Ri.
have [r0 Ri0 [_ zi]] := @rep_exists gdim gorth csize le g O G0 C0 ein _ (ei _ _ _).
have {Ri0} zi : sz rin = fr (Fi int_comRing (fid int_comRing (gdim g))) by rewrite (rep_of_inj Ri Ri0).
have SF (S : comRingType) (A : fmat S) : fr A = n -> fc A = n -> fr (Fi S A) = (2 * (m * n))%N /\ fc (Fi S A) = (2 * (m * n))%N.
  by move=> a1 a2; have [-> -> _] := eF S A a1 a2; rewrite fr_copies fc_copies a1 a2 mulnA.
have {}zi : sz rin = (2 * (m * n))%N by rewrite zi; apply: (proj1 (SF _ _ _ _)).
split=> // M HM.
have [GM OM IM] := HI M HM; have [A EA [[GA _] _]] := GM g (eqxx g); have [d1 d2] := gop_sz GA.
rewrite Gn in d1 d2; have IA := IM A EA.
have ri := rep_rho O G0 C0 Ri GM OM (ei _ _ _); rewrite (arho_V _ _ _ EA) in ri.
have [f1 f2] := SF _ _ d1 d2.
have ho := orth1_copies m (iso_orth1 d1 d2 IA); have [h1 h2 _] := ho.
exists (Fi RR (den A)); split=> //.
- apply: (iso_meq (n := 2 * (m * n))) (eF _ _ d1 d2) _ => //.
  apply: (iso_meq (n := 2 * (m * n))) (sympl_sum ho) => //; first by rewrite fr_copies d1 mulnA.
  rewrite mul2n -addnn nseqD; exact: fdsuml_cat.
- have [_ _ h3] := orth1_copies (2 * m) (iso_orth1 d1 d2 IA); rewrite -mulnA in h3.
  split=> //; apply: meq_trans h3; have e := eF _ _ d1 d2; apply: (meq_fmul _ e); first exact: meq_ftr.
  by rewrite /= f1.
by move=> y y'; rewrite (acts1P _ _ _ _ ri) ?zi ?f1 ?f2 // /act f2.
Qed.
Theorem ham_thm ein (Fi : forall S : comRingType, fmat S -> fmat S) m n rin :
  gdim g = n -> isometries (fid RR n) E ->
  (forall S A B, @espec S A B ein = Some (SMat (Fi S (A None)))) ->
  (forall S A, fr A = n -> fc A = n -> meq (Fi S A) (fdsuml (nseq (2 * m) A))) -> rep_of ein rin ->
  sz rin = (2 * (m * n))%N /\ forall H gr, inv_on rin H -> field_ok rin H gr.
Proof.
move=> Gn HI ei eF Ri; have [zi AT] := acts_takes Gn HI ei eF Ri.
split=> // H gr Hf M x x' HM A1; rewrite zi => g1 g2.
have [D [f1 f2 I _ AP]] := AT M HM.
have U : unchanged (2 * (m * n)) D H by move=> z z' /AP T; exact: Hf HM T.
have [w [w' [e1 e2 /AP e3]]] := field_moved f1 f2 U I g1 g2 (proj1 (AP x x') A1).
by exists w, w'.
Qed.
Lemma field_equivariant rin H gr : gradient_of (sz rin) H gr -> field_ok rin H gr ->
  equivariant E rin rin (rowwise (sz rin) (hamiltonian_dynamics gr)).
Proof.
move=> Hg HF; apply: rowwise_equivariant => M x x' HM A1; have [S1 S2 _] := A1; rewrite mul1n in S1; rewrite mul1n in S2.
exact: HF HM A1 (Hg _ S1) (Hg _ S2).
Qed.
End Main.
