(** * RepOps: the operators +, *, ** and .T on representations of one group. *)
From mathcomp Require Import all_ssreflect all_algebra.
From mathcomp Require Import zify.
From Verif Require Import Np NpLemmas Spec LinOp SpecLemmas LinOpInv Rep RepMat RepWf RepProd RepAlg RepDist RepMul RepFun.
Set Implicit Arguments.
Unset Strict Implicit.
Unset Printing Implicit Defensive.
Import GRing.Theory.

Section Gen.
Variables (gdim : gid -> nat) (gorth : gid -> bool) (csize : nat -> gid -> nat).
Variable le : rel rep.
Variable gs : pred gid.
Local Notation sz := (rsize gdim csize).
Local Notation atomic := (atomic gdim csize gs).
Local Notation key := (key gdim csize le gs).
Local Notation wfr := (wfr gdim csize le gs).
Local Notation nonsum := (nonsum gdim csize le gs).
Local Notation isprod := (isprod gdim csize le gs).
Local Notation isdir := (isdir gdim csize le gs).
Local Notation issum := (issum gdim csize le gs).
Local Notation canon := (canon gdim csize).
Hypothesis O : total_order_on key le.
Variable R : comRingType.
Variable atom : rep -> fmat R.
Hypothesis HA : forall r, atomic r -> kok atom sz r.
Local Notation rmat := (rmat atom).
Local Notation mulb_ok := (mulb_ok gdim csize le gs atom).

Lemma add_ok a b : wfr a -> wfr b ->
  exists2 r, add gdim csize le a b = Ok r &
  [/\ issum r, sz r = sz a + sz b & meq (rmat r) (fdsum (rmat a) (rmat b))].
Proof.
move=> Wa Wb; rewrite /add /both_concrete (concrete_wfr Wa) (concrete_wfr Wb) /=.
have [|r -> [H1 H2 H3 _]] := @sum_rep_ok gdim csize le gs O R atom HA [:: a; b] None isT _ isT.
  by rewrite /= Wa Wb.
exists r => //; split=> //; first by rewrite H2 /= addn0.
apply: meq_trans H3 _; apply: meq_fdsum; first exact: meq_refl.
exact: fdsum_0r.
Qed.

(** a and b can be multiplied *)
Definition compat a b : Prop :=
  if is_sum a || is_sum b
  then forall x y, x \in keys (sum_counter (canon a)) -> y \in keys (sum_counter (canon b)) -> mulb_ok x y
  else mulb_ok a b.

Lemma mul_ok_gen a b : wfr a -> wfr b -> compat a b ->
  exists2 r, mul gdim csize le a b = Ok r &
  [/\ wfr r, sz r = sz a * sz b & meq (rmat r) (fkron (rmat a) (rmat b))].
Proof.
move=> Wa Wb C; rewrite /mul.
case E : (a == RScalar).
  move/eqP: E => E; rewrite E; exists b => //; rewrite /= mul1n; split=> //.
  by apply: meq_sym; apply: fkron_1_l.
have -> : (if a is RScalar then Ok b else
    if is_sum a || is_sum b then
    (if both_concrete a b then distribute_product gdim csize le [:: a; b] None else defprod [:: a; b])
  else mul_base gdim csize le a b) = (if is_sum a || is_sum b then distribute_product gdim csize le [:: a; b] None else mul_base gdim csize le a b).
  by rewrite /both_concrete (concrete_wfr Wa) (concrete_wfr Wb); case: (a) E.
move: C; rewrite /compat; case: ifP => _ C //.
have [r -> [H1 H2 H3]] := distribute_ok O HA Wa Wb C.
by exists r => //; split=> //; apply: issum_wfr.
Qed.
End Gen.

Section One.
Variables (gdim : gid -> nat) (gorth : gid -> bool) (csize : nat -> gid -> nat).
Variable le : rel rep.
Variables (g : gid) (gs : pred gid).
(** at most one group *)
Hypothesis Hgs : forall h, gs h -> h = g.
Local Notation sz := (rsize gdim csize).
Local Notation atomic := (atomic gdim csize gs).
Local Notation key := (key gdim csize le gs).
Local Notation wfr := (wfr gdim csize le gs).
Local Notation nonsum := (nonsum gdim csize le gs).
Local Notation isprod := (isprod gdim csize le gs).
Local Notation isdir := (isdir gdim csize le gs).
Local Notation issum := (issum gdim csize le gs).
Local Notation canon := (canon gdim csize).
Hypothesis O : total_order_on key le.
Local Notation pfactor := (pfactor gdim csize le gs).

Lemma nodir r : ~~ isdir r.
Proof.
apply/negP; case: r => // d p /andP[/and4P[/and5P[_ A _ _ _] _ S U] _].
case: d A S U => [|[k c] [|[k' c'] d]] //= /and3P[H1 H2 _] _; rewrite inE negb_or => /andP[/andP[/eqP E _] _].
have G x : dkey gdim csize le gs x -> gattr x = Some (Some g).
  case/orP=> [H|/andP[H _]]; first by have [y -> /Hgs ->] := atomic_gattr H.
  case: x H => // e q /andP[/and3P[/and5P[_ Ae _ _ _] S _] _].
  by case: e Ae S => [|[x n] e] //= /andP[H _] _; have [y -> /Hgs ->] := atomic_gattr H.
by apply: E; rewrite !G.
Qed.

Lemma nonsum1 r : nonsum r -> r = RScalar \/ pfactor g r.
Proof.
case/or4P=> [/eqP ->|A|P|D]; [by left|right|right|by move: (nodir r); rewrite D].
  by have [y E /Hgs Ey] := atomic_gattr A; rewrite /RepAlg.pfactor A E Ey eqxx.
rewrite /RepAlg.pfactor P orbT /=; case: r P => // e q /andP[/and3P[/and5P[_ Ae _ _ _] S _] _].
by case: e Ae S => [|[x n] e] //= /andP[H _] _; have [y -> /Hgs ->] := atomic_gattr H.
Qed.

Section Mat.
Variable R : comRingType.
Variable atom : rep -> fmat R.
Hypothesis HA : forall r, atomic r -> kok atom sz r.
Local Notation rmat := (rmat atom).
Local Notation mulb_ok := (mulb_ok gdim csize le gs atom).

Lemma mul_base_ok a b : nonsum a -> nonsum b -> mulb_ok a b.
Proof.
move=> Na Nb; have Wa := nonsum_wfr Na; have Wb := nonsum_wfr Nb.
case: (nonsum1 Na) => [->|Pa].
  by exists b => //; split; rewrite ?mul1n //; apply: meq_sym; apply: fkron_1_l.
case: (nonsum1 Nb) => [->|Pb].
  exists a; first by case: (a) Pa.
  by split; rewrite ?muln1 //; apply: meq_sym; apply: fkron_1_r.
rewrite /RepMul.mulb_ok; have -> : mul_base gdim csize le a b = prod_rep gdim csize le [:: a; b] None.
  have [/andP[A1 /eqP A2] /andP[B1 /eqP B2]] := (Pa, Pb).
  have E : (if ~~ both_concrete a b then defprod [:: a; b] else
      match gattr a, gattr b with
      | Some G, Some H => if G == H then prod_rep gdim csize le [:: a; b] None else dir_rep gdim csize le [:: a; b] None
      | _, _ => dir_rep gdim csize le [:: a; b] None
      end) = prod_rep gdim csize le [:: a; b] None.
    by rewrite /both_concrete (concrete_wfr Wa) (concrete_wfr Wb) A2 B2 eqxx.
  by rewrite -[RHS]E /mul_base; case: (a) A1 => //; case: (b) B1.
have [|r Er [H1 H2 H3 H4]] := @prod_rep_ok gdim csize le gs O R atom HA g [:: a; b] None isT _ isT.
  by rewrite /= Pa Pb.
exists r => //; split; [by apply: nonsum_wfr; apply: isprod_sub | by rewrite H2 /= muln1 |].
apply: meq_trans H4 _; apply: meq_fkron; first exact: meq_refl.
exact: fkron_1_r.
Qed.

Lemma compat1 a b : wfr a -> wfr b -> compat gdim csize le gs atom a b.
Proof.
move=> Wa Wb; rewrite /compat; case: ifP => [_|/norP[Sa Sb]].
  move=> x y Hx Hy; apply: mul_base_ok.
    have [/and5P[_ A _ _ _] _] := counter_ok Wa; by case/andP: (allP A _ Hx).
  have [/and5P[_ A _ _ _] _] := counter_ok Wb; by case/andP: (allP A _ Hy).
apply: mul_base_ok; first by case/orP: Wa => //; case: (a) Sa.
by case/orP: Wb => //; case: (b) Sb.
Qed.

Lemma mul_ok a b : wfr a -> wfr b ->
  exists2 r, mul gdim csize le a b = Ok r &
  [/\ wfr r, sz r = sz a * sz b & meq (rmat r) (fkron (rmat a) (rmat b))].
Proof. by move=> Wa Wb; apply: mul_ok_gen => //; apply: compat1. Qed.

Lemma fkronl_nseqS n (A : fmat R) : meq (fkron (fkronl (nseq n A)) A) (fkronl (nseq n.+1 A)).
Proof.
elim: n => [|n IH].
  by apply: meq_trans (fkron_1_l _) _; apply: meq_sym; apply: fkron_1_r.
apply: meq_trans (meq_sym (fkron_assoc _ _ _)) _; apply: meq_fkron; first exact: meq_refl.
exact: IH.
Qed.

Lemma pow_ok a n : wfr a ->
  exists2 r, pow gdim csize le a n = Ok r &
  [/\ wfr r, sz r = sz a ^ n & meq (rmat r) (fkronl (nseq n (rmat a)))].
Proof.
move=> W; elim: n => [|n [r E [H1 H2 H3]]].
  exists RScalar => //; split=> //; exact: meq_refl.
have [r' E' [K1 K2 K3]] := mul_ok H1 W.
exists r'.
  have foldM_rcons (T S : Type) (f : S -> T -> res S) l x s :
      foldM f s (rcons l x) = do y <- foldM f s l; f y x.
    elim: l s => [|y l IH] s /=; first by case: (f s x).
    by case: (f s y).
  have -> : pow gdim csize le a n.+1 = do y <- pow gdim csize le a n; mul gdim csize le y a.
    by rewrite /pow -foldM_rcons; congr foldM; elim: (n) => //= m ->.
  by rewrite E.
split=> //; first by rewrite K2 H2 expnSr.
apply: meq_trans K3 _; apply: meq_trans (meq_fkron H3 (meq_refl _)) _.
exact: fkronl_nseqS.
Qed.
End Mat.

(** ** .T *)
Definition ta (k : rep) : rep := if k is RDual s then s else t_atom gorth k.

Lemma ta_atomic k : atomic k -> [/\ atomic (ta k), sz (ta k) = sz k & gattr (ta k) = gattr k].
Proof.
by case: k => // [[h|]|c [h|]|[|[h|]|c [h|]|?|? ?|? ?|? ?|?|?]] //= A; rewrite /t_atom /=; case: ifP.
Qed.
Lemma tr_atomic k : atomic k -> tr gdim gorth csize le k = Ok (ta k).
Proof. by case: k => // [[h|]|c [h|]|[]]. Qed.

Section TrMat.
Variable R : comRingType.
Variable atom : rep -> fmat R.
Hypothesis HA : forall r, atomic r -> kok atom sz r.
Local Notation rmat := (rmat atom).
Local Notation atomT := (fun k => atom (ta k)).
Local Notation tr := (tr gdim gorth csize le).

Lemma HAT r : atomic r -> kok atomT sz r.
Proof. by move=> A; have [A' S _] := ta_atomic A; rewrite /kok -S; apply: HA. Qed.

Definition trs_fix := fix trs (d : seq (rep * nat)) : res (seq rep) :=
    match d with
    | [::] => Ok [::]
    | (k, c) :: d' => do k' <- tr k; do l <- trs d'; Ok (nseq c k' ++ l)
    end.

Lemma trs_ok (f : rep -> rep) d : (forall k, k \in keys d -> tr k = Ok (f k)) ->
  trs_fix d = Ok (map f (dexp d)).
Proof.
elim: d => [|[k c] d IH] //= H; rewrite H ?mem_head //= IH /=.
  by rewrite map_cat map_nseq.
by move=> x Hx; apply: H; rewrite inE Hx orbT.
Qed.

Lemma dexp_in d k : k \in dexp d -> k \in keys d.
Proof. by case/flattenP=> s /mapP[x Hx ->] /nseqP[-> _]; apply: map_f. Qed.

Lemma tr_nonsum r : nonsum r ->
  exists2 r', tr r = Ok r' &
  [/\ nonsum r', sz r' = sz r & meq (rmat r') (RepMat.rmat atomT r)].
Proof.
move=> N; have WT := rmat_sz (le := le) HAT (nonsum_wfr N).
case/or4P: N => [/eqP ->|A|P|D]; last by move: (nodir r); rewrite D.
- by exists RScalar => //; split=> //; apply: meq_refl.
- have [A' S _] := ta_atomic A; exists (ta r); first exact: tr_atomic.
  split=> //; first exact: atomic_sub.
  rewrite (rmat_atomic _ A') (rmat_atomic _ A); exact: meq_refl.
case: r P WT => // d p /andP[/and3P[/and5P[NE Ad U Sd C] S1 Gd] Pp] WT.
rewrite -[tr _]/(do l <- trs_fix d; prod_rep gdim csize le l (Some p)).
rewrite (trs_ok (f := ta)) => [|k /(allP Ad) /tr_atomic //]; rewrite [bind _ _]/=.
have Hf k : k \in dexp d -> [/\ atomic (ta k), sz (ta k) = sz k & pfactor g (ta k)].
  move=> /dexp_in /(allP Ad) H; have [A' S G] := ta_atomic H; split=> //.
  by rewrite /RepAlg.pfactor A'; have [y -> /Hgs ->] := atomic_gattr A'; rewrite eqxx.
have Esz : map sz (map ta (dexp d)) = map sz (dexp d).
  by rewrite -map_comp; apply/eq_in_map=> k /Hf[].
have Pp' : is_perm (prodn (map sz (map ta (dexp d)))) p by rewrite Esz prodn_dexp.
have [||r -> [H1 H2 H3 H4]] := @prod_rep_ok gdim csize le gs O R atom HA g (map ta (dexp d)) (Some p) _ _ Pp'.
- by rewrite size_map size_dexp.
- by apply/allP=> x /mapP[k /Hf[_ _ P] ->].
exists r => //; split; [exact: isprod_sub | by rewrite H2 Esz prodn_dexp |].
apply: meq_trans H4 _; rewrite /= dexp_rmat -map_comp.
rewrite [X in fkronl X](_ : _ = [seq RepMat.rmat atomT r0 | r0 <- dexp d]); first exact: meq_refl.
apply/eq_in_map=> k Hk; have [A' _ _] := Hf k Hk.
by rewrite /= (rmat_atomic _ A') (rmat_atomic _ (allP Ad _ (dexp_in Hk))).
Qed.

Theorem tr_ok r : wfr r ->
  exists2 r', tr r = Ok r' &
  [/\ wfr r', sz r' = sz r & meq (rmat r') (RepMat.rmat atomT r)].
Proof.
move=> W; case/orP: (W) => [/tr_nonsum[r' E [H1 H2 H3]]|].
  by exists r' => //; split=> //; apply: nonsum_wfr.
case: r W => // d p W /andP[/and5P[NE Ad U Sd C] Pp].
pose f k := if tr k is Ok k' then k' else k.
have Hf k : k \in keys d -> [/\ tr k = Ok (f k), wfr (f k), sz (f k) = sz k & meq (rmat (f k)) (RepMat.rmat atomT k)].
  move=> /(allP Ad) /andP[/tr_nonsum[k' E [H1 H2 H3]] _]; rewrite /f E; split=> //.
  exact: nonsum_wfr.
rewrite -[tr _]/(do l <- trs_fix d; sum_rep gdim csize le l (Some p)).
rewrite (trs_ok (f := f)) => [|k /Hf[] //]; rewrite [bind _ _]/=.
have Esz : map sz (map f (dexp d)) = map sz (dexp d).
  by rewrite -map_comp; apply/eq_in_map=> k /dexp_in /Hf[].
have Esm : sumn (map sz (map f (dexp d))) = sz (RSum d p) by rewrite Esz sumn_dexp.
have [|||r -> [H1 H2 H3 _]] := @sum_rep_ok gdim csize le gs O R atom HA (map f (dexp d)) (Some p).
- case: (d) NE C => [|[k c] d'] //= _ /andP[C0 _]; by case: c C0.
- by apply/allP=> x /mapP[k /dexp_in /Hf[_ H _ _] ->].
- by rewrite /= Esm.
exists r => //; split; [exact: issum_wfr | by rewrite H2 Esm |].
apply: meq_trans H3 _; rewrite /= dexp_rmat.
have HM : meq (fdsuml (map rmat (map f (dexp d)))) (fdsuml (map (RepMat.rmat atomT) (dexp d))).
  have : forall k, k \in dexp d -> meq (rmat (f k)) (RepMat.rmat atomT k) by move=> k /dexp_in /Hf[].
  elim: (dexp d) => [|k l IH] H /=; first exact: meq_refl.
  apply: meq_fdsum; first by apply: H; rewrite mem_head.
  by apply: IH => x Hx; apply: H; rewrite inE Hx orbT.
have E1 : fr (fdsuml (map rmat (map f (dexp d)))) = sz (RSum d p).
  rewrite -Esm (RepMat.fr_fdsuml (sz := sz)) // => x /mapP[k /dexp_in /Hf[_ Wk _ _] ->].
  exact: (rmat_sz HA Wk).
have E2 : fc (fdsuml (map rmat (map f (dexp d)))) = sz (RSum d p).
  rewrite -Esm (RepMat.fc_fdsuml (sz := sz)) // => x /mapP[k /dexp_in /Hf[_ Wk _ _] ->].
  exact: (rmat_sz HA Wk).
by apply: meq_fscat => //; rewrite ?E1 ?E2.
Qed.
End TrMat.
End One.
