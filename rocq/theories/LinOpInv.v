(** * LinOpInv: invT is the inverse transpose. *)
From mathcomp Require Import all_ssreflect all_algebra.
From mathcomp Require Import zify.
From Verif Require Import Np NpLemmas Spec SpecLemmas LinOp LinOpSpec LinOpProofs LinOpMM LinOpMore.
Set Implicit Arguments.
Unset Strict Implicit.
Unset Printing Implicit Defensive.
Import GRing.Theory.
Local Open Scope ring_scope.

Section InvT.
Variable R : comRingType.
Implicit Types (A B C : fmat R).

(** [is_invT] together with the shapes. *)
Definition invTn (n : nat) A B : Prop :=
  [/\ fr A = n, fc A = n, fr B = n & fc B = n] /\
  (meq (fmul A (ftr B)) (fid R n) /\ meq (fmul (ftr B) A) (fid R n)).

Lemma invTn_is n A B : invTn n A B -> is_invT A B.
Proof. by case=> -[E _ _ _] [H1 H2]; split; rewrite E. Qed.

Lemma invTn_meq n A B A' B' : meq A A' -> meq B B' -> invTn n A B -> invTn n A' B'.
Proof.
move=> HA HB [[E1 E2 E3 E4] [H1 H2]]; have [h1 h2 _] := HA; have [k1 k2 _] := HB.
split; first by rewrite -h1 -h2 -k1 -k2.
split.
  by apply: meq_trans H1; apply: meq_sym; apply: meq_fmul => //; [apply: meq_ftr | rewrite /= E2 E4].
by apply: meq_trans H2; apply: meq_sym; apply: meq_fmul => //; [apply: meq_ftr | rewrite /= E1 E3].
Qed.

Lemma invTn_id n : invTn n (fid R n) (fid R n).
Proof.
split=> //; split.
  apply: meq_trans (fmul_id_l _) (ftr_fid _ _) => //.
apply: meq_trans (fmul_id_r _) (ftr_fid _ _) => //.
Qed.

(** x y y' x' = 1 when y y' = 1 and x x' = 1 *)
Lemma sandwich n X Y Y' X' : fr X = n -> fc X = n -> fr Y = n -> fc Y = n ->
  fr Y' = n -> fc Y' = n -> fr X' = n -> fc X' = n ->
  meq (fmul Y Y') (fid R n) -> meq (fmul X X') (fid R n) ->
  meq (fmul (fmul X Y) (fmul Y' X')) (fid R n).
Proof.
move=> h1 h2 h3 h4 h5 h6 h7 h8 HY HX.
apply: meq_trans (meq_sym (fmul_assoc _ _ _)) _.
apply: meq_trans HX.
apply: meq_fmul; [exact: meq_refl| |by rewrite /= h2].
apply: meq_trans (fmul_assoc _ _ _) _.
apply: meq_trans (meq_fmul HY (meq_refl _) _) _; first by rewrite /= h6.
by apply: fmul_id_l.
Qed.

Lemma invTn_mul n A A' B B' : invTn n A A' -> invTn n B B' -> invTn n (fmul A B) (fmul A' B').
Proof.
move=> [[h1 h2 h3 h4] [HA1 HA2]] [[k1 k2 k3 k4] [HB1 HB2]].
split=> //.
have HT : meq (ftr (fmul A' B')) (fmul (ftr B') (ftr A')) by apply: ftr_fmul; rewrite h4.
split.
  apply: meq_trans (meq_fmul (meq_refl _) HT _) _; first by rewrite /= k2 k4.
  by apply: sandwich.
apply: meq_trans (meq_fmul HT (meq_refl _) _) _; first by rewrite /= h1 h3.
by apply: sandwich.
Qed.

Lemma invTn_pow n A A' p : invTn n A A' -> invTn n (fpow A p) (fpow A' p).
Proof.
move=> H; have [[h1 h2 h3 h4] _] := H.
elim: p => [|p IH] /=; first by rewrite h1 h3; apply: invTn_id.
exact: invTn_mul.
Qed.

Lemma invTn_kron m n A A' B B' : invTn m A A' -> invTn n B B' ->
  invTn (m * n) (fkron A B) (fkron A' B').
Proof.
move=> [[h1 h2 h3 h4] [HA1 HA2]] [[k1 k2 k3 k4] [HB1 HB2]].
split; first by rewrite /= h1 h2 h3 h4 k1 k2 k3 k4.
have HT := ftr_fkron A' B'.
split.
  apply: meq_trans (meq_fmul (meq_refl _) HT _) _; first by rewrite /= h2 h4 k2 k4.
  apply: meq_trans (fmul_fkron _ _) _; rewrite /= ?h2 ?h4 ?k2 ?k4 //.
  by apply: meq_trans (meq_fkron HA1 HB1) (fkron_id _ _ _).
apply: meq_trans (meq_fmul HT (meq_refl _) _) _; first by rewrite /= h1 h3 k1 k3.
apply: meq_trans (fmul_fkron _ _) _; rewrite /= ?h1 ?h3 ?k1 ?k3 //.
by apply: meq_trans (meq_fkron HA2 HB2) (fkron_id _ _ _).
Qed.

Lemma invTn_sel n s t :
  (forall i, (i < n)%N -> (s i < n)%N) -> (forall i, (i < n)%N -> (t i < n)%N) ->
  (forall i, (i < n)%N -> s (t i) = i) -> (forall i, (i < n)%N -> t (s i) = i) ->
  invTn n (fsel R n n s) (fsel R n n s).
Proof.
move=> Hs Ht H1 H2; split=> //.
have HT := ftr_sel R Hs Ht H1 H2; split.
  apply: meq_trans (meq_fmul (meq_refl _) HT _) _ => //.
  apply: meq_trans (fmul_sel R _ _ Hs) _.
  by split=> //= i j Hi Hj; rewrite H2.
apply: meq_trans (meq_fmul HT (meq_refl _) _) _ => //.
apply: meq_trans (fmul_sel R _ _ Ht) _.
by split=> //= i j Hi Hj; rewrite H1.
Qed.

Lemma invTn_perm p : is_perm (size p) p ->
  invTn (size p) (fsel R (size p) (size p) (nth 0%N p)) (fsel R (size p) (size p) (nth 0%N p)).
Proof.
move=> H; apply: (@invTn_sel _ _ (nth 0%N (argsort p))) => i Hi.
- exact: (is_perm_nth H).
- exact: (is_perm_nth (argsort_perm H)).
- exact: (perm_argsort H).
- exact: (argsort_perm_nth H).
Qed.

Lemma fe_fsel_inj m n s s' : (forall i, (i < m)%N -> (s i < n)%N) ->
  meq (fsel R m n s) (fsel R m n s') -> forall i, (i < m)%N -> s i = s' i.
Proof.
move=> Hs [_ _ H] i Hi; have := H i (s i) Hi (Hs i Hi); rewrite /= eqxx => /esym.
by case: eqP => //= _ /eqP; rewrite eq_sym oner_eq0.
Qed.

Lemma shift_idx_cancel n k i : (i < n)%N ->
  nth 0%N (shift_idx n k) (nth 0%N (shift_idx n (- k)) i) = i.
Proof.
move=> Hi; rewrite nth_mkseq ?shift_idx_lt // nth_mkseq //.
have n0 : Posz n != 0 by case: (n) Hi.
rewrite gez0_abs ?modz_ge0 // modzDml opprK addrK.
by rewrite modz_small // ?lez_nat ?ltz_nat Hi.
Qed.

Lemma invTn_shift n k : invTn n (fshift R n k) (fshift R n k).
Proof.
have H := meq_sym (fshift_sel R n k).
apply: (invTn_meq H H).
apply: (@invTn_sel _ _ (nth 0%N (shift_idx n (- k)))) => i Hi; try exact: shift_idx_lt.
  exact: shift_idx_cancel.
by have := @shift_idx_cancel n (- k) i Hi; rewrite opprK.
Qed.

Lemma invTn_swap sw n : uniq sw -> all (fun i => i < n)%N sw ->
  invTn n (fswap R sw n) (fswap R sw n).
Proof.
move=> U H.
set s := fun i => if i \in sw then nth 0%N sw (size sw - (index i sw).+1) else i.
have Hs i : (i < n)%N -> (s i < n)%N.
  rewrite /s => Hi; case: ifP => // Hin; apply: (allP H); rewrite mem_nth //.
  by have := index_mem i sw; rewrite Hin; lia.
have Hss i : (i < n)%N -> s (s i) = i.
  rewrite /s => Hi; case: (boolP (i \in sw)) => Hin; last by rewrite (negbTE Hin).
  have Hx : (index i sw < size sw)%N by rewrite index_mem.
  rewrite mem_nth; last by lia.
  rewrite index_uniq //; last by lia.
  have -> : (size sw - (size sw - (index i sw).+1).+1 = index i sw)%N by lia.
  by rewrite nth_index.
exact: (@invTn_sel n s s).
Qed.

Lemma invTn_rot1 n : invTn (n * n) (frot1 R n) (frot1 R n).
Proof.
have H1 t : (t < n * n)%N -> ((t %/ n < n) && (t %% n < n))%N.
  case: n => // n Ht; rewrite ltn_divLR // Ht ltn_pmod //.
apply: (@invTn_sel _ _ (fun t => ((n - 1 - t %% n) * n + t %/ n)%N)) => t Ht;
  have /andP[] := H1 _ Ht; have := divn_eq t n;
  move: (t %/ n)%N (t %% n)%N => a b E Ha Hb.
- by apply: idx_lt => //; lia.
- by apply: idx_lt => //; lia.
- rewrite idx_div // idx_mod // E; congr (_ * _ + _)%N; lia.
- have Hc : (n - 1 - a < n)%N by lia.
  rewrite idx_div // idx_mod // E; congr (_ * _ + _)%N; lia.
Qed.

Lemma dims_invTn n A B : invTn n A B -> [/\ fr A = n, fc A = n, fr B = n & fc B = n].
Proof. by case. Qed.
End InvT.

Section InvTop.
Variable R : comRingType.
Variables (sinv : R -> R) (linv : nat -> seq R -> seq R) (good : nat -> seq R -> bool).
(** The contract of jnp.linalg.inv on the matrices it is called on. *)
Hypothesis Hlinv : forall n D, good n D ->
  [/\ size (linv n D) = (n * n)%N,
      meq (fmul (unflat n n D) (unflat n n (linv n D))) (fid R n) &
      meq (fmul (unflat n n (linv n D)) (unflat n n D)) (fid R n)].

(** Operators whose class implements invT correctly, with invertible dense leaves. *)
Fixpoint invable (A : op R) : bool :=
  match A with
  | OI _ | OPerm _ | OShift _ _ | OSwap _ _ | ORot90 _ _ => true
  | OLazy m n D => (m == n) && good n D
  | OKron Ms => all invable Ms
  | OProd A B => [&& invable A, invable B & rows A == cols A]
  | OPow A _ => invable A
  | _ => false
  end.

Definition ivP (A : op R) : Prop := wf A -> invable A ->
  exists B, [/\ invT sinv linv A = Ok B, is_op B, wf B, shape B = shape A &
     invTn (rows A) (den A) (den B)].

Lemma invT_ok A : ivP A.
Proof.
elim/op_rect': A => //.
- move=> m n D W /= /andP[/eqP E G]; subst m; have [S1 L1 L2] := Hlinv G.
  rewrite eqxx; eexists; split=> //; first by rewrite /= size_tr2.
  split=> //=; split.
    apply: meq_trans L1; apply: meq_fmul => //.
    by split=> //= i j Hi Hj; rewrite nth_tr2.
  apply: meq_trans L2; apply: meq_fmul => //.
  by split=> //= i j Hi Hj; rewrite nth_tr2.
- by move=> n W _; eexists; split=> //; apply: invTn_id.
- move=> Ms IH W I; have /and4P[L Ws Hr Hc] := W.
  have [Bs [E1 E2 E3 E4 E5]] : exists Bs, [/\ sequence [seq invT sinv linv M | M <- Ms] = Ok Bs,
     size Bs = size Ms, all (@wf R) Bs, map (@shape R) Bs = map (@shape R) Ms &
     invTn (prodn (map (@rows R) Ms)) (fkronl (map (@den R) Ms)) (fkronl (map (@den R) Bs))].
    elim: Ms IH I Ws {W L Hr Hc} => [|M Ms IHl] /=.
      by exists [::]; split=> //; apply: invTn_id.
    move=> [IM IMs] /andP[iM iMs] /andP[WM WMs].
    have [B [HB OB WB SB VB]] := IM WM iM.
    have [Bs [H1 H2 H3 H4 H5]] := IHl IMs iMs WMs.
    exists (B :: Bs); split=> //=; rewrite ?HB ?bindOk ?H1 ?H2 ?WB ?SB ?H4 //.
    exact: invTn_kron.
  rewrite /= E1 bindOk mkKron_gt1 ?E2 //; eexists; split=> //.
    rewrite /= E2 L E3 /=.
    have Ar f : all (fun M => 0 < f (shape M))%N Bs = all (fun M => 0 < f (shape M))%N Ms.
      by rewrite (all_map_eq (@shape R) (fun x => 0 < f x)%N) E4 -all_map_eq.
    by rewrite (Ar fst) (Ar snd) Hr Hc.
  have Es (f : nat * nat -> nat) : [seq f (shape M) | M <- Bs] = [seq f (shape M) | M <- Ms].
    by rewrite (map_comp f (@shape R) Bs) E4 -map_comp.
  by rewrite /= (Es fst) (Es snd).
- by move=> p W _; eexists; split=> //; apply: invTn_perm.
- by move=> n k W _; eexists; split=> //; apply: invTn_shift.
- by move=> sw n W _; eexists; split=> //; case/andP: W => U H; apply: invTn_swap.
- move=> n k W _; eexists; split=> //; exact: invTn_pow (invTn_rot1 R n).
- move=> A B IA IB W /= /and3P[iA iB /eqP sA]; have /and5P[OA OB WA WB /eqP E] := W.
  have [A' [HA OA' WA' SA VA]] := IA WA iA; have [B' [HB OB' WB' SB VB]] := IB WB iB.
  rewrite HA HB /= /mkProd OA' OB' /= /cols /rows SA SB -/(cols A) -/(rows B) E eqxx /=.
  eexists; split=> //; first by rewrite /= OA' OB' WA' WB' /cols /rows SA SB -/(cols A) -/(rows B) E eqxx.
    by rewrite /= SA SB.
  have RB : rows A = rows B by rewrite sA.
  rewrite -/(rows A); rewrite -RB in VB; exact: invTn_mul.
- move=> A p IA W /= iA; have /and3P[OA WA /eqP E] := W.
  have [A' [HA OA' WA' SA VA]] := IA WA iA.
  have Esq : rows A' = cols A' by rewrite /rows /cols SA.
  rewrite HA /= /mkPow OA' Esq eqxx /=; eexists; split=> //.
    by rewrite /= OA' WA' Esq eqxx.
  exact: invTn_pow.
Qed.
End InvTop.
