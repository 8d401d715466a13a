(** * SchurGrp: the groups SL(n), GL(n) and Sp(m) are irreducible. *)
From Coq Require Import Reals String ClassicalEpsilon Lra.
From mathcomp Require Import all_ssreflect all_algebra all_fingroup.
From mathcomp Require Import zify.
From Verif Require Import Np NpLemmas Spec SpecLemmas LinOp LinOpSpec LinOpInv LinOpProofs MxBridge Rep SolSpec Rstruct Expm.
From Verif Require Import Groups GroupsSpec GroupsPerm GroupsSpecR GroupsDet ExactSpec DataAlg DimSpec DimAlg DimThm DimOrth DimForm SchurSpec SchurAlg.
Set Implicit Arguments.
Unset Strict Implicit.
Unset Printing Implicit Defensive.
Import GRing.Theory.
Local Open Scope ring_scope.

Definition two : RR := IZR 2.
Definition half : RR := Rinv (IZR 2).
Lemma two_half : two * half = 1. Proof. by change (@eq R (Rmult (IZR 2) (Rinv (IZR 2))) R1); field. Qed.
Lemma two_ne : two <> 1. Proof. by move=> E; have : @eq R (IZR 2) R1 := E; lra. Qed.
Lemma two_half_ne : two <> half. Proof. by move=> E; have : @eq R (IZR 2) (Rinv (IZR 2)) := E; lra. Qed.
Lemma half_ne : half <> 1. Proof. by move=> E; have : @eq R (Rinv (IZR 2)) R1 := E; lra. Qed.
Lemma neg_ne : (-1 : RR) <> 0. Proof. by move=> E; have : @eq R (Ropp R1) R0 := E; lra. Qed.
Lemma one_ne : (1 : RR) <> 0. Proof. by move=> E; have : @eq R R1 R0 := E; lra. Qed.

(** ** monomial matrices *)
Lemma mono_iso n (J : fmat RR) s w : fr J = n -> fc J = n -> is_perm n w ->
  (forall i j, (i < n)%N -> (j < n)%N -> s i * s j * fe J i j = fe J (nth 0%N w i) (nth 0%N w j)) -> isometry J (smat n s w).
Proof.
move=> j1 j2 W H; split; rewrite /= ?j1 ?j2 // => i j Hi Hj.
have [a Ha Ea] : exists2 a, (a < n)%N & nth 0%N w a = i by exists (index i w); [rewrite -(is_perm_size W) index_mem (is_perm_mem _ W) | apply: nth_index; rewrite (is_perm_mem _ W)].
have [b Hb Eb] : exists2 b, (b < n)%N & nth 0%N w b = j by exists (index j w); [rewrite -(is_perm_size W) index_mem (is_perm_mem _ W) | apply: nth_index; rewrite (is_perm_mem _ W)].
have U x y : (x < n)%N -> (y < n)%N -> y != x -> (nth 0%N w y == nth 0%N w x) = false.
  by move=> Hx Hy /negbTE <-; rewrite nth_uniq ?(is_perm_size W) // (perm_uniq (W : perm_eq _ _)) iota_uniq.
subst i j; rewrite (sum_only (i := a)) //; last by move=> k Hk ne; rewrite U // mulr0 mul0r.
rewrite (sum_only (i := b)) //; last by move=> k Hk ne; rewrite U // !mulr0.
by rewrite !eqxx !mulr1 -H // -mulrA [fe J a b * _]mulrC.
Qed.
Lemma diag_off n s a b : (a < n)%N -> (b < n)%N -> a != b -> fe (smat n s (iota 0 n)) a b = 0.
Proof. by move=> Ha Hb ne; rewrite /= nth_iota // add0n (negbTE ne) mulr0. Qed.
Lemma diag_on n s a : (a < n)%N -> fe (smat n s (iota 0 n)) a a = s a.
Proof. by move=> Ha; rewrite /= nth_iota // add0n eqxx mulr1. Qed.
Lemma one_elt n (J : fmat RR) : fr J = n -> fc J = n -> isometry J (smat n (fun=> 1) (iota 0 n)).
Proof. by move=> j1 j2; apply: mono_iso (is_perm_iota n) _ => // i j Hi Hj; rewrite !nth_iota // !mul1r. Qed.

(** ** SL(n) and GL(n) *)
Definition stretch (i j k : nat) : RR := if k == i then two else if k == j then half else 1.
Lemma det_stretch n i j : (i < n)%N -> (j < n)%N -> i != j -> fdet n (smat n (stretch i j) (iota 0 n)) = 1.
Proof.
move=> Hi Hj ne; rewrite det_smat det_pid mulr1 (bigD1 (Ordinal Hi)) //= (bigD1 (Ordinal Hj)) /=; last by rewrite -(inj_eq val_inj) /= eq_sym.
rewrite big1 => [|k /andP[n1 n2]]; last by rewrite /stretch (negbTE n1 : (k == i :> nat) = false) (negbTE n2 : (k == j :> nat) = false).
by rewrite /stretch !eqxx [j == i]eq_sym (negbTE ne) mulr1 two_half.
Qed.
Lemma irr_sl n : irreducible_on n (fun X => fdet n X = 1).
Proof.
apply: commutes_scalar => [i j Hi Hj ne|j Hj].
  exists (smat n (stretch i j) (iota 0 n)); split=> //; first exact: det_stretch.
    exact: diag_off.
  by rewrite !diag_on // /stretch !eqxx [j == i]eq_sym (negbTE ne); exact: two_half_ne.
have I1 : fdet n (smat n (fun=> 1) (iota 0 n)) = 1 by rewrite det_smat big1 // det_pid mulr1.
have n0 : (0 < n)%N by case: (n) Hj.
exists j => //; split; last first.
  by exists (smat n (fun=> 1) (iota 0 n)); split=> //; rewrite diag_on //; exact: one_ne.
case: j Hj => [|j] Hj; first by exists (smat n (fun=> 1) (iota 0 n)); split=> //; rewrite diag_on //; exact: one_ne.
exists (smat n (flip 0) (swap n 0 j.+1)); split=> //.
  by rewrite det_smat prod_flip // det_swap // mulrNN mulr1.
have -> : fe (smat n (flip 0) (swap n 0 j.+1)) 0 j.+1 = -1 by rewrite /= swap_nth //= /flip !eqxx mulr1.
exact: neg_ne.
Qed.
Lemma irr_gl n : irreducible_on n (fun X => Rlt R0 (fdet n X)).
Proof. by apply: irreducible_sub (@irr_sl n) => A _ _ ->; exact: Rlt_0_1. Qed.
Lemma det_inv n (A : fmat RR) : fr A = n -> fc A = n -> fdet n A <> 0 -> exists B, invTn n A B.
Proof.
move=> a1 a2 D; pose d : RR := Rinv (fdet n A); have dd : d * fdet n A = 1 by exact: Rinv_l.
pose M : 'M[RR]_n := d *: \adj (mxf n n A); pose B := ftr (unflat n n (ofM M)).
have EB : mxf n n (ftr B) = M by rewrite -[RHS]toM_ofM.
have H1 : mxf n n A *m M = 1%:M by rewrite -scalemxAr mul_mx_adj scale_scalar_mx dd.
have H2 := mulmx1C H1.
exists B; split=> //; split; apply: meq_mxf => //=; rewrite ?a1 ?a2 // (@mxf_mul _ _ _ n) // EB ?H1 ?H2 mxf_id //.
Qed.

(** ** Sp(m) *)
Definition squeeze (m a k : nat) : RR := if k == a then two else if k == (m + a)%N then half else 1.
Lemma squeeze_iso m a : (a < m)%N -> isometry (sympl RR m) (smat (2 * m) (squeeze m a) (iota 0 (2 * m))).
Proof.
move=> Ha; have K i : (i < m)%N -> squeeze m a i * squeeze m a (m + i) = 1.
  move=> Hi; rewrite /squeeze eqn_add2l; have [->|ne] := eqVneq i a.
    by rewrite (_ : (m + a == a)%N = false) ?two_half //; apply/eqP; lia.
  have -> : (i == m + a)%N = false by apply/eqP; lia.
  have -> : (m + i == a)%N = false by apply/eqP; lia.
  exact: mulr1.
apply: mono_iso (is_perm_iota _) _ => // i j Hi Hj; rewrite !nth_iota // !add0n /=.
have [Ej|Nj] := eqVneq j (m + i)%N.
  by subst j; rewrite K ?mulr1 //; lia.
have [Ei|Ni] := eqVneq i (m + j)%N; last by rewrite mulr0.
by subst i; rewrite [squeeze _ _ _ * _]mulrC K ?mul1r //; lia.
Qed.
Definition dswap (m a : nat) : seq nat :=
  mkseq (fun k => if (k < m)%N then nth 0%N (swap m 0 a) k else m + nth 0%N (swap m 0 a) (k - m))%N (2 * m).
Lemma dswap_perm m a : (a < m)%N -> is_perm (2 * m) (dswap m a).
Proof.
move=> Ha; have m0 : (0 < m)%N by lia.
have W := swap_perm m0 Ha; have B k : (k < m)%N -> (nth 0%N (swap m 0 a) k < m)%N by move=> Hk; exact: is_perm_nth W Hk.
apply: is_permP; first exact: size_mkseq.
  rewrite map_inj_in_uniq ?iota_uniq // => i j; rewrite !mem_iota => Hi Hj.
  case: (ltnP i m) => h1; case: (ltnP j m) => h2.
  - by rewrite !swap_nth //; repeat case: eqP; move=> *; lia.
  - by have := B i h1; lia.
  - by have := B j h2; lia.
  - by rewrite !swap_nth; try lia; repeat case: eqP; move=> *; lia.
apply/allP => x /mapP[i]; rewrite mem_iota => Hi ->; case: (ltnP i m) => h.
  by have := B i h; lia.
by have := B (i - m)%N; lia.
Qed.
Lemma dswap_iso m a : (a < m)%N -> isometry (sympl RR m) (smat (2 * m) (fun=> 1) (dswap m a)).
Proof.
move=> Ha; have m0 : (0 < m)%N by lia.
have W := swap_perm m0 Ha; have B k : (k < m)%N -> (nth 0%N (swap m 0 a) k < m)%N by move=> Hk; exact: is_perm_nth W Hk.
have U x y : (x < m)%N -> (y < m)%N -> (nth 0%N (swap m 0 a) y == nth 0%N (swap m 0 a) x) = (y == x).
  by move=> Hx Hy; rewrite nth_uniq ?(is_perm_size W) // (perm_uniq (W : perm_eq _ _)) iota_uniq.
apply: mono_iso (dswap_perm Ha) _ => // i j Hi Hj; rewrite !mul1r.
have D k : (k < 2 * m)%N -> nth 0%N (dswap m a) k = (if k < m then nth 0%N (swap m 0 a) k else m + nth 0%N (swap m 0 a) (k - m))%N.
  by move=> Hk; rewrite nth_mkseq.
rewrite !D //; move: (nth 0%N (swap m 0 a)) B U {D} => f B U /=.
case: (ltnP i m) => h1; case: (ltnP j m) => h2.
- have := B i h1; have := B j h2 => *; by repeat (case: eqP => ?; try lia).
- have h3 : (j - m < m)%N by lia.
  rewrite eqn_add2l U // (_ : (j == (m + i)%N) = ((j - m)%N == i)); last by apply/eqP/eqP; lia.
  case: ifP => // _; have := B i h1; have := B _ h3 => *; by repeat (case: eqP => ?; try lia).
- have h3 : (i - m < m)%N by lia.
  rewrite eqn_add2l U // (_ : (i == (m + j)%N) = ((i - m)%N == j)); last by apply/eqP/eqP; lia.
  have := B j h2; have := B _ h3 => *; by repeat (case: eqP => ?; try lia).
- have h3 : (i - m < m)%N by lia.
  have h4 : (j - m < m)%N by lia.
  have := B _ h3; have := B _ h4 => *; by repeat (case: eqP => ?; try lia).
Qed.
Lemma sympl_iso m : isometry (sympl RR m) (sympl RR m).
Proof.
rewrite /isometry; apply: meq_trans (fmul_assoc _ _ _) _; apply: meq_trans (_ : meq _ (fmul (fid RR (2 * m)) (sympl RR m))) _.
  by apply: meq_fmul => //; exact: sympl_sq.
exact: (@fmul_id_l RR (sympl RR m)).
Qed.
Lemma irr_sp m : irreducible_on (2 * m) (isometry (sympl RR m)).
Proof.
apply: commutes_scalar => [i j Hi Hj ne|j Hj].
  pose a := if (i < m)%N then i else (i - m)%N; have Ha : (a < m)%N by rewrite /a; case: ifP; lia.
  exists (smat (2 * m) (squeeze m a) (iota 0 (2 * m))); split=> //; first exact: squeeze_iso.
    exact: diag_off.
  rewrite !diag_on // /squeeze /a; case: (ltnP i m) => h.
    rewrite eqxx [j == i]eq_sym (negbTE ne); case: ifP => _; [exact: two_half_ne | exact: two_ne].
  have -> : (i == (i - m)%N) = false by apply/eqP; lia.
  have E : (m + (i - m) = i)%N by lia.
  rewrite E eqxx [j == i]eq_sym (negbTE ne); case: ifP => _; last exact: half_ne.
  by move=> H; apply: two_half_ne.
have m0 : (0 < m)%N by lia.
have J0 : fe (sympl RR m) 0 m <> 0 by rewrite /= addn0 eqxx; exact: one_ne.
case: (ltnP j m) => h.
  exists j => //; split.
    exists (smat (2 * m) (fun=> 1) (dswap m j)); split=> //; first exact: dswap_iso.
    by rewrite /= nth_mkseq ?m0 ?swap_nth //=; [rewrite eqxx mulr1; exact: one_ne | lia].
  exists (smat (2 * m) (fun=> 1) (iota 0 (2 * m))); split=> //; first exact: one_elt.
  by rewrite diag_on //; exact: one_ne.
have h2 : (j - m < m)%N by lia.
exists m; first lia; split; first by exists (sympl RR m); split=> //; exact: sympl_iso.
exists (smat (2 * m) (fun=> 1) (dswap m (j - m))); split=> //; first exact: dswap_iso.
rewrite /= nth_mkseq // ltnNge h /= swap_nth // eqxx mul1r.
have -> : (m + (if j - m == 0 then j - m else 0))%N = m by case: ifP => [/eqP ->|_]; rewrite addn0.
by rewrite eqxx; exact: one_ne.
Qed.

