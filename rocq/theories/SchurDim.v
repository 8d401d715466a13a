(** * SchurDim: invariant tensors of SL(n), GL(n), Scaling(n), Sp(m) and the Lorentz groups. *)
From Coq Require Import Reals String ClassicalEpsilon Lra.
From mathcomp Require Import all_ssreflect all_algebra all_fingroup.
From mathcomp Require Import zify.
From Verif Require Import Np NpLemmas Spec SpecLemmas LinOp LinOpSpec LinOpInv LinOpProofs MxBridge Rep RepSpec RepMat RepWf RepAlg RepMul RepFun RepExpr RhoProofs RepThm RepThm1 Solver SolSpec Rstruct Expm GrpSpec GrpProofs.
From Verif Require Import Groups GroupsSpec GroupsPerm GroupsSpecR GroupsInit GroupsCtor GroupsThm GroupsFlag GroupsReal GroupsForm ExactSpec GroupsExact GroupsExactL GroupsExactD GroupsExactE GroupsExactS FlagThm.
From Verif Require Import Nn NnSpec NnThm Data DataSpec DataAlg DataThm DataGroups DataCubeThm DimSpec DimAlg DimComb DimTenSpec DimGrp DimTen DimPerm DimThm DimOrth DimForm SchurSpec SchurAlg SchurThm SchurGrp SchurLor.
Set Implicit Arguments.
Unset Strict Implicit.
Unset Printing Implicit Defensive.
Import GRing.Theory.
Local Open Scope ring_scope.

(** ** diagonal matrices on mixed tensors *)
Lemma act_diags n (ss : seq (nat -> RR)) : forall t v, tuple_ok n (size ss) t ->
  act (fkronl [seq smat n s (iota 0 n) | s <- ss]) v (num n t) = (\prod_(x <- zip ss t) x.1 x.2) * v (num n t).
Proof.
elim: ss => [|s ss IH] [|x t] v [] //= S.
  by move=> _; rewrite /act /= big_nat1 mul1r big_nil mul1r.
case: S => S /andP[Hx Ht]; have OK : tuple_ok n (size ss) t by [].
have [s1 s2] : fr (fkronl [seq smat n s0 (iota 0 n) | s0 <- ss]) = (n ^ size ss)%N /\ fc (fkronl [seq smat n s0 (iota 0 n) | s0 <- ss]) = (n ^ size ss)%N.
  by elim: (ss) => //= ? ss' [-> ->]; rewrite expnS.
rewrite S (@act_fkron _ _ n (n ^ size ss)%N) //; last by rewrite -S num_lt.
rewrite (sum_only (i := x)) //; last by move=> k Hk ne; rewrite diag_off ?mul0r // eq_sym.
by rewrite diag_on // IH // big_cons mulrA.
Qed.
Lemma fixes_diag n p q s s' v t : fixes (n ^ (p + q)) (tensor p q (smat n s (iota 0 n)) (smat n s' (iota 0 n))) v -> tuple_ok n (p + q) t ->
  (\prod_(x <- take p t) s x) * (\prod_(x <- drop p t) s' x) * nth 0 v (num n t) = nth 0 v (num n t).
Proof.
move=> F Ht; have [St At] := Ht; pose ss := nseq p s ++ nseq q s'.
have Ess : size ss = (p + q)%N by rewrite size_cat !size_nseq.
have E : meq (tensor p q (smat n s (iota 0 n)) (smat n s' (iota 0 n))) (fkronl [seq smat n s (iota 0 n) | s <- ss]).
  by rewrite map_cat !map_nseq; apply: meq_sym; exact: fkronl_cat.
have [t1 t2] := @tensor_sz n p q RR (smat n s (iota 0 n)) (smat n s' (iota 0 n)) erefl erefl erefl erefl.
have Hi : (num n t < n ^ (p + q))%N by rewrite -St; exact: num_lt.
have := F _ Hi; rewrite -t2 -/(act (tensor p q (smat n s (iota 0 n)) (smat n s' (iota 0 n))) (nth 0 v) (num n t)).
rewrite (act_meq _ E) ?t1 // act_diags ?Ess //.
suff -> : \prod_(x <- zip ss t) x.1 x.2 = (\prod_(x <- take p t) s x) * (\prod_(x <- drop p t) s' x) by [].
rewrite /ss -{1}(cat_take_drop p t) zip_cat ?size_takel ?size_nseq ?St ?leq_addr // big_cat /=; congr (_ * _).
  have : size (take p t) = p by rewrite size_takel // St leq_addr.
  by elim: (p) (take p t) => [|k IH] [|x u] //= => [_|[Su]]; rewrite ?big_nil // !big_cons IH.
have : size (drop p t) = q by rewrite size_drop St addKn.
by elim: (q) (drop p t) => [|k IH] [|x u] //= => [_|[Su]]; rewrite ?big_nil // !big_cons IH.
Qed.
Lemma diag_inv n s s' : (forall k, s k * s' k = 1) -> invTn n (smat n s (iota 0 n)) (smat n s' (iota 0 n)).
Proof.
move=> H; split=> //; split; split=> //= i j Hi Hj.
  rewrite (sum_only (i := i)) //; last by move=> k Hk ne; rewrite nth_iota // add0n eq_sym (negbTE ne) mulr0 mul0r.
  by rewrite !nth_iota // !add0n eqxx mulr1; case: (eqVneq i j) => [->|_]; [rewrite mulr1 H | rewrite !mulr0].
rewrite (sum_only (i := i)) //; last by move=> k Hk ne; rewrite nth_iota // add0n (negbTE ne) mulr0 mul0r.
by rewrite !nth_iota // !add0n eqxx mulr1; case: (eqVneq i j) => [->|_]; [rewrite mulr1 mulrC H | rewrite !mulr0].
Qed.
Lemma pow_inj a b : two ^+ a = two ^+ b -> a = b.
Proof.
have E k : @eq R (two ^+ k) (Rpow_def.pow (IZR 2) k) by elim: k => // k IH; rewrite exprS IH.
move=> H; have : @eq R (two ^+ a) (two ^+ b) by rewrite H.
rewrite !E => {}H; have [L|L|//] := ltngtP a b.
  have := Rlt_pow (IZR 2) a b ltac:(lra) ltac:(lia); rewrite H; lra.
have := Rlt_pow (IZR 2) b a ltac:(lra) ltac:(lia); rewrite H; lra.
Qed.
Lemma prod_stretch i j (u : seq nat) : i != j -> \prod_(x <- u) stretch i j x = two ^+ count_mem i u * half ^+ count_mem j u.
Proof.
move=> ne; elim: u => [|x u IH]; first by rewrite big_nil mulr1.
rewrite big_cons IH /stretch /=; have [->|n1] := eqVneq x i.
  by rewrite (negbTE ne) exprS mulrA.
by have [_|n2] := eqVneq x j; rewrite /= ?add0n ?mul1r // add1n exprS mulrCA.
Qed.
Lemma half_two a b : two ^+ (a + b) * half ^+ b = two ^+ a.
Proof. by rewrite exprD -mulrA -exprMn two_half expr1n mulr1. Qed.
Lemma sum_counts n (u : seq nat) : all (fun x => x < n)%N u -> (\sum_(i < n) count_mem (i : nat) u = size u)%N.
Proof.
elim: u => [|x u IH] /=; first by move=> _; rewrite big1.
case/andP=> Hx Hu; rewrite big_split /= IH // (bigD1 (Ordinal Hx)) //= eqxx big1 ?addn0 // => k ne.
by case: eqP => // E; move: ne; rewrite -(inj_eq val_inj) /= E eqxx.
Qed.

Lemma shuf (x y z w s t : RR) : (x * y) * (z * w) * (s * t) = x * z * ((s * y) * (t * w)).
Proof.
by change (@eq R (Rmult (Rmult (Rmult x y) (Rmult z w)) (Rmult s t)) (Rmult (Rmult x z) (Rmult (Rmult s y) (Rmult t w)))); ring.
Qed.

Section Main.
Variable recip : nat -> RR.
Variables (sinv : RR -> RR) (linv : nat -> seq RR -> seq RR).
Variables (crho cdrho : nat -> option gid -> gel RR -> res (op RR)).
Variables (gdim : gid -> nat) (csize : nat -> gid -> nat) (le : rel rep) (g : gid).
Variable G : gid -> group RR.
Variables (svd : nat -> nat -> seq RR -> seq RR * seq RR * seq RR) (big : pred RR).
Variable krylov : op RR -> res (darr RR).
Local Notation sz := (rsize gdim csize).
Local Notation gorth := (fun h => g_orth (G h)).
Local Notation rep_of := (rep_of gdim gorth csize le g).
Local Notation basis := (basis idR sinv linv crho cdrho gdim csize le (the_gens G) (the_lies G) svd big krylov).
Hypothesis HS : setting sinv linv crho cdrho gdim csize le g G svd big krylov.
Let one (p q n : nat) (J : fmat RR) : Prop :=
  exists r Q, [/\ rep_of (T_expr p q) r, sz r = (n * n)%N, returns (basis r) (n * n) 1 Q & spans (n * n) 1 Q (form_tensor n J)].
Let none (p q d : nat) : Prop := exists r Q, [/\ rep_of (T_expr p q) r, sz r = (d ^ (p + q))%N & returns (basis r) (d ^ (p + q)) 0 Q].

(** a set of diagonal elements that fixes no tensor but 0 *)
Lemma none_diag x d P p q : exact_group x d P -> x = Ok (G g) -> gdim g = d -> (0 < d)%N -> basic_group d (G g) -> tested d (G g) ->
  (forall A, fr A = d -> fc A = d -> P A -> exists B, invTn d A B) ->
  (forall t, tuple_ok d (p + q) t -> exists s s', [/\ forall k, s k * s' k = 1, P (smat d s (iota 0 d)) &
     (\prod_(x <- take p t) s x) * (\prod_(x <- drop p t) s' x) <> 1]) -> none p q d.
Proof.
move=> HX EG Ed d0 HB HT HP HD; have [r [k [Q [R1 R2 R3 [HQ HU]]]]] := tensors HS HX EG Ed d0 HB p q HP (tested_orth HX EG HT).
exists r, Q; split=> //; suff -> : 0%N = k by [].
apply/eqP; rewrite eq_sym -leqn0.
apply: (@points_le (d ^ (p + q))%N k Q _ [::] HQ HU) => // v Sv Uv _ i Hi.
have [t Ht <-] := num_surj Hi; have [s [s' [I Ps N]]] := HD t Ht.
have E := fixes_diag (Uv _ _ (diag_inv d I) Ps) Ht.
apply: (@mul_zero ((\prod_(x <- take p t) s x) * (\prod_(x <- drop p t) s' x) - 1)); first by rewrite mulrBl mul1r E subrr.
by move=> Z; apply: N; apply/eqP; rewrite -subr_eq0 Z.
Qed.
Lemma prod_const (c : RR) (u : seq nat) : \prod_(x <- u) c = c ^+ size u.
Proof. by rewrite big_const_seq count_predT iter_mulr_1. Qed.
Lemma scale_ne n p q t : p != q -> tuple_ok n (p + q) t -> (\prod_(x <- take p t) two) * (\prod_(x <- drop p t) half) <> 1.
Proof.
move=> ne [St _]; rewrite !prod_const size_takel ?St ?leq_addr // size_drop St addKn => E.
by case/eqP: ne; apply: pow_inj; rewrite -[RHS]mul1r -E -mulrA -exprMn [half * _]mulrC two_half expr1n mulr1.
Qed.
Section SL.
Variable n : nat.
Hypothesis n1 : (1 < n)%N.
Hypothesis EG : g_sl idR (@same RR) n = Ok (G g).
Hypothesis Ed : gdim g = n.
Let n0 : (0 < n)%N := ltnW n1.
Lemma sl_basic : basic_group n (G g).
Proof. by have [a Ea B] := sl_ok idR (@same RR) n1; apply: built_basic B EG _ _; [eexists | exact: arr_items]. Qed.
Lemma sl_tested : tested n (G g).
Proof. by have [a Ea B] := sl_ok idR (@same RR) n1; move: B EG; rewrite /g_sl Ea bindOk => B E; exact: built_tested B erefl erefl E. Qed.
Lemma sl_inv (A : fmat RR) : fr A = n -> fc A = n -> fdet n A = 1 -> exists B, invTn n A B.
Proof. by move=> a1 a2 D; apply: det_inv => //; rewrite D; exact: one_ne. Qed.
Theorem maps_sl : one 1 1 n (fid RR n).
Proof. exact: (schur_maps HS (exact_sl idR (@same RR) n1) EG Ed n0 sl_basic sl_tested sl_inv (@irr_sl n)). Qed.
Theorem none_sl p q : p <> q %[mod n] -> none p q n.
Proof.
move=> ne; apply: (none_diag (exact_sl idR (@same RR) n1) EG Ed n0 sl_basic sl_tested sl_inv) => t Ht.
pose a i := count_mem i (take p t); pose b i := count_mem i (drop p t).
have [j Hj] : exists2 j, (0 < j < n)%N & (a j + b 0 <> a 0 + b j)%N.
  have H : ~ forall j : 'I_n, (a j + b 0 = a 0 + b j)%N.
    move=> H; apply: ne.
    have : (\sum_(j < n) (a j + b 0%N) = \sum_(j < n) (a 0%N + b j))%N by apply: eq_bigr => j _; exact: H.
    have [St At] := Ht; move: At; rewrite -{1}(cat_take_drop p t) all_cat => /andP[A1 A2].
    rewrite !big_split /= !sum_nat_const card_ord /a /b !sum_counts // size_takel ?St ?leq_addr // size_drop St addKn => E.
    rewrite -(modnMDl (b 0%N) p) -(modnMDl (a 0%N) q); congr (_ %% _)%N; rewrite /a /b; lia.
  have [[j Hj] /eqP Nj|H'] := pickP (fun j : 'I_n => (a j + b 0 != a 0 + b j)%N).
    by exists j => //; rewrite Hj andbT lt0n; apply/eqP => E; subst j; apply: Nj; rewrite /= addnC.
  by case: H => j; apply/eqP; rewrite -[_ == _]negbK H'.
move=> Nj; case/andP: Hj => j0 jn; have ne2 : 0%N != j by rewrite eq_sym -lt0n.
have ne3 : j != 0%N by rewrite -lt0n.
exists (stretch 0 j), (stretch j 0); split.
- move=> k; rewrite /stretch; have [->|k0] := eqVneq k 0%N; first by rewrite (negbTE ne2) two_half.
  by have [_|kj] := eqVneq k j; rewrite ?mulr1 // mulrC two_half.
- exact: det_stretch.
rewrite !prod_stretch // -/(a 0%N) -/(a j) -/(b 0%N) -/(b j) => E; apply: Nj; apply/esym.
apply: pow_inj; rewrite -[RHS]mul1r -E.
by rewrite [two ^+ (a j + b 0%N)]exprD shuf -!exprMn two_half !expr1n !mulr1 -exprD.
Qed.
End SL.

Section GL.
Variable n : nat.
Hypothesis n0 : (0 < n)%N.
Hypothesis EG : g_gl idR (@same RR) n = Ok (G g).
Hypothesis Ed : gdim g = n.
Lemma gl_both : basic_group n (G g) /\ tested n (G g).
Proof.
case: n n0 EG => // m _ E; have [a Ea B] := gl_ok idR (@same RR) m; split.
  by apply: built_basic B E _ _; [eexists | exact: arr_items].
by move: B E; rewrite /g_gl Ea bindOk => B E; exact: built_tested B erefl erefl E.
Qed.
Lemma gl_inv (A : fmat RR) : fr A = n -> fc A = n -> Rlt R0 (fdet n A) -> exists B, invTn n A B.
Proof. by move=> a1 a2 D; apply: det_inv => // E; move: D; rewrite E; exact: Rlt_irrefl. Qed.
Theorem maps_gl : one 1 1 n (fid RR n).
Proof. by have [B T] := gl_both; exact: (schur_maps HS (exact_gl idR (@same RR) n0) EG Ed n0 B T gl_inv (@irr_gl n)). Qed.
Theorem none_gl p q : p != q -> none p q n.
Proof.
move=> ne; have [B T] := gl_both; apply: (none_diag (exact_gl idR (@same RR) n0) EG Ed n0 B T gl_inv) => t Ht.
exists (fun=> two), (fun=> half); split; [by move=> k; exact: two_half | | exact: scale_ne Ht].
rewrite det_smat det_pid mulr1 big_const card_ord iter_mulr_1.
elim: (n) => [|k IH]; first exact: Rlt_0_1.
by rewrite exprS; apply: Rmult_lt_0_compat; rewrite ?IH //; apply: (IZR_lt 0 2).
Qed.
End GL.

Section Scaling.
Variable n : nat.
Hypothesis n0 : (0 < n)%N.
Hypothesis EG : g_scaling idR (@same RR) n = Ok (G g).
Hypothesis Ed : gdim g = n.
Lemma scaling_both : basic_group n (G g) /\ tested n (G g).
Proof.
have B := scaling_ok idR (@same RR) n; split; first by apply: built_basic B EG _ _; [eexists | exact: arr_items].
exact: built_tested B erefl erefl EG.
Qed.
Lemma scaling_inv (A : fmat RR) : fr A = n -> fc A = n -> (exists2 c : RR, Rlt R0 c & meq A (fscale c (fid RR n))) -> exists B, invTn n A B.
Proof.
move=> a1 a2 [c c0 E]; exists (fscale (Rinv c) (fid RR n)).
have K : c * Rinv c = 1 by apply: Rinv_r => Z; move: c0; rewrite Z; exact: Rlt_irrefl.
have [_ _ E'] := E; split=> //; split; split=> //=; rewrite ?a1 ?a2 // => i j Hi Hj.
  rewrite (sum_only (i := i)) //; last by move=> k Hk ne; rewrite E' ?a1 ?a2 //= eq_sym (negbTE ne) mulr0 mul0r.
  by rewrite E' ?a1 ?a2 //= eqxx mulr1 mulrA K mul1r eq_sym.
rewrite (sum_only (i := i)) //; last by move=> k Hk ne; rewrite (negbTE ne) mulr0 mul0r.
by rewrite E' ?a1 ?a2 //= eqxx mulr1 mulrA [_ * c]mulrC K mul1r.
Qed.
Theorem none_scaling p q : p != q -> none p q n.
Proof.
move=> ne; have [B T] := scaling_both; apply: (none_diag (exact_scaling idR (@same RR) n0) EG Ed n0 B T scaling_inv) => t Ht.
exists (fun=> two), (fun=> half); split; [by move=> k; exact: two_half | | exact: scale_ne Ht].
exists two; first by apply: (IZR_lt 0 2).
by split=> //= i j Hi Hj; rewrite nth_iota // add0n.
Qed.
End Scaling.

Section Sp.
Variable m : nat.
Hypothesis m0 : (0 < m)%N.
Hypothesis EG : g_sp idR (@same RR) m = Ok (G g).
Hypothesis Ed : gdim g = (2 * m)%N.
Lemma sp_both : basic_group (2 * m) (G g) /\ tested (2 * m) (G g).
Proof.
case: m m0 EG => // k _ E; have [a Ea B] := sp_ok idR (@same RR) k; split.
  by apply: built_basic B E _ _; [eexists | exact: arr_items].
by move: B E; rewrite /g_sp Ea bindOk => B E; exact: built_tested B erefl erefl E.
Qed.
Lemma sp_inv (A : fmat RR) : fr A = (2 * m)%N -> fc A = (2 * m)%N -> isometry (sympl RR m) A -> exists B, invTn (2 * m) A B.
Proof. by move=> a1 a2 PA; apply: (@form_invTn _ (sympl RR m) (ftr (sympl RR m))) => //; exact: sympl_sq. Qed.
Theorem schur_sp : [/\ one 1 1 (2 * m) (fid RR (2 * m)), one 2 0 (2 * m) (sympl RR m) & one 0 2 (2 * m) (sympl RR m)].
Proof.
have [B T] := sp_both; have n0 : (0 < 2 * m)%N by rewrite muln_gt0.
have X := exact_sp idR (@same RR) m0.
have S : exists s : RR, s * s = 1 /\ meq (fmul (fscale s (sympl RR m)) (sympl RR m)) (fid RR (2 * m)).
  exists (-1); split; first by rewrite mulrNN mulr1.
  have E : meq (fscale (-1) (sympl RR m)) (ftr (sympl RR m)).
    split=> //= i j Hi Hj; rewrite mulN1r; case: (eqVneq j (m + i)%N) => [->|n1].
      by rewrite (_ : (i == m + (m + i))%N = false) //; apply/eqP; lia.
    by case: (eqVneq i (m + j)%N) => [_|_]; rewrite ?opprK ?oppr0.
  apply: meq_trans (sympl_sq m); exact: meq_fmul.
have mm : (m < 2 * m)%N by lia.
have E1 : fe (sympl RR m) 0 m = 1 by rewrite /= addn0 eqxx.
have [F2 F0] := schur_forms (J := sympl RR m) HS X EG Ed n0 B T sp_inv (@irr_sp m) erefl erefl S n0 mm E1 (fun A _ _ I => I).
by split=> //; exact: (schur_maps HS X EG Ed n0 B T sp_inv (@irr_sp m)).
Qed.
End Sp.

(** ** the Lorentz groups *)
Lemma mink_form n P x : exact_group x n P -> x = Ok (G g) -> gdim g = n -> (0 < n)%N -> basic_group n (G g) -> tested n (G g) ->
  irreducible_on n P -> (forall A, P A -> isometry (minkowski RR n) A) ->
  [/\ one 1 1 n (fid RR n), one 2 0 n (minkowski RR n) & one 0 2 n (minkowski RR n)].
Proof.
move=> X EG Ed n0 B T I HP.
have V (A : fmat RR) : fr A = n -> fc A = n -> P A -> exists B, invTn n A B.
  move=> a1 a2 PA; apply: (@form_invTn _ (minkowski RR n) (minkowski RR n)) => //; [exact: mink_sq | exact: HP].
have S : exists s : RR, s * s = 1 /\ meq (fmul (fscale s (minkowski RR n)) (minkowski RR n)) (fid RR n).
  exists 1; split; first exact: mulr1.
  apply: meq_trans (mink_sq n); apply: meq_fmul => //; split=> //= i j _ _; exact: mul1r.
have [F2 F0] := schur_forms (J := minkowski RR n) (a := 0%N) (b := 0%N) HS X EG Ed n0 B T V I erefl erefl S n0 n0 erefl (fun A _ _ PA => HP A PA).
split; [exact: (schur_maps HS X EG Ed n0 B T V I) | exact: F2 | exact: F0].
Qed.
Theorem schur_so13p : g_so13p idR recip (@same RR) = Ok (G g) -> gdim g = 4%N ->
  [/\ one 1 1 4 (fid RR 4), one 2 0 4 (minkowski RR 4) & one 0 2 4 (minkowski RR 4)].
Proof.
move=> EG Ed; have [a Ea B] := so13p_ok idR recip (@same RR).
have HB := built_basic B EG (ex_intro _ a erefl) (@arr_items _).
refine (mink_form (exact_so13p idR recip (@same RR)) EG Ed isT HB (so13p_tested EG) irr_so13p _).
move=> A [I _ _]; exact: I.
Qed.
Theorem schur_so13 : g_so13 idR recip (@same RR) = Ok (G g) -> gdim g = 4%N ->
  [/\ one 1 1 4 (fid RR 4), one 2 0 4 (minkowski RR 4) & one 0 2 4 (minkowski RR 4)].
Proof.
move=> EG Ed; have [a Ea B] := so13_ok idR recip (@same RR).
have HB := built_basic B EG (ex_intro _ a erefl) (@arr_items _).
refine (mink_form (exact_so13 idR recip (@same RR)) EG Ed isT HB (so13_tested EG) irr_so13 _).
move=> A [I _]; exact: I.
Qed.
Theorem schur_o13 s : g_o13_as idR recip (@same RR) s = Ok (G g) -> gdim g = 4%N ->
  [/\ one 1 1 4 (fid RR 4), one 2 0 4 (minkowski RR 4) & one 0 2 4 (minkowski RR 4)].
Proof.
move=> EG Ed; have [a [h [Ea Eh B]]] := o13_ok idR recip (@same RR) s.
have HB := built_basic B EG (ex_intro _ a erefl) (@arr_items _).
exact (mink_form (exact_o13 idR recip (@same RR) s) EG Ed isT HB (lor_tested EG) irr_o13 (fun A I => I)).
Qed.
Theorem schur_o11 : g_o11 idR (@same RR) = Ok (G g) -> gdim g = 2%N ->
  [/\ one 1 1 2 (fid RR 2), one 2 0 2 (minkowski RR 2) & one 0 2 2 (minkowski RR 2)].
Proof.
move=> EG Ed; have [h Eh B] := o11_ok idR (@same RR).
have HB := built_basic B EG (ex_intro _ _ erefl) (@arr_items _).
have T : tested 2 (G g) by move: (B) (EG); rewrite /g_o11 Eh bindOk => B' E'; exact: built_tested B' erefl erefl E'.
exact (mink_form (exact_o11 idR (@same RR)) EG Ed isT HB T irr_o11 (fun A I => I)).
Qed.
End Main.
