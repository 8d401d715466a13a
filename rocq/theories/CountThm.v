(** * CountThm: the number of columns of equivariant_basis of sums, multiples and products. *)
From Coq Require Import Reals.
From mathcomp Require Import all_ssreflect all_algebra.
From mathcomp Require Import zify.
From Verif Require Import Np NpLemmas Spec SpecLemmas LinOp LinOpSpec LinOpProofs Rep RepSpec RepMat RepWf RepFun RepOps RepThm RepThm1 RepDir Solver SolSpec SolAlg SolFam SolBasis SolThm Rstruct Expm GrpSpec GrpProofs.
From Verif Require Import Groups GroupsSpec GroupsReal GroupsPerm Nn NnSpec NnThm DimSol DimTenSpec DimTen DimGrp CharSO2 CountSpec.
Set Implicit Arguments.
Unset Strict Implicit.
Unset Printing Implicit Defensive.
Import GRing.Theory.
Local Open Scope ring_scope.

Lemma matvec_size m n (D v : seq RR) : size (matvec m n D v) = m.
Proof. by rewrite size_flat muln1. Qed.
Lemma nth_matvec m n (D v : seq RR) i : (i < m)%N -> nth 0 (matvec m n D v) i = \sum_(0 <= j < n) nth 0 D (i * n + j)%N * nth 0 v j.
Proof.
move=> Hi; rewrite /matvec; have := @nth_flat RR (fmul (unflat m n D) (unflat n 1 v)) i 0 Hi isT; rewrite /= muln1 addn0 => ->.
by apply: eq_sum => j Hj; rewrite muln1 addn0.
Qed.
(** block diagonal matrices *)
Lemma matvec_dsum na ka nb kb (A B w : seq RR) : size w = (ka + kb)%N ->
  matvec (na + nb) (ka + kb) (flat (fdsum (unflat na ka A) (unflat nb kb B))) w =
  matvec na ka A (take ka w) ++ matvec nb kb B (drop ka w).
Proof.
move=> Sw; have := @flat_fdsum RR (unflat na ka A) (unflat nb kb B) 1 w; rewrite /= !muln1 => /(_ Sw) <-.
apply: flat_meq; apply: (meq_fmul (@unflat_flat RR (fdsum (unflat na ka A) (unflat nb kb B))) (meq_refl _)); reflexivity.
Qed.
Lemma spans_dsum na ka Qa Ua nb kb Qb Ub U : spans na ka Qa Ua -> spans nb kb Qb Ub ->
  (forall v, size v = (na + nb)%N -> U v <-> Ua (take na v) /\ Ub (drop na v)) ->
  spans (na + nb) (ka + kb) (flat (fdsum (unflat na ka Qa) (unflat nb kb Qb))) U.
Proof.
move=> [MA HA] [MB HB] HU; split.
  have E := @unflat_flat RR (fdsum (unflat na ka Qa) (unflat nb kb Qb)); rewrite /= in E.
  apply: meq_trans (meq_fmul (meq_ftr E) E erefl) _.
  have T : meq (ftr (fdsum (unflat na ka Qa) (unflat nb kb Qb))) (fdsum (ftr (unflat na ka Qa)) (ftr (unflat nb kb Qb))).
    by split=> //= i j Hi Hj; case: ifP; case: ifP.
  apply: meq_trans (meq_fmul T (meq_refl _) erefl) _.
  apply: meq_trans (fmul_fdsum _ _) _ => //.
  by apply: meq_trans (meq_fdsum MA MB) (fdsum_id _ _ _).
move=> v Sv; rewrite HU //.
have S1 : size (take na v) = na by rewrite size_takel // Sv leq_addr.
have S2 : size (drop na v) = nb by rewrite size_drop Sv addKn.
rewrite HA // HB //; split=> [[[wa Swa Ea] [wb Swb Eb]]|[w Sw E]].
  exists (wa ++ wb); first by rewrite size_cat Swa Swb.
  by rewrite matvec_dsum ?size_cat ?Swa ?Swb // take_size_cat // drop_size_cat // Ea Eb cat_take_drop.
rewrite matvec_dsum // in E; have S := matvec_size na ka Qa (take ka w).
split; [exists (take ka w); first by rewrite size_takel // Sw leq_addr | exists (drop ka w); first by rewrite size_drop Sw addKn].
  by rewrite -E take_size_cat.
by rewrite -E drop_size_cat.
Qed.
(** exchanging the factors of a product *)
Definition flip (m n : nat) (v : seq RR) : seq RR := mkseq (fun t => nth 0 v ((t %% m) * n + t %/ m)%N) (n * m).
Lemma size_flip m n v : size (flip m n v) = (n * m)%N. Proof. exact: size_mkseq. Qed.
Lemma nth_flip m n v i j : (i < n)%N -> (j < m)%N -> nth 0 (flip m n v) (i * m + j) = nth 0 v (j * n + i)%N.
Proof. by move=> Hi Hj; rewrite nth_mkseq; [rewrite modnMDl divnMDl; [rewrite modn_small // divn_small // addn0 | lia] | nia]. Qed.
Lemma flipK m n v : size v = (m * n)%N -> flip n m (flip m n v) = v.
Proof.
move=> S; apply: (@mat_ext _ 0 m n) => //; first by rewrite size_flip.
by move=> i j Hi Hj; rewrite nth_flip // nth_flip.
Qed.
Lemma sum_flip m n (f : nat -> RR) : \sum_(0 <= t < n * m) f ((t %% m) * n + t %/ m)%N = \sum_(0 <= t < m * n) f t.
Proof.
rewrite !sum_mul exchange_big_nat /=; apply: eq_sum => j Hj; apply: eq_sum => i Hi.
by rewrite modnMDl divnMDl; [rewrite modn_small // divn_small // addn0 | lia].
Qed.
Definition flipQ (m n k : nat) (Q : seq RR) : seq RR := mkseq (fun t => let i := (t %/ k)%N in nth 0 Q (((i %% m) * n + i %/ m) * k + t %% k)%N) (n * m * k).
Lemma nth_flipQ m n k Q i j : (i < n * m)%N -> (j < k)%N -> nth 0 (flipQ m n k Q) (i * k + j) = nth 0 Q (((i %% m) * n + i %/ m) * k + j)%N.
Proof. by move=> Hi Hj; rewrite nth_mkseq; [rewrite /= modnMDl (modn_small Hj) divnMDl; [rewrite (divn_small Hj) addn0 | lia] | exact: idx_lt]. Qed.
Lemma spans_flip m n k Q U U' : spans (m * n) k Q U -> (forall v, size v = (n * m)%N -> U' v <-> U (flip n m v)) ->
  spans (n * m) k (flipQ m n k Q) U'.
Proof.
move=> [M H] HU; split.
  split=> //= i j Hi Hj; have [_ _ /(_ i j Hi Hj)] := M; rewrite /= => <-.
  rewrite -(@sum_flip m n (fun t => nth 0 Q (t * k + i)%N * nth 0 Q (t * k + j)%N)).
  by apply: eq_sum => t Ht; rewrite !nth_flipQ.
have E w : matvec (n * m) k (flipQ m n k Q) w = flip m n (matvec (m * n) k Q w).
  apply: (@eq_from_nth _ 0); rewrite matvec_size ?size_flip // => i Hi.
  rewrite nth_matvec // nth_mkseq // nth_matvec; last first.
    by have m0 : (0 < m)%N by [case: (m) Hi => //; rewrite muln0]; apply: idx_lt; [exact: ltn_pmod | rewrite ltn_divLR].
  by apply: eq_sum => j Hj; rewrite nth_flipQ.
move=> v Sv; rewrite HU // H ?size_flip // ; split=> -[w Sw Ew]; exists w => //.
  by rewrite E Ew flipK.
by rewrite -Ew E flipK // matvec_size.
Qed.
Lemma matvec_flip na nb (Da Db v : seq RR) : size v = (nb * na)%N ->
  matvec (na * nb) (na * nb) (kron2 na Da nb Db) (flip nb na v) = flip nb na (matvec (nb * na) (nb * na) (kron2 nb Db na Da) v).
Proof.
move=> Sv; apply: (@mat_ext _ 0 na nb); rewrite ?matvec_size ?size_flip // => i j Hi Hj.
have Hij : (i * nb + j < na * nb)%N by apply: idx_lt.
have Hji : (j * na + i < nb * na)%N by apply: idx_lt.
have K m n D D' a b c d : (a < m)%N -> (b < n)%N -> (c < m)%N -> (d < n)%N ->
    nth 0 (kron2 m D n D') ((a * n + b) * (m * n) + (c * n + d)) = nth 0 D (a * m + c)%N * nth 0 D' (b * n + d)%N :> RR.
  move=> h1 h2 h3 h4; have := @nth_flat RR (fkron (unflat m m D) (unflat n n D')) (a * n + b) (c * n + d) (idx_lt h1 h2) (idx_lt h3 h4).
  rewrite /kron2 /= => ->; rewrite !modnMDl (modn_small h2) (modn_small h4) !divnMDl; try lia.
  by rewrite (divn_small h2) (divn_small h4) !addn0.
rewrite nth_flip // !nth_matvec // !sum_mul exchange_big_nat /=; apply: eq_sum => l Hl; apply: eq_sum => k Hk.
by rewrite !K // nth_flip // [X in X * _]mulrC.
Qed.
Lemma kron_dsum na (Da : seq RR) nb Db nc Dc :
  kron2 (na + nb) (bdiag na Da nb Db) nc Dc = bdiag (na * nc) (kron2 na Da nc Dc) (nb * nc) (kron2 nb Db nc Dc).
Proof.
apply: flat_meq; have E := @unflat_flat RR (fdsum (unflat na na Da) (unflat nb nb Db)); rewrite /= in E.
apply: meq_trans (meq_fkron E (meq_refl _)) _.
have E1 := @unflat_flat RR (fkron (unflat na na Da) (unflat nc nc Dc)); have E2 := @unflat_flat RR (fkron (unflat nb nb Db) (unflat nc nc Dc)).
rewrite /= in E1 E2; apply: meq_trans (meq_sym (meq_fdsum E1 E2)).
split; rewrite /= ?mulnDl // => i j Hi Hj; rewrite -mulnDl in Hi Hj.
have n0 : (0 < nc)%N by case: (nc) Hi => //; rewrite muln0.
rewrite !ltn_divLR //; case: ltnP => Hi1; case: ltnP => Hj1 //; rewrite ?mul0r //.
have D x : (na * nc <= x)%N -> ((x - na * nc) %/ nc = x %/ nc - na)%N /\ ((x - na * nc) %% nc = x %% nc)%N.
  by move=> Hx; have [y ->] : exists y, x = (na * nc + y)%N; [exists (x - na * nc)%N; rewrite subnKC | rewrite addKn divnMDl // modnMDl addKn].
by have [-> ->] := D i Hi1; have [-> ->] := D j Hj1.
Qed.
Lemma invT_uniq n (D D1 D2 : seq RR) : size D1 = (n * n)%N -> size D2 = (n * n)%N ->
  is_invT (unflat n n D) (unflat n n D1) -> is_invT (unflat n n D) (unflat n n D2) -> D1 = D2.
Proof.
move=> S1 S2 [/= a1 b1] [/= a2 b2]; rewrite -(flat_unflat S1) -(flat_unflat S2); apply: flat_meq.
have L : meq (ftr (unflat n n D1)) (ftr (unflat n n D2)).
  apply: meq_trans (meq_sym (fmul_id_r (n := n) _)) _; first by [].
  apply: meq_trans (meq_fmul (meq_refl (ftr (unflat n n D1))) (meq_sym a2) _) _; first by [].
  apply: meq_trans (fmul_assoc _ _ _) _.
  by apply: meq_trans (meq_fmul b1 (meq_refl (ftr (unflat n n D2))) _) _; [|exact: fmul_id_l].
by have := meq_ftr L; rewrite /ftr /=.
Qed.
Lemma invT_dsum na (Da Da' : seq RR) nb Db Db' : is_invT (unflat na na Da) (unflat na na Da') -> is_invT (unflat nb nb Db) (unflat nb nb Db') ->
  is_invT (unflat (na + nb) (na + nb) (bdiag na Da nb Db)) (unflat (na + nb) (na + nb) (bdiag na Da' nb Db')).
Proof.
move=> [/= a1 a2] [/= b1 b2].
have E := @unflat_flat RR (fdsum (unflat na na Da) (unflat nb nb Db)); have E' := @unflat_flat RR (fdsum (unflat na na Da') (unflat nb nb Db')).
rewrite /= in E E'.
have T : meq (ftr (fdsum (unflat na na Da') (unflat nb nb Db'))) (fdsum (ftr (unflat na na Da')) (ftr (unflat nb nb Db'))).
  by split=> //= i j Hi Hj; case: ifP; case: ifP.
have {T}E' := meq_trans (meq_ftr E') T.
split=> /=.
  apply: meq_trans (meq_fmul E E' erefl) _; apply: meq_trans (fmul_fdsum _ _) _ => //.
  by apply: meq_trans (meq_fdsum a1 b1) (fdsum_id _ _ _).
apply: meq_trans (meq_fmul E' E erefl) _; apply: meq_trans (fmul_fdsum _ _) _ => //.
by apply: meq_trans (meq_fdsum a2 b2) (fdsum_id _ _ _).
Qed.

Section Count.
Variables (sinv : RR -> RR) (linv : nat -> seq RR -> seq RR).
Variables (crho cdrho : nat -> option gid -> gel RR -> res (op RR)).
Variables (gdim : gid -> nat) (gorth : gid -> bool) (csize : nat -> gid -> nat) (le : rel rep) (g : gid).
Variables (gens lies : gid -> seq (op RR)).
Variables (svd : nat -> nat -> seq RR -> seq RR * seq RR * seq RR) (big : pred RR).
Variable krylov : op RR -> res (darr RR).
Local Notation gs := (pred1 g).
Local Notation sz := (rsize gdim csize).
Local Notation wfr := (wfr gdim csize le gs).
Local Notation elem := (element sinv linv gdim gens lies g).
Local Notation group_elem := (group_elem idR sinv linv crho gdim csize gs).
Local Notation orth_elem := (orth_elem crho gdim csize gorth gs).
Local Notation rho_dense := (rho_dense idR sinv linv crho).
Local Notation basis := (basis idR sinv linv crho cdrho gdim csize le gens lies svd big krylov).
Local Notation solver_ok := (solver_ok idR gdim sinv linv crho cdrho csize gens lies svd big krylov).
Local Notation inv r := (group_invariant sinv linv crho gdim csize gs gens lies r).
Local Notation add := (add gdim csize le).
Local Notation mul := (mul gdim csize le).
Local Notation tr := (tr gdim gorth csize le).
Local Notation rshift := (rshift gdim gorth csize le).
Local Notation mul_int := (mul_int gdim csize le).
Hypothesis HLI : linv_ok linv.
Hypothesis HC : customs_ok sinv linv crho cdrho gdim csize gs.
Hypothesis HGen : generators_ok idR gdim sinv linv crho cdrho csize gs gens lies.
Hypothesis O : total_order_on (key gdim csize le gs) le.
Hypothesis HS : forall c, solver_ok c.

Local Notation columns := (basis_columns sinv linv crho cdrho gdim csize le gens lies svd big krylov).
Lemma columns_uniq r k k' : columns r k -> columns r k' -> k = k'.
Proof. by move=> [Q [B E D]] [Q' [B' E' D']]; rewrite E in E'; case: E' => ?; subst B'; rewrite D in D'; case: D'. Qed.
Lemma no_dir r : wfr r -> factors_nonzero idR gdim sinv linv crho cdrho csize gs gens lies r.
Proof.
have ND dd p : ~~ isdir gdim csize le gs (RDir dd p).
  apply/negP => /= /andP[/and4P[/and5P[_ A _ _ _] _ L U] _].
  case: dd A L U => [|[k1 n1] [|[k2 n2] dd]] //= /and3P[/dkey_gattr[g1 E1 /eqP e1] /dkey_gattr[g2 E2 /eqP e2] _] _.
  by rewrite E1 E2 e1 e2 inE eqxx.
have NS dd p : ~~ nonsum gdim csize le gs (RDir dd p) by apply/negP => /or4P[] // ; exact/negP.
case/orP=> [N|S] dd p k Hd Hk.
  by case: r N Hd => // dd' p' N; rewrite inE => /eqP E; rewrite -E in N; case/negP: (NS dd p).
case: r S Hd => // ds p' /andP[/and5P[_ A _ _ _] _] Hd; have /andP[N _] := allP A _ Hd.
by case/negP: (NS dd p).
Qed.
Lemma counted r : wfr r -> exists k Q, returns (basis r) (sz r) k Q /\ spans (sz r) k Q (inv r).
Proof.
move=> W; case: (HGen) => HG HL h1 h0.
have [B [k [Q [E D M H]]]] := @basis_mat RR idR sinv linv crho cdrho gdim csize le gs gens lies svd big krylov
  (fun _ _ => erefl) (fun _ => erefl) erefl erefl HG HL h1 h0 O r W (fun c _ => @HS c) (no_dir W).
exists k, Q; split; first by exists B.
split=> // v S; rewrite -(H v S); split; [exact: (group_invariant_inv HLI HC HGen W S) | exact: (invariant_group HLI HC HGen W S)].
Qed.
Lemma columns_spans r k : wfr r -> columns r k -> exists Q, spans (sz r) k Q (inv r).
Proof. by move=> W C; have [k' [Q [R S]]] := counted W; exists Q; rewrite (columns_uniq C (ex_intro _ Q R)). Qed.
Lemma spans_columns r k Q : wfr r -> spans (sz r) k Q (inv r) -> columns r k.
Proof. by move=> W S; have [k' [Q' [R S']]] := counted W; rewrite (spans_uniq S S'); exists Q'. Qed.
Lemma rho_of r M : wfr r -> group_elem M -> exists2 D, rho_dense r M = Ok (sz r, sz r, D) & size D = (sz r * sz r)%N.
Proof. exact: wf_size. Qed.
(** a and b have the same matrices *)
Definition same_rho (a b : rep) : Prop := forall M, elem M -> rho_dense a M = rho_dense b M.
Lemma same_inv a b v : sz a = sz b -> same_rho a b -> inv a v <-> inv b v.
Proof.
by move=> Es Er; split=> H M X GX HM; have := H M X GX HM; rewrite Es Er //; exists X.
Qed.
Lemma same_columns a b k : wfr a -> wfr b -> sz a = sz b -> same_rho a b -> columns a k -> columns b k.
Proof.
move=> Wa Wb Es Er C; have [Q S] := columns_spans Wa C; apply: (spans_columns (Q := Q) Wb); rewrite -Es.
by apply: (DimTen.spans_iff _ S) => v _; exact: same_inv.
Qed.
Lemma eg M : elem M -> group_elem M. Proof. by move=> [X _ HM]; exact: (is_elem HC HM). Qed.
Lemma sz_of r n : wfr r -> size_py gdim csize r = Ok n -> sz r = n.
Proof. by move=> W; rewrite (size_py_ok W) => -[]. Qed.
Lemma add_r a b : wfr a -> wfr b -> exists r, [/\ add a b = Ok r, wfr r, sz r = (sz a + sz b)%N &
  forall M, elem M -> exists Da Db, [/\ rho_dense a M = Ok (sz a, sz a, Da), rho_dense b M = Ok (sz b, sz b, Db) &
    rho_dense r M = Ok (sz a + sz b, sz a + sz b, bdiag (sz a) Da (sz b) Db)%N]].
Proof.
move=> Wa Wb; have [r [E W /(sz_of W) S]] := add_size O Wa Wb; exists r; split=> // M /eg HM.
by have [r' [Da [Db [E' h1 h2 h3]]]] := add_thm O Wa Wb HM; rewrite E in E'; case: E' => ?; subst r'; exists Da, Db.
Qed.
Lemma mul_r a b : wfr a -> wfr b -> exists r, [/\ mul a b = Ok r, wfr r, sz r = (sz a * sz b)%N &
  forall M, elem M -> exists Da Db, [/\ rho_dense a M = Ok (sz a, sz a, Da), rho_dense b M = Ok (sz b, sz b, Db) &
    rho_dense r M = Ok (sz a * sz b, sz a * sz b, kron2 (sz a) Da (sz b) Db)%N]].
Proof.
move=> Wa Wb; have [r [E W /(sz_of W) S]] := mul_size O Wa Wb; exists r; split=> // M /eg HM.
by have [r' [Da [Db [E' _ h1 h2 h3]]]] := mul_thm O Wa Wb HM; rewrite E in E'; case: E' => ?; subst r'; exists Da, Db.
Qed.
(** sums *)
Lemma cat_eq (T : eqType) (a b c d : seq T) : size a = size c -> a ++ b = c ++ d <-> a = c /\ b = d.
Proof. by move=> S; split=> [/eqP|[-> ->] //]; rewrite eqseq_cat // => /andP[/eqP -> /eqP ->]. Qed.
Theorem sum_columns a b : wfr a -> wfr b ->
  exists r ka kb, [/\ add a b = Ok r, wfr r, columns a ka, columns b kb & columns r (ka + kb)].
Proof.
move=> Wa Wb; have [r [E W S H]] := add_r Wa Wb.
have [ka [Qa [Ra Sa]]] := counted Wa; have [kb [Qb [Rb Sb]]] := counted Wb.
exists r, ka, kb; split=> //; [by exists Qa | by exists Qb |].
apply: (spans_columns (Q := flat (fdsum (unflat (sz a) ka Qa) (unflat (sz b) kb Qb))) W); rewrite S.
apply: (spans_dsum Sa Sb) => v Sv.
have S1 : size (take (sz a) v) = sz a by rewrite size_takel // Sv leq_addr.
have X M : elem M -> exists Da Db, [/\ rho_dense a M = Ok (sz a, sz a, Da), rho_dense b M = Ok (sz b, sz b, Db),
    rho_dense r M = Ok (sz r, sz r, bdiag (sz a) Da (sz b) Db) &
    matvec (sz r) (sz r) (bdiag (sz a) Da (sz b) Db) v = v <->
    matvec (sz a) (sz a) Da (take (sz a) v) = take (sz a) v /\ matvec (sz b) (sz b) Db (drop (sz a) v) = drop (sz a) v].
  move=> EM; have [Da [Db [h1 h2 h3]]] := H M EM; exists Da, Db; rewrite S; split=> //.
  by rewrite matvec_dsum // -{3}(cat_take_drop (sz a) v) cat_eq // matvec_size S1.
split=> [I|[Ia Ib] M Y GY HM].
  split=> M Y GY HM; have EM : elem M by [exists Y]; have [Da [Db [h1 h2 h3 h4]]] := X M EM.
    by exists Da => //; have [D] := I M Y GY HM; rewrite h3 => -[<-] /h4[].
  by exists Db => //; have [D] := I M Y GY HM; rewrite h3 => -[<-] /h4[].
have EM : elem M by [exists Y]; have [Da [Db [h1 h2 h3 h4]]] := X M EM.
exists (bdiag (sz a) Da (sz b) Db) => //; apply/h4; split.
  by have [D] := Ia M Y GY HM; rewrite h1 => -[<-].
by have [D] := Ib M Y GY HM; rewrite h2 => -[<-].
Qed.
(** exchange of the factors *)
Theorem swap_columns a b : wfr a -> wfr b ->
  exists r r' k, [/\ mul a b = Ok r, mul b a = Ok r', wfr r /\ wfr r', columns r k & columns r' k].
Proof.
move=> Wa Wb; have [r [E W S H]] := mul_r Wa Wb; have [r' [E' W' S' H']] := mul_r Wb Wa.
have [k [Q [R Sp]]] := counted W; exists r, r', k; split=> //; first by exists Q.
apply: (spans_columns (Q := flipQ (sz a) (sz b) k Q) W'); rewrite S' ; rewrite S in Sp.
apply: (spans_flip Sp) => v Sv.
have X M : elem M -> exists D D', [/\ rho_dense r M = Ok (sz r, sz r, D), rho_dense r' M = Ok (sz r', sz r', D') &
    matvec (sz r) (sz r) D (flip (sz b) (sz a) v) = flip (sz b) (sz a) v <-> matvec (sz r') (sz r') D' v = v].
  move=> EM; have [Da [Db [h1 h2 h3]]] := H M EM; have [Db' [Da' [h1' h2' h3']]] := H' M EM.
  rewrite h1' in h2; case: h2 => ?; subst Db'; rewrite h2' in h1; case: h1 => ?; subst Da'.
  exists (kron2 (sz a) Da (sz b) Db), (kron2 (sz b) Db (sz a) Da); rewrite S S'; split=> //.
  rewrite matvec_flip //; split=> [F|->] //.
  by rewrite -[RHS](flipK Sv) -F flipK // matvec_size.
split=> I M Y GY HM; have EM : elem M by [exists Y]; have [D [D' [h1 h2 h3]]] := X M EM.
  by exists D => //; have [D0] := I M Y GY HM; rewrite h2 => -[<-] /h3.
by exists D' => //; have [D0] := I M Y GY HM; rewrite h1 => -[<-] /h3.
Qed.
(** same matrices *)
Lemma mul_same a a' b b' r r' : wfr a -> wfr a' -> wfr b -> wfr b' -> sz a = sz a' -> sz b = sz b' ->
  same_rho a a' -> same_rho b b' -> mul a b = Ok r -> mul a' b' = Ok r' -> [/\ sz r = sz r', wfr r, wfr r' & same_rho r r'].
Proof.
move=> Wa Wa' Wb Wb' Sa Sb Ra Rb E E'; have [r0 [E0 W S H]] := mul_r Wa Wb; have [r0' [E0' W' S' H']] := mul_r Wa' Wb'.
rewrite E in E0; rewrite E' in E0'; case: E0 => ?; case: E0' => ?; subst r0 r0'; split=> //; first by rewrite S S' Sa Sb.
move=> M EM; have [Da [Db [h1 h2 ->]]] := H M EM; have [Da' [Db' [h1' h2' ->]]] := H' M EM.
by move: h1 h2; rewrite Ra // Rb // h1' h2' Sa Sb => -[->] [->].
Qed.
Lemma add_same a a' b b' r r' : wfr a -> wfr a' -> wfr b -> wfr b' -> sz a = sz a' -> sz b = sz b' ->
  same_rho a a' -> same_rho b b' -> add a b = Ok r -> add a' b' = Ok r' -> [/\ sz r = sz r', wfr r, wfr r' & same_rho r r'].
Proof.
move=> Wa Wa' Wb Wb' Sa Sb Ra Rb E E'; have [r0 [E0 W S H]] := add_r Wa Wb; have [r0' [E0' W' S' H']] := add_r Wa' Wb'.
rewrite E in E0; rewrite E' in E0'; case: E0 => ?; case: E0' => ?; subst r0 r0'; split=> //; first by rewrite S S' Sa Sb.
move=> M EM; have [Da [Db [h1 h2 ->]]] := H M EM; have [Da' [Db' [h1' h2' ->]]] := H' M EM.
by move: h1 h2; rewrite Ra // Rb // h1' h2' Sa Sb => -[->] [->].
Qed.
(** products of sums *)
Theorem left_columns a b c : wfr a -> wfr b -> wfr c ->
  exists ab r r1 r2 k1 k2, [/\ add a b = Ok ab /\ wfr ab, mul ab c = Ok r /\ wfr r, mul a c = Ok r1 /\ columns r1 k1, mul b c = Ok r2 /\ columns r2 k2 & columns r (k1 + k2)].
Proof.
move=> Wa Wb Wc; have [ab [E W S H]] := add_r Wa Wb; have [r [Er Wr Sr Hr]] := mul_r W Wc.
have [r1 [E1 W1 S1 H1]] := mul_r Wa Wc; have [r2 [E2 W2 S2 H2]] := mul_r Wb Wc.
have [s [k1 [k2 [Es Ws C1 C2 Cs]]]] := sum_columns W1 W2.
exists ab, r, r1, r2, k1, k2; split=> //.
have [s' [Es' _ Ss Hs]] := add_r W1 W2; rewrite Es in Es'; case: Es' => ?; subst s'.
have Ssr : sz s = sz r by rewrite Ss Sr S S1 S2 mulnDl.
apply: (same_columns Ws Wr Ssr _ Cs) => M EM.
have [Da [Db [a1 a2 a3]]] := H M EM; have [Dab [Dc [b1 b2 ->]]] := Hr M EM.
have [Da' [Dc' [c1 c2 c3]]] := H1 M EM; have [Db' [Dc2 [d1 d2 d3]]] := H2 M EM.
have [D1 [D2 [e1 e2 ->]]] := Hs M EM.
rewrite c1 in a1; rewrite c2 in b2; rewrite d1 in a2; rewrite d2 in c2.
case: a1 => ?; case: b2 => ?; case: a2 => ?; case: c2 => ?; subst Da' Dc' Db' Dc2.
rewrite a3 -S in b1; case: b1 => ?; subst Dab; rewrite c3 -S1 in e1; case: e1 => ?; subst D1.
rewrite d3 -S2 in e2; case: e2 => ?; subst D2.
by rewrite S kron_dsum S1 S2 -mulnDl.
Qed.
Theorem right_columns a b c : wfr a -> wfr b -> wfr c ->
  exists ab r r1 r2 k1 k2, [/\ add a b = Ok ab /\ wfr ab, mul c ab = Ok r /\ wfr r, mul c a = Ok r1 /\ columns r1 k1, mul c b = Ok r2 /\ columns r2 k2 & columns r (k1 + k2)].
Proof.
move=> Wa Wb Wc; have [ab [r [r1 [r2 [k1 [k2 [[E W] [Er Wr] [E1 C1] [E2 C2] C]]]]]]] := left_columns Wa Wb Wc.
have [x [r' [k [Ex Er' [_ Wr'] Cx Cr']]]] := swap_columns W Wc; rewrite Er in Ex; case: Ex => ?; subst x.
have [x [r1' [k1' [Ex Er1 [_ Wr1'] Cx1 Cr1']]]] := swap_columns Wa Wc; rewrite E1 in Ex; case: Ex => ?; subst x.
have [x [r2' [k2' [Ex Er2 [_ Wr2'] Cx2 Cr2']]]] := swap_columns Wb Wc; rewrite E2 in Ex; case: Ex => ?; subst x.
rewrite (columns_uniq Cx C) in Cr'; rewrite (columns_uniq Cx1 C1) in Cr1'; rewrite (columns_uniq Cx2 C2) in Cr2'.
by exists ab, r', r1', r2', k1, k2.
Qed.
(** multiples *)
Lemma nseq_dsum n m (D : seq RR) : flat (fdsuml (nseq m.+1 (unflat n n D))) =
  bdiag n D (m * n) (flat (fdsuml (nseq m (unflat n n D)))).
Proof.
apply: flat_meq; rewrite /=; apply: meq_fdsum; first exact: meq_refl.
by apply: meq_sym; have := @unflat_flat RR (fdsuml (nseq m (unflat n n D))); rewrite fr_nseq fc_nseq.
Qed.
Lemma mulint_r a n : wfr a -> exists r, [/\ mul_int a (Posz n.+1) = Ok (VRep r), wfr r, sz r = (n.+1 * sz a)%N &
  forall M, elem M -> exists2 Da, rho_dense a M = Ok (sz a, sz a, Da) &
    rho_dense r M = Ok (n.+1 * sz a, n.+1 * sz a, flat (fdsuml (nseq n.+1 (unflat (sz a) (sz a) Da))))%N].
Proof.
move=> Wa; have [r [E W /(sz_of W) S]] := mulint_size O n Wa; exists r; split=> // M /eg HM.
by have [r' [Da [E' _ h1 h2]]] := mulint_thm O n Wa HM; rewrite E in E'; case: E' => ?; subst r'; exists Da.
Qed.
Theorem mult_columns a n : wfr a -> exists r k, [/\ mul_int a (Posz n.+1) = Ok (VRep r), wfr r, columns a k & columns r (n.+1 * k)].
Proof.
move=> Wa; elim: n => [|n [r [k [E W C Cr]]]].
  have [r [E W S H]] := mulint_r 0 Wa; have [k [Q [R _]]] := counted Wa; have C : columns a k by exists Q.
  exists r, k; split=> //; rewrite mul1n; rewrite mul1n in S; apply: (same_columns Wa W _ _ C) => // M EM.
  have [D h1 ->] := H M EM; have [D' h1' SD] := rho_of Wa (eg EM); rewrite h1' in h1; case: h1 => ?; subst D'.
  rewrite h1' mul1n; congr (Ok (_, _)); rewrite -{1}(flat_unflat SD); apply: flat_meq => /=.
  by split=> /=; rewrite ?addn0 // => i j Hi Hj; rewrite Hi Hj.
have [r' [E' W' S' H']] := mulint_r n.+1 Wa; exists r', k; split=> //.
have [s [ka [kb [Es Ws Ca Cb Cs]]]] := sum_columns Wa W.
rewrite (columns_uniq Ca C) (columns_uniq Cb Cr) in Cs; rewrite mulSn.
have [s' [Es' _ Ss Hs]] := add_r Wa W; rewrite Es in Es'; case: Es' => ?; subst s'.
have [r0 [E0 _ S0 H0]] := mulint_r n Wa; rewrite E in E0; case: E0 => ?; subst r0.
apply: (same_columns Ws W' _ _ Cs); first by rewrite Ss S' S0 mulSn.
move=> M EM; have [Da [Dr [h1 h2 ->]]] := Hs M EM; have [D h3 ->] := H' M EM; have [D2 h4 h5] := H0 M EM.
rewrite h4 in h3; rewrite h4 in h1; case: h3 => ?; case: h1 => ?; subst D2 Da.
by rewrite h5 S0 in h2; case: h2 => <-; rewrite S0 nseq_dsum -mulSn.
Qed.
(** duals *)
Hypothesis HO : forall M, elem M -> orth_elem M.
Lemma tr_r a : wfr a -> exists r, [/\ tr a = Ok r, wfr r, sz r = sz a &
  forall M, elem M -> exists D D', [/\ rho_dense a M = Ok (sz a, sz a, D), rho_dense r M = Ok (sz a, sz a, D'),
    is_invT (unflat (sz a) (sz a) D) (unflat (sz a) (sz a) D') & gorth g -> D' = D]].
Proof.
move=> Wa; have [r [E W /(sz_of W) S]] := tr_size gorth O Wa; exists r; split=> // M EM.
by have [r' [D [D' [E' _ h1 h2 [h3 h4]]]]] := tr_thm O Wa (eg EM) (HO EM); rewrite E in E'; case: E' => ?; subst r'; exists D, D'.
Qed.
Lemma tr_sum a b ab ta tb s t : wfr a -> wfr b -> add a b = Ok ab -> tr a = Ok ta -> tr b = Ok tb -> add ta tb = Ok s -> tr ab = Ok t ->
  [/\ wfr ta /\ wfr tb, wfr s, wfr t, sz s = sz t & same_rho s t].
Proof.
move=> Wa Wb E Ea Eb Es Et; have [x [Ex W S H]] := add_r Wa Wb; rewrite E in Ex; case: Ex => ?; subst x.
have [x [Ex Wta Sa Ha]] := tr_r Wa; rewrite Ea in Ex; case: Ex => ?; subst x.
have [x [Ex Wtb Sb Hb]] := tr_r Wb; rewrite Eb in Ex; case: Ex => ?; subst x.
have [x [Ex Ws Ss Hs]] := add_r Wta Wtb; rewrite Es in Ex; case: Ex => ?; subst x.
have [x [Ex Wt St Ht]] := tr_r W; rewrite Et in Ex; case: Ex => ?; subst x.
split=> //; first by rewrite Ss St Sa Sb S.
move=> M EM; have [Da [Db [a1 a2 a3]]] := H M EM; have [Da1 [Da' [b1 b2 b3 _]]] := Ha M EM; have [Db1 [Db' [c1 c2 c3 _]]] := Hb M EM.
have [D1 [D2 [d1 d2 d3]]] := Hs M EM; have [Dab [Dt [e1 e2 e3 _]]] := Ht M EM.
rewrite a1 in b1; rewrite a2 in c1; case: b1 => ?; case: c1 => ?; subst Da1 Db1.
rewrite b2 Sa in d1; rewrite c2 Sb in d2; case: d1 => ?; case: d2 => ?; subst D1 D2.
rewrite a3 S in e1; case: e1 => ?; subst Dab.
rewrite d3 e2 Sa Sb S; congr (Ok (_, _)); rewrite S in e3.
have [Dt' x1 x2] := rho_of Wt (eg EM); rewrite e2 St in x1; case: x1 => ?; subst Dt'.
apply: (invT_uniq _ _ (invT_dsum b3 c3) e3); last by rewrite x2 St S.
by rewrite /bdiag size_flat.
Qed.
Lemma shift_ok a b : wfr a -> wfr b -> exists t r, [/\ tr a = Ok t, wfr t, mul b t = Ok r, wfr r & rshift a b = Ok r].
Proof.
move=> Wa Wb; have [t [E W _ _]] := tr_r Wa; have [r [Er Wr _ _]] := mul_r Wb W.
by exists t, r; split=> //; rewrite /rshift E.
Qed.
Definition shift_columns (a b : rep) (k : nat) : Prop := exists2 r, rshift a b = Ok r & wfr r /\ columns r k.
Lemma shift_uniq a b k k' : shift_columns a b k -> shift_columns a b k' -> k = k'.
Proof. by move=> [r E [_ C]] [r' E' [_ C']]; rewrite E in E'; case: E' => ?; subst r'; exact: columns_uniq C C'. Qed.
Lemma shift_exists a b : wfr a -> wfr b -> exists k, shift_columns a b k.
Proof.
move=> Wa Wb; have [t [r [E W Er Wr Es]]] := shift_ok Wa Wb; have [k [Q [R _]]] := counted Wr.
by exists k, r => //; split=> //; exists Q.
Qed.
Theorem shift_out a b c ab : wfr a -> wfr b -> wfr c -> add a b = Ok ab -> forall k1 k2,
  shift_columns c a k1 -> shift_columns c b k2 -> shift_columns c ab (k1 + k2).
Proof.
move=> Wa Wb Wc E k1 k2 [r1 E1 [W1 C1]] [r2 E2 [W2 C2]].
have [t [Et Wt _ _]] := tr_r Wc; rewrite /rshift Et /= in E1 E2.
have [ab' [r [r1' [r2' [k1' [k2' [[E' W] [Er Wr] [E1' C1'] [E2' C2'] C]]]]]]] := left_columns Wa Wb Wt.
rewrite E in E'; rewrite E1 in E1'; rewrite E2 in E2'; case: E' => ?; case: E1' => ?; case: E2' => ?; subst ab' r1' r2'.
rewrite (columns_uniq C1 C1') (columns_uniq C2 C2'); exists r; last by [].
by rewrite /rshift Et.
Qed.
Theorem shift_in a b c ab : wfr a -> wfr b -> wfr c -> add a b = Ok ab -> forall k1 k2,
  shift_columns a c k1 -> shift_columns b c k2 -> shift_columns ab c (k1 + k2).
Proof.
move=> Wa Wb Wc E k1 k2 [r1 E1 [W1 C1]] [r2 E2 [W2 C2]].
have [ta [Ea Wta _ _]] := tr_r Wa; have [tb [Eb Wtb _ _]] := tr_r Wb; rewrite /rshift Ea /= in E1; rewrite /rshift Eb /= in E2.
have [x [Ex Wab _ _]] := add_r Wa Wb; rewrite E in Ex; case: Ex => ?; subst x.
have [t [Et Wt _ _]] := tr_r Wab.
have [s [r [r1' [r2' [k1' [k2' [[Es Ws] [Er Wr] [E1' C1'] [E2' C2'] C]]]]]]] := right_columns Wta Wtb Wc.
rewrite E1 in E1'; rewrite E2 in E2'; case: E1' => ?; case: E2' => ?; subst r1' r2'.
rewrite (columns_uniq C1 C1') (columns_uniq C2 C2').
have [_ _ _ Sst Rst] := tr_sum Wa Wb E Ea Eb Es Et.
have [r' [Er' Wr' _ _]] := mul_r Wc Wt; exists r'; first by rewrite /rshift Et.
have [S _ _ SR] := mul_same Wc Wc Ws Wt erefl Sst (fun M _ => erefl) Rst Er Er'.
by split=> //; exact: (same_columns Wr Wr' S SR C).
Qed.
Lemma tr_same a a' t t' : wfr a -> wfr a' -> sz a = sz a' -> same_rho a a' -> tr a = Ok t -> tr a' = Ok t' ->
  [/\ wfr t, wfr t', sz t = sz t' & same_rho t t'].
Proof.
move=> Wa Wa' S R E E'; have [x [Ex W St H]] := tr_r Wa; rewrite E in Ex; case: Ex => ?; subst x.
have [x [Ex W' St' H']] := tr_r Wa'; rewrite E' in Ex; case: Ex => ?; subst x.
split=> //; first by rewrite St St'.
move=> M EM; have [D [D1 [h1 h2 h3 _]]] := H M EM; have [D' [D1' [h1' h2' h3' _]]] := H' M EM.
rewrite R // h1' S in h1; case: h1 => ?; subst D'; rewrite h2 h2' S; congr (Ok (_, _)).
have [y y1 y2] := rho_of W (eg EM); rewrite h2 St in y1; case: y1 => ?; subst y.
have [y y1 y3] := rho_of W' (eg EM); rewrite h2' St' in y1; case: y1 => ?; subst y.
rewrite S in h3; apply: (invT_uniq _ _ h3 h3'); [by rewrite y2 St S | by rewrite y3 St'].
Qed.
Lemma shift_same a a' b b' k : wfr a -> wfr a' -> wfr b -> wfr b' -> sz a = sz a' -> sz b = sz b' -> same_rho a a' -> same_rho b b' ->
  shift_columns a b k -> shift_columns a' b' k.
Proof.
move=> Wa Wa' Wb Wb' Sa Sb Ra Rb [r E [W C]]; have [t [x [Et Wt Ex _ Es]]] := shift_ok Wa Wb.
rewrite E in Es; case: Es => ?; subst x; have [t' [r' [Et' Wt' Er' Wr' Es']]] := shift_ok Wa' Wb'.
have [_ _ St Rt] := tr_same Wa Wa' Sa Ra Et Et'.
have [S _ _ SR] := mul_same Wb Wb' Wt Wt' Sb St Rb Rt Ex Er'.
by exists r' => //; split=> //; exact: (same_columns W Wr' S SR C).
Qed.
Lemma mult_step a n r r' s : wfr a -> mul_int a (Posz n.+1) = Ok (VRep r) -> mul_int a (Posz n.+2) = Ok (VRep r') -> add a r = Ok s ->
  [/\ wfr r /\ wfr r', wfr s, sz s = sz r' & same_rho s r'].
Proof.
move=> Wa E E' Es; have [x [Ex W S H]] := mulint_r n Wa; rewrite E in Ex; case: Ex => ?; subst x.
have [x [Ex W' S' H']] := mulint_r n.+1 Wa; rewrite E' in Ex; case: Ex => ?; subst x.
have [x [Ex Ws Ss Hs]] := add_r Wa W; rewrite Es in Ex; case: Ex => ?; subst x.
split=> //; first by rewrite Ss S S' mulSn.
move=> M EM; have [Da [Dr [h1 h2 ->]]] := Hs M EM; have [D h3 ->] := H' M EM; have [D2 h4 h5] := H M EM.
rewrite h4 in h3; rewrite h4 in h1; case: h3 => ?; case: h1 => ?; subst D2 Da.
by rewrite h5 S in h2; case: h2 => <-; rewrite S nseq_dsum -mulSn.
Qed.
Lemma mult_one a r : wfr a -> mul_int a (Posz 1) = Ok (VRep r) -> [/\ wfr r, sz a = sz r & same_rho a r].
Proof.
move=> Wa E; have [x [Ex W S H]] := mulint_r 0 Wa; rewrite E in Ex; case: Ex => ?; subst x.
rewrite mul1n in S; split=> // M EM.
have [D h1 ->] := H M EM; have [D' h1' SD] := rho_of Wa (eg EM); rewrite h1' in h1; case: h1 => ?; subst D'.
rewrite h1' mul1n; congr (Ok (_, _)); rewrite -{1}(flat_unflat SD); apply: flat_meq => /=.
by split=> /=; rewrite ?addn0 // => i j Hi Hj; rewrite Hi Hj.
Qed.
Theorem shift_mult_in a b n r k : wfr a -> wfr b -> mul_int a (Posz n.+1) = Ok (VRep r) ->
  shift_columns a b k -> shift_columns r b (n.+1 * k).
Proof.
move=> Wa Wb; elim: n r => [|n IH] r' E C.
  by have [W S R] := mult_one Wa E; rewrite mul1n; apply: shift_same C.
have [r [Er W _ _]] := mulint_r n Wa; have [s [Es _ _ _]] := add_r Wa W.
have [[_ W'] Ws S R] := mult_step Wa Er E Es; rewrite mulSn.
by apply: (shift_same Ws W' Wb Wb S erefl R (fun _ _ => erefl)); exact: (shift_in Wa W Wb Es C (IH r Er C)).
Qed.
Theorem shift_mult_out a b n r k : wfr a -> wfr b -> mul_int b (Posz n.+1) = Ok (VRep r) ->
  shift_columns a b k -> shift_columns a r (n.+1 * k).
Proof.
move=> Wa Wb; elim: n r => [|n IH] r' E C.
  by have [W S R] := mult_one Wb E; rewrite mul1n; apply: shift_same C.
have [r [Er W _ _]] := mulint_r n Wb; have [s [Es _ _ _]] := add_r Wb W.
have [[_ W'] Ws S R] := mult_step Wb Er E Es; rewrite mulSn.
by apply: (shift_same Wa Wa Ws W' erefl S (fun _ _ => erefl) R); exact: (shift_out Wb W Wa Es C (IH r Er C)).
Qed.
Lemma tr_orth a t : gorth g -> wfr a -> tr a = Ok t -> [/\ wfr t, sz t = sz a & same_rho t a].
Proof.
move=> G Wa E; have [x [Ex W S H]] := tr_r Wa; rewrite E in Ex; case: Ex => ?; subst x; split=> // M EM.
by have [D [D' [h1 h2 _ h4]]] := H M EM; rewrite h2 h1 h4.
Qed.
Theorem shift_sym a b k : gorth g -> wfr a -> wfr b -> shift_columns a b k -> shift_columns b a k.
Proof.
move=> G Wa Wb [r E [W C]].
have [t [x [Et Wt Ex _ Es]]] := shift_ok Wa Wb; rewrite E in Es; case: Es => ?; subst x.
have [t' [r' [Et' Wt' Er' Wr' Es']]] := shift_ok Wb Wa.
have [_ St Rt] := tr_orth G Wa Et; have [_ St' Rt'] := tr_orth G Wb Et'.
have [x [y [k' [Ex' Ey' [Wx Wy] Cx Cy]]]] := swap_columns Wb Wa.
have [S1 _ _ R1] := mul_same Wb Wb Wt Wa erefl St (fun _ _ => erefl) Rt Ex Ex'.
have [S2 _ _ R2] := mul_same Wa Wa Wb Wt' erefl (esym St') (fun _ _ => erefl) (fun M EM => esym (Rt' M EM)) Ey' Er'.
have C' := same_columns W Wx S1 R1 C; rewrite -(columns_uniq C' Cx) in Cy.
by exists r' => //; split=> //; exact: (same_columns Wy Wr' S2 R2 Cy).
Qed.
End Count.
