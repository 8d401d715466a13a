(** * DataThm: the targets of the data sets. *)
From Coq Require Import Ring.
From mathcomp Require Import all_ssreflect all_algebra.
From mathcomp Require Import zify.
From Verif Require Import Np NpLemmas Spec SpecLemmas LinOp LinOpSpec LinOpProofs LinOpInv Rep RepSpec RepWf RepCode RepMat RepProd RepAlg RepDist RepMul RepFun RepOps RhoProofs RepThm RepThm1.
From Verif Require Import RepExpr RepExprProofs RepDefer MxBridge GroupsSpec Nn NnSpec Data DataSpec DataAlg.
Set Implicit Arguments.
Unset Strict Implicit.
Unset Printing Implicit Defensive.
Import GRing.Theory.
Local Open Scope ring_scope.

(** the tactic ring for a commutative ring *)
Lemma comring_theory (R : comRingType) :
  @ring_theory (GRing.Ring.sort R) 0 1 +%R *%R (fun a b => a - b) -%R eq.
Proof. by split=> *; rewrite ?add0r ?mul1r ?addrA ?mulrA ?mulrDl ?subrr //; [exact: addrC|exact: mulrC]. Qed.

(** ** Forms *)
Section Form.
Variable R : comRingType.
Definition form (n : nat) (J : fmat R) (x y : nat -> R) : R :=
  \sum_(0 <= a < n) \sum_(0 <= c < n) x a * fe J a c * y c.
Lemma form_eq n J x x' y y' : (forall a, (a < n)%N -> x a = x' a) -> (forall a, (a < n)%N -> y a = y' a) ->
  form n J x y = form n J x' y'.
Proof. by move=> H1 H2; apply: eq_sum => a Ha; apply: eq_sum => c Hc; rewrite H1 ?H2. Qed.
Lemma form_act n J A x y : fr A = n -> fc A = n -> fr J = n -> fc J = n -> isometry J A ->
  form n J (act A x) (act A y) = form n J x y.
Proof.
move=> a1 a2 j1 j2 [_ _ H].
pose T a b c d := fe A a b * x b * fe J a c * (fe A c d * y d).
have -> : form n J (act A x) (act A y) = \sum_(0 <= a < n) \sum_(0 <= c < n) \sum_(0 <= b < n) \sum_(0 <= d < n) T a b c d.
  apply: eq_sum => a _; apply: eq_sum => c _; rewrite /act a2 !mulr_suml.
  by apply: eq_sum => b _; rewrite mulr_sumr; apply: eq_sum => d _.
have -> : form n J x y = \sum_(0 <= b < n) \sum_(0 <= d < n) \sum_(0 <= a < n) \sum_(0 <= c < n) T a b c d.
  apply: eq_sum => b Hb; apply: eq_sum => d Hd.
  have := H b d; rewrite /= a1 a2 => /(_ Hb Hd) <-; rewrite mulr_sumr mulr_suml.
  apply: eq_sum => a _; rewrite j2 mulr_sumr mulr_sumr mulr_suml; apply: eq_sum => c _.
  by rewrite /T !mulrA; congr (_ * _ * _ * _); rewrite mulrC.
transitivity (\sum_(0 <= b < n) \sum_(0 <= a < n) \sum_(0 <= c < n) \sum_(0 <= d < n) T a b c d).
  rewrite [RHS]exchange_big_nat; apply: eq_sum => a _; exact: exchange_big_nat.
by apply: eq_sum => b _; rewrite [RHS]exchange_big_nat; apply: eq_sum => a _; exact: exchange_big_nat.
Qed.
Lemma dotE d (x y : seq R) i j : dot d x i y j = form d (fid R d) (fun a => nth 0 x (i + a)%N) (fun a => nth 0 y (j + a)%N).
Proof.
rewrite /dot rsumE; apply: eq_sum => a Ha; rewrite (sum_only (i := a)) //=; first by rewrite eqxx mulr1.
by move=> c Hc; rewrite eq_sym => /negbTE ->; rewrite mulr0 mul0r.
Qed.
Lemma mdotE (x : seq R) i j : mdot x i j = form 4 (minkowski R 4) (fun a => nth 0 x (i + a)%N) (fun a => nth 0 x (j + a)%N).
Proof.
rewrite /mdot rsumE /form exchange_big_nat; apply: eq_sum => a Ha; rewrite /lower rsumE mulr_suml.
by apply: eq_sum.
Qed.
End Form.

(** ** Targets as functions of one row *)
Section Row.
Variable R : comRingType.
Add Ring Rring : (comring_theory R).
(** row x' is x with every vector starting at s, of length n, transformed by A *)
Definition moved (n : nat) (A : fmat R) (s : nat) (x x' : seq R) : Prop :=
  forall a, (a < n)%N -> nth 0 x' (s + a)%N = act A (fun b => nth 0 x (s + b)%N) a.
Lemma form_moved n J A x x' s t : fr A = n -> fc A = n -> fr J = n -> fc J = n -> isometry J A ->
  moved n A s x x' -> moved n A t x x' ->
  form n J (fun a => nth 0 x' (s + a)%N) (fun a => nth 0 x' (t + a)%N) = form n J (fun a => nth 0 x (s + a)%N) (fun a => nth 0 x (t + a)%N).
Proof. by move=> a1 a2 j1 j2 H h1 h2; rewrite -[RHS](form_act _ _ a1 a2 j1 j2 H); apply: form_eq => a Ha; [rewrite h1|rewrite h2]. Qed.
Lemma dot_moved n A x x' s t : fr A = n -> fc A = n -> isometry (fid R n) A ->
  moved n A s x x' -> moved n A t x x' -> dot n x' s x' t = dot n x s x t.
Proof. by move=> a1 a2 H h1 h2; rewrite !dotE; apply: form_moved H h1 h2. Qed.
Lemma mdot_moved A x x' s t : fr A = 4%N -> fc A = 4%N -> isometry (minkowski R 4) A ->
  moved 4 A s x x' -> moved 4 A t x x' -> mdot x' s t = mdot x s t.
Proof. by move=> a1 a2 H h1 h2; rewrite !mdotE; apply: form_moved H h1 h2. Qed.

(** O5Synthetic *)
Lemma o5_moved sqrt sin div half A x x' : fr A = 5%N -> fc A = 5%N -> isometry (fid R 5) A ->
  moved 5 A 0 x x' -> moved 5 A 5 x x' -> o5_row sqrt sin div half x' = o5_row sqrt sin div half x.
Proof. by move=> a1 a2 H h0 h5; rewrite /o5_row (dot_moved a1 a2 H h0 h0) (dot_moved a1 a2 H h5 h5) (dot_moved a1 a2 H h0 h5). Qed.

(** ParticleInteraction *)
Lemma eta_iso : isometry (minkowski R 4) (minkowski R 4).
Proof.
split=> //= i j Hi Hj; rewrite (sum_only (i := i)) //=; last by move=> a _ /negbTE ->; rewrite mul0r.
rewrite eqxx (sum_only (i := i)) //=; last by move=> a _; rewrite eq_sym => /negbTE ->; rewrite mul0r.
by rewrite eqxx; case: eqP => // _; case: ifP => _; rewrite ?mulr0 ?mulr1 // !mulrNN ?mulr1 ?mulrN1 ?mulrN ?mulr1 ?opprK.
Qed.
Lemma lowerE (x : seq R) s a : lower x s a = act (minkowski R 4) (fun b => nth 0 x (s + b)%N) a.
Proof.
rewrite /lower rsumE; apply: eq_sum => c _; rewrite mulrC /eta /= eq_sym; congr (_ * _).
by case: eqP => // ->.
Qed.
Lemma contract n (p q l m : nat -> R) (e : nat -> nat -> R) s u :
  \sum_(0 <= a < n) \sum_(0 <= c < n) (p a * q c - s * e a c) * (l a * m c - u * e a c) =
  (\sum_(0 <= a < n) l a * p a) * (\sum_(0 <= c < n) m c * q c)
  - u * (\sum_(0 <= a < n) \sum_(0 <= c < n) p a * e a c * q c)
  - s * (\sum_(0 <= a < n) \sum_(0 <= c < n) l a * e a c * m c)
  + s * u * (\sum_(0 <= a < n) \sum_(0 <= c < n) e a c * e a c).
Proof.
rewrite mulr_suml !mulr_sumr -!sumrB -big_split /=; apply: eq_sum => a _.
rewrite !mulr_sumr -!sumrB -big_split /=; apply: eq_sum => c _.
ring.
Qed.

Lemma particle_rowE (x : seq R) : particle_row x =
  Ok [:: 4%:R * (mdot x 4 0 * mdot x 12 8 - (mdot x 4 12 - mdot x 4 4) * mdot x 0 8 - (mdot x 0 8 - mdot x 0 0) * mdot x 4 12
         + (mdot x 0 8 - mdot x 0 0) * (mdot x 4 12 - mdot x 4 4) * \sum_(0 <= a < 4) \sum_(0 <= c < 4) eta R a c * eta R a c)].
Proof.
rewrite /particle_row; congr (Ok [:: 4%:R * _]); rewrite rsumE.
under eq_bigr => a _ do rewrite rsumE.
rewrite contract; congr (_ * _ - _ - _ * _ + _).
- by rewrite [in RHS]/mdot rsumE.
- by rewrite [in RHS]/mdot rsumE.
- by congr (_ * _); rewrite mdotE.
rewrite [RHS]mdotE -[RHS](@form_act _ 4 (minkowski R 4) (minkowski R 4) _ _ erefl erefl erefl erefl eta_iso).
by apply: eq_sum => a _; apply: eq_sum => c _; rewrite !lowerE.
Qed.
Lemma particle_moved A x x' : fr A = 4%N -> fc A = 4%N -> isometry (minkowski R 4) A ->
  moved 4 A 0 x x' -> moved 4 A 4 x x' -> moved 4 A 8 x x' -> moved 4 A 12 x x' -> particle_row x' = particle_row x.
Proof.
move=> a1 a2 H h0 h4 h8 h12; have D s t := @mdot_moved A x x' s t a1 a2 H.
by rewrite !particle_rowE !D.
Qed.

(** Inertia *)
Lemma orthT n (A : fmat R) : fr A = n -> fc A = n -> isometry (fid R n) A ->
  forall a c, (a < n)%N -> (c < n)%N -> \sum_(0 <= e < n) fe A a e * fe A c e = (a == c)%:R.
Proof.
move=> a1 a2 H a c Ha Hc.
have H1 : meq (fmul (ftr A) A) (fid R n).
  apply: meq_trans H; apply: meq_fmul => //; apply: meq_sym; exact: fmul_id_l.
have E := mxf_meq H1 a2 a2; rewrite mxf_id (mxf_mul _ _ _ (a1 : fc (ftr A) = n)) in E.
have /matrixP/(_ (Ordinal Ha) (Ordinal Hc)) := mulmx1C E.
rewrite !mxE /= => <-; rewrite big_mkord; apply: eq_bigr => i _; by rewrite !mxE.
Qed.
Lemma act_kron m (A : fmat R) y a c : fr A = m -> fc A = m -> (a < m)%N -> (c < m)%N ->
  act (fkron A A) y (a * m + c) = \sum_(0 <= e < m) \sum_(0 <= f < m) fe A a e * fe A c f * y (e * m + f)%N.
Proof.
move=> a1 a2 Ha Hc; rewrite /act /= a1 a2 sum_mul; apply: eq_sum => e He; apply: eq_sum => f Hf.
by rewrite !divnMDl ?modnMDl ?(divn_small Hc) ?(divn_small Hf) ?(modn_small Hc) ?(modn_small Hf) ?addn0; try lia.
Qed.
Lemma inertia_moved k A x x' : fr A = 3%N -> fc A = 3%N -> isometry (fid R 3) A ->
  (forall i, (i < k)%N -> nth 0 x' i = nth 0 x i) -> (forall i, (i < k)%N -> moved 3 A (k + i * 3) x x') ->
  exists y y', [/\ inertia_row k x = Ok y, inertia_row k x' = Ok y', size y = 9%N, size y' = 9%N &
    forall t, (t < 9)%N -> nth 0 y' t = act (fkron A A) (nth 0 y) t].
Proof.
move=> a1 a2 H hm hr; eexists; eexists; split; rewrite ?size_mkseq //.
move=> t Ht; rewrite nth_mkseq // rsumE.
have Ha : (t %/ 3 < 3)%N by rewrite ltn_divLR. have Hc : (t %% 3 < 3)%N by rewrite ltn_mod.
rewrite [in RHS](divn_eq t 3) (act_kron _ a1 a2 Ha Hc); set a := (t %/ 3)%N in Ha *; set c := (t %% 3)%N in Hc *.
have -> : \sum_(0 <= e < 3) \sum_(0 <= f < 3) fe A a e * fe A c f *
   (mkseq (fun t0 => rsum k (fun i => nth 0 x i * (dot 3 x (k + i * 3) x (k + i * 3) * ((t0 %/ 3 == t0 %% 3)%N)%:R
       - nth 0 x (k + i * 3 + t0 %/ 3)%N * nth 0 x (k + i * 3 + t0 %% 3)%N))) 9)`_(e * 3 + f) =
   \sum_(0 <= i < k) \sum_(0 <= e < 3) \sum_(0 <= f < 3) fe A a e * fe A c f *
     (nth 0 x i * (dot 3 x (k + i * 3) x (k + i * 3) * (e == f)%:R
       - nth 0 x (k + i * 3 + e)%N * nth 0 x (k + i * 3 + f)%N)).
  rewrite [RHS]exchange_big_nat /=; apply: eq_sum => e He; rewrite [RHS]exchange_big_nat /=; apply: eq_sum => f Hf.
  rewrite nth_mkseq; last by lia.
  by rewrite rsumE mulr_sumr; apply: eq_sum => i _; rewrite divnMDl // modnMDl (divn_small Hf) (modn_small Hf) addn0.
apply: eq_sum => i Hi; rewrite hm // (dot_moved a1 a2 H (hr i Hi) (hr i Hi)) !hr //.
set D := dot _ _ _ _ _; set r := fun b => nth 0 x (k + i * 3 + b)%N.
rewrite -(orthT a1 a2 H Ha Hc) /act a2 mulr_sumr mulr_suml -sumrB mulr_sumr; apply: eq_sum => e He.
rewrite mulr_sumr.
have -> : fe A a e * fe A c e = \sum_(0 <= f < 3) fe A a e * fe A c f * (e == f)%:R.
  rewrite (sum_only (i := e)) ?eqxx ?mulr1 // => f Hf; rewrite eq_sym => /negbTE ->; by rewrite mulr0.
rewrite mulr_sumr -sumrB mulr_sumr; apply: eq_sum => f Hf; rewrite /r.
ring.
Qed.
End Row.

(** ** Data sets *)
Section Main.
Variable R : comRingType.
Variables (conj sinv : R -> R) (linv : nat -> seq R -> seq R).
Variables (crho : nat -> option gid -> gel R -> res (op R)).
Variables (gdim : gid -> nat) (gorth : gid -> bool) (csize : nat -> gid -> nat) (le : rel rep) (g : gid).
Local Notation sz := (rsize gdim csize).
Local Notation rep_of := (rep_of gdim gorth csize le g).
Local Notation equivariant := (equivariant conj sinv linv crho gdim csize).
Local Notation isometries := (isometries conj sinv linv crho gdim gorth csize g).
Hypothesis O : total_order_on (key gdim csize le (pred1 g)) le.
Hypothesis G0 : (0 < gdim g)%N.
Hypothesis C0 : forall c, (0 < csize c g)%N.
Variable E : gel R -> Prop.

(** the elements E of the group satisfy Q; isometries J E is the case Q = isometry J *)
Definition members (Q : fmat R -> Prop) : Prop :=
  forall M, E M -> [/\ group_elem conj sinv linv crho gdim csize (pred1 g) M,
    orth_elem crho gdim csize gorth (pred1 g) M & forall A, glook M (Some g) = Ok A -> Q (den A)].
Lemma data_eq Q ein eout (Fi Fo : forall S : comRingType, fmat S -> fmat S) ni no f :
  members Q ->
  (forall S A B, @espec S A B ein = Some (SMat (Fi S (A None)))) ->
  (forall S A B, @espec S A B eout = Some (SMat (Fo S (A None)))) ->
  (forall S X, fr X = gdim g -> fc X = gdim g -> fr (Fi S X) = ni /\ fc (Fi S X) = ni) ->
  (forall S X, fr X = gdim g -> fc X = gdim g -> fr (Fo S X) = no /\ fc (Fo S X) = no) ->
  (forall A x x', fr A = gdim g -> fc A = gdim g -> Q A -> size x = ni -> size x' = ni ->
    (forall i, (i < ni)%N -> nth 0 x' i = act (Fi R A) (nth 0 x) i) ->
    exists y y', [/\ f x = Ok y, f x' = Ok y', size y = no, size y' = no &
      forall i, (i < no)%N -> nth 0 y' i = act (Fo R A) (nth 0 y) i]) ->
  exists rin rout, [/\ rep_of ein rin, rep_of eout rout, sz rin = ni, sz rout = no &
    equivariant E rin rout (rowwise ni f)].
Proof.
move=> HI ei eo si so H.
have [rin Ri [_ zi]] := @rep_exists gdim gorth csize le g O G0 C0 ein _ (ei _ _ _).
have [rout Ro [_ zo]] := @rep_exists gdim gorth csize le g O G0 C0 eout _ (eo _ _ _).
have {}zi : sz rin = ni by rewrite zi; apply: (proj1 (si _ _ _ _)).
have {}zo : sz rout = no by rewrite zo; apply: (proj1 (so _ _ _ _)).
exists rin, rout; split=> //; rewrite -zi; apply: rowwise_equivariant => M x x' HM A1.
have [GM OM IM] := HI M HM; have [A EA [[GA _] _]] := GM g (eqxx g); have [d1 d2] := gop_sz GA.
have ri := rep_rho O G0 C0 Ri GM OM (ei _ _ _); have ro := rep_rho O G0 C0 Ro GM OM (eo _ _ _).
rewrite /= (arho_V _ _ _ EA) in ri ro.
have [i1 i2] := si _ _ d1 d2; have [o1 o2] := so _ _ d1 d2.
have [sx sx' hx] : [/\ size x = sz rin, size x' = sz rin & forall i, (i < sz rin)%N -> nth 0 x' i = act (Fi R (den A)) (nth 0 x) i].
  by apply/(acts1P _ _ _ _ ri); rewrite ?i1 ?i2.
rewrite zi in hx sx sx'; have [y [y' [h1 h2 h3 h4 h5]]] := H _ x x' d1 d2 (IM A EA) sx sx' hx.
exists y, y'; split=> //; apply/(acts1P _ _ _ _ ro); rewrite ?o1 ?o2 ?zo //.
Qed.

Theorem inertia_thm k : gdim g = 3%N -> (0 < k)%N -> isometries (fid R 3) E ->
  exists rin rout, [/\ rep_of (inertia_in k) rin, rep_of (T_expr 2 0) rout, sz rin = (k + k * 3)%N, sz rout = 9%N &
    equivariant E rin rout (inertia k)].
Proof.
case: k => // k G3 _ HI.
pose Fi (S : comRingType) (A : fmat S) := fdsum (fdsuml (nseq k.+1 (fid S 1))) (fdsuml (nseq k.+1 A)).
pose Fo (S : comRingType) (A : fmat S) := fkron (fkronl (nseq 2 A)) (fkronl [::]).
apply: (@data_eq (isometry (fid R 3)) _ _ Fi Fo _ _ _ HI) => // [S X x1 x2|S X x1 x2|A x x' a1 a2 IA _ _ hx].
- have E1 : fr (Fi S X) = (k.+1 * 1 + k.+1 * fr X)%N by rewrite -fr_copies -[(k.+1 * 1)%N](fr_copies k.+1 (fid S 1)).
  have E2 : fc (Fi S X) = (k.+1 * 1 + k.+1 * fc X)%N by rewrite -fc_copies -[(k.+1 * 1)%N](fc_copies k.+1 (fid S 1)).
  by rewrite E1 E2 x1 x2 G3 muln1.
- by rewrite /= x1 x2 G3.
rewrite G3 in a1 a2.
have S1 : fr (fdsuml (nseq k.+1 (fid R 1))) = k.+1 by rewrite fr_copies muln1.
have S2 : fc (fdsuml (nseq k.+1 (fid R 1))) = k.+1 by rewrite fc_copies muln1.
have [||y [y' [h1 h2 h3 h4 h5]]] := @inertia_moved R k.+1 A x x' a1 a2 IA.
- move=> i Hi; rewrite hx; last by apply: leq_trans Hi _; exact: leq_addr.
  rewrite /Fi act_fdsum S1 Hi -{1}[i]muln1 -{1}[(i * 1)%N]addn0.
  by rewrite (@act_copies _ 1 k.+1 (fid R 1)) // act_fid // muln1 addn0.
- move=> i Hi a Ha; have Hb : (i * 3 + a < k.+1 * 3)%N by rewrite -[(i * 3 + a)%N]/(i * 3 + a)%N; nia.
  rewrite -addnA hx; last by rewrite ltn_add2l.
  rewrite /Fi act_fdsum S1 S2 ltnNge leq_addr [~~ true]/= addKn (act_copies _ a1 a2 Hi Ha).
  by apply: act_eq => j _; rewrite addnA.
exists y, y'; split=> // t Ht; rewrite h5 //; apply: act_meq; last by rewrite /= a1.
apply: meq_sym; apply: meq_trans (fkron_1_r _) _; apply: meq_fkron; [exact: meq_refl|exact: fkron_1_r].
Qed.

(** the blocks of n copies of V *)
Lemma copies_moved n k (A : fmat R) x x' : fr A = n -> fc A = n ->
  (forall i, (i < k * n)%N -> nth 0 x' i = act (fdsuml (nseq k A)) (nth 0 x) i) ->
  forall v, (v < k)%N -> moved n A (v * n) x x'.
Proof.
move=> a1 a2 H v Hv a Ha; rewrite H; last by move: (leq_mul Hv (leqnn n)); rewrite mulSn; lia.
by rewrite (act_copies _ a1 a2 Hv Ha).
Qed.
Lemma invariant_thm n k J f : gdim g = n -> (0 < k)%N -> isometries J E ->
  (forall A x x', fr A = n -> fc A = n -> isometry J A -> (forall v, (v < k)%N -> moved n A (v * n) x x') -> f x' = f x) ->
  (forall x, exists c : R, f x = Ok [:: c]) ->
  exists2 rin, rep_of (EMul (EInt k) EV) rin & sz rin = (k * n)%N /\ equivariant E rin RScalar (rowwise (k * n) f).
Proof.
case: k => // k Gn _ HI H F.
pose Fi (S : comRingType) (A : fmat S) := fdsuml (nseq k.+1 A).
pose Fo (S : comRingType) (A : fmat S) := fid S 1.
have [||A x x' a1 a2 IA _ _ hx|rin [rout [h1 h2 h3 h4 h5]]] :=
  @data_eq (isometry J) (EMul (EInt k.+1) EV) EScalar Fi Fo (k.+1 * n) 1 f HI (fun _ _ _ => erefl) (fun _ _ _ => erefl).
- by move=> S X x1 x2; rewrite /Fi fr_copies fc_copies x1 x2 Gn.
- by [].
- rewrite Gn in a1 a2; have E1 := H A x x' a1 a2 IA (copies_moved a1 a2 hx).
  have [c Ec] := F x; exists [:: c], [:: c]; split=> //; first by rewrite E1.
  by case=> // _; rewrite act_fid.
exists rin => //; split=> //; suff -> : RScalar = rout by [].
by case: h2 => v [<-] /= -[<-].
Qed.
Theorem particle_thm : gdim g = 4%N -> isometries (minkowski R 4) E ->
  exists2 rin, rep_of particle_in rin & sz rin = 16%N /\ equivariant E rin RScalar (@particle R).
Proof.
move=> G4 HI; apply: (invariant_thm (n := 4) (k := 4) _ _ HI) => // [A x x' a1 a2 IA H|x].
  by apply: (particle_moved a1 a2 IA); [apply: (H 0%N)|apply: (H 1%N)|apply: (H 2%N)|apply: (H 3%N)].
by rewrite /particle_row; eexists.
Qed.
Theorem o5_thm sqrt sin div half : gdim g = 5%N -> isometries (fid R 5) E ->
  (forall a b : R, exists c, div a b = Ok c) ->
  exists2 rin, rep_of o5_in rin & sz rin = 10%N /\ equivariant E rin RScalar (o5 sqrt sin div half).
Proof.
move=> G5 HI D; apply: (invariant_thm (n := 5) (k := 2) _ _ HI) => // [A x x' a1 a2 IA H|x].
  by apply: (o5_moved _ _ _ _ a1 a2 IA); [apply: (H 0%N)|apply: (H 1%N)].
rewrite /o5_row; case: (D (dot 5 x 0 x 5) (sqrt (dot 5 x 0 x 0) * sqrt (dot 5 x 5 x 5))) => c ->.
by eexists.
Qed.
End Main.
