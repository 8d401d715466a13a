(** * DataAlg: representations written as expressions, and how they act on rows. *)
From mathcomp Require Import all_ssreflect all_algebra.
From mathcomp Require Import zify.
From Verif Require Import Np NpLemmas Spec SpecLemmas LinOp LinOpSpec LinOpProofs LinOpInv Rep RepSpec RepWf RepCode RepMat RepProd RepAlg RepDist RepMul RepFun RepOps RhoProofs RepThm RepThm1.
From Verif Require Import RepExpr RepExprProofs RepDefer GroupsSpec Nn NnSpec Data DataSpec.
Set Implicit Arguments.
Unset Strict Implicit.
Unset Printing Implicit Defensive.
Import GRing.Theory.
Local Open Scope ring_scope.

(** ** The action of a matrix on a vector given as a function *)
Section Act.
Variable R : comRingType.
Implicit Types (A B X : fmat R) (x y : nat -> R).
Definition act A x (i : nat) : R := \sum_(0 <= j < fc A) fe A i j * x j.
Lemma act_meq A B x i : meq A B -> (i < fr A)%N -> act A x i = act B x i.
Proof. by case=> e1 e2 e3 Hi; rewrite /act -e2; apply: eq_sum => j Hj; rewrite e3. Qed.
Lemma act_eq A x y i : (forall j, (j < fc A)%N -> x j = y j) -> act A x i = act A y i.
Proof. by move=> H; apply: eq_sum => j Hj; rewrite H. Qed.
Lemma act_fid n x i : (i < n)%N -> act (fid R n) x i = x i.
Proof. by move=> Hi; rewrite /act /=; rewrite -[RHS](sum_delta x Hi). Qed.
Lemma act_fdsum A B x i : act (fdsum A B) x i =
  if (i < fr A)%N then act A x i else act B (fun j => x (fc A + j)%N) (i - fr A).
Proof.
rewrite /act /= sum_add; case: ifP => Hi.
  rewrite [X in _ + X]sum0 ?addr0; last by move=> j _; rewrite ltnNge leq_addr /= mul0r.
  by apply: eq_sum => j ->.
rewrite [X in X + _]sum0 ?add0r; last by move=> j ->; rewrite mul0r.
by apply: eq_sum => j _; rewrite ltnNge leq_addr /= addKn.
Qed.
Lemma act_fmul A B x i : act (fmul A B) x i = act A (fun j => act B x j) i.
Proof.
rewrite /act /=; under eq_bigr => j _ do rewrite mulr_suml.
rewrite exchange_big_nat; apply: eq_sum => k _; rewrite mulr_sumr; apply: eq_sum => j _; by rewrite mulrA.
Qed.
Lemma fr_copies k X : fr (fdsuml (nseq k X)) = (k * fr X)%N.
Proof. by elim: k => //= k ->; rewrite mulSn. Qed.
Lemma fc_copies k X : fc (fdsuml (nseq k X)) = (k * fc X)%N.
Proof. by elim: k => //= k ->; rewrite mulSn. Qed.
(** k copies of X: block v acts on block v *)
Lemma act_copies n k X x v a : fr X = n -> fc X = n -> (v < k)%N -> (a < n)%N ->
  act (fdsuml (nseq k X)) x (v * n + a) = act X (fun b => x (v * n + b)%N) a.
Proof.
move=> e1 e2; elim: k v x => // k IH [|v] x Hv Ha /=; rewrite act_fdsum e1 e2.
  by rewrite mul0n add0n Ha.
by rewrite mulSn -addnA ltnNge leq_addr /= addKn IH //; apply: act_eq => b _; rewrite !addnA.
Qed.
End Act.

(** ** Expressions *)
Section Ex.
Variable R : comRingType.
Variables (conj sinv : R -> R) (linv : nat -> seq R -> seq R).
Variables (crho : nat -> option gid -> gel R -> res (op R)).
Variables (gdim : gid -> nat) (gorth : gid -> bool) (csize : nat -> gid -> nat) (le : rel rep) (g : gid).
Local Notation gs := (pred1 g).
Local Notation sz := (rsize gdim csize).
Local Notation wfr := (wfr gdim csize le gs).
Local Notation rho_dense := (rho_dense conj sinv linv crho).
Local Notation group_elem := (group_elem conj sinv linv crho gdim csize gs).
Local Notation orth_elem := (orth_elem crho gdim csize gorth gs).
Local Notation arho := (arho sinv linv crho).
Local Notation ta := (ta gorth).
Local Notation rep_of := (rep_of gdim gorth csize le g).
Local Notation acts_rows := (acts_rows conj sinv linv crho gdim csize).
Local Notation equivariant := (equivariant conj sinv linv crho gdim csize).
Hypothesis O : total_order_on (key gdim csize le gs) le.
Hypothesis G0 : (0 < gdim g)%N.
Hypothesis C0 : forall c, (0 < csize c g)%N.

Lemma rep_exists e (X : fmat int_comRing) :
  espec (fun l => fid _ (sz (leafrep (Some g) l))) (fun l => fid _ (sz (ta (leafrep (Some g) l)))) e = Some (SMat X) ->
  exists2 r, rep_of e r & wfr r /\ sz r = fr X.
Proof.
move=> E; pose at0 k := fid int_comRing (sz k).
have HA k : atomic gdim csize gs k -> kok at0 sz k by [].
have [v [r [Ev Ec W H]]] := @deferred_ok gdim gorth csize le g O G0 C0 int_comRing e at0 _ _ X HA (fun l => erefl) (fun l => erefl) E.
exists r; first by exists v.
by split=> //; have [k1 _] := rmat_sqn W HA; case: H => <-.
Qed.
Lemma rep_of_inj e r r' : rep_of e r -> rep_of e r' -> r = r'.
Proof. by case=> v Ev Er [v' Ev' Er']; move: Er'; rewrite Ev in Ev'; case: Ev' => <-; rewrite Er => -[]. Qed.
Lemma rep_rho e r M X : rep_of e r -> group_elem M -> orth_elem M ->
  espec (fun l => arho M (leafrep (Some g) l)) (fun l => arho M (ta (leafrep (Some g) l))) e = Some (SMat X) ->
  rho_dense r M = Ok (fr X, fc X, flat X).
Proof.
move=> Hr HM HO E.
have HL : rho_leaves crho g M (fun l => arho M (leafrep (Some g) l)) (fun l => arho M (ta (leafrep (Some g) l))).
  split.
  - by move=> Y EY; rewrite /RhoProofs.arho /atomf /= EY.
  - by move=> c Y EY; rewrite /RhoProofs.arho /atomf /= EY.
  move=> l; have J := arho_invT HM HO (@leaf_atomic gdim csize g G0 C0 l); have [[h1 h2 h3 h4] _] := J.
  by rewrite h1; split=> //; apply: invTn_is J.
have [_ [v [r' [Ev Ec W H]]]] := expr_thm O G0 C0 HM HO HL E.
by rewrite -(rep_of_inj (ex_intro2 _ _ v Ev Ec) Hr).
Qed.
Lemma arho_V M A : glook M (Some g) = Ok A -> arho M (RBase (Some g)) = den A.
Proof. by move=> E; rewrite /RhoProofs.arho /atomf /= E. Qed.

(** ** Rows *)
Variable E : gel R -> Prop.
(** the action on one row *)
Definition acts1 r M (x y : seq R) : Prop := acts_rows r (fun=> M) 1 x y.
Lemma acts1P r M X x y : sz r = fr X -> sz r = fc X -> rho_dense r M = Ok (fr X, fc X, flat X) ->
  acts1 r M x y <-> [/\ size x = sz r, size y = sz r & forall i, (i < sz r)%N -> nth 0 y i = act X (nth 0 x) i].
Proof.
move=> e1 e2 ED; rewrite /acts1 /NnSpec.acts_rows mul1n; split; case=> s1 s2 H; split=> //.
  have [D] := H 0%N isT; rewrite ED -e1 -e2 => -[<-] h i Hi; have := h i Hi; rewrite mul0n !add0n => ->.
  by rewrite /act -e2; apply: eq_sum => j Hj; rewrite add0n {1}e2 nth_flat -?e1 -?e2.
move=> b; rewrite ltnS leqn0 => /eqP ->; exists (flat X); first by rewrite ED -e1 -e2.
move=> i Hi; rewrite mul0n !add0n H // /act -e2; apply: eq_sum => j Hj.
by rewrite add0n [in RHS]e2 nth_flat -?e1 -?e2.
Qed.
Lemma nth_row n b (X : seq R) i : (i < n)%N -> nth 0 (row_of n b X) i = nth 0 X (b * n + i)%N.
Proof. by move=> Hi; rewrite nth_mkseq. Qed.
Lemma acts_row r Ms bs X Y b : acts_rows r Ms bs X Y -> (b < bs)%N -> acts1 r (Ms b) (row_of (sz r) b X) (row_of (sz r) b Y).
Proof.
case=> s1 s2 H Hb; split; rewrite ?size_mkseq ?mul1n //.
move=> b'; rewrite ltnS leqn0 => /eqP ->; have [D ED HD] := H b Hb; exists D => // i Hi.
by rewrite mul0n !add0n nth_row // HD //; apply: eq_sum => j Hj; rewrite add0n nth_row.
Qed.
Lemma mapM_ok (T : eqType) (U : Type) (f : T -> res U) (h : T -> U) l : (forall x, x \in l -> f x = Ok (h x)) -> mapM f l = Ok (map h l).
Proof.
elim: l => // a l IH H; rewrite /mapM /= -/(mapM f l) H ?mem_head //=.
by rewrite IH // => x Hx; apply: H; rewrite inE Hx orbT.
Qed.
Lemma nth_rows n (f : nat -> seq R) bs b i : (forall b, (b < bs)%N -> size (f b) = n) -> (b < bs)%N -> (i < n)%N ->
  nth 0 (flatten [seq f b | b <- iota 0 bs]) (b * n + i) = nth 0 (f b) i.
Proof.
move=> S Hb Hi.
have : forall s, (forall t, t < bs -> size (f (s + t)) = n)%N -> nth 0 (flatten [seq f t | t <- iota s bs]) (b * n + i) = nth 0 (f (s + b)%N) i.
  elim: bs b Hb {S} => // bs IH [|b] Hb s S /=; rewrite nth_cat.
    by rewrite mul0n add0n -[s in f s]addn0 S // Hi addn0.
  have := S 0%N isT; rewrite addn0 => ->; rewrite mulSn -addnA ltnNge leq_addr /= addKn IH //; last by move=> t Ht; rewrite addSnnS S.
  by rewrite addSnnS.
by move/(_ 0%N); rewrite !add0n; apply => t Ht; rewrite S.
Qed.
Lemma size_rows n (f : nat -> seq R) bs : (forall b, (b < bs)%N -> size (f b) = n) -> size (flatten [seq f b | b <- iota 0 bs]) = (bs * n)%N.
Proof.
move=> S; rewrite size_flatten /seq.shape -map_comp.
have -> : [seq (size \o f) b | b <- iota 0 bs] = nseq bs n.
  by apply: (@eq_from_nth _ 0%N); rewrite ?size_map ?size_iota ?size_nseq // => i Hi; rewrite (nth_map 0%N) ?size_iota // nth_iota // add0n nth_nseq Hi /= S.
by rewrite sumn_nseq mulnC.
Qed.
Lemma rowwise_equivariant rin rout (f : seq R -> res (seq R)) :
  (forall M x x', E M -> acts1 rin M x x' -> exists y y', [/\ f x = Ok y, f x' = Ok y' & acts1 rout M y y']) ->
  equivariant E rin rout (rowwise (sz rin) f).
Proof.
move=> H bs Ms X X' HE A; have [s1 s2 _] := A.
pose y X b := if f (row_of (sz rin) b X) is Ok y then y else [::].
have K b : (b < bs)%N -> [/\ f (row_of (sz rin) b X) = Ok (y X b), f (row_of (sz rin) b X') = Ok (y X' b) & acts1 rout (Ms b) (y X b) (y X' b)].
  by move=> Hb; have [u [u' [E1 E2 A1]]] := H _ _ _ (HE b Hb) (acts_row A Hb); rewrite /y E1 E2.
have S1 b : (b < bs)%N -> size (y X b) = sz rout by move=> Hb; have [_ _ [-> _ _]] := K b Hb; rewrite mul1n.
have S2 b : (b < bs)%N -> size (y X' b) = sz rout by move=> Hb; have [_ _ [_ -> _]] := K b Hb; rewrite mul1n.
have G Z : size Z = (bs * sz rin)%N -> (forall b, (b < bs)%N -> f (row_of (sz rin) b Z) = Ok (y Z b)) ->
    rowwise (sz rin) f bs Z = Ok (flatten [seq y Z b | b <- iota 0 bs]).
  move=> S HZ; rewrite /rowwise S eqxx.
  rewrite (mapM_ok (h := fun z => if f z is Ok u then u else [::])); last first.
    by move=> z /mapP[b]; rewrite mem_iota => Hb ->; rewrite HZ.
  by rewrite /= -map_comp.
exists (flatten [seq y X b | b <- iota 0 bs]), (flatten [seq y X' b | b <- iota 0 bs]); split.
- by apply: G => // b /K[].
- by apply: G => // b /K[].
split; rewrite ?(size_rows S1) ?(size_rows S2) //.
move=> b Hb; have [_ _ [_ _ /(_ 0%N isT) [D ED HD]]] := K b Hb; exists D => // i Hi.
rewrite (nth_rows S2) //; have := HD i Hi; rewrite mul0n !add0n => ->.
by apply: eq_sum => j Hj; rewrite add0n (nth_rows S1).
Qed.
End Ex.
