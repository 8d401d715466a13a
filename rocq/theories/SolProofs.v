(** * SolProofs: the constraint matrix, the solve, and the bases and projectors built from
    the solved systems. *)
From mathcomp Require Import all_ssreflect all_algebra.
From mathcomp Require Import zify.
From Verif Require Import Np NpLemmas Spec SpecLemmas LinOp LinOpSpec LinOpProofs LinOpMM LinOpMore LinOpInv LinOpThm Rep RepSpec RepMat RepWf RepProd RepAlg RepDist RepMul RepFun RepOps RhoProofs RepThm DualNum DrhoProofs DrhoThm RepThm1 RepDir DirThm Solver SolSpec SolAlg SolSvd SolFam.
Set Implicit Arguments.
Unset Strict Implicit.
Unset Printing Implicit Defensive.
Import GRing.Theory.
Local Open Scope ring_scope.

Section Gen.
Variable R : comRingType.
Implicit Types (A B : fmat R) (v : nat -> R).

Lemma kills_fvcatl n (Ds : seq (fmat R)) v : (forall D, List.In D Ds -> fc D = n) ->
  kills (fun _ : unit => fvcatl n Ds) v <-> (forall D, List.In D Ds -> kills (fun _ : unit => D) v).
Proof.
elim: Ds => [|D Ds IH] H; first by split=> // _ [] i.
have {}IH := IH (fun E HE => H E (or_intror HE)).
have HD := H D (or_introl erefl).
have e1 i : (i < fr D)%N -> mv (fvcatl n (D :: Ds)) v i = mv D v i.
  move=> Hi; rewrite /mv HD; have -> : fc (fvcatl n (D :: Ds)) = n by rewrite fc_fvcatl.
  by apply: eq_sum => j Hj /=; rewrite Hi.
have e2 i : mv (fvcatl n (D :: Ds)) v (fr D + i) = mv (fvcatl n Ds) v i.
  rewrite /mv [fc (fvcatl n Ds)]fc_fvcatl.
  have -> : fc (fvcatl n (D :: Ds)) = n by rewrite fc_fvcatl.
  by apply: eq_sum => j Hj /=; rewrite ltnNge leq_addr /= addKn.
split=> [K|K [] i] /=.
  have K1 : kills (fun _ : unit => D) v.
    by move=> [] i Hi; rewrite -e1 //; apply: (K tt); rewrite /= ltn_addr.
  have K2 : kills (fun _ : unit => fvcatl n Ds) v.
    by move=> [] i Hi; rewrite -e2; apply: (K tt); rewrite /= ltn_add2l.
  by move=> E [<- //|]; apply: (proj1 IH K2).
move=> Hi; case: (ltnP i (fr D)) => Hl.
  by rewrite -[LHS]/(mv (fvcatl n (D :: Ds)) v i) e1 //; apply: (K D (or_introl erefl) tt).
rewrite -(subnKC Hl) -[LHS]/(mv (fvcatl n (D :: Ds)) v _) e2.
have K2 : kills (fun _ : unit => fvcatl n Ds) v by apply: (proj2 IH) => E HE; apply: K; right.
by apply: (K2 tt); rewrite -(ltn_add2l (fr D)) subnKC.
Qed.

Lemma kills_meq (X : Type) (c c' : X -> fmat R) v : (forall x, meq (c x) (c' x)) -> kills c v <-> kills c' v.
Proof.
move=> H; split=> K x i Hi; have [h1 h2 _] := H x.
  by rewrite -(mv_eq (v := v) (H x)) ?h1 //; apply: K; rewrite h1.
by rewrite (mv_eq (w := v) (H x)) //; apply: K; rewrite -h1.
Qed.

Lemma mapM_in T U (f : T -> res U) (P : T -> U -> Prop) l :
  (forall x, List.In x l -> exists2 y, f x = Ok y & P x y) ->
  exists2 ys, mapM f l = Ok ys & (forall x, List.In x l -> exists2 y, List.In y ys & P x y) /\
    (forall y, List.In y ys -> exists2 x, List.In x l & P x y).
Proof.
elim: l => [|x l IH] H; first by exists [::].
have [y E Py] := H x (or_introl erefl).
have [ys Es [H1 H2]] := IH (fun z Hz => H z (or_intror Hz)).
exists (y :: ys); first by rewrite /mapM /= E bindOk -/(mapM f l) Es.
split=> z [<-|Hz].
- by exists y => //; left.
- by have [t Ht Pt] := H1 z Hz; exists t => //; right.
- by exists x => //; left.
- by have [t Ht Pt] := H2 z Hz; exists t => //; right.
Qed.

Lemma all_In T (p : pred T) l : (forall x, List.In x l -> p x) -> all p l.
Proof. by elim: l => //= x l IH H; rewrite H ?IH //; [move=> y Hy; apply: H; right | left]. Qed.
End Gen.

Section Atom.
Variable R : comRingType.
Variables (conj sinv : R -> R) (linv : nat -> seq R -> seq R).
Variables (crho cdrho : nat -> option gid -> gel R -> res (op R)).
Variables (gdim : gid -> nat) (csize : nat -> gid -> nat).
Variables (le : rel rep) (gs : pred gid).
Variables (gens lies : gid -> seq (op R)).
Variables (svd : nat -> nat -> seq R -> seq R * seq R * seq R) (big : pred R).
Variable krylov : op R -> res (darr R).
Local Notation sz := (rsize gdim csize).
Local Notation atomic := (atomic gdim csize).
Local Notation wfr := (wfr gdim csize le).
Local Notation dkey := (dkey gdim csize le).
Local Notation group_elem := (group_elem conj sinv linv crho gdim csize).
Local Notation lie_elem := (lie_elem conj cdrho gdim csize).
Local Notation arho := (arho sinv linv crho).
Local Notation adrho := (adrho cdrho).
Local Notation elemG := (@elemG R gdim).
Local Notation elemL := (@elemL R gdim).
Local Notation rho := (rho sinv linv crho).
Local Notation drho := (drho cdrho).
Local Notation gop := (gop conj).

Lemma dmat_ext gs' (a b : rep -> fmat R) r : wfr gs' r -> (forall k, atomic gs' k -> a k = b k) -> dmat a r = dmat b r.
Proof.
move=> W H.
have L l : (forall k, k \in l -> dmat a k = dmat b k) -> map (dmat a) l = map (dmat b) l by move=> E; apply/eq_in_map.
have HA k : atomic gs' k -> dmat a k = dmat b k.
  by move=> Ak; move: (H k Ak); case: k Ak => // [[h|]|c [h|]|[|[h|]|c [h|]|?|? ?|? ?|? ?|?|?]].
have HP k : isprod gdim csize le gs' k -> dmat a k = dmat b k.
  case: k => // d p /andP[/and3P[/and5P[_ A _ _ _] _ _] _] /=; rewrite !dexp_dmat L // => k /mem_dexp Hk.
  exact: HA (allP A _ Hk).
have HN k : nonsum gdim csize le gs' k -> dmat a k = dmat b k.
  case/or4P=> [/eqP -> //|/HA //|/HP //|].
  case: k => // d p /andP[/and4P[/and5P[_ A _ _ _] _ _ _] _] /=; rewrite !dexp_dmat L // => k /mem_dexp Hk.
  by case/orP: (allP A _ Hk) => [/HA|/andP[/HP]].
case/orP: W => [/HN //|].
case: r => // d p /andP[/and5P[_ A _ _ _] _] /=; rewrite !dexp_dmat L // => k /mem_dexp Hk.
by have /andP[/HN] := allP A _ Hk.
Qed.

Lemma drho_entry g M A r : lie_elem (pred1 g) M -> glook M (Some g) = Ok A -> wfr (pred1 g) r ->
  lie_elem (pred1 g) (GMat A) /\ meq (dmat (adrho (GMat A)) r) (dmat (adrho M) r).
Proof.
move=> HM E W.
have HA : lie_elem (pred1 g) (GMat A).
  move=> h /eqP ->; exists A => //; have [A' E' [I H]] := HM g (eqxx _).
  move: E'; rewrite E => -[EA]; subst A'; split=> // c.
  by have [C E1 [E2 E3]] := H c; exists C => //; split.
split=> //.
have Eq k : atomic (pred1 g) k -> adrho (GMat A) k = adrho M k.
  move=> Ak; rewrite /RhoProofs.adrho /atomf.
  have -> // : drho k M = drho k (GMat A).
  case: k Ak => // [[h|]|c [h|]|[|[h|]|c [h|]|?|? ?|? ?|? ?|?|?]] //= /andP[/eqP -> _].
  - by rewrite E.
  - have [A' E' [I H]] := HM g (eqxx _); move: E'; rewrite E => -[EA]; subst A'.
    by have [C E1 [E2 E3]] := H c; rewrite E1 E2.
  - by rewrite E.
  have [A' E' [I H]] := HM g (eqxx _); move: E'; rewrite E => -[EA]; subst A'.
  by have [C E1 [E2 E3]] := H c; rewrite E1 E2.
by rewrite (dmat_ext W Eq); apply: meq_refl.
Qed.
Lemma rmat_entry g M A r : group_elem (pred1 g) M -> glook M (Some g) = Ok A -> wfr (pred1 g) r ->
  group_elem (pred1 g) (GMat A) /\ meq (rmat (arho (GMat A)) r) (rmat (arho M) r).
Proof.
move=> HM E W.
have HA : group_elem (pred1 g) (GMat A).
  move=> h /eqP ->; exists A => //; have [A' E' [I H]] := HM g (eqxx _).
  move: E'; rewrite E => -[EA]; subst A'; split=> // c.
  by have [C E1 [E2 E3]] := H c; exists C => //; split.
split=> //.
have := rho_entry HM E W; rewrite !(rho_dense_ok _ W) // => -[Ef].
have := unflat_rmat HA W; rewrite -Ef => H1; apply: meq_trans (meq_sym H1) _.
exact: unflat_rmat HM W.
Qed.

Lemma is_op_lazify (A : op R) : is_op (lazify A). Proof. by case: A. Qed.
Lemma den_lazify (A : op R) : den (lazify A) = den A. Proof. by case: A. Qed.
Lemma gop_lazify n (A : op R) : gop n A -> gop n (lazify A). Proof. by case: A. Qed.

(** rectangular operators that can be applied and made dense *)
Definition gor m n (A : op R) : Prop :=
  [/\ wf A, supp true A, dsum_ne A, plain A \/ (forall x, conj x = x) & shape A = (m, n)].
Lemma gor_dense m n A : gor m n A -> to_dense conj A = Ok (m, n, flat (den A)).
Proof.
case=> W S D P Sh; rewrite (to_dense_ok W S P D) /dn.
by have [<- <-] := shape_den W; rewrite /rows /cols Sh.
Qed.
Lemma gor_sz m n A : gor m n A -> fr (den A) = m /\ fc (den A) = n.
Proof. by case=> W _ _ _ Sh; have [<- <-] := shape_den W; rewrite /rows /cols Sh. Qed.

Hypothesis HG : forall g h, gs g -> List.In h (gens g) -> group_elem gs (elemG g h).
Hypothesis HL : forall g A, gs g -> List.In A (lies g) -> lie_elem gs (elemL g A).
Hypothesis crho1 : forall c g C, gs g -> crho c (Some g) (GMat (OI R (gdim g))) = Ok C ->
  meq (den C) (fid R (csize c g)).
Hypothesis cdrho0 : forall c g C, gs g ->
  cdrho c (Some g) (GMat (OArr (gdim g) (gdim g) (nseq (gdim g * gdim g) 0))) = Ok C ->
  meq (den C) (fzero R (csize c g) (csize c g)).
Local Notation gix := (@gix R gs gens lies).
Local Notation cm := (@cm R sinv linv crho cdrho gdim csize gs gens lies).
Local Notation constraint_matrix := (constraint_matrix sinv linv crho cdrho gdim csize gens lies).

Lemma gop_con n A : gop n A -> exists2 B, sub (lazify A) (OI R n) = Ok B &
  [/\ is_op B, gop n B & meq (den B) (fsub (den A) (fid R n))].
Proof.
move=> G; have [W S D P Sh] := gop_lazify G; have [e1 e2] := gop_sz G.
rewrite /sub /mkSum is_op_lazify /= Sh eqxx /=; eexists; first by [].
split=> //; first split=> //=.
- by rewrite is_op_lazify W Sh eqxx.
- by rewrite S.
- by case: P => P; [left; rewrite P | right].
split=> //=; rewrite ?den_lazify // => i j Hi Hj; by rewrite mulN1r.
Qed.

Lemma plain_In (l : seq (op R)) : (forall B, List.In B l -> plain B \/ (forall x, conj x = x)) ->
  all (@plain R) l \/ (forall x, conj x = x).
Proof.
elim: l => [|B l IH] H; first by left.
have [P|] := H B (or_introl erefl); last by right.
have [|P'|] := IH; [by move=> y Hy; apply: H; right | | by right].
by left; rewrite /= P.
Qed.

(** the constraint matrix of a representation of one group exists and its null space is
    the common null space of the constraints of all generators *)
Lemma constraint_ok_gen c g : wfr (pred1 g) c -> wfr gs c -> gs g -> gattr c = Some (Some g) ->
  exists2 C, constraint_matrix c = Ok C &
    exists m, gor m (sz c) C /\ forall v, kills (fun _ : unit => den C) v <-> kills (cm^~ c) v.
Proof.
move=> W Wg Hg Eg.
rewrite /Solver.constraint_matrix (size_py_ok Wg) bindOk Eg.
set P1 := fun (h : op R) (B : op R) => forall Hx : gs g /\ List.In h (gens g),
  [/\ is_op B, gop (sz c) B & meq (den B) (cm (@Gix _ _ _ _ g (inl h) Hx) c)].
set P2 := fun (h : op R) (B : op R) => forall Hx : gs g /\ List.In h (lies g),
  [/\ is_op B, gop (sz c) B & meq (den B) (cm (@Gix _ _ _ _ g (inr h) Hx) c)].
have [|c1 -> F1] := @mapM_in _ _ (fun h => do A <- rho c (GMat h); sub (lazify A) (OI R (sz c))) P1 (gens g).
  move=> h Hh; have HM := gs_group_elem HG Hg Hh Hg.
  have [|Hh' Em] := @rmat_entry g (elemG g h) h c HM _ W; first by rewrite /= eqxx.
  have [A -> [GA MA]] := rho_ok (elem_gelem Hh') W.
  have [B EB [OB GB MB]] := gop_con GA; exists B => // Hx; split=> //.
  apply: meq_trans MB _; have [a1 a2] := gop_sz GA.
  by apply: fsub_meq => //; apply: meq_trans MA Em.
have [|c2 -> F2] := @mapM_in _ _ (fun h => rmap (@lazify R) (drho c (GMat h))) P2 (lies g).
  move=> h Hh; have HM := gs_lie_elem HL Hg Hh Hg.
  have [|Hh' Em] := @drho_entry g (elemL g h) h c HM _ W; first by rewrite /= eqxx.
  have [A -> [GA MA]] := drho_ok (lie_lelem Hh') W.
  exists (lazify A) => // Hx; split; [exact: is_op_lazify | exact: gop_lazify |].
  by rewrite den_lazify; apply: meq_trans MA Em.
rewrite !bindOk.
have ok B : List.In B (c1 ++ c2) -> [/\ is_op B, gop (sz c) B & exists x, meq (den B) (cm x c)].
  case/(@List.in_app_or _ c1 c2 B) => HB.
    by have [h Hh /(_ (Logic.conj Hg Hh))[? ? ?]] := F1.2 _ HB; split=> //; eexists; eassumption.
  by have [h Hh /(_ (Logic.conj Hg Hh))[? ? ?]] := F2.2 _ HB; split=> //; eexists; eassumption.
have cover (x : gix) : gx x = g -> exists2 B, List.In B (c1 ++ c2) & meq (den B) (cm x c).
  case: x => g0 [h|h] Hx /= E; subst g0; have [_ Hh] := Hx.
    have [B HB PB] := F1.1 _ Hh; exists B; last by have [] := PB Hx.
    by apply: List.in_or_app; left.
  have [B HB PB] := F2.1 _ Hh; exists B; last by have [] := PB Hx.
  by apply: List.in_or_app; right.
have other (x : gix) v : gx x <> g -> forall i, (i < fr (cm x c))%N -> mv (cm x c) v i = 0.
  move=> N i Hi; rewrite (mv_eq (w := v) (cm_triv_gen HG HL crho1 cdrho0 W Hg _)) ?mv_zero //.
  by apply/eqP=> E; apply: N.
have iff (Bs : seq (op R)) v : Bs = c1 ++ c2 ->
    (forall E, List.In E (map (@den R) Bs) -> kills (fun _ : unit => E) v) <-> kills (cm^~ c) v.
  move=> ->; split=> K.
    move=> x i Hi; case: (gx x =P g) => [Ex|]; last by move=> N; apply: other.
    have [B HB MB] := cover x Ex; have [b1 _ _] := MB.
    have := K (den B) (List.in_map _ _ _ HB) tt i; rewrite (mv_eq (w := v) MB) ?b1 //; exact.
  move=> E /List.in_map_iff[B [<- HB]] [] i Hi; have [_ _ [x MB]] := ok B HB.
  have [b1 _ _] := MB; rewrite (mv_eq (w := v) MB) //; apply: K; by rewrite -b1.
case En: (nilp (c1 ++ c2)).
  eexists; first by []. exists 1%N; split.
    split=> //=; [by rewrite size_nseq mul1n | by left].
  move=> v; rewrite -iff; last by [].
  rewrite (nilP En) /=; split=> // _ [] i Hi /=.
  by rewrite /mv big1 // => j _ /=; rewrite nth_nseq if_same mul0r.
have sh B : List.In B (c1 ++ c2) -> shape B = (sz c, sz c) by move=> /ok[_ [_ _ _ _ ->]].
rewrite /mkConcat; case Ec: (c1 ++ c2) En sh => [//|M Ms] _ sh; rewrite -Ec in sh *.
have H0 : List.In M (c1 ++ c2) by rewrite Ec; left.
rewrite ifT; last by apply: all_In => B /sh; rewrite /rows => ->; rewrite sh.
exists (OConcat (c1 ++ c2)) => //; exists (sumn (map (@rows R) (c1 ++ c2))); split.
  split=> /=.
  - have -> : head 0%N (map (@rows R) (c1 ++ c2)) = sz c by rewrite Ec /= /rows sh.
    have -> : head 0%N (map (@cols R) (c1 ++ c2)) = sz c by rewrite Ec /= /cols sh.
    apply/and4P; split; first by rewrite Ec.
    + by apply: all_In => B /ok[_ []].
    + by apply: all_In => B /sh; rewrite /rows => ->.
    + by apply: all_In => B /sh; rewrite /cols => ->.
  - by apply: all_In => B /ok[_ []].
  - by apply: all_In => B /ok[_ []].
  - by apply: plain_In => B /ok[_ []].
  - congr (_, _); have -> : head 0%N [seq (shape M0).2 | M0 <- c1 ++ c2] = (shape M).2 by rewrite Ec.
    by rewrite sh.
move=> v; rewrite -(iff (c1 ++ c2)) //.
have -> : den (OConcat (c1 ++ c2)) = fvcatl (sz c) (map (@den R) (c1 ++ c2)).
  have [_ G _] := ok _ H0; have [_ {1}<-] := gop_sz G.
  by rewrite [den _]/=; congr fvcatl; rewrite Ec.
apply: kills_fvcatl => E /List.in_map_iff[B [<- HB]]; have [_ G _] := ok B HB; by have [] := gop_sz G.
Qed.
Lemma constraint_ok c g : dkey gs c -> gattr c = Some (Some g) ->
  exists2 C, constraint_matrix c = Ok C &
    exists m, gor m (sz c) C /\ forall v, kills (fun _ : unit => den C) v <-> kills (cm^~ c) v.
Proof. by move=> D Eg; have [W Hg] := single_grp (dkey_wfr D) Eg; exact: constraint_ok_gen W (dkey_wfr D) Hg Eg. Qed.
End Atom.
