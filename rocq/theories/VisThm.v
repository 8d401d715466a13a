(** * VisThm: the number of distinct values of an invariant vector of a permutation
    representation. *)
From Coq Require Import Reals String ClassicalEpsilon Lra.
From mathcomp Require Import all_ssreflect all_algebra.
From mathcomp Require Import zify.
From Verif Require Import Np NpLemmas Spec SpecLemmas LinOp LinOpSpec LinOpInv LinOpProofs LinOpThm Rep RepSpec RepMat RepWf RepAlg RepMul RepFun RepOps RepExpr RhoProofs RepThm RepThm1 Solver SolSpec SolAlg SolBasis SolThm DimSol Rstruct Expm GrpSpec GrpProofs GrpThm.
From Verif Require Import Groups GroupsSpec GroupsSpecR GroupsFlag GroupsReal RepDir Nn NnSpec NnThm DimAlg DimTenSpec Vis.
Set Implicit Arguments.
Unset Strict Implicit.
Unset Printing Implicit Defensive.
Import GRing.Theory.
Local Open Scope ring_scope.

Section Clust.
Variables (N k : nat) (Q : seq RR) (Qs : seq nat -> Prop).
Definition permuted (v : seq RR) : Prop := forall s, Qs s -> forall i, (i < N)%N -> nth 0 v (nth 0%N s i) = nth 0 v i.
Hypothesis HP : forall s, Qs s -> is_perm N s.
Hypothesis HS : spans N k Q permuted.
Definition alike (i j : nat) : bool :=
  if excluded_middle_informative (forall u, size u = N -> permuted u -> nth 0 u i = nth 0 u j) then true else false.
Lemma alikeP i j : reflect (forall u, size u = N -> permuted u -> nth 0 u i = nth 0 u j) (alike i j).
Proof. by rewrite /alike; case: excluded_middle_informative => /= H; constructor. Qed.
Lemma alike_refl i : alike i i. Proof. exact/alikeP. Qed.
Lemma alike_sym i j : alike i j = alike j i.
Proof. by apply/alikeP/alikeP=> H u Su Pu; rewrite H. Qed.
Lemma alike_trans i j l : alike i j -> alike j l -> alike i l.
Proof. by move=> /alikeP H1 /alikeP H2; apply/alikeP => u Su Pu; rewrite H1 // H2. Qed.
Lemma alike_moved s i : Qs s -> (i < N)%N -> alike (nth 0%N s i) i.
Proof. by move=> Hs Hi; apply/alikeP => u _ Pu; exact: Pu. Qed.
Definition firsts : seq nat := [seq i <- iota 0 N | ~~ has (fun j => alike j i) (iota 0 i)].
Lemma firsts_lt x : x \in firsts -> (x < N)%N.
Proof. by rewrite mem_filter mem_iota => /andP[_]. Qed.
Lemma firsts_cover i : (i < N)%N -> exists2 x, x \in firsts & alike x i.
Proof.
elim/ltn_ind: i => i IH Hi; case E : (has (fun j => alike j i) (iota 0 i)).
  case/hasP: E => j; rewrite mem_iota /= add0n => Hj A; have [x Hx Ax] := IH j Hj (ltn_trans Hj Hi).
  by exists x => //; exact: alike_trans Ax A.
by exists i; rewrite ?alike_refl // mem_filter E mem_iota.
Qed.
Lemma firsts_apart x y : x \in firsts -> y \in firsts -> alike x y -> x = y.
Proof.
have H a b : b \in firsts -> alike a b -> (b <= a)%N.
  rewrite mem_filter => /andP[/hasPn F _] A; rewrite leqNgt; apply/negP => L.
  by have := F a; rewrite mem_iota /= add0n L A => /(_ isT).
by move=> Hx Hy A; apply/eqP; rewrite eqn_leq (H _ _ Hy A) andbT H // alike_sym.
Qed.
Lemma firsts_count : k = size firsts.
Proof.
case: HS => HQ HU; apply: (@points_eq N k Q permuted firsts HQ HU); first exact: firsts_lt.
- move=> j Hj; have Hx := mem_nth 0%N Hj; set x := nth 0%N firsts j in Hx *.
  exists (mkseq (fun i => (alike x i)%:R : RR) N); first exact: size_mkseq.
  split.
    move=> s Hs i Hi; have Hi' := is_perm_nth (HP Hs) Hi; rewrite !nth_mkseq //; congr ((_ : bool)%:R).
    have A := alike_moved Hs Hi; apply/idP/idP => B; first exact: alike_trans B A.
    by apply: alike_trans B _; rewrite alike_sym.
  move=> i Hi; have Hy := mem_nth 0%N Hi; rewrite nth_mkseq; last exact: firsts_lt.
  congr ((_ : bool)%:R); apply/idP/eqP => [/(firsts_apart Hx Hy) E|->]; last exact: alike_refl.
  by apply/eqP; rewrite -(nth_uniq 0%N Hi Hj) ?filter_uniq ?iota_uniq // -E.
- move=> v Sv Uv H i Hi; have [x Hx /alikeP A] := firsts_cover Hi.
  by rewrite -A // H.
Qed.
(** ** at most k values, and k values for some vector *)
Theorem values_le v : size v = N -> permuted v -> (size (undup v) <= k)%N.
Proof.
move=> Sv Pv; rewrite firsts_count -(size_map (nth 0 v)); apply: uniq_leq_size; first exact: undup_uniq.
move=> y; rewrite mem_undup => /(nthP 0)[i]; rewrite Sv => Hi <-.
by have [x Hx /alikeP A] := firsts_cover Hi; rewrite -A //; exact: map_f.
Qed.
Theorem values_eq : exists v, [/\ size v = N, permuted v & size (undup v) = k].
Proof.
pose v := mkseq (fun i => INR (find (fun x => alike x i) firsts) : RR) N.
have Pv : permuted v.
  move=> s Hs i Hi; have Hi' := is_perm_nth (HP Hs) Hi; rewrite !nth_mkseq //; congr INR.
  apply: eq_find => x; have A := alike_moved Hs Hi; apply/idP/idP => B; first exact: alike_trans B A.
  by apply: alike_trans B _; rewrite alike_sym.
exists v; split=> //; first exact: size_mkseq.
apply/eqP; rewrite eqn_leq values_le ?size_mkseq //= firsts_count -(size_map (nth 0 v)).
apply: uniq_leq_size; last first.
  by move=> y /mapP[x Hx ->]; rewrite mem_undup; apply: mem_nth; rewrite size_mkseq; exact: firsts_lt.
rewrite map_inj_in_uniq ?filter_uniq ?iota_uniq // => x y Hx Hy; rewrite !nth_mkseq ?firsts_lt // => /INR_eq E.
have hx : has (fun z => alike z x) firsts by apply/hasP; exists x => //; exact: alike_refl.
have hy : has (fun z => alike z y) firsts by apply/hasP; exists y => //; exact: alike_refl.
apply: firsts_apart => //; have := nth_find 0%N hx; have := nth_find 0%N hy; rewrite -E => A B.
by rewrite alike_sym in B; exact: alike_trans B A.
Qed.
End Clust.

Lemma undup_map_le (T U : eqType) (f : T -> U) s : (size (undup (map f s)) <= size (undup s))%N.
Proof.
rewrite -(size_map f); apply: uniq_leq_size; first exact: undup_uniq.
move=> y; rewrite mem_undup => /mapP[x Hx ->]; apply: map_f; by rewrite mem_undup.
Qed.

Section Main.
Variables (sinv : RR -> RR) (linv : nat -> seq RR -> seq RR).
Variables (crho cdrho : nat -> option gid -> gel RR -> res (op RR)).
Variables (gdim : gid -> nat) (gorth : gid -> bool) (csize : nat -> gid -> nat) (le : rel rep) (g : gid).
Variables (gens lies : gid -> seq (op RR)).
Variables (svd : nat -> nat -> seq RR -> seq RR * seq RR * seq RR) (big : pred RR).
Variable krylov : op RR -> res (darr RR).
Local Notation sz := (rsize gdim csize).
Local Notation wfr := (wfr gdim csize le (pred1 g)).
Local Notation basis := (basis idR sinv linv crho cdrho gdim csize le gens lies svd big krylov).
Local Notation projector := (projector idR sinv linv crho cdrho gdim csize le gens lies svd big krylov).
Local Notation solver_ok := (solver_ok idR gdim sinv linv crho cdrho csize gens lies svd big krylov).
Local Notation generators_ok := (generators_ok idR gdim sinv linv crho cdrho csize (pred1 g) gens lies).
Local Notation element := (element sinv linv gdim gens lies g).
Local Notation group_invariant := (group_invariant sinv linv crho gdim csize (pred1 g) gens lies).
Local Notation factors_nonzero := (factors_nonzero idR gdim sinv linv crho cdrho csize (pred1 g) gens lies).
Local Notation rho_dense := (rho_dense idR sinv linv crho).
Hypothesis HLI : linv_ok linv.
Hypothesis HC : customs_ok sinv linv crho cdrho gdim csize (pred1 g).
Hypothesis HGen : generators_ok.
Hypothesis O : total_order_on (key gdim csize le (pred1 g)) le.

Definition used (r : rep) (s : seq nat) : Prop := is_perm (sz r) s /\ exists M D, [/\ element M, rho_dense r M = Ok (sz r, sz r, D) &
  forall i j, (i < sz r)%N -> (j < sz r)%N -> nth 0 D (i * sz r + j)%N = (j == nth 0%N s i)%:R].
Lemma matvec_perm n (D : seq RR) s v : is_perm n s -> size v = n -> (forall i j, (i < n)%N -> (j < n)%N -> nth 0 D (i * n + j)%N = (j == nth 0%N s i)%:R) ->
  matvec n n D v = v <-> forall i, (i < n)%N -> nth 0 v (nth 0%N s i) = nth 0 v i.
Proof.
move=> P Sv H; have E i : (i < n)%N -> nth 0 (matvec n n D v) i = nth 0 v (nth 0%N s i).
  move=> Hi; rewrite matvecE // nth_mkseq // /mv /= (sum_only (i := nth 0%N s i)) ?H ?eqxx ?mul1r //; try exact: is_perm_nth.
  by move=> j Hj /negbTE ne; rewrite H // ne mul0r.
split=> [F i Hi|F]; first by rewrite -E // F.
by apply: (@eq_from_nth _ 0); rewrite matvecE // size_mkseq ?Sv // => i Hi; rewrite -matvecE // E // F.
Qed.
Lemma invariant_permuted r v : wfr r -> acts_by_permutations idR sinv linv crho gdim csize element r -> size v = sz r ->
  group_invariant r v <-> permuted (sz r) (used r) v.
Proof.
move=> W A Sv; split=> [GI s [P [M [D [EM ED H]]]]|H M X GX EX].
  by have [X GX EX] := EM; have [D'] := GI M X GX EX; rewrite ED => -[<-] /(matvec_perm P Sv H).
have EM : element M by exists X.
have [D [s [ED P HD]]] := A M EM; exists D => //; apply/(matvec_perm P Sv HD); apply: H.
by split=> //; exists M, D.
Qed.
Lemma perm_spans r : wfr r -> (forall c, c \in systems gdim csize r -> solver_ok c) -> factors_nonzero r ->
  acts_by_permutations idR sinv linv crho gdim csize element r ->
  exists k Q, returns (basis r) (sz r) k Q /\ spans (sz r) k Q (permuted (sz r) (used r)).
Proof.
move=> W HSol F A; case: (HGen) => HG HL h1 h0.
have [B [k [Q [E D M H]]]] := @basis_mat RR idR sinv linv crho cdrho gdim csize le (pred1 g) gens lies svd big krylov
  (fun _ _ => erefl) (fun _ => erefl) erefl erefl HG HL h1 h0 O r W HSol F.
exists k, Q; split; first by exists B.
split=> // v Sv; rewrite -(invariant_permuted W A Sv) -(H v Sv); split; [exact: (group_invariant_inv HLI HC HGen W Sv) | exact: (invariant_group HLI HC HGen W Sv)].
Qed.
(** every invariant vector has at most as many distinct values as the basis has columns *)
Theorem distinct_values r : wfr r -> (forall c, c \in systems gdim csize r -> solver_ok c) -> factors_nonzero r ->
  acts_by_permutations idR sinv linv crho gdim csize element r ->
  exists k Q, [/\ returns (basis r) (sz r) k Q,
    forall v, size v = sz r -> group_invariant r v -> (size (undup v) <= k)%N &
    exists v, [/\ size v = sz r, group_invariant r v & size (undup v) = k]].
Proof.
move=> W HSol F A; have [k [Q [R S]]] := perm_spans W HSol F A; have U s : used r s -> is_perm (sz r) s by case.
exists k, Q; split=> //.
  by move=> v Sv /(invariant_permuted W A Sv); exact: values_le U S v Sv.
have [v [Sv Pv E]] := values_eq U S; exists v; split=> //; exact/(invariant_permuted W A Sv).
Qed.
Lemma no_mixed r : wfr r -> factors_nonzero r.
Proof.
have ND dd p : ~~ isdir gdim csize le (pred1 g) (RDir dd p).
  apply/negP => /= /andP[/and4P[/and5P[_ A _ _ _] _ L U] _].
  case: dd A L U => [|[k1 n1] [|[k2 n2] dd]] //= /and3P[/dkey_gattr[g1 E1 /eqP e1] /dkey_gattr[g2 E2 /eqP e2] _] _.
  by rewrite E1 E2 e1 e2 inE eqxx.
have NS dd p : ~~ nonsum gdim csize le (pred1 g) (RDir dd p) by apply/negP => /or4P[] // ; exact/negP.
case/orP=> [N|S] dd p k Hd Hk.
  by case: r N Hd => // dd' p' N; rewrite inE => /eqP E; rewrite -E in N; case/negP: (NS dd p).
case: r S Hd => // ds p' /andP[/and5P[_ A _ _ _] _] Hd; have /andP[N _] := allP A _ Hd.
by case/negP: (NS dd p).
Qed.
Lemma rshift_wf a b : wfr a -> wfr b -> exists2 r, rshift gdim gorth csize le a b = Ok r & wfr r /\ sz r = (sz b * sz a)%N.
Proof.
move=> Wa Wb; have G1 : generated gdim (pred1 g) gens lies (fun h => fid RR (gdim h)) by apply: G_one => h _; exact: meq_refl.
have HM := is_elem HC (fel_is HLI HGen G1).
have HA k Hk := @arho_kok RR idR sinv linv crho gdim csize (pred1 g) _ k HM Hk.
have Hgs h : pred1 g h -> h = g by move/eqP.
have [t Et [Wt St Mt]] := tr_ok gorth Hgs O HA Wa.
have [r E [H1 H2 H3]] := mul_ok Hgs O HA Wb Wt.
by exists r; rewrite /rshift ?Et // H2 St.
Qed.
Local Notation vis rnd randn := (vis idR sinv linv crho cdrho gdim gorth csize le gens lies svd big krylov rnd randn).
Theorem vis_thm a b r : wfr a -> wfr b -> rshift gdim gorth csize le a b = Ok r ->
  (forall c, c \in systems gdim csize r -> solver_ok c) ->
  acts_by_permutations idR sinv linv crho gdim csize element r ->
  exists k, (forall rnd randn, (forall n, size (randn n) = n) ->
      exists2 u, vis rnd randn a b = Ok (k, u) & size u = (sz b * sz a)%N /\ (size (undup u) <= k)%N) /\
    exists2 randn, (forall n, size (randn n) = n) & exists2 u, vis id randn a b = Ok (k, u) & size (undup u) = k.
Proof.
move=> Wa Wb Er HSol A; have [r0] := rshift_wf Wa Wb; rewrite Er => -[<-] {r0} [W Sr].
have F := no_mixed W; have [k [Q [[B EB ED] HD HE]]] := distinct_values W HSol F A.
case: (HGen) => HG HL h1 h0.
have [P [D [[EP EPD] _ _ HP]]] := @projector_thm RR idR sinv linv crho cdrho gdim csize le (pred1 g) gens lies svd big krylov
  (fun _ _ => erefl) (fun _ => erefl) erefl erefl HG HL h1 h0 O (fun _ => erefl) r W HSol.
have [B' [P' [k' [Q' [EB' ED' shB EP' shP]]]]] := @shapes RR idR sinv linv crho cdrho gdim csize le (pred1 g) gens lies svd big krylov
  (fun _ _ => erefl) (fun _ => erefl) erefl erefl HG HL h1 h0 O (fun _ => erefl) r W HSol F.
rewrite EB in EB'; case: EB' => ?; rewrite EP in EP'; case: EP' => ?; subst B' P'.
rewrite ED in ED'; case: ED' => ? _; subst k'.
have V rnd randn u : (forall n, size (randn n) = n) -> matmat idR P 1 (randn (sz r)) = Ok u -> size u = sz r ->
    vis rnd randn a b = Ok (k, map rnd u).
  by move=> _ E Su; rewrite /Vis.vis Er bindOk EP bindOk EB bindOk shP E bindOk Su Sr eqxx shB.
exists k; split.
  move=> rnd randn Sn; have [u E [Su Iu _]] := HP _ (Sn (sz r)); exists (map rnd u); first exact: V.
  split; first by rewrite size_map Su.
  apply: leq_trans (undup_map_le _ _) _; apply: HD => //; exact: (invariant_group HLI HC HGen W Su).
have [v [Sv Gv Ev]] := HE; pose randn n := if n == sz r then v else nseq n 0 : seq RR.
have Sn n : size (randn n) = n by rewrite /randn; case: eqP => [->|_]; rewrite ?size_nseq.
have En : randn (sz r) = v by rewrite /randn eqxx.
exists randn => //; have [u E [Su Iu Fx]] := HP _ Sv; have Iv := group_invariant_inv HLI HC HGen W Sv Gv.
exists v => //; rewrite -[in RHS](map_id v); apply: V => //; rewrite En E; congr Ok; exact: (proj1 Fx Iv).
Qed.
End Main.

(** flagged permutation representations *)
Theorem vis_flagged sinv linv crho cdrho gdim csize le (g : gid) svd big krylov (G : gid -> group RR) (cperm : nat -> bool) a b r :
  linv_ok linv -> customs_ok sinv linv crho cdrho gdim csize (pred1 g) ->
  SolSpec.generators_ok idR gdim sinv linv crho cdrho csize (pred1 g) (the_gens G) (the_lies G) ->
  total_order_on (key gdim csize le (pred1 g)) le -> tested (gdim g) (G g) ->
  (forall c C M, element sinv linv gdim (the_gens G) (the_lies G) g M -> crho c (Some g) M = Ok C -> cperm c -> GroupsPerm.isperm (csize c g) (den C)) ->
  wfr gdim csize le (pred1 g) a -> wfr gdim csize le (pred1 g) b ->
  rshift gdim (fun h => g_orth (G h)) csize le a b = Ok r -> Rep.isperm (fun h => g_perm (G h)) cperm r ->
  (forall c, solver_ok idR gdim sinv linv crho cdrho csize (the_gens G) (the_lies G) svd big krylov c) ->
  let V rnd randn := vis idR sinv linv crho cdrho gdim (fun h => g_orth (G h)) csize le (the_gens G) (the_lies G) svd big krylov rnd randn a b in
  exists k, (forall rnd randn, (forall n, size (randn n) = n) ->
      exists2 u, V rnd randn = Ok (k, u) & size u = (rsize gdim csize b * rsize gdim csize a)%N /\ (size (undup u) <= k)%N) /\
    exists2 randn, (forall n, size (randn n) = n) & exists2 u, V id randn = Ok (k, u) & size (undup u) = k.
Proof.
move=> h1 h2 h3 h4 HT Hp Wa Wb Er F HSol V; have [r' E [W _]] := rshift_wf (fun h => g_orth (G h)) h1 h2 h3 h4 Wa Wb.
move: E; rewrite Er => -[?]; subst r'; apply: (vis_thm h1 h2 h3 h4 Wa Wb Er) => [c _|]; first exact: HSol.
exact: (element_perm h2 HT Hp W F).
Qed.
