(** * CacheProofs: the cache is transparent when names are injective. *)
From mathcomp Require Import all_ssreflect all_algebra.
From Verif Require Import Np NpLemmas LinOp Rep RepMat RepWf RepAlg Eq EqProofs Solver SolSpec SolFam SolProofs SolBasis Cache.
Set Implicit Arguments.
Unset Strict Implicit.
Unset Printing Implicit Defensive.
Import GRing.Theory.

Section C.
Variable R : comRingType.
Variables (conj sinv : R -> R) (linv : nat -> seq R -> seq R).
Variables (crho cdrho : nat -> option gid -> gel R -> res (op R)).
Variables (gdim : gid -> nat) (csize : nat -> gid -> nat) (le : rel rep) (gs : pred gid).
Variables (gens lies : gid -> seq (op R)).
Variables (svd : nat -> nat -> seq R -> seq R * seq R * seq R) (big : pred R).
Variable krylov : op R -> res (darr R).
Variable name : gid -> gid.
Local Notation sz := (rsize gdim csize).
Local Notation atomic := (atomic gdim csize gs).
Local Notation isprod := (isprod gdim csize le gs).
Local Notation dkey := (dkey gdim csize le gs).
Local Notation key := (key gdim csize le gs).
Local Notation nonsum := (nonsum gdim csize le gs).
Local Notation wfr := (wfr gdim csize le gs).
Local Notation solve := (solve conj sinv linv crho cdrho gdim csize gens lies svd big krylov).
Hypothesis O : total_order_on key le.
Hypothesis IN : forall g h, gs g -> gs h -> name g = name h -> g = h.

Lemma py_eq_ren a b : dkey a -> dkey b -> py_eq (ren name a) (ren name b) = Ok (a == b).
Proof.
have nE g h : gs g -> gs h -> (Some (name g) == Some (name h)) = (Some g == Some h).
  by move=> Hg Hh; apply/eqP/eqP => [[E]|[->] //]; rewrite (IN Hg Hh E).
have AT x y : atomic x -> atomic y -> py_eq (ren name x) (ren name y) = py_eq x y.
  case: x => // [[h|]|c [h|]|[|[h|]|c [h|]|?|? ?|? ?|? ?|?|?]] //= /andP[Hh _];
  case: y => [|[h'|]|c' [h'|]|[|[h'|]|c' [h'|]|?|? ?|? ?|? ?|?|?]|? ?|? ?|? ?|?|?] //= /andP[Hh' _];
  by rewrite ?(nE _ _ Hh Hh').
move=> Da Db; rewrite -(eq_dkeys O Da Db).
case/orP: Da => [A|/andP[Pa _]]; case/orP: Db => [B|/andP[Pb _]].
- exact: AT.
- by case: b Pb => // e q _; case: a A => // [[|] //|? [|] //|[]].
- by case: a Pa => // d p _; case: b B.
case: a Pa => // d p /andP[/and3P[D1 _ _] _]; case: b Pb => // e q /andP[/and3P[D2 _ _] _].
have [_ -> _ _ _] := py_eq_dict d p e q.
have [_ /= -> _ _ _] := py_eq_dict [seq (ren name x.1, x.2) | x <- d] p [seq (ren name x.1, x.2) | x <- e] q.
case/and5P: D1 => _ A1 _ _ _; case/and5P: D2 => _ A2 _ _ _.
congr bind; rewrite /deq !size_map; case: ifP => // _ {p q}.
have Fd k c : atomic k -> dfind c (py_eq (ren name k)) [seq (ren name x.1, x.2) | x <- e] = dfind c (py_eq k) e.
  move=> Hk; elim: e A2 => [|[k' c'] e IH] //= /andP[Hk' He]; rewrite AT // IH //.
elim: d A1 => [|[k c] d IH] //= /andP[Hk Hd]; rewrite Fd //.
by case: dfind => //= -[]; rewrite ?IH.
Qed.

Local Notation basis_rep := (basis_rep conj sinv linv crho cdrho gdim csize le gens lies svd big krylov).
Local Notation basis_ns := (basis_ns conj sinv linv crho cdrho gdim csize le gens lies svd big krylov).
Local Notation basis := (basis conj sinv linv crho cdrho gdim csize le gens lies svd big krylov).
Local Notation projector_rep := (projector_rep conj sinv linv crho cdrho gdim csize le gens lies svd big krylov).
Local Notation projector_ns := (projector_ns conj sinv linv crho cdrho gdim csize le gens lies svd big krylov).
Local Notation projector := (projector conj sinv linv crho cdrho gdim csize le gens lies svd big krylov).
Local Notation basis_rep_c := (basis_rep_c conj sinv linv crho cdrho gdim csize le gens lies svd big krylov name).
Local Notation basis_ns_c := (basis_ns_c conj sinv linv crho cdrho gdim csize le gens lies svd big krylov name).
Local Notation basis_c := (basis_c conj sinv linv crho cdrho gdim csize le gens lies svd big krylov name).
Local Notation projector_rep_c := (projector_rep_c conj sinv linv crho cdrho gdim csize le gens lies svd big krylov name).
Local Notation projector_ns_c := (projector_ns_c conj sinv linv crho cdrho gdim csize le gens lies svd big krylov name).
Local Notation projector_c := (projector_c conj sinv linv crho cdrho gdim csize le gens lies svd big krylov name).

(** every entry is the solution of its key *)
Definition cache_ok (c : cache R) : Prop := foldr (fun x Q => (dkey x.1 /\ solve x.1 = Ok x.2) /\ Q) True c.
Lemma cache_ok_rcons c k Q : cache_ok c -> dkey k -> solve k = Ok Q -> cache_ok (rcons c (k, Q)).
Proof. by elim: c => [|x c IH] //= [H1 H2] D S; split=> //; apply: IH. Qed.

Lemma look_ok c k : cache_ok c -> dkey k ->
  look name c k = Ok None \/ exists2 Q, look name c k = Ok (Some Q) & solve k = Ok Q.
Proof.
elim: c => [|[k' Q] c IH] /=; first by left.
case=> [[D' S'] Hc] D; rewrite py_eq_ren //=; case: eqP => [E|_]; last exact: IH.
by right; exists Q; rewrite -?E.
Qed.

(** m is the pure computation x, whatever the (correct) cache *)
Definition pure_c A (m : cst R A) (x : res A) : Prop :=
  forall c, cache_ok c -> (m c).1 = x /\ cache_ok (m c).2.
Lemma pure_ret A (x : res A) : pure_c (cret x) x.
Proof. by move=> c Hc. Qed.
Lemma pure_bind A B (m : cst R A) x (f : A -> cst R B) g :
  pure_c m x -> (forall a, x = Ok a -> pure_c (f a) (g a)) -> pure_c (cbind m f) (bind x g).
Proof.
move=> Hm Hf c Hc; rewrite /cbind; have [] := Hm c Hc; case: (m c) => y c' /= -> H.
by case: x Hf {Hm} => [a|e] Hf //=; apply: Hf.
Qed.
Lemma pure_mapM A B (f : A -> cst R B) g (l : seq A) :
  foldr (fun x Q => pure_c (f x) (g x) /\ Q) True l -> pure_c (cmapM f l) (mapM g l).
Proof.
elim: l => [_|x l IH /= [H1 H2]]; first exact: pure_ret.
by apply: pure_bind => // a _; apply: pure_bind; [exact: IH | move=> ? _; exact: pure_ret].
Qed.

Lemma basis_rep_pure r : nonsum r -> (if r is RDir _ _ then false else true) -> pure_c (basis_rep_c r) (basis_rep r).
Proof.
move=> N ND; rewrite /Cache.basis_rep_c /Solver.basis_rep.
case Es : (r == RScalar); first by rewrite (eqP Es); apply: pure_ret.
have W : wfr r by rewrite /RepWf.wfr N.
have -> : forall T (a b : T), (if r is RScalar then a else b) = b by case: (r) Es.
have -> : forall T (a b : T), (if r is RScalar then a else b) = b by case: (r) Es.
rewrite (canonicalizeE O W) /=.
have D := canon_dkey N ND (elimF eqP Es).
move=> c Hc; rewrite /cbind /=; case: ifP => // _.
case: (look_ok Hc D) => [-> | [Q -> ->]] //=.
case E : (solve _) => [Q|e] //=; split=> //; exact: cache_ok_rcons.
Qed.

Lemma basis_ns_pure r : nonsum r -> pure_c (basis_ns_c r) (basis_ns r).
Proof.
case Es : (if r is RDir _ _ then false else true) => N; last first.
  case: r N Es => // d p N _; apply: pure_bind; last by move=> Qs _; exact: pure_ret.
  apply: pure_mapM; case/or4P: N => // /andP[/and4P[/and5P[_ A _ _ _] _ _ _] _].
  elim: (keys d) A => //= k l IH /andP[Hk Hl]; split; last exact: IH.
  apply: basis_rep_pure; last by case: (k) Hk.
  by case/orP: Hk => [/atomic_sub|/andP[/isprod_sub]].
by have := basis_rep_pure N Es; case: r {N} Es.
Qed.
Lemma basis_pure r : wfr r -> pure_c (basis_c r) (basis r).
Proof.
case/orP=> [N|]; first by have := basis_ns_pure N; case: r N.
case: r => // d p /andP[/and5P[_ A _ _ _] _]; apply: pure_bind; last by move=> Qs _; exact: pure_ret.
apply: pure_mapM; elim: (keys d) A => //= k l IH /andP[/andP[Hk _] Hl]; split; last exact: IH.
exact: basis_ns_pure.
Qed.
Lemma projector_rep_pure r : nonsum r -> (if r is RDir _ _ then false else true) ->
  pure_c (projector_rep_c r) (projector_rep r).
Proof. by move=> N S; apply: pure_bind; [exact: basis_rep_pure | move=> Q _; exact: pure_ret]. Qed.
Lemma projector_ns_pure r : nonsum r -> pure_c (projector_ns_c r) (projector_ns r).
Proof.
case Es : (if r is RDir _ _ then false else true) => N; last first.
  case: r N Es => // d p N _; apply: pure_bind; last by move=> Qs _; exact: pure_ret.
  apply: pure_mapM; case/or4P: N => // /andP[/and4P[/and5P[_ A _ _ _] _ _ _] _].
  elim: (keys d) A => //= k l IH /andP[Hk Hl]; split; last exact: IH.
  apply: projector_rep_pure; last by case: (k) Hk.
  by case/orP: Hk => [/atomic_sub|/andP[/isprod_sub]].
by have := projector_rep_pure N Es; case: r {N} Es.
Qed.
Lemma projector_pure r : wfr r -> pure_c (projector_c r) (projector r).
Proof.
case/orP=> [N|]; first by have := projector_ns_pure N; case: r N.
case: r => // d p /andP[/and5P[_ A _ _ _] _]; apply: pure_bind; last by move=> Qs _; exact: pure_ret.
apply: pure_mapM; elim: (keys d) A => //= k l IH /andP[/andP[Hk _] Hl]; split; last exact: IH.
exact: projector_ns_pure.
Qed.

Definition fresh (b : bcall) : res (op R) :=
  match b with CallBasis r => basis r | CallProj r => projector r end.
Theorem calls_pure bs c : cache_ok c -> all (fun b => wfr (bcall_rep b)) bs ->
  do_calls conj sinv linv crho cdrho gdim csize le gens lies svd big krylov name bs c = map fresh bs.
Proof.
elim: bs c => [|b bs IH] c Hc //= /andP[Hb Hbs].
have P : pure_c (do_call conj sinv linv crho cdrho gdim csize le gens lies svd big krylov name b) (fresh b).
  by case: b Hb => r Hr; [apply: basis_pure | apply: projector_pure].
have [] := P c Hc; by case: do_call => x c' /= -> Hc'; rewrite IH.
Qed.
Corollary calls_fresh bs : all (fun b => wfr (bcall_rep b)) bs ->
  do_calls conj sinv linv crho cdrho gdim csize le gens lies svd big krylov name bs [::] = map fresh bs.
Proof. exact: calls_pure. Qed.
End C.
