(** * EqProofs: when == on representations is equality. *)
From mathcomp Require Import all_ssreflect all_algebra.
From Verif Require Import Np NpLemmas LinOp Rep RepMat RepWf RepAlg Eq.
Set Implicit Arguments.
Unset Strict Implicit.
Unset Printing Implicit Defensive.

Fixpoint dfind (c : nat) (eqk : rep -> res bool) (d2 : dict) : res bool :=
  match d2 with
  | [::] => Ok false
  | (k', c') :: d2' => do e <- eqk k'; if e then Ok (c == c') else dfind c eqk d2'
  end.
Fixpoint all_in (d1 : seq (rep * nat)) (d2 : dict) : res bool :=
  match d1 with
  | [::] => Ok true
  | (k, c) :: d1' => do f <- dfind c (py_eq k) d2; if f then all_in d1' d2 else Ok false
  end.
Definition deq (d1 d2 : dict) : res bool := if size d1 == size d2 then all_in d1 d2 else Ok false.

Lemma py_eq_dict d p e q :
  [/\ py_eq (RSum d p) (RSum e q) = (do x <- deq d e; Ok (x && (p == q))),
      py_eq (RProd d p) (RProd e q) = (do x <- deq d e; Ok (x && (p == q))),
      py_eq (RProd d p) (RDir e q) = (do x <- deq d e; Ok (x && (p == q))),
      py_eq (RDir d p) (RProd e q) = (do x <- deq d e; Ok (x && (p == q))) &
      py_eq (RDir d p) (RDir e q) = (do x <- deq d e; Ok (x && (p == q)))].
Proof.
have F k c f d2 : (fix find (k : rep) (c : nat) (eqk : rep -> res bool) (d2 : dict) : res bool :=
    match d2 with
    | [::] => Ok false
    | (k', c') :: d2' => do e <- eqk k'; if e then Ok (c == c') else find k c eqk d2'
    end) k c f d2 = dfind c f d2.
  by elim: d2 => [|[k' c'] d2 IH] //=; case: (f k') => //= -[].
have A d1 d2 : (fix all_in (d1 : seq (rep * nat)) (d2 : dict) : res bool :=
    match d1 with
    | [::] => Ok true
    | (k, c) :: d1' =>
        do f <- (fix find (k : rep) (c : nat) (eqk : rep -> res bool) (d2 : dict) : res bool :=
            match d2 with
            | [::] => Ok false
            | (k', c') :: d2' => do e <- eqk k'; if e then Ok (c == c') else find k c eqk d2'
            end) k c (py_eq k) d2; if f then all_in d1' d2 else Ok false
    end) d1 d2 = all_in d1 d2.
  by elim: d1 => [|[k c] d1 IH] //=; rewrite F; case: (dfind _ _ _) => //= -[].
split; rewrite /deq; by cbn [py_eq]; rewrite A.
Qed.

Section Eq.
Variables (gdim : gid -> nat) (csize : nat -> gid -> nat) (le : rel rep) (gs : pred gid).
Local Notation sz := (rsize gdim csize).
Local Notation atomic := (atomic gdim csize gs).
Local Notation isprod := (isprod gdim csize le gs).
Local Notation isdir := (isdir gdim csize le gs).
Local Notation dkey := (dkey gdim csize le gs).
Local Notation key := (key gdim csize le gs).
Local Notation nonsum := (nonsum gdim csize le gs).
Local Notation issum := (issum gdim csize le gs).
Local Notation wfr := (wfr gdim csize le gs).
Hypothesis O : total_order_on key le.

Lemma dfind_ok k c (d2 : dict) : uniq (keys d2) ->
  (forall k', k' \in keys d2 -> py_eq k k' = Ok (k == k')) ->
  dfind c (py_eq k) d2 = Ok ((k, c) \in d2).
Proof.
elim: d2 => [|[k' c'] d2 IH] //= /andP[N U] H; rewrite H ?mem_head //= inE xpair_eqE.
case: eqP => [->|_] /=; last first.
  by apply: IH => // x Hx; apply: H; rewrite inE Hx orbT.
case: eqP => //= _; congr Ok; apply/esym/negP => /(map_f fst) /= Hk.
by rewrite Hk in N.
Qed.

Lemma all_in_ok (d1 d2 : dict) : uniq (keys d2) ->
  (forall k k', k \in keys d1 -> k' \in keys d2 -> py_eq k k' = Ok (k == k')) ->
  all_in d1 d2 = Ok (all (mem d2) d1).
Proof.
move=> U; elim: d1 => [|[k c] d1 IH] //= H.
rewrite dfind_ok //= => [|k' Hk']; last by apply: H => //; apply: mem_head.
by case: ((k, c) \in d2) => //=; apply: IH => x y Hx Hy; apply: H => //; rewrite inE Hx orbT.
Qed.

Lemma deq_ok (D1 D2 : pred rep) (d1 d2 : dict) : {subset D1 <= key} -> {subset D2 <= key} ->
  okdict le D1 d1 -> okdict le D2 d2 ->
  (forall k k', k \in keys d1 -> k' \in keys d2 -> py_eq k k' = Ok (k == k')) ->
  deq d1 d2 = Ok (d1 == d2).
Proof.
move=> S1 S2 /and5P[_ A1 U1 O1 _] /and5P[_ A2 U2 O2 _] H; rewrite /deq.
case: ifP => [/eqP Sz|NS]; last by congr Ok; apply/esym/eqP => E; rewrite E eqxx in NS.
rewrite all_in_ok //; congr Ok; apply/idP/eqP => [/allP Sub|->]; last by apply/allP.
have Sk : {subset keys d1 <= keys d2} by move=> k /mapP[x /Sub Hx ->]; apply: map_f.
have U : uniq d1 by apply: map_uniq U1.
have P : perm_eq d1 d2.
  apply: uniq_perm => //; first exact: map_uniq U2.
  by apply: (uniq_min_size U Sub _).2; rewrite Sz.
have A2' : all key (keys d2) by apply/allP=> k /(allP A2) /S2.
have EK : keys d1 = keys d2.
  rewrite (sub_keys O U2 O2 A2' U1 O1 Sk); apply/all_filterP/allP=> k.
  by rewrite (perm_mem (perm_map fst P)).
have cE (d : dict) x : uniq (keys d) -> x \in d -> x = (x.1, cnt d x.1).
  elim: d => [|[k c] d IH] //= /andP[N Ud]; rewrite inE /cnt /=; case: eqP => [-> _|_ /= Hx] /=.
    by rewrite eqxx.
  rewrite (negbTE (_ : k != x.1)) /=; first exact: IH.
  by apply/eqP => E; case/negP: N; rewrite E; apply: map_f.
have dE (d : dict) : uniq (keys d) -> d = [seq (k, cnt d k) | k <- keys d].
  by move=> Ud; rewrite /keys -map_comp -[LHS]map_id; apply/eq_in_map => x Hx /=; apply: cE.
rewrite (dE _ U1) (dE _ U2) EK; apply/eq_in_map => k Hk; congr pair.
have [x Hx E] := mapP Hk; have H1 : x \in d1 by rewrite (perm_mem P).
by have := cE _ _ U1 H1; have := cE _ _ U2 Hx; rewrite -E => -> [].
Qed.

Lemma eq_atomic a b : atomic a || (a == RScalar) -> nonsum b -> py_eq a b = Ok (a == b).
Proof.
have eB G b' : (if b' is RBase H then G == H else false) = (RBase G == b').
  by case: b' => // H; apply/eqP/eqP => [->|[]].
have eC c G b' : (if b' is RCustom c' H then (c == c') && (G == H) else false) = (RCustom c G == b').
  by case: b' => // c' H; apply/andP/eqP => [[/eqP -> /eqP ->]|[-> ->]].
have eD s b' : (forall t, py_eq s t = Ok (s == t)) -> (if b' is RDual t then py_eq s t else Ok false) = Ok (RDual s == b').
  by move=> E; case: b' => // t; rewrite E; congr Ok; apply/eqP/eqP => [->|[]].
move=> + _; case: a => [|[h|]|c [h|]|[|[h|]|c [h|]|?|? ?|? ?|? ?|?|?]|? ?|? ?|? ?|?|?] // _;
  first [by case: b | by rewrite /py_eq eB | by rewrite /py_eq eC
        | by apply: eD => t; rewrite /py_eq eB | by apply: eD => t; rewrite /py_eq eC].
Qed.
Lemma eq_dictE (C : dict -> seq nat -> rep) : (C = RSum \/ C = RProd \/ C = RDir) -> forall d p e q,
  (do x <- Ok (d == e); Ok (x && (p == q))) = Ok (C d p == C e q).
Proof.
move=> H d p e q /=; congr Ok; apply/andP/eqP => [[/eqP -> /eqP ->] //|].
by case: H => [->|[->|->]] [-> ->].
Qed.

Lemma eq_dkeys a b : dkey a -> dkey b -> py_eq a b = Ok (a == b).
Proof.
have ns x : dkey x -> nonsum x.
  by case/orP=> [/atomic_sub|/andP[/isprod_sub]].
move=> Da Db; case/orP: Da => [A|/andP[Pa _]]; first by apply: eq_atomic; [rewrite A | exact: ns].
case/orP: Db => [B|/andP[Pb _]]; first by case: a Pa => //; case: b B.
case: a Pa => // d p /andP[/and3P[D1 _ _] _]; case: b Pb => // e q /andP[/and3P[D2 _ _] _].
have [_ -> _ _ _] := py_eq_dict d p e q.
rewrite (deq_ok (@sub_atomic _ _ _ _) (@sub_atomic _ _ _ _) D1 D2); first by apply: eq_dictE; auto.
move=> k k' Hk Hk'; case/and5P: D1 => _ A _ _ _; case/and5P: D2 => _ B _ _ _.
by apply: eq_atomic; [rewrite (allP A) | apply: atomic_sub; apply: (allP B)].
Qed.

Lemma eq_prod_dir d p e q : isprod (RProd d p) -> isdir (RDir e q) -> d != e.
Proof.
move=> /andP[/and3P[_ S H] _] /andP[/and4P[_ _ N U] _]; apply/eqP => E; subst e.
case: d S H N U => [|[k c] [|[k' c'] d]] //= _ /and3P[_ /eqP E _] _.
by rewrite E inE eqxx.
Qed.

Lemma eq_nonsum a b : nonsum a -> nonsum b -> py_eq a b = Ok (a == b).
Proof.
move=> Na Nb; case/or4P: Na => [Ea|A|Pa|Da]; try by apply: eq_atomic; rewrite ?Ea ?A ?orbT.
- case: a Pa => // d p Pa; case/or4P: Nb => [/eqP ->|B|Pb|Db] //; first by case: b B.
  + case: b Pb => // e q Pb; have [_ -> _ _ _] := py_eq_dict d p e q.
    move: Pa Pb => /andP[/and3P[D1 _ _] _] /andP[/and3P[D2 _ _] _].
    rewrite (deq_ok (@sub_atomic _ _ _ _) (@sub_atomic _ _ _ _) D1 D2); first by apply: eq_dictE; auto.
    move=> k k' Hk Hk'; case/and5P: D1 => _ A _ _ _; case/and5P: D2 => _ B _ _ _.
    by apply: eq_atomic; [rewrite (allP A) | apply: atomic_sub; apply: (allP B)].
  case: b Db => // e q Db; have [_ _ -> _ _] := py_eq_dict d p e q.
  have NE := eq_prod_dir Pa Db.
  move: Pa Db => /andP[/and3P[D1 _ _] _] /andP[/and4P[D2 _ _ _] _].
  rewrite (deq_ok (@sub_atomic _ _ _ _) (@sub_dkey _ _ _ _) D1 D2) ?(negbTE NE) //; try by auto.
  move=> k k' Hk Hk'; case/and5P: D1 => _ A _ _ _; case/and5P: D2 => _ B _ _ _.
  by apply: eq_dkeys; [rewrite /dkey (allP A) | apply: (allP B)].
case: a Da => // d p Da; case/or4P: Nb => [/eqP ->|B|Pb|Db] //; first by case: b B.
- case: b Pb => // e q Pb; have [_ _ _ -> _] := py_eq_dict d p e q.
  have NE := eq_prod_dir Pb Da.
  move: Da Pb => /andP[/and4P[D1 _ _ _] _] /andP[/and3P[D2 _ _] _].
  rewrite (deq_ok (@sub_dkey _ _ _ _) (@sub_atomic _ _ _ _) D1 D2) ?(eq_sym d) ?(negbTE NE) //; try by auto.
  move=> k k' Hk Hk'; case/and5P: D1 => _ A _ _ _; case/and5P: D2 => _ B _ _ _.
  by apply: eq_dkeys; [apply: (allP A) | rewrite /dkey (allP B)].
case: b Db => // e q Db; have [_ _ _ _ ->] := py_eq_dict d p e q.
move: Da Db => /andP[/and4P[D1 _ _ _] _] /andP[/and4P[D2 _ _ _] _].
rewrite (deq_ok (@sub_dkey _ _ _ _) (@sub_dkey _ _ _ _) D1 D2); first by apply: eq_dictE; auto.
move=> k k' Hk Hk'; case/and5P: D1 => _ A _ _ _; case/and5P: D2 => _ B _ _ _.
by apply: eq_dkeys; [apply: (allP A) | apply: (allP B)].
Qed.

Lemma eq_wfr a b : wfr a -> wfr b -> nonsum a \/ issum b -> py_eq a b = Ok (a == b).
Proof.
move=> Wa Wb H; case/orP: Wa => [Na|Sa].
  case/orP: Wb => [Nb|Sb]; first exact: eq_nonsum.
  case/or4P: Na => [/eqP ->|A|P|D]; first by case: b Sb {H}.
  - by case: b Sb {H} => // e q _; case: a A => // -[].
  - by case: b Sb {H} => // e q _; case: a P.
  - by case: b Sb {H} => // e q _; case: a D.
have {Wb H} Sb : issum b by case: H => // Na; case: a Na Sa.
case: a Sa => // d p /andP[D1 _]; case: b Sb => // e q /andP[D2 _].
have [-> _ _ _ _] := py_eq_dict d p e q.
rewrite (deq_ok (fun x H => H) (fun x H => H) D1 D2); first by apply: eq_dictE; auto.
move=> k k' Hk Hk'; case/and5P: D1 => _ A _ _ _; case/and5P: D2 => _ B _ _ _.
by apply: eq_nonsum; [have /andP[] := allP A _ Hk | have /andP[] := allP B _ Hk'].
Qed.
End Eq.
