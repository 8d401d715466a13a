(** * OrderProofs: when Rep.__lt__ is an order. *)
From mathcomp Require Import all_ssreflect all_algebra.
From mathcomp Require Import zify.
From Verif Require Import Np NpLemmas LinOp Rep RepMat RepWf Order.
Set Implicit Arguments.
Unset Strict Implicit.
Unset Printing Implicit Defensive.
Local Open Scope ring_scope.
Import Order.TTheory GRing.Theory Num.Theory.

Section One.
Variables (gdim : gid -> nat) (csize : nat -> gid -> nat).
Variables (ghash : gid -> int) (nhash : int) (hash : rep -> int).
Variable le : rel rep.
Variable g : gid.
Hypothesis G2 : (1 < gdim g)%N.
Hypothesis HC : forall c, (gdim g < csize c g)%N /\
  hash (RCustom c (Some g)) < hash (RDual (RCustom c (Some g))).
Local Notation sz := (rsize gdim csize).
Local Notation key := (key gdim csize le (pred1 g)).
Local Notation lt := (py_lt gdim csize ghash nhash hash).

Definition hh (r : rep) : int :=
  match r with RBase _ => 0 | RDual (RBase _) => 1 | _ => hash r end.
Definition klt (a b : rep) : bool := (sz a < sz b)%N || ((sz a == sz b) && (hh a < hh b)).

Lemma atomic_size k : atomic gdim csize (pred1 g) k -> (gdim g <= sz k)%N.
Proof.
case: k => // [[h|]|c [h|]|[|[h|]|c [h|]|?|? ?|? ?|? ?|?|?]] //= /andP[/eqP -> _] //;
  by have [] := HC c; lia.
Qed.

Lemma dict_size (d : dict) : all (atomic gdim csize (pred1 g)) (keys d) ->
  (gdim g ^ sumn (vals d) <= prodn [seq sz x.1 ^ x.2 | x <- d])%N.
Proof.
elim: d => //= [[k c] d] IH /= /andP[Hk Hd]; rewrite expnD.
apply: leq_mul; last exact: IH.
have Hs := atomic_size Hk; move: (sz k) Hs => s Hs.
by elim: c => // c IHc; rewrite !expnS leq_mul.
Qed.

Lemma prod_size r : isprod gdim csize le (pred1 g) r -> (gdim g < sz r)%N.
Proof.
case: r => // d p /andP[/and3P[/and5P[_ A _ _ _] N _] _].
have H := dict_size A; rewrite /=; apply: leq_trans H.
rewrite -{1}[gdim g]expn1 ltn_exp2l //.
Qed.

Lemma nodir r : ~~ isdir gdim csize le (pred1 g) r.
Proof.
apply/negP; case: r => // d p /andP[/and4P[/and5P[_ A _ _ _] _ S U] _].
have G k : dkey gdim csize le (pred1 g) k -> gattr k = Some (Some g).
  have Ga x : atomic gdim csize (pred1 g) x -> gattr x = Some (Some g).
    by case: x => // [[h|]|c [h|]|[|[h|]|c [h|]|?|? ?|? ?|? ?|?|?]] //= /andP[/eqP -> _].
  case/orP => [/Ga //|/andP[]]; case: k => // d' p' /andP[/and3P[/and5P[N A' _ _ _] _ _] _] _ /=.
  by case: d' N A' => // [[k c] d'] _ /= /andP[/Ga].
case: d S U A => [|[k c] [|[k' c'] d]] //= _.
by case/and3P => N _ _ /and3P[/G E1 /G E2 _]; rewrite E1 E2 inE eqxx in N.
Qed.

Lemma key_hashable r : key r -> hashable r.
Proof.
case/andP=> _; case: r => //= d p /eqP ->; rewrite ?size_iota //; by rewrite argsort_iota.
Qed.

Lemma key_cases r : key r -> [\/ r = RScalar, atomic gdim csize (pred1 g) r | exists d p, r = RProd d p /\ isprod gdim csize le (pred1 g) r].
Proof.
case/andP=> /or4P[/eqP ->|H|H|H] C; first by constructor 1.
- by constructor 2.
- by constructor 3; case: r H C => // d p H _; exists d, p.
by rewrite (negbTE (nodir _)) in H.
Qed.

Lemma key_size_py r : key r -> size_py gdim csize r = Ok (sz r).
Proof.
move=> /key_cases [->|A|[d [p [-> _]]]] //.
by case: r A => // [[h|]|c [h|]|[|[h|]|c [h|]|?|? ?|? ?|? ?|?|?]] //=.
Qed.

Lemma key_gattr r : key r -> r <> RScalar -> gattr r = Some (Some g).
Proof.
have Ga x : atomic gdim csize (pred1 g) x -> gattr x = Some (Some g).
  by case: x => // [[h|]|c [h|]|[|[h|]|c [h|]|?|? ?|? ?|? ?|?|?]] //= /andP[/eqP -> _].
move=> /key_cases [->|/Ga //|[d [p [-> /andP[/and3P[/and5P[N A' _ _ _] _ _] _]]]]] // _.
by case: d N A' => // [[k c] d] _ /= /andP[/Ga].
Qed.

Lemma lt_repE a b : key a -> key b -> b <> RScalar ->
  lt_rep gdim csize ghash nhash hash a b = Ok ((sz a < sz b)%N || ((sz a == sz b) && (hash a < hash b))).
Proof.
move=> Ka Kb NS.
have NSum : is_sum b = false by move: (Kb) => /key_cases [->|A|[d [p [-> _]]]] //; case: b A {Kb NS}.
have T : try_groups ghash nhash a b = None.
  rewrite /try_groups (key_gattr Kb NS).
  case: (a =P RScalar) => [->|N] //; by rewrite (key_gattr Ka N) /g_gt /g_lt ltxx.
have -> : lt_rep gdim csize ghash nhash hash a b = 
  (do m <- size_py gdim csize a; do n <- size_py gdim csize b;
    if (m < n)%N then Ok true else if (n < m)%N then Ok false else
    do h <- hash_py hash a; do k <- hash_py hash b; Ok (h < k)).
  by rewrite /lt_rep T; case: b NS NSum {Kb T}.
rewrite (key_size_py Ka) (key_size_py Kb) /= /hash_py (key_hashable Ka) (key_hashable Kb) /=.
by case: ltngtP.
Qed.

Lemma small_key a : key a -> sz a = gdim g -> a = RBase (Some g) \/ a = RDual (RBase (Some g)).
Proof.
move=> /key_cases [->|A|[d [p [-> /prod_size]]]]; last by lia.
- by move: G2 => /=; lia.
by case: a A => // [[h|]|c [h|]|[|[h|]|c [h|]|?|? ?|? ?|? ?|?|?]] //= /andP[/eqP -> _] //; auto; have [] := HC c; lia.
Qed.

Inductive kind : rep -> Prop :=
| KS : kind RScalar
| KV : kind (RBase (Some g))
| KD : kind (RDual (RBase (Some g)))
| KC c : kind (RCustom c (Some g))
| KE c : kind (RDual (RCustom c (Some g)))
| KP d p : (gdim g < sz (RProd d p))%N -> kind (RProd d p).
Lemma key_kind r : key r -> kind r.
Proof.
move=> /key_cases [->|A|[d [p [-> /prod_size]]]]; [exact: KS| |exact: KP].
by case: r A => // [[h|]|c [h|]|[|[h|]|c [h|]|?|? ?|? ?|? ?|?|?]] //= /andP[/eqP -> _]; constructor.
Qed.

Lemma lt_key a b : key a -> key b -> lt a b = Ok (klt a b).
Proof.
move=> Ka Kb; have E := lt_repE Ka Kb.
have tri (x y : nat) (p q : bool) : (x < y)%N -> (x < y)%N || (x == y) && p = (x < y)%N || (x == y) && q.
  by move=> ->.
have [h1 h2] : (forall c, (gdim g < csize c g)%N) /\
    (forall c, hash (RCustom c (Some g)) < hash (RDual (RCustom c (Some g)))).
  by split=> c; have [] := HC c.
have SN : forall r, kind r -> r <> RScalar -> (1 < sz r)%N.
  move=> r [||| c | c | d p S] N; [by case: N | exact: G2 | exact: G2 | exact: leq_trans G2 (ltnW (h1 c)) | exact: leq_trans G2 (ltnW (h1 c)) | exact: leq_trans G2 (ltnW S)].
case/key_kind: Kb E => [|||c'|c'|d' p' S'] E.
- have -> : lt a RScalar = Ok false.
    by case/key_kind: Ka {E}.
  have [-> |N] := eqVneq a RScalar; first by rewrite /klt /= ltxx.
  have : (1 < sz a)%N by apply: SN (key_kind Ka) _; apply/eqP.
  by rewrite /klt /= => H; rewrite ltnNge (ltnW H) gtn_eqF.
all: have {E} := E ltac:(done); case/key_kind: Ka => [|||c|c|d p S] E.
all: rewrite /klt; try (rewrite -[LHS]/(lt_rep _ _ _ _ _ _ _) E; try by []).
all: try (have H1 := h1 c); try (have H1' := h1 c').
all: rewrite ?[sz (RBase _)]/(gdim g) ?[sz (RDual (RBase _))]/(gdim g) ?[sz (RCustom c _)]/(csize c g)
  ?[sz (RCustom c' _)]/(csize c' g) ?[sz (RDual (RCustom c _))]/(csize c g) ?[sz (RDual (RCustom c' _))]/(csize c' g).
all: try by congr Ok; case: ltngtP => //= ?; lia.
all: try by rewrite ltnn eqxx /= ltxx.
all: try by rewrite ltnn eqxx.
all: try by rewrite /= H1'.
all: try (congr Ok; exact: tri S').
- by rewrite /py_lt eqxx ltnn /= eqxx.
- by rewrite (gtn_eqF S).
- by rewrite (gtn_eqF S).
rewrite /py_lt; case: eqP => [[->]|_]; last by rewrite E.
by rewrite /= ltnn eqxx /= ltNge (ltW (h2 _)).
Qed.

(** strict weak order *)
Lemma klt_irr a : klt a a = false.
Proof. by rewrite /klt ltnn eqxx ltxx. Qed.
Lemma klt_trans : transitive klt.
Proof.
move=> b a c; rewrite /klt => /orP[H1|/andP[/eqP E1 H1]] /orP[H2|/andP[/eqP E2 H2]].
- by rewrite (ltn_trans H1 H2).
- by rewrite -E2 H1.
- by rewrite E1 H2.
by rewrite E1 E2 eqxx (lt_trans H1 H2) orbT.
Qed.
Lemma klt_incomp a b c : ~~ klt a b -> ~~ klt b c -> ~~ klt a c.
Proof.
clear G2 HC; rewrite /klt !negb_or !negb_and -!leqNgt -!leNgt => /andP[H1 /orP L1] /andP[H2 /orP L2].
rewrite (leq_trans H2 H1) /=; apply/orP.
have [E|] := eqVneq (sz a) (sz c); last by left.
right; have E1 : sz a = sz b by lia.
have E2 : sz b = sz c by lia.
case: L1 => [/eqP //|L1]; case: L2 => [/eqP //|L2]; exact: le_trans L2 L1.
Qed.

Lemma py_le_key a b : key a -> key b -> py_le gdim csize ghash nhash hash a b = ~~ klt b a.
Proof. by move=> Ka Kb; rewrite /py_le (lt_key Kb Ka); case: klt. Qed.

Lemma klt_total a b : klt a b -> ~~ klt b a.
Proof. by move=> H; apply/negP => H'; have := klt_trans H H'; rewrite klt_irr. Qed.

Hypothesis HI : forall a b, key a -> key b -> sz a = sz b -> hash a = hash b -> a = b.

Lemma klt_anti a b : key a -> key b -> ~~ klt a b -> ~~ klt b a -> a = b.
Proof.
move=> Ka Kb; rewrite /klt !negb_or !negb_and -!leqNgt -!leNgt => /andP[H1 L1] /andP[H2 L2].
have E : sz a = sz b by lia.
move: L1 L2; rewrite E eqxx /= => L1 L2; have {L1 L2} Hh : hh a = hh b by apply/le_anti; rewrite L1 L2.
have [Ea|Na] := eqVneq (sz a) (gdim g).
  have := small_key Kb; rewrite -E => /(_ Ea).
  by case: (small_key Ka Ea) Hh => -> Hh [] Eb //; rewrite Eb in Hh.
have hE r : key r -> sz r != gdim g -> hh r = hash r.
  by move/key_kind; case=> //=; rewrite eqxx.
by apply: HI => //; rewrite -(hE a Ka Na) Hh hE // -E.
Qed.

Lemma py_total : total_order_on key (py_le gdim csize ghash nhash hash).
Proof.
split.
- move=> a b Ka Kb; rewrite !py_le_key //; case H : (klt b a) => //=; exact: klt_total H.
- by move=> b a c Kb Ka Kc; rewrite !py_le_key // => H1 H2; apply: klt_incomp H2 H1.
by move=> a b Ka Kb; rewrite !py_le_key // => /andP[H1 H2]; apply: klt_anti.
Qed.
End One.
