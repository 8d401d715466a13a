(** * EqThm: immutability, re-instantiation and equality, as used by PropEq. *)
From mathcomp Require Import all_ssreflect all_algebra.
From Verif Require Import Np NpLemmas Spec LinOp Rep RepMat RepWf RepAlg RepDefer Order RepCode Heap Eq EqProofs.
Set Implicit Arguments.
Unset Strict Implicit.
Unset Printing Implicit Defensive.

(** ** programs *)
Section Heap.
Variables (gdim : gid -> nat) (gorth : gid -> bool) (csize : nat -> gid -> nat).
Variables (ghash : gid -> int) (nhash : int) (hash : rep -> int).
Local Notation step := (step gdim gorth csize ghash nhash hash).
Local Notation run := (run gdim gorth csize ghash nhash hash).
Local Notation call_s := (call_s gdim gorth csize ghash nhash hash).

Lemma push_prefix st x : exists l, objs (push st x) = objs st ++ l.
Proof. by case: x => [r|e]; [exists [:: r]; rewrite cats1 | exists [::]; rewrite cats0]. Qed.

Lemma step_prefix st c : exists l, objs (step st c) = objs st ++ l.
Proof.
case: c => [G|k G||i j|i j|i|i n|i n|i j|i j|i G]; try exact: push_prefix.
rewrite /=; case: (obj st i) => [a|e]; last by exists [::]; rewrite cats0.
by case: (call_s _ a G) => s r; apply: (push_prefix (St s (objs st))).
Qed.

Lemma run_prefix st cs : exists l, objs (run st cs) = objs st ++ l.
Proof.
elim: cs st => [|c cs IH] st /=; first by exists [::]; rewrite cats0.
have [l1 E1] := step_prefix st c; have [l2 E2] := IH (step st c).
by exists (l1 ++ l2); rewrite E2 E1 catA.
Qed.

Lemma run_objs st cs i : (i < size (objs st))%N ->
  nth RScalar (objs (run st cs)) i = nth RScalar (objs st) i.
Proof. by have [l ->] := run_prefix st cs; rewrite nth_cat => ->. Qed.

Fixpoint no_scalar (r : rep) : bool :=
  match r with
  | RScalar => false
  | RBase _ | RCustom _ _ | RProd _ _ | RDir _ _ => true
  | RDual s => no_scalar s
  | RSum d _ => all (fun x => no_scalar x.1) d
  | RDefSum l | RDefProd l => all no_scalar l
  end.

Lemma call_s_G s r G : no_scalar r -> (call_s s r G).1 = s.
Proof.
elim/rep_ind': r s => [|G0|c G0|r IH|d p IH|d p IH|d p IH|l IH|l IH] s //=.
- by move=> /(IH s); case: (call_s s r G).
- move=> H; set F := (X in X s d).
  suff : (F s d).1 = s by case: (F s d).
  elim: d s IH H => [|[k c] d IHd] s //= [Hk Hd] /andP[Nk Nd].
  have := Hk s Nk; case: (call_s s k G) => s1 [k'|e] /= E //.
  by have := IHd s1 Hd Nd; case: (F s1 d) => s2 l /= ->.
- move=> H; case: G IH => // g IH; set F := (X in X s l).
  suff : (F s l).1 = s by case: (F s l).
  elim: l s IH H => [|k d IHd] s //= [Hk Hd] /andP[Nk Nd].
  have := Hk s Nk; case: (call_s s k (Some g)) => s1 [k'|e] /= E //.
  by have := IHd s1 Hd Nd; case: (F s1 d) => s2 l /= ->.
- move=> H; case: G IH => // g IH; set F := (X in X s l).
  suff : (F s l).1 = s by case: (F s l).
  elim: l s IH H => [|k d IHd] s //= [Hk Hd] /andP[Nk Nd].
  have := Hk s Nk; case: (call_s s k (Some g)) => s1 [k'|e] /= E //.
  by have := IHd s1 Hd Nd; case: (F s1 d) => s2 l /= ->.
Qed.

(** a step that does not call a representation containing Scalar *)
Definition harmless (st : state) (c : cmd) : bool :=
  if c is CCall i _ then (if obj st i is Ok a then no_scalar a else true) else true.
Lemma step_G st c : harmless st c -> scalar_G (step st c) = scalar_G st.
Proof.
have P s x : scalar_G (push s x) = scalar_G s by case: x.
case: c => [G|k G||i j|i j|i|i n|i n|i j|i j|i G] H; try exact: P.
move: H; rewrite /=; case: (obj st i) => [a|e] // /(call_s_G (scalar_G st) G).
by case: (call_s _ a G) => s r /= ->; rewrite P.
Qed.
End Heap.

(** ** re-instantiation *)
Section Call.
Variables (gdim : gid -> nat) (gorth : gid -> bool) (csize : nat -> gid -> nat) (le : rel rep) (g : gid).
Local Notation call := (call gdim gorth csize le).
Hypothesis O : total_order_on (key gdim csize le (pred1 g)) le.

(** V, a user-defined representation, the dual of one of these, or Scalar *)
Definition simple (r : rep) : bool :=
  match r with RScalar | RBase _ | RCustom _ _ | RDual (RBase _) | RDual (RCustom _ _) => true | _ => false end.
(** the same for the group [g] *)
Definition relabel (r : rep) : rep :=
  match r with
  | RBase _ => RBase (Some g)
  | RCustom c _ => RCustom c (Some g)
  | RDual (RBase _) => if gorth g then RBase (Some g) else RDual (RBase (Some g))
  | RDual (RCustom c _) => if gorth g then RCustom c (Some g) else RDual (RCustom c (Some g))
  | _ => r
  end.

Lemma call_simple r : simple r -> call r (Some g) = Ok (relabel r).
Proof.
by case: r => // [[]] // *; rewrite /= /t_atom /=; case: (gorth g).
Qed.

Lemma call_sum d p : all simple (keys d) ->
  let d' := [seq (relabel x.1, x.2) | x <- d] in
  okdict le (key gdim csize le (pred1 g)) d' -> is_perm (rsize gdim csize (RSum d' p)) p ->
  call (RSum d p) (Some g) = Ok (RSum d' p).
Proof.
move=> S d' D P; have [_ _ U _ _] := and5P D.
have H : forall e, all simple (keys e) ->
  (fix calld (d : seq (rep * nat)) : res (seq (rep * nat)) :=
    match d with
    | [::] => Ok [::]
    | (k, c) :: d' => do k' <- call k (Some g); do l <- calld d'; Ok ((k', c) :: l)
    end) e = Ok [seq (relabel x.1, x.2) | x <- e].
  by elim=> [|[k c] e IH] //= /andP[/call_simple -> /IH ->].
rewrite /= H //= dict_of_uniq //; congr Ok.
exact: (sum_coll_self' O).
Qed.

Lemma relabel_id r : key gdim csize le (pred1 g) r -> simple r -> (if r is RDual _ then ~~ gorth g else true) -> relabel r = r.
Proof.
have NP x : isprod gdim csize le (pred1 g) x || isdir gdim csize le (pred1 g) x -> ~~ simple x by case: x.
case/andP=> N _ S; case/or4P: N => [/eqP -> //|A|P|D]; last 2 first.
- by have := NP r; rewrite P S => /(_ isT).
- by have := NP r; rewrite D S orbT => /(_ isT).
move: A {S}; case: r => // [[h|]|c [h|]|[|[h|]|c [h|]|?|? ?|? ?|? ?|?|?]] //= /andP[/eqP -> _] //; by move/negbTE ->.
Qed.

Lemma call_same r : wfr gdim csize le (pred1 g) r ->
  (if r is RSum d _ then all (fun k => simple k && (if k is RDual _ then ~~ gorth g else true)) (keys d)
   else simple r && (if r is RDual _ then ~~ gorth g else true)) ->
  call r (Some g) = Ok r.
Proof.
case/orP=> [N|].
  move=> H; have /andP[Sr Dr] : simple r && (if r is RDual _ then ~~ gorth g else true) by case: r N H.
  rewrite call_simple // relabel_id // /key N /=; by case: r Sr {N H Dr}.
case: r => // d p /andP[D P] A.
have E : [seq (relabel x.1, x.2) | x <- d] = d.
  rewrite -[RHS]map_id; apply/eq_in_map => -[k c] Hk /=; have Kk : k \in keys d := map_f fst Hk.
  have /andP[S1 S2] := allP A _ Kk; case/and5P: D => _ K _ _ _.
  by rewrite relabel_id // (allP K).
have S : all simple (keys d) by apply/allP => k /(allP A) /andP[].
by have := call_sum (d := d) (p := p) S; rewrite /= E; apply.
Qed.
End Call.

(** ** a total order which puts V(G1) after everything else *)
Definition wflip (r : rep) : nat := if r is RBase (Some 1) then 1 else 0.
Definition le_flip (a b : rep) : bool := if wflip a == wflip b then le_asc a b else wflip a < wflip b.
Lemma le_flip_total D : total_order_on D le_flip.
Proof.
have [T1 T2 T3] := le_asc_total predT; rewrite /le_flip; split.
- by move=> a b _ _; case: ltngtP => //= _; apply: T1.
- move=> b a c _ _ _; case: (ltngtP (wflip a) (wflip b)) => // [l1 _|->].
    case: (ltngtP (wflip b) (wflip c)) => // [l2 _|<- _]; last by rewrite ltn_eqF.
    by rewrite ltn_eqF ?(ltn_trans l1 l2).
  by case: ltngtP => // _; apply: T2.
- by move=> a b _ _; case: ltngtP => // _; exact: T3.
Qed.
