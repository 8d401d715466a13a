(** * RepCode: one concrete total order on representations, for the examples.

    The theorems hold for every total order; this one (lexicographic order of an
    injective encoding) shows that there is one, and lets examples be computed. *)
From mathcomp Require Import all_ssreflect all_algebra.
From Verif Require Import Np Spec LinOp Rep RepWf.
Set Implicit Arguments.
Unset Strict Implicit.
Unset Printing Implicit Defensive.

Definition enco (G : option gid) : nat := if G is Some g then g.+1 else 0.
Definition encl (p : seq nat) : seq nat := size p :: p.

Fixpoint enc (r : rep) : seq nat :=
  let encd := fix encd (d : seq (rep * nat)) : seq nat :=
    match d with [::] => [:: 0] | (k, c) :: d' => 1 :: enc k ++ c :: encd d' end in
  let encs := fix encs (l : seq rep) : seq nat :=
    match l with [::] => [:: 0] | k :: l' => 1 :: enc k ++ encs l' end in
  match r with
  | RScalar => [:: 0]
  | RBase G => [:: 1; enco G]
  | RCustom c G => [:: 2; c; enco G]
  | RDual r => 3 :: enc r
  | RSum d p => 4 :: encd d ++ encl p
  | RProd d p => 5 :: encd d ++ encl p
  | RDir d p => 6 :: encd d ++ encl p
  | RDefSum l => 7 :: encs l
  | RDefProd l => 8 :: encs l
  end.

Definition encd := fix encd (d : seq (rep * nat)) : seq nat :=
  match d with [::] => [:: 0] | (k, c) :: d' => 1 :: enc k ++ c :: encd d' end.
Definition encs := fix encs (l : seq rep) : seq nat :=
  match l with [::] => [:: 0] | k :: l' => 1 :: enc k ++ encs l' end.

Lemma enco_inj : injective enco.
Proof. by case=> [g|] [h|] //= [->]. Qed.

Lemma cat_inj (T : Type) (p q s t : seq T) : size p = size q -> p ++ s = q ++ t -> p = q /\ s = t.
Proof. by elim: p q => [|x p IH] [|y q] //= [Hs] [-> /(IH _ Hs)[-> ->]]. Qed.

Lemma encl_inj p q s t : encl p ++ s = encl q ++ t -> p = q /\ s = t.
Proof. by rewrite /encl /= => -[E H]; apply: cat_inj. Qed.

Lemma enc_pre a : forall b s t, enc a ++ s = enc b ++ t -> a = b /\ s = t.
Proof.
have HD d : foldr (fun x Q => (forall b s t, enc x.1 ++ s = enc b ++ t -> x.1 = b /\ s = t) /\ Q) True d ->
    forall e s t, encd d ++ s = encd e ++ t -> d = e /\ s = t.
  elim: d => [|[k c] d IH] /= H [|[l c'] e] s t //=; first by case.
  case: H => Hk Hd [] E; rewrite -!catA in E; have [-> /= []] := Hk _ _ _ E.
  by move=> -> /(IH Hd)[-> ->].
have HL d : foldr (fun x Q => (forall b s t, enc x ++ s = enc b ++ t -> x = b /\ s = t) /\ Q) True d ->
    forall e s t, encs d ++ s = encs e ++ t -> d = e /\ s = t.
  elim: d => [|k d IH] /= H [|l e] s t //=; first by case.
  case: H => Hk Hd [] E; rewrite -!catA in E; have [-> E'] := Hk _ _ _ E.
  by have [-> ->] := IH Hd _ _ _ E'.
elim/rep_ind': a => [|G|c G|r IH|d p IH|d p IH|d p IH|l IH|l IH] b s t.
- by case: b => //= -[->].
- by case: b => //= H [/enco_inj -> ->].
- by case: b => //= c' H [-> /enco_inj -> ->].
- by case: b => //= r' [/IH[-> ->]].
- case: b => // e q; rewrite -[enc _]/(4 :: encd d ++ encl p) -[enc (RSum e q)]/(4 :: encd e ++ encl q) => -[].
  by rewrite -!catA => /(HD _ IH)[-> /encl_inj[-> ->]].
- case: b => // e q; rewrite -[enc _]/(5 :: encd d ++ encl p) -[enc (RProd e q)]/(5 :: encd e ++ encl q) => -[].
  by rewrite -!catA => /(HD _ IH)[-> /encl_inj[-> ->]].
- case: b => // e q; rewrite -[enc _]/(6 :: encd d ++ encl p) -[enc (RDir e q)]/(6 :: encd e ++ encl q) => -[].
  by rewrite -!catA => /(HD _ IH)[-> /encl_inj[-> ->]].
- by case: b => // e; rewrite -[enc _]/(7 :: encs l) -[enc (RDefSum e)]/(7 :: encs e) => -[/(HL _ IH)[-> ->]].
- by case: b => // e; rewrite -[enc _]/(8 :: encs l) -[enc (RDefProd e)]/(8 :: encs e) => -[/(HL _ IH)[-> ->]].
Qed.

Lemma enc_inj : injective enc.
Proof. by move=> a b E; have [] := @enc_pre a b [::] [::]; rewrite ?cats0. Qed.

Fixpoint lexle (s t : seq nat) : bool :=
  match s, t with
  | [::], _ => true
  | _, [::] => false
  | x :: s', y :: t' => (x < y) || ((x == y) && lexle s' t')
  end.

Lemma lexle_total : total lexle.
Proof. by elim=> [|x s IH] [|y t] //=; case: ltngtP => //= _; apply: IH. Qed.
Lemma lexle_trans : transitive lexle.
Proof.
move=> t s u; elim: s t u => [|x s IH] [|y t] [|z u] //=.
case/orP=> [xy|/andP[/eqP -> H]].
  case/orP=> [yz|/andP[/eqP <- _]]; first by rewrite (ltn_trans xy yz).
  by rewrite xy.
case/orP=> [-> //|/andP[/eqP <- H']]; by rewrite eqxx (IH _ _ H H') orbT.
Qed.
Lemma lexle_anti : antisymmetric lexle.
Proof.
elim=> [|x s IH] [|y t] //=; case: ltngtP => //= -> H; congr cons; exact: IH.
Qed.

(** ascending and descending: two different outcomes of the sort *)
Definition le_asc (a b : rep) : bool := lexle (enc a) (enc b).
Definition le_desc (a b : rep) : bool := lexle (enc b) (enc a).

Lemma le_asc_total D : total_order_on D le_asc.
Proof.
split.
- by move=> a b _ _; apply: lexle_total.
- by move=> b a c _ _ _; apply: lexle_trans.
- by move=> a b _ _ /lexle_anti/enc_inj.
Qed.
Lemma le_desc_total D : total_order_on D le_desc.
Proof.
split.
- by move=> a b _ _; apply: lexle_total.
- by move=> b a c _ _ _ H1 H2; apply: lexle_trans H2 H1.
- by move=> a b _ _ /andP[H1 H2]; apply/enc_inj/lexle_anti/andP; split.
Qed.
