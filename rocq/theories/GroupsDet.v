(** * GroupsDet: determinants of the elements of the generated group. *)
From Coq Require Import Reals Lra.
From Coquelicot Require Import Coquelicot.
From mathcomp Require Import all_ssreflect all_algebra fingroup perm.
From mathcomp Require Import zify.
From Verif Require Import Np NpLemmas Spec SpecLemmas LinOp MxBridge Rep Rstruct Expm GrpSpec GrpProofs.
From Verif Require Import Groups GroupsSpec GroupsSpecR ExactSpec GroupsFlag GroupsReal GroupsForm.
Set Implicit Arguments.
Unset Strict Implicit.
Unset Printing Implicit Defensive.
Import GRing.Theory.
Local Open Scope ring_scope.

(** ** derivatives of sums and products over lists *)
Section Der.
Variable T : eqType.
Implicit Type s : seq T.
Lemma dl_bigsum s (f : T -> R -> RR) (f' : T -> RR) u : (forall x, x \in s -> derivable_pt_lim (f x) u (f' x)) ->
  derivable_pt_lim (fun t => \sum_(x <- s) f x t) u (\sum_(x <- s) f' x).
Proof.
elim: s => [|x s IH] H.
  by apply: dl_ext (derivable_pt_lim_const R0 u) => [t|]; rewrite /fct_cte ?big_nil.
have Hx := H x (mem_head x s); have Hs := IH (fun y Hy => H y (@mem_behead _ (x :: s) y Hy)).
apply: dl_ext (derivable_pt_lim_plus _ _ _ _ _ Hx Hs) => [t|]; by rewrite ?/plus_fct big_cons.
Qed.
Lemma dl_bigprod s (f : T -> R -> RR) (f' : T -> RR) u : uniq s -> (forall x, x \in s -> derivable_pt_lim (f x) u (f' x)) ->
  derivable_pt_lim (fun t => \prod_(x <- s) f x t) u (\sum_(x <- s) f' x * \prod_(y <- s | y != x) f y u).
Proof.
elim: s => [|x s IH] /= U H.
  by apply: dl_ext (derivable_pt_lim_const R1 u) => [t|]; rewrite /fct_cte ?big_nil.
case/andP: U => Ux U.
have Hx := H x (mem_head x s); have Hs := IH U (fun y Hy => H y (@mem_behead _ (x :: s) y Hy)).
apply: dl_ext (dl_mul Hx Hs) => [t|]; first by rewrite big_cons.
rewrite big_cons; congr (_ + _).
  rewrite big_cons eqxx /=; congr (_ * _); rewrite big_seq_cond [RHS]big_seq_cond; apply: eq_bigl => y.
  by case Hy: (y \in s) => //=; case: eqP => // E; move: Ux; rewrite -E Hy.
rewrite big_distrr /= big_seq [RHS]big_seq; apply: eq_bigr => y Hy; rewrite big_cons mulrCA.
by case: eqP => // E; move: Ux; rewrite E Hy.
Qed.
End Der.

Section Det.
Variables (n : nat) (A : fmat RR).
Hypotheses (A1 : fr A = n) (A2 : fc A = n).
Local Notation E := (expm n A).
Lemma fdet_mul (X Y : fmat RR) : fc X = n -> fdet n (fmul X Y) = fdet n X * fdet n Y.
Proof. by move=> h; rewrite /fdet (@mxf_mul _ _ _ n) // det_mulmx. Qed.
Lemma fdet_meq (X Y : fmat RR) : meq X Y -> fr X = n -> fc X = n -> fdet n X = fdet n Y.
Proof. by move=> E h1 h2; rewrite /fdet (mxf_meq E). Qed.
Lemma fdet_id : fdet n (fid RR n) = 1.
Proof. by rewrite /fdet mxf_id det1. Qed.
Lemma det_add t s : fdet n (E (Rplus t s)) = fdet n (E t) * fdet n (E s).
Proof. by rewrite -fdet_mul //; apply: fdet_meq => //; apply: expm_add. Qed.
Lemma det0 : fdet n (E R0) = 1.
Proof. by rewrite (fdet_meq (expm0 n A)) // fdet_id. Qed.
Lemma der0 i j : (i < n)%N -> (j < n)%N -> derivable_pt_lim (fun t => fe (E t) i j) R0 (fe A i j).
Proof.
move=> Hi Hj; apply: dl_ext (expm_der_r A2 R0 Hi Hj) => //.
rewrite -[LHS]/(\sum_(0 <= k < n) fe (E R0) i k * fe A k j).
rewrite (eq_sum (g := fun k => (i == k)%:R * fe A k j)); first by rewrite sum_delta.
by move=> k Hk; have [_ _ ->] := expm0 n A.
Qed.
(** the derivative of det(E(t)) at 0 is the trace *)
Lemma det_der0 : derivable_pt_lim (fun t => fdet n (E t)) R0 (\sum_(i < n) fe A i i).
Proof.
rewrite /fdet /determinant.
have D (s : 'S_n) (i : 'I_n) : i \in index_enum (ordinal_finType n) ->
    derivable_pt_lim (fun t => mxf n n (E t) i (s i)) R0 (fe A i (s i)).
  by move=> _; apply: dl_ext (der0 (ltn_ord i) (ltn_ord (s i))) => // t; rewrite mxE.
have P (s : 'S_n) := dl_bigprod (index_enum_uniq _) (D s).
apply: dl_ext (@dl_bigsum _ (index_enum _) (fun (s : 'S_n) t => (-1) ^+ s * \prod_i mxf n n (E t) i (s i)) _ _ (fun s _ => dl_cmul _ (P s))) => //=.
rewrite (bigD1 (1%g : 'S_n)) //= odd_perm1 expr0 mul1r [X in _ + X]big1 ?addr0 => [|s Hs].
  apply: eq_bigr => i _; rewrite perm1 big1 ?mulr1 // => j _.
  by rewrite mxE perm1; have [_ _ ->] // := expm0 n A; rewrite /= eqxx.
have [k Hk] : exists k, s k != k.
  apply/existsP; apply: contraNT Hs; rewrite negb_exists => /forallP H.
  by apply/eqP/permP=> k; rewrite perm1; apply/eqP; have := H k; rewrite negbK.
rewrite big1 ?mulr0 // => i _.
have Z (l : 'I_n) : s l != l -> l != i -> fe A i (s i) * \prod_(j | j != i) mxf n n (E R0) j (s j) = 0.
  move=> Hl Hi; rewrite (bigD1 l) //= mxE; have [_ _ ->] // := expm0 n A.
  by rewrite /= eq_sym -[_ == _]/(s l == l) (negbTE Hl) mul0r mulr0.
have [Eik|] := eqVneq k i; last exact: Z Hk.
apply: (Z (s k)); last by rewrite -Eik.
by apply: contra Hk => /eqP/perm_inj ->.
Qed.
Lemma det_const t : \sum_(i < n) fe A i i = 0 -> fdet n (E t) = 1.
Proof.
move=> T; rewrite -det0; apply: (@dl_const (fun t => fdet n (E t))) => u.
apply: shift_der; apply: dl_ext (dl_cmul (fdet n (E u)) det_der0) => [h|]; first by rewrite det_add.
by rewrite T mulr0.
Qed.
(** det(E(t)) = det(E(t/2))^2 *)
Lemma det_pos t : Rlt R0 (fdet n (E t)).
Proof.
have Et : t = Rplus (Rdiv t 2) (Rdiv t 2) by lra.
have H : fdet n (E t) = Rmult (fdet n (E (Rdiv t 2))) (fdet n (E (Rdiv t 2))) by rewrite {1}Et det_add.
have I : Rmult (fdet n (E t)) (fdet n (E (Ropp t))) = R1.
  by rewrite -[LHS](det_add t (Ropp t)) Rplus_opp_r det0.
rewrite H in I *; set x := fdet n _ in I *; have [Z|Z] := Req_dec x R0; last nra.
by move: I; rewrite Z !Rmult_0_l => /esym/R1_neq_R0.
Qed.
End Det.

Lemma tr_span n As (X : fmat RR) : (forall A, List.In A As -> [/\ fr A = n, fc A = n & traceless A]) ->
  lie_span As X -> [/\ fr X = n, fc X = n & traceless X].
Proof.
move=> H; have M (X1 X2 : fmat RR) : meq X2 X1 -> [/\ fr X1 = n, fc X1 = n & traceless X1] -> [/\ fr X2 = n, fc X2 = n & traceless X2].
  move=> [e1 e2 e3] [h1 h2 T]; split; rewrite ?e1 ?e2 //; move: T; rewrite /traceless e1 h1 => T; rewrite -[RHS]T.
  by apply: eq_sum => i Hi; rewrite e3 ?e1 ?e2 ?h1 ?h2.
elim=> {X} [A X HA E|c X Y Z _ [x1 x2 x3] _ [y1 y2 y3] E|X Y Z _ [x1 x2 x3] _ [y1 y2 y3] E]; apply: (M _ _ E).
- exact: H.
- split=> //=; rewrite /traceless /= x1 big_split -mulr_sumr /=; move: x3 y3; rewrite /traceless x1 y1 => -> ->.
  by rewrite mulr0 addr0.
split=> //=; rewrite /traceless /= x1 x2 y2 sumrB exchange_big_nat /= -sumrB big1 // => i _.
by rewrite (eq_sum (fun j _ => mulrC (fe Y i j) _)) subrr.
Qed.
Section Group.
Variables (n : nat) (As hs : seq (fmat RR)).
Hypothesis HA : forall A, List.In A As -> fr A = n /\ fc A = n.
Hypothesis Hh : forall h, List.In h hs -> fr h = n /\ fc h = n.
Lemma span_sz X : lie_span As X -> fr X = n /\ fc X = n.
Proof.
elim=> {X} [A X /HA[h1 h2] [-> -> _]|c X Y Z _ [h1 h2] _ _ [-> -> _]|X Y Z _ [h1 _] _ [_ h2] [-> -> _]] //=.
Qed.
(** a property of determinants that holds for the generators holds for the group *)
Lemma group_fdet (P : R -> Prop) X : P R1 -> (forall x y, P x -> P y -> P (Rmult x y)) -> (forall x y, P x -> Rmult x y = R1 -> P y) ->
  (forall A, lie_span As A -> P (fdet n (expm n A R1))) -> (forall h, List.In h hs -> P (fdet n h)) ->
  in_group n As hs X -> P (fdet n X).
Proof.
move=> P1 PM PV PA Ph HX; have S Y : in_group n As hs Y -> fr Y = n /\ fc Y = n by apply: in_sqn => h /Hh.
elim: HX => {X} [X E|h X H E|A X SA HE|X Y Z GX IX GY IY E|X Y GX IX h1 h2 E1 E2].
- have [e1 e2 _] := E; by rewrite (fdet_meq E) // fdet_id.
- have [e1 e2 _] := E; have [k1 k2] := Hh H; by rewrite (fdet_meq E) ?e1 ?e2 //; apply: Ph.
- have [h1 h2] := span_sz SA.
  have E : meq X (expm n A 1).
    by apply: is_exp_expm => //; apply: is_exp_meq HE => //; split=> //= i j _ _; rewrite mul1r.
  by have [e1 e2 _] := E; rewrite (fdet_meq E) //; apply: PA.
- have [x1 x2] := S X GX; have [y1 y2] := S Y GY; have [e1 e2 _] := E.
  by rewrite (fdet_meq E) ?e1 ?e2 // fdet_mul //; apply: PM.
have [x1 x2] := S X GX; apply: PV IX _; rewrite -[LHS](@fdet_mul n X Y x2) (fdet_meq E1) ?fdet_id //.
Qed.
End Group.
