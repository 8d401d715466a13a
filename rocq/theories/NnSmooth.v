(** * NnSmooth: the outputs of the networks are expressions in the inputs. *)
From Coq Require Import Reals Lra.
From mathcomp Require Import all_ssreflect all_algebra.
From Verif Require Import Np Spec SpecLemmas LinOp Rep Solver Rstruct Expm GrpSpec Nn NnSpec Data NnNets FlowSpec Smooth.
Set Implicit Arguments.
Unset Strict Implicit.
Unset Printing Implicit Defensive.
Import GRing.Theory.
Local Open Scope ring_scope.

(** ** scalar functions *)
Definition sm (n : nat) (F : seq RR -> RR) : Prop := exists e, forall x, size x = n -> F x = ev x e.
Section Sm.
Variable n : nat.
Local Notation sm := (sm n).
Lemma sm_ext F G : (forall x, size x = n -> F x = G x) -> sm G -> sm F.
Proof. by move=> H [e E]; exists e => x Hx; rewrite H // E. Qed.
Lemma sm_const c : sm (fun=> c). Proof. by exists (ECst c). Qed.
Lemma sm_nth i : sm (fun x => nth 0 x i). Proof. by exists (EVar i). Qed.
Lemma sm_add F G : sm F -> sm G -> sm (fun x => F x + G x).
Proof. by move=> [e E] [f H]; exists (EAdd e f) => x Hx; rewrite E ?H. Qed.
Lemma sm_mul F G : sm F -> sm G -> sm (fun x => F x * G x).
Proof. by move=> [e E] [f H]; exists (EMul e f) => x Hx; rewrite E ?H. Qed.
Lemma sm_sig F : sm F -> sm (fun x => sigmoid (F x)).
Proof. by move=> [e E]; exists (ESig e) => x Hx; rewrite E. Qed.
Lemma sm_rsum k (F : nat -> seq RR -> RR) : (forall j, sm (F j)) -> sm (fun x => rsum k (fun j => F j x)).
Proof. by move=> H; rewrite /rsum; elim: (iota 0 k) => [|i l IH] /=; [exact: sm_const | exact: sm_add]. Qed.

(** ** vector functions *)
Definition smv (k : nat) (G : seq RR -> seq RR) : Prop :=
  (forall x, size x = n -> size (G x) = k) /\ forall t, sm (fun x => nth 0 (G x) t).
Lemma smv_id : smv n id. Proof. by split=> // t; exact: sm_nth. Qed.
Lemma smv_const v : smv (size v) (fun=> v). Proof. by split=> // t; exact: sm_const. Qed.
Lemma smv_mkseq k (f : seq RR -> nat -> RR) : (forall t, sm (fun x => f x t)) -> smv k (fun x => mkseq (f x) k).
Proof.
move=> H; split=> [x _|t]; first by rewrite size_mkseq.
have [Ht|Ht] := ltnP t k; first by apply: sm_ext (H t) => x _; rewrite nth_mkseq.
by apply: sm_ext (sm_const 0) => x _; rewrite nth_default ?size_mkseq.
Qed.
Lemma smv_map (T : Type) (l : seq T) (f : seq RR -> T -> RR) : (forall t, sm (fun x => f x t)) -> smv (size l) (fun x => map (f x) l).
Proof.
move=> H; split=> [x _|t]; first by rewrite size_map.
case: l => [|a l]; first by apply: sm_ext (sm_const 0) => x _; rewrite nth_nil.
have [Ht|Ht] := ltnP t (size (a :: l)); first by apply: sm_ext (H (nth a (a :: l) t)) => x _; rewrite (nth_map a).
by apply: sm_ext (sm_const 0) => x _; rewrite nth_default ?size_map.
Qed.
Lemma smv_cat k k' F G : smv k F -> smv k' G -> smv (k + k') (fun x => F x ++ G x).
Proof.
move=> [s1 h1] [s2 h2]; split=> [x Hx|t]; first by rewrite size_cat s1 // s2.
have [Ht|Ht] := ltnP t k; first by apply: sm_ext (h1 t) => x Hx; rewrite nth_cat s1 // Ht.
by apply: sm_ext (h2 (t - k)%N) => x Hx; rewrite nth_cat s1 // ltnNge Ht.
Qed.
Lemma smv_take k m F : smv k F -> smv (minn m k) (fun x => take m (F x)).
Proof.
move=> [s h]; split=> [x Hx|t]; first by rewrite size_take s //; rewrite /minn.
have [Ht|Ht] := ltnP t m; first by apply: sm_ext (h t) => x Hx; rewrite nth_take.
by apply: sm_ext (sm_const 0) => x Hx; rewrite nth_default // size_take; case: ifP => // /negbT; rewrite -leqNgt => H; apply: leq_trans H Ht.
Qed.
Lemma smv_drop k m F : smv k F -> smv (k - m) (fun x => drop m (F x)).
Proof.
move=> [s h]; split=> [x Hx|t]; first by rewrite size_drop s.
by apply: sm_ext (h (m + t)%N) => x Hx; rewrite nth_drop.
Qed.
Lemma smv_vadd k k' F G : smv k F -> smv k' G -> smv (minn k k') (fun x => vadd (F x) (G x)).
Proof.
move=> [s1 h1] [s2 h2]; split=> [x Hx|t]; first by rewrite /vadd size_map size_zip s1 // s2.
have [Ht|Ht] := ltnP t (minn k k').
  apply: sm_ext (sm_add (h1 t) (h2 t)) => x Hx.
  by rewrite /vadd (nth_map (0, 0)) ?nth_zip_cond ?size_zip ?s1 ?s2 // Ht.
by apply: sm_ext (sm_const 0) => x Hx; rewrite nth_default // /vadd size_map size_zip s1 // s2.
Qed.
Lemma smv_exprs k G : smv k G -> exists2 es, size es = k & forall x, size x = n -> G x = map (ev x) es.
Proof.
move=> [s h].
have [es Ses H] : exists2 es, size es = k & forall t x, (t < k)%N -> size x = n -> nth 0 (G x) t = ev x (nth (ECst 0) es t).
  elim: k {s} => [|k [es Ses H]]; first by exists [::].
  have [e E] := h k; exists (rcons es e) => [|t x]; first by rewrite size_rcons Ses.
  by rewrite ltnS leq_eqVlt nth_rcons Ses => /orP[/eqP->|Ht] Hx; [rewrite ltnn eqxx E | rewrite Ht H].
exists es => // x Hx; apply: (@eq_from_nth _ 0); first by rewrite s // size_map.
by move=> t; rewrite s // => Ht; rewrite (nth_map (ECst 0)) ?Ses // H.
Qed.
(** ** computations *)
Definition smr (F : seq RR -> res (seq RR)) : Prop :=
  exists k G, smv k G /\ forall x y, size x = n -> F x = Ok y -> y = G x.
Lemma smr_err (e : exn) : smr (fun=> Err e). Proof. by exists 0%N, (fun=> [::]); split=> //; exact: (smv_const [::]). Qed.
Lemma smr_ok k G : smv k G -> smr (fun x => Ok (G x)). Proof. by move=> H; exists k, G; split=> // x y _ []. Qed.
End Sm.
Lemma sm_comp n k F G : smv n k G -> sm k F -> sm n (fun x => F (G x)).
Proof.
move=> HG [e E]; have [es Ses H] := smv_exprs HG; exists (sub es e) => x Hx.
by rewrite ev_sub -H // E //; apply: HG.1.
Qed.
Lemma smv_comp n k m F G : smv n k G -> smv k m F -> smv n m (fun x => F (G x)).
Proof.
move=> HG [s h]; split=> [x Hx|t]; first by apply: s; apply: HG.1.
exact: (sm_comp HG (h t)).
Qed.
Lemma smr_comp n k F G : smv n k G -> smr k F -> smr n (fun x => F (G x)).
Proof.
move=> HG [m [H [HH E]]]; exists m, (fun x => H (G x)); split; first exact: smv_comp HG HH.
by move=> x y Hx; apply: E; apply: HG.1.
Qed.
Lemma smr_bind n F (H : seq RR -> seq RR -> res (seq RR)) : smr n F -> (forall k G, smv n k G -> smr n (fun x => H x (G x))) ->
  smr n (fun x => do y <- F x; H x y).
Proof.
move=> [k [G [HG E]]] /(_ k G HG)[m [K [HK EK]]]; exists m, K; split=> // x y Hx.
by case EF: (F x) => [z|] //=; rewrite (E x z Hx EF); exact: EK.
Qed.
Lemma smr_bind' n F H : smr n F -> (forall k, smr k H) -> smr n (fun x => do y <- F x; H y).
Proof. by move=> HF HH; apply: (smr_bind (H := fun=> H)) => // k G HG; exact: smr_comp HG (HH k). Qed.

Section Net.
Variables (sinv : RR -> RR) (linv : nat -> seq RR -> seq RR).
Variables (gdim : gid -> nat) (csize : nat -> gid -> nat).
Variables (gperm : gid -> bool) (cperm : nat -> bool).
Variable tenth : RR.
Lemma smv_matmul_l n k m q K G W : smv n k G -> smv n (m * K) (fun x => matmul m q K (G x) W).
Proof.
move=> [_ h]; apply: smv_mkseq => t; apply: sm_rsum => j; apply: sm_mul (sm_const _ _); exact: h.
Qed.
Lemma smv_matmul_r n k m q K G W : smv n k G -> smv n (m * K) (fun x => matmul m q K W (G x)).
Proof.
move=> [_ h]; apply: smv_mkseq => t; apply: sm_rsum => j; apply: sm_mul (sm_const _ _) _; exact: h.
Qed.
Lemma smv_tr2 n k a b G : smv n k G -> smv n (b * a) (fun x => tr2 0 a b (G x)).
Proof. by move=> [_ h]; apply: smv_mkseq => t; exact: h. Qed.
Lemma linear_smr n L w b : smr n (linear_call idR L w b 1).
Proof.
rewrite /linear_call; case: (matmat _ _ _ w) => [Ww|e] /=; last exact: smr_err.
case: (reshape _ _) => [W|e] /=; last exact: smr_err.
case: (matmat _ _ _ b) => [b'|e] /=; last exact: smr_err.
rewrite /affine; set X := matmul _ _ _.
exists (1 * l_out L)%N, (fun x => add_rows (l_out L) (X x (tr2 0 (l_out L) (l_in L) (dat W))) b'); split; last first.
  by move=> x y _; case: ifP => // _ [].
have [s h] := @smv_matmul_l n n 1 (l_in L) (l_out L) id (tr2 0 (l_out L) (l_in L) (dat W)) (smv_id n).
have [s' h'] : smv n (1 * l_out L) (fun x => mkseq (fun t => nth 0 (X x (tr2 0 (l_out L) (l_in L) (dat W))) t + nth 0 b' (t %% l_out L)) (1 * l_out L)).
  by apply: smv_mkseq => t; apply: sm_add (sm_const _ _); exact: h.
split=> [x Hx|t]; first by rewrite /add_rows size_mkseq s.
by apply: sm_ext (h' t) => x Hx; rewrite /add_rows s.
Qed.
(** a list of blocks with their widths, computed from x *)
Definition sml (n : nat) (F : seq RR -> res (seq (nat * seq RR))) : Prop :=
  exists gs : seq (nat * (nat * (seq RR -> seq RR))), (forall i, (i < size gs)%N ->
      let g := nth (0%N, (0%N, id)) gs i in smv n g.2.1 g.2.2) /\
    forall x l, size x = n -> F x = Ok l -> l = [seq (g.1, g.2.2 x) | g <- gs].
Lemma sml_cons n F c k G : smv n k G -> sml n F -> sml n (fun x => do l <- F x; Ok ((c, G x) :: l)).
Proof.
move=> HG [gs [Hg E]]; exists ((c, (k, G)) :: gs); split=> [[|i] //= Hi|x l Hx]; first exact: Hg.
by case EF: (F x) => [l'|] //= [<-]; rewrite (E x l').
Qed.
Lemma loop_sml n B params W : forall i, sml n (fun x => bl_loop gdim csize B params 1 x i W).
Proof.
elim: W => [|[k c] W IH] i /=; first by exists [::]; split=> // x l _ [].
have EE e : sml n (fun=> Err e) by exists [::]; split.
case: (k \notin keys (bl_x B)); first exact: (sml_cons (G := fun=> _) _ (smv_const n _) (IH i)).
case: (_ != _); first exact: EE.
case: (_ != _); first exact: EE.
set q := nelems _ _ _ _; set sl := slice _ _ _.
refine (@sml_cons n _ _ _ (fun x => tr2 0 (c * rsize gdim csize k) 1 (matmul c q (rsize gdim csize k * 1) sl
  (tr2 0 1 (size (bl_ids B k)) (gcols 1 (bl_in B) x (bl_ids B k))))) _ (IH _)).
apply: smv_tr2; apply: smv_matmul_r; apply: smv_tr2.
rewrite /gcols /=; apply: smv_cat (smv_const n [::]).
by apply: smv_map => j; exact: sm_nth.
Qed.
Lemma hcat_smv n F : sml n F -> exists G k, smv n k G /\ forall x l, size x = n -> F x = Ok l -> hcat 1 l = G x.
Proof.
move=> [gs [Hg E]].
have [k HG] : exists k, smv n k (fun x => flatten [seq slice 0 (1 * y.1)%N y.2 | y <- [seq (g.1, g.2.2 x) | g <- gs]]).
  elim: gs Hg {E} => [|g gs IH] Hg; first by exists 0%N; exact: (smv_const n [::]).
  have [|k Hk] := IH; first by move=> i Hi; exact: (Hg i.+1 Hi).
  have := smv_take (1 * g.1 - 0) (smv_drop 0 (Hg 0%N isT)) => H0.
  by eexists; exact: smv_cat H0 Hk.
exists (fun x => flatten [seq slice 0 (1 * y.1)%N y.2 | y <- [seq (g.1, g.2.2 x) | g <- gs]]), k; split=> // x l Hx EF.
by rewrite (E x l Hx EF) /hcat /= cats0.
Qed.
Lemma bilinear_smr n B params : smr n (bilinear_call gdim csize tenth B params 1).
Proof.
rewrite /bilinear_call.
apply: (smr_bind (H := fun x W => Ok (mkseq (fun t => tenth * rsum (bl_in B) (fun j => nth 0 W (t * bl_in B + j)%N * nth 0 x (t %/ bl_out B * bl_in B + j)%N)) (1 * bl_out B)))).
  have [G [k [HG E]]] := hcat_smv (loop_sml n B params (bl_W B) 0).
  exists (size (bl_inv B)), (fun x => gcols 1 0 (G x) (bl_inv B)); split.
    have [_ h] : smv n (size (bl_inv B) + 0) (fun x => [seq nth 0 (G x) (0 * 0 + i)%N | i <- bl_inv B] ++ [::]).
      by apply: smv_cat (smv_const n [::]); apply: smv_map => i; exact: HG.2.
    by split=> [x _|t]; [rewrite /gcols /= cats0 size_map | exact: h].
  move=> x y Hx; rewrite /lazy_projection; case: ifP => // _.
  case EL: (bl_loop _ _ _ _ _ _ _) => [l|] //=; case: ifP => // _.
  by rewrite /reshape; case: ifP => // _ [<-] /=; rewrite (E x l Hx EL) /gcols /=.
move=> k G [_ HG]; apply: smr_ok; apply: smv_mkseq => t; apply: sm_mul (sm_const _ _) _; apply: sm_rsum => j.
by apply: sm_mul; [exact: HG | exact: sm_nth].
Qed.
Lemma gated_smr n r m : smr n (gated_call gdim csize gperm cperm sigmoid r 1 m).
Proof.
rewrite /gated_call; case: (gate_indices _ _ _ _ _) => [[l|l]|e] /=.
- pose f (v : seq RR) := mkseq (fun t => sigmoid (nth 0 v (t %/ rsize gdim csize r * m + minn (nth 0%N l (t %% rsize gdim csize r)) m.-1)%N) *
     nth 0 v (t %/ rsize gdim csize r * m + t %% rsize gdim csize r)%N) (1 * rsize gdim csize r); have [k Hk] : exists k, smv n k f.
    eexists; apply: smv_mkseq => t; apply: sm_mul; last exact: sm_nth.
    by apply: sm_sig; exact: sm_nth.
  by exists k, f; split=> // x y _; do 2!case: ifP => // _; case=> <-.
- by exists 0%N, (fun=> [::]); split=> [|x y _]; [exact: (smv_const n [::]) | case: ifP].
by exists 0%N, (fun=> [::]); split=> [|x y _]; [exact: (smv_const n [::]) | case: ifP].
Qed.
Lemma block_smr n K P : smr n (block_call idR gdim csize gperm cperm sigmoid tenth K P 1).
Proof.
rewrite /block_call; apply: (smr_bind' (H := fun lin => do bil <- _; gated_call _ _ _ _ _ _ _ _ (vadd bil lin))); first exact: linear_smr.
move=> k; apply: (smr_bind (H := fun lin bil => gated_call _ _ _ _ _ _ _ _ (vadd bil lin))); first exact: bilinear_smr.
by move=> m G HG; apply: smr_comp (smv_vadd HG (smv_id k)) _; exact: gated_smr.
Qed.
Lemma blocks_smr Ks : forall n Ps, smr n (blocks_call idR gdim csize gperm cperm sigmoid tenth Ks Ps 1).
Proof.
elim: Ks => [|K Ks IH] n [|P Ps] /=; try exact: (smr_ok (smv_id n)).
by apply: smr_bind'; [exact: block_smr | move=> k; exact: IH].
Qed.
Theorem network_smr n N Ps w b : smr n (network_call idR gdim csize gperm cperm sigmoid tenth N Ps w b 1).
Proof. by rewrite /network_call; apply: smr_bind'; [exact: blocks_smr | move=> k; exact: linear_smr]. Qed.
(** MLP *)
Lemma dense_smr n a b W c : smr n (dense 1 a b W c).
Proof.
rewrite /dense.
have [s h] := @smv_matmul_l n n 1 a b id W (smv_id n).
have HG : smv n (1 * b) (fun x => add_rows b (matmul 1 a b x W) c).
  split=> [x Hx|t]; first by rewrite /add_rows size_mkseq s.
  have [_ h'] : smv n (1 * b) (fun x => mkseq (fun t => nth 0 (matmul 1 a b x W) t + nth 0 c (t %% b)) (1 * b)).
    by apply: smv_mkseq => i; apply: sm_add (sm_const _ _); exact: h.
  by apply: sm_ext (h' t) => x Hx; rewrite /add_rows s.
by exists (1 * b)%N, (fun x => add_rows b (matmul 1 a b x W) c); split=> // x y _; case: ifP => // _ [].
Qed.
Lemma swish_smv k : smv k k (swish sigmoid).
Proof.
have [s h] : smv k k (fun x => mkseq (fun i => sigmoid (nth 0 x i) * nth 0 x i) k).
  by apply: smv_mkseq => t; apply: sm_mul; [apply: sm_sig |]; exact: sm_nth.
have E x : size x = k -> swish sigmoid x = mkseq (fun i => sigmoid (nth 0 x i) * nth 0 x i) k.
  move=> Hx; apply: (@eq_from_nth _ 0); rewrite size_map ?size_mkseq // Hx => i Hi.
  by rewrite nth_mkseq // (nth_map 0) ?Hx.
by split=> [x Hx|t]; [rewrite E // s | apply: sm_ext (h t) => x Hx; rewrite E].
Qed.
Theorem mlp_smr ms : forall k n Ps, smr k (mlp_call sigmoid (@dense _) n ms Ps 1).
Proof.
elim: ms => [|m ms IH] k n [|P Ps] /=; try exact: smr_err; first by case: ms {IH}; move=> *; exact: smr_err.
case: ms IH => [|m' ms] IH; first exact: dense_smr.
apply: (smr_bind' (H := fun y => mlp_call _ _ _ _ _ _ (swish _ y))); first exact: dense_smr.
by move=> q; apply: smr_comp (swish_smv q) _; exact: IH.
Qed.
End Net.
