(** * GroupsSample: the samples of Group.samples are group elements. *)
From Coq Require Import Reals String.
From mathcomp Require Import all_ssreflect all_algebra.
From mathcomp Require Import zify.
From Verif Require Import Np NpLemmas Spec SpecLemmas LinOp LinOpSpec LinOpMore LinOpProofs MxBridge Rep RepSpec RhoProofs Rstruct Expm GrpSpec.
From Verif Require Import Groups GroupsSpec GroupsSpecR GroupsInit GroupsPerm GroupsThm GroupsFlag GroupsReal.
Set Implicit Arguments.
Unset Strict Implicit.
Unset Printing Implicit Defensive.
Import GRing.Theory.
Local Open Scope ring_scope.

Definition sq (d : nat) (X : fmat RR) : Prop := fr X = d /\ fc X = d.
Lemma vlin_flat d (c : RR) (X A : fmat RR) : sq d X -> sq d A -> vadd (flat X) (vscale c (flat A)) = flat (fadd X (fscale c A)).
Proof.
move=> [h1 h2] [k1 k2]; have S : size (flat X) = size (vscale c (flat A)) by rewrite [RHS]size_map !size_flat h1 h2 k1 k2.
apply: (@toM_inj RR d d); [by rewrite size_vadd // size_flat h1 h2 | by rewrite size_flat /= h1 h2 |].
have S2 : size (flat A) = (d * d)%N by rewrite size_flat k1 k2.
have S1 : size (flat X) = (d * d)%N by rewrite size_flat h1 h2.
rewrite toM_vadd // -?S // toM_vscale // !toM_flat //.
by apply/matrixP => i j; rewrite !mxE.
Qed.
Lemma foldl_lin d z As (X : fmat RR) : sq d X -> (forall A, List.In A As -> sq d A) -> size z = size As ->
  foldl (fun acc x => vadd acc (vscale x.1 x.2)) (flat X) (zip z (map (@flat RR) As)) = flat (fadd X (lincomb id d (nth 0 z) As)).
Proof.
elim: As z X => [|A As IH] [|c z] X SX HA //=.
  by move=> _; apply: flat_meq; split=> //= i j _ _; rewrite big_geq // addr0.
case=> Sz; rewrite (vlin_flat c SX (HA A (or_introl erefl))) IH //; last by move=> B HB; apply: HA; right.
apply: flat_meq; split=> //= i j _ _; by rewrite [in RHS]big_nat_recl //= addrA.
Qed.
Lemma zeros_flat d : nseq (d * d) (0 : RR) = flat (fzero RR d d).
Proof. by apply: (@eq_from_nth _ 0); rewrite ?size_nseq ?size_flat // => i Hi; rewrite nth_nseq Hi nth_mkseq. Qed.

Section Sample.
Variables (linv : nat -> seq RR -> seq RR) (expm : nat -> seq RR -> seq RR).
Hypothesis Hlinv : linv_ok linv.
(** the library's expm is the exponential *)
Definition expm_ok : Prop := forall n A, size A = (n * n)%N -> size (expm n A) = (n * n)%N /\ is_exp n (unflat n n A) (unflat n n (expm n A)).
Hypothesis Hexpm : expm_ok.

Lemma mpow_flat d (X : fmat RR) k : sq d X -> iter k (matmul d d d (flat X)) (eye RR d) = flat (mpow d X k).
Proof.
move=> [h1 h2]; elim: k => [|k IH] //=; rewrite IH.
by have [m1 m2] := @mpow_sz d X h1 k; rewrite matmul_flat.
Qed.
Lemma mps_ok d (X V : fmat RR) k : sq d X -> sq d V -> meq (fmul X V) (fid RR d) -> meq (fmul V X) (fid RR d) ->
  exists2 Y, matrix_power_simple linv d (flat X) k = flat Y & sq d Y /\ is_zpow d X k Y.
Proof.
move=> SX SV H1 H2; have [x1 x2] := SX; have [v1 v2] := SV; case: k => k; rewrite /matrix_power_simple /=.
  exists (mpow d X k); first by rewrite mpow_flat.
  by split; [apply: mpow_sz | exact: meq_refl].
have [S E] := Hlinv x1 x2 v1 v2 H1 H2.
have EV : linv d (flat X) = flat V by rewrite -(flat_unflat S); exact: flat_meq.
exists (mpow d V k.+1); first by rewrite EV -mpow_flat.
by split; [apply: mpow_sz | exists V; split=> //; exact: meq_refl].
Qed.

Lemma foldl_flatten (S T : Type) (f : S -> T -> S) (x : S) (ss : seq (seq T)) : foldl f x (flatten ss) = foldl (foldl f) x ss.
Proof. by elim: ss x => //= s ss IH x; rewrite foldl_cat IH. Qed.
Lemma foldl_map2 (S T U : Type) (f : S -> U -> S) (g : T -> U) (x : S) (l : seq T) : foldl f x (map g l) = foldl (fun s t => f s (g t)) x l.
Proof. by elim: l x => //= t l IH x; rewrite IH. Qed.
Lemma eq_foldl (S T : Type) (f g : S -> T -> S) x l : (forall s t, f s t = g s t) -> foldl f x l = foldl g x l.
Proof. by move=> H; elim: l x => //= t l IH x; rewrite H. Qed.

Lemma In_nth (T : Type) (x0 : T) (l : seq T) i : (i < size l)%N -> List.In (nth x0 l i) l.
Proof. by elim: l i => //= x l IH [|i] Hi; [left | right; apply: IH]. Qed.

Definition no : fmat RR := fzero RR 0 0.
Lemma steps_ok d (gs : seq (fmat RR)) (mv : seq (nat * int)) (X : fmat RR) :
  (forall h, List.In h gs -> sq d h /\ exists V, [/\ sq d V, meq (fmul h V) (fid RR d) & meq (fmul V h) (fid RR d)]) ->
  all (fun m => m.1 < size gs)%N mv -> sq d X ->
  exists Ys, [/\ foldl (fun g m => matmul d d d g (matrix_power_simple linv d (nth [::] (map (@flat RR) gs) m.1) m.2)) (flat X) mv
      = flat (foldl (@fmul RR) X Ys), size Ys = size mv, sq d (foldl (@fmul RR) X Ys) &
    forall t, (t < size mv)%N -> sq d (nth no Ys t) /\ is_zpow d (nth no gs (nth (0%N, 0) mv t).1) (nth (0%N, 0) mv t).2 (nth no Ys t)].
Proof.
move=> Hg; elim: mv X => [|[i k] mv IH] X /= Hm SX; first by exists [::].
case/andP: Hm => Hi Hm.
have [Sh [V [SV V1 V2]]] := Hg _ (In_nth no Hi).
have [Y EY [SY ZY]] := mps_ok k Sh SV V1 V2.
have [x1 x2] := SX; have [y1 y2] := SY.
rewrite (nth_map no) // EY matmul_flat //.
have [|Ys [E1 E2 E3 E4]] := IH (fmul X Y) Hm; first by split.
exists (Y :: Ys); split=> //=; first by rewrite E2.
by case=> [|t] //= Ht; apply: E4.
Qed.

Definition moves (ks : seq (seq int)) (perm : nat -> seq nat) : seq (nat * int) :=
  flatten [seq [seq (i, nth 0 (nth [::] ks i) k) | i <- perm k] | k <- iota 0 3].

Variables (G : group RR) (d : nat).
Hypotheses (Ed : g_d G = Some d) (Hl : gok idR d (g_lie G)) (Hg : gok idR d (g_gens G)).
Hypothesis Hinv : forall h, List.In h (gmats G) -> exists V, [/\ fr V = d, fc V = d, meq (fmul h V) (fid RR d) & meq (fmul V h) (fid RR d)].
(** the scaled noise *)
Definition noise (z : seq RR) : seq RR := if g_zscale G is Some zs then [seq x.1 * x.2 | x <- zip z zs] else z.

Theorem sample_ok z ks perm : size z = size (lmats G) -> (if g_zscale G is Some zs then size zs = size z else True) ->
  (forall k, all (fun i => i < size (gmats G))%N (perm k)) ->
  exists D Es Ys, [/\ sample idR linv expm G z ks perm = Ok D, meq (unflat d d D) (mprod d (Es ++ Ys)), size D = (d * d)%N,
    (if nilp (lmats G) then Es = [::] else exists2 E, Es = [:: E] & is_exp d (lincomb id d (nth 0 (noise z)) (lmats G)) E) &
    size Ys = size (moves ks perm) /\ forall t, (t < size Ys)%N ->
      is_zpow d (nth no (gmats G) (nth (0%N, 0) (moves ks perm) t).1) (nth (0%N, 0) (moves ks perm) t).2 (nth no Ys t)].
Proof.
move=> Sz Hz Hp.
have SL : forall A, List.In A (lmats G) -> sq d A.
  by move=> A /List.in_map_iff[B [<- HB]]; exact: gop_sz (Hl HB).
have SG : forall A, List.In A (gmats G) -> sq d A.
  by move=> A /List.in_map_iff[B [<- HB]]; exact: gop_sz (Hg HB).
have Sn : size (noise z) = size (lmats G).
  by rewrite /noise -Sz; case: (g_zscale G) Hz => [zs Ez|_] //; rewrite [LHS]size_map size_zip Ez minnn.
have -> : sample idR linv expm G z ks perm = Ok (noise2sample linv expm d (map (@flat RR) (lmats G)) (map (@flat RR) (gmats G)) (noise z) ks 3 perm).
  rewrite /sample Ed /= !dense_gok //= /lmats /gmats -!map_comp /noise.
  by case: (g_zscale G) Hz => [zs ->|_] //=; rewrite eqxx.
rewrite /noise2sample.
pose X0 := fid RR d; have SX0 : sq d X0 by [].
have [Es [X [EX SX HX EE]]] : exists Es X, [/\ (if nilp (map (@flat RR) (lmats G)) then eye RR d else
    matmul d d d (eye RR d) (expm d (foldl (fun acc x => vadd acc (vscale x.1 x.2)) (nseq (d * d) 0) (zip (noise z) (map (@flat RR) (lmats G)))))) = flat X,
    sq d X, foldl (@fmul RR) (fid RR d) Es = X &
    if nilp (lmats G) then Es = [::] else exists2 E, Es = [:: E] & is_exp d (lincomb id d (nth 0 (noise z)) (lmats G)) E].
  case: (boolP (nilp (lmats G))) => N.
    by exists [::], (fid RR d); rewrite /nilp size_map (eqP N).
  have EL : foldl (fun acc x => vadd acc (vscale x.1 x.2)) (nseq (d * d) 0) (zip (noise z) (map (@flat RR) (lmats G))) = flat (lincomb id d (nth 0 (noise z)) (lmats G)).
    rewrite zeros_flat (@foldl_lin d) //; apply: flat_meq; split=> //= i j _ _; by rewrite add0r.
  rewrite {1}/nilp size_map -/(nilp _) (negbTE N) EL.
  set L := lincomb _ _ _ _; have SL0 : size (flat L) = (d * d)%N by rewrite size_flat.
  have [SE HE] := Hexpm SL0.
  exists [:: unflat d d (expm d (flat L))], (fmul (fid RR d) (unflat d d (expm d (flat L)))); split=> //.
    by rewrite -[in LHS](flat_unflat SE) eye_flat matmul_flat.
  exists (unflat d d (expm d (flat L))) => //; apply: is_exp_meq HE => //; exact: (unflat_flat L).
rewrite EX.
have [||Ys [E1 E2 E3 E4]] := @steps_ok d (gmats G) (moves ks perm) X _ _ SX.
- by move=> h Hh; split; [exact: SG | have [V [? ? ? ?]] := Hinv Hh; exists V].
- by rewrite /moves /= !all_cat !all_map /= !(eq_all (a2 := fun i => i < size (gmats G))%N) ?Hp.
exists (flat (foldl (@fmul RR) X Ys)), Es, Ys; have [f1 f2] := E3; split=> //.
- congr Ok; rewrite -E1 /moves foldl_flatten foldl_map2.
  have -> : (if nilp (map (@flat RR) (gmats G)) then [::] else iota 0 3) = (if nilp (gmats G) then [::] else iota 0 3) by rewrite /nilp size_map.
  case: (boolP (nilp (gmats G))) => N.
    have P0 k : perm k = [::] by move: (Hp k); rewrite (size0nil (eqP N)); case: (perm k).
    by rewrite /= !P0.
  by apply: eq_foldl => s k; rewrite foldl_map2.
- rewrite /mprod foldl_cat HX; have := unflat_flat (foldl (@fmul RR) X Ys); by rewrite f1 f2.
- by rewrite size_flat f1 f2.
by split=> // t; rewrite E2 => /E4[].
Qed.
End Sample.

Section InGroup.
Variables (d : nat) (As hs : seq (fmat RR)).
Hypothesis SL : forall A, List.In A As -> sq d A.
Hypothesis SG : forall h, List.In h hs -> sq d h.
Lemma in_group_sz X : in_group d As hs X -> sq d X.
Proof.
elim=> {X} [X [? ?]|h X Hh [e1 e2 _]|A X _ [? ? _]|X Y Z _ [? ?] _ [? ?] [e1 e2 _]|X Y _ _ ? ? _ _]; split=> //=; rewrite ?e1 ?e2 //; try by case: (SG Hh).
Qed.
Lemma in_group_mpow X k : in_group d As hs X -> in_group d As hs (mpow d X k).
Proof.
move=> H; elim: k => [|k IH]; first exact/I_one/meq_refl.
exact: I_mul H IH (meq_refl _).
Qed.
Lemma in_group_meq X Y : in_group d As hs X -> meq Y X -> in_group d As hs Y.
Proof.
move=> H E; apply: (I_mul H (I_one As hs (meq_refl (fid RR d)))).
have [_ c] := in_group_sz H.
apply: meq_trans E _; apply: meq_sym; exact: fmul_id_r.
Qed.
Lemma in_group_zpow h k Y : List.In h hs -> is_zpow d h k Y -> in_group d As hs Y.
Proof.
move=> Hh; have Gh : in_group d As hs h := I_gen d As Hh (meq_refl h).
case: k => k /=; first by apply: in_group_meq; exact: in_group_mpow.
case=> V [v1 v2 V1 V2]; apply: in_group_meq; apply: (in_group_mpow k.+1); exact: I_inv Gh v1 v2 V1 V2.
Qed.
Lemma in_group_mprod X l : in_group d As hs X -> (forall Y, List.In Y l -> in_group d As hs Y) -> in_group d As hs (foldl (@fmul RR) X l).
Proof.
elim: l X => [|Y l IH] X //= GX H; apply: IH; last by move=> Z HZ; apply: H; right.
exact: I_mul GX (H _ (or_introl erefl)) (meq_refl _).
Qed.
Lemma span_lincomb (c : nat -> RR) : As <> [::] -> lie_span As (lincomb id d c As).
Proof.
move=> N.
suff H : forall k, (k <= size As)%N -> lie_span As (FM d d (fun i j => \sum_(0 <= t < k) c t * fe (nth (fzero RR 0 0) As t) i j)) by exact: (H (size As) (leqnn _)).
elim=> [_|k IH Hk].
  case: As N SL => // A l _ SA; have LA : lie_span (A :: l) A by apply: (LS_gen (A := A)); [left | exact: meq_refl].
  have [a1 a2] := SA A (or_introl erefl).
  apply: (LS_lin (c := -1) LA LA); split=> //= i j _ _; by rewrite big_geq // mulN1r addNr.
have LA : lie_span As (nth (fzero RR 0 0) As k) by apply: (LS_gen (A := nth (fzero RR 0 0) As k)); [exact: In_nth | exact: meq_refl].
have [a1 a2] := SL (In_nth (fzero RR 0 0) Hk).
apply: (LS_lin (c := c k) LA (IH (ltnW Hk))); split=> //= i j _ _; by rewrite big_nat_recr //= addrC.
Qed.
End InGroup.
