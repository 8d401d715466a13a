(** * GroupsExactE: the groups generated by Scaling(n), Parity, TimeReversal and embeddings. *)
From Coq Require Import Reals Lra String.
From Coquelicot Require Import Coquelicot.
From mathcomp Require Import all_ssreflect all_algebra.
From mathcomp Require Import zify.
From Verif Require Import Np NpLemmas Spec SpecLemmas LinOp LinOpSpec LinOpInv MxBridge RepSpec RhoProofs Rstruct Expm GrpSpec RField GenSL GenSO.
From Verif Require Import Groups GroupsSpec GroupsPerm GroupsSpecR ExactSpec GroupsLoop GroupsLie GroupsInit GroupsCtor GroupsThm GroupsFlag GroupsReal GroupsForm GroupsDet GroupsGen GroupsTol GroupsEmb GroupsExact GroupsExactL GroupsExactD.
Set Implicit Arguments.
Unset Strict Implicit.
Unset Printing Implicit Defensive.
Import GRing.Theory.
Local Open Scope ring_scope.


(** ** scalings *)
Lemma fscale_id n (c : RR) : meq (fscale c (fid RR n.+1)) (fM (c *: (1%:M : 'M_n.+1))).
Proof. by split=> //= i j Hi Hj; rewrite !mxE -val_eqE /= !inordK. Qed.
Lemma exp_scale n (c : R) : is_exp n.+1 (fscale c (fid RR n.+1)) (fscale (exp c : RR) (fid RR n.+1)).
Proof.
have H : is_exp n.+1 (fscale c (fM (1%:M : 'M[RR]_n.+1))) (fM ((exp c : RR) *: (1%:M : 'M_n.+1))).
  apply: (@exp_mx n 1%:M (fun t => (exp t : RR) *: (1%:M : 'M_n.+1)) c); first by rewrite exp_0 scale1r.
  move=> t a b; rewrite mul1mx mxE; apply: dl_ext (@dl_mulc exp t (1%:M a b) (exp t) (derivable_pt_lim_exp t)) => //.
  by move=> s; rewrite [RHS]mxE.
apply: is_exp_meq H => //.
  by split=> //= i j Hi Hj; have [_ _ /(_ i j Hi Hj) /= ->] := fM_one n.
exact: meq_sym (fscale_id n (exp c)).
Qed.
Section Scal.
Variable n : nat.
Variables (h : fmat RR).
Hypothesis Eh : meq h (fid RR n.+1).
Lemma span_scal A : lie_span [:: h] A -> exists c, meq A (fscale c (fid RR n.+1)).
Proof.
elim=> {A} [A X [<-|//] E|c X Y Z _ [x EX] _ [y EY] E|X Y Z _ [x EX] _ [y EY] E].
- by exists 1; apply: meq_trans E _; apply: meq_trans Eh _; split=> //= i j _ _; rewrite mul1r.
- exists (c * x + y); have [x1 x2 x3] := EX; have [y1 y2 y3] := EY; have [z1 z2 z3] := E; rewrite /= x1 x2 in z1 z2.
  by split=> // i j; rewrite z1 z2 => Hi Hj; rewrite z3 ?z1 ?z2 //= x3 ?x1 ?x2 // y3 ?y1 ?y2 //= mulrA mulrDl.
exists 0; have [x1 x2 x3] := EX; have [y1 y2 y3] := EY; have [z1 z2 z3] := E; rewrite /= x1 y2 in z1 z2.
split=> // i j; rewrite z1 z2 => Hi Hj; rewrite z3 ?z1 ?z2 // -[fe (fsub _ _) i j]/(fe (fmul X Y) i j - fe (fmul Y X) i j).
have -> : fe (fmul X Y) i j = fe (fmul Y X) i j.
  have [_ _ ->] := meq_fmul EX EY (etrans x2 (esym y1)); rewrite ?x1 ?y2 //.
  have [_ _ ->] := meq_fmul EY EX (etrans y2 (esym x1)); rewrite ?x2 ?y1 //= ?x1 ?y1.
  by apply: eq_sum => l Hl; rewrite mulrACA [x * y]mulrC mulrACA.
by rewrite subrr /= mul0r.
Qed.
Lemma scal_iff X : in_group n.+1 [:: h] [::] X <-> [/\ fr X = n.+1, fc X = n.+1 & exists2 c : RR, Rlt R0 c & meq X (fscale c (fid RR n.+1))].
Proof.
split.
  have Q (Y : fmat RR) (c : RR) : meq Y (fscale c (fid RR n.+1)) -> fr Y = n.+1 /\ fc Y = n.+1 by case.
  suff : in_group n.+1 [:: h] [::] X -> exists2 c : RR, Rlt R0 c & meq X (fscale c (fid RR n.+1)).
    by move=> H /H[c C E]; have [e1 e2] := Q _ _ E; split=> //; exists c.
  elim=> {X} [X E|g X []|A X /span_scal[c EA] HE|X Y Z _ [x Px EX] _ [y Py EY] E|X Y _ [x Px EX] y1 y2 E1 E2].
  - by exists 1; [exact: Rlt_0_1 | apply: meq_trans E _; split=> //= i j _ _; rewrite mul1r].
  - exists (exp c); first exact: exp_pos.
    have [e1 e2 _] := EA; apply: is_exp_uniq HE _; apply: is_exp_meq (exp_scale n c) => //; exact: meq_sym.
  - exists (x * y); first exact: Rmult_lt_0_compat.
    have [x1 x2 _] := EX; have [y1 y2 _] := EY; apply: meq_trans E _; apply: meq_trans (meq_fmul EX EY (etrans x2 (esym y1))) _.
    split=> //= i j Hi Hj; rewrite (sum_only Hi) ?eqxx ?mulr1 ?mulrA // => l _ /negbTE; rewrite eq_sym => ->; by rewrite mulr0 mul0r.
  exists (Rinv x); first exact: Rinv_0_lt_compat.
  have [x1 x2 _] := EX; apply: (@inv_uniq _ n.+1 X) => //.
  apply: meq_trans (meq_fmul (meq_refl (fscale (Rinv x : RR) (fid RR n.+1))) EX (esym x1)) _; split=> //= i j Hi Hj.
  rewrite (sum_only Hi) ?eqxx ?mulr1 => [|l _ /negbTE]; last by rewrite eq_sym => ->; rewrite mulr0 mul0r.
  by rewrite mulrA /GRing.mul /= Rinv_l ?Rmult_1_l //; move: Px => /Rlt_not_eq H E; case: H.
move=> [x1 x2 [c Pc E]]; apply: (@I_exp _ _ _ (fscale (ln c : RR) (fid RR n.+1))).
  have L1 : lie_span [:: h] (fid RR n.+1) by apply: LS_gen (meq_sym Eh); left.
  by apply: (LS_lin (c := ln c - 1) L1 L1); split=> //= i j _ _; rewrite mulrBl mul1r subrK.
apply: is_exp_meq (exp_scale n (ln c)) => //.
by rewrite exp_ln //; exact: meq_sym.
Qed.
End Scal.

(** ** embeddings *)
Section Emb.
Variables (d : nat) (ix : seq nat).
Hypotheses (U : uniq ix) (A : all (fun i => i < d)%N ix).
Local Notation g := (size ix).
Lemma acts_emb c Y E : acts_on d ix c Y E -> meq E (emb d ix c Y).
Proof.
move=> [e1 e2 H]; split=> //= i j; rewrite e1 e2 => Hi Hj.
have := H (fun k => (k == j)%:R) i Hi; rewrite (sum_only Hj) ?eqxx ?mulr1; last by move=> l _ /negbTE ->; rewrite mulr0.
move=> ->; case: (boolP (i \in ix)) => Mi /=; last by case: eqP => _; rewrite ?mulr1 ?mulr0.
case: (boolP (j \in ix)) => Mj; last first.
  rewrite big1_seq => [|b /andP[_]]; first by case: eqP Mj => // <-; rewrite Mi.
  by rewrite mem_index_iota => /= Hb; case: eqP Mj => [<-|_]; rewrite ?mulr0 ?mem_nth.
have Hx : (index j ix < g)%N by rewrite index_mem.
rewrite (sum_only Hx) ?nth_index ?eqxx ?mulr1 // => b Hb /eqP Nb.
by case: eqP => [Eb|_]; rewrite ?mulr0 //; case: Nb; rewrite -Eb index_uniq.
Qed.
Lemma emb_meq c Y Y' : fr Y = g -> fc Y = g -> meq Y Y' -> meq (emb d ix c Y) (emb d ix c Y').
Proof.
move=> y1 y2 [_ _ E]; split=> //= i j Hi Hj; case: ifP => // /andP[Mi Mj].
by rewrite E // ?y1 ?y2 index_mem.
Qed.
Lemma emb_mul c c' Y Z : fr Y = g -> fc Y = g -> fr Z = g -> fc Z = g ->
  meq (fmul (emb d ix c Y) (emb d ix c' Z)) (emb d ix (c * c') (fmul Y Z)).
Proof.
move=> y1 y2 z1 z2; split=> //= i j Hi Hj.
case: (boolP (i \in ix)) => Mi /=; last first.
  rewrite (sum_only Hi) ?eqxx; first by rewrite (negbTE Mi) /=; case: eqP => _; rewrite ?mulr0.
  by move=> l _ /negbTE; rewrite eq_sym => ->; rewrite mul0r.
case: (boolP (j \in ix)) => Mj /=; last first.
  have Nij : (i == j) = false by apply/eqP=> E; rewrite -E Mi in Mj.
  rewrite Nij big1_seq // => l _; case: (boolP (l \in ix)) => Ml /=; last by case: eqP Ml => [<-|_ _]; rewrite ?Mi ?mul0r.
  have -> : (l == j) = false by apply/eqP=> E; rewrite -E Ml in Mj.
  by rewrite mulr0.
rewrite y2 -(@eq_sum _ d (fun l => if l \in ix then fe Y (index i ix) (index l ix) * fe Z (index l ix) (index j ix) else 0)); last first.
  move=> l Hl; rewrite andbT; case: (boolP (l \in ix)) => // Ml; by case: eqP Ml => [<-|_ _]; rewrite ?Mi ?mul0r.
by rewrite (sum_ix _ U A); apply: eq_sum => b Hb; rewrite index_uniq.
Qed.
Lemma emb_id : meq (emb d ix 1 (fid RR g)) (fid RR d).
Proof.
split=> //= i j Hi Hj; case: ifP => [/andP[Mi Mj]|_]; last by case: eqP.
by congr (_%:R); congr nat_of_bool; apply/eqP/eqP=> [E|->] //; rewrite -(nth_index 0%N Mi) E nth_index.
Qed.
Lemma emb_exp Y E : fr Y = g -> fc Y = g -> is_exp g Y E -> is_exp d (emb d ix 0 Y) (emb d ix 1 E).
Proof.
move=> y1 y2 HE; have EE : meq E (expm g Y R1).
  apply: is_exp_expm => //; apply: is_exp_meq HE => //; split=> //= i j _ _.
  by rewrite -[R1]/(1 : RR) mul1r.
have C : meq (emb d ix 1 (expm g Y R1)) (expm d (emb d ix 0 Y) R1).
  apply: (@exp_curve d (emb d ix 0 Y) (fun t => emb d ix 1 (expm g Y t)) R1) => //.
    by apply: meq_trans emb_id; apply: emb_meq => //; exact: expm0.
  move=> t i j Hi Hj; have [_ _ ->] := emb_mul 0 1 y1 y2 (erefl g : fr (expm g Y t) = g) (erefl g : fc (expm g Y t) = g) => //.
  rewrite mul0r; case: (boolP ((i \in ix) && (j \in ix))) => M.
    have /andP[Mi Mj] := M; have Hi' : (index i ix < g)%N by rewrite index_mem.
    have Hj' : (index j ix < g)%N by rewrite index_mem.
    by apply: dl_ext (expm_der_l y2 t Hi' Hj') => [s|] /=; rewrite M.
  by apply: dl_ext (derivable_pt_lim_const (if i == j then 1 else 0 : RR) t) => [s|] /=; rewrite (negbTE M) ?if_same.
apply: is_exp_meq (expm_is (A := emb d ix 0 Y) (n := d) erefl R1) => //.
  by split=> //= i j _ _; rewrite -[R1]/(1 : RR) mul1r.
apply: meq_trans (meq_sym C) _; apply: emb_meq => //; exact: meq_sym.
Qed.
(** inverses of embedded matrices are embedded *)
Lemma emb_inv X Y : fr X = g -> fc X = g -> fr Y = d -> fc Y = d ->
  meq (fmul (emb d ix 1 X) Y) (fid RR d) -> meq (fmul Y (emb d ix 1 X)) (fid RR d) ->
  exists Z, [/\ fr Z = g, fc Z = g, meq (fmul X Z) (fid RR g), meq (fmul Z X) (fid RR g) & meq Y (emb d ix 1 Z)].
Proof.
move=> x1 x2 y1 y2 [_ _ E1] [_ _ E2]; rewrite /= y1 y2 in E1 E2; have /allP L := A.
have Nin a : (a < g)%N -> nth 0%N ix a \in ix by move=> H; exact: mem_nth.
have Lt a : (a < g)%N -> (nth 0%N ix a < d)%N by move=> H; apply: L; exact: Nin.
pose Z : fmat RR := FM g g (fun a b => fe Y (nth 0%N ix a) (nth 0%N ix b)).
have R1' i j : (i < d)%N -> (j < d)%N -> i \notin ix -> fe Y i j = (i == j)%:R.
  move=> Hi Hj Mi; rewrite -(E1 i j Hi Hj) (sum_only Hi) ?(negbTE Mi) ?eqxx ?mul1r // => l _ /negbTE.
  by rewrite eq_sym => ->; rewrite mul0r.
have R2' i j : (i < d)%N -> (j < d)%N -> j \notin ix -> fe Y i j = (i == j)%:R.
  move=> Hi Hj Mj; rewrite -(E2 i j Hi Hj) (sum_only Hj) ?(negbTE Mj) ?andbF ?eqxx ?mulr1 // => l _ /negbTE.
  by rewrite andbF => ->; rewrite mulr0.
have EY : meq Y (emb d ix 1 Z).
  split=> //= i j; rewrite y1 y2 => Hi Hj; case: (boolP (i \in ix)) => Mi /=; last by rewrite R1' //; case: eqP.
  case: (boolP (j \in ix)) => Mj /=; last by rewrite R2' //; case: eqP.
  by rewrite !nth_index.
have back (V : fmat RR) : fr V = g -> fc V = g -> meq (emb d ix 1 V) (fid RR d) -> meq V (fid RR g).
  move=> v1 v2 [_ _ H]; split=> // a b; rewrite v1 v2 => Ha Hb.
  have := H (nth 0%N ix a) (nth 0%N ix b) (Lt a Ha) (Lt b Hb); rewrite /= !Nin //= !index_uniq // => ->.
  by rewrite nth_uniq.
exists Z; split=> //; apply: back => //=.
  have := emb_mul 1 1 x1 x2 (erefl : fr Z = g) (erefl : fc Z = g); rewrite mulr1 => H; apply: meq_trans (meq_sym H) _.
  apply: meq_trans (meq_fmul (meq_refl _) (meq_sym EY) _) _ => //; split=> //= i j; rewrite y2; exact: E1.
have := emb_mul 1 1 (erefl : fr Z = g) (erefl : fc Z = g) x1 x2; rewrite mulr1 => H; apply: meq_trans (meq_sym H) _.
by apply: meq_trans (meq_fmul (meq_sym EY) (meq_refl _) _) _ => //; split=> //= i j; rewrite ?y1 ?y2; exact: E2.
Qed.
Section Groups.
Variables As hs As' hs' : seq (fmat RR).
Hypotheses (SA : forall B, List.In B As -> fr B = g /\ fc B = g) (Sh : forall B, List.In B hs -> fr B = g /\ fc B = g).
Hypotheses (HA : forall B', List.In B' As' -> exists2 B, List.In B As & meq B' (emb d ix 0 B))
           (HA' : forall B, List.In B As -> exists2 B', List.In B' As' & meq B' (emb d ix 0 B))
           (Hh : forall B', List.In B' hs' -> exists2 B, List.In B hs & meq B' (emb d ix 1 B))
           (Hh' : forall B, List.In B hs -> exists2 B', List.In B' hs' & meq B' (emb d ix 1 B)).
Lemma emb_lin c (X Y : fmat RR) : fr X = g -> fc X = g -> fr Y = g -> fc Y = g ->
  meq (fadd (fscale c (emb d ix 0 X)) (emb d ix 0 Y)) (emb d ix 0 (fadd (fscale c X) Y)).
Proof. by move=> x1 x2 y1 y2; split=> //= i j Hi Hj; case: ifP => // _; rewrite if_same mulr0 addr0. Qed.
Lemma emb_br (X Y : fmat RR) : fr X = g -> fc X = g -> fr Y = g -> fc Y = g ->
  meq (fsub (fmul (emb d ix 0 X) (emb d ix 0 Y)) (fmul (emb d ix 0 Y) (emb d ix 0 X))) (emb d ix 0 (fsub (fmul X Y) (fmul Y X))).
Proof.
move=> x1 x2 y1 y2; split=> // i j Hi Hj.
have [_ _ E1] := emb_mul 0 0 x1 x2 y1 y2; have [_ _ E2] := emb_mul 0 0 y1 y2 x1 x2.
rewrite -[LHS]/(fe (fmul (emb d ix 0 X) (emb d ix 0 Y)) i j - fe (fmul (emb d ix 0 Y) (emb d ix 0 X)) i j) E1 // E2 //=.
by rewrite mul0r; case: ifP => // _; rewrite if_same subrr.
Qed.
Lemma span_emb B' : lie_span As' B' -> exists2 B, lie_span As B & [/\ fr B = g, fc B = g & meq B' (emb d ix 0 B)].
Proof.
elim=> {B'} [B' X /HA[B HB EB] E|c X Y Z _ [B LB [b1 b2 EB]] _ [C LC [c1 c2 EC]] E|X Y Z _ [B LB [b1 b2 EB]] _ [C LC [c1 c2 EC]] E].
- by exists B; [exact: LS_gen HB (meq_refl _) | have [h1 h2] := SA HB; split=> //; apply: meq_trans E EB].
- exists (fadd (fscale c B) C); first exact: LS_lin LB LC (meq_refl _).
  split=> //; apply: meq_trans E _; apply: meq_trans (emb_lin _ b1 b2 c1 c2).
  have [x1 x2 x3] := EB; have [y1 y2 y3] := EC; split=> //= i j Hi Hj; by rewrite x3 // y3 // ?y1 ?y2 -?x1 -?x2.
exists (fsub (fmul B C) (fmul C B)); first exact: LS_br LB LC (meq_refl _).
have [x1 x2 _] := EB; have [y1 y2 _] := EC.
split=> //; apply: meq_trans E _; apply: meq_trans (emb_br b1 b2 c1 c2).
have F1 : meq (fmul X Y) (fmul (emb d ix 0 B) (emb d ix 0 C)) by apply: meq_fmul => //; rewrite x2 y1.
have F2 : meq (fmul Y X) (fmul (emb d ix 0 C) (emb d ix 0 B)) by apply: meq_fmul => //; rewrite x1 y2.
have [p1 p2 p3] := F1; have [q1 q2 q3] := F2; split=> // i j Hi Hj.
by rewrite -[LHS]/(fe (fmul X Y) i j - fe (fmul Y X) i j) p3 // q3 // ?q1 ?q2 -?p1 -?p2.
Qed.
Lemma span_emb' B : lie_span As B -> [/\ fr B = g, fc B = g & lie_span As' (emb d ix 0 B)].
Proof.
elim=> {B} [B X HB E|c X Y Z _ [x1 x2 LX] _ [y1 y2 LY] E|X Y Z _ [x1 x2 LX] _ [y1 y2 LY] E].
- have [b1 b2] := SA HB; have [e1 e2 _] := E; split; rewrite ?e1 ?e2 //; have [B' HB' EB'] := HA' HB.
  apply: LS_gen HB' _; apply: meq_trans (meq_sym EB'); apply: emb_meq => //; by rewrite ?e1 ?e2.
- have [e1 e2 _] := E; rewrite /= x1 in e1; rewrite /= x2 in e2; split=> //; apply: (LS_lin (c := c) LX LY).
  by apply: meq_trans (emb_meq 0 e1 e2 E) _; apply: meq_sym; exact: emb_lin.
have [e1 e2 _] := E; rewrite /= x1 in e1; rewrite /= y2 in e2; split=> //; apply: (LS_br LX LY).
by apply: meq_trans (emb_meq 0 e1 e2 E) _; apply: meq_sym; exact: emb_br.
Qed.
Lemma in_emb X : in_group d As' hs' X <-> exists2 Y, in_group g As hs Y & meq X (emb d ix 1 Y).
Proof.
split.
  elim=> {X} [X E|h' X /Hh[h Hi Eh] E|B' X /span_emb[B LB [b1 b2 EB]] HE|X Y Z _ [X0 GX EX] _ [Y0 GY EY] E|X Y _ [X0 GX EX] y1 y2 E1 E2].
  - by exists (fid RR g); [exact: I_one | apply: meq_trans E (meq_sym emb_id)].
  - by exists h; [exact: I_gen Hi (meq_refl _) | apply: meq_trans E Eh].
  - have HX : is_exp g B (expm g B R1).
      apply: is_exp_meq (expm_is b2 R1) => //; split=> //= i j _ _; by rewrite -[R1]/(1 : RR) mul1r.
    exists (expm g B R1); first exact: I_exp LB HX.
    have H2 := emb_exp b1 b2 HX; have [e1 e2 _] := EB.
    by apply: is_exp_uniq HE _; apply: is_exp_meq H2 => //; exact: meq_sym.
  - have [x1 x2] := in_sqn Sh GX; have [y1 y2] := in_sqn Sh GY; have [ex1 ex2 _] := EX; have [ey1 ey2 _] := EY.
    exists (fmul X0 Y0); first exact: I_mul GX GY (meq_refl _).
    apply: meq_trans E _; apply: meq_trans (meq_fmul EX EY (etrans ex2 (esym ey1))) _.
    by have := emb_mul 1 1 x1 x2 y1 y2; rewrite mulr1.
  have [x1 x2] := in_sqn Sh GX; have [ex1 ex2 _] := EX.
  have [||Z [z1 z2 F1 F2 EZ]] := emb_inv x1 x2 y1 y2.
  - by apply: meq_trans (meq_fmul (meq_sym EX) (meq_refl _) _) E1; rewrite y1.
  - by apply: meq_trans (meq_fmul (meq_refl _) (meq_sym EX) _) E2; rewrite y2.
  by exists Z => //; exact: I_inv GX z1 z2 F1 F2.
move=> [Y G E]; elim: G X E => {Y} [Y EY|h Y Hi EY|B Y LB HE|X0 Y0 Z GX IX GY IY EZ|X0 Y GX IX y1 y2 E1 E2] X E.
- have [e1 e2 _] := EY; apply: I_one; apply: meq_trans E _; apply: meq_trans emb_id; exact: emb_meq.
- have [h1 h2] := Sh Hi; have [e1 e2 _] := EY; have [h' Hi' Eh'] := Hh' Hi; apply: I_gen Hi' _.
  apply: meq_trans E _; apply: meq_trans (meq_sym Eh'); apply: emb_meq => //; by rewrite ?e1 ?e2.
- have [b1 b2 LB'] := span_emb' LB; apply: I_exp LB' _; apply: is_exp_meq (emb_exp b1 b2 HE) => //; exact: meq_sym.
- have [x1 x2] := in_sqn Sh GX; have [y1 y2] := in_sqn Sh GY; have [e1 e2 _] := EZ; rewrite /= x1 in e1; rewrite /= y2 in e2.
  apply: (I_mul (IX _ (meq_refl _)) (IY _ (meq_refl _))); apply: meq_trans E _.
  have := emb_mul 1 1 x1 x2 y1 y2; rewrite mulr1 => H; apply: meq_trans (emb_meq 1 e1 e2 EZ) _; exact: meq_sym.
have [x1 x2] := in_sqn Sh GX; have [e1 e2 _] := E.
have Q (V W : fmat RR) : fr V = g -> fc V = g -> fr W = g -> fc W = g -> meq (fmul V W) (fid RR g) ->
  meq (fmul (emb d ix 1 V) (emb d ix 1 W)) (fid RR d).
  move=> v1 v2 w1 w2 H; have := emb_mul 1 1 v1 v2 w1 w2; rewrite mulr1 => H2.
  by apply: meq_trans H2 _; apply: meq_trans emb_id; apply: emb_meq.
apply: (I_inv (IX _ (meq_refl _))) => //.
  by apply: meq_trans (meq_fmul (meq_refl _) E _) (Q _ _ x1 x2 y1 y2 E1); rewrite e1.
by apply: meq_trans (meq_fmul E (meq_refl _) _) (Q _ _ y1 y2 x1 x2 E2); rewrite e2.
Qed.
End Groups.
End Emb.

Lemma nth_In (T : Type) (x0 : T) l x : List.In x l -> exists2 k, (k < size l)%N & nth x0 l k = x.
Proof. by elim: l => //= y l IH [->|/IH[k Hk E]]; [exists 0%N | exists k.+1]. Qed.
Section Ctors.
Variables (conj : RR -> RR) (recip : nat -> RR) (close : seq RR -> seq RR -> bool).
Lemma exact_embed G d sl ix g k1 k2 : arrays id G g k1 k2 -> (0 < k1 + k2)%N -> slice_ix d sl = Ok ix -> size ix = g ->
  exists2 G', g_embed conj id close G d sl = Ok G' & g_d G' = Some d /\
    forall X, in_group d (lmats G') (gmats G') X <-> exists2 Y, in_group g (lmats G) (gmats G) Y & meq X (emb d ix 1 Y).
Proof.
move=> HG K Ei Si; have [G' EG [Hd S1 S2 [H1 H2]]] := embed_ok conj close HG K Ei Si; exists G' => //; split=> // X.
have [U A] := slice_ok Ei; subst g.
have [la [ha [El Eh Al Ah _]]] := HG.
have SM k (b : nd RR) : arr3 k (size ix) b -> size (map (@den RR) (gitems (GArr b))) = k by move=> Bb; rewrite [LHS]size_map; exact: size_item Bb.
have L1 : size (lmats G) = k1 by rewrite /lmats El; exact: SM.
have L2 : size (gmats G) = k2 by rewrite /gmats Eh; exact: SM.
have Q k (b : nd RR) B : arr3 k (size ix) b -> List.In B (map (@den RR) (gitems (GArr b))) -> fr B = size ix /\ fc B = size ix.
  by move=> Bb /(nth_In (fzero RR 0 0)) [t Ht <-]; rewrite (SM _ _ Bb) in Ht; exact: den_item_sz Bb Ht.
apply: (in_emb U A) => [B|B|B'|B|B'|B].
- by rewrite /lmats El; exact: Q Al.
- by rewrite /gmats Eh; exact: Q Ah.
- move/(nth_In (fzero RR 0 0)) => [t Ht <-]; rewrite S1 in Ht; exists (nth (fzero RR 0 0) (lmats G) t).
    by apply: In_nth; rewrite L1.
  by apply: acts_emb => //; exact: H1.
- move/(nth_In (fzero RR 0 0)) => [t Ht <-]; rewrite L1 in Ht; exists (nth (fzero RR 0 0) (lmats G') t).
    by apply: In_nth; rewrite S1.
  by apply: acts_emb => //; exact: H1.
- move/(nth_In (fzero RR 0 0)) => [t Ht <-]; rewrite S2 in Ht; exists (nth (fzero RR 0 0) (gmats G) t).
    by apply: In_nth; rewrite L2.
  by apply: acts_emb => //; exact: H2.
move/(nth_In (fzero RR 0 0)) => [t Ht <-]; rewrite L2 in Ht; exists (nth (fzero RR 0 0) (gmats G') t).
  by apply: In_nth; rewrite S2.
by apply: acts_emb => //; exact: H2.
Qed.
Lemma exact_scaling n : (0 < n)%N -> exact_group (g_scaling conj close n) n (fun X => exists2 c : RR, Rlt R0 c & meq X (fscale c (fid RR n))).
Proof.
case: n => // n _; apply: (built_exact (scaling_ok conj close n.+1)); rewrite no_items -/(mats _) => HA _ X.
have F := filled_next (eye_filled RR n.+1); have [h Hi Eh] := layers_in F erefl (ltn0Sn 0).
have S1 : size (mats (eye1 RR n.+1)) = 1%N by [].
case: (mats _) S1 Hi => [|a [|]] // _ [->|//]; apply: scal_iff; apply: meq_trans Eh _; by split.
Qed.
Lemma exact_parity : exact_group (g_parity conj close) 4 (fun X => meq X (fid RR 4) \/ meq X (minkowski RR 4)).
Proof.
have [h Eh B] := parity_ok conj close; apply: (built_exact B); rewrite no_items -/(mats h) => _ Hh X; rewrite in_words.
have [g Eg Mg] : exists2 g, mats h = [:: g] & meq g (minkowski RR 4).
  move: Eh; rewrite /put /= => -[<-]; eexists; first by [].
  by split=> // i j; case: i => [|[|[|[|]]]] //; case: j => [|[|[|[|]]]] //= _ _; rewrite ?mulr0n ?oppr0.
have [g1 g2 _] := Mg; rewrite Eg words_two //.
  split=> [H|[_ _ H]].
    split; try by case: H => -[-> -> _].
    by case: H => H; [left | right; apply: meq_trans H Mg].
  by case: H => H; [left | right; apply: meq_trans H (meq_sym Mg)].
apply: meq_trans (meq_fmul Mg Mg (etrans g2 (esym g1))) _; split=> //= i j Hi Hj.
rewrite (sum_only Hi) ?eqxx; last by move=> l _ /negbTE; rewrite eq_sym => ->; rewrite mul0r.
by case: (i =P j) => [->|_]; [case: ifP; rewrite ?mulrNN mulr1 | rewrite mulr0].
Qed.
Lemma exact_time : exact_group (g_time conj close) 4 (fun X => meq X (fid RR 4) \/ meq X (fopp (minkowski RR 4))).
Proof.
have [h Eh B] := time_ok conj close; apply: (built_exact B); rewrite no_items -/(mats h) => _ Hh X; rewrite in_words.
have [g Eg Mg] : exists2 g, mats h = [:: g] & meq g (fopp (minkowski RR 4)).
  move: Eh; rewrite /put /= => -[<-]; eexists; first by [].
  split=> // i j; case: i => [|[|[|[|]]]] //; case: j => [|[|[|[|]]]] //= _ _; by rewrite ?oppr0 ?opprK.
have [g1 g2 _] := Mg; rewrite Eg words_two //.
  split=> [H|[_ _ H]].
    split; try by case: H => -[-> -> _].
    by case: H => H; [left | right; apply: meq_trans H Mg].
  by case: H => H; [left | right; apply: meq_trans H (meq_sym Mg)].
apply: meq_trans (meq_fmul Mg Mg (etrans g2 (esym g1))) _; split=> //= i j Hi Hj.
rewrite (sum_only Hi) ?eqxx; last by move=> l _ /negbTE; rewrite eq_sym => ->; rewrite oppr0 mul0r.
by case: (i =P j) => [->|_]; [rewrite mulrNN; case: ifP; rewrite ?mulrNN mulr1 | rewrite oppr0 mulr0].
Qed.
Lemma exact_so2er3 : exact_group (g_so2er3 conj id close) 3
  (fun X => exists Y, [/\ fr Y = 2%N, fc Y = 2%N, isometry (fid RR 2) Y, fdet 2 Y = 1 & meq X (plane Y)]).
Proof.
have [G EG [Gd H]] := @exact_so conj close 2 isT; rewrite /g_so2er3 EG bindOk.
have AG : arrays id G 2 1 0.
  have [a E [G0 EG0 [_ El Eg _]]] := @so_ok _ conj close 2 isT; move: EG0; rewrite EG => -[?]; subst G0.
  have [a' E' F] := so_filled RR 2; move: E'; rewrite E => -[?]; subst a'.
  by exists a; eexists; split; [exact: El | exact: Eg | exact: (filled_arr3 F) | |].
have [G' -> [d' H']] := @exact_embed G 3 (s_upto 2) [:: 0; 1]%N 2 1 0 AG isT erefl erefl; exists G' => //; split=> // X.
rewrite H'; split=> [[Y /H[y1 y2 [O D]] E]|[x1 x2 [Y [y1 y2 O D E]]]].
  by have [e1 e2 _] := E; split=> //; exists Y.
by exists Y => //; apply/H.
Qed.
Lemma exact_o2er3 : exact_group (g_o2er3 conj id close) 3
  (fun X => exists Y, [/\ fr Y = 2%N, fc Y = 2%N, isometry (fid RR 2) Y & meq X (plane Y)]).
Proof.
have [G EG [Gd H]] := @exact_o conj close 2 isT; rewrite /g_o2er3 EG bindOk.
have AG : arrays id G 2 1 1.
  have [a [h [E Eh [G0 EG0 [_ El Eg _]]]]] := @o_ok _ conj close 1; move: EG0; rewrite EG => -[?]; subst G0.
  have [a' E' F] := so_filled RR 2; move: E'; rewrite E => -[?]; subst a'.
  have [h' E' F'] := put_eye RR 1; move: E'; rewrite Eh => -[?]; subst h'.
  by exists a, h; split=> //; [exact: (filled_arr3 F) | exact: (filled_arr3 F')].
have [G' -> [d' H']] := @exact_embed G 3 (s_upto 2) [:: 0; 1]%N 2 1 1 AG isT erefl erefl; exists G' => //; split=> // X.
rewrite H'; split=> [[Y /H[y1 y2 O] E]|[x1 x2 [Y [y1 y2 O E]]]].
  by have [e1 e2 _] := E; split=> //; exists Y.
by exists Y => //; apply/H.
Qed.
Lemma exact_dker3 k : (0 < k)%N -> exact_group (g_dker3 conj id cosR sinR close k) 3
  (fun X => exists2 j, (j < k)%N & meq X (plane (rot (Rmult (INR j) (Rdiv (Rmult 2 PI) (INR k))))) \/
                                   meq X (plane (ref (Rmult (INR j) (Rdiv (Rmult 2 PI) (INR k)))))).
Proof.
move=> k0; have [G EG [Gd H]] := @exact_d conj close k k0; rewrite /g_dker3 EG bindOk.
have AG : arrays id G 2 0 2.
  have [G0 EG0 [_ El Eg _]] := d_ok conj cosR sinR close k0; move: EG0; rewrite EG => -[?]; subst G0.
  by eexists; eexists; split; [exact: El | exact: Eg | | | ].
have [G' -> [d' H']] := @exact_embed G 3 (s_upto 2) [:: 0; 1]%N 2 0 2 AG isT erefl erefl; exists G' => //; split=> // X.
rewrite H'; split=> [[Y /H[y1 y2 [j Hj HY]] E]|[x1 x2 [j Hj HX]]].
  have [e1 e2 _] := E; split=> //; exists j => //.
  case: HY => HY; [left | right]; apply: meq_trans E _; exact: emb_meq.
case: HX => HX; [exists (rot (Rmult (INR j) (Rdiv (Rmult 2 PI) (INR k)))) | exists (ref (Rmult (INR j) (Rdiv (Rmult 2 PI) (INR k))))] => //;
  apply/H; split=> //; exists j => //; [left | right]; exact: meq_refl.
Qed.
End Ctors.
