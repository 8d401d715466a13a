(** * NnUni: uniform_rep. *)
From mathcomp Require Import all_ssreflect all_algebra.
From mathcomp Require Import zify.
From Verif Require Import Np NpLemmas Spec SpecLemmas LinOp LinOpSpec Rep RepSpec RepMat RepWf RepFun RepAlg RepMul RepOps RepThm RepThm1 Nn NnSpec NnBil.
Set Implicit Arguments.
Unset Strict Implicit.
Unset Printing Implicit Defensive.

(** ** lambertW *)
Lemma lambert_loopP d ch : 0 < d -> forall fuel k, ch <= k + fuel ->
  exists k', [/\ lambert_loop fuel ch d k = Some k', k <= k',
    ch < k'.+1 * d ^ k' & forall j, k <= j -> j < k' -> j.+1 * d ^ j <= ch].
Proof.
move=> d0; have P j : j < j.+1 * d ^ j by rewrite (leq_trans (ltnSn j)) // leq_pmulr // expn_gt0 d0.
elim=> [|f IH] k H /=; case: leqP => L.
- by have := leq_trans (P k) (leq_trans L H); rewrite addn0 ltnn.
- by exists k; split=> // j Hj Hk; rewrite ltnNge Hj in Hk.
- have [|k' [E h1 h3 h4]] := IH k.+1; first by rewrite addSnnS.
  exists k'; split=> //; first exact: ltnW.
  by move=> j Hj Hj'; case: (eqVneq k j) => [<-//|N]; apply: h4 => //; rewrite ltn_neqAle N.
by exists k; split=> // j Hj Hk; rewrite ltnNge Hj in Hk.
Qed.
(** the least k with (k+1) d^k > ch *)
Lemma lambertP d ch fuel : 0 < d -> ch <= fuel -> exists k, [/\ lambertW1 fuel ch d = Some k,
    ch < k.+1 * d ^ k & forall j, j < k -> j.+1 * d ^ j <= ch].
Proof. by move=> d0 H; have [k [E _ h1 h2]] := @lambert_loopP d ch d0 fuel 0 H; exists k; split=> // j; exact: h2. Qed.
Lemma lambert_mono d ch ch' k k' : ch' <= ch -> ch < k.+1 * d ^ k -> (forall j, j < k' -> j.+1 * d ^ j <= ch') -> k' <= k.
Proof. by move=> Hc Hk Hj; rewrite leqNgt; apply/negP=> L; have := leq_trans (Hj k L) Hc; rewrite leqNgt Hk. Qed.
(** a group of dimension 0 *)
Lemma lambert0 ch fuel : 0 < ch -> lambertW1 fuel ch 0 = None.
Proof.
move=> c0; rewrite /lambertW1; case: fuel => [|f] /=; rewrite expn0 muln1 c0 //.
suff H k : lambert_loop f ch 0 k.+1 = None by exact: H.
by elim: f k => [|f IH] k /=; rewrite exp0n // muln0 /= ?IH.
Qed.

(** ** the while loop *)
Definition total (d : nat) (Ns : seq nat) : nat := \sum_(0 <= r < size Ns) nth 0 Ns r * d ^ r.
Lemma bumpP k d Ns : 0 < k -> k <= size Ns -> exists2 Ns', bump k d Ns = Ok Ns' &
  [/\ size Ns' = size Ns, total d Ns' = total d Ns + k * d ^ k.-1 & (0 < d -> 0 < nth 0 Ns' 0)].
Proof.
move=> k0 Hk; rewrite /bump Hk; eexists; first by []; rewrite size_mkseq; split=> //; last first.
  by move=> d0; rewrite nth_mkseq ?(leq_trans k0 Hk) // ?k0 subn0 addn_gt0 expn_gt0 d0 orbT.
rewrite /total size_mkseq (eq_big_nat _ _ (F2 := fun r => nth 0 Ns r * d ^ r + (if r < k then d ^ k.-1 else 0))); last first.
  move=> r /andP[_ Hr]; rewrite nth_mkseq // mulnDl; congr (_ + _); case: ltnP => // Hrk.
  by rewrite -expnD subnK // -ltnS prednK.
rewrite big_split /=; congr (_ + _).
rewrite (big_cat_nat _ (n := k)) //= [X in _ + X]big_nat_cond [X in _ + X]big1 ?addn0; last first.
  by move=> r /andP[/andP[Hr _] _]; rewrite ltnNge Hr.
rewrite (eq_big_nat _ _ (F2 := fun=> d ^ k.-1)) ?sum_nat_const_nat ?subn0 //.
by move=> r /andP[_ ->].
Qed.
Lemma alloc_loopP d K : 0 < d -> forall fuel lfuel ch Ns, ch <= fuel -> ch <= lfuel -> size Ns = K -> ch < K.+1 * d ^ K ->
  exists2 Ns', alloc_loop fuel lfuel ch d Ns = Some (Ok Ns') &
  [/\ size Ns' = K, total d Ns' = total d Ns + ch & (0 < ch) || (0 < nth 0 Ns 0) -> 0 < nth 0 Ns' 0].
Proof.
move=> d0; elim=> [|f IH] lf [|ch] Ns //= Hf Hl S HK; try by exists Ns => //; rewrite addn0; split.
have [k [-> h1 h2]] := lambertP d0 Hl.
have k0 : 0 < k by case: k h1 {h2} => //; rewrite expn0 muln1 ltnS.
have Hk : k <= size Ns by rewrite S; apply: lambert_mono (leqnn _) HK h2.
have [Ns1 -> [S1 T1 Z1]] := bumpP d k0 Hk.
have C : k * d ^ k.-1 <= ch.+1 by have := h2 k.-1; rewrite prednK // => -> //.
have C1 : 0 < k * d ^ k.-1 by rewrite muln_gt0 k0 expn_gt0 d0.
have D : ch.+1 - k * d ^ k.-1 <= ch by rewrite leq_subLR; move: C1; move: (k * _); lia.
have [||||Ns' -> [S' T' Z']] := IH lf (ch.+1 - k * d ^ k.-1) Ns1.
- exact: leq_trans D Hf.
- exact: leq_trans D (ltnW Hl).
- by rewrite S1.
- by apply: leq_ltn_trans HK; apply: leq_subr.
exists Ns' => //; split=> //; last by move=> _; apply: Z'; rewrite Z1 ?orbT.
by rewrite T' T1 -addnA subnKC.
Qed.

(** ** sums of representations *)
Section Val.
Variables (gdim : gid -> nat) (gorth : gid -> bool) (csize : nat -> gid -> nat) (le : rel rep) (g : gid).
Local Notation gs := (pred1 g).
Local Notation sz := (rsize gdim csize).
Local Notation key := (key gdim csize le gs).
Local Notation wfr := (wfr gdim csize le gs).
Local Notation add_val := (add_val gdim csize le).
Local Notation mul_val := (mul_val gdim csize le).
Local Notation sum_vals := (sum_vals gdim csize le).
Local Notation T_val := (T_val gdim gorth csize le).
Local Notation d := (gdim g).
Hypothesis O : total_order_on key le.
Hypothesis G0 : 0 < gdim g.
Hypothesis C0 : forall c, 0 < csize c g.

(** v is the number 0 or a representation of size s, a SumRep if it has n >= 2 summands *)
Definition good (v : val) (s n : nat) : Prop :=
  match v with
  | VInt z => [/\ z = 0%R, s = 0 & n = 0]
  | VRep r => [/\ wfr r, sz r = s, 0 < n & (1 < n -> is_sum r)]
  end.
Lemma good_add v w s n s' n' : good v s n -> good w s' n' -> exists2 u, add_val v w = Ok u & good u (s + s') (n + n').
Proof.
case: v w => [z|r] [z'|r'] /=.
- by case=> -> -> -> [-> -> ->]; exists (VInt 0).
- by case=> -> -> -> [*]; exists (VRep r').
- by case=> h1 h2 h3 h4 [-> -> ->]; exists (VRep r); rewrite ?addn0.
case=> h1 h2 h3 h4 [k1 k2 k3 k4].
have [x [E W S]] := add_size O h1 k1; rewrite E /=; exists (VRep x) => //; split=> //.
- by move: S; rewrite (size_py_ok W) h2 k2 => -[].
- by rewrite addn_gt0 h3.
by move=> _; move: E; rewrite /add /both_concrete (concrete_wfr h1) (concrete_wfr k1) /=; apply: sum_rep_sum.
Qed.
Lemma good_sum (l : seq (val * (nat * nat))) : (forall x, List.In x l -> good x.1 x.2.1 x.2.2) ->
  forall v s n, good v s n -> exists2 u, foldM add_val v [seq x.1 | x <- l] = Ok u &
    good u (s + sumn [seq x.2.1 | x <- l]) (n + sumn [seq x.2.2 | x <- l]).
Proof.
elim: l => [|x l IH] H v s n Hv /=; first by exists v; rewrite ?addn0.
have [|w -> Hw] := good_add Hv (H x _); first by left.
have [|u E Hu] := IH _ w _ _ Hw; first by move=> y Hy; apply: H; right.
by exists u => //; rewrite !addnA.
Qed.
(** sum([f(x) for x in l]) *)
Lemma good_sum_map (T : eqType) (f : T -> res val) (s n : T -> nat) (l : seq T) :
  (forall x, x \in l -> exists2 v, f x = Ok v & good v (s x) (n x)) ->
  exists2 u, (do vs <- mapM f l; sum_vals vs) = Ok u & good u (sumn (map s l)) (sumn (map n l)).
Proof.
move=> H; have : exists2 vs, mapM f l = Ok [seq x.1 | x <- vs] & [/\ (forall x, List.In x vs -> good x.1 x.2.1 x.2.2),
    [seq x.2.1 | x <- vs] = map s l & [seq x.2.2 | x <- vs] = map n l].
  elim: l H => [|x l IH] H; first by exists [::].
  have [|vs E [h1 h2 h3]] := IH; first by move=> y Hy; apply: H; rewrite inE Hy orbT.
  have [v Ev Hv] := H x (mem_head _ _).
  exists ((v, (s x, n x)) :: vs); first by rewrite /mapM /= -/(mapM f l) Ev /= E.
  by split; rewrite /= ?h2 ?h3 // => y [<-|/h1].
case=> vs -> [h1 h2 h3] /=.
have [|u E Hu] := @good_sum vs h1 (VInt 0) 0 0; first by [].
by exists u => //; move: Hu; rewrite h2 h3 !add0n.
Qed.
Lemma good_mul n (r : rep) : wfr r -> exists2 u, mul_val (VInt (Posz n)) (VRep r) = Ok u & good u (n * sz r) n.
Proof.
move=> W; case: n => [|n]; first by exists (VInt 0).
pose at0 k := fid int_comRing (sz k).
have [r' E [h1 h2 _]] := @mul_int_ok gdim csize le gs O int_comRing at0 (fun k _ => Logic.conj erefl erefl) r n.+1 W isT.
exists (VRep r') => //; split=> //.
case: n E {h2} => [|n] //=; rewrite (concrete_wfr W) => E _.
by move: E; case E1 : (sum_rep _ _ _ _ _) => [x|] //= [<-]; apply: sum_rep_sum E1.
Qed.
Lemma good_T p q : exists2 r, T_val p q g = Ok (VRep r) & wfr r /\ sz r = d ^ (p + q).
Proof.
have [r [E W S]] := @tensorT_size gdim gorth csize le g p q O G0 C0.
by exists r; rewrite /Nn.T_val ?E //; split=> //; move: S; rewrite (size_py_ok W) => -[].
Qed.

Lemma sum_binom n : sumn [seq 'C(n, k) | k <- iota 0 n.+1] = 2 ^ n.
Proof.
rewrite sumnE big_map -[iota 0 n.+1]/(index_iota 0 n.+1) -[2 ^ n]/((1 + 1) ^ n) Pascal big_mkord.
by apply: eq_bigr => i _; rewrite !exp1n !muln1.
Qed.
Lemma good_binomial draw N rank : draw_ok draw ->
  exists2 u, binomial_allocation gdim gorth csize le draw N rank g = Ok u & good u (N * d ^ rank) N.
Proof.
move=> HD; rewrite /binomial_allocation; case: eqP => [->|_]; first by exists (VInt 0).
have [|u1 E1 H1] := @good_sum_map _ (fun k => do t <- T_val k (rank - k) g; mul_val (VInt (Posz (N %/ 2 ^ rank * 'C(rank, k)))) t)
  (fun k => N %/ 2 ^ rank * 'C(rank, k) * d ^ rank) (fun k => N %/ 2 ^ rank * 'C(rank, k)) (iota 0 rank.+1).
  move=> k; rewrite mem_iota add0n ltnS => /andP[_ Hk]; have [r -> [W S]] := good_T k (rank - k).
  by have := good_mul (N %/ 2 ^ rank * 'C(rank, k)) W; rewrite S subnKC.
have [SD AD] := HD rank (N %% 2 ^ rank).
have [|u2 E2 H2] := @good_sum_map _ (fun p => T_val p (rank - p) g) (fun=> d ^ rank) (fun=> 1) (draw rank (N %% 2 ^ rank)).
  move=> p Hp; have [r -> [W S]] := good_T p (rank - p); exists (VRep r) => //; split=> //.
  by rewrite S subnKC //; exact: (allP AD).
have [u E H] := good_add H1 H2.
exists u.
  by move: E1 E2 E; case: (mapM _ _) => //= l1 ->; case: (mapM _ _) => //= l2 ->.
have B1 : sumn [seq N %/ 2 ^ rank * 'C(rank, k) | k <- iota 0 rank.+1] = N %/ 2 ^ rank * 2 ^ rank.
  by rewrite -sum_binom !sumnE !big_map big_distrr.
have B2 : sumn [seq N %/ 2 ^ rank * 'C(rank, k) * d ^ rank | k <- iota 0 rank.+1] = N %/ 2 ^ rank * 2 ^ rank * d ^ rank.
  by rewrite -B1 !sumnE !big_map big_distrl.
have B3 c (l : seq nat) : sumn [seq c | _ <- l] = size l * c by elim: l => //= _ l ->; rewrite mulSn.
by move: H; rewrite B1 B2 !B3 SD muln1 -mulnDl -divn_eq.
Qed.

Lemma zip_iota (l : seq nat) (f : nat -> nat -> nat) : forall i,
  sumn [seq f x.1 x.2 | x <- zip (iota i (size l)) l] = \sum_(0 <= r < size l) f (i + r) (nth 0 l r).
Proof.
elim: l => [|a l IH] i /=; first by rewrite big_geq.
by rewrite IH big_nat_recl // addn0; congr (_ + _); apply: eq_bigr => r _; rewrite addSnnS.
Qed.

(** uniform_rep terminates with a representation of size ch *)
Theorem uniform_rep_ok draw ch fuel : draw_ok draw -> 0 < ch -> ch <= fuel ->
  exists2 r, uniform_rep gdim gorth csize le fuel draw ch g = Some (Ok r) &
  [/\ wfr r, sz r = ch & if ch == 1 then r = RScalar else exists d', r = RSum d' (iota 0 ch)].
Proof.
move=> HD c0 Hf; rewrite /uniform_rep.
have [k [Ek h1 h2]] := lambertP G0 Hf; rewrite Ek.
have [|Ns EN [SN TN ZN]] := @alloc_loopP d k G0 fuel fuel ch (nseq k 0) Hf Hf _ h1; first by rewrite size_nseq.
rewrite EN.
have T0 : total d (nseq k 0) = 0 by rewrite /total big1 // => r _; rewrite nth_nseq if_same.
rewrite T0 add0n in TN; have {ZN}N0 : 0 < nth 0 Ns 0 by apply: ZN; rewrite c0.
have [|u E H] := @good_sum_map _ (fun x : nat * nat => binomial_allocation gdim gorth csize le draw x.2 x.1 g) (fun x => x.2 * d ^ x.1) (fun x => x.2) (zip (iota 0 (size Ns)) Ns).
  by move=> x _; exact: good_binomial.
move: E; case EM : (mapM _ _) => [l|//] /= E; rewrite E /=.
rewrite (zip_iota Ns (fun r n => n * d ^ r)) -[\sum_(_ <= _ < _) _]/(total d Ns) TN (zip_iota Ns (fun r n => n)) in H.
case: u E H => [z|r] E /=; first by case=> _ Z; rewrite Z in c0.
case=> W S _ Hs.
rewrite (canonicalizeE O W) /=; exists (canon gdim csize r) => //.
split; [exact: canon_wfr|by rewrite sz_canon|].
case: eqP => [c1|c1].
  have S1 : size Ns = 1.
    rewrite SN; apply/eqP; rewrite eqn_leq; apply/andP; split.
      by rewrite leqNgt; apply/negP=> K2; have := h2 1 K2; rewrite c1 expn1; move: G0; case: (d) => // n _; rewrite mulnS.
    by rewrite -SN; case: (Ns) N0.
  have N1 : Ns = [:: 1].
    by case: Ns S1 TN {N0 EN EM SN Hs} => [//|a [|//]] _; rewrite /total big_nat1 /= muln1 c1 => ->.
  have BA : binomial_allocation gdim gorth csize le draw 1 0 g = Ok (VRep RScalar).
    by rewrite /binomial_allocation -[2 ^ 0]/1 modn1; have [/size0nil -> _] := HD 0 0.
  by move: EM E; rewrite N1 /mapM [sequence _]/= BA => -[<-] [<-].
have : is_sum r.
  apply: Hs; rewrite -TN in c1 c0; move: c1 c0 N0; rewrite /total.
  case: Ns {EN EM SN TN} => [|a Ns] //=; rewrite !big_nat_recl //= muln1 => c1 c0 a0.
  rewrite ltnNge; apply/negP=> L.
  have [a1 Z] : a = 1 /\ \sum_(0 <= i < size Ns) nth 0 Ns i = 0 by move: (\sum_(_ <= _ < _) nth 0 Ns _) L => x; lia.
  apply: c1; rewrite a1; apply/eqP; rewrite eqSS; apply/eqP; rewrite big_nat_cond big1 // => r' /andP[Hr _].
  by move: Z; rewrite (bigD1_seq r') ?mem_index_iota ?iota_uniq //= => /eqP; rewrite addn_eq0 => /andP[/eqP -> _].
by case: r W S {Hs E} => // d' p' W S _; exists d'; rewrite /= -S.
Qed.

(** ch = 0 *)
Lemma uniform_rep0 draw fuel : uniform_rep gdim gorth csize le fuel draw 0 g = Some (Err AttributeError).
Proof. by rewrite /uniform_rep; case: fuel. Qed.
End Val.

(** dimension 0: no bound suffices *)
Lemma uniform_rep_loops gdim gorth csize le g draw ch fuel : gdim g = 0 -> 0 < ch ->
  uniform_rep gdim gorth csize le fuel draw ch g = None.
Proof. by move=> G0 c0; rewrite /uniform_rep G0 lambert0. Qed.
