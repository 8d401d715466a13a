(** * RepDist: distribute_product of two representations. *)
From mathcomp Require Import all_ssreflect all_algebra.
From mathcomp Require Import zify.
From Verif Require Import Np NpLemmas Spec LinOp SpecLemmas Rep RepMat RepWf RepProd RepAlg.
Set Implicit Arguments.
Unset Strict Implicit.
Unset Printing Implicit Defensive.
Import GRing.Theory.

(** coordinates x*m+y *)
Definition outerm (m : nat) (p q : seq nat) : seq nat := [seq x * m + y | x <- p, y <- q].

Lemma size_outerm m p q : size (outerm m p q) = size p * size q.
Proof. by rewrite size_allpairs. Qed.

Lemma nth_outerm m p q s : s < size p * size q ->
  nth 0 (outerm m p q) s = nth 0 p (s %/ size q) * m + nth 0 q (s %% size q).
Proof.
elim: p s => [|x p IH] s //= Hs.
rewrite nth_cat size_map; case: ltnP => H.
  by rewrite divn_small // modn_small //= (nth_map 0).
have Q0 : 0 < size q by case: (size q) Hs => //; rewrite muln0.
rewrite IH; last by move: Hs; rewrite mulSn -ltn_subLR.
rewrite -{3 4}(subnK H) divnDr // modnDr divnn Q0 addn1 //.
Qed.

Lemma outermE p q : outerm (size q) p q = outer p q. Proof. by []. Qed.

(** ** dist_order *)
Lemma sw0 (o : nd nat) m n x y : dims o = [:: m; n] -> x < m -> y < n ->
  get 0 (swapaxes 0 o 0 0) [:: x; y] = get 0 o [:: x; y].
Proof. by move=> D Hx Hy; rewrite /swapaxes D /= get_transpose /= D //= Hx Hy. Qed.
Lemma sw1 (o : nd nat) m n x y : dims o = [:: m; n] -> x < m -> y < n ->
  get 0 (swapaxes 0 o 0 1) [:: y; x] = get 0 o [:: x; y].
Proof. by move=> D Hx Hy; rewrite /swapaxes D /= get_transpose /= D //= Hx Hy. Qed.
Lemma dsw0 (o : nd nat) m n : dims o = [:: m; n] -> dims (swapaxes 0 o 0 0) = [:: m; n].
Proof. by move=> D; rewrite /= D. Qed.
Lemma dsw1 (o : nd nat) m n : dims o = [:: m; n] -> dims (swapaxes 0 o 0 1) = [:: n; m].
Proof. by move=> D; rewrite /= D. Qed.
Lemma tk2 (o : nd nat) m n p x y : dims o = [:: m; n] -> x < size p -> y < n ->
  get 0 (take_ax0 0 o p) [:: x; y] = get 0 o [:: nth 0 p x; y].
Proof. by move=> D Hx Hy; rewrite /take_ax0 D get_init //= Hx Hy. Qed.
Lemma dtk2 (o : nd nat) m n p : dims o = [:: m; n] -> dims (take_ax0 0 o p) = [:: size p; n].
Proof. by move=> D; rewrite /= D. Qed.

Lemma dist_order2 p q : is_perm (size p) p -> is_perm (size q) q -> dist_order [:: p; q] = outer p q.
Proof.
move=> P Q; rewrite /dist_order; set s := map size _; set o := ND s _.
have D0 : dims o = [:: size p; size q] by [].
rewrite [foldl _ _ _](_ : _ = 
   (fun o => swapaxes 0 (take_ax0 0 (swapaxes 0 o 0 1) q) 0 1)
   (swapaxes 0 (take_ax0 0 (swapaxes 0 o 0 0) p) 0 0)) //.
set o1 := swapaxes 0 _ 0 0.
have D1 : dims o1 = [:: size p; size q] by exact: dsw0 (dtk2 p (dsw0 D0)).
have G1 x y : x < size p -> y < size q -> get 0 o1 [:: x; y] = get 0 o [:: nth 0 p x; y].
  move=> Hx Hy; rewrite (sw0 (dtk2 p (dsw0 D0))) //.
  rewrite (tk2 (m := size p) (n := size q)) ?(dsw0 D0) // (sw0 D0) //.
  exact: is_perm_nth P _.
set o2 := swapaxes 0 _ 0 1.
have D2 : dims o2 = [:: size p; size q] by exact: dsw1 (dtk2 q (dsw1 D1)).
have G2 x y : x < size p -> y < size q -> get 0 o2 [:: x; y] = nth 0 p x * size q + nth 0 q y.
  move=> Hx Hy; rewrite (sw1 (dtk2 q (dsw1 D1))) //.
  rewrite (tk2 (m := size q) (n := size p)) ?(dsw1 D1) // (sw1 D1) //; last exact: is_perm_nth Q _.
  rewrite G1 //; last exact: is_perm_nth Q _.
  rewrite /get /= /arange nth_iota !muln1 !addn0 ?add0n //.
  by apply: idx_lt; [exact: is_perm_nth P _ | exact: is_perm_nth Q _].
have S2 : size (dat o2) = size p * size q.
  by rewrite /o2 /swapaxes /np_transpose size_nd_init -[map _ _]/(dims o2) D2 /= muln1.
apply: (@eq_from_nth _ 0); rewrite S2 ?size_outer // => t Ht.
have Q0 : 0 < size q by case: (size q) Ht => //; rewrite muln0.
rewrite nth_get ?D2 /= ?muln1 // divn1 G2 ?ltn_mod ?ltn_divLR //.
by rewrite -outermE nth_outerm.
Qed.

(** ** rep_permutation *)
Definition chunks (szs p : seq nat) : seq (seq nat) := seq.reshape szs p.
Definition pairs (T S U : Type) (f : T -> S -> U) (xs : seq T) (ys : seq S) : seq U :=
  [seq f x y | x <- xs, y <- ys].

Lemma perm_outerm_flatten m Xs Ys :
  perm_eq (flatten [seq outerm m X Y | X <- Xs, Y <- Ys]) (outerm m (flatten Xs) (flatten Ys)).
Proof.
elim: Xs => [|X Xs IH] //.
rewrite allpairs_cons flatten_cat [flatten (X :: Xs)]/= /outerm allpairs_cat.
apply: perm_cat IH; elim: Ys => [|Y Ys IH] /=; first by elim: (X).
rewrite perm_sym (@perm_allpairs_catr _ (fun _ => nat) _ (fun x y => x * m + y) X (fun _ => Y)).
by apply: perm_cat => //; rewrite perm_sym.
Qed.

Lemma flatten_chunks szs p : size p = sumn szs -> flatten (chunks szs p) = p.
Proof. by move=> S; rewrite /chunks reshapeKr // S. Qed.

Lemma nth_starts szs i : nth 0 (starts szs) i = if i <= size szs then sumn (take i szs) else 0.
Proof.
rewrite /starts; have gen a s j : j < size s -> nth 0 (cumsum_from a s) j = a + sumn (take j.+1 s).
  elim: s a j => [|x s IH] a [|j] //= Hj; first by rewrite take0 /= addn0.
  by rewrite IH // addnA.
have sz a s : size (cumsum_from a s) = size s by elim: s a => //= x s IH a; rewrite IH.
case: i => [|i] /=; first by rewrite take0.
case: ltnP => H; first by rewrite gen.
by rewrite nth_default // sz.
Qed.

Lemma nth_chunks szs n i : n = sumn szs -> i < size szs ->
  nth [::] (chunks szs (iota 0 n)) i = iota (nth 0 (starts szs) i) (nth 0 szs i).
Proof.
move=> -> Hi; rewrite nth_starts (ltnW Hi) /chunks.
suff gen a : nth [::] (seq.reshape szs (iota a (sumn szs))) i = iota (a + sumn (take i szs)) (nth 0 szs i).
  exact: gen.
elim: szs i a Hi => [|x s IH] [|i] a //= Hi.
  by rewrite addn0 take_iota (minn_idPl _) // leq_addr.
rewrite drop_iota addKn addnC [x + a]addnC IH // addnA //.
Qed.

Lemma starts_S szs i : i < size szs -> nth 0 (starts szs) i.+1 = nth 0 (starts szs) i + nth 0 szs i.
Proof.
by move=> H; rewrite !nth_starts H (ltnW H) (take_nth 0) // sumn_rcons.
Qed.

Section RepPerm.
Variables (sa sb : seq nat).
Let na := sumn sa.
Let nb := sumn sb.
Definition bl (ij : nat * nat) : seq nat :=
  outerm nb (nth [::] (chunks sa (iota 0 na)) ij.1) (nth [::] (chunks sb (iota 0 nb)) ij.2).
Definition inds : seq (nat * nat) := [seq (i, j) | i <- iota 0 (size sa), j <- iota 0 (size sb)].

Lemma cartesian2 : cartesian [seq iota 0 (size x) | x <- [:: sa; sb]] = [seq [:: ij.1; ij.2] | ij <- inds].
Proof.
rewrite /inds /cartesian /= map_allpairs /= ; congr flatten; apply: eq_map => i /=.
by elim: (iota _ _) => //= j l ->.
Qed.

Lemma bl_perm : perm_eq (flatten (map bl inds)) (iota 0 (na * nb)).
Proof.
have -> : map bl inds = [seq outerm nb X Y | X <- chunks sa (iota 0 na), Y <- chunks sb (iota 0 nb)].
  rewrite /inds map_allpairs /bl /=.
  have E (s : seq nat) n : chunks s (iota 0 n) = [seq nth [::] (chunks s (iota 0 n)) i | i <- iota 0 (size s)].
    by rewrite -{1}[chunks _ _](mkseq_nth [::]) /mkseq /chunks size_reshape.
  by rewrite [in RHS](E sa) [in RHS](E sb) allpairs_mapl allpairs_mapr.
apply: perm_trans (perm_outerm_flatten _ _ _) _.
rewrite !flatten_chunks ?size_iota //.
have -> : outerm nb (iota 0 na) (iota 0 nb) = outer (iota 0 na) (iota 0 nb).
  by rewrite -outermE size_iota.
by apply: outer_perm; apply: is_perm_iota.
Qed.

Lemma mem_bl i j x y : i < size sa -> j < size sb -> y < nb ->
  let lo1 := nth 0 (starts sa) i in let lo2 := nth 0 (starts sb) j in
  let c := [&& lo1 <= x, x < lo1 + nth 0 sa i, lo2 <= y & y < lo2 + nth 0 sb j] in
  ((x * nb + y \in bl (i, j)) = c) /\
  (c -> index (x * nb + y) (bl (i, j)) = (x - lo1) * nth 0 sb j + (y - lo2)).
Proof.
move=> Hi Hj Hy lo1 lo2 c.
have Bb : nth 0 (starts sb) j.+1 = lo2 + nth 0 sb j by apply: starts_S.
have Le2 : lo2 + nth 0 sb j <= nb.
  by rewrite -Bb nth_starts Hj /nb -[in X in _ <= X](cat_take_drop j.+1 sb) sumn_cat leq_addr.
have Ebl : bl (i, j) = outerm nb (iota lo1 (nth 0 sa i)) (iota lo2 (nth 0 sb j)).
  by rewrite /bl /= !nth_chunks.
have M : (x * nb + y \in bl (i, j)) = c.
  rewrite Ebl /c; apply/allpairsP/idP => [[[u v] /=]|].
    rewrite !mem_iota => -[/andP[U1 U2] /andP[V1 V2] E].
    have Hv : v < nb by apply: leq_trans V2 Le2.
    have E1 : x = u by have := congr1 (divn^~ nb) E; rewrite /= !idx_div.
    have E2 : y = v by have := congr1 (modn^~ nb) E; rewrite /= !idx_mod.
    by rewrite E1 E2 U1 U2 V1 V2.
  by case/and4P=> U1 U2 V1 V2; exists (x, y); rewrite !mem_iota U1 U2 V1 V2.
split=> // C; move: (C); rewrite /c => /and4P[U1 U2 V1 V2].
have Hx' : x - lo1 < nth 0 sa i by rewrite ltn_subLR.
have Hy' : y - lo2 < nth 0 sb j by rewrite ltn_subLR.
have Hs : (x - lo1) * nth 0 sb j + (y - lo2) < size (bl (i, j)).
  by rewrite Ebl size_outerm !size_iota; apply: idx_lt.
have UB : uniq (bl (i, j)).
  have := perm_uniq bl_perm; rewrite iota_uniq => U.
  have Hin : (i, j) \in inds by apply/allpairsP; exists (i, j); rewrite !mem_iota.
  move: U; case/splitPr: inds / Hin => l1 l2.
  by rewrite map_cat flatten_cat /= !cat_uniq => /and3P[_ _ /and3P[]].
rewrite -{1}[x * nb + y](_ : nth 0 (bl (i, j)) ((x - lo1) * nth 0 sb j + (y - lo2)) = _).
  by rewrite index_uniq.
rewrite Ebl nth_outerm ?size_iota; last by move: Hs; rewrite Ebl size_outerm !size_iota.
by rewrite idx_div // idx_mod // !nth_iota // !subnKC.
Qed.

Lemma rp_fold l P a i : dims a = [:: na; nb] ->
  {subset l <= inds} -> uniq (P ++ flatten (map bl l)) -> i = size P ->
  size (dat a) = na * nb ->
  (forall k, k < na * nb -> nth 0 (dat a) k = if k \in P then index k P else 0) ->
  let a' := (foldl (rp_step [:: sa; sb]) (a, i) [seq [:: ij.1; ij.2] | ij <- l]).1 in
  size (dat a') = na * nb /\
  forall k, k < na * nb -> nth 0 (dat a') k =
     if k \in P ++ flatten (map bl l) then index k (P ++ flatten (map bl l)) else 0.
Proof.
elim: l P a i => [|[i1 j1] l IH] P a i D Sub U Ei Sa H; first by rewrite /= cats0.
rewrite [map bl _]/= [flatten _]/= catA; set P' := P ++ bl (i1, j1).
have /allpairsP[[u v] /= [Hu Hv [Eu Ev]]] : (i1, j1) \in inds by apply: Sub; rewrite mem_head.
rewrite -Eu -Ev !mem_iota !add0n in Hu Hv.
have Ba : nth 0 (cumsum_from 0 sa) i1 = nth 0 (starts sa) i1 + nth 0 sa i1 by apply: (@starts_S sa).
have Bb : nth 0 (cumsum_from 0 sb) j1 = nth 0 (starts sb) j1 + nth 0 sb j1 by apply: (@starts_S sb).
rewrite [foldl _ _ _]/=; apply: IH.
- by rewrite /= D.
- by move=> x Hx; apply: Sub; rewrite inE Hx orbT.
- by rewrite -catA.
- rewrite /= Ba Bb !addKn muln1 /P' size_cat Ei /bl size_outerm !nth_chunks // !size_iota //.
- by rewrite size_nd_init D /= muln1.
move=> k Hk.
have B0 : 0 < nb by case: (nb) Hk => //; rewrite muln0.
rewrite nth_init ?D /= ?muln1 // divn1 /in_slices /= andbT Ba Bb.
have -> : get 0 a [:: k %/ nb; k %% nb] = nth 0 (dat a) k.
  by rewrite /get D /= !muln1 addn0 -divn_eq.
have [M1 M2] := @mem_bl i1 j1 (k %/ nb) (k %% nb) Hu Hv (ltn_pmod k B0).
rewrite -divn_eq in M1 M2.
rewrite H // mem_cat index_cat -andbA -M1.
case KP: (k \in P) => /=.
  have -> : (k \in bl (i1, j1)) = false; last by rewrite addn0.
  apply/negP=> KB; move: U; rewrite /= catA cat_uniq => /and3P[+ _ _].
  by rewrite cat_uniq => /and3P[_ /hasPn/(_ _ KB)]; rewrite /= KP.
case KB: (k \in bl (i1, j1)) => //=.
by rewrite add0n Ei M2 -?M1 // addKn ?muln1 ?addn0.
Qed.

Lemma rep_permutation2 : rep_permutation [:: sa; sb] = flatten (map bl inds).
Proof.
rewrite /rep_permutation cartesian2.
set a0 := ND _ _.
have U : uniq ([::] ++ flatten (map bl inds)) by rewrite /= (perm_uniq bl_perm) iota_uniq.
have [||S H] := @rp_fold inds [::] a0 0 erefl (fun x h => h) U erefl.
- by rewrite /= size_nseq muln1.
- by move=> k Hk; rewrite /= nth_nseq; case: ifP.
case: (foldl _ _ _) S H => a j /= S H.
have -> : dat a = argsort (flatten (map bl inds)).
  rewrite (argsort_index bl_perm); apply: (@eq_from_nth _ 0); rewrite ?size_map ?size_iota // S => k Hk.
  by rewrite (nth_map 0) ?size_iota // nth_iota // H // (perm_mem bl_perm) mem_iota Hk.
exact: argsortK bl_perm.
Qed.
End RepPerm.

(** ** Blocks of a Kronecker product *)
Lemma perm_flatten_map (T : eqType) (U : eqType) (f g : T -> seq U) s :
  (forall x, x \in s -> perm_eq (f x) (g x)) -> perm_eq (flatten (map f s)) (flatten (map g s)).
Proof.
elim: s => [|x s IH] //= H; apply: perm_cat; first by apply: H; rewrite mem_head.
by apply: IH => y Hy; apply: H; rewrite inE Hy orbT.
Qed.

Lemma perm_gather s q : is_perm (size s) q -> perm_eq (gather 0 s q) s.
Proof.
move=> Q; rewrite -{2}[s](mkseq_nth 0); apply: perm_map; exact: Q.
Qed.

Lemma flatten_disj (B : seq (rep * seq nat)) b c k : uniq (flatten (map snd B)) ->
  b \in B -> c \in B -> k \in b.2 -> k \in c.2 -> b = c.
Proof.
elim: B => [|a B IH] //=; rewrite cat_uniq => /and3P[_ /hasPn N U].
have D x : x \in B -> k \in x.2 -> k \in a.2 -> False.
  move=> Hx Hk Ha; have := N k; rewrite /= Ha; move/(_ _)/negP; apply=> //.
  by apply/flattenP; exists x.2 => //; apply: map_f.
rewrite !inE => /orP[/eqP ->|Hb] /orP[/eqP ->|Hc] // Kb Kc; last exact: IH.
- by case: (D c Hc Kc Kb).
- by case: (D b Hb Kb Kc).
Qed.

Section DecKron.
Variable R : comRingType.
Variable K : rep -> fmat R.
Variable sz : rep -> nat.
Local Open Scope ring_scope.
Variables (rr : rep -> rep -> rep) (qq : rep -> rep -> seq nat).

Definition pairing (b c : rep) : Prop :=
  [/\ (0 < sz b)%N /\ (0 < sz c)%N, sz (rr b c) = (sz b * sz c)%N, kok K sz (rr b c),
      is_perm (sz b * sz c) (qq b c) & meq (fkron (K b) (K c)) (fscat (qq b c) (K (rr b c)))].

Definition kitem (m : nat) (bc : (rep * seq nat) * (rep * seq nat)) : rep * seq nat :=
  (rr bc.1.1 bc.2.1, gather 0%N (outerm m bc.1.2 bc.2.2) (qq bc.1.1 bc.2.1)).
Definition prs (BA BB : seq (rep * seq nat)) := [seq (b, c) | b <- BA, c <- BB].

Lemma dec_kron n m A B BA BB :
  dec K sz n A BA -> dec K sz m B BB ->
  (forall b c, b \in BA -> c \in BB -> pairing b.1 c.1) ->
  dec K sz (n * m) (fkron A B) (map (kitem m) (prs BA BB)).
Proof.
move=> DA DB H.
have [a1 a2 a3 a4 a5] := DA; have [b1 b2 b3 b4 b5] := DB.
have Hp x : x \in prs BA BB -> x.1 \in BA /\ x.2 \in BB.
  by case/allpairsP=> -[b c] /= [Hb Hc ->].
have Sz x : x \in prs BA BB -> size (outerm m x.1.2 x.2.2) = (sz x.1.1 * sz x.2.1)%N.
  case/Hp=> Hb Hc; rewrite size_outerm.
  by have [-> _ _] := a4 _ Hb; have [-> _ _] := b4 _ Hc.
have UA : uniq (flatten (map snd BA)) by rewrite (perm_uniq a3) iota_uniq.
have UB : uniq (flatten (map snd BB)) by rewrite (perm_uniq b3) iota_uniq.
have LB c v : c \in BB -> (v < size c.2)%N -> (nth 0%N c.2 v < m)%N.
  move=> Hc Hv; have : nth 0%N c.2 v \in flatten (map snd BB).
    by apply/flattenP; exists c.2; [apply: map_f | apply: mem_nth].
  by rewrite (perm_mem b3) mem_iota.
(* position x of the item *)
have NK z x : z \in prs BA BB -> (x < sz z.1.1 * sz z.2.1)%N ->
    exists u v, [/\ (u < size z.1.2)%N, (v < size z.2.2)%N,
      nth 0%N (qq z.1.1 z.2.1) x = (u * size z.2.2 + v)%N &
      nth 0%N (kitem m z).2 x = (nth 0%N z.1.2 u * m + nth 0%N z.2.2 v)%N].
  move=> Hz Hx; have [Hb Hc] := Hp z Hz; have [_ _ _ P _] := H _ _ Hb Hc.
  have [Sb _ _] := a4 _ Hb; have [Sc _ _] := b4 _ Hc.
  have Hq : (nth 0%N (qq z.1.1 z.2.1) x < size z.1.2 * size z.2.2)%N by rewrite Sb Sc; apply: (is_perm_nth P).
  have S0 : (0 < size z.2.2)%N by case: (size z.2.2) Hq => //; rewrite muln0.
  exists (nth 0%N (qq z.1.1 z.2.1) x %/ size z.2.2)%N, (nth 0%N (qq z.1.1 z.2.1) x %% size z.2.2)%N.
  rewrite ltn_mod S0 ltn_divLR // Hq -divn_eq; split=> //.
  by rewrite /= (@nth_gather _ 0%N 0%N) ?(is_perm_size P) // nth_outerm.
have Ssz z : z \in prs BA BB -> size (kitem m z).2 = (sz z.1.1 * sz z.2.1)%N.
  move=> Hz; have [Hb Hc] := Hp z Hz; have [_ _ _ P _] := H _ _ Hb Hc.
  by rewrite size_gather (is_perm_size P).
have Inj z w : z \in prs BA BB -> w \in prs BA BB -> kitem m z = kitem m w -> z = w.
  move=> Hz Hw E; have [Hb Hc] := Hp z Hz; have [Hb' Hc'] := Hp w Hw.
  have [[Z1 Z2] _ _ _ _] := H _ _ Hb Hc; have [[W1 W2] _ _ _ _] := H _ _ Hb' Hc'.
  have := NK z 0%N Hz; rewrite muln_gt0 Z1 Z2 => /(_ isT)[u [v [Hu Hv _ E1]]].
  have := NK w 0%N Hw; rewrite muln_gt0 W1 W2 => /(_ isT)[u' [v' [Hu' Hv' _ E2]]].
  rewrite -E E1 in E2.
  have F1 : nth 0%N z.1.2 u = nth 0%N w.1.2 u'.
    by have := congr1 (divn^~ m) E2; rewrite /= !idx_div // LB.
  have F2 : nth 0%N z.2.2 v = nth 0%N w.2.2 v'.
    by have := congr1 (modn^~ m) E2; rewrite /= !idx_mod // LB.
  have G1 : z.1 = w.1.
    by apply: (flatten_disj UA Hb Hb' (mem_nth 0%N Hu)); rewrite F1 mem_nth.
  have G2 : z.2 = w.2.
    by apply: (flatten_disj UB Hc Hc' (mem_nth 0%N Hv)); rewrite F2 mem_nth.
  by case: z w G1 G2 {E Hz Hw Hb Hc Hb' Hc' Z1 Z2 W1 W2 E1 E2 F1 F2 Hu Hv Hu' Hv'} => [? ?] [? ?] /= -> ->.
split; rewrite /= ?a1 ?a2 ?b1 ?b2 //.
- rewrite -map_comp; apply: perm_trans (_ : perm_eq _ (flatten [seq outerm m x.1.2 x.2.2 | x <- prs BA BB])) _.
    apply: perm_flatten_map => z Hz; apply: perm_gather; rewrite Sz //.
    by have [Hb Hc] := Hp z Hz; have [_ _ _ P _] := H _ _ Hb Hc.
  have -> : [seq outerm m x.1.2 x.2.2 | x <- prs BA BB] = [seq outerm m X Y | X <- map snd BA, Y <- map snd BB].
    by rewrite /prs map_allpairs allpairs_mapl allpairs_mapr.
  apply: perm_trans (perm_outerm_flatten _ _ _) _.
  apply: (perm_trans (y := outer (iota 0 n) (iota 0 m))); last by apply: outer_perm; apply: is_perm_iota.
  rewrite -outermE size_iota; apply: uniq_perm.
  + apply: allpairs_uniq => // -[x y] [x' y'] /allpairsP[[u v] /= [Hu Hv [-> ->]]] /allpairsP[[u' v'] /= [Hu' Hv' [-> ->]]] E.
    rewrite !(perm_mem b3) !mem_iota /= in Hv Hv'.
    have E1 : u = u' by have := congr1 (divn^~ m) E; rewrite /= !idx_div.
    by have := congr1 (modn^~ m) E; rewrite /= !idx_mod // E1 => ->.
  + have := outer_perm (is_perm_iota n) (is_perm_iota m); rewrite -outermE size_iota.
    by move/is_perm_uniq.
  by apply: mem_allpairs; [exact: perm_mem a3 | exact: perm_mem b3].
- move=> _ /mapP[z Hz ->]; have [Hb Hc] := Hp z Hz; have [_ S [k1 k2] _ _] := H _ _ Hb Hc.
  by split=> //; rewrite Ssz.
move=> _ _ x y /mapP[z Hz ->] /mapP[w Hw ->]; rewrite !Ssz // => Hx Hy.
have [Hb Hc] := Hp z Hz; have [Hb' Hc'] := Hp w Hw.
have [u [v [Hu Hv Q1 ->]]] := NK z x Hz Hx; have [u' [v' [Hu' Hv' Q2 ->]]] := NK w y Hw Hy.
rewrite !idx_div ?idx_mod ?LB // a5 // b5 //.
have -> : (kitem m z == kitem m w) = (z == w).
  by apply/eqP/eqP => [|-> //]; apply: Inj.
have -> : (z == w) = (z.1 == w.1) && (z.2 == w.2) by case: (z) (w) => [? ?] [? ?].
case: eqP => [E1|_] /=; last by rewrite mul0r.
case: eqP => [E2|_] /=; last by rewrite mulr0.
have [_ S [k1 k2] P M] := H _ _ Hb Hc.
have [Sb fb gb] := a4 _ Hb; have [Sc f_c gc] := b4 _ Hc.
have [m1 m2 m3] := M.
have := m3 (nth 0%N (qq z.1.1 z.2.1) x) (nth 0%N (qq z.1.1 z.2.1) y).
rewrite /= fb gb f_c gc !(is_perm_nth P) // ?E1 ?E2 // => /(_ isT).
rewrite -?E1 -?E2 in Hy Q2 Hu' Hv' *.
move=> /(_ isT) ME.
rewrite !index_uniq ?(is_perm_size P) ?(is_perm_uniq P) // in ME.
by rewrite -ME Q1 Q2 -Sc !idx_div ?idx_mod.
Qed.
End DecKron.
