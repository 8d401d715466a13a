(** * LinOpMM: [mm] computes multiplication by [den]. *)
From mathcomp Require Import all_ssreflect all_algebra.
From mathcomp Require Import zify.
From Verif Require Import Np NpLemmas Spec SpecLemmas LinOp LinOpSpec LinOpProofs.
Set Implicit Arguments.
Unset Strict Implicit.
Unset Printing Implicit Defensive.
Import GRing.Theory.
Local Open Scope ring_scope.

Arguments rows : simpl never.
Arguments cols : simpl never.

Section Leaves.
Variable R : comRingType.
Implicit Types (A B C D : fmat R) (X Y : seq R).

Lemma acts_comp A B (f g : nat -> seq R -> res (seq R)) :
  acts A f -> acts B g -> fc A = fr B ->
  acts (fmul A B) (fun K X => do Y <- g K X; f K Y).
Proof.
move=> HA HB E K X S /=.
rewrite (HB _ _ S) bindOk HA ?size_flat /= ?E //; congr Ok; apply: flat_meq.
apply: meq_trans (fmul_assoc _ _ _).
apply: meq_fmul => //; exact: (unflat_flat (fmul B (unflat (fc B) K X))).
Qed.

Lemma acts_ext D (f g : nat -> seq R -> res (seq R)) :
  acts D f -> (forall K X, size X = (fc D * K)%N -> g K X = f K X) -> acts D g.
Proof. by move=> H E K X S; rewrite E // H. Qed.

Lemma acts_matmul m n (A : seq R) :
  acts (unflat m n A) (fun K X => Ok (matmul m n K A X)).
Proof.
move=> K X S; congr Ok; apply: flatP; rewrite ?size_mkseq // => i k Hi Hk.
by rewrite nth_mkseq ?idx_lt // idx_div // idx_mod // rsumE.
Qed.

Lemma acts_matmulT m n (A : seq R) :
  acts (ftr (unflat m n A)) (fun K X => Ok (matmul n m K (tr2 0 m n A) X)).
Proof.
move=> K X S; congr Ok; apply: flatP; rewrite ?size_mkseq // => i k Hi Hk.
rewrite nth_mkseq ?idx_lt // idx_div // idx_mod // rsumE.
by apply: eq_sum => j Hj; rewrite nth_tr2.
Qed.

Lemma acts_id n : acts (fid R n) (fun K X => Ok X).
Proof.
move=> K X S; congr Ok; apply: flatP; rewrite ?size_mkseq // => i k Hi Hk.
by rewrite sum_delta.
Qed.

Lemma acts_sel m n (p : seq nat) : size p = m -> all (fun i => i < n)%N p ->
  acts (fsel R m n (nth 0%N p)) (fun K X => Ok (grows 0 K X p)).
Proof.
move=> Sp Hp K X S; congr Ok; apply: flatP; rewrite ?size_grows ?Sp // => i k Hi Hk.
rewrite nth_grows ?Sp // sum_delta //.
by apply: (allP Hp); rewrite mem_nth // Sp.
Qed.

Lemma meq_sel m n s s' : (forall i, (i < m)%N -> s i = s' i) ->
  meq (fsel R m n s) (fsel R m n s').
Proof. by move=> H; split=> //= i j Hi _; rewrite H. Qed.

(** transpose of a bijective selection *)
Lemma ftr_sel n s t :
  (forall i, (i < n)%N -> (s i < n)%N) -> (forall i, (i < n)%N -> (t i < n)%N) ->
  (forall i, (i < n)%N -> s (t i) = i) -> (forall i, (i < n)%N -> t (s i) = i) ->
  meq (ftr (fsel R n n s)) (fsel R n n t).
Proof.
move=> Hs Ht H1 H2; split=> //= i j Hi Hj; congr (nat_of_bool _)%:R.
by apply/eqP/eqP => <-; rewrite ?H1 ?H2.
Qed.

Lemma fmul_sel m n p s t : (forall i, (i < m)%N -> (s i < n)%N) ->
  meq (fmul (fsel R m n s) (fsel R n p t)) (fsel R m p (t \o s)).
Proof. by move=> H; split=> // i j Hi Hj; rewrite fmul_sel_l H. Qed.

Lemma ftr_perm p : is_perm (size p) p ->
  meq (ftr (fsel R (size p) (size p) (nth 0%N p)))
      (fsel R (size p) (size p) (nth 0%N (argsort p))).
Proof.
move=> H; apply: ftr_sel => i Hi.
- exact: (is_perm_nth H).
- exact: (is_perm_nth (argsort_perm H)).
- exact: (perm_argsort H).
- exact: (argsort_perm_nth H).
Qed.

Lemma size_shift_idx n k : size (shift_idx n k) = n.
Proof. by rewrite size_mkseq. Qed.

Lemma shift_idx_lt n k i : (i < n)%N -> (nth 0%N (shift_idx n k) i < n)%N.
Proof.
move=> Hi; rewrite nth_mkseq //.
have n0 : Posz n != 0 by case: (n) Hi.
have := modz_ge0 (Posz i - k) n0; have := ltz_mod (Posz i - k) n0.
by case: (_ %% _)%Z => // a; lia.
Qed.

Lemma fshift_sel n k : meq (fshift R n k) (fsel R n n (nth 0%N (shift_idx n k))).
Proof.
split=> //= i j Hi Hj; congr (nat_of_bool _)%:R; rewrite nth_mkseq //.
have n0 : Posz n != 0 by case: (n) Hi.
have H1 := modz_ge0 (Posz i - k) n0.
have P1 : (Posz i = Posz i %% Posz n)%Z by rewrite modz_small // lez_nat ltz_nat Hi.
have P2 : (Posz j = Posz j %% Posz n)%Z by rewrite modz_small // lez_nat ltz_nat Hj.
apply/eqP/eqP => E.
  have -> : ((Posz i - k) %% Posz n)%Z = Posz j; last by [].
  by rewrite E modzDml -addrA subrr addr0 -P2.
have -> : Posz j = ((Posz i - k) %% Posz n)%Z by rewrite -E gez0_abs.
by rewrite modzDml -addrA addNr addr0 -P1.
Qed.

Lemma ftr_shift n k : meq (ftr (fshift R n k)) (fshift R n (- k)).
Proof.
split=> //= i j Hi Hj; congr (nat_of_bool _)%:R.
have P1 : (Posz i = Posz i %% Posz n)%Z by rewrite modz_small // lez_nat ltz_nat Hi.
have P2 : (Posz j = Posz j %% Posz n)%Z by rewrite modz_small // lez_nat ltz_nat Hj.
apply/eqP/eqP => ->; rewrite modzDml -addrA ?subrr ?addNr addr0 -?P1 -?P2 //.
Qed.

Lemma swap_idx_lt sw n i : all (fun i => i < n)%N sw -> (i < n)%N ->
  (nth 0%N (swap_idx sw n) i < n)%N.
Proof.
move=> H Hi; rewrite nth_mkseq //; case: ifP => // Hin.
apply: (allP H); rewrite -mem_rev mem_nth // size_rev index_mem //.
Qed.

Lemma swap_sel sw n : uniq sw -> all (fun i => i < n)%N sw ->
  meq (fswap R sw n) (fsel R n n (nth 0%N (swap_idx sw n))).
Proof.
move=> U H; apply: meq_sel => i Hi; rewrite nth_mkseq //; case: ifP => // Hin.
by rewrite nth_rev // index_mem.
Qed.

Lemma ftr_swap sw n : uniq sw -> all (fun i => i < n)%N sw ->
  meq (ftr (fswap R sw n)) (fswap R sw n).
Proof.
move=> U H.
set s := fun i => if i \in sw then nth 0%N sw (size sw - (index i sw).+1) else i.
have Hs i : (i < n)%N -> (s i < n)%N.
  rewrite /s => Hi; case: ifP => // Hin; apply: (allP H); rewrite mem_nth //.
  by have := index_mem i sw; rewrite Hin; lia.
have Hss i : (i < n)%N -> s (s i) = i.
  rewrite /s => Hi; case: (boolP (i \in sw)) => Hin; last by rewrite (negbTE Hin).
  have Hx : (index i sw < size sw)%N by rewrite index_mem.
  rewrite mem_nth; last by lia.
  rewrite index_uniq //; last by lia.
  have -> : (size sw - (size sw - (index i sw).+1).+1 = index i sw)%N by lia.
  by rewrite nth_index.
exact: ftr_sel.
Qed.

Lemma rot_src_lt n k i j : (i < n)%N -> (j < n)%N -> (rot_src n k i j < n * n)%N.
Proof.
move=> Hi Hj; case: k => [|[|[|k]]] /=; apply: idx_lt; lia.
Qed.

Lemma rot_pow n k : (k < 4)%N ->
  meq (fpow (frot1 R n) k)
      (fsel R (n * n) (n * n) (fun t => rot_src n k (t %/ n)%N (t %% n)%N)).
Proof.
have H1 t : (t < n * n)%N -> ((t %/ n < n) && (t %% n < n))%N.
  case: n => // n Ht; rewrite ltn_divLR // Ht ltn_pmod //.
have S0 : meq (fid R (n * n)) (fsel R (n * n) (n * n) (fun t => rot_src n 0 (t %/ n)%N (t %% n)%N)).
  by split=> //= i j Hi Hj; rewrite -divn_eq.
have St k' : (k' < 3)%N ->
  meq (fpow (frot1 R n) k')
      (fsel R (n * n) (n * n) (fun t => rot_src n k' (t %/ n)%N (t %% n)%N)) ->
  meq (fpow (frot1 R n) k'.+1)
      (fsel R (n * n) (n * n) (fun t => rot_src n k'.+1 (t %/ n)%N (t %% n)%N)).
  move=> Hk IH /=.
  apply: meq_trans (meq_fmul (meq_refl _) IH _) _; first by case: IH => ->.
  have Hlt t : (t < n * n)%N -> ((t %% n) * n + (n - 1 - t %/ n) < n * n)%N.
    by move=> /H1 /andP[]; move: (t %/ n)%N (t %% n)%N => a b Ha Hb; apply: idx_lt; lia.
  apply: meq_trans (fmul_sel _ _ Hlt) _; apply: meq_sel => t Ht /=.
  have /andP[Ha Hb] := H1 _ Ht.
  move: (t %/ n)%N (t %% n)%N Ha Hb => a b Ha Hb.
  have Hc : (n - 1 - a < n)%N by lia.
  rewrite idx_div // idx_mod //.
  case: k' Hk {IH} => [|[|[|k']]] //= _.
  by have -> : (n - 1 - (n - 1 - a) = a)%N by lia.
case: k => [|[|[|[|k]]]] // _.
- exact: (St 0%N isT S0).
- exact: (St 1%N isT (St 0%N isT S0)).
- exact: (St 2%N isT (St 1%N isT (St 0%N isT S0))).
Qed.

Lemma rot_sel n k :
  meq (fpow (frot1 R n) (absz (k %% 4%:Z)%Z)) (fsel R (n * n) (n * n) (nth 0%N (rot_idx n k))).
Proof.
apply: meq_trans (rot_pow _ _) _.
  have := modz_ge0 k (isT : 4%:Z != 0); have := ltz_pmod k (isT : 0 < 4%:Z).
  by case: (_ %% _)%Z => // a; rewrite ltz_nat.
by apply: meq_sel => t Ht; rewrite nth_mkseq.
Qed.

Lemma rot_idx_lt n k : all (fun i => i < n * n)%N (rot_idx n k).
Proof.
apply/(all_nthP 0%N) => t; rewrite size_mkseq => Ht; rewrite nth_mkseq //.
by case: n Ht => // n Ht; apply: rot_src_lt; rewrite ?ltn_divLR ?ltn_pmod.
Qed.

Lemma fpowSr A p : fr A = fc A -> meq (fpow A p.+1) (fmul (fpow A p) A).
Proof.
move=> E; elim: p => [|p IH] /=.
  apply: meq_trans (fmul_id_r _) _ => //; apply: meq_sym; exact: fmul_id_l.
apply: meq_trans (meq_fmul (meq_refl _) IH _) _; rewrite /= ?fr_fpow //.
exact: fmul_assoc.
Qed.

Lemma meq_fpow A B p : meq A B -> fr A = fc A -> meq (fpow A p) (fpow B p).
Proof.
move=> H E; elim: p => [|p IH] /=; first by case: H => -> _ _; apply: meq_refl.
by apply: meq_fmul => //; rewrite fr_fpow.
Qed.

Lemma ftr_fpow A p : fr A = fc A -> meq (ftr (fpow A p)) (fpow (ftr A) p).
Proof.
move=> E; elim: p => [|p IH]; first by rewrite /= E; apply: ftr_fid.
apply: meq_trans (ftr_fmul _) _; first by rewrite fr_fpow.
apply: meq_trans (meq_fmul IH (meq_refl _) _) _; first by rewrite /= fr_fpow.
by apply: meq_sym; apply: fpowSr.
Qed.

Lemma acts_pow A f p : fr A = fc A -> acts A f -> acts (fpow A p) (fun K => iterM p (f K)).
Proof.
move=> E H; elim: p => [|p IH] /=.
  by rewrite E; apply: acts_id.
apply: (acts_meq (meq_sym (fpowSr p E))).
by apply: acts_comp => //; rewrite fc_fpow.
Qed.

Lemma acts_scale A f a : acts A f -> acts (fscale a A) (fun K X => rmap (vscale a) (f K X)).
Proof.
move=> H K X S; rewrite H //=; congr Ok; apply: flatP.
  by rewrite [size (vscale _ _)]size_map size_flat.
move=> i k Hi Hk; rewrite nth_vscale prod_entry // big_distrr /=.
by apply: eq_sum => j _; rewrite mulrA.
Qed.

Lemma acts_add A B f g : fr A = fr B -> fc A = fc B -> acts A f -> acts B g ->
  acts (fadd A B) (fun K X => do Y <- f K X; do Z <- g K X; Ok (vadd Y Z)).
Proof.
move=> Er Ec HA HB K X S; rewrite HA // bindOk HB -?Ec // bindOk; congr Ok.
have SE : size (flat (fmul A (unflat (fc A) K X))) = size (flat (fmul B (unflat (fc A) K X))).
  by rewrite !size_flat /= Er.
apply: flatP; first by rewrite size_vadd // size_flat.
move=> i k Hi Hk; rewrite nth_vadd // prod_entry // Ec prod_entry -?Er //.
by rewrite /= Ec -big_split /=; apply: eq_sum => j _; rewrite mulrDl.
Qed.

Fixpoint vmatchs n (fs : seq (nat -> seq R -> res (seq R))) (Ds : seq (fmat R)) : Prop :=
  match fs, Ds with
  | [::], [::] => True
  | f :: fs', D :: Ds' => [/\ acts D f, fc D = n & vmatchs n fs' Ds']
  | _, _ => False
  end.

Lemma fr_fvcatl n Ds : fr (fvcatl n Ds) = sumn (map (@fr R) Ds).
Proof. by elim: Ds => //= D Ds ->. Qed.
Lemma fc_fvcatl n (Ds : seq (fmat R)) : fc (fvcatl n Ds) = n.
Proof. by elim: Ds => //= D Ds ->. Qed.

Lemma acts_vcat n fs Ds : vmatchs n fs Ds ->
  acts (fvcatl n Ds) (fun K X => rmap flatten (sequence [seq f K X | f <- fs])).
Proof.
move=> H K X; rewrite fc_fvcatl => S.
elim: fs Ds H => [|f fs IH] [|D Ds] //= [HD HE Hs].
have := IH _ Hs; case: (sequence _) => [ys|] //= [Eys].
rewrite (HD K X) ?HE //=; congr Ok; rewrite Eys.
have := @flatP R (fvcat D (fvcatl n Ds)) K X; rewrite /= fc_fvcatl; apply=> //.
  by rewrite size_cat !size_flat /= mulnDl.
move=> i k Hi Hk; rewrite nth_cat size_flat /=.
case: (ltnP i (fr D)) => Hi'.
  by rewrite idx_lt // -HE prod_entry.
have -> : (i * K + k < fr D * K)%N = false by apply/negbTE; rewrite -leqNgt; nia.
have -> : (i * K + k - fr D * K = (i - fr D) * K + k)%N.
  by rewrite mulnBl; have := leq_mul Hi' (leqnn K); lia.
have := @prod_entry R (fvcatl n Ds) K X (i - fr D) k; rewrite fc_fvcatl => -> //.
by move: Hi => /=; lia.
Qed.

Lemma ftr_fkronl Ds : meq (ftr (fkronl Ds)) (fkronl (map (@ftr R) Ds)).
Proof.
elim: Ds => [|D Ds IH] /=; first exact: ftr_fid.
apply: meq_trans (ftr_fkron _ _) _; apply: meq_fkron => //; exact: meq_refl.
Qed.

Lemma ftr_fkronsum A B : fr A = fc A -> fr B = fc B ->
  meq (ftr (fkronsum A B)) (fkronsum (ftr A) (ftr B)).
Proof.
move=> EA EB; split=> /=; rewrite ?EA ?EB // => i j Hi Hj.
by congr (_ * _ + _ * _); rewrite eq_sym.
Qed.

Lemma meq_fkronsum A B C D : meq A B -> meq C D -> fr A = fc A -> fr C = fc C ->
  meq (fkronsum A C) (fkronsum B D).
Proof.
move=> HA HC EA EC; have [h1 h2 _] := HA; have [k1 k2 _] := HC.
by rewrite /fkronsum -k1 -h1; apply: meq_fadd => //=; rewrite ?EA ?EC //;
   apply: meq_fkron => //; apply: meq_refl.
Qed.

Lemma sq_fkronsuml Ds : all (fun D => fr D == fc D) Ds ->
  fr (fkronsuml Ds) = fc (fkronsuml Ds) :> nat.
Proof.
move=> H; rewrite fr_fkronsuml fc_fkronsuml //.
by elim: Ds H => //= D Ds IH /andP[/eqP -> /IH ->].
Qed.

Lemma ftr_fkronsuml Ds : all (fun D => fr D == fc D) Ds ->
  meq (ftr (fkronsuml Ds)) (fkronsuml (map (@ftr R) Ds)).
Proof.
elim: Ds => [|D Ds IH] //= /andP[/eqP E H].
apply: meq_trans (ftr_fkronsum E (sq_fkronsuml H)) _.
by apply: meq_fkronsum; rewrite /= ?(sq_fkronsuml H) //; apply: IH.
Qed.

End Leaves.

Section MM.
Variable R : comRingType.
Variable conj : R -> R.
Implicit Types (A B : op R) (Ms : seq (op R)).
Local Notation mm := (mm conj).

Definition shp (A : op R) : Prop := rows A = fr (den A) /\ cols A = fc (den A).

Lemma AllP_map T U (f : T -> U) (P : U -> Prop) (l : seq T) :
  AllP (fun x => P (f x)) l -> AllP P (map f l).
Proof. by elim: l => //= x l IH [Hx /IH]. Qed.

Lemma AllP_eqmap T U (f g : T -> U) (l : seq T) :
  AllP (fun x => f x = g x) l -> map f l = map g l.
Proof. by elim: l => //= x l IH [-> /IH ->]. Qed.

Lemma AllP_and T (P Q : T -> Prop) (l : seq T) : AllP P l -> AllP Q l -> AllP (fun x => P x /\ Q x) l.
Proof. by elim: l => //= x l IH [? /IH H] [? /H]. Qed.

Lemma AllP_wf (P : op R -> Prop) Ms :
  AllP (fun A => wf A -> P A) Ms -> all (@wf R) Ms -> AllP P Ms.
Proof. by apply: AllP_all => x H Hw; apply: H. Qed.

Lemma sumn_expand (f : fmat R -> nat) Ds c :
  sumn [seq (p.1 * p.2)%N | p <- zip (map f Ds) c] = sumn (map f (expand Ds c)).
Proof.
elim: Ds c => [|D Ds IH] [|c cs] //=.
rewrite -[expand (D :: Ds) (c :: cs)]/(nseq c D ++ expand Ds cs) map_cat sumn_cat -IH.
by rewrite map_nseq sumn_nseq.
Qed.

Lemma shape_den A : wf A -> shp A.
Proof.
rewrite /shp; elim/op_rect': A => //=.
- move=> Ms IH /and4P[_ Hw _ _]; have {}IH := AllP_wf IH Hw.
  rewrite /rows /cols /= fr_fkronl fc_fkronl -!map_comp; split; congr prodn; apply: AllP_eqmap;
  by apply: AllP_sub IH => x [].
- move=> Ms IH /and4P[_ Hw _ Hsq]; have {}IH := AllP_wf IH Hw.
  rewrite /rows /cols /= fr_fkronsuml fc_fkronsuml.
    rewrite -!map_comp; split; congr prodn; apply: AllP_eqmap; by apply: AllP_sub IH => x [].
  elim: Ms IH Hsq {Hw} => //= M Ms IHl [[<- <-] Hs] /andP[-> Hsq] /=; exact: IHl.
- move=> Ms IH /and4P[_ Hw _ _]; have {}IH := AllP_wf IH Hw.
  rewrite /rows /cols /= fr_fvcatl fc_fvcatl -!map_comp; split.
    by congr sumn; apply: AllP_eqmap; apply: AllP_sub IH => x [].
  by congr head; apply: AllP_eqmap; apply: AllP_sub IH => x [].
- move=> Ms c IH /and4P[_ _ Hw Hsq]; have {}IH := AllP_wf IH Hw.
  rewrite /rows /cols /= fr_fdsuml fc_fdsuml -!sumn_expand -!map_comp; split; congr sumn;
    congr map; congr zip.
    by apply: AllP_eqmap; apply: AllP_sub IH => x [].
  elim: Ms IH Hsq {Hw} => //= M Ms IHl [[E1 E2] Hs] /andP[/eqP E Hsq] /=; rewrite IHl //.
  by rewrite -E2 -E.
- move=> m n Ms c pre post IH /and5P[_ _ Hw _]; have {}IH := AllP_wf IH Hw.
  rewrite /rows /cols /=; case: pre => //= /eqP E; split=> //.
  rewrite fc_fdsuml -E -!sumn_expand -!map_comp; congr sumn; congr map; congr zip.
  by apply: AllP_eqmap; apply: AllP_sub IH => x [].
- by move=> n k _; rewrite /rows /cols fr_fpow fc_fpow.
- by move=> A B IA IB /and5P[_ _ /IA[? ?] _ _].
- by move=> A B IA IB /and5P[_ _ /IA[? ?] /IB[? ?] _].
- by move=> A a IA /andP[_ /IA].
- move=> A p IA /and3P[_ /IA[Hr Hc] /eqP E].
  rewrite /rows /cols /= fr_fpow fc_fpow // -Hr -?Hc //.
- by move=> A IA /andP[_ /IA[? ?]].
- by move=> A IA /andP[_ /IA[? ?]].
Qed.

Definition mmP (A : op R) : Prop := wf A ->
  (supp true A -> (plain A \/ forall x, conj x = x) -> acts (den A) (mm true A)) /\
  (supp false A -> (forall x, conj x = x) -> acts (ftr (den A)) (mm false A)).

Lemma map_conj_id (X : seq R) : (forall x, conj x = x) -> map conj X = X.
Proof. by move=> H; rewrite -[RHS]map_id; apply: eq_map. Qed.

Lemma rmap_conj_id (X : res (seq R)) : (forall x, conj x = x) -> rmap (map conj) X = X.
Proof. by move=> H; case: X => //= X; rewrite map_conj_id. Qed.

Lemma plain_all Ms : (all (@plain R) Ms \/ forall x, conj x = x) ->
  AllP (fun M => plain M \/ forall x, conj x = x) Ms.
Proof.
case=> H.
- by elim: Ms H => //= M Ms IH /andP[? /IH]; split; [left|].
- by elim: Ms => //= M Ms IH; split; [right|].
Qed.

Lemma fmatchs_true Ms : AllP mmP Ms -> all (@wf R) Ms -> all (supp true) Ms ->
  AllP (fun M => plain M \/ forall x, conj x = x) Ms ->
  all (fun M => 0 < cols M)%N Ms ->
  fmatchs [seq Fac (rows M) (cols M) (mm true M) | M <- Ms] (map (@den R) Ms).
Proof.
elim: Ms => //= M Ms IH [HM Hs] /andP[W Ws] /andP[S Ss] [P Ps] /andP[C Cs].
have [Hr Hc] := shape_den W; split; last exact: IH.
by split=> //=; [have [H _] := HM W; apply: H | rewrite -Hc].
Qed.

Lemma fmatchs_false Ms : (forall x, conj x = x) ->
  AllP mmP Ms -> all (@wf R) Ms -> all (supp false) Ms ->
  all (fun M => 0 < rows M)%N Ms ->
  fmatchs [seq Fac (cols M) (rows M)
             (fun K X => if is_op M then rmap (map conj) (mm false M K (map conj X))
                         else mm false M K X) | M <- Ms] (map (@ftr R) (map (@den R) Ms)).
Proof.
move=> Hc; elim: Ms => //= M Ms IH [HM Hs] /andP[W Ws] /andP[S Ss] /andP[C Cs].
have [Er Ec] := shape_den W; split; last exact: IH.
split=> //=; last by rewrite -Er.
have [_ H] := HM W; apply: (acts_ext (H S Hc)) => K X _.
by case: ifP => // _; rewrite rmap_conj_id // map_conj_id.
Qed.

Lemma ksmatchs_of Fs Ds : fmatchs Fs Ds -> all (fun D => fr D == fc D) Ds -> ksmatchs Fs (Ds : seq (fmat R)).
Proof.
by elim: Fs Ds => [|F Fs IH] [|D Ds] //= [HF Hs] /andP[/eqP E Hsq]; split=> //; apply: IH.
Qed.

Lemma sq_dens Ms : all (@wf R) Ms -> all (fun M => rows M == cols M) Ms ->
  all (fun D => fr D == fc D) (map (@den R) Ms).
Proof.
elim: Ms => //= M Ms IH /andP[/shape_den[<- <-] Ws] /andP[-> Hs] /=; exact: IH.
Qed.

Lemma dmatchs_true Ms : AllP mmP Ms -> all (@wf R) Ms -> all (supp true) Ms ->
  AllP (fun M => plain M \/ forall x, conj x = x) Ms ->
  dmatchs [seq Fac (rows M) (cols M) (mm true M) | M <- Ms] (map (@den R) Ms).
Proof.
elim: Ms => //= M Ms IH [HM Hs] /andP[W Ws] /andP[S Ss] [P Ps].
have [Hr Hc] := shape_den W; split; last exact: IH.
by split=> //=; have [H _] := HM W; apply: H.
Qed.

Lemma vmatchs_true n Ms : AllP mmP Ms -> all (@wf R) Ms -> all (supp true) Ms ->
  AllP (fun M => plain M \/ forall x, conj x = x) Ms ->
  all (fun M => cols M == n) Ms ->
  vmatchs n [seq mm true M | M <- Ms] (map (@den R) Ms).
Proof.
elim: Ms => //= M Ms IH [HM Hs] /andP[W Ws] /andP[S Ss] [P Ps] /andP[/eqP C Cs].
have [Hr Hc] := shape_den W; split; [|by rewrite -Hc|exact: IH].
by have [H _] := HM W; apply: H.
Qed.

(** the shape check at the head of [mm] *)
Lemma acts_chk (D : fmat R) (e : exn) c f : c = fc D -> acts D f ->
  acts D (fun K X => if size X != (c * K)%N then Err e else f K X).
Proof. by move=> -> H K X S; rewrite S eqxx /= H. Qed.

Lemma mm_ok A : mmP A.
Proof.
elim/op_rect': A.
- move=> m n D W; split=> _ _; (apply: acts_chk; first done);
    [exact: acts_matmul | exact: acts_matmulT].
- move=> m n D W; split=> _ _; (apply: acts_chk; first done);
    [exact: acts_matmul | exact: acts_matmulT].
- move=> n W; split=> _ _; (apply: acts_chk; first done); first exact: acts_id.
  by apply: (acts_meq (meq_sym (ftr_fid _ n))); apply: acts_id.
- move=> Ms IH W; have [Er Ec] := shape_den W.
  have /and4P[_ Hw Hr Hc] := W; split=> /= S.
    move=> /plain_all Hp; apply: acts_chk; first exact: Ec.
    by apply: kron_mm_ok; apply: fmatchs_true.
  move=> Hcj; apply: acts_chk; first exact: Er.
  apply: (acts_meq (meq_sym (ftr_fkronl _))).
  by apply: kron_mm_ok; apply: fmatchs_false.
- move=> Ms IH W; have [Er Ec] := shape_den W.
  have /and4P[_ Hw Hr Hsq] := W; split=> /= S.
    move=> /plain_all Hp; apply: acts_chk; first exact: Ec.
    apply: kronsum_mm_ok; apply: ksmatchs_of; last exact: sq_dens.
    apply: fmatchs_true => //.
    by elim: Ms Hr Hsq {IH W Er Ec Hw S Hp} => //= M Ms IH /andP[H1 H2] /andP[/eqP <- /IH ->] //; rewrite H1.
  move=> Hcj; apply: acts_chk; first exact: Er.
  apply: (acts_meq (meq_sym (ftr_fkronsuml _))); first exact: sq_dens.
  apply: kronsum_mm_ok; apply: ksmatchs_of; first exact: fmatchs_false.
  by rewrite all_map; have := sq_dens Hw Hsq; apply: sub_all => M /=; rewrite eq_sym.
- move=> Ms IH W; have [Er Ec] := shape_den W.
  have /and4P[_ Hw _ Hc] := W; split=> //= S.
  move=> /plain_all Hp; apply: acts_chk; first exact: Ec.
  have Hd : head 0%N [seq fc (den M) | M <- Ms] = head 0%N (map (@cols R) Ms).
    by case: Ms {IH W Er Ec Hc S Hp} Hw => //= M Ms /andP[/shape_den[_ ->]].
  rewrite Hd; apply: acts_ext (acts_vcat (vmatchs_true IH Hw S Hp Hc)) _ => K X _ /=.
  by rewrite -map_comp.
- move=> Ms c IH W; have [Er Ec] := shape_den W.
  have /and4P[N /eqP Sc Hw _] := W; split=> //= S.
  move=> /plain_all Hp; apply: acts_chk; first exact: Ec.
  by apply: direct_mm_ok; rewrite ?size_map //; apply: dmatchs_true.
- move=> m n Ms c pre post IH W; have [Er Ec] := shape_den W.
  have /and5P[N /eqP Sc Hw] := W.
  set tr := sumn _; set tc := sumn _ => /andP[/eqP Spost Hpost] Hpre; split=> //= S.
  move=> /plain_all Hp; apply: acts_chk; first exact: Ec.
  have Hsh := AllP_wf (P := shp) (Ms := Ms).
  have {}Hsh : AllP shp Ms.
    by elim: Ms Hw {IH W Er Ec Sc N tr tc Hpost Hpre S Hp Hsh} => //= M Ms IHl /andP[/shape_den ? /IHl].
  set D := fdsuml _ in Er Ec *.
  have Dr : fr D = tr.
    rewrite fr_fdsuml -sumn_expand -map_comp /tr; congr sumn; congr map; congr zip.
    by apply: AllP_eqmap; apply: AllP_sub Hsh => x [].
  have Dc : fc D = tc.
    rewrite fc_fdsuml -sumn_expand -map_comp /tc; congr sumn; congr map; congr zip.
    by apply: AllP_eqmap; apply: AllP_sub Hsh => x [].
  have HD : acts D (fun K => direct_mm K [seq Fac (rows M) (cols M) (mm true M) | M <- Ms] c).
    by apply: direct_mm_ok; rewrite ?size_map //; apply: dmatchs_true.
  have Hsel : acts (fsel R m (fr D) (nth 0%N post)) (fun K Y => Ok (grows 0 K Y post)).
    by apply: acts_sel; rewrite ?Dr.
  case: pre W Er Ec Hpre => [p|] W Er Ec Hpre.
    case/andP: Hpre => /eqP Sp Hpp.
    have := acts_comp HD (acts_sel Sp Hpp) Dc.
    by rewrite Sp => H; have := acts_comp Hsel H erefl.
  by have := acts_comp Hsel HD erefl.
- move=> p W; split=> _ _; (apply: acts_chk; first done).
    by apply: acts_sel => //; apply: (is_perm_all W).
  apply: (acts_meq (meq_sym (ftr_perm _ W))).
  apply: acts_sel; first exact: size_argsort.
  by apply: is_perm_all; apply: argsort_perm.
- move=> n k W; split=> _ _; (apply: acts_chk; first done).
    apply: (acts_meq (meq_sym (fshift_sel _ n k))).
    apply: acts_sel; first exact: size_shift_idx.
    apply/(all_nthP 0%N) => i; rewrite size_shift_idx; exact: shift_idx_lt.
  apply: (acts_meq (meq_sym (ftr_shift _ n k))).
  apply: (acts_meq (meq_sym (fshift_sel _ n (- k)))).
  apply: acts_sel; first exact: size_shift_idx.
  apply/(all_nthP 0%N) => i; rewrite size_shift_idx; exact: shift_idx_lt.
- move=> sw n /= /andP[U H]; 
  have HH : acts (fswap R sw n) (fun K X => Ok (grows 0 K X (swap_idx sw n))).
    apply: (acts_meq (meq_sym (swap_sel _ U H))).
    apply: acts_sel; first by rewrite size_mkseq.
    apply/(all_nthP 0%N) => i; rewrite size_mkseq; exact: swap_idx_lt.
  split=> _ _; (apply: acts_chk; first done); first exact: HH.
  by apply: (acts_meq (meq_sym (ftr_swap _ U H))).
- move=> n k W; have [Er Ec] := shape_den W; split=> // _ _; (apply: acts_chk; first exact: Ec).
  apply: (acts_meq (meq_sym (rot_sel _ n k))).
  by apply: acts_sel; [rewrite size_mkseq | apply: rot_idx_lt].
- move=> A B IA IB W; have [Er Ec] := shape_den W.
  have /and5P[_ _ WA WB /eqP Esh] := W.
  have [EAr EAc] := shape_den WA; have [EBr EBc] := shape_den WB.
  have [A1 A2] := IA WA; have [B1 B2] := IB WB.
  have Efr : fr (den A) = fr (den B) by rewrite -EAr -EBr /rows Esh.
  have Efc : fc (den A) = fc (den B) by rewrite -EAc -EBc /cols Esh.
  split=> /= /andP[SA SB] Hc.
    apply: acts_chk; first exact: Ec.
    apply: acts_add => //; [apply: A1 | apply: B1] => //; case: Hc => [/andP[? ?]|]; by [left|right].
  apply: acts_chk; first exact: Er.
  by have := acts_add (A := ftr (den A)) (B := ftr (den B)) Efc Efr (A2 SA Hc) (B2 SB Hc).
- move=> A B IA IB W; have [Er Ec] := shape_den W.
  have /and5P[_ _ WA WB /eqP Esh] := W.
  have [EAr EAc] := shape_den WA; have [EBr EBc] := shape_den WB.
  have [A1 A2] := IA WA; have [B1 B2] := IB WB.
  have E : fc (den A) = fr (den B) by rewrite -EAc -EBr.
  split=> /= /andP[SA SB] Hc.
    apply: acts_chk; first exact: Ec.
    apply: acts_comp => //; [apply: A1 | apply: B1] => //; case: Hc => [/andP[? ?]|]; by [left|right].
  apply: acts_chk; first exact: Er.
  apply: (acts_meq (meq_sym (ftr_fmul E))).
  exact: (acts_comp (B2 SB Hc) (A2 SA Hc) (esym E)).
- move=> A a IA W; have [Er Ec] := shape_den W.
  have /andP[_ WA] := W; have [A1 A2] := IA WA.
  split=> /= S Hc.
    apply: acts_chk; first exact: Ec.
    by apply: acts_scale; apply: A1.
  apply: acts_chk; first exact: Er.
  by rewrite Hc; have := acts_scale (a := a) (A2 S Hc).
- move=> A p IA W; have [Er Ec] := shape_den W.
  have /and3P[_ WA /eqP Esq] := W; have [A1 A2] := IA WA.
  have [EAr EAc] := shape_den WA.
  have E : fr (den A) = fc (den A) by rewrite -EAr -EAc.
  split=> /= S Hc.
    apply: acts_chk; first exact: Ec.
    by apply: acts_pow => //; apply: A1.
  apply: acts_chk; first exact: Er.
  apply: (acts_meq (meq_sym (ftr_fpow p E))).
  by apply: acts_pow => //; apply: A2.
- move=> A IA W; have [Er Ec] := shape_den W.
  have /andP[_ WA] := W; have [A1 A2] := IA WA.
  split=> /= S Hc.
    apply: acts_chk; first exact: Ec.
    by case: Hc => // Hc; apply: A2.
  apply: acts_chk; first exact: Er.
  by apply: (acts_meq (D := den A)); [split | apply: A1 => //; right].
- move=> A IA W; have [Er Ec] := shape_den W.
  have /andP[_ WA] := W; have [A1 A2] := IA WA.
  split=> /= S Hc.
    apply: acts_chk; first exact: Ec.
    case: Hc => // Hc; apply: (acts_ext (A2 S Hc)) => K X _.
    by rewrite rmap_conj_id // map_conj_id.
  apply: acts_chk; first exact: Er.
  apply: (acts_meq (D := den A)); first by split.
  apply: (acts_ext (A1 S (or_intror Hc))) => K X _.
  by rewrite rmap_conj_id // map_conj_id.
Qed.
End MM.
