(** * DimThm: the number of equivariant tensors of S(n), Z(n), Trivial(n), O(n), SO(n). *)
From Coq Require Import Reals String ClassicalEpsilon Lra.
From mathcomp Require Import all_ssreflect all_algebra all_fingroup.
From mathcomp Require Import zify.
From Verif Require Import Np NpLemmas Spec SpecLemmas LinOp LinOpSpec LinOpInv LinOpProofs MxBridge Rep RepSpec RepMat RepWf RepAlg RepMul RepFun RepExpr RhoProofs RepThm RepThm1 Solver SolSpec Rstruct Expm GrpSpec GrpProofs.
From Verif Require Import Groups GroupsSpec GroupsPerm GroupsSpecR GroupsInit GroupsCtor GroupsThm GroupsFlag GroupsReal GroupsForm ExactSpec GroupsExact GroupsExactL GroupsExactD.
From Verif Require Import Nn NnSpec NnThm Data DataSpec DataAlg DataThm DataGroups DataCubeThm DimSpec DimAlg DimComb DimTenSpec DimGrp DimTen DimPerm.
Set Implicit Arguments.
Unset Strict Implicit.
Unset Printing Implicit Defensive.
Import GRing.Theory.
Local Open Scope ring_scope.

(** ** all tuples *)
Fixpoint tuples (n k : nat) : seq (seq nat) :=
  if k is k'.+1 then [seq x :: t | x <- iota 0 n, t <- tuples n k'] else [:: [::]].
Lemma size_tuples n k : size (tuples n k) = (n ^ k)%N.
Proof. by elim: k => //= k IH; rewrite size_allpairs size_iota IH expnS. Qed.
Lemma tuples_uniq n k : uniq (tuples n k).
Proof.
elim: k => //= k IH; apply: allpairs_uniq; [exact: iota_uniq | exact: IH |].
by move=> [a b] [c d] _ _ /= [-> ->].
Qed.
Lemma tuplesP n k t : reflect (tuple_ok n k t) (t \in tuples n k).
Proof.
elim: k t => [|k IH] [|x t] /=; apply: (iffP idP).
- by [].
- by [].
- by [].
- by case.
- by case/allpairsP=> -[a b] [].
- by case.
- by case/allpairsP=> -[a b] [/= ha hb [-> ->]]; rewrite mem_iota in ha; have [s1 s2] := IH _ hb; split=> /=; rewrite ?s1 ?s2 ?andbT.
- case=> /= -[S] /andP[Hx Ht]; apply/allpairsP; exists (x, t) => /=; rewrite mem_iota; split=> //.
  by apply/IH.
Qed.

(** ** signed permutation matrices *)
Definition smat (n : nat) (s : nat -> RR) (p : seq nat) : fmat RR := FM n n (fun i j => s i * (nth 0%N p i == j)%:R).
Lemma act_smat n s p k : is_perm n p -> forall t v, tuple_ok n k t ->
  act (fkronl (nseq k (smat n s p))) v (num n t) = (\prod_(x <- t) s x) * v (num n (moved_by p t)).
Proof.
move=> P; elim: k => [|k IH] [|x t] v [] //= S.
  by move=> _; rewrite /act /= big_nat1 mul1r big_nil mul1r.
case: S => S /andP[Hx Ht]; have [s1 s2] := @fkronl_sz n k RR (smat n s p) erefl erefl.
have OK : tuple_ok n k t by [].
rewrite size_map S (@act_fkron _ _ n (n ^ k)%N) //; last by rewrite -S num_lt.
rewrite (eq_sum (g := fun e => (nth 0%N p x == e)%:R * (s x * (\prod_(x <- t) s x) * v (e * n ^ k + num n (moved_by p t))%N))); last first.
  by move=> e He; rewrite IH // /smat /= [s x * _]mulrC !mulrA.
rewrite (sum_only (i := nth 0%N p x)) ?eqxx ?mul1r ?big_cons //; first exact: is_perm_nth.
by move=> j Hj; rewrite eq_sym => /negbTE ->; rewrite mul0r.
Qed.
Lemma fixes_smat n k s p v : is_perm n p -> fixes (n ^ k) (fkronl (nseq k (smat n s p))) v ->
  forall t, tuple_ok n k t -> (\prod_(x <- t) s x) * nth 0 v (num n (moved_by p t)) = nth 0 v (num n t).
Proof.
move=> P H t Ht; have [s1 s2] := @fkronl_sz n k RR (smat n s p) erefl erefl.
by rewrite -(act_smat s P (nth 0 v) Ht) /act s2; apply: H; case: Ht => <-; exact: num_lt.
Qed.
Lemma smat_isometry n s p : is_perm n p -> (forall i, (i < n)%N -> s i * s i = 1) -> isometry (fid RR n) (smat n s p).
Proof.
move=> P S; apply: meq_trans (perm_isometry P); split=> //= i j Hi Hj; apply: eq_sum => k Hk.
rewrite (sum_only (i := k)) //; last by move=> l Hl /negbTE ne; rewrite eq_sym ne mul0r.
rewrite (sum_only (i := k)) //; last by move=> l Hl /negbTE ne; rewrite eq_sym ne mul0r.
by rewrite eqxx !mul1r [s k * _]mulrC -mulrA [s k * (s k * _)]mulrA S // mul1r.
Qed.
Lemma det_smat n s p : fdet n (smat n s p) = (\prod_(i < n) s i) * fdet n (perm_mat RR n p).
Proof.
rewrite /fdet (_ : mxf n n (smat n s p) = diag_mx (\row_i s i) *m mxf n n (perm_mat RR n p)).
  by rewrite det_mulmx det_diag; congr (_ * _); apply: eq_bigr => i _; rewrite mxE.
apply/matrixP => i j; rewrite !mxE (bigD1 i) //= !mxE eqxx mulr1n big1 ?addr0 // => l ne.
by rewrite !mxE eq_sym (negbTE ne) mulr0n mul0r.
Qed.
Lemma det_pid n : fdet n (perm_mat RR n (iota 0 n)) = 1.
Proof.
rewrite /fdet (_ : mxf n n (perm_mat RR n (iota 0 n)) = 1%:M) ?det1 //.
by apply/matrixP => i j; rewrite !mxE /= nth_iota.
Qed.
Definition swap (n a b : nat) : seq nat := mkseq (fun i => if i == a then b else if i == b then a else i) n.
Lemma swap_nth n a b i : (i < n)%N -> nth 0%N (swap n a b) i = if i == a then b else if i == b then a else i.
Proof. by move=> Hi; rewrite nth_mkseq. Qed.
Lemma swap_perm n a b : (a < n)%N -> (b < n)%N -> is_perm n (swap n a b).
Proof.
move=> Ha Hb; apply: is_permP; first exact: size_mkseq.
  rewrite map_inj_in_uniq ?iota_uniq // => i j; rewrite !mem_iota => Hi Hj.
  by repeat case: eqP; move=> *; lia.
by apply/allP => x /mapP[i]; rewrite mem_iota => /= Hi ->; repeat case: eqP => * //.
Qed.
Lemma det_swap n a b : (a < n)%N -> (b < n)%N -> a != b -> fdet n (perm_mat RR n (swap n a b)) = -1.
Proof.
move=> Ha Hb ne; rewrite /fdet (_ : mxf n n (perm_mat RR n (swap n a b)) = perm_mx (tperm (Ordinal Ha) (Ordinal Hb))).
  by rewrite det_perm odd_tperm -(inj_eq val_inj) /= ne.
apply/matrixP => i j; rewrite !mxE /= swap_nth //; congr (_%:R).
case: tpermP => [->|->|/eqP h1 /eqP h2] /=; rewrite ?eqxx -?(inj_eq val_inj) //=.
  by rewrite [b == a]eq_sym (negbTE ne).
rewrite -(inj_eq val_inj) /= in h1; rewrite -(inj_eq val_inj) /= in h2.
by rewrite (negbTE h1) (negbTE h2).
Qed.

Section Main.
Variables (close : seq RR -> seq RR -> bool) (recip : nat -> RR).
Variables (sinv : RR -> RR) (linv : nat -> seq RR -> seq RR).
Variables (crho cdrho : nat -> option gid -> gel RR -> res (op RR)).
Variables (gdim : gid -> nat) (csize : nat -> gid -> nat) (le : rel rep) (g : gid).
Variable G : gid -> group RR.
Variables (svd : nat -> nat -> seq RR -> seq RR * seq RR * seq RR) (big : pred RR).
Variable krylov : op RR -> res (darr RR).
Local Notation sz := (rsize gdim csize).
Local Notation gorth := (fun h => g_orth (G h)).
Local Notation rep_of := (rep_of gdim gorth csize le g).
Local Notation basis := (basis idR sinv linv crho cdrho gdim csize le (the_gens G) (the_lies G) svd big krylov).
Hypothesis HS : setting sinv linv crho cdrho gdim csize le g G svd big krylov.

(** ** S(n), Z(n), Trivial(n) *)
Theorem dim_s n p q : (1 < n)%N -> g_s idR close n = Ok (G g) -> gdim g = n ->
  exists r Q, [/\ rep_of (T_expr p q) r, sz r = (n ^ (p + q))%N &
    returns (basis r) (n ^ (p + q)) (sumn [seq stirling2 (p + q) m | m <- iota 0 n.+1]) Q].
Proof.
move=> n1 EG Ed; have n0 := ltnW n1; rewrite -size_pats.
apply: (tensors_orbits HS (exact_s idR close n1) _ EG Ed n0) => //; last exact: sym_transversal.
apply: built_basic (s_ok idR close n1) EG _ _; first by eexists.
exact: perm_items.
Qed.

Definition shifts (n : nat) (p : seq nat) : Prop := exists2 c, (c < n)%N & p = mkseq (fun i => (i + c) %% n)%N n.
Lemma shifts_perm n p : shifts n p -> is_perm n p.
Proof.
case=> c Hc ->; have n0 : (0 < n)%N by lia.
apply: is_permP; first exact: size_mkseq.
  rewrite map_inj_in_uniq ?iota_uniq // => i j; rewrite !mem_iota /= add0n => Hi Hj.
  move/eqP; rewrite eqn_modDr !modn_small //; exact: eqP.
by apply/allP => x /mapP[i _ ->]; rewrite ltn_mod.
Qed.
Lemma shift_perm_mat n c : (c < n)%N -> meq (shift_mat RR n c) (perm_mat RR n (mkseq (fun i => (i + (n - c)) %% n)%N n)).
Proof.
move=> Hc; split=> //= i j Hi Hj; rewrite nth_mkseq //; congr ((_ : bool)%:R); apply/eqP/eqP=> [->|<-].
  by rewrite modnDml -addnA subnKC ?modnDr ?modn_small // ltnW.
by rewrite modnDml -addnA subnK ?modnDr ?modn_small // ltnW.
Qed.
Lemma exact_shifts n : (0 < n)%N -> exact_group (g_z idR close n) n (fun X => exists2 p, shifts n p & meq X (perm_mat RR n p)).
Proof.
move=> n0; have [G0 E [h1 h2]] := exact_z idR close n0; exists G0 => //; split=> // X; rewrite h2; split=> -[x1 x2 [c Hc M]]; split=> //.
  exists (mkseq (fun i => (i + (n - c)) %% n)%N n); last exact: meq_trans M (shift_perm_mat Hc).
  exists ((n - c) %% n)%N; first by rewrite ltn_mod.
  by apply: eq_mkseq => i; rewrite modnDmr.
case: Hc => a Ha ?; subst c; exists ((n - a) %% n)%N; first by rewrite ltn_mod.
have Hb : ((n - a) %% n < n)%N by rewrite ltn_mod.
apply: meq_trans M (meq_sym _); apply: meq_trans (shift_perm_mat Hb) _.
rewrite (_ : mkseq _ n = mkseq (fun i => (i + a) %% n)%N n); first exact: meq_refl.
apply: eq_mkseq => i; case: (posnP a) => [->|a0]; first by rewrite subn0 modnn subn0 modnDr addn0.
by rewrite (modn_small (_ : n - a < n)%N) ?subKn //; lia.
Qed.
Lemma shift_transversal n k : (0 < n)%N -> transversal n k.+1 (shifts n) (map (cons 0%N) (tuples n k)).
Proof.
move=> n0; split.
- by move=> s /mapP[t /tuplesP[t1 t2] ->]; split; rewrite /= ?t1 ?n0.
- move=> i j p; rewrite size_map => Hi Hj [c Hc ->]; rewrite !(nth_map [::]) //= => -[].
  rewrite nth_mkseq // add0n modn_small // => -> E.
  have [_ /allP Ai] : tuple_ok n k (nth [::] (tuples n k) i) by apply/tuplesP; exact: mem_nth.
  apply/eqP; rewrite -(nth_uniq [::] Hi Hj (tuples_uniq n k)) -E; apply/eqP.
  rewrite -[LHS]map_id; apply/eq_in_map => x /Ai Hx.
  by rewrite nth_mkseq // addn0 modn_small.
- move=> [|x t] [//= [S] /andP[Hx Ht]]; pose p := mkseq (fun i => (i + (n - x) %% n) %% n)%N n.
  have Sp : shifts n p by exists ((n - x) %% n)%N => //; rewrite ltn_mod.
  exists p => //=; rewrite /moved_by /= nth_mkseq // modnDmr subnKC ?(ltnW Hx) // modnn.
  apply: map_f; apply/tuplesP; exact: (moved_ok (shifts_perm Sp)).
Qed.
Theorem dim_z n p q k : (0 < n)%N -> g_z idR close n = Ok (G g) -> gdim g = n -> (p + q = k.+1)%N ->
  exists r Q, [/\ rep_of (T_expr p q) r, sz r = (n ^ (p + q))%N & returns (basis r) (n ^ (p + q)) (n ^ k) Q].
Proof.
move=> n0 EG Ed Ek; rewrite -(size_tuples n k) -(size_map (cons 0%N)).
apply: (tensors_orbits HS (exact_shifts n0) (@shifts_perm n) EG Ed n0); last by rewrite Ek; exact: shift_transversal.
apply: built_basic (z_ok idR close n) EG _ _; first by eexists.
by move=> A /= [<-|].
Qed.
Theorem dim_trivial n p q : (0 < n)%N -> g_trivial idR close n = Ok (G g) -> gdim g = n ->
  exists r Q, [/\ rep_of (T_expr p q) r, sz r = (n ^ (p + q))%N & returns (basis r) (n ^ (p + q)) (n ^ (p + q)) Q].
Proof.
move=> n0 EG Ed; rewrite -{3}(size_tuples n (p + q)).
have P s : s = iota 0 n -> is_perm n s by move=> ->; exact: is_perm_iota.
apply: (@tensors_orbits sinv linv crho cdrho gdim csize le g G svd big krylov HS _ n (fun s => s = iota 0 n) _ P EG Ed n0).
- have [G0 E [h1 h2]] := exact_trivial idR close n; exists G0 => //; split=> // X; rewrite h2.
  have I : meq (perm_mat RR n (iota 0 n)) (fid RR n) by apply: perm_id => i Hi; rewrite nth_iota.
  split=> -[x1 x2 H]; split=> //; first by exists (iota 0 n) => //; exact: meq_trans H (meq_sym I).
  by case: H => s ->; move=> H; exact: meq_trans H I.
- by apply: built_basic (trivial_ok idR close n) EG _ _; [eexists | exact: arr_items].
- have M t : tuple_ok n (p + q) t -> moved_by (iota 0 n) t = t by apply: moved_id => i Hi; rewrite nth_iota.
  split.
  + by move=> s /tuplesP.
  + move=> i j s Hi Hj ->; rewrite M; last by apply/tuplesP; exact: mem_nth.
    by move/eqP; rewrite nth_uniq ?tuples_uniq // => /eqP.
  + by move=> s Hs; exists (iota 0 n) => //; rewrite M //; apply/tuplesP.
Qed.
End Main.
