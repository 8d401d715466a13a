(** * LinOpMore: to_dense, adjoint, invT, transposed concatenation. *)
From mathcomp Require Import all_ssreflect all_algebra.
From mathcomp Require Import zify.
From Verif Require Import Np NpLemmas Spec SpecLemmas LinOp LinOpSpec LinOpProofs LinOpMM.
Set Implicit Arguments.
Unset Strict Implicit.
Unset Printing Implicit Defensive.
Import GRing.Theory.
Local Open Scope ring_scope.

Section Dense.
Variable R : comRingType.
Implicit Types (A B : fmat R).

(** The dense array of a matrix. *)
Definition dn (A : fmat R) : darr R := (fr A, fc A, flat A).

Lemma dn_meq A B : meq A B -> dn A = dn B.
Proof. by move=> H; rewrite /dn (flat_meq H); case: H => -> -> _. Qed.

Lemma flatE A (Y : seq R) : size Y = (fr A * fc A)%N ->
  (forall i j, (i < fr A)%N -> (j < fc A)%N -> nth 0 Y (i * fc A + j)%N = fe A i j) -> Y = flat A.
Proof.
move=> S H; apply: (@mat_ext _ 0 (fr A) (fc A)) => //; first by rewrite size_flat.
by move=> i j Hi Hj; rewrite H // nth_flat.
Qed.

Lemma dk2_ok A B : dk2 (dn A) (dn B) = dn (fkron A B).
Proof.
rewrite /dk2 /dn /=; congr (_, _); apply: flatE => [|i j /= Hi Hj].
  by rewrite size_mkseq.
rewrite nth_mkseq ?idx_lt // idx_div // idx_mod //.
have b0 : (0 < fr B)%N by case: (fr B) Hi => //; rewrite muln0.
have c0 : (0 < fc B)%N by case: (fc B) Hj => //; rewrite muln0.
by rewrite /= !nth_flat // ?ltn_mod // ltn_divLR.
Qed.

Lemma eye_flat n : eye R n = flat (fid R n).
Proof. by []. Qed.

Lemma dks2_ok A B : fr A = fc A -> fr B = fc B -> dks2 (dn A) (dn B) = dn (fkronsum A B).
Proof.
move=> EA EB; rewrite /dks2 /dn /=.
have := dk2_ok A (fid R (fc B)); rewrite /dk2 /dn /= => -[K1].
have := dk2_ok (fid R (fc A)) B; rewrite /dk2 /dn /= => -[K2].
congr (_, _, _); first by rewrite EB.
rewrite EA in K1; rewrite EB in K2; rewrite /dkronsum !eye_flat K1 K2.
have S1 : size (flat (fkron A (fid R (fc B)))) = size (flat (fkron (fid R (fc A)) B)).
  by rewrite !size_flat /= EA EB.
apply: flatE => [|i j /= Hi Hj]; first by rewrite size_vadd // size_flat /= EB.
rewrite nth_vadd //.
have := @nth_flat _ (fkron A (fid R (fc B))) i j; rewrite /= -EB => -> //.
have := @nth_flat _ (fkron (fid R (fc A)) B) i j; rewrite /= -EA -EB => -> //; first by rewrite EA.
Qed.

Lemma db2_ok A B : db2 (dn A) (dn B) = dn (fdsum A B).
Proof.
rewrite /db2 /dn /=; congr (_, _); apply: flatE => [|i j /= Hi Hj].
  by rewrite size_mkseq.
rewrite nth_mkseq ?idx_lt // idx_div // idx_mod //.
by rewrite /=; case: ltnP => Hi'; case: ltnP => Hj' //; rewrite nth_flat //; lia.
Qed.

Lemma foldl_dn (f : darr R -> darr R -> darr R) (F : fmat R -> fmat R -> fmat R) (ok : fmat R -> Prop) Ds A :
  (forall A B, ok A -> ok B -> f (dn A) (dn B) = dn (F A B) /\ ok (F A B)) ->
  ok A -> AllP ok Ds ->
  foldl f (dn A) (map dn Ds) = dn (foldl F A Ds).
Proof.
move=> H; elim: Ds A => //= D Ds IH A HA [HD Hs].
by have [-> HF] := H _ _ HA HD; apply: IH.
Qed.

Lemma foldl_assoc (F : fmat R -> fmat R -> fmat R) (e : fmat R) (ok : fmat R -> Prop) Ds A :
  (forall A B, ok A -> ok B -> ok (F A B)) -> ok e ->
  (forall A, ok A -> meq (F A e) A) ->
  (forall A B C, ok A -> ok B -> ok C -> meq (F A (F B C)) (F (F A B) C)) ->
  ok A -> AllP ok Ds ->
  meq (foldl F A Ds) (F A (foldr F e Ds)).
Proof.
move=> Hc He H0 HA; elim: Ds A => [|D Ds IH] A okA /=.
  by move=> _; apply: meq_sym; apply: H0.
move=> [okD okDs].
have okr : ok (foldr F e Ds) by elim: Ds okDs {IH} => //= ? ? IHl [? ?]; apply: Hc => //; apply: IHl.
apply: meq_trans (IH _ _ okDs) _; first exact: Hc.
by apply: meq_sym; apply: HA.
Qed.

Lemma AllP_True T (l : seq T) : AllP (fun _ => True) l.
Proof. by elim: l. Qed.

Lemma reduce_kron D Ds : reduce1 (@dk2 R) (map dn (D :: Ds)) = Ok (dn (fkronl (D :: Ds))).
Proof.
rewrite /=; congr Ok.
rewrite (@foldl_dn _ (@fkron R) (fun _ => True)) //; first apply: dn_meq.
- apply: (@foldl_assoc _ _ (fun _ => True)) => //.
  + by move=> A _; apply: fkron_1_r.
  + by move=> A B C _ _ _; apply: fkron_assoc.
  + exact: AllP_True.
- by move=> A B _ _; split=> //; apply: dk2_ok.
- exact: AllP_True.
Qed.

Lemma fdsum_0_r A : meq (fdsum A (fzero R 0 0)) A.
Proof. by split=> /=; rewrite ?addn0 // => i j -> ->. Qed.

Lemma block_diag_ok Ds : (0 < size Ds)%N -> block_diag (map dn Ds) = dn (fdsuml Ds).
Proof.
case: Ds => //= D Ds _.
rewrite (@foldl_dn _ (@fdsum R) (fun _ => True)) //; first apply: dn_meq.
- apply: (@foldl_assoc _ _ (fun _ => True)) => //.
  + by move=> A _; apply: fdsum_0_r.
  + by move=> A B C _ _ _; apply: fdsum_assoc.
  + exact: AllP_True.
- by move=> A B _ _; split=> //; apply: db2_ok.
- exact: AllP_True.
Qed.

Definition fsq (A : fmat R) : Prop := fr A = fc A.

Lemma fkronsum_sq A B : fsq A -> fsq B -> fsq (fkronsum A B).
Proof. by rewrite /fsq /= => -> ->. Qed.

Lemma fkronsum_0_r A : fsq A -> meq (fkronsum A (fzero R 1 1)) A.
Proof.
rewrite /fsq => E; split=> /=; rewrite ?muln1 // => i j Hi Hj.
by rewrite !divn1 !modn1 eqxx mulr1 mulr0 addr0.
Qed.

Lemma fkronsum_assoc A B C : fsq A -> fsq B -> fsq C ->
  meq (fkronsum A (fkronsum B C)) (fkronsum (fkronsum A B) C).
Proof.
rewrite /fsq => EA EB EC; split=> /=; rewrite ?mulnA //.
rewrite EA EB EC => i j Hi Hj.
set a := fc A in Hi Hj *; set b := fc B in Hi Hj *; set c := fc C in Hi Hj *.
have c0 : (0 < c)%N by case: (c) Hi => //; rewrite muln0.
have b0 : (0 < b)%N by case: (b) Hi => //; rewrite muln0.
have bc0 : (0 < b * c)%N by rewrite muln_gt0 b0.
rewrite !(modn_divl _ b c) -?divnMA ![(c * b)%N]mulnC.
have Md x : (x %% (b * c) %% c = x %% c)%N by rewrite modn_dvdm // dvdn_mull.
rewrite !Md.
have Dm x : (x %% (b * c) %/ c = x %/ c %% b)%N by rewrite modn_divl.
have Ed x y : ((x %% (b * c) == y %% (b * c)) = (x %/ c %% b == y %/ c %% b) && (x %% c == y %% c))%N.
  apply/eqP/andP => [E|[/eqP E1 /eqP E2]].
    by rewrite -!Dm E eqxx; split=> //; rewrite -(Md x) -(Md y) E.
  by rewrite (divn_eq (x %% (b * c)) c) (divn_eq (y %% (b * c)) c) !Dm !Md E1 E2.
have Eq x y : ((x %/ c == y %/ c) = (x %/ (b * c) == y %/ (b * c)) && (x %/ c %% b == y %/ c %% b))%N.
  have Dv z : (z %/ (b * c) = z %/ c %/ b)%N by rewrite mulnC divnMA.
  apply/eqP/andP => [E|[/eqP E1 /eqP E2]]; first by rewrite !Dv E !eqxx.
  by rewrite (divn_eq (x %/ c) b) (divn_eq (y %/ c) b) -!Dv E1 E2.
by rewrite !Dm (Ed i j) (Eq i j) -!mulnb !natrM !mulrDl !mulrDr !mulrA addrA.
Qed.

Lemma reduce_kronsum D Ds : fsq D -> AllP fsq Ds ->
  reduce1 (@dks2 R) (map dn (D :: Ds)) = Ok (dn (fkronsuml (D :: Ds))).
Proof.
move=> HD HDs; rewrite /=; congr Ok.
rewrite (@foldl_dn _ (@fkronsum R) fsq) //; first apply: dn_meq.
- apply: (@foldl_assoc _ _ fsq) => //.
  + exact: fkronsum_sq.
  + exact: fkronsum_0_r.
  + exact: fkronsum_assoc.
- by move=> A B HA HB; split; [apply: dks2_ok | apply: fkronsum_sq].
Qed.

Lemma flatten_vcat n (Ds : seq (fmat R)) : AllP (fun D => fc D = n) Ds ->
  flatten (map (@flat R) Ds) = flat (fvcatl n Ds).
Proof.
elim: Ds => [|D Ds IH] //= [HD HDs]; rewrite (IH HDs).
apply: (@flatE (fvcat D (fvcatl n Ds))) => [|i j /= Hi].
  by rewrite size_cat !size_flat /= fc_fvcatl HD mulnDl.
rewrite fc_fvcatl => Hj; rewrite nth_cat size_flat -HD.
case: ltnP => Hi'; case: (ltnP i (fr D)) => Hi'' //.
- by rewrite nth_flat // HD.
- by exfalso; move: Hi'; rewrite HD; nia.
- by exfalso; move: Hi'; rewrite HD; nia.
- rewrite HD.
  have -> : (i * n + j - fr D * n = (i - fr D) * n + j)%N.
    by rewrite mulnBl; have := leq_mul Hi'' (leqnn n); lia.
  have := @nth_flat R (fvcatl n Ds) (i - fr D) j; rewrite fc_fvcatl => -> //; lia.
Qed.

Lemma concat0_ok n Ds : (0 < size Ds)%N -> AllP (fun D => fc D = n) Ds ->
  concat0 (map dn Ds) = Ok (dn (fvcatl n Ds)).
Proof.
case: Ds => // D Ds _ H; have [HD HDs] := H.
rewrite -[concat0 _]/(if _ then _ else _).
have -> : all (fun b : darr R => b.1.2 == (dn D).1.2) (map dn (D :: Ds)).
  rewrite all_map; apply/(all_nthP D) => i Hi /=.
  by apply/eqP; rewrite (AllP_nth D H Hi) HD.
congr Ok; rewrite /dn fr_fvcatl fc_fvcatl -!map_comp.
congr (_, _, _) => //.
exact: flatten_vcat.
Qed.
End Dense.

Section ToDense.
Variable R : comRingType.
Variable conj : R -> R.
Implicit Types (A B : op R) (Ms : seq (op R)).

(** Every direct sum inside has at least one copy of some operand. *)
Fixpoint dsum_ne (A : op R) : bool :=
  match A with
  | ODsum Ms c => (0 < sumn c)%N && all dsum_ne Ms
  | OKron Ms | OKronsum Ms | OConcat Ms => all dsum_ne Ms
  | OProd A B => dsum_ne A && dsum_ne B
  | OScaled A _ => dsum_ne A
  | _ => true
  end.

Lemma mm_eye A : wf A -> acts (den A) (mm conj true A) ->
  rmap (pair (rows A, cols A)) (mm conj true A (cols A) (eye R (cols A))) = Ok (dn (den A)).
Proof.
move=> W H; have [Er Ec] := shape_den W.
rewrite H ?Ec ?size_mkseq //= /dn Er; congr (Ok (_, _)).
apply: flat_meq; apply: meq_trans (meq_fmul (meq_refl _) (unflat_flat (fid R (fc (den A)))) _) _ => //.
exact: fmul_id_r.
Qed.

Definition tdP (A : op R) : Prop :=
  wf A -> supp true A -> (plain A \/ forall x, conj x = x) -> dsum_ne A ->
  to_dense conj A = Ok (dn (den A)).

Lemma td_seq Ms : AllP tdP Ms -> all (@wf R) Ms -> all (supp true) Ms ->
  AllP (fun M => plain M \/ forall x, conj x = x) Ms -> all dsum_ne Ms ->
  sequence [seq to_dense conj M | M <- Ms] = Ok (map (@dn R) (map (@den R) Ms)).
Proof.
elim: Ms => //= M Ms IH [HM Hs] /andP[W Ws] /andP[S Ss] [P Ps] /andP[N Ns].
by rewrite HM // bindOk IH.
Qed.

Lemma expand_dn (Ds : seq (fmat R)) c :
  flatten [seq nseq p.2 p.1 | p <- zip (map (@dn R) Ds) c] = map (@dn R) (expand Ds c).
Proof.
elim: Ds c => [|D Ds IH] [|c cs] //=.
by rewrite IH -[expand (D :: Ds) _]/(nseq c D ++ expand Ds cs) map_cat map_nseq.
Qed.

Lemma size_expand (Ds : seq (fmat R)) c : size c = size Ds -> size (expand Ds c) = sumn c.
Proof.
elim: Ds c => [|D Ds IH] [|c cs] //= [/IH E].
by rewrite -[expand (D :: Ds) _]/(nseq c D ++ expand Ds cs) size_cat size_nseq E.
Qed.

Lemma to_dense_ok A : tdP A.
Proof.
elim/op_rect': A; rewrite /tdP.
- by move=> m n D /= /eqP W _ _ _; rewrite /dn /= flat_unflat.
- by move=> m n D /= /eqP W _ _ _; rewrite /dn /= flat_unflat.
- by move=> n W S P _; apply: mm_eye => //; have [H _] := mm_ok conj W; apply: H.
- move=> Ms IH W S /plain_all P N; have /and4P[L Ws _ _] := W.
  rewrite -[to_dense _ _]/(do Ds <- sequence [seq to_dense conj M | M <- Ms]; reduce1 (@dk2 R) Ds).
  rewrite td_seq // bindOk.
  by case: Ms L {IH W S P N Ws} => // M Ms _; apply: reduce_kron.
- move=> Ms IH W S /plain_all P N; have /and4P[L Ws _ Hsq] := W.
  rewrite -[to_dense _ _]/(do Ds <- sequence [seq to_dense conj M | M <- Ms]; reduce1 (@dks2 R) Ds).
  rewrite td_seq // bindOk.
  have HS : AllP (@fsq R) (map (@den R) Ms).
    have := sq_dens Ws Hsq; elim: (map _ Ms) => //= D Ds IHl /andP[/eqP ? /IHl]; by split.
  by case: Ms L HS {IH W S P N Ws Hsq} => // M Ms _ [? ?]; apply: reduce_kronsum.
- move=> Ms IH W S /plain_all P N; have /and4P[L Ws _ Hc] := W.
  rewrite -[to_dense _ _]/(do Ds <- sequence [seq to_dense conj M | M <- Ms]; concat0 Ds).
  rewrite td_seq // bindOk; apply: concat0_ok; first by rewrite size_map.
  have Hd : head 0%N [seq fc (den M) | M <- Ms] = head 0%N (map (@cols R) Ms).
    by case: Ms {IH L W Hc S P N} Ws => //= M Ms /andP[/shape_den[_ ->]].
  rewrite Hd; elim: Ms {IH L W S P N Hd} (head _ _) Ws Hc => //= M Ms IH n.
  by move=> /andP[/shape_den[_ E] Ws] /andP[/eqP Hn Hc]; split; [rewrite -E | apply: IH].
- move=> Ms c IH W S /plain_all P /andP[N Ns]; have /and4P[L /eqP Sc Ws _] := W.
  rewrite -[to_dense _ _]/(do Ds <- sequence [seq to_dense conj M | M <- Ms];
      Ok (block_diag (flatten [seq nseq p.2 p.1 | p <- zip Ds c]))).
  rewrite td_seq // bindOk expand_dn block_diag_ok // size_expand //.
  by rewrite size_map.
- move=> m n Ms c pre post IH W S P N; apply: mm_eye => //; have [H _] := mm_ok conj W; exact: H.
- by move=> p W S P _; apply: mm_eye => //; have [H _] := mm_ok conj W; apply: H.
- by move=> n k W S P _; apply: mm_eye => //; have [H _] := mm_ok conj W; apply: H.
- by move=> sw n W S P _; apply: mm_eye => //; have [H _] := mm_ok conj W; apply: H.
- by move=> n k W S P _; apply: mm_eye => //; have [H _] := mm_ok conj W; apply: H.
- by move=> A B IA IB W S P _; apply: mm_eye => //; have [H _] := mm_ok conj W; apply: H.
- move=> A B IA IB W /andP[SA SB] P /andP[NA NB]; have /and5P[_ _ WA WB /eqP E] := W.
  have [_ EAc] := shape_den WA; have [EBr _] := shape_den WB.
  have PA : plain A \/ forall x, conj x = x by case: P => [/andP[]|]; [left | right].
  have PB : plain B \/ forall x, conj x = x by case: P => [/andP[]|]; [left | right].
  rewrite /= (IA WA SA PA NA) bindOk (IB WB SB PB NB) bindOk /=.
  have Efm : fc (den A) = fr (den B) by rewrite -EAc -EBr.
  rewrite Efm eqxx /=.
  have := @acts_matmul R (fr (den A)) (fr (den B)) (flat (den A)).
  move=> /(_ (fc (den B)) (flat (den B))); rewrite size_flat => /(_ erefl) [->].
  congr (Ok (_, _)); apply: flat_meq; apply: meq_fmul => //=; last exact: unflat_flat.
  by rewrite -Efm; apply: unflat_flat.
- move=> A a IA W S P N; have /andP[_ WA] := W.
  rewrite /= (IA WA S P N) bindOk /dn /=; congr (Ok (_, _)).
  by rewrite /vscale /flat /mkseq /= -map_comp.
- move=> A p IA W S P N; apply: mm_eye => //; have [H _] := mm_ok conj W; exact: H.
- move=> A IA W S P N; apply: mm_eye => //; have [H _] := mm_ok conj W; exact: H.
- move=> A IA W S P N; apply: mm_eye => //; have [H _] := mm_ok conj W; exact: H.
Qed.
End ToDense.

Section Adjoint.
Variable R : comRingType.
Variables (conj : R -> R).
Hypothesis Hc : forall x, conj x = x.
Implicit Types (A B : op R) (Ms : seq (op R)).

Lemma ftr_unflat m n (D : seq R) : meq (unflat n m (tr2 0 m n D)) (ftr (unflat m n D)).
Proof. by split=> //= i j Hi Hj; rewrite nth_tr2. Qed.

(** .T : an operator for the transposed matrix *)
Lemma transpose_ok A : wf A ->
  [/\ wf (transpose A), meq (den (transpose A)) (ftr (den A)),
      rows (transpose A) = cols A, cols (transpose A) = rows A &
      supp true (transpose A) = supp false A].
Proof.
case: A => [m n D|m n D|n|Ms|Ms|Ms|Ms c|m n Ms c pre post|p|n k|sw n|n k|A B|A B|A a|A p|A|A] W;
  try by split=> //; try exact: W; try exact: meq_refl.
split=> //; [by rewrite /= size_tr2 mulnC | exact: ftr_unflat].
Qed.

Lemma transposes_ok Ms : all (@wf R) Ms ->
  [/\ all (@wf R) (map (@transpose R) Ms), map (@rows R) (map (@transpose R) Ms) = map (@cols R) Ms,
      map (@cols R) (map (@transpose R) Ms) = map (@rows R) Ms &
      all (supp true) (map (@transpose R) Ms) = all (supp false) Ms].
Proof.
elim: Ms => //= M Ms IH /andP[/transpose_ok[-> _ -> -> ->] /IH[-> -> -> ->]]; by split.
Qed.

Lemma all_map_eq (T : Type) (U : eqType) (f : T -> U) (P : pred U) (l : seq T) :
  all (fun x => P (f x)) l = all P (map f l).
Proof. by rewrite all_map. Qed.

Fixpoint AllP2 {T U : Type} (P : T -> U -> Prop) (l : seq T) (l' : seq U) : Prop :=
  match l, l' with
  | [::], [::] => True
  | x :: l, y :: l' => P x y /\ AllP2 P l l'
  | _, _ => False
  end.

Lemma meq_fkronl Ds Es : AllP2 (@meq R) Ds Es -> meq (fkronl Ds) (fkronl Es).
Proof. by elim: Ds Es => [|D Ds IH] [|E Es] //= [H /IH Hs]; apply: meq_fkron. Qed.

Lemma meq_fkronsuml Ds Es : all (fun D => fr D == fc D) Ds ->
  AllP2 (@meq R) Ds Es -> meq (fkronsuml Ds) (fkronsuml Es).
Proof.
elim: Ds Es => [|D Ds IH] [|E Es] //= /andP[/eqP Hsq Hsqs] [H Hs].
by apply: meq_fkronsum => //; [apply: IH | apply: sq_fkronsuml].
Qed.

Lemma AllP2_transposes Ms : all (@wf R) Ms ->
  AllP2 (@meq R) (map (@den R) (map (@transpose R) Ms)) (map (@ftr R) (map (@den R) Ms)).
Proof.
by elim: Ms => //= M Ms IH /andP[/transpose_ok[_ H _ _ _] /IH]; split.
Qed.

Definition adjP A : Prop := forall B, wf A -> adjoint conj A = Ok B ->
  [/\ is_op B, wf B, meq (den B) (ftr (den A)), shape B = (cols A, rows A) &
      supp false A -> supp true B].

Lemma mkKron_gt1 Ms : (1 < size Ms)%N -> mkKron Ms = Ok (OKron Ms).
Proof. by case: Ms => [|M [|M' Ms]] //; case: M. Qed.
Lemma mkKronsum_gt1 Ms : (1 < size Ms)%N -> mkKronsum Ms = Ok (OKronsum Ms).
Proof. by case: Ms => [|M [|M' Ms]] //; case: M. Qed.

Lemma adjoint_ok A : adjP A.
Proof.
elim/op_rect': A => //.
- by move=> m n D B W [<-]; split.
- by move=> n B W [<-]; split=> //; apply: meq_sym; apply: ftr_fid.
- move=> Ms _ B W /=; have /and4P[L Ws Hr Hcs] := W.
  rewrite mkKron_gt1 ?size_map // => -[<-].
  have [T1 T2 T3 T4] := transposes_ok Ws; split=> //.
  + rewrite /= size_map L T1 (all_map_eq (@rows R) (fun x => 0 < x)%N) T2 -all_map_eq Hcs.
    by rewrite (all_map_eq (@cols R) (fun x => 0 < x)%N) T3 -all_map_eq Hr.
  + rewrite /=; apply: meq_trans (meq_sym (ftr_fkronl _)).
    by apply: meq_fkronl; apply: AllP2_transposes.
  + by move: T2 T3; rewrite /rows /cols /= => -> ->.
  + by rewrite /= T4.
- move=> Ms _ B W /=; have /and4P[L Ws Hr Hsq] := W.
  rewrite mkKronsum_gt1 ?size_map // => -[<-].
  have [T1 T2 T3 T4] := transposes_ok Ws.
  have Hsq' : all (fun M => rows M == cols M) (map (@transpose R) Ms).
    elim: Ms Ws Hsq {W L Hr T1 T2 T3 T4} => //= M Ms IH /andP[/transpose_ok[_ _ -> -> _] Ws].
    by rewrite eq_sym => /andP[-> Hs]; apply: IH.
  split=> //.
  + rewrite /= size_map L T1 Hsq' andbT /= (all_map_eq (@rows R) (fun x => 0 < x)%N) T2.
    elim: Ms Hr Hsq {W L T1 T2 T3 T4 Ws Hsq'} => //= M Ms IH /andP[H1 H2] /andP[/eqP <- H3].
    by rewrite H1 IH.
  + rewrite /=; apply: meq_trans (meq_sym (ftr_fkronsuml _)); last exact: sq_dens.
    apply: meq_fkronsuml; last exact: AllP2_transposes.
    exact: sq_dens.
  + by move: T2 T3; rewrite /rows /cols /= => -> ->.
  + by rewrite /= T4.
- by move=> Ms _ B W [<-]; split=> //; apply: meq_refl.
- by move=> m n Ms c pre post _ B W [<-]; split=> //; apply: meq_refl.
- move=> p B W [<-]; split=> //.
  + by rewrite /= size_argsort; apply: argsort_perm.
  + by rewrite /= size_argsort; apply: meq_sym; apply: ftr_perm.
  + by rewrite /= size_argsort.
- by move=> n k B W [<-]; split=> //; apply: meq_sym; apply: ftr_shift.
- by move=> sw n B /andP[U H] [<-]; split=> //; [rewrite /= U H | apply: meq_sym; apply: ftr_swap].
- by move=> n k B W [<-]; split=> //; apply: meq_refl.
- move=> A1 A2 I1 I2 B W /=; have /and5P[_ _ W1 W2 /eqP E] := W.
  case E1: (adjoint conj A1) => [B1|//]; case E2: (adjoint conj A2) => [B2|//] /=.
  have [O1 V1 M1 S1 P1] := I1 _ W1 E1; have [O2 V2 M2 S2 P2] := I2 _ W2 E2.
  have Es : shape B1 = shape B2 by rewrite S1 S2 /rows /cols E.
  rewrite /mkSum O1 O2 /= Es eqxx /= => -[<-]; split=> //.
  + by rewrite /= O1 O2 V1 V2 Es eqxx.
  + have [H1 H2] := shape_den V1; have [H3 H4] := shape_den V2.
    have F1 : fr (den B1) = fr (den B2) by rewrite -H1 -H3 /rows Es.
    have F2 : fc (den B1) = fc (den B2) by rewrite -H2 -H4 /cols Es.
    exact (meq_fadd M1 M2 F1 F2).
  + by move=> /= /andP[/P1 -> /P2 ->].
- move=> A1 A2 I1 I2 B W /=; have /and5P[_ _ W1 W2 /eqP E] := W.
  case E2: (adjoint conj A2) => [B2|//]; case E1: (adjoint conj A1) => [B1|//] /=.
  have [O1 V1 M1 S1 P1] := I1 _ W1 E1; have [O2 V2 M2 S2 P2] := I2 _ W2 E2.
  have Es : cols B2 = rows B1 by rewrite /cols /rows S1 S2 /= E.
  rewrite /mkProd O1 O2 /= Es eqxx /= => -[<-]; split=> //.
  + by rewrite /= O1 O2 V1 V2 Es eqxx.
  + apply: meq_trans (meq_sym (ftr_fmul _)); last first.
      by have [_ <-] := shape_den W1; have [<- _] := shape_den W2.
    apply: meq_fmul => //.
    by have [_ <-] := shape_den V2; have [<- _] := shape_den V1.
  + by rewrite /= S1 S2.
  + by move=> /= /andP[/P1 -> /P2 ->].
- move=> A1 a I1 B W /=; have /andP[_ W1] := W.
  case E1: (adjoint conj A1) => [B1|//] /=.
  have [O1 V1 M1 S1 P1] := I1 _ W1 E1.
  rewrite /mkScaled O1 => -[<-]; split=> //=; first by rewrite O1.
  by case: M1 => h1 h2 h; split=> //= i j Hi Hj; rewrite Hc h.
- move=> A1 p I1 B W /=; have /and3P[_ W1 /eqP E] := W.
  case E1: (adjoint conj A1) => [B1|//] /=.
  have [O1 V1 M1 S1 P1] := I1 _ W1 E1.
  have Es : rows B1 = cols B1 by rewrite /rows /cols S1 /= E.
  rewrite /mkPow O1 Es eqxx /= => -[<-]; split=> //=; first by rewrite O1 V1 Es eqxx.
  have [H1 H2] := shape_den W1; have [H3 H4] := shape_den V1.
  apply: meq_trans (meq_sym (ftr_fpow p _)); last by rewrite -H1 -H2.
  by apply: meq_fpow => //; rewrite -H3 -H4.
- by move=> A1 _ B W [<-]; split=> //; apply: meq_refl.
- by move=> A1 _ B W [<-]; split=> //; apply: meq_refl.
Qed.

(** .H exists for every operator without a direct sum in the way *)
Lemma adjoint_ex A : is_op A -> wf A -> supp false A -> exists B, adjoint conj A = Ok B.
Proof.
elim/op_rect': A => //=.
- by move=> m n D; exists (OAdj (OLazy m n D)).
- by move=> n; exists (OI R n).
- by move=> Ms _ _ /and4P[L _ _ _] _; rewrite mkKron_gt1 ?size_map //; eexists.
- by move=> Ms _ _ /and4P[L _ _ _] _; rewrite mkKronsum_gt1 ?size_map //; eexists.
- by move=> p; eexists.
- by move=> n k; eexists.
- by move=> sw n; eexists.
- move=> A1 A2 I1 I2 _ /and5P[O1 O2 W1 W2 /eqP E] /andP[S1 S2].
  have [B1 E1] := I1 O1 W1 S1; have [B2 E2] := I2 O2 W2 S2.
  have [P1 _ _ Sh1 _] := adjoint_ok W1 E1; have [P2 _ _ Sh2 _] := adjoint_ok W2 E2.
  by rewrite E1 E2 /= /mkSum P1 P2 /= Sh1 Sh2 /rows /cols E eqxx; eexists.
- move=> A1 A2 I1 I2 _ /and5P[O1 O2 W1 W2 /eqP E] /andP[S1 S2].
  have [B1 E1] := I1 O1 W1 S1; have [B2 E2] := I2 O2 W2 S2.
  have [P1 _ _ Sh1 _] := adjoint_ok W1 E1; have [P2 _ _ Sh2 _] := adjoint_ok W2 E2.
  by rewrite E1 E2 /= /mkProd P1 P2 /= /rows /cols Sh1 Sh2 /= E eqxx; eexists.
- move=> A1 a I1 _ /andP[O1 W1] S1; have [B1 E1] := I1 O1 W1 S1.
  have [P1 _ _ Sh1 _] := adjoint_ok W1 E1.
  by rewrite E1 /= /mkScaled P1; eexists.
- move=> A1 p I1 _ /and3P[O1 W1 /eqP E] S1; have [B1 E1] := I1 O1 W1 S1.
  have [P1 _ _ Sh1 _] := adjoint_ok W1 E1.
  by rewrite E1 /= /mkPow P1 /= /rows /cols Sh1 /= E eqxx; eexists.
- by move=> A1 _ _ _ _; eexists.
- by move=> A1 _ _ _ _; eexists.
Qed.

Lemma sumn_rows Ms h : all (fun M => rows M == h) Ms ->
  rows (OConcat Ms) = (size Ms * h)%N.
Proof.
rewrite /rows /=; elim: Ms => //= M Ms IH /andP[/eqP E /IH ->].
by rewrite mulSn; congr (_ + _)%N.
Qed.

Lemma concatT_aux i h t K k : ((i.+1 * h + t) * K + k = (i * h + (h + t)) * K + k)%N.
Proof. by rewrite mulSn [(h + i * h)%N]addnC addnA. Qed.

(** ConcatLazy.T on at least two columns *)
Lemma concatT_ok Ms K X : wf (OConcat Ms) -> all (supp false) Ms -> K != 1%N ->
  size X = (rows (OConcat Ms) * K)%N ->
  mm conj false (OConcat Ms) K X =
  Ok (flat (fmul (ftr (den (OConcat Ms))) (unflat (rows (OConcat Ms)) K X))).
Proof.
move=> W S K1 SX; have [Er Ec] := shape_den W.
have /and4P[L Ws Hr Hcs] := W.
set h := head 0%N _ in Hr *; set w := cols (OConcat Ms).
have Hw : all (fun M => cols M == w) Ms by apply: sub_all Hcs => M /eqP ->; exact: eqxx.
set go := (fix go (i : nat) (l : seq (op R)) : seq (res (seq R)) :=
                     match l with
                     | [::] => [::]
                     | M :: l' =>
                         let V := srows K (i * h) (i.+1 * h) X in
                         (if is_op M then rmap (map conj) (mm conj false M K (map conj V))
                          else mm conj false M K V) :: go i.+1 l'
                     end).
have -> : mm conj false (OConcat Ms) K X =
  (do ys' <- sequence (go 0%N Ms); Ok (vsum ys' (nseq (w * K) 0))).
  rewrite -[LHS]/(if size X != (rows (OConcat Ms) * K)%N then _ else _) SX eqxx.
  by rewrite -[LHS]/(if K == 1%N then _ else _) (negbTE K1).
have G l i : all (@wf R) l -> all (supp false) l -> all (fun M => rows M == h) l ->
   all (fun M => cols M == w) l -> ((i + size l) * h * K <= size X)%N ->
   exists ys, [/\ sequence (go i l) = Ok ys, all (fun y => size y == w * K)%N ys &
     forall acc, size acc = (w * K)%N ->
       size (vsum ys acc) = (w * K)%N /\
       forall j k, (j < w)%N -> (k < K)%N ->
       nth 0 (vsum ys acc) (j * K + k)%N = nth 0 acc (j * K + k)%N +
         \sum_(0 <= t < size l * h) fe (fvcatl w (map (@den R) l)) t j * nth 0 X ((i * h + t) * K + k)%N].
  elim: l i => [|M l IH] i.
    move=> _ _ _ _ _; exists [::]; split=> // acc Sa; split=> // j k Hj Hk.
    by rewrite /= mul0n big_geq // addr0.
  move=> /andP[WM Wl] /andP[SM Sl] /andP[/eqP RM Rl] /andP[/eqP CM Cl] Hsz.
  have [ys [Eys Hys Hsum]] : exists ys, [/\ sequence (go i.+1 l) = Ok ys, all (fun y => size y == w * K)%N ys &
     forall acc, size acc = (w * K)%N ->
       size (vsum ys acc) = (w * K)%N /\
       forall j k, (j < w)%N -> (k < K)%N ->
       nth 0 (vsum ys acc) (j * K + k)%N = nth 0 acc (j * K + k)%N +
         \sum_(0 <= t < size l * h) fe (fvcatl w (map (@den R) l)) t j * nth 0 X ((i.+1 * h + t) * K + k)%N].
    by apply: IH => //; rewrite addSnnS.
  have [_ HM] := mm_ok conj WM; have {}HM := HM SM Hc.
  have [MR MC] := shape_den WM.
  set V := srows K (i * h) (i.+1 * h) X.
  have SV : size V = (fc (ftr (den M)) * K)%N.
    rewrite /V /srows size_slice /= -?MR ?RM; first by rewrite -mulnBl -mulnBl subSnn mul1n.
      by rewrite leq_mul2r leq_mul2r leqnSn !orbT.
    by apply: leq_trans Hsz; rewrite leq_mul2r leq_mul2r addnS ltnS leq_addr !orbT.
  have [Y [EY SY HY]] := actsP HM SV.
  exists (Y :: ys); split.
  - rewrite /= -/V map_conj_id // rmap_conj_id // EY.
    by case: (is_op M); rewrite bindOk Eys.
  - by rewrite /= SY /= -MC CM eqxx.
  move=> acc Sa.
  have SaY : size acc = size Y by rewrite Sa SY /= -MC CM.
  have [] := Hsum (vadd acc Y) _; first by rewrite size_vadd.
  move=> S1 H1; split=> //= j k Hj Hk.
  rewrite H1 // nth_vadd // -addrA; congr (_ + _).
  rewrite HY ?/= -?MC ?CM // mulSn sum_add -MR RM; congr (_ + _).
    apply: eq_sum => t Ht; rewrite Ht; congr (_ * _).
    rewrite /V /srows nth_slice; first by rewrite mulnDl addnA.
    by rewrite mulSn mulnDl addnC ltn_add2r idx_lt.
  apply: eq_sum => t Ht; rewrite ltnNge leq_addr /= addKn; congr (_ * nth _ _ _).
  exact: concatT_aux.
have [] := G Ms 0%N Ws S Hr Hw.
  by rewrite SX add0n (sumn_rows Hr).
move=> ys [Eys Hys Hsum]; rewrite Eys bindOk; congr Ok.
have [] := Hsum (nseq (w * K) 0) _; first by rewrite size_nseq.
have Hd : head 0%N [seq fc (den M) | M <- Ms] = w.
  by rewrite /w Ec /= fc_fvcatl.
have Ef : (size Ms * h)%N = rows (OConcat Ms).
  by rewrite (sumn_rows Hr).
move=> S1 H1; rewrite Er; apply: flatP; first by rewrite S1 /= fc_fvcatl Hd.
rewrite /= fc_fvcatl Hd => j k Hj Hk; rewrite H1 // nth_nseq if_same add0r Ef Er /= Hd.
by apply: eq_sum => t Ht; rewrite mul0n add0n.
Qed.

End Adjoint.
