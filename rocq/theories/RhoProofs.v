(** * RhoProofs: the operators returned by rho and drho have the matrices [rmat] and
    [dmat] of the representation. *)
From mathcomp Require Import all_ssreflect all_algebra.
From mathcomp Require Import zify.
From Verif Require Import Np NpLemmas Spec SpecLemmas LinOp LinOpSpec LinOpProofs LinOpMM LinOpMore LinOpInv LinOpThm Rep RepSpec RepMat RepWf RepProd RepAlg RepDist RepMul RepFun RepOps.
Set Implicit Arguments.
Unset Strict Implicit.
Unset Printing Implicit Defensive.
Import GRing.Theory.
Local Open Scope ring_scope.

Section DMat.
Variable R : comRingType.
Variable atom : rep -> fmat R.
(** the matrix of the Lie algebra action, given those of the atoms *)
Fixpoint dmat (r : rep) : fmat R :=
  match r with
  | RScalar => fzero R 1 1
  | RSum d p => fscat p (fdsuml (flatten [seq nseq x.2 (dmat x.1) | x <- d]))
  | RProd d p | RDir d p => fscat p (fkronsuml (flatten [seq nseq x.2 (dmat x.1) | x <- d]))
  | RDefSum _ | RDefProd _ => fzero R 0 0
  | _ => atom r
  end.
Lemma dexp_dmat d : flatten [seq nseq x.2 (dmat x.1) | x <- d] = [seq dmat r | r <- dexp d].
Proof.
rewrite /dexp map_flatten -map_comp; congr flatten; apply: eq_map => x /=.
by rewrite map_nseq.
Qed.
End DMat.

Section Ops.
Variable R : comRingType.
Variable conj : R -> R.

Local Notation gop := (gop conj).

Lemma gop_dense n A : gop n A -> to_dense conj A = Ok (n, n, flat (den A)).
Proof.
case=> W S D P Sh; rewrite (to_dense_ok W S P D) /dn.
by have [<- <-] := shape_den W; rewrite /rows /cols Sh.
Qed.
Lemma gop_sz n A : gop n A -> fr (den A) = n /\ fc (den A) = n.
Proof. by case=> W _ _ _ Sh; have [<- <-] := shape_den W; rewrite /rows /cols Sh. Qed.

Lemma conjp_ok n p A : is_op A -> gop n A -> is_perm n p ->
  exists2 B, conjp p A = Ok B & [/\ is_op B, gop n B & meq (den B) (fscat p (den A))].
Proof.
move=> OA GA Pp; have [W S D P Sh] := GA; have [Er Ec] := gop_sz GA.
have Sp := is_perm_size Pp; have Pq := argsort_perm Pp; have Sq := is_perm_size Pq.
rewrite /conjp /mkProd OA /= /cols /rows Sh /= Sq Sp !eqxx /=.
rewrite Sh /= eqxx /=; eexists; first by [].
split=> //; first split=> //=.
- by rewrite OA W /= Sq Sp Pp Pq /cols /rows /= Sh /= Sq Sp !eqxx.
- by rewrite S.
- by rewrite D.
- by case: P => P; [left; rewrite P | right].
- by rewrite Sq Sp.
split=> /=; rewrite ?Sq ?Sp // => x y Hx Hy; rewrite Ec.
have Hqx : (index x p < n)%N by rewrite -Sp index_mem (is_perm_mem _ Pp).
have Hqy : (index y p < n)%N by rewrite -Sp index_mem (is_perm_mem _ Pp).
rewrite (eq_big_nat _ _ (F2 := fun j => (index y p == j)%:R * fe (den A) (index x p) j)).
  by rewrite sum_delta.
move=> j /andP[_ Hj]; rewrite mulrC; congr (_%:R * _).
  congr nat_of_bool; apply/eqP/eqP=> [<-|<-]; first by rewrite index_uniq ?(is_perm_uniq Pp) ?Sp.
  by rewrite nth_index // (is_perm_mem _ Pp).
rewrite (nth_argsort Pp) //; by rewrite (sum_delta (fun i => fe (den A) i j)).
Qed.
End Ops.

Section Lists.
Variable R : comRingType.
Variable conj : R -> R.
Variables (gdim : gid -> nat) (csize : nat -> gid -> nat).
Local Notation sz := (rsize gdim csize).
Variable f : rep -> gel R -> res (op R).

Definition rhos_fix := fix rhos (M : gel R) (d : seq (rep * nat)) : res (seq (op R)) :=
    match d with [::] => Ok [::] | (k, _) :: d' => do A <- f k M; do l <- rhos M d'; Ok (A :: l) end.
Definition rhosc_fix := fix rhosc (M : gel R) (d : seq (rep * nat)) : res (seq (op R)) :=
    match d with
    | [::] => Ok [::]
    | (k, c) :: d' =>
        do As <- (if c is 0 then Ok [::] else do A <- f k M; Ok (nseq c A));
        do l <- rhosc M d'; Ok (As ++ l)
    end.

Lemma rhos_val M (v : rep -> op R) d : (forall k, k \in keys d -> f k M = Ok (v k)) ->
  rhos_fix M d = Ok [seq v k | k <- keys d].
Proof.
elim: d => [|[k c] d IH] //= H; rewrite H ?mem_head //= IH //.
by move=> x Hx; apply: H; rewrite inE Hx orbT.
Qed.
Lemma rhosc_val M (v : rep -> op R) d : (forall k, k \in keys d -> f k M = Ok (v k)) ->
  rhosc_fix M d = Ok [seq v k | k <- dexp d].
Proof.
elim: d => [|[k c] d IH] //= H; rewrite IH; last by move=> x Hx; apply: H; rewrite inE Hx orbT.
case: c => [|c] //=; rewrite H ?mem_head //=.
by rewrite map_cat map_nseq.
Qed.

Lemma expand_dexp (v : rep -> fmat R) d : expand [seq v k | k <- keys d] (vals d) = [seq v k | k <- dexp d].
Proof.
elim: d => [|[k c] d IH] //=; rewrite /dexp /= map_cat map_nseq.
by rewrite -/(dexp d) -IH.
Qed.

Section G.
Variables (v : rep -> op R).
Let gv k := gop conj (sz k) (v k).

Lemma all_v (P : pred (op R)) l : (forall k, k \in l -> P (v k)) -> all P [seq v k | k <- l].
Proof. by move=> H; rewrite all_map; apply/allP. Qed.

Lemma plain_or l : (forall k, k \in l -> gv k) -> all (@plain R) [seq v k | k <- l] \/ (forall x, conj x = x).
Proof.
elim: l => [|k l IH] H; first by left.
have [_ _ _ [P|P] _] := H k (mem_head _ _); last by right.
have [|Pl|] := IH; [by move=> x Hx; apply: H; rewrite inE Hx orbT | | by right].
by left; rewrite /= P Pl.
Qed.

Lemma shapes l : (forall k, k \in l -> gv k) -> [seq shape M | M <- [seq v k | k <- l]] = [seq (sz k, sz k) | k <- l].
Proof. by move=> H; rewrite -map_comp; apply/eq_in_map => k /H[_ _ _ _ /= ->]. Qed.

Lemma gop_dsum d : ~~ nilp d -> all (leq 1) (vals d) -> (forall k, k \in keys d -> gv k) ->
  gop conj (sumn [seq (sz x.1 * x.2)%N | x <- d]) (ODsum [seq v k | k <- keys d] (vals d)).
Proof.
move=> N C H.
have E1 : [seq (shape M).1 | M <- [seq v k | k <- keys d]] = [seq sz k | k <- keys d].
  by rewrite (map_comp fst (@shape R)) shapes // -map_comp.
split.
- rewrite /= !size_map eqxx lt0n [size d == 0%N](negbTE N) /=.
  by apply/andP; split; apply: all_v => k /H[W _ _ _ Sh] //=; rewrite /rows /cols Sh.
- by apply: all_v => k /H[].
- rewrite /=; apply/andP; split; last by apply: all_v => k /H[].
  by case: d N C {H E1} => [|[k c] d] //= _ /andP[H _]; rewrite addn_gt0 H.
- exact: plain_or.
rewrite /= E1; congr (_, _); congr sumn;
  by elim: d {N C H E1} => [|[k c] d IH] //=; rewrite IH.
Qed.

Lemma prod_sz l : (forall k, k \in l -> gv k) ->
  [seq (shape M).1 | M <- [seq v k | k <- l]] = [seq sz k | k <- l] /\
  [seq (shape M).2 | M <- [seq v k | k <- l]] = [seq sz k | k <- l].
Proof. by move=> H; split; rewrite (map_comp _ (@shape R)) shapes // -map_comp. Qed.

Lemma gop_kron l : (1 < size l)%N -> (forall k, k \in l -> gv k /\ (0 < sz k)%N) ->
  gop conj (prodn [seq sz k | k <- l]) (OKron [seq v k | k <- l]).
Proof.
move=> N H; have H1 k : k \in l -> gv k by case/H.
have [E1 E2] := prod_sz H1; split.
- by rewrite /= size_map N /=; apply/and3P; split; apply: all_v => k /H[[W _ _ _ Sh] P] //=; rewrite /rows /cols Sh.
- by apply: all_v => k /H1[].
- by apply: all_v => k /H1[].
- exact: plain_or.
by rewrite /= E1 E2.
Qed.
Lemma gop_kronsum l : (1 < size l)%N -> (forall k, k \in l -> gv k /\ (0 < sz k)%N) ->
  gop conj (prodn [seq sz k | k <- l]) (OKronsum [seq v k | k <- l]).
Proof.
move=> N H; have H1 k : k \in l -> gv k by case/H.
have [E1 E2] := prod_sz H1; split.
- by rewrite /= size_map N /=; apply/and3P; split; apply: all_v => k /H[[W _ _ _ Sh] P] //=; rewrite /rows /cols Sh.
- by apply: all_v => k /H1[].
- by apply: all_v => k /H1[].
- exact: plain_or.
by rewrite /= E1 E2.
Qed.
End G.
End Lists.

Section Abs.
Variable R : comRingType.
Variable conj : R -> R.
Variables (gdim : gid -> nat) (csize : nat -> gid -> nat) (le : rel rep) (gs : pred gid).
Local Notation sz := (rsize gdim csize).
Local Notation atomic := (atomic gdim csize gs).
Local Notation wfr := (wfr gdim csize le gs).
Variable f : rep -> gel R -> res (op R).
Variables (S1 : op R) (mk : seq (op R) -> res (op R)) (K : seq (op R) -> op R).
Variables (kl : seq (fmat R) -> fmat R) (F : rep -> fmat R) (atom : rep -> fmat R).
Variable M : gel R.

(** f is defined on the atoms, and the same whether it is given the whole
    dictionary of group elements or the one of the atom's group *)
Definition rel_ok : Prop := forall k, atomic k -> exists2 A, f k M = Ok A &
  gop conj (sz k) A /\
  (forall G, gattr k = Some G -> exists2 M', glook M G = Ok M' & f k (GMat M') = Ok A).
Definition atomf (k : rep) : fmat R := if f k M is Ok A then den A else fzero R 0 0.

Hypothesis Hscal : f RScalar M = Ok S1.
Hypothesis GS1 : gop conj 1 S1.
Hypothesis FS1 : meq (den S1) (F RScalar).
Hypothesis Hsum : forall d p, f (RSum d p) M =
  do As <- rhos_fix f M d; do D <- mkDsum As (Some (vals d)); conjp p D.
Hypothesis Hprod : forall d p, f (RProd d p) M =
  do M' <- (if gattr (RProd d p) is Some G then glook M G else Err AttributeError);
  do As <- rhosc_fix f (GMat M') d; do K <- mk As; conjp p K.
Hypothesis Hdir : forall d p, f (RDir d p) M = do As <- rhosc_fix f M d; do K <- mk As; conjp p K.
Hypothesis Hmk : forall l, (1 < size l)%N -> mk l = Ok (K l) /\ is_op (K l).
Hypothesis Hden : forall l, den (K l) = kl (map (@den R) l).
Hypothesis HgK : forall (v : rep -> op R) l, (1 < size l)%N ->
  (forall k, k \in l -> gop conj (sz k) (v k) /\ (0 < sz k)%N) ->
  gop conj (prodn [seq sz k | k <- l]) (K [seq v k | k <- l]).
Hypothesis Hkl : forall (v w : rep -> fmat R) l, (forall k, k \in l -> meq (v k) (w k) /\ fr (v k) = fc (v k)) ->
  meq (kl (map v l)) (kl (map w l)).
Hypothesis Fsum : forall d p, F (RSum d p) = fscat p (fdsuml (map F (dexp d))).
Hypothesis Fprod : forall d p, F (RProd d p) = fscat p (kl (map F (dexp d))).
Hypothesis Fdir : forall d p, F (RDir d p) = fscat p (kl (map F (dexp d))).
Hypothesis Fatom : forall k, atomic k -> F k = atomf k.
Hypothesis HM : rel_ok.

Definition okf (r : rep) : Prop := exists2 A, f r M = Ok A & gop conj (sz r) A /\ meq (den A) (F r).
Let v (M : gel R) (k : rep) : op R := if f k M is Ok A then A else OI R 0.

Lemma okv r : okf r -> [/\ f r M = Ok (v M r), gop conj (sz r) (v M r) & meq (den (v M r)) (F r)].
Proof. by case=> A E [G H]; rewrite /v E. Qed.

Lemma okf_atomic k : atomic k -> okf k.
Proof.
move=> A; have [X E [G _]] := HM A; exists X => //; split=> //.
by rewrite Fatom // /atomf E; apply: meq_refl.
Qed.

Lemma size_dexp d : size (dexp d) = sumn (vals d).
Proof. by elim: d => [|[k c] d IH] //; rewrite /dexp /= size_cat size_nseq IH. Qed.

(** the common end of the ProductRep and DirectProduct cases *)
Lemma kron_end d p (w : rep -> op R) : (1 < sumn (vals d))%N ->
  (forall k, k \in keys d -> [/\ gop conj (sz k) (w k), (0 < sz k)%N & meq (den (w k)) (F k)]) ->
  is_perm (sz (RProd d p)) p ->
  exists2 A, (do B <- mk [seq w k | k <- dexp d]; conjp p B) = Ok A &
    gop conj (sz (RProd d p)) A /\ meq (den A) (fscat p (kl (map F (dexp d)))).
Proof.
move=> N H P.
have H' k : k \in dexp d -> [/\ gop conj (sz k) (w k), (0 < sz k)%N & meq (den (w k)) (F k)].
  by move=> /dexp_in; apply: H.
have [|-> OK] := Hmk (l := [seq w k | k <- dexp d]); first by rewrite size_map size_dexp.
rewrite bindOk.
have Es : sz (RProd d p) = prodn [seq sz k | k <- dexp d].
  by rewrite prodn_dexp.
have GK : gop conj (sz (RProd d p)) (K [seq w k | k <- dexp d]).
  rewrite Es; apply: HgK; first by rewrite size_dexp.
  by move=> k /H'[].
have [B -> [OB GB MB]] := conjp_ok OK GK P; exists B => //; split=> //.
apply: meq_trans MB _; have [Er Ec] := gop_sz GK; apply: meq_fscat; rewrite ?Er ?Ec //.
by rewrite Hden -map_comp; apply: Hkl => k /H'[/gop_sz[/= -> ->]].
Qed.

Lemma okf_isprod r : isprod gdim csize le gs r -> okf r.
Proof.
case: r => // d p /andP[/and3P[/and5P[N A U So C] N2 G] P].
have [k0 Hk0 EG] : exists2 k0, k0 \in keys d & gattr (RProd d p) = gattr k0.
  by case: d N A {U So C N2 G P} => [|[k c] d] //= _ _; exists k; rewrite ?mem_head.
have [X0 E0 [G0 H0]] := HM (allP A _ Hk0).
have [G1 EG1] : exists G1, gattr k0 = Some G1 by have [y -> _] := atomic_gattr (allP A _ Hk0); eexists.
have [M' EM _] := H0 _ EG1.
have all_k k : k \in keys d -> f k (GMat M') = Ok (v M k).
  move=> Hk; have Ak := allP A _ Hk; have [X E [_ HX]] := HM Ak.
  have Ek : gattr k = Some G1.
    by rewrite (eqP (allP G _ Hk)) -(eqP (allP G _ Hk0)).
  by have [M'' EM'' Ef] := HX _ Ek; move: EM''; rewrite EM => -[->]; rewrite Ef /v E.
rewrite /okf Hprod EG EG1 EM bindOk (rhosc_val all_k) bindOk Fprod.
apply: kron_end => // k Hk; have Ak := allP A _ Hk.
by have [_ H1 H2] := okv (okf_atomic Ak); split=> //; apply: atomic_sz Ak.
Qed.

Lemma okf_isdir r : isdir gdim csize le gs r -> okf r.
Proof.
case: r => // d p /andP[/and4P[/and5P[N A U So C] C1 N2 G] P].
have Hk k : k \in keys d -> [/\ f k M = Ok (v M k), gop conj (sz k) (v M k), (0 < sz k)%N & meq (den (v M k)) (F k)].
  move=> Hk; have Dk := allP A _ Hk.
  have [|E1 E2 E3] := @okv k; last by split=> //; apply: dkey_sz Dk.
  by case/orP: Dk => [/okf_atomic|/andP[/okf_isprod]].
rewrite /okf Hdir (rhosc_val (v := v M)) => [|k /Hk[] //]; rewrite bindOk Fdir.
apply: kron_end => // [|k /Hk[] //].
by move: N2; elim: (d) C1 => [|[k c] [|[k' c'] d'] IH] //= /and3P[/eqP -> /eqP -> _].
Qed.

Lemma okf_nonsum r : nonsum gdim csize le gs r -> okf r.
Proof.
case/or4P=> [/eqP ->|/okf_atomic|/okf_isprod|/okf_isdir] //.
by exists S1.
Qed.

Theorem okf_wfr r : wfr r -> okf r.
Proof.
case/orP=> [/okf_nonsum //|].
case: r => // d p /andP[/and5P[N A U So C] P].
have Hk k : k \in keys d -> [/\ f k M = Ok (v M k), gop conj (sz k) (v M k) & meq (den (v M k)) (F k)].
  by move=> Hk; have /andP[Nk _] := allP A _ Hk; apply: okv; apply: okf_nonsum.
rewrite /okf Hsum (rhos_val (v := v M)) => [|k /Hk[] //]; rewrite bindOk [mkDsum _ _]/= bindOk Fsum.
have GD := gop_dsum N C (fun k H => let: And3 _ G _ := Hk k H in G).
have [B -> [OB GB MB]] := conjp_ok (isT : is_op (ODsum _ _)) GD P; exists B => //; split=> //.
apply: meq_trans MB _; have [Er Ec] := gop_sz GD; apply: meq_fscat; rewrite ?Er ?Ec //.
rewrite /= -map_comp (expand_dexp (fun k => den (v M k))).
have {}Hk k : k \in dexp d -> meq (den (v M k)) (F k) by move=> /dexp_in /Hk[].
elim: (dexp d) Hk => [|k l IH] H /=; first exact: meq_refl.
by apply: meq_fdsum; [apply: H; rewrite mem_head | apply: IH => x Hx; apply: H; rewrite inE Hx orbT].
Qed.
End Abs.

Section Main.
Variable R : comRingType.
Variables (conj sinv : R -> R) (linv : nat -> seq R -> seq R).
Variables (crho cdrho : nat -> option gid -> gel R -> res (op R)).
Variables (gdim : gid -> nat) (csize : nat -> gid -> nat) (le : rel rep) (gs : pred gid).
Local Notation sz := (rsize gdim csize).
Local Notation rho := (rho sinv linv crho).
Local Notation drho := (drho cdrho).
Local Notation wfr := (wfr gdim csize le gs).

(** A (dictionary of) group element(s) on which rho of the atoms is defined *)
Definition gelem (M : gel R) : Prop := rel_ok conj gdim csize gs rho M.
Definition lelem (M : gel R) : Prop := rel_ok conj gdim csize gs drho M.
Definition arho (M : gel R) (k : rep) : fmat R := atomf rho M k.
Definition adrho (M : gel R) (k : rep) : fmat R := atomf drho M k.

Theorem rho_ok M r : gelem M -> wfr r ->
  exists2 A, rho r M = Ok A & gop conj (sz r) A /\ meq (den A) (rmat (arho M) r).
Proof.
move=> HM W.
apply: (@okf_wfr R conj gdim csize le gs rho (OArr 1 1 (eye R 1)) (@mkKron R) (@OKron R)
  (@fkronl R) (rmat (arho M)) M) => //.
- by split=> //; left.
- by split=> //= [[|i]] [|j].
- by move=> l L; rewrite mkKron_gt1.
- exact: gop_kron.
- by move=> v w l H; apply: RepMul.meq_fkronl => k /H[].
- by move=> d p /=; rewrite dexp_rmat.
- by move=> d p /=; rewrite dexp_rmat.
- by move=> d p /=; rewrite dexp_rmat.
- by move=> k /rmat_atomic ->.
Qed.

Theorem drho_ok M r : lelem M -> wfr r ->
  exists2 A, drho r M = Ok A & gop conj (sz r) A /\ meq (den A) (dmat (adrho M) r).
Proof.
move=> HM W.
apply: (@okf_wfr R conj gdim csize le gs drho (OArr 1 1 [:: 0]) (@mkKronsum R) (@OKronsum R)
  (@fkronsuml R) (dmat (adrho M)) M) => //.
- by split=> //; left.
- by split=> //= [[|i]] [|j].
- by move=> l L; rewrite mkKronsum_gt1.
- exact: gop_kronsum.
- move=> v w l; elim: l => [|k l IH] H; first exact: meq_refl.
  have [E S] := H k (mem_head _ _).
  have Hl x : x \in l -> meq (v x) (w x) /\ fr (v x) = fc (v x) by move=> Hx; apply: H; rewrite inE Hx orbT.
  apply: meq_fkronsum => //; first exact: IH.
  rewrite fr_fkronsuml fc_fkronsuml; last by rewrite all_map; apply/allP => x /Hl[_ /= ->].
  by congr prodn; rewrite -!map_comp; apply/eq_in_map => x /Hl[].
- by move=> d p /=; rewrite dexp_dmat.
- by move=> d p /=; rewrite dexp_dmat.
- by move=> d p /=; rewrite dexp_dmat.
- by case=> // [[|]|c [|]|[|[|]|c [|]|?|? ?|? ?|? ?|?|?]].
Qed.
End Main.
