(** * KryCplx: the iterative solver on complex constraints only finds real solutions. *)
From mathcomp Require Import all_ssreflect all_algebra.
From Verif Require Import Np NpLemmas Spec SpecLemmas LinOp Cplx SolSpec SolSvd MxBridge Krylov KrySpec KryProofs KryThm.
Set Implicit Arguments.
Unset Strict Implicit.
Unset Printing Implicit Defensive.
Import GRing.Theory Num.Theory.
Local Open Scope ring_scope.
Opaque max_iter.

Definition CC := cplx_comRingType rat_comRing.
Local Notation cj := (@cconj rat_comRing).
(** real numbers among the complex ones; .real *)
Definition realz (z : CC) : bool := im z == 0.
Definition rpart (z : CC) : CC := Cx (re z) 0.
(** the constraint (4/5, 3i/5) and its null vector (3/5, 4i/5) *)
Definition ci (q : rat) : CC := Cx 0 q.
Definition cr (q : rat) : CC := Cx q 0.
Definition DC : seq CC := [:: cr (4%:Q / 5%:Q); ci (3%:Q / 5%:Q)].
Definition NC : seq CC := [:: cr (3%:Q / 5%:Q); ci (4%:Q / 5%:Q)].

Lemma rz0 : realz 0. Proof. by []. Qed.
Lemma rzD x y : realz x -> realz y -> realz (x + y).
Proof. by rewrite /realz /= => /eqP -> /eqP ->; rewrite addr0. Qed.
Lemma rzM x y : realz x -> realz y -> realz (x * y).
Proof. by rewrite /realz /= => /eqP -> /eqP ->; rewrite mulr0 mul0r addr0. Qed.
Lemma rzN x : realz x -> realz (- x).
Proof. by rewrite /realz /= => /eqP ->; rewrite oppr0. Qed.
Lemma vadd_real (u v : seq CC) : all realz u -> all realz v -> all realz (vadd u v).
Proof. by elim: u v => [|x u IH] [|y v] //= /andP[Hx Hu] /andP[Hy Hv]; rewrite rzD //; apply: IH. Qed.
Lemma vscale_real c (v : seq CC) : realz c -> all realz v -> all realz (vscale c v).
Proof. by move=> Hc; elim: v => //= x v IH /andP[Hx Hv]; rewrite rzM //; apply: IH. Qed.

Section C.
Variables (sc : rat -> CC) (conv diverging : seq CC -> bool).
Variable tsvd : nat -> nat -> seq CC -> seq CC * seq CC * seq CC.
Variables (big : pred CC) (gap : CC -> CC -> bool).
Variable W0 : nat -> nat -> seq CC.
Hypothesis Hsc : forall q, realz (sc q).
Hypothesis HW : forall k a, all realz (W0 k a).
Hypothesis Ht : forall n r W, all realz W -> all realz (tsvd n r W).1.1.

Lemma iter_real m n r D lr k a t :
  let s := iter t (sgd cj rpart sc m n r D lr) (W0 k a, nseq (n * r) 0) in all realz s.1 /\ all realz s.2.
Proof.
elim: t => [|t [H1 H2]]; first by rewrite /= HW all_nseq rz0 orbT.
rewrite /=; set M := (X in _ /\ all realz X).
have HM : all realz M.
  by apply: vadd_real; [apply/allP=> x /mapP[y _ ->] | apply: vscale_real].
by split=> //; apply: vadd_real => //; apply: vscale_real => //; apply: rzN.
Qed.

Lemma finish_real n r W n' c Q : all realz W -> finish tsvd big gap n r W = Ok (n', c, Q) -> all realz Q.
Proof.
move=> H; have := Ht n r H; rewrite /finish; case: (tsvd n r W) => -[U Sv] VT /= HU.
case: (if _ then _ else _) => [x|//] /=; case: ifP => // _ [_ _ <-].
apply/allP=> y /mapP[t _ ->].
by have [Hl|Hl] := ltnP (t %/ count big Sv * minn n r + t %% count big Sv)%N (size U);
  [apply: (allP HU); apply: mem_nth | rewrite nth_default].
Qed.

Lemma upto_real f m n r D k a lr n' c Q l :
  upto cj rpart sc conv diverging tsvd big gap W0 f m n r D k a lr = Some (Ok (n', c, Q), l) -> all realz Q.
Proof.
move=> E; have [b [_ Hv _ _ _]] := uptoP E; move EX : (Ok (n', c, Q)) Hv => X Hv.
case: Hv EX => // t _ _ /esym; apply: finish_real; have [] := iter_real m n r D (lr / 3%:Q ^+ b) k (a + b) t.+1.
by [].
Qed.

Lemma krylov_real C n c Q b :
  krylov_solve cj rpart sc conv diverging tsvd big gap W0 C = Some (Ok ((n, c, Q), b)) -> all realz Q.
Proof.
rewrite /krylov_solve; case: (to_dense _ _) => [[[m n'] D]|//]; rewrite /krylov_with; case: ifP => // _.
have : forall f k r fd (q : option (darr CC)), (forall x, q = Some x -> all realz x.2) ->
    doubling (inner_upto cj rpart sc conv diverging tsvd big gap W0 m n' D) f m k r fd q = Some (Ok ((n, c, Q), b)) ->
    all realz Q.
  elim=> [|f IH] k r fd q Hq //=; case: ifP => _.
    by case: q Hq => [x Hx [Ex _]|//]; have := Hx _ erefl; rewrite Ex.
  case: ifP => _; first by case: q Hq => [x Hx [Ex _]|//]; have := Hx _ erefl; rewrite Ex.
  case E : (inner_upto _ _ _ _ _ _ _ _ _ _ _ _ _ _) => [[[a1 a2] Q']|//]; apply: IH => x [<-].
  move: E; rewrite /inner_upto; case Eu : (upto _ _ _ _ _ _ _ _ _ _ _ _ _ _ _ _ _) => [[y l]|//] Ey.
  by subst y; exact: (upto_real Eu).
by move=> H; apply: H.
Qed.
End C.

Lemma proj_alg (R : comRingType) (a b x y : R) : a * a - b * b = 1 ->
  x - (a * a * x + a * - b * y) = - b * (b * x - a * y) /\
  y - (b * a * x + b * - b * y) = - a * (b * x - a * y).
Proof.
move=> e; split.
- rewrite -{1}[x]mul1r -e mulrBl opprD addrACA subrr add0r mulrN !mulNr opprK mulrBr !mulrA [b * a]mulrC.
  by rewrite opprB addrC.
rewrite -{1}[y]mul1r -e mulrBl opprD mulrN !mulNr opprK addrACA addNr addr0 mulrBr opprB !mulrA.
by rewrite [b * a]mulrC.
Qed.
Lemma nbC : null_basis cj 1 2 DC 1 NC.
Proof.
have st : (3%:Q / 5%:Q) * (3%:Q / 5%:Q) + (4%:Q / 5%:Q) * (4%:Q / 5%:Q) = 1 :> rat by apply/eqP; vm_compute.
rewrite /DC /NC; move: (3%:Q / 5%:Q) (4%:Q / 5%:Q) st => s t st.
pose i : CC := ci 1; have ii : i * i = -1 by congr Cx; rewrite /= ?mul0r ?mulr0 ?mul1r ?sub0r ?addr0 ?oppr0.
have ei q : ci q = i * cr q by congr Cx; rewrite /= ?mul0r ?mulr0 ?mul1r ?subr0 ?add0r.
have cjr q : cj (cr q) = cr q by congr Cx; rewrite /= oppr0.
have cji q : cj (ci q) = - ci q by congr Cx; rewrite /= oppr0.
have e1 : cr s * cr s - ci t * ci t = 1.
  by congr Cx; rewrite /= ?mul0r ?mulr0 ?subr0 ?sub0r ?addr0 ?opprK ?oppr0 ?subr0.
set a := cr s in e1 *; set b := ci t in e1 *.
have e2 u v : cr t * u + ci s * v = 0 <-> b * u - a * v = 0.
  have E : b * u - a * v = i * (cr t * u + ci s * v).
    by rewrite mulrDr !mulrA -ei [in i * ci s]ei mulrA ii mulN1r mulNr.
  rewrite E; split=> [->|H]; first by rewrite mulr0.
  by rewrite -[LHS]mul1r -[1]opprK -ii mulNr -mulrA H mulr0 oppr0.
split=> //.
- split=> //= -[|k] [|j] // _ _; rewrite !big_nat_recr //= big_geq // cjr cji add0r mulNr; exact: e1.
case=> [|x [|y []]] // _; rewrite /matvec /flat /mkseq /= !big_nat_recr //= !big_geq //= !add0r cjr cji.
have [f1 f2] := proj_alg x y e1.
have e1' w : w = a * (a * w) - b * (b * w) by rewrite !mulrA -mulrBl e1 mul1r.
have g1 : [:: cr t * x + ci s * y] = [:: 0] <-> b * x - a * y = 0.
  by rewrite -e2; split=> [H|->] //; exact: (congr1 (head 0) H).
rewrite g1; split=> [H|H12].
  by move: f1 f2; rewrite H !mulr0 => /subr0_eq <- /subr0_eq <-.
have H1 := congr1 (head 0) H12; have H2 := congr1 (nth 0 ^~ 1%N) H12; rewrite /= in H1 H2.
rewrite (e1' (b * x - a * y)).
have -> : a * (b * x - a * y) = 0 by apply: oppr_inj; rewrite -mulNr -f2 H2 subrr oppr0.
have -> : b * (b * x - a * y) = 0 by apply: oppr_inj; rewrite -mulNr -f1 H1 subrr oppr0.
by rewrite !mulr0 subrr.
Qed.

Theorem complex_never (sc : rat -> CC) conv diverging tsvd big gap W0 n c Q fl :
  (forall q, realz (sc q)) -> (forall k a, all realz (W0 k a)) ->
  (forall n r W, all realz W -> all realz (tsvd n r W).1.1) ->
  krylov_solve cj rpart sc conv diverging tsvd big gap W0 (OArr 1 2 DC) = Some (Ok ((n, c, Q), fl)) ->
  ~ null_basis cj 1 2 DC c Q.
Proof.
move=> h1 h2 h3 /(krylov_real h1 h2 h3) HQ [SQ _ NB].
have t0 : 4%:Q / 5%:Q != 0 :> rat by vm_compute.
have s0 : 3%:Q / 5%:Q != 0 :> rat by vm_compute.
have [_ _ NBC] := nbC.
pose A := flat (fmul (unflat 2 c Q) (ftr (fconj cj (unflat 2 c Q)))).
have RA : all realz A.
  apply/allP=> z /mapP[t _ ->] /=; apply: (big_ind realz) => // [|l _]; first exact: rzD.
  have rq k : realz (nth 0 Q k).
    by have [Hl|Hl] := ltnP k (size Q); [apply: (allP HQ); apply: mem_nth | rewrite nth_default].
  apply: rzM => //; have := rq (t %% 2 * c + l)%N; rewrite /realz /= => /eqP ->; by rewrite oppr0.
have {}NB v : size v = 2%N -> matvec 1 2 DC v = nseq 1 0 <-> matvec 2 2 A v = v by apply: NB.
have SA : size A = 4%N by rewrite size_mkseq.
case: A RA SA NB => [|p [|q [|u [|w []]]]] //= /and5P[Rp Rq Ru Rw _] _ NB.
have mvE (x y : CC) : matvec 2 2 [:: p; q; u; w] [:: x; y] = [:: p * x + q * y; u * x + w * y].
  by rewrite /matvec /flat /mkseq /= !big_nat_recr //= !big_geq //= !add0r.
have mvD (x y : CC) : matvec 1 2 DC [:: x; y] = [:: cr (4%:Q / 5%:Q) * x + ci (3%:Q / 5%:Q) * y].
  by rewrite /matvec /flat /mkseq /= !big_nat_recr //= !big_geq //= !add0r.
have : matvec 1 2 DC NC = nseq 1 0.
  by rewrite mvD; congr [:: _]; congr Cx; apply/eqP; vm_compute.
move/NB => /(_ erefl); rewrite mvE => E.
have := congr1 (@re _ \o head 0) E; have := congr1 (@re _ \o nth 0 ^~ 1%N) E; move=> /=.
case: p q u w Rp Rq Ru Rw NB mvE {E} => [p p'] [q q'] [u u'] [w w'] /eqP /= -> /eqP /= -> /eqP /= -> /eqP /= -> NB mvE.
rewrite ?(mulr0, mul0r, addr0, subr0, sub0r, add0r) => E1 E2.
have u0 : u = 0 by apply/eqP; move/eqP: E1; rewrite mulf_eq0 (negbTE s0) orbF.
have p1 : p = 1 by apply: (mulIf s0); rewrite mul1r.
have := (NB [:: 1; 0] erefl).2; rewrite mvE mvD u0 p1 => H.
have V : [:: Cx 1 0 * 1 + Cx q 0 * 0; Cx 0 0 * 1 + Cx w 0 * 0] = [:: 1; 0] :> seq CC.
  by rewrite !mulr0 !addr0 !mulr1.
have := congr1 (@re _ \o head 0) (H V); rewrite /= ?(mulr0, mulr1, mul0r, addr0, subr0).
by move/eqP; rewrite (negbTE t0).
Qed.
