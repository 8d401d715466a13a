(** * GroupsRepPerm: representations flagged is_permutation act by permutation matrices. *)
From Coq Require Import Reals Lra String.
From mathcomp Require Import all_ssreflect all_algebra.
From mathcomp Require Import zify.
From Verif Require Import Np NpLemmas Spec SpecLemmas LinOp LinOpSpec LinOpInv Rep RepSpec RepMat RepWf RepProd RepAlg RepFun RhoProofs RepThm.
From Verif Require Import Rstruct Expm GrpSpec Groups GroupsSpec GroupsSpecR GroupsInit GroupsPerm GroupsThm GroupsFlag GroupsReal.
Set Implicit Arguments.
Unset Strict Implicit.
Unset Printing Implicit Defensive.
Import GRing.Theory.
Local Open Scope ring_scope.

(** ** closure *)
Section Closure.
Variable R : comRingType.
Local Notation pm := (@GroupsPerm.isperm R).
Lemma pm_meq n (X Y : fmat R) : meq X Y -> pm n X -> pm n Y.
Proof. by move=> E [f [g [B H]]]; exists f, g; split=> //; apply: meq_trans H; apply: meq_sym. Qed.
Lemma pm_invT n (A : fmat R) : pm n A -> invTn n A A.
Proof.
move=> [f [g [B E]]]; have [e1 e2 _] := E.
have T : meq (ftr (fsel R n n f)) (fsel R n n g).
  split=> //= i j Hi Hj; have [_ _ h3 h4] := B j Hj; have [_ _ k3 k4] := B i Hi.
  by congr (_%:R); congr nat_of_bool; apply/eqP/eqP=> <-.
have T' := meq_trans (meq_ftr E) T.
split; first by rewrite e1 e2.
split; [apply: meq_trans (bij_inv R B) | apply: meq_trans (bij_inv R (bij_sym B))]; apply: meq_fmul => //=; by rewrite ?e1 ?e2.
Qed.
Lemma pm_id n : pm n (fid R n).
Proof. by exists id, id; split=> // i Hi; split. Qed.
Lemma pm_dsum m n (A B : fmat R) : pm m A -> pm n B -> pm (m + n) (fdsum A B).
Proof.
move=> [f [f' [F EA]]] [g [g' [G EB]]].
exists (fun i => if (i < m)%N then f i else (m + g (i - m))%N), (fun i => if (i < m)%N then f' i else (m + g' (i - m))%N); split.
  move=> i Hi; case: (ltnP i m) => Lm.
    have [h1 h2 h3 h4] := F i Lm; by rewrite h1 h2 h3 h4 !ltn_addr.
  have Hn : (i - m < n)%N by rewrite ltn_subLR.
  have [h1 h2 h3 h4] := G _ Hn; have nm x : (m + x < m)%N = false by apply/negbTE; rewrite -leqNgt leq_addr.
  by rewrite !nm !ltn_add2l !addKn h3 h4 h1 h2 subnKC.
apply: meq_trans (meq_fdsum EA EB) _; split=> //= i j Hi Hj; case: (ltnP i m) => Li; case: (ltnP j m) => Lj //.
- have [h _ _ _] := F i Li; by case: eqP => // E; move: h; rewrite E ltnNge Lj.
- case: eqP => // E; by move: Lj; rewrite -E ltnNge leq_addr.
- congr (_%:R); congr nat_of_bool; apply/eqP/eqP=> [->|<-]; [exact: subnKC | by rewrite addKn].
Qed.
Lemma pm_kron m n (A B : fmat R) : (0 < m)%N -> (0 < n)%N -> pm m A -> pm n B -> pm (m * n) (fkron A B).
Proof.
move=> m0 n0 [f [f' [F EA]]] [g [g' [G EB]]].
have dm x y : (y < n)%N -> ((x * n + y) %/ n = x)%N /\ ((x * n + y) %% n = y)%N.
  by move=> Hy; rewrite divnMDl // (divn_small Hy) addn0 modnMDl modn_small.
have lt x y : (x < m)%N -> (y < n)%N -> (x * n + y < m * n)%N.
  by move=> Hx Hy; apply: leq_trans (_ : x.+1 * n <= _)%N; rewrite ?leq_mul2r ?Hx ?orbT // mulSnr ltn_add2l.
exists (fun i => f (i %/ n) * n + g (i %% n))%N, (fun i => f' (i %/ n) * n + g' (i %% n))%N; split.
  move=> i Hi; have Hd : (i %/ n < m)%N by rewrite ltn_divLR.
  have Hm : (i %% n < n)%N by rewrite ltn_mod.
  have [h1 h2 h3 h4] := F _ Hd; have [k1 k2 k3 k4] := G _ Hm.
  have [a b] := dm (f (i %/ n)%N) _ k1; have [a' b'] := dm (f' (i %/ n)%N) _ k2.
  by rewrite a b a' b' h3 k3 h4 k4 !lt // -divn_eq.
apply: meq_trans (meq_fkron EA EB) _; split=> //= i j Hi Hj.
have Hd : (i %/ n < m)%N by rewrite ltn_divLR.
have Hm : (i %% n < n)%N by rewrite ltn_mod.
have [h1 _ _ _] := F _ Hd; have [k1 _ _ _] := G _ Hm; have [a b] := dm (f (i %/ n)%N) _ k1.
rewrite -natrM mulnb; congr (_%:R); congr nat_of_bool.
apply/andP/eqP=> [[/eqP -> /eqP ->]|<-]; first by rewrite -divn_eq.
by rewrite a b !eqxx.
Qed.
Lemma pm_scat n p (A : fmat R) : is_perm n p -> pm n A -> pm n (fscat p A).
Proof.
move=> Pp [f [g [B [e1 e2 E]]]]; have Sp := is_perm_size Pp.
have ix i : (i < n)%N -> (index i p < n)%N by move=> Hi; rewrite -Sp index_mem (is_perm_mem _ Pp).
have nx i : (i < n)%N -> nth 0%N p (index i p) = i by move=> Hi; rewrite nth_index // (is_perm_mem _ Pp).
have xn i : (i < n)%N -> index (nth 0%N p i) p = i by move=> Hi; rewrite index_uniq ?Sp // (is_perm_uniq Pp).
exists (fun i => nth 0%N p (f (index i p))), (fun i => nth 0%N p (g (index i p))); split.
  move=> i Hi; have [h1 h2 h3 h4] := B _ (ix i Hi).
  by split; rewrite ?xn ?h3 ?h4 ?nx //; apply: (is_perm_nth Pp).
split=> //= i j; rewrite Sp => Hi Hj; have [h1 _ _ _] := B _ (ix i Hi).
rewrite E ?e1 ?e2 ?ix //=; congr (_%:R); congr nat_of_bool; apply/eqP/eqP=> [->|<-]; first by rewrite nx.
by rewrite xn.
Qed.
End Closure.

(** ** only the flagged atoms matter *)
Section Agree.
Variable R : comRingType.
Variables (gdim : gid -> nat) (csize : nat -> gid -> nat) (le : rel rep) (gs : pred gid).
Variables (gperm : gid -> bool) (cperm : nat -> bool).
Local Notation flag := (Rep.isperm gperm cperm).
Variables (a a' : rep -> fmat R).
Hypothesis aa : forall k, atomic gdim csize gs k -> flag k -> a k = a' k.
Lemma in_dexp d r : r \in dexp d -> r \in keys d.
Proof. by move=> /flattenP[s /mapP[x Hx ->] /nseqP[-> _]]; apply: map_f. Qed.
Lemma map_agree d (P : pred rep) : all P (keys d) -> all (fun x => flag x.1) d -> (forall k, P k -> flag k -> rmat a k = rmat a' k) ->
  map (rmat a) (dexp d) = map (rmat a') (dexp d).
Proof.
move=> A F H; apply/eq_in_map => k /in_dexp Hk; apply: H; first exact: (allP A).
by case/mapP: Hk => x Hx ->; exact: (allP F).
Qed.
Lemma agree_atomic k : atomic gdim csize gs k -> flag k -> rmat a k = rmat a' k.
Proof. by move=> A F; move: (aa A F); case: k A F. Qed.
Lemma agree_prod k : isprod gdim csize le gs k -> flag k -> rmat a k = rmat a' k.
Proof.
case: k => // d p /andP[/and3P[/and5P[_ A _ _ _] _ _] _] /= F; rewrite !dexp_rmat.
by rewrite (map_agree A F agree_atomic).
Qed.
Lemma agree_nonsum k : nonsum gdim csize le gs k -> flag k -> rmat a k = rmat a' k.
Proof.
case/or4P=> [/eqP ->|/agree_atomic|/agree_prod|] //.
case: k => // d p /andP[/and4P[/and5P[_ A _ _ _] _ _ _] _] /= F; rewrite !dexp_rmat.
rewrite (map_agree A F) // => k; by case/orP=> [/agree_atomic|/andP[/agree_prod]].
Qed.
Lemma agree r : wfr gdim csize le gs r -> flag r -> rmat a r = rmat a' r.
Proof.
case/orP=> [/agree_nonsum //|].
case: r => // d p /andP[/and5P[_ A _ _ _] _] /= F; rewrite !dexp_rmat.
by rewrite (map_agree A F) // => k /andP[/agree_nonsum].
Qed.
End Agree.

Section Main.
Variable R : comRingType.
Variables (gdim : gid -> nat) (csize : nat -> gid -> nat) (le : rel rep) (gs : pred gid).
Variables (gperm : gid -> bool) (cperm : nat -> bool).
Local Notation flag := (Rep.isperm gperm cperm).
Local Notation sz := (rsize gdim csize).
Lemma rmat_perm (a : rep -> fmat R) r : wfr gdim csize le gs r -> flag r ->
  (forall k, atomic gdim csize gs k -> flag k -> GroupsPerm.isperm (sz k) (a k)) -> GroupsPerm.isperm (sz r) (rmat a r).
Proof.
move=> W F H; pose a' k := if flag k then a k else fid R (sz k).
rewrite (@agree R gdim csize le gs gperm cperm a a') //; last by move=> k _; rewrite /a' => ->.
pose Q n (A _ _ : fmat R) := GroupsPerm.isperm n A.
suff : Q (sz r) (rmat a' r) (rmat a' r) (rmat a' r) by [].
apply: (@Q_wfr R R R Q) W => [||m n A A' B B' C C'|m n A A' B B' C C'|n p A B C|k Hk].
- by exists id, id; split=> //; split.
- exact: pm_id.
- exact: pm_dsum.
- exact: pm_kron.
- exact: pm_scat.
rewrite /a' /Q; case: ifP => Fk; [exact: H | exact: pm_id].
Qed.
End Main.

(** ** real groups *)
Lemma formally_real_RR : formally_real RR.
Proof.
have pos n (f : nat -> RR) : Rle R0 (\sum_(0 <= i < n) f i * f i).
  elim: n => [|n IH]; first by rewrite big_nil; exact: Rle_refl.
  rewrite big_nat_recr //=; apply: Rplus_le_le_0_compat => //; exact: Rle_0_sqr.
move=> n f; elim: n => [|n IH] // ; rewrite big_nat_recr //= => H i; rewrite ltnS leq_eqVlt.
have P := pos n f; have Q := Rle_0_sqr (f n).
have [Z1 Z2] : \sum_(0 <= i < n) f i * f i = R0 /\ Rmult (f n) (f n) = R0.
  by move: H P Q; rewrite /Rsqr /GRing.add /GRing.mul /=; move: (\sum_(_ <= _ < _) _) => s; rewrite /GRing.zero /=; lra.
case/orP=> [/eqP ->|]; last exact: IH.
exact: Rsqr_0_uniq.
Qed.
Lemma span_nil X : ~ lie_span [::] X.
Proof. by elim=> [A Y []|c Y Z W _ []|Y Z W _ []]. Qed.
Lemma in_group_words n hs X : in_group n [::] hs X -> words n hs X.
Proof.
elim=> {X} [X E|h X H E|A X /span_nil []|X Y Z _ OX _ OY E|X Y _ OX h1 h2 H1 H2].
- exact: W_one E.
- exact: W_gen H E.
- exact: W_mul OX OY E.
- exact: W_inv OX h1 h2 H1 H2.
Qed.
Lemma perm_group d G X : tested d G -> g_perm G -> in_group d (lmats G) (gmats G) X -> GroupsPerm.isperm d X.
Proof.
move=> [r [a [E Ed Hl Hg [H1 H2]]]] P.
have [-> F] := perm_flag formally_real_RR E Ed Hl Hg H1 H2 P => /in_group_words; exact: isperm_words.
Qed.

Section Reps.
Variables (sinv : RR -> RR) (linv : nat -> seq RR -> seq RR).
Variables (crho : nat -> option gid -> gel RR -> res (op RR)).
Variables (gdim : gid -> nat) (csize : nat -> gid -> nat) (le : rel rep) (gs : pred gid).
Variable G : gid -> group RR.
Local Notation sz := (rsize gdim csize).
Local Notation rho_dense := (rho_dense idR sinv linv crho).
Variable cperm : nat -> bool.
Theorem generated_perm M X r : (forall g, gs g -> tested (gdim g) (G g)) ->
  generated gdim gs (the_gens G) (the_lies G) X ->
  (forall g, gs g -> exists2 A, glook M (Some g) = Ok A & meq (den A) (X g)) ->
  group_elem idR sinv linv crho gdim csize gs M ->
  (forall g c C, gs g -> cperm c -> crho c (Some g) M = Ok C -> GroupsPerm.isperm (csize c g) (den C)) ->
  wfr gdim csize le gs r -> Rep.isperm (fun g => g_perm (G g)) cperm r ->
  exists2 p, is_perm (sz r) p & rho_dense r M = Ok (sz r, sz r, flat (perm_mat RR (sz r) p)).
Proof.
move=> T HX HMX HM Hc W F.
have : GroupsPerm.isperm (sz r) (rmat (arho sinv linv crho M) r).
  apply: (rmat_perm W F) => k Ak Fk; rewrite /arho /atomf.
  have inv n (A B : op RR) : gop idR n A -> gop idR n B -> is_invT (den A) (den B) ->
      GroupsPerm.isperm n (den A) -> GroupsPerm.isperm n (den B).
    move=> GA GB IB PA; have := invTn_uniq (pm_invT PA) (invertible_invTn GA GB IB) => E; exact: pm_meq E PA.
  have base h : gs h -> g_perm (G h) -> forall A, glook M (Some h) = Ok A -> GroupsPerm.isperm (gdim h) (den A).
    move=> Hh Ph A EA; have [A'] := HMX h Hh; rewrite EA => -[<-] EX.
    apply: pm_meq (meq_sym EX) _; exact: perm_group (T h Hh) Ph (generated_in HX Hh T).
  case: k Ak Fk => // [[h|]|c [h|]|[|[h|]|c [h|]|?|? ?|? ?|? ?|?|?]] //= /andP[Hh _] Fk;
    have [A E [[GA [B EB [GB IB]]] I]] := HM h Hh.
  - rewrite E; exact: base E.
  - have [C EC _] := I c; rewrite EC; exact: Hc EC.
  - rewrite E bindOk EB; apply: inv GA GB IB _; exact: base E.
  - have [C EC [_ [GC [B' EB' [GB' IB']]]]] := I c; rewrite EC bindOk EB'.
    apply: inv GC GB' IB' _; exact: Hc EC.
case/isperm_mat => p Pp E; exists p => //.
by rewrite (rho_dense_ok HM W) (flat_meq E).
Qed.
End Reps.
