(** * GroupsLoop: what the loops that fill the Lie algebra arrays produce. *)
From mathcomp Require Import all_ssreflect all_algebra.
From mathcomp Require Import zify.
From Verif Require Import Np Spec LinOp LinOpSpec Groups.
Set Implicit Arguments.
Unset Strict Implicit.
Unset Printing Implicit Defensive.
Import GRing.Theory.
Local Open Scope ring_scope.

(** *** a loop that appends *)
Section For.
Variables (S : Type) (T : eqType) (X : Type) (good : S -> seq X -> Prop) (D : nat).
Lemma for_fill (l : seq T) (F : T -> seq X) (body : S -> T -> res S) s fs :
  (forall x s fs, x \in l -> good s fs -> (size fs + size (F x) <= D)%N ->
     exists2 s', body s x = Ok s' & good s' (fs ++ F x)) ->
  good s fs -> (size fs + size (flatten (map F l)) <= D)%N ->
  exists2 s', for_ l s body = Ok s' & good s' (fs ++ flatten (map F l)).
Proof.
elim: l s fs => [|x l IH] s fs H G; first by exists s; rewrite ?cats0.
rewrite /= size_cat addnA => Hs.
have [|s1 E1 G1] := H x s fs (mem_head _ _) G; first by apply: leq_trans Hs; exact: leq_addr.
have [| |s2 E2 G2] := IH s1 (fs ++ F x) _ G1.
- by move=> y s' fs' Hy; apply: H; rewrite in_cons Hy orbT.
- by rewrite size_cat.
by exists s2; [rewrite /for_ /= E1 | rewrite catA].
Qed.
End For.

(** *** lists of tags without repetition *)
Lemma uniq_flat (T : eqType) (X : eqType) (key : T -> X) (l : seq X) (P : X -> seq T) :
  uniq l -> (forall x, x \in l -> uniq (P x)) -> (forall x t, x \in l -> t \in P x -> key t = x) ->
  uniq (flatten (map P l)).
Proof.
elim: l => [|x l IH] //= /andP[Hx Hl] U K; rewrite cat_uniq U ?mem_head //=; apply/andP; split.
  apply/negP => /hasP[t /flatten_mapP[y Hy Ht] Hx']; move/negP: Hx; apply.
  by rewrite -(K x t (mem_head _ _) Hx') (K y t) // in_cons Hy orbT.
by apply: IH => // [y Hy|y t Hy]; [apply: U | apply: K]; rewrite in_cons Hy orbT.
Qed.
Lemma flat_map_map (T U V : Type) (f : U -> V) (P : T -> seq U) (l : seq T) :
  flatten [seq map f (P x) | x <- l] = map f (flatten (map P l)).
Proof. by rewrite map_flatten -map_comp. Qed.

Section Arr.
Variable R : comRingType.
Local Notation fn := (nat -> nat -> R).
Definition f0 : fn := fun _ _ => 0.
Definition upd (g : fn) (i j : nat) (x : R) : fn := fun i' j' => if (i' == i) && (j' == j) then x else g i' j'.

(** the first [size fs] matrices of the array are fs, the next is g, the others are 0 *)
Definition filled (D n : nat) (a : nd R) (fs : seq fn) (g : fn) : Prop :=
  [/\ dims a = [:: D; n; n], size (dat a) = (D * (n * n))%N &
      forall k i j, (k < D)%N -> (i < n)%N -> (j < n)%N ->
        nth 0 (dat a) (k * (n * n) + (i * n + j))%N =
        if (k < size fs)%N then nth f0 fs k i j else if k == size fs then g i j else 0].

Lemma filled_zeros D n : filled D n (zeros R [:: D; n; n]) [::] f0.
Proof.
split=> //=; first by rewrite size_nseq muln1.
by move=> k i j _ _ _; rewrite nth_nseq; do !case: ifP.
Qed.
Lemma pos_lt n i j : (i < n)%N -> (j < n)%N -> (i * n + j < n * n)%N.
Proof. by move=> Hi Hj; nia. Qed.
Lemma pos3_lt D n k i j : (k < D)%N -> (i < n)%N -> (j < n)%N -> (k * (n * n) + (i * n + j) < D * (n * n))%N.
Proof. by move=> Hk Hi Hj; have := pos_lt Hi Hj; move: (n * n)%N (i * n + j)%N => N p Hp; nia. Qed.
Lemma pos_inj n i j i' j' : (j < n)%N -> (j' < n)%N -> (i * n + j == i' * n + j')%N = (i == i') && (j == j').
Proof.
move=> Hj Hj'; apply/eqP/andP => [E|[/eqP -> /eqP -> //]].
have n0 : (0 < n)%N by exact: leq_ltn_trans Hj.
have E1 := congr1 (divn^~ n) E; have E2 := congr1 (modn^~ n) E; move: E1 E2.
by rewrite /= !divnMDl // !divn_small // !addn0 !modnMDl !modn_small // => -> ->.
Qed.
Lemma pos3_inj n k i j k' i' j' : (i < n)%N -> (j < n)%N -> (i' < n)%N -> (j' < n)%N ->
  (k * (n * n) + (i * n + j) == k' * (n * n) + (i' * n + j'))%N = [&& k == k', i == i' & j == j'].
Proof. by move=> Hi Hj Hi' Hj'; rewrite pos_inj ?pos_lt // pos_inj. Qed.

Lemma filled_put D n a fs g i j x : filled D n a fs g -> (size fs < D)%N -> (i < n)%N -> (j < n)%N ->
  exists2 a', put a [:: size fs; i; j] x = Ok a' & filled D n a' fs (upd g i j x).
Proof.
move=> [Ed Es H] Hs Hi Hj; rewrite /put Ed /= Hs Hi Hj /=; eexists; first by [].
rewrite !muln1 addn0; split=> //.
  by rewrite size_set_nth Es; apply/maxn_idPr; apply: pos3_lt.
move=> k i' j' Hk Hi' Hj' /=; rewrite nth_set_nth /= pos3_inj // /upd.
case: (k =P size fs) => [->|N] /=; last by rewrite H //; case: ifP => // _; case: eqP.
by rewrite ltnn; case: ifP => // _; rewrite H // ltnn eqxx.
Qed.
Lemma filled_next D n a fs g : filled D n a fs g -> filled D n a (rcons fs g) f0.
Proof.
move=> [h1 h2 H]; split=> // k i j Hk Hi Hj; rewrite H // size_rcons nth_rcons ltnS [(k <= _)%N]leq_eqVlt.
by case: (k =P size fs) => [->|_] /=; [rewrite ltnn | case: ifP => // _; case: ifP].
Qed.
Lemma filled_ext D n a fs g g' : (forall i j, (i < n)%N -> (j < n)%N -> g i j = g' i j) ->
  filled D n a fs g -> filled D n a fs g'.
Proof. by move=> E [h1 h2 H]; split=> // k i j Hk Hi Hj; rewrite H // E. Qed.

(** the elements of a filled array *)
Lemma items_filled D n a fs : filled D n a fs f0 -> size fs = D ->
  size (gitems (GArr a)) = D /\ forall k, (k < D)%N ->
    exists2 B, nth (OI R 0) (gitems (GArr a)) k = OArr n n B &
      size B = (n * n)%N /\ meq (unflat n n B) (FM n n (nth f0 fs k)).
Proof.
move=> [Ed Es H] Ef; rewrite /gitems Ed /= size_mkseq; split=> // k Hk.
rewrite nth_mkseq //; eexists; first by [].
have L : (k * (n * n) + n * n <= size (dat a))%N by rewrite Es -mulSnr leq_mul2r Hk orbT.
rewrite /slice mulSnr addnC addnK; split; first by rewrite size_take size_drop; case: ltnP => // HH; apply/eqP; rewrite eqn_leq HH /= leq_subRL // (leq_trans (leq_addr _ _) L).
split=> //= i j Hi Hj; rewrite nth_take ?pos_lt // nth_drop H // Ef Hk //.
Qed.
End Arr.
Arguments f0 {R}.
