(** * GroupsInit: Group.__init__ evaluated on well-formed generators. *)
From Coq Require Import String.
From mathcomp Require Import all_ssreflect all_algebra.
From mathcomp Require Import zify.
From Verif Require Import Np NpLemmas Spec SpecLemmas LinOp LinOpSpec LinOpMM LinOpMore Rep RepSpec RhoProofs RepThm.
From Verif Require Import Groups GroupsSpec GroupsLoop GroupsLie.
Set Implicit Arguments.
Unset Strict Implicit.
Unset Printing Implicit Defensive.
Import GRing.Theory.
Local Open Scope ring_scope.

Section Init.
Variables (R : comRingType) (conj : R -> R) (close : seq R -> seq R -> bool).
Local Notation group_init := (group_init conj close).
Local Notation gop := (gop conj).

(** every generator is a d x d operator *)
Definition gok (d : nat) (x : garr R) : Prop := forall A, List.In A (gitems x) -> gop d A.

Lemma gop_mm d A : gop d A -> matmat conj A d (eye R d) = Ok (flat (den A)).
Proof.
move=> G; have [W Sp _ P Sh] := G; have [H _] := mm_ok conj W.
have := mm_eye W (H Sp P); rewrite /rows /cols Sh /= /matmat; by case: mm => //= D [_ _ ->].
Qed.
Lemma dense_gok d l : (forall A, List.In A l -> gop d A) -> dense_items conj d l = Ok [seq flat (den A) | A <- l].
Proof.
elim: l => [|A l IH] H //; rewrite /dense_items /mapM /= gop_mm /=; last by apply: H; left.
by rewrite -/(mapM _ l) -/(dense_items conj d l) IH // => B HB; apply: H; right.
Qed.

Definition lie_flag (d : nat) (x : garr R) : bool :=
  (glen x == 0%N) || close (flatten [seq map -%R (tr2 0 d d (flat (den A))) | A <- gitems x]) (flatten [seq flat (den A) | A <- gitems x]).
Definition gen_flag (d : nat) (x : garr R) : bool :=
  (glen x == 0%N) || close (flatten [seq LinOp.matmul d d d (tr2 0 d d (flat (den A))) (flat (den A)) | A <- gitems x])
                           (flatten [seq eye R d | A <- gitems x]).
Definition one_flag (d : nat) (x : garr R) : bool :=
  (glen x == 0%N) || all (fun A => all (fun i => count (pred1 1) (srows d i i.+1 (flat (den A))) == 1%N) (iota 0 d)) (gitems x).
Definition the_orth (d : nat) (a : attrs R) (lie gens : garr R) : bool :=
  (a_perm a == Some true) || odflt (lie_flag d lie && gen_flag d gens) (a_orth a).
Definition the_perm (d : nat) (a : attrs R) (lie gens : garr R) : bool :=
  if the_orth d a lie gens && ~~ isSome (a_perm a) then (glen lie == 0%N) && one_flag d gens else odflt false (a_perm a).

Lemma init_eq r (a : attrs R) d lie gens : init_d a = Some d ->
  or_zeros (Some d) (a_lie a) = Ok lie -> or_zeros (Some d) (a_gens a) = Ok gens -> gok d lie -> gok d gens ->
  group_init r a = Ok (Grp r (Some d) lie gens (the_orth d a lie gens) (the_perm d a lie gens) (a_zscale a)).
Proof.
move=> Ed El Eg Hl Hg; rewrite /Groups.group_init Ed El Eg /=.
have E1 : check_skew conj close (Some d) lie = Ok (lie_flag d lie).
  by rewrite /check_skew /lie_flag; case: eqP => //= _; rewrite dense_gok //= -map_comp.
have E2 : check_orth conj close (Some d) gens = Ok (gen_flag d gens).
  by rewrite /check_orth /gen_flag; case: eqP => //= _; rewrite dense_gok //= -!map_comp.
have E3 : check_ones conj (Some d) gens = Ok (one_flag d gens).
  by rewrite /check_ones /one_flag; case: eqP => //= _; rewrite dense_gok //= all_map.
have -> : (if a_perm a == Some true then Ok true else
     if a_orth a is Some b then Ok b else
     do b1 <- check_skew conj close (Some d) lie; do b2 <- check_orth conj close (Some d) gens; Ok (b1 && b2)) = Ok (the_orth d a lie gens).
  by rewrite /the_orth; case: ifP => //= _; case: (a_orth a) => //=; rewrite E1 /= E2.
rewrite /= /the_perm; case: ifP => _ //=; by rewrite E3.
Qed.

(** arrays *)
Definition arr3 (k d : nat) (a : nd R) : Prop := dims a = [:: k; d; d] /\ size (dat a) = (k * (d * d))%N.
Lemma gok_arr k d a : arr3 k d a -> gok d (GArr a).
Proof.
move=> [Ed Es] A; rewrite /gitems Ed /= => /List.in_map_iff[t [<- Ht]].
have Hk : (t < k)%N.
  have : t \in iota 0 k by elim: (iota 0 k) Ht => //= x l IH [->|/IH H]; rewrite in_cons ?eqxx // H orbT.
  by rewrite mem_iota add0n.
apply: gop_arr; rewrite /slice mulSnr addnC addnK size_take size_drop Es.
have : (t * (d * d) + d * d <= k * (d * d))%N by rewrite -mulSnr leq_mul2r Hk orbT.
by move: (d * d)%N => c Hc; case: ltnP; lia.
Qed.
Lemma glen_arr k d a : arr3 k d a -> glen (GArr a) = k.
Proof. by move=> [Ed _]; rewrite /= Ed. Qed.
Lemma last_arr k d a : arr3 k.+1 d a -> last_dim (GArr a) = d.
Proof. by move=> [Ed _]; rewrite /last_dim /gitems Ed. Qed.
Lemma gok_none d : gok d (GArr (zeros R [:: 0; d; d]%N)).
Proof. exact: (@gok_arr 0). Qed.

(** the three ways the constructors call Group.__init__ *)
Lemma init_lie r k d a : arr3 k.+1 d a ->
  group_init r (with_lie (GArr a)) =
  let g := GArr (zeros R [:: 0; d; d]%N) in let o := lie_flag d (GArr a) in
  Ok (Grp r (Some d) (GArr a) g o false None).
Proof.
move=> H; rewrite (@init_eq _ _ d (GArr a) (GArr (zeros R [:: 0; d; d]%N))) //=.
- rewrite /the_perm /the_orth /= /gen_flag /= andbT; have [-> _] := H; by case: ifP.
- by rewrite /init_d /= (last_arr H); have [-> _] := H.
exact: gok_arr H.
Qed.
Lemma init_gens r d x : glen x != 0%N -> last_dim x = d -> gok d x ->
  group_init r (with_gens x) =
  Ok (Grp r (Some d) (GArr (zeros R [:: 0; d; d]%N)) x (gen_flag d x) (gen_flag d x && one_flag d x) None).
Proof.
move=> H1 H2 H3; rewrite (@init_eq _ _ d (GArr (zeros R [:: 0; d; d]%N)) x) //=.
- by rewrite /the_perm /the_orth /= /lie_flag /= andbT; case: ifP.
by rewrite /init_d /= H1 H2.
Qed.
Lemma init_both r lie gens z d : glen gens != 0%N -> last_dim gens = d -> glen lie != 0%N -> gok d lie -> gok d gens ->
  group_init r (Attrs None (Some lie) (Some gens) None None z) =
  Ok (Grp r (Some d) lie gens (lie_flag d lie && gen_flag d gens) false z).
Proof.
move=> H1 H2 Hl H3 H4; rewrite (@init_eq _ _ d lie gens) //=.
- by rewrite /the_perm /the_orth /= (negbTE Hl); case: ifP.
by rewrite /init_d /= H1 H2.
Qed.
End Init.
