(** * ExData: all orthogonal and all Lorentz matrices; the examples of the claims on data
    sets. *)
From Coq Require Import Reals.
From mathcomp Require Import all_ssreflect all_algebra.
From mathcomp Require Import zify.
From Verif Require Import Np NpLemmas Spec SpecLemmas LinOp LinOpSpec LinOpProofs LinOpInv Rep RepSpec RepWf RepCode RepMat RepAlg RepFun RhoProofs RepThm Rstruct Expm GrpSpec GrpProofs ExGrp.
From Verif Require Import MxBridge RepExpr GroupsSpec GroupsFlag Nn NnSpec ExNn Data DataSpec DataAlg DataThm.
Set Implicit Arguments.
Unset Strict Implicit.
Unset Printing Implicit Defensive.
Import GRing.Theory.
Local Open Scope ring_scope.

Section Iso.
Variables (n : nat) (J : fmat RR).
Definition ndim (g : gid) : nat := n.
Definition ncs (c : nat) (g : gid) : nat := n.
(** the (n,n) arrays preserving J *)
Definition isos (M : gel RR) : Prop :=
  exists D, [/\ M = GMat (OArr n n D), size D = (n * n)%N & isometry J (unflat n n D)].
Variable o : bool.
Lemma iso_arrays : fr J = n -> fc J = n -> meq (fmul J J) (fid RR n) -> (o -> J = fid RR n) ->
  isometries idR exsinv linvE excr ndim (fun=> o) ncs 0%N J isos.
Proof.
move=> j1 j2 JJ Ho M [D [-> SD HD]].
set A := unflat n n D in HD.
pose B := fmul J (fmul (ftr A) J).
have L : meq (fmul B A) (fid RR n).
  apply: meq_trans (meq_sym (fmul_assoc _ _ _)) _.
  apply: meq_trans JJ; apply: meq_fmul; rewrite ?j2 //.
  by apply: meq_trans HD; apply: meq_sym; exact: fmul_assoc.
have Rr : meq (fmul A B) (fid RR n) by apply: (@one_sided RR n B A).
have IA : invertible idR exsinv linvE n (OArr n n D).
  have := @inv_arr exsinv linvE linvE_ok n A B (conj erefl erefl) (conj j1 j2) Rr L.
  by rewrite /arr flat_unflat.
split.
- move=> g /eqP ->; exists (OArr n n D) => //; split=> // c; exists (OArr n n D) => //.
- move=> g /eqP -> Og; have {}Ho := Ho Og.
  have OA : orthogonal n (OArr n n D).
    have LA : meq (fmul (ftr A) A) (fid RR n).
      by rewrite Ho in HD; apply: meq_trans HD; apply: meq_fmul => //; apply: meq_sym; exact: fmul_id_l.
    by split=> //; apply: (@one_sided RR n (ftr A) A).
  by split=> [X [<-]|c X [<-]].
by move=> X [<-].
Qed.
Lemma fid_iso : meq (fmul (fid RR n) (fid RR n)) (fid RR n). Proof. exact: fmul_id_l. Qed.
End Iso.
Lemma minkowski_iso : meq (fmul (minkowski RR 4) (minkowski RR 4)) (fid RR 4).
Proof.
split=> //= i j Hi Hj; rewrite (sum_only (i := i)) //=; last by move=> a _; rewrite eq_sym => /negbTE ->; rewrite mul0r.
by rewrite eqxx; case: eqP => [_|_]; case: ifP => _; rewrite ?mulr0 // ?mulr1 ?mulrNN ?mulr1.
Qed.

(** the group {1,-1} on the line over the rationals *)
Definition qid (x : rat) : rat := x.
Definition qlinv (n : nat) (D : seq rat) : seq rat := D.
Definition qcr (c : nat) (G : option gid) (M : gel rat_comRing) : res (op rat_comRing) := glook M G.
Definition signs (M : gel rat_comRing) : Prop := exists2 s : rat, s * s = 1 & M = GMat (OArr 1 1 [:: s]).
Lemma q_elements M : signs M -> group_elem qid qid qlinv qcr zd zcs (pred1 0%N) M /\ orth_elem qcr zd zcs yes (pred1 0%N) M.
Proof.
case=> s Hs ->.
have O1 : meq (fmul (unflat 1 1 [:: s]) (ftr (unflat 1 1 [:: s]))) (fid rat_comRing 1).
  by split=> // -[|i] [|j] //= _ _; rewrite big_nat1 /=.
have O2 : meq (fmul (ftr (unflat 1 1 [:: s])) (unflat 1 1 [:: s])) (fid rat_comRing 1).
  by split=> // -[|i] [|j] //= _ _; rewrite big_nat1 /=.
have G : gop (R := rat_comRing) qid 1 (OArr 1 1 [:: s]) by split=> //; left.
have I : invertible (R := rat_comRing) qid qid qlinv 1 (OArr 1 1 [:: s]).
  by split=> //; exists (OArr 1 1 [:: s]).
split; first by move=> g /eqP ->; exists (OArr 1 1 [:: s]) => //; split=> // c; exists (OArr 1 1 [:: s]).
by move=> g /eqP -> _; split=> [A [<-]|c A [<-]].
Qed.
Lemma q_identity : equivariant qid qid qlinv qcr zd zcs signs zV zV (fun _ x => Ok x).
Proof. by move=> bs Ms X X' _ A; exists X, X'. Qed.
Lemma q_rho M : signs M -> exists s : rat, rho_dense qid qid qlinv qcr zV M = Ok (1, 1, [:: s])%N.
Proof. by case=> s _ ->; exists s. Qed.
Lemma q_mean : invariant_stat qid qid qlinv qcr zd zcs signs zV (SNum 0).
Proof. by split=> // M /q_rho[s ->]; exists [:: s] => // -[|i] //= _; rewrite big_nat1 /= mulr0. Qed.
Lemma q_scale : commuting_stat qid qid qlinv qcr zd zcs signs zV (SVec [:: 2%:R]).
Proof. by split=> // M /q_rho[s ->]; exists [:: s] => // -[|i] [|j] //= _ _; rewrite mulrC. Qed.

(** a rotation by a right angle *)
Definition turn : gel RR := GMat (OArr 2 2 [:: 0; -1; 1; 0]).
Lemma turn_elem : group_elem idR exsinv linvE excr (ndim 2) (ncs 2) (pred1 0%N) turn.
Proof.
have H := @iso_arrays 2 (fid RR 2) true erefl erefl (fid_iso 2) (fun=> erefl) turn.
have [] // := H _; exists [:: 0; -1; 1; 0]; split=> //; split=> // i j Hi Hj /=.
rewrite !big_nat_recr //= !big_geq //.
by case: i Hi => [|[|i]] // _; case: j Hj => [|[|j]] //= _; rewrite !(mul1r, mul0r, mulr0, mulr1, mulrNN, addr0, add0r, oppr0, mulN1r, mulrN1, opprK).
Qed.
Lemma turn_id : intertwines exsinv linvE excr (ndim 2) (ncs 2) [:: 1; 0; 0; 1] zV zV 1 turn.
Proof.
exists [:: 0; -1; 1; 0], [:: 0; -1; 1; 0]; split=> // i j [|c] // Hi Hj _.
rewrite !big_nat_recr //= !big_geq //.
by case: i Hi => [|[|i]] // _; case: j Hj => [|[|j]] //= _; rewrite ?mul1r ?mul0r ?mulr0 ?mulr1 ?addr0 ?add0r.
Qed.
Lemma turn_shear : ~ intertwines exsinv linvE excr (ndim 2) (ncs 2) [:: 1; 1; 0; 1] zV zV 1 turn.
Proof.
move=> [A [B []]] /= [<-] [<-] /(_ 0%N 0%N 0%N erefl erefl erefl).
rewrite !big_nat_recr //= !big_geq // ?mul1r ?mul0r ?mulr0 ?mulr1 ?addr0 ?add0r => H.
exact: R1_neq_R0 H.
Qed.
