(** * ExGrp: a concrete family of groups over the reals for the examples of C24 and C25. *)
From Coq Require Import Reals ClassicalEpsilon.
From mathcomp Require Import all_ssreflect all_algebra.
From Verif Require Import Np NpLemmas Spec SpecLemmas LinOp LinOpSpec LinOpProofs LinOpInv LinOpThm Rep RepSpec RepWf RepFun RhoProofs RepThm DrhoThm Solver SolSpec SolAlg SolBasis Rstruct Expm GrpSpec ExpFam GrpProofs.
Set Implicit Arguments.
Unset Strict Implicit.
Unset Printing Implicit Defensive.
Import GRing.Theory.
Local Open Scope ring_scope.

(** an exact inverse *)
Definition linvE (n : nat) (D : seq RR) : seq RR :=
  epsilon (inhabits [::]) (fun L => forall X Y : fmat RR, D = flat X -> sqn n X -> sqn n Y ->
    meq (fmul X Y) (fid RR n) -> meq (fmul Y X) (fid RR n) -> size L = (n * n)%N /\ meq (unflat n n L) Y).
Lemma linvE_ok : linv_ok linvE.
Proof.
move=> n X Y x1 x2 y1 y2 H1 H2.
have HE : exists L, forall X' Y' : fmat RR, flat X = flat X' -> sqn n X' -> sqn n Y' ->
    meq (fmul X' Y') (fid RR n) -> meq (fmul Y' X') (fid RR n) -> size L = (n * n)%N /\ meq (unflat n n L) Y'.
  exists (flat Y) => X' Y' E [x3 x4] [y3 y4] H3 H4; split; first by rewrite size_flat y1 y2.
  have EY : meq (unflat n n (flat Y)) Y by have := unflat_flat Y; rewrite y1 y2.
  have EX : meq X X'.
    have := unflat_flat X; rewrite x1 x2 E => K; apply: meq_trans (meq_sym K) _.
    by have := unflat_flat X'; rewrite x3 x4.
  apply: meq_trans EY _.
  apply: meq_trans (meq_sym (fmul_id_r (n := n) _)) _ => //.
  apply: meq_trans (meq_fmul (meq_refl _) (meq_sym H3) _) _ => //.
  apply: meq_trans (fmul_assoc _ _ _) _.
  apply: meq_trans (meq_fmul (meq_fmul (meq_refl _) (meq_sym EX) _) (meq_refl _) _) _; rewrite /= ?y2 ?x4 //.
  apply: meq_trans (meq_fmul H2 (meq_refl _) _) _; rewrite /= ?x2 ?y3 //; exact: fmul_id_l.
have := epsilon_spec (inhabits [::]) _ HE; apply=> //.
Qed.

(** one user-defined class per number, a copy of the base representation *)
Definition exdim (g : gid) : nat := 2.
Definition excsz (c : nat) (g : gid) : nat := 2.
Definition excr (c : nat) (G : option gid) (M : gel RR) : res (op RR) := glook M G.
Definition exsinv (x : RR) : RR := Rinv x.
Definition exgs : pred gid := fun g => (g < 2)%N.
(** group 0: the shears [[1,x],[0,1]] and the reflection diag(1,-1); group 1: rotations *)
Definition exgens (g : gid) : seq (op RR) := if g is 0 then [:: OArr 2 2 [:: 1; 0; 0; -1]] else [::].
Definition exlies (g : gid) : seq (op RR) :=
  if g is 0 then [:: OArr 2 2 [:: 0; 1; 0; 0]] else [:: OArr 2 2 [:: 0; -1; 1; 0]].

Lemma ex_customs : customs_ok exsinv linvE excr excr exdim excsz exgs.
Proof.
split.
- by split=> M H g Hg; have [A E I] := H g Hg; exists A => //; split=> // c; exists A.
- by move=> c g A1 A2 A3 C1 C2 C3 Hg [_ _ _] [[<-] [<-] [<-]].
- move=> c g A C E F Hg [GA [<-] IE HF] H i j Hi Hj.
  have [a1 a2] := gop_sz GA.
  have Em t : meq (den (F t)) (expm (exdim g) (den A) t).
    by have [<-] := HF t; apply: is_exp_expm => //; exact: H.
  have SA : sqn (exdim g) (den A) by [].
  apply: dl_ext (dl_expm0 SA Hi Hj) => // t; have [e1 e2 e3] := Em t; rewrite e3 ?e1 ?e2 //.
by move=> c g a A1 A2 A3 C1 C2 C3 Hg [_ _ _] [[<-] [<-] [<-]].
Qed.

Lemma ex_generators : generators_ok idR exdim exsinv linvE excr excr excsz exgs exgens exlies.
Proof.
split.
- move=> [|g] h Hg //= [<-|//]; apply: (elemG_ok ex_customs).
  have M : meq (fmul (unflat 2 2 [:: 1; 0; 0; -1 : RR]) (unflat 2 2 [:: 1; 0; 0; -1])) (fid RR 2).
    split=> //= i j Hi Hj; rewrite !big_nat_recr //= !big_geq //.
    by case: i Hi => [|[|i]] //; case: j Hj => [|[|j]] //= _ _; rewrite ?(mulr0, mul0r, mul1r, mulr1, addr0, add0r, mulrNN).
  by have := @inv_arr exsinv linvE linvE_ok 2 (unflat 2 2 [:: 1; 0; 0; -1]) (unflat 2 2 [:: 1; 0; 0; -1]) _ _ M M; apply.
- move=> g A Hg HA.
  have H (a b c d : RR) : gop idR 2 (OArr 2 2 [:: a; b; c; d]) /\ gop idR 2 (neg (transpose (OArr 2 2 [:: a; b; c; d]))).
    exact: (@lie_arr RR idR 2 [:: a; b; c; d] erefl).
  by apply: (elemL_ok ex_customs); case: g Hg HA => [|g] Hg /= [<-|//]; first [exact: (proj1 (H _ _ _ _)) | exact: (proj2 (H _ _ _ _))].
- by move=> c g C Hg [<-].
by move=> c g C Hg [<-]; exact: zero_den.
Qed.

(** the vector (1,0) is fixed by the shears and the reflection, (0,1) is not *)
Definition exV : rep := RBase (Some 0%N).
Lemma ex_inv : invariant idR exdim exsinv linvE excr excr excsz exgs exgens exlies exV [:: 1; 0].
Proof.
split=> -[|[|g]] // h _ /= [<-|//]; (eexists; first by []);
  rewrite /matvec /flat /mkseq /= !big_nat_recr //= !big_geq //;
  by rewrite ?(mulr0, mul0r, mul1r, mulr1, addr0, add0r).
Qed.
Lemma ex_noninv : ~ invariant idR exdim exsinv linvE excr excr excsz exgs exgens exlies exV [:: 0; 1].
Proof.
case=> H _; have [||D [<-]] := H 0%N (OArr 2 2 [:: 1; 0; 0; -1]) => //; first by left.
rewrite /matvec /flat /mkseq /= !big_nat_recr //= !big_geq // => -[_].
rewrite mulr0 add0r add0r mulr1 => /(congr1 (fun x => x + 1)); rewrite addNr => /esym E.
have : Rlt 0 (1 + 1)%R by apply: Rlt_0_2.
by move: E; rewrite -[(1 + 1 : RR)]/(Rplus R1 R1) => ->; exact: Rlt_irrefl.
Qed.
