(** * ExGroups: the group of order two that swaps two coordinates, for the examples of C34-C36. *)
From Coq Require Import Reals String.
From mathcomp Require Import all_ssreflect all_algebra.
From Verif Require Import Np NpLemmas Spec SpecLemmas LinOp LinOpSpec LinOpMore LinOpProofs LinOpInv LinOpThm MxBridge Rep RepSpec RhoProofs RepWf RepThm Rstruct Expm GrpSpec ExpFam GrpProofs ExGrp.
From Verif Require Import Groups GroupsSpec GroupsSpecR GroupsInit GroupsCtor GroupsPerm GroupsThm GroupsFlag GroupsReal GroupsRepPerm GroupsTol GroupsSample.
Set Implicit Arguments.
Unset Strict Implicit.
Unset Printing Implicit Defensive.
Import GRing.Theory.
Local Open Scope ring_scope.

Definition swapA : nd RR := ND [:: 1; 2; 2]%N [:: 0; 1; 1; 0].
Definition swapM : op RR := OArr 2 2 [:: 0; 1; 1; 0].
Definition swapG : group RR := Grp "User" (Some 2%N) (GArr (zeros RR [:: 0; 2; 2]%N)) (GArr swapA) true true None.
Lemma swap_gok : gok idR 2 (GArr swapA). Proof. exact: (@gok_arr _ _ 1). Qed.
Lemma swap_two : meq (fmul (den swapM) (den swapM)) (fid RR 2).
Proof.
split=> //= -[|[|//]] [|[|//]] _ _; rewrite big_nat_recr //= big_nat1 /=;
  by rewrite ?(mulr0, mul0r, mulr1, mul1r, addr0, add0r).
Qed.
Lemma swap_init : group_init idR (@same RR) "User" (with_gens (GArr swapA)) = Ok swapG.
Proof.
rewrite (@init_gens _ idR (@same RR) _ 2 (GArr swapA)) //; last exact: swap_gok.
have -> : gen_flag (@same RR) 2 (GArr swapA).
  apply/(gen_flagP (conj := idR) swap_gok) => A /= [<-|//]; split=> //= -[|[|//]] [|[|//]] _ _; rewrite big_nat_recr //= big_nat1 /=;
  by rewrite ?(mulr0, mul0r, mulr1, mul1r, addr0, add0r).
have -> : one_flag 2 (GArr swapA).
  by rewrite /one_flag /= !eqxx; have -> : (0 == 1 :> RR) = false by apply/negbTE; rewrite eq_sym oner_eq0.
by [].
Qed.
Lemma swap_tested : tested 2 swapG.
Proof. by exists "User"%string, (with_gens (GArr swapA)); split=> //; [exact: swap_init | exact: swap_gok]. Qed.
Definition exG (g : gid) : group RR := swapG.
Lemma swap_elem : group_elem idR exsinv linvE excr exdim excsz (pred1 0%N) (GMat swapM).
Proof.
have I := @inv_arr exsinv linvE linvE_ok 2 (den swapM) (den swapM) (conj erefl erefl) (conj erefl erefl) swap_two swap_two.
have E : GrpProofs.arr 2 (den swapM) = swapM by [].
by move=> g Hg; exists swapM => //; split; [rewrite -E; exact: I | move=> c; exists swapM => //; split=> //; rewrite -E; exact: I].
Qed.
Definition swapX (g : gid) : fmat RR := den swapM.
Lemma swap_gen : generated exdim (pred1 0%N) (the_gens exG) (the_lies exG) swapX.
Proof.
apply: (@G_gen _ _ _ _ 0%N swapM) => //; first by left.
by move=> g /eqP ->.
Qed.
Definition expmE (n : nat) (A : seq RR) : seq RR := flat (expm n (unflat n n A) 1).
Lemma expmE_ok : expm_ok expmE.
Proof.
move=> n A SA; rewrite /expmE; split; first by rewrite size_flat.
have := @expm_is n (unflat n n A) erefl 1.
apply: is_exp_meq => //; first by split=> //= i j _ _; rewrite mul1r.
exact/meq_sym/(unflat_flat (expm n (unflat n n A) 1)).
Qed.
