(** * DimTen: the equivariant basis of T(p,q) for the group objects. *)
From Coq Require Import Reals String.
From mathcomp Require Import all_ssreflect all_algebra.
From mathcomp Require Import zify.
From Verif Require Import Np NpLemmas Spec SpecLemmas LinOp LinOpSpec LinOpInv LinOpProofs Rep RepSpec RepMat RepWf RepAlg RepMul RepFun RepExpr RhoProofs RepThm RepThm1 Solver SolSpec Rstruct Expm GrpSpec GrpProofs.
From Verif Require Import Groups GroupsSpec GroupsSpecR GroupsInit GroupsCtor GroupsThm GroupsFlag GroupsReal GroupsForm ExactSpec GroupsExact.
From Verif Require Import Nn NnSpec NnThm Data DataSpec DataAlg DataThm DataGroups DataCubeThm DimTenSpec DimGrp.
Set Implicit Arguments.
Unset Strict Implicit.
Unset Printing Implicit Defensive.
Import GRing.Theory.
Local Open Scope ring_scope.

(** ** constructors *)
Lemma gitems_arr (a : nd RR) A : List.In A (gitems (GArr a)) -> exists m n D, A = OArr m n D.
Proof. by case/List.in_map_iff=> t [<- _]; do 3 eexists. Qed.
Lemma built_basic x d l h G : built idR x d l h -> x = Ok G -> (exists a, l = GArr a) ->
  (forall A, List.In A (gitems h) -> match A with OArr _ _ _ | OPerm _ | OShift _ _ => True | _ => False end) -> basic_group d G.
Proof.
move=> [G0 E [_ El Eh [Kl Kh]]]; rewrite E => -[?] [a Ea] H; subst G0; split.
  rewrite El => A HA; have GA := Kl A HA; rewrite Ea in HA; have [m [n [D EA]]] := gitems_arr HA.
  rewrite EA in GA *; have [W _ _ _ [em en]] := GA; subst m n; exists D => //; exact/eqP.
by rewrite Eh => A HA; split; [exact: Kh | exact: H].
Qed.
Lemma arr_items (a : nd RR) A : List.In A (gitems (GArr a)) -> match A with OArr _ _ _ | OPerm _ | OShift _ _ => True | _ => False end.
Proof. by move/gitems_arr=> [m [n [D ->]]]. Qed.
Lemma perm_items ps A : List.In A (gitems (GOps (map (OPerm RR) ps))) -> match A with OArr _ _ _ | OPerm _ | OShift _ _ => True | _ => False end.
Proof. by case/List.in_map_iff=> p [<- _]. Qed.

Lemma iso_invTn d (A : fmat RR) : fr A = d -> fc A = d -> isometry (fid RR d) A -> invTn d A A.
Proof.
move=> a1 a2 I; have L : meq (fmul (ftr A) A) (fid RR d).
  apply: meq_trans I; apply: meq_fmul => //.
  by apply: meq_sym; rewrite -{1}a1; exact: fmul_id_l.
by split=> //; split=> //; apply: (@one_sided RR d (ftr A) A).
Qed.

Lemma fkronl_nseq_meq n (X Y : fmat RR) : meq X Y -> meq (fkronl (nseq n X)) (fkronl (nseq n Y)).
Proof. by move=> H; elim: n => [|n IH] /=; [apply: meq_refl | apply: meq_fkron]. Qed.
Lemma fkronl_sz d k (S : comRingType) (X : fmat S) : fr X = d -> fc X = d ->
  fr (fkronl (nseq k X)) = (d ^ k)%N /\ fc (fkronl (nseq k X)) = (d ^ k)%N.
Proof. by move=> x1 x2; elim: k => //= k [-> ->]; rewrite x1 x2 expnS. Qed.
Lemma tensor_sz d p q (S : comRingType) (X Y : fmat S) : fr X = d -> fc X = d -> fr Y = d -> fc Y = d ->
  fr (fkron (fkronl (nseq p X)) (fkronl (nseq q Y))) = (d ^ (p + q))%N /\ fc (fkron (fkronl (nseq p X)) (fkronl (nseq q Y))) = (d ^ (p + q))%N.
Proof.
by move=> x1 x2 y1 y2; have [h1 h2] := fkronl_sz p x1 x2; have [h3 h4] := fkronl_sz q y1 y2; rewrite /= h1 h2 h3 h4 expnD.
Qed.
Lemma tensor_same p q (A B : fmat RR) : meq B A -> meq (tensor p q A B) (fkronl (nseq (p + q) A)).
Proof.
move=> E; have -> : nseq (p + q) A = nseq p A ++ nseq q A by elim: p => //= p ->.
apply: meq_sym; apply: meq_trans (fkronl_cat _ _) _; apply: meq_fkron => //.
by apply: fkronl_nseq_meq; apply: meq_sym.
Qed.
Lemma fixes_meq N (X Y : fmat RR) v : fc X = N -> fr X = N -> meq X Y -> fixes N X v <-> fixes N Y v.
Proof.
move=> x1 x2 [e1 e2 E]; split=> F i Hi; rewrite -[RHS]F //; apply: eq_sum => j Hj; rewrite E ?x1 ?x2 //.
Qed.
Lemma spans_iff N k Q U U' : (forall v, size v = N -> U v <-> U' v) -> spans N k Q U -> spans N k Q U'.
Proof. by move=> H [h1 h2]; split=> // v Sv; rewrite -H // h2. Qed.

Section Main.
Variables (sinv : RR -> RR) (linv : nat -> seq RR -> seq RR).
Variables (crho cdrho : nat -> option gid -> gel RR -> res (op RR)).
Variables (gdim : gid -> nat) (csize : nat -> gid -> nat) (le : rel rep) (g : gid).
Variable G : gid -> group RR.
Variables (svd : nat -> nat -> seq RR -> seq RR * seq RR * seq RR) (big : pred RR).
Variable krylov : op RR -> res (darr RR).
Local Notation sz := (rsize gdim csize).
Local Notation gorth := (fun h => g_orth (G h)).
Local Notation rep_of := (rep_of gdim gorth csize le g).
Local Notation basis := (basis idR sinv linv crho cdrho gdim csize le (the_gens G) (the_lies G) svd big krylov).
Hypothesis HS : setting sinv linv crho cdrho gdim csize le g G svd big krylov.
Variables (x : res (group RR)) (d : nat) (P : fmat RR -> Prop).
Hypothesis HX : exact_group x d P.
Hypothesis EG : x = Ok (G g).
Hypothesis Ed : gdim g = d.
Hypothesis d0 : (0 < d)%N.
Hypothesis HB : basic_group d (G g).

Theorem tensors p q : (forall A, fr A = d -> fc A = d -> P A -> exists B, invTn d A B) ->
  (g_orth (G g) -> forall A, fr A = d -> fc A = d -> P A -> isometry (fid RR d) A) ->
  exists r k Q, [/\ rep_of (T_expr p q) r, sz r = (d ^ (p + q))%N, returns (basis r) (d ^ (p + q)) k Q &
    spans (d ^ (p + q)) k Q (fun v => forall A B, invTn d A B -> P A -> fixes (d ^ (p + q)) (tensor p q A B) v)].
Proof.
move=> HP HO; case: HS => h1 h2 h3 h4 [h5 h6].
pose F (S : comRingType) (A B : fmat S) := fkron (fkronl (nseq p A)) (fkronl (nseq q B)).
have [|||r [B [k [Q [R1 R2 R3 R4 [R5 R6]]]]]] := @fixed_tensors sinv linv crho cdrho gdim csize le g G svd big krylov h1 h2 h3 h4 h5 x d P HX EG Ed d0 HP HO HB (T_expr p q) (d ^ (p + q)) F _ _ _ h6.
- by [].
- by move=> S X Y x1 x2 y1 y2; exact: tensor_sz.
- by move=> X Y X' Y' E1 E2; apply: meq_fkron; apply: fkronl_nseq_meq.
exists r, k, Q; split=> //; first by exists B.
split=> // v Sv; rewrite -(R6 v Sv); split=> H A B0 AB PA i Hi; have [[a1 a2 b1 b2] _] := AB; have [s1 s2] := tensor_sz p q a1 a2 b1 b2.
  by have := H A B0 AB PA i Hi; rewrite /act /F s2.
by have := H A B0 AB PA i Hi; rewrite /act /F s2.
Qed.
(** groups of orthogonal matrices *)
Theorem tensors_iso p q : (forall A, fr A = d -> fc A = d -> P A -> isometry (fid RR d) A) ->
  exists r k Q, [/\ rep_of (T_expr p q) r, sz r = (d ^ (p + q))%N, returns (basis r) (d ^ (p + q)) k Q &
    spans (d ^ (p + q)) k Q (fun v => forall A, fr A = d -> fc A = d -> P A -> fixes (d ^ (p + q)) (fkronl (nseq (p + q) A)) v)].
Proof.
move=> HI; have [||r [k [Q [R1 R2 R3 R4]]]] := @tensors p q.
- by move=> A a1 a2 PA; exists A; apply: iso_invTn => //; exact: HI.
- by move=> _; exact: HI.
exists r, k, Q; split=> //; apply: spans_iff R4 => v Sv; split=> H A.
  move=> a1 a2 PA; have AA := iso_invTn a1 a2 (HI A a1 a2 PA); have [s1 s2] := tensor_sz p q a1 a2 a1 a2.
  by have := H A A AA PA; rewrite (fixes_meq _ _ _ (tensor_same p q (meq_refl A))).
move=> B AB PA; have [[a1 a2 b1 b2] _] := AB; have AA := iso_invTn a1 a2 (HI A a1 a2 PA); have [s1 s2] := tensor_sz p q a1 a2 b1 b2.
by rewrite (fixes_meq _ _ _ (tensor_same p q (invTn_uniq AB AA))) //; exact: H.
Qed.
End Main.
