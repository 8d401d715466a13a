(** * GrpProofs: invariance under the generators is invariance under the whole group. *)
From Coq Require Import Reals.
From mathcomp Require Import all_ssreflect all_algebra.
From Verif Require Import Np NpLemmas Spec SpecLemmas LinOp LinOpSpec LinOpProofs LinOpMM LinOpMore LinOpInv LinOpThm Rep RepSpec RepMat RepWf RepProd RepAlg RepMul RepFun RepOps RhoProofs RepThm DualNum DrhoProofs DrhoThm RepThm1 Solver SolSpec SolAlg SolFam SolProofs SolBasis Rstruct Expm GrpSpec ExpFam.
Set Implicit Arguments.
Unset Strict Implicit.
Unset Printing Implicit Defensive.
Import GRing.Theory.
Local Open Scope ring_scope.

Section Thm.
Variables (sinv : RR -> RR) (linv : nat -> seq RR -> seq RR).
Variables (crho cdrho : nat -> option gid -> gel RR -> res (op RR)).
Variables (gdim : gid -> nat) (csize : nat -> gid -> nat) (le : rel rep) (gs : pred gid).
Variables (gens lies : gid -> seq (op RR)).
Local Notation sz := (rsize gdim csize).
Local Notation wfr := (wfr gdim csize le gs).
Local Notation atomic := (atomic gdim csize gs).
Local Notation inv := (invertible idR sinv linv).
Local Notation group_elem := (group_elem idR sinv linv crho gdim csize gs).
Local Notation lie_elem := (lie_elem idR cdrho gdim csize gs).
Local Notation rho_dense := (rho_dense idR sinv linv crho).
Local Notation drho_dense := (drho_dense idR cdrho).
Local Notation elemG := (@elemG RR gdim).
Local Notation elemL := (@elemL RR gdim).
Local Notation arho := (@arho RR sinv linv crho).
Local Notation adrho := (@adrho RR cdrho).
Local Notation generated := (generated gdim gs gens lies).
Hypothesis HLI : linv_ok linv.
Hypothesis HC : customs_ok sinv linv crho cdrho gdim csize gs.
Hypothesis HGen : generators_ok idR gdim sinv linv crho cdrho csize gs gens lies.

Definition arr n (X : fmat RR) : op RR := OArr n n (flat X).
Lemma den_arr n (X : fmat RR) : sqn n X -> meq (den (arr n X)) X.
Proof. by case=> h1 h2; rewrite /=; have := unflat_flat X; rewrite h1 h2. Qed.
Lemma size_arr n (X : fmat RR) : sqn n X -> size (flat X) = (n * n)%N.
Proof. by case=> h1 h2; rewrite size_flat h1 h2. Qed.

Lemma inv_arr n (X Y : fmat RR) : sqn n X -> sqn n Y -> meq (fmul X Y) (fid RR n) -> meq (fmul Y X) (fid RR n) -> inv n (arr n X).
Proof.
move=> [x1 x2] [y1 y2] H1 H2; have [S M] := HLI x1 x2 y1 y2 H1 H2.
have D : meq (unflat n n (flat X)) X by have := unflat_flat X; rewrite x1 x2.
apply: invertible_arr => //; first exact: size_arr.
  by apply: meq_trans (meq_fmul D M _) H1.
by apply: meq_trans (meq_fmul M D _) H2.
Qed.
Lemma inv_OI n : inv n (OI RR n).
Proof.
split; first by split=> //; left.
exists (OI RR n) => //; split; first by split=> //; left.
exact: invTn_is (invTn_id _ n).
Qed.
Lemma inv_inv n A : inv n A -> exists Y, [/\ sqn n (den A), sqn n Y, meq (fmul (den A) Y) (fid RR n) & meq (fmul Y (den A)) (fid RR n)].
Proof.
case=> GA [B EB [GB IB]]; have [[h1 h2 h3 h4] [H1 H2]] := invertible_invTn GA GB IB.
by exists (ftr (den B)).
Qed.

(** *** elements *)
Lemma elemM M : group_elem M -> forall g, gs g -> exists2 A, glook M (Some g) = Ok A & inv (gdim g) A.
Proof. by move=> H g /H[A E [I _]]; exists A. Qed.
Lemma elem_of M : (forall g, gs g -> exists2 A, glook M (Some g) = Ok A & inv (gdim g) A) -> group_elem M.
Proof. by case: HC => [[H _] _ _ _]; exact: H. Qed.
Lemma lie_of M : (forall g, gs g -> exists2 A, glook M (Some g) = Ok A & gop idR (gdim g) A /\ gop idR (gdim g) (neg (transpose A))) -> lie_elem M.
Proof. by case: HC => [[_ H] _ _ _]; exact: H. Qed.
Lemma elemG_ok g A : inv (gdim g) A -> group_elem (elemG g A).
Proof.
move=> I; apply: elem_of => g' Hg'; rewrite /= /SolSpec.elemG /=; eexists; first by [].
by case: eqP => [->|_] //; exact: inv_OI.
Qed.
Lemma elemL_ok g (A : op RR) : gop idR (gdim g) A -> gop idR (gdim g) (neg (transpose A)) -> lie_elem (elemL g A).
Proof.
move=> G1 G2; apply: lie_of => g' Hg'; rewrite /= /SolSpec.elemL /=; eexists; first by [].
by case: eqP => [->|_] //; apply: lie_arr; rewrite size_nseq.
Qed.

(** rho is multiplicative on elements given by their matrices *)
Lemma crho_mul M1 M2 M3 g c C1 C2 C3 : gs g -> group_elem M1 -> group_elem M2 -> group_elem M3 ->
  (forall A1 A2 A3, glook M1 (Some g) = Ok A1 -> glook M2 (Some g) = Ok A2 ->
     glook M3 (Some g) = Ok A3 -> meq (den A3) (fmul (den A1) (den A2))) ->
  crho c (Some g) M1 = Ok C1 -> crho c (Some g) M2 = Ok C2 -> crho c (Some g) M3 = Ok C3 ->
  meq (den C3) (fmul (den C1) (den C2)).
Proof.
move=> Hg G1 G2 G3 H E1 E2 E3.
have [A1 L1 [I1 J1]] := G1 g Hg; have [A2 L2 [I2 J2]] := G2 g Hg; have [A3 L3 [I3 J3]] := G3 g Hg.
have [D1 F1 [K1 _]] := J1 c; have [D2 F2 [K2 _]] := J2 c; have [D3 F3 [K3 _]] := J3 c.
move: E1 E2 E3; rewrite F1 F2 F3 => -[e1] [e2] [e3]; subst D1 D2 D3.
case: HC => _ Hm _ _; exact: (Hm c g A1 A2 A3 C1 C2 C3 Hg _ _ (H _ _ _ L1 L2 L3)).
Qed.
Lemma mulM r M1 M2 M3 : wfr r -> group_elem M1 -> group_elem M2 -> group_elem M3 ->
  (forall g A1 A2 A3, gs g -> glook M1 (Some g) = Ok A1 -> glook M2 (Some g) = Ok A2 ->
     glook M3 (Some g) = Ok A3 -> meq (den A3) (fmul (den A1) (den A2))) ->
  exists D1 D2, [/\ rho_dense r M1 = Ok (sz r, sz r, D1), rho_dense r M2 = Ok (sz r, sz r, D2) &
    rho_dense r M3 = Ok (sz r, sz r, mat_mul (sz r) D1 D2)].
Proof.
move=> W G1 G2 G3 H; apply: (rho_mul_thm W G1 G2 G3) => // g c C1 C2 C3 Hg.
by apply: crho_mul => // A1 A2 A3; apply: H.
Qed.
(** an idempotent invertible matrix is the identity *)
Lemma idem_id n (X Y : fmat RR) : sqn n X -> sqn n Y -> meq (fmul X Y) (fid RR n) -> meq X (fmul X X) -> meq X (fid RR n).
Proof.
move=> [x1 x2] [y1 y2] H1 H2.
apply: meq_trans (meq_sym (fmul_id_r (n := n) _)) _ => //.
apply: meq_trans (meq_fmul (meq_refl _) (meq_sym H1) _) _ => //.
apply: meq_trans (fmul_assoc _ _ _) _.
apply: meq_trans (meq_fmul (meq_sym H2) (meq_refl _) _) H1; by rewrite /= ?x2.
Qed.
Lemma crho_id M g c C : gs g -> group_elem M ->
  (forall A, glook M (Some g) = Ok A -> meq (den A) (fid RR (gdim g))) ->
  crho c (Some g) M = Ok C -> meq (den C) (fid RR (csize c g)).
Proof.
move=> Hg G H E; have [A L [I J]] := G g Hg; have [D F [K ID]] := J c; move: E; rewrite F => -[e]; subst D.
have [Y [s1 s2 H1 _]] := inv_inv ID; apply: (idem_id s1 s2 H1).
apply: (@crho_mul M M M g c) => // A1 A2 A3; rewrite L => -[<-] [<-] [<-].
have M1 := H A L; apply: (meq_trans M1); apply: meq_sym.
have [h1 h2] := gop_sz (proj1 I).
apply: meq_trans (meq_fmul M1 M1 _) _; rewrite ?h1 ?h2 //; exact: fmul_id_l.
Qed.
Lemma idM r M : wfr r -> group_elem M ->
  (forall g A, gs g -> glook M (Some g) = Ok A -> meq (den A) (fid RR (gdim g))) ->
  rho_dense r M = Ok (sz r, sz r, flat (fid RR (sz r))).
Proof.
move=> W G H; apply: (rho_id_thm W G) => [g Hg A|g c Hg C]; first exact: H.
by apply: crho_id => // A; apply: H.
Qed.
Lemma invM r M1 M2 : wfr r -> group_elem M1 -> group_elem M2 ->
  (forall g A1 A2, gs g -> glook M1 (Some g) = Ok A1 -> glook M2 (Some g) = Ok A2 ->
     meq (fmul (den A1) (den A2)) (fid RR (gdim g))) ->
  exists D1 D2, [/\ rho_dense r M1 = Ok (sz r, sz r, D1), rho_dense r M2 = Ok (sz r, sz r, D2) &
    mat_mul (sz r) D1 D2 = flat (fid RR (sz r))].
Proof.
move=> W G1 G2 H.
pose M0 : gel RR := GDict (fun g => Some (OI RR (gdim g))).
have G0 : group_elem M0 by apply: elem_of => g Hg; exists (OI RR (gdim g)) => //; apply: inv_OI.
have [D1 [D2 [E1 E2 E3]]] : exists D1 D2, [/\ rho_dense r M1 = Ok (sz r, sz r, D1), rho_dense r M2 = Ok (sz r, sz r, D2) &
    rho_dense r M0 = Ok (sz r, sz r, mat_mul (sz r) D1 D2)].
  by apply: mulM => // g A1 A2 A3 Hg L1 L2 [<-]; apply: meq_sym; apply: H L1 L2.
exists D1, D2; split=> //; move: E3; rewrite (idM W G0); first by case.
by move=> g A _ [<-].
Qed.

(** *** vectors *)
Lemma matvec_mul n D1 D2 (v : seq RR) : size v = n ->
  matvec n n (mat_mul n D1 D2) v = matvec n n D1 (matvec n n D2 v).
Proof.
move=> S; apply: flat_meq.
have E : meq (unflat n n (mat_mul n D1 D2)) (fmul (unflat n n D1) (unflat n n D2)).
  exact: (unflat_flat (fmul (unflat n n D1) (unflat n n D2))).
apply: meq_trans (meq_fmul E (meq_refl _) _) _ => //.
apply: meq_trans (meq_sym (fmul_assoc _ _ _)) _; apply: meq_fmul => //.
apply: meq_sym; exact: (unflat_flat (fmul (unflat n n D2) (unflat n 1 v))).
Qed.
Lemma matvec_id n (v : seq RR) : size v = n -> matvec n n (flat (fid RR n)) v = v.
Proof.
move=> S; rewrite matvec_flat //; apply: (@eq_from_nth _ 0); rewrite size_mkseq // => i Hi.
by rewrite nth_mkseq // /mv /= sum_delta.
Qed.
Definition fixM r v M : Prop := exists2 D, rho_dense r M = Ok (sz r, sz r, D) & matvec (sz r) (sz r) D v = v.

Lemma fix_mul r v M1 M2 M3 : wfr r -> size v = sz r -> group_elem M1 -> group_elem M2 -> group_elem M3 ->
  (forall g A1 A2 A3, gs g -> glook M1 (Some g) = Ok A1 -> glook M2 (Some g) = Ok A2 ->
     glook M3 (Some g) = Ok A3 -> meq (den A3) (fmul (den A1) (den A2))) ->
  fixM r v M1 -> fixM r v M2 -> fixM r v M3.
Proof.
move=> W S G1 G2 G3 H [D1 E1 F1] [D2 E2 F2]; have [D1' [D2' [E1' E2' E3]]] := mulM W G1 G2 G3 H.
move: E1' E2'; rewrite E1 E2 => -[e1] [e2]; subst D1' D2'.
by exists (mat_mul (sz r) D1 D2) => //; rewrite matvec_mul // F2.
Qed.
Lemma fix_id r v M : wfr r -> size v = sz r -> group_elem M ->
  (forall g A, gs g -> glook M (Some g) = Ok A -> meq (den A) (fid RR (gdim g))) -> fixM r v M.
Proof. by move=> W S G H; exists (flat (fid RR (sz r))); [apply: idM | rewrite matvec_id]. Qed.
Lemma fix_inv r v M1 M2 : wfr r -> size v = sz r -> group_elem M1 -> group_elem M2 ->
  (forall g A1 A2, gs g -> glook M1 (Some g) = Ok A1 -> glook M2 (Some g) = Ok A2 ->
     meq (fmul (den A1) (den A2)) (fid RR (gdim g))) -> fixM r v M2 -> fixM r v M1.
Proof.
move=> W S G1 G2 H [D2 E2 F2]; have [D1' [D2' [E1' E2' E3]]] := invM W G1 G2 H.
move: E2'; rewrite E2 => -[e]; subst D2'; exists D1' => //.
by rewrite -{1}F2 -matvec_mul // E3 matvec_id.
Qed.
Lemma fix_ext r v M1 M2 : wfr r -> size v = sz r -> group_elem M1 -> group_elem M2 ->
  (forall g A1 A2, gs g -> glook M1 (Some g) = Ok A1 -> glook M2 (Some g) = Ok A2 -> meq (den A1) (den A2)) ->
  fixM r v M1 -> fixM r v M2.
Proof.
move=> W S G1 G2 H F.
pose M0 : gel RR := GDict (fun g => Some (OI RR (gdim g))).
have G0 : group_elem M0 by apply: elem_of => g Hg; exists (OI RR (gdim g)) => //; apply: inv_OI.
apply: (fix_mul W S G0 G1 G2 _ (fix_id W S G0 _)) F => [g A1 A2 A3 Hg [<-] L2 L3|g A Hg [<-] //].
have [A L [I _]] := G1 g Hg; move: L2; rewrite L => -[e]; subst A2.
apply: meq_trans (meq_sym (H g _ _ Hg L L3)) _; apply: meq_sym; apply: fmul_id_l.
by have [-> _] := gop_sz (proj1 I).
Qed.

(** *** the generated group consists of invertible matrices *)
Lemma lie_sqn g X : gs g -> lie_alg lies g X -> sqn (gdim g) X.
Proof.
case: HGen => _ HL _ _ Hg; elim=> [A {}X HA [h1 h2 _]|c {}X Y Z _ [x1 x2] _ _ [h1 h2 _]|{}X Y Z _ [x1 x2] _ [y1 y2] [h1 h2 _]].
- have [A' [<-] [[GA _] _]] := HL g A Hg HA g Hg; move: GA; rewrite eqxx => /gop_sz[e1 e2].
  by split; rewrite ?h1 ?h2.
- by split; rewrite ?h1 ?h2 /=.
by split; rewrite ?h1 ?h2 /=.
Qed.
Lemma gen_inv X : generated X -> forall g, gs g ->
  exists Y, [/\ sqn (gdim g) (X g), sqn (gdim g) Y, meq (fmul (X g) Y) (fid RR (gdim g)) & meq (fmul Y (X g)) (fid RR (gdim g))].
Proof.
have Hid g (Z : fmat RR) : meq Z (fid RR (gdim g)) ->
    exists Y, [/\ sqn (gdim g) Z, sqn (gdim g) Y, meq (fmul Z Y) (fid RR (gdim g)) & meq (fmul Y Z) (fid RR (gdim g))].
  move=> M; have [h1 h2 _] := M; exists (fid RR (gdim g)); split=> //.
    by apply: meq_trans (fmul_id_r (n := gdim g) _) M; rewrite h2.
  by apply: meq_trans (fmul_id_l (n := gdim g) _) M; rewrite h1.
elim=> {X} [X H|g h X Hg Hh M At|g A X Hg LA E At|X Y Z GX IX GY IY M|X Y GX IX M] g' Hg'.
- exact: Hid (H g' Hg').
- case: (g' =P g) => [->|N]; last exact: Hid (At g' Hg' N).
  case: HGen => HG _ _ _; have [A [<-] [I _]] := HG g h Hg Hh g Hg; move: I; rewrite eqxx => /inv_inv[Y [s1 s2 H1 H2]].
  have [m1 m2 _] := M; have [e1 e2] := s1; have [k1 k2] := s2; exists Y; split=> //.
  + by split; rewrite ?m1 ?m2.
  + by apply: meq_trans (meq_fmul M (meq_refl _) _) H1; rewrite m2 e2 k1.
  by apply: meq_trans (meq_fmul (meq_refl _) M _) H2; rewrite m1 e1 k2.
- case: (g' =P g) => [->|N]; last exact: Hid (At g' Hg' N).
  have [a1 a2] := lie_sqn Hg LA; have [e1 e2 _] := E.
  have M : meq (X g) (expm (gdim g) A R1).
    apply: is_exp_expm => //; apply: is_exp_meq E => //; split=> //= i j _ _; exact: esym (mul1r _).
  exists (expm (gdim g) (fopp A) R1); split=> //.
    by apply: meq_trans (meq_fmul M (meq_refl _) _) (expm_inv_r a2 _); rewrite e2.
  by apply: meq_trans (meq_fmul (meq_refl _) M _) (expm_inv_l a1 a2 _); rewrite e1.
- have [X' [[x1 x2] [x3 x4] xa xb]] := IX g' Hg'; have [Y' [[y1 y2] [y3 y4] ya yb]] := IY g' Hg'.
  have M' := M g' Hg'; have [m1 m2 _] := M'.
  exists (fmul Y' X'); split=> //.
  + by split; rewrite ?m1 ?m2.
  + apply: meq_trans (meq_fmul M' (meq_refl _) _) _; first by rewrite m2 /= y2 y3.
    apply: meq_trans (meq_sym (fmul_assoc _ _ _)) _.
    apply: meq_trans (meq_fmul (meq_refl _) (fmul_assoc _ _ _) _) _; first by rewrite /= x2 y1.
    apply: meq_trans xa; apply: meq_fmul => //; last by rewrite x2 /= y1.
    apply: meq_trans (meq_fmul ya (meq_refl _) _) _; first by rewrite /= y4 x3.
    by apply: fmul_id_l; rewrite x3.
  apply: meq_trans (meq_fmul (meq_refl _) M' _) _; first by rewrite /= x4 m1 /= x1.
  apply: meq_trans (meq_sym (fmul_assoc _ _ _)) _.
  apply: meq_trans (meq_fmul (meq_refl _) (fmul_assoc _ _ _) _) _; first by rewrite /= x3 y4.
  apply: meq_trans yb; apply: meq_fmul => //; last by rewrite y4 /= x3.
  apply: meq_trans (meq_fmul xb (meq_refl _) _) _; first by rewrite /= x2 y1.
  by apply: fmul_id_l; rewrite y1.
have [X' [[x1 x2] [x3 x4] xa xb]] := IX g' Hg'; have [f1 f2] := M g' Hg'; have [_ c2 _] := f2.
have E : meq (Y g') X'.
  apply: meq_trans (meq_sym (fmul_id_l (n := gdim g') _)) _ => //.
  apply: meq_trans (meq_fmul (meq_sym xb) (meq_refl _) _) _ => //.
  apply: meq_trans (meq_sym (fmul_assoc _ _ _)) _.
  apply: meq_trans (meq_fmul (meq_refl _) f2 _) _; first by rewrite /= x4 x1.
  by apply: fmul_id_r; rewrite x4.
exists (X g'); split=> //.
  by apply: meq_trans (meq_fmul E (meq_refl _) _) xb; rewrite /= in c2 *; rewrite c2 x1.
Qed.

Lemma meq_fopp (X Y : fmat RR) : meq X Y -> meq (fopp X) (fopp Y).
Proof. by case=> h1 h2 h3; split=> //= i j Hi Hj; rewrite h3. Qed.
Lemma meq_fscale (a : RR) X Y : meq X Y -> meq (fscale a X) (fscale a Y).
Proof. by case=> h1 h2 h3; split=> //= i j Hi Hj; rewrite h3. Qed.

(** *** the Lie algebra *)
Definition killM r v M : Prop := exists2 D, drho_dense r M = Ok (sz r, sz r, D) & matvec (sz r) (sz r) D v = nseq (sz r) 0.
Lemma killE n D (v : seq RR) : size v = n ->
  matvec n n D v = nseq n 0 <-> (forall i, (i < n)%N -> mv (unflat n n D) (nth 0 v) i = 0).
Proof. by move=> S; rewrite matvecE // nseq_mkseq mkseq_eq. Qed.
Lemma elemM_L M : lie_elem M -> forall g, gs g -> exists2 A, glook M (Some g) = Ok A & gop idR (gdim g) A.
Proof. by move=> H g /H[A E [[G _] _]]; exists A. Qed.
Lemma cdrho_mat M g c C : gs g -> lie_elem M -> cdrho c (Some g) M = Ok C ->
  exists A, [/\ glook M (Some g) = Ok A, gop idR (gdim g) A & cdrho c (Some g) (GMat A) = Ok C].
Proof.
move=> Hg H E; have [A L [[G _] J]] := H g Hg; have [D F [K _]] := J c.
by move: E; rewrite F => -[<-]; exists A.
Qed.
Lemma kill_lin (a : RR) r v M1 M2 M3 : wfr r -> size v = sz r -> lie_elem M1 -> lie_elem M2 -> lie_elem M3 ->
  (forall g A1 A2 A3, gs g -> glook M1 (Some g) = Ok A1 -> glook M2 (Some g) = Ok A2 -> glook M3 (Some g) = Ok A3 ->
     meq (den A3) (fadd (fscale a (den A1)) (den A2))) ->
  killM r v M1 -> killM r v M2 -> killM r v M3.
Proof.
move=> W S G1 G2 G3 H [D1 E1 /(killE _ S) F1] [D2 E2 /(killE _ S) F2].
have [||D1' [D2' [E1' E2' E3]]] := @drho_lin_thm RR idR cdrho gdim csize le gs a r M1 M2 M3 W G1 G2 G3.
- exact: H.
- move=> g k C1 C2 C3 Hg K1 K2 K3.
  have [A1 [L1 I1 J1]] := cdrho_mat Hg G1 K1; have [A2 [L2 I2 J2]] := cdrho_mat Hg G2 K2; have [A3 [L3 I3 J3]] := cdrho_mat Hg G3 K3.
  case: HC => _ _ _ Hl; have [] // := Hl k g a A1 A2 A3 C1 C2 C3 Hg; last by move=> X _; apply: X; apply: (H g).
move: E1' E2'; rewrite E1 E2 => -[e1] [e2]; subst D1' D2'; eexists; first exact: E3.
set n := sz r in E3 S F1 F2 *; set X := unflat _ _ D1 in E3 F1 *; set Y := unflat _ _ D2 in E3 F2 *.
have M : meq (unflat n n (flat (fadd (fscale a X) Y))) (fadd (fscale a X) Y) by exact: (unflat_flat (fadd (fscale a X) Y)).
apply/killE => // i Hi; rewrite (mv_eq (w := nth 0 v) M) //.
have := F1 i Hi; have := F2 i Hi; rewrite /mv /= => h2 h1.
rewrite (eq_sum (g := fun j => a * (fe X i j * nth 0 v j) + fe Y i j * nth 0 v j)); last by move=> j _; rewrite /= mulrDl -mulrA.
by rewrite big_split /= -mulr_sumr h1 h2 mulr0 addr0.
Qed.
Lemma kill_br r v M1 M2 M3 : wfr r -> size v = sz r -> lie_elem M1 -> lie_elem M2 -> lie_elem M3 ->
  (forall g A1 A2 A3, gs g -> glook M1 (Some g) = Ok A1 -> glook M2 (Some g) = Ok A2 -> glook M3 (Some g) = Ok A3 ->
     meq (den A3) (fsub (fmul (den A1) (den A2)) (fmul (den A2) (den A1)))) ->
  killM r v M1 -> killM r v M2 -> killM r v M3.
Proof.
move=> W S G1 G2 G3 H [D1 E1 /(killE _ S) F1] [D2 E2 /(killE _ S) F2].
have [||D1' [D2' [E1' E2' E3]]] := @drho_br_thm RR idR cdrho gdim csize le gs r M1 M2 M3 W G1 G2 G3.
- exact: H.
- move=> g k C1 C2 C3 Hg K1 K2 K3.
  have [A1 [L1 I1 J1]] := cdrho_mat Hg G1 K1; have [A2 [L2 I2 J2]] := cdrho_mat Hg G2 K2; have [A3 [L3 I3 J3]] := cdrho_mat Hg G3 K3.
  case: HC => _ _ _ Hl; have [] // := Hl k g 0 A1 A2 A3 C1 C2 C3 Hg; last by move=> _ X; apply: X; apply: (H g).
move: E1' E2'; rewrite E1 E2 => -[e1] [e2]; subst D1' D2'; eexists; first exact: E3.
cbv zeta in E3; set n := sz r in E3 S F1 F2 *; set X := unflat _ _ D1 in E3 F1 *; set Y := unflat _ _ D2 in E3 F2 *.
have M : meq (unflat n n (flat (fsub (fmul X Y) (fmul Y X)))) (fsub (fmul X Y) (fmul Y X)) by exact: (unflat_flat (fsub (fmul X Y) (fmul Y X))).
apply/killE => // i Hi; rewrite (mv_eq (w := nth 0 v) M) //.
have Z (P Q : fmat RR) : fr P = n -> fc P = n -> fr Q = n -> fc Q = n -> (forall i, (i < n)%N -> mv Q (nth 0 v) i = 0) ->
    \sum_(0 <= j < n) fe (fmul P Q) i j * nth 0 v j = 0.
  move=> p1 p2 q1 q2 F; have := mv_mul (A := P) (B := Q) (nth 0 v) i; rewrite /mv /= q2 => ->; last by rewrite p2.
  rewrite p2 (eq_sum (g := fun _ => 0)); first by rewrite big1.
  by move=> j Hj; have := F j Hj; rewrite /mv q2 => ->; rewrite mulr0.
transitivity (\sum_(0 <= j < n) (fe (fmul X Y) i j * nth 0 v j - fe (fmul Y X) i j * nth 0 v j)).
  by apply: eq_sum => j _; rewrite -mulrBl.
by rewrite sumrB !Z ?subr0.
Qed.
Lemma elemL_arr g X : sqn (gdim g) X -> lie_elem (elemL g (arr (gdim g) X)).
Proof.
by move=> S; have [] := @lie_arr RR idR (gdim g) (flat X) (size_arr S) => G1 G2; apply: elemL_ok.
Qed.
Lemma zero_den n : meq (den (OArr n n (nseq (n * n) (0 : RR)))) (fzero RR n n).
Proof. by split=> //= i j Hi Hj; rewrite nth_nseq if_same. Qed.

Lemma lie_kill r v : wfr r -> size v = sz r ->
  invariant idR gdim sinv linv crho cdrho csize gs gens lies r v ->
  forall g X, gs g -> lie_alg lies g X -> killM r v (elemL g (arr (gdim g) X)).
Proof.
move=> W S [_ Hinv] g X Hg LX.
have HL : forall A, List.In A (lies g) -> lie_elem (elemL g A) by case: HGen => _ HL _ _ A; exact: HL.
have key (a : RR) A1 A2 A3 : lie_elem (elemL g A1) -> lie_elem (elemL g A2) -> lie_elem (elemL g A3) ->
    meq (den A3) (fadd (fscale a (den A1)) (den A2)) ->
    killM r v (elemL g A1) -> killM r v (elemL g A2) -> killM r v (elemL g A3).
  move=> l1 l2 l3 M; apply: (kill_lin (a := a)) => // g' B1 B2 B3 Hg' [<-] [<-] [<-].
  case: eqP => [e|_] //; split=> //= i j Hi Hj; by rewrite !nth_nseq !if_same mulr0 addr0.
elim: LX => {X} [A X HA M|c X Y Z LX IX LY IY M|X Y Z LX IX LY IY M].
- have lX : lie_alg lies g X by apply: LA_gen HA M.
  apply: (key 0 A A) => //; [exact: HL | exact: HL | exact: elemL_arr (lie_sqn Hg lX) | | exact: Hinv | exact: Hinv].
  apply: meq_trans (den_arr (lie_sqn Hg lX)) _; apply: meq_trans M _.
  by split=> //= i j _ _; rewrite mul0r add0r.
- have lZ : lie_alg lies g Z by apply: LA_lin LX LY M.
  have sX := lie_sqn Hg LX; have sY := lie_sqn Hg LY; have sZ := lie_sqn Hg lZ.
  have [x1 x2] := sX; have [y1 y2] := sY.
  apply: (key c (arr (gdim g) X) (arr (gdim g) Y)) => //; try exact: elemL_arr.
  apply: meq_trans (den_arr sZ) _; apply: meq_trans M _; apply: meq_sym.
  by apply: meq_fadd => //; [apply: meq_fscale; exact: den_arr | exact: den_arr].
have lZ : lie_alg lies g Z by apply: LA_br LX LY M.
have sX := lie_sqn Hg LX; have sY := lie_sqn Hg LY; have sZ := lie_sqn Hg lZ.
have [x1 x2] := sX; have [y1 y2] := sY.
apply: (@kill_br r v (elemL g (arr (gdim g) X)) (elemL g (arr (gdim g) Y))) => //; try exact: elemL_arr.
move=> g' B1 B2 B3 Hg' [<-] [<-] [<-].
case: eqP => [e|_].
  apply: meq_trans (den_arr sZ) _; apply: meq_trans M _; apply: meq_sym.
  by apply: meq_fadd => //; [|apply: meq_fopp]; apply: meq_fmul => //; exact: den_arr.
apply: meq_trans (zero_den _) _; split=> //= i j Hi Hj.
by rewrite !big1 ?subr0 // => k _; rewrite !nth_nseq !if_same mulr0.
Qed.

(** *** one-parameter groups *)
Section Exp.
Variables (g : gid) (A : fmat RR).
Hypotheses (Hg : gs g) (SA : sqn (gdim g) A).
Local Notation n := (gdim g).
Definition Mt (t : R) : gel RR := elemG g (arr n (expm n A t)).
Lemma sE t : sqn n (expm n A t). Proof. by []. Qed.
Lemma Et_inv t : inv n (arr n (expm n A t)).
Proof.
have [a1 a2] := SA.
apply: (@inv_arr _ _ (expm n (fopp A) t)) => //; [exact: expm_inv_r | exact: expm_inv_l].
Qed.
Lemma Mt_ok t : group_elem (Mt t). Proof. exact: elemG_ok (Et_inv t). Qed.
Lemma Mt_add t s g' A1 A2 A3 : gs g' -> glook (Mt t) (Some g') = Ok A1 -> glook (Mt s) (Some g') = Ok A2 ->
  glook (Mt (Rplus t s)) (Some g') = Ok A3 -> meq (den A3) (fmul (den A1) (den A2)).
Proof.
have [a1 a2] := SA.
move=> Hg' [<-] [<-] [<-]; case: eqP => [e|_]; last by apply: meq_sym; exact: fmul_id_l.
apply: meq_trans (den_arr (sE _)) _; apply: meq_trans (expm_add a1 a2 t s) _; apply: meq_sym.
by apply: meq_fmul => //; exact: den_arr.
Qed.
Lemma dl_expm0 i j : (i < n)%N -> (j < n)%N -> derivable_pt_lim (fun t => fe (expm n A t) i j) R0 (fe A i j).
Proof.
move=> Hi Hj; have [a1 a2] := SA; apply: dl_ext (expm_der_r a2 R0 Hi Hj) => //.
rewrite -[LHS]/(\sum_(0 <= k < n) fe (expm n A R0) i k * fe A k j).
rewrite (eq_sum (g := fun k => (i == k)%:R * fe A k j)); first by rewrite sum_delta.
by move=> k Hk; have [_ _ ->] := expm0 n A.
Qed.
Lemma curve_const m : curve m (fun _ => fid RR m) (fzero RR m m).
Proof. by split=> // i j _ _; exact: dl0. Qed.
Lemma atom_curve k : atomic k -> curve (sz k) (fun t => arho (Mt t) k) (adrho (elemL g (arr n A)) k).
Proof.
have [a1 a2] := SA.
have base h : gs h -> curve (gdim h) (fun t => den (if h == g then arr n (expm n A t) else OI RR (gdim h)))
    (den (if h == g then arr n A else OArr (gdim h) (gdim h) (nseq (gdim h * gdim h) 0))).
  move=> Hh; case: eqP => [->|_]; last first.
    by apply: curve_meq (meq_sym (zero_den _)) (curve_const _).
  apply: (curve_meq (fun t => meq_sym (den_arr (sE t))) (meq_sym (den_arr SA))).
  split=> //; [exact: expm0 | exact: dl_expm0].
have baseM h : gs h -> forall t s, meq (den (if h == g then arr n (expm n A (Rplus t s)) else OI RR (gdim h)))
    (fmul (den (if h == g then arr n (expm n A t) else OI RR (gdim h))) (den (if h == g then arr n (expm n A s) else OI RR (gdim h)))).
  by move=> Hh t s; apply: (Mt_add (t := t) (s := s) Hh).
have LL : lie_elem (elemL g (arr n A)) by exact: elemL_arr.
have cus h c : gs h -> exists (F : R -> op RR) C, [/\ forall t, crho c (Some h) (Mt t) = Ok (F t),
    cdrho c (Some h) (elemL g (arr n A)) = Ok C, curve (csize c h) (fun t => den (F t)) (den C) &
    forall t s, meq (den (F (Rplus t s))) (fmul (den (F t)) (den (F s)))].
  move=> Hh.
  pose F t := if crho c (Some h) (Mt t) is Ok X then X else OI RR 0.
  have EF t : crho c (Some h) (Mt t) = Ok (F t).
    by have [X L [I J]] := Mt_ok t Hh; have [Y E _] := J c; rewrite /F E.
  have [X L [[GX _] J]] := LL h Hh; have [C EC [KC [GC _]]] := J c.
  have IF t : inv (csize c h) (F t).
    by have [X' L' [I' J']] := Mt_ok t Hh; have [Y E [_ IY]] := J' c; rewrite /F E.
  exists F, C; split=> //.
    split.
    - by move=> t; have [] := gop_sz (proj1 (IF t)).
    - exact: gop_sz GC.
    - apply: (crho_id Hh (Mt_ok R0) _ (EF R0)) => X' [<-]; case: eqP => [->|_] //.
      apply: meq_trans (den_arr (sE _)) _; exact: expm0.
    case: L => e; case: HC => _ _ Hd _.
    case: (h =P g) => hg.
      subst h; apply: (Hd c g X C (fun t => arr n (expm n A t))) => //.
        split=> //; first exact: Et_inv.
        by move=> t; have [X' [L'] [_ J']] := Mt_ok t Hg; have [Y E [E' _]] := J' c; move: E E' L'; rewrite EF eqxx => -[<-] <- ->.
      move=> t; rewrite -e eqxx; apply: is_exp_meq (expm_is a2 t) => //.
        by apply: meq_fscale; apply: meq_sym; exact: den_arr.
      by apply: meq_sym; exact: den_arr.
    have nh : (h == g) = false by apply/eqP.
    have EX : forall t, crho c (Some h) (GMat (OI RR (gdim h))) = Ok (F t).
      by move=> t; have [X' [L'] [_ J']] := Mt_ok t Hh; have [Y E [E' _]] := J' c; move: E E' L'; rewrite EF nh => -[<-] <- ->.
    apply: (Hd c h X C (fun _ => OI RR (gdim h))) => //.
      by split=> // t; exact: inv_OI.
    move=> t; move: e; rewrite nh => <-.
    pose O := fzero RR (gdim h) (gdim h).
    have h1 : is_exp (gdim h) (fscale R0 O) (expm (gdim h) O R0) by apply: expm_is.
    apply: is_exp_meq (expm0 _ _) _ _ h1 => //.
    by split=> //= i j Hi Hj; rewrite nth_nseq if_same mulr0 mulr0.
  move=> t s; apply: (crho_mul Hh (Mt_ok t) (Mt_ok s) (Mt_ok (Rplus t s)) _ (EF t) (EF s) (EF _)).
  by move=> A1 A2 A3; apply: Mt_add.
have dual m (F : R -> op RR) Y : curve m (fun t => den (F t)) (den Y) ->
    (forall t s, meq (den (F (Rplus t s))) (fmul (den (F t)) (den (F s)))) ->
    (forall t, inv m (F t)) -> gop idR m Y ->
    curve m (fun t => if inv_transpose sinv linv (F t) is Ok X then den X else fzero RR 0 0) (den (neg (transpose Y))).
  move=> c1 mu HB GY; set B := fun t => if _ is Ok X then _ else _.
  apply: (@curve_meq m B (fopp (ftr (den Y)))) => //.
    by apply: meq_sym; exact: negT_den GY.
  have HB' t : invTn m (den (F t)) (B t).
    by have [GF [X EX [GX IX]]] := HB t; rewrite /B EX; exact: (invertible_invTn GF GX IX).
  apply: (curve_dual c1 _ mu) => t; have [[h1 h2 h3 h4] hh] := HB' t; [by split | exact: hh].
rewrite /RhoProofs.arho /RhoProofs.adrho /atomf.
case: k => // [[h|]|c [h|]|[|[h|]|c [h|]|?|? ?|? ?|? ?|?|?]] //= /andP[Hh _].
- exact: base.
- have [F [C [EF EC cu _]]] := cus h c Hh; rewrite EC.
  by apply: curve_meq cu => // t; rewrite EF.
- have I t : inv (gdim h) (if h == g then arr n (expm n A t) else OI RR (gdim h)).
    by have [X [<-] []] := Mt_ok t Hh.
  have GL : gop idR (gdim h) (if h == g then arr n A else OArr (gdim h) (gdim h) (nseq (gdim h * gdim h) 0)).
    by have [X [<-] [[]]] := LL h Hh.
  by apply: curve_meq (dual _ _ _ (base h Hh) (baseM h Hh) I GL).
have [F [C [EF EC cu mu]]] := cus h c Hh.
have I t : inv (csize c h) (F t).
  by have [X' L' [I' J']] := Mt_ok t Hh; have [Y E [_ IY]] := J' c; move: E; rewrite EF => -[->].
have GC : gop idR (csize c h) C.
  by have [X L [_ J]] := LL h Hh; have [C' + [_ [GC _]]] := J c; rewrite EC => -[->].
apply: curve_meq (dual _ _ _ cu mu I GC) => [t|]; last by rewrite EC bindOk; exact: meq_refl.
rewrite EF bindOk; exact: meq_refl.
Qed.

Section V.
Variables (r : rep) (v : seq RR).
Hypotheses (W : wfr r) (S : size v = sz r).
Let K t := rmat (arho (Mt t)) r.
Let D := dmat (adrho (elemL g (arr n A))) r.
Lemma K_curve : curve (sz r) K D.
Proof. by apply: (rmat_curve (le := le) (gs := gs)) => // k; exact: atom_curve. Qed.
Lemma K_sq t : sqn (sz r) (K t). Proof. by have [H _ _ _] := K_curve. Qed.
Lemma K_add t s i : (i < sz r)%N -> mv (K (Rplus t s)) (nth 0 v) i = mv (K t) (mv (K s) (nth 0 v)) i.
Proof.
move=> Hi; have [D1 [D2 [E1 E2 E3]]] := mulM W (Mt_ok t) (Mt_ok s) (Mt_ok (Rplus t s)) (fun g' A1 A2 A3 => @Mt_add t s g' A1 A2 A3).
move: E1 E2 E3; rewrite !(rho_dense_ok _ W); try exact: Mt_ok; move=> [<-] [<-] [E].
have [k1 k2] := K_sq t; have [l1 l2] := K_sq s; have [m1 m2] := K_sq (Rplus t s).
have := matvec_mul (flat (K t)) (flat (K s)) S; rewrite -E (matvec_flat k1 k2) ?(matvec_flat l1 l2) // ?(matvec_flat m1 m2) //; last by rewrite size_mkseq.
move/(congr1 (nth 0 ^~ i)); rewrite !nth_mkseq // => ->; apply: mv_ext => j; rewrite k2 => Hj; by rewrite nth_mkseq.
Qed.
Lemma K_der0 i : (i < sz r)%N -> derivable_pt_lim (fun t => mv (K t) (nth 0 v) i) R0 (mv D (nth 0 v) i).
Proof.
move=> Hi; have [_ [d1 d2] _ Hd] := K_curve.
have := @dl_sum (fun j t => fe (K t) i j * nth 0 v j : RR) (fun j => fe D i j * nth 0 v j) (sz r) R0 (fun j Hj => @dl_mulc (fun t => fe (K t) i j) R0 (nth 0 v j) (fe D i j) (Hd i j Hi Hj)).
apply: dl_ext.
  by move=> t; rewrite /mv; have [_ ->] := K_sq t.
by rewrite /mv d2.
Qed.
Lemma shift_der (f : R -> R) t l : derivable_pt_lim (fun h => f (Rplus t h)) R0 l -> derivable_pt_lim f t l.
Proof.
move=> H e He; have [d Hd] := H e He; exists d => h h0 hd; have := Hd h h0 hd.
by rewrite Rplus_0_l Rplus_0_r.
Qed.
Lemma K_der t i : (i < sz r)%N -> (forall j, (j < sz r)%N -> mv D (nth 0 v) j = 0) ->
  derivable_pt_lim (fun t => mv (K t) (nth 0 v) i) t R0.
Proof.
move=> Hi H0; apply: shift_der.
have := @dl_sum (fun j h => fe (K t) i j * mv (K h) (nth 0 v) j : RR) (fun j => fe (K t) i j * mv D (nth 0 v) j) (sz r) R0 (fun j Hj => @dl_cmul (fun h => mv (K h) (nth 0 v) j) R0 (fe (K t) i j) (mv D (nth 0 v) j) (K_der0 Hj)).
apply: dl_ext.
  by move=> h; rewrite K_add // /mv; have [_ ->] := K_sq t.
rewrite (eq_sum (g := fun _ => 0)); first by rewrite big1.
by move=> j Hj; rewrite H0 // mulr0.
Qed.
Lemma K0 i : (i < sz r)%N -> mv (K R0) (nth 0 v) i = nth 0 v i.
Proof.
move=> Hi; have [_ _ M _] := K_curve; have [k1 k2] := K_sq R0.
by rewrite (mv_eq (w := nth 0 v) M) ?k1 // /mv /= sum_delta.
Qed.
Lemma fixK t : fixM r v (Mt t) <-> (forall i, (i < sz r)%N -> mv (K t) (nth 0 v) i = nth 0 v i).
Proof.
have [k1 k2] := K_sq t; split.
  case=> E; rewrite (rho_dense_ok (Mt_ok t) W) => -[<-].
  by rewrite (matvec_flat k1 k2) // -{2}(mkseq_nthv S) mkseq_eq.
move=> H; eexists; first exact: rho_dense_ok (Mt_ok t) W.
by rewrite (matvec_flat k1 k2) // -{2}(mkseq_nthv S) mkseq_eq.
Qed.
Lemma killK : killM r v (elemL g (arr n A)) <-> (forall i, (i < sz r)%N -> mv D (nth 0 v) i = 0).
Proof.
have [_ [d1 d2] _ _] := K_curve; have LL := elemL_arr SA; split.
  case=> E; rewrite (drho_dense_ok LL W) => -[<-].
  by rewrite (matvec_flat d1 d2) // nseq_mkseq mkseq_eq.
move=> H; eexists; first exact: drho_dense_ok LL W.
by rewrite (matvec_flat d1 d2) // nseq_mkseq mkseq_eq.
Qed.
Lemma exp_fix t : killM r v (elemL g (arr n A)) -> fixM r v (Mt t).
Proof.
move/killK => H; apply/fixK => i Hi; rewrite -[RHS]K0 //.
by apply: (@dl_const (fun t => mv (K t) (nth 0 v) i)) => s; exact: K_der.
Qed.
Lemma fix_kill : (forall t, fixM r v (Mt t)) -> killM r v (elemL g (arr n A)).
Proof.
move=> H; apply/killK => i Hi; apply: dl_uniq (K_der0 Hi) _.
apply: dl_ext (dl0 (nth 0 v i) R0) => // t; exact: esym (proj1 (fixK t) (H t) i Hi).
Qed.
End V.
End Exp.

(** *** the theorem *)
Local Notation invariant := (invariant idR gdim sinv linv crho cdrho csize gs gens lies).
Local Notation group_invariant := (group_invariant sinv linv crho gdim csize gs gens lies).
Local Notation elem_is := (elem_is sinv linv gdim gs).
Definition fel (X : gid -> fmat RR) : gel RR := GDict (fun g => Some (arr (gdim g) (X g))).
Lemma fel_is X : generated X -> elem_is (fel X) X.
Proof.
move=> G g Hg; have [Y [s1 s2 H1 H2]] := gen_inv G Hg; exists (arr (gdim g) (X g)) => //.
by split; [exact: inv_arr s1 s2 H1 H2 | exact: den_arr].
Qed.
Lemma is_elem M X : elem_is M X -> group_elem M.
Proof. by move=> H; apply: elem_of => g /H[A E [I _]]; exists A. Qed.
Lemma is_look M X g A : elem_is M X -> gs g -> glook M (Some g) = Ok A -> meq (den A) (X g).
Proof. by move=> H /H[A' -> [_ E]] [<-]. Qed.

Lemma invariant_group r v : wfr r -> size v = sz r -> invariant r v -> group_invariant r v.
Proof.
move=> W S Hinv M X GX; elim: GX M => {X} [X H|g h X Hg Hh E At|g A X Hg LA E At|X Y Z GX IX GY IY H|X Y GX IX H] M HM;
  have GM := is_elem HM.
- apply: fix_id => // g A Hg L; apply: meq_trans (is_look HM Hg L) (H g Hg).
- have G0 : group_elem (elemG g h) by case: HGen => HG _ _ _; exact: HG.
  apply: (fix_ext W S G0 GM) => [g' A1 A2 Hg' [<-] L2|]; last by have [H _] := Hinv; exact: H.
  apply: meq_sym; apply: meq_trans (is_look HM Hg' L2) _.
  by case: (g' =P g) => [->|N] //; exact: At.
- have SA := lie_sqn Hg LA.
  apply: (fix_ext W S (Mt_ok SA R1) GM) => [g' A1 A2 Hg' [<-] L2|]; last first.
    by apply: exp_fix => //; exact: lie_kill.
  apply: meq_sym; apply: meq_trans (is_look HM Hg' L2) _.
  case: (g' =P g) => [->|N]; last exact: At.
  apply: meq_trans (meq_sym (den_arr (sE _ _ _))).
  have [a1 a2] := SA; apply: is_exp_expm => //; apply: is_exp_meq E => //; split=> //= i j _ _; exact: esym (mul1r _).
- have EX := fel_is GX; have EY := fel_is GY.
  apply: (fix_mul W S (is_elem EX) (is_elem EY) GM _ (IX _ EX) (IY _ EY)) => g A1 A2 A3 Hg [<-] [<-] L3.
  apply: meq_trans (is_look HM Hg L3) _; apply: meq_trans (H g Hg) _.
  have [X' [s1 _ _ _]] := gen_inv GX Hg; have [Y' [s2 _ _ _]] := gen_inv GY Hg.
  apply: meq_sym; apply: meq_fmul; try exact: den_arr.
  by [].
have EX := fel_is GX.
apply: (fix_inv W S GM (is_elem EX) _ (IX _ EX)) => g A1 A2 Hg L1 [<-].
have [X' [s1 s2 xa xb]] := gen_inv GX Hg; have [f1 f2] := H g Hg; have MY := is_look HM Hg L1.
have [x1 x2] := s1; have [x3 x4] := s2; have [_ c2 _] := f2.
have E : meq (Y g) X'.
  apply: meq_trans (meq_sym (fmul_id_l (n := gdim g) _)) _ => //.
  apply: meq_trans (meq_fmul (meq_sym xb) (meq_refl _) _) _ => //.
  apply: meq_trans (meq_sym (fmul_assoc _ _ _)) _.
  apply: meq_trans (meq_fmul (meq_refl _) f2 _) _; first by rewrite /= x4 x1.
  by apply: fmul_id_r; rewrite x4.
apply: meq_trans xb; apply: meq_fmul; [exact: meq_trans MY E | exact: den_arr |].
by have [_ -> _] := MY; have [_ -> _] := E; rewrite x4.
Qed.

Lemma group_invariant_inv r v : wfr r -> size v = sz r -> group_invariant r v -> invariant r v.
Proof.
move=> W S HG; split=> g h Hg Hh.
  pose X (g' : gid) := if g' == g then den h else fid RR (gdim g').
  apply: (HG _ X); first by apply: (@G_gen _ _ _ _ g h X) => //; [rewrite /X eqxx | move=> g' _ /eqP N; rewrite /X (negbTE N)].
  case: HGen => HG' _ _ _; move=> g' Hg'; have [A E [I _]] := HG' g h Hg Hh g' Hg'; exists A => //; split=> //.
  by case: E => <-; rewrite /X; case: eqP.
have LA : lie_alg lies g (den h) by apply: LA_gen Hh _.
have SA := lie_sqn Hg LA; have [a1 a2] := SA.
have KA : killM r v (elemL g (arr (gdim g) (den h))).
  apply: fix_kill => // t.
  pose X (g' : gid) := if g' == g then expm (gdim g) (den h) t else fid RR (gdim g').
  apply: (HG _ X).
    apply: (@G_exp _ _ _ _ g (fscale t (den h)) X) => //.
    - have L0 : lie_alg lies g (fzero RR (gdim g) (gdim g)).
        apply: (LA_lin (c := -1) LA LA); split; rewrite /= ?a1 ?a2 // => i j _ _.
        by rewrite mulN1r addNr.
      apply: (LA_lin (c := t) LA L0); split=> //= i j _ _; by rewrite addr0.
    - by rewrite /X eqxx; exact: expm_is.
    by move=> g' _ /eqP N; rewrite /X (negbTE N).
  move=> g' Hg'; have [A E [I _]] := Mt_ok SA t Hg'; exists A => //; split=> //.
  by case: E => <-; rewrite /X; case: eqP => [e|_] //; exact: den_arr.
have HL := HGen; case: HL => _ HL _ _; have G0 := HL g h Hg Hh.
apply: (kill_lin (a := 0) W S (elemL_arr SA) (elemL_arr SA) G0 _ KA KA) => g' A1 A2 A3 Hg' [<-] [<-] [<-].
case: eqP => [e|_].
  split; rewrite /= ?a1 ?a2 //= => i j Hi Hj; rewrite mul0r add0r.
  by have [_ _ H] := den_arr SA; rewrite -(H i j) /=.
by split=> //= i j _ _; rewrite mul0r add0r.
Qed.

Lemma constraint_inv r g : wfr r -> gattr r = Some (Some g) ->
  exists C m, [/\ constraint_matrix sinv linv crho cdrho gdim csize gens lies r = Ok C, shape C = (m, sz r) &
    forall v, size v = sz r -> (matmat idR C 1 v = Ok (nseq m 0) <-> invariant r v)].
Proof.
move=> W Eg; have [Wg Hg] := single_grp W Eg; case: HGen => HG HL h1 h0.
have [C EC [m [GC K]]] := constraint_ok_gen HG HL h1 h0 Wg W Hg Eg.
have [c1 c2] := gor_sz GC; have [WC SC DC PC ShC] := GC.
exists C, m; split=> // v S.
rewrite (inv_kills HG HL W S) -K.
have -> : matmat idR C 1 v = Ok (mkseq (fun i => mv (den C) (nth 0 v) i) m).
  have [H _] := mm_ok idR WC; rewrite /matmat H //; last by rewrite c2 S muln1.
  congr Ok; apply: (@eq_from_nth _ 0); first by rewrite size_flat size_mkseq /= c1 muln1.
  rewrite size_flat /= c1 muln1 => i Hi.
  rewrite nth_mkseq // -{1}[i]addn0 -[X in (X + 0)%N]muln1 nth_flat /= ?c1 //.
  by apply: eq_sum => j Hj; rewrite muln1 addn0.
rewrite nseq_mkseq; split=> [[/mkseq_eq E] [] i|E].
  by rewrite c1 => Hi; exact: E.
by congr Ok; apply/mkseq_eq => i Hi; apply: (E tt); rewrite c1.
Qed.
Lemma constraint_err r : wfr r -> (forall g, gattr r <> Some (Some g)) ->
  constraint_matrix sinv linv crho cdrho gdim csize gens lies r = Err AttributeError.
Proof.
move=> W N; rewrite /constraint_matrix (size_py_ok W) bindOk.
by case E: (gattr r) N => [[g|]|] // /(_ g).
Qed.
End Thm.
