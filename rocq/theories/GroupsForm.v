(** * GroupsForm: the elements of the generated group preserve the form that the Lie algebra
    and the discrete generators preserve. *)
From Coq Require Import Reals.
From Coquelicot Require Import Coquelicot.
From mathcomp Require Import all_ssreflect all_algebra fingroup perm.
From mathcomp Require Import zify.
From Verif Require Import Np NpLemmas Spec SpecLemmas LinOp MxBridge Rep Rstruct Expm GrpSpec GrpProofs.
From Verif Require Import Groups GroupsSpec GroupsSpecR GroupsFlag GroupsReal.
Set Implicit Arguments.
Unset Strict Implicit.
Unset Printing Implicit Defensive.
Import GRing.Theory.
Local Open Scope ring_scope.

(** ** the Lie algebra *)
Section Pres.
Variables (R : comRingType) (n : nat) (J : fmat R).
Hypotheses (J1 : fr J = n) (J2 : fc J = n).
Implicit Types X Y : fmat R.
Local Notation "[ X ]" := (mxf n n X) (format "[ X ]").
Definition pres X : Prop := [/\ fr X = n, fc X = n & [X]^T *m [J] + [J] *m [X] = 0].
Lemma presE X : fr X = n -> fc X = n -> preserves J X <-> [X]^T *m [J] + [J] *m [X] = 0.
Proof.
move=> h1 h2; have E : mxf n n (fadd (fmul (ftr X) J) (fmul J X)) = [X]^T *m [J] + [J] *m [X].
  by rewrite mxf_add !(@mxf_mul _ _ _ n) ?mxf_tr ?h1 ?J2.
split=> [H|H].
  by rewrite -E (mxf_meq H) //=; apply/matrixP=> i j; rewrite !mxE.
by apply: meq_mxf; rewrite /= ?h1 ?h2 ?J1 ?J2 // E H; apply/matrixP=> i j; rewrite !mxE.
Qed.
Lemma pres_meq X Y : meq X Y -> pres X -> pres Y.
Proof. by move=> E [h1 h2 H]; have [e1 e2 _] := E; split; rewrite -?e1 -?e2 // -(mxf_meq E). Qed.
Lemma pres_lin (c : R) X Y : pres X -> pres Y -> pres (fadd (fscale c X) Y).
Proof.
move=> [h1 h2 H] [k1 k2 K]; split=> //.
rewrite !mxf_add !mxf_scale raddfD /= mulmxDl mulmxDr linearZ /= -scalemxAl -scalemxAr.
by rewrite addrACA -scalerDr H scaler0 add0r K.
Qed.
Lemma mxf_sub m p (X Y : fmat R) : mxf m p (fsub X Y) = mxf m p X - mxf m p Y.
Proof. by apply/matrixP=> i j; rewrite !mxE. Qed.
Lemma pres_br X Y : pres X -> pres Y -> pres (fsub (fmul X Y) (fmul Y X)).
Proof.
move=> [h1 h2 /eqP] H [k1 k2 /eqP] K; split=> //; rewrite mxf_sub !(@mxf_mul _ _ _ n) //.
move: H K; rewrite !addr_eq0 => /eqP H /eqP K.
rewrite linearB /= !trmx_mul mulmxBl mulmxBr !mulmxA -!mulmxA H K !mulmxN !mulmxA H K !mulNmx.
by rewrite !opprK addrA subrK subrr.
Qed.
End Pres.

Lemma pres_span n J As (X : fmat RR) : fr J = n -> fc J = n -> (forall A, List.In A As -> pres n J A) ->
  lie_span As X -> pres n J X.
Proof.
move=> J1 J2 H; elim=> {X} [A X HA /meq_sym E|c X Y Z _ SX _ SY /meq_sym E|X Y Z _ SX _ SY /meq_sym E].
- exact: (pres_meq E (H A HA)).
- exact: (pres_meq E (pres_lin c SX SY)).
- exact: (pres_meq E (pres_br SX SY)).
Qed.

(** ** exponentials *)
Section Exp.
Variables (n : nat) (A J : fmat RR).
Hypotheses (A1 : fr A = n) (A2 : fc A = n) (J1 : fr J = n) (J2 : fc J = n).
Local Notation E := (expm n A).
(** E(t)^T J E(t) is constant: its derivative is E^T(A^T J+J A)E *)
Lemma exp_iso t : pres n J A -> isometry J (E t).
Proof.
move=> [_ _ HP].
split; rewrite //= ?J1 ?J2 // => i j Hi Hj.
pose f u := fe (fmul (ftr (E u)) (fmul J (E u))) i j.
have C u : f u = f R0.
  apply: dl_const => {}u.
  have D1 l : (l < n)%N -> derivable_pt_lim (fun s => fe (ftr (E s)) i l) u (fe (ftr (fmul A (E u))) i l).
    by move=> Hl; apply: expm_der_l.
  have D2 l : (l < n)%N -> derivable_pt_lim (fun s => fe (fmul J (E s)) l j) u (fe (fmul J (fmul A (E u))) l j).
    move=> Hl; apply: dl_ext (@dl_fmul n (fun=> J) E (fzero RR n n) (fmul A (E u)) u l j (fun=> J2) erefl _ _) => //.
    - by rewrite /= sum0 ?add0r // => k _; rewrite mul0r.
    - by move=> k Hk; apply: derivable_pt_lim_const.
    by move=> k Hk; apply: expm_der_l.
  apply: dl_ext (@dl_fmul n (fun s => ftr (E s)) (fun s => fmul J (E s)) (ftr (fmul A (E u))) (fmul J (fmul A (E u))) u i j (fun=> erefl) A1 D1 D2) => //.
  have -> (X Y : fmat RR) : fe X i j + fe Y i j = (mxf n n X + mxf n n Y) (Ordinal Hi) (Ordinal Hj) by rewrite !mxE.
  rewrite !(@mxf_mul _ _ _ n) ?mxf_tr ?(@mxf_mul _ _ _ n) // trmx_mul.
  by rewrite -!mulmxA -mulmxDr !mulmxA -mulmxDl HP mul0mx mulmx0 mxE.
transitivity (f t); first by rewrite /f /= J2.
rewrite C /f.
have Z := expm0 n A.
have [_ _ ->] // : meq (fmul (ftr (E R0)) (fmul J (E R0))) (fmul (fid RR n) (fmul J (fid RR n))).
  apply: meq_fmul; [exact: meq_trans (meq_ftr Z) (ftr_fid _ _) | exact: meq_fmul | by rewrite /= J1].
have -> (X : fmat RR) : fe X i j = mxf n n X (Ordinal Hi) (Ordinal Hj) by rewrite mxE.
by rewrite !(@mxf_mul _ _ _ n) // !mxf_id mulmx1 mul1mx mxE.
Qed.
End Exp.

Section Iso.
Variables (R : comRingType) (n : nat) (J : fmat R).
Hypotheses (J1 : fr J = n) (J2 : fc J = n).
Implicit Types X Y : fmat R.
Local Notation "[ X ]" := (mxf n n X) (format "[ X ]").
Lemma isoE X : fr X = n -> fc X = n -> isometry J X <-> [X]^T *m ([J] *m [X]) = [J].
Proof.
move=> h1 h2; have E : mxf n n (fmul (ftr X) (fmul J X)) = [X]^T *m ([J] *m [X]).
  by rewrite !(@mxf_mul _ _ _ n) ?mxf_tr ?h1 ?J2.
split=> [H|H]; first by rewrite -E (mxf_meq H) //= ?h1 ?h2.
by apply: meq_mxf; rewrite /= ?h1 ?h2 ?J1 ?J2 // E H.
Qed.
End Iso.

Lemma in_sqn n As hs (X : fmat RR) : (forall h, List.In h hs -> fr h = n /\ fc h = n) -> in_group n As hs X -> fr X = n /\ fc X = n.
Proof.
move=> H; elim=> {X} [X [-> -> _]|h X Hh [-> -> _]|A X _ [-> -> _]|X Y Z _ [x1 x2] _ [y1 y2] [-> -> _]|X Y _ _ -> -> _ _] //.
exact: H.
Qed.
Theorem group_iso n J As hs (X : fmat RR) : fr J = n -> fc J = n ->
  (forall A, List.In A As -> pres n J A) -> (forall h, List.In h hs -> [/\ fr h = n, fc h = n & isometry J h]) ->
  in_group n As hs X -> isometry J X.
Proof.
move=> J1 J2 HA Hh HX.
have S Y : in_group n As hs Y -> fr Y = n /\ fc Y = n by apply: in_sqn => h /Hh[].
have M X1 X2 : fr X1 = n -> fc X1 = n -> meq X2 X1 -> isometry J X1 -> isometry J X2.
  move=> h1 h2 E /(isoE J1 J2 h1 h2) H; have [e1 e2 _] := E; have k1 := etrans e1 h1; have k2 := etrans e2 h2.
  by apply/(isoE J1 J2 k1 k2); rewrite (mxf_meq E).
elim: HX => {X} [X E|h X H E|A X SA HE|X Y Z GX IX GY IY E|X Y GX IX h1 h2 E1 E2].
- apply: M E _ => //; apply/(@isoE _ n J J1 J2 (fid RR n)) => //.
  by rewrite mxf_id trmx1 mul1mx mulmx1.
- by have [h1 h2 I] := Hh h H; apply: M E I.
- have [h1 h2 P] := pres_span J1 J2 HA SA.
  have E : meq X (expm n A 1).
    by apply: is_exp_expm => //; apply: is_exp_meq HE => //; split=> //= i j _ _; rewrite mul1r.
  by apply: M E _ => //; apply: exp_iso.
- have [x1 x2] := S X GX; have [y1 y2] := S Y GY; apply: M E _ => //.
  apply/(@isoE _ n J J1 J2 (fmul X Y)) => //; rewrite (@mxf_mul _ _ _ n) // trmx_mul.
  move/(isoE J1 J2 x1 x2): IX => IX; move/(isoE J1 J2 y1 y2): IY => IY.
  by rewrite -[RHS]IY -{2}IX !mulmxA.
have [x1 x2] := S X GX; apply/(isoE J1 J2 h1 h2); move/(isoE J1 J2 x1 x2): IX => IX.
have EE : mxf n n X *m mxf n n Y = 1%:M by rewrite -(@mxf_mul _ _ _ n) // (mxf_meq E1) ?mxf_id //=.
have ET : (mxf n n Y)^T *m (mxf n n X)^T = 1%:M by rewrite -trmx_mul EE trmx1.
by rewrite -{1}IX !mulmxA ET mul1mx -!mulmxA EE mulmx1.
Qed.
