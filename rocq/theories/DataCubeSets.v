(** * DataCubeSets: what an equivariant model can learn from BrokenRubiksCube and from
    InvertedCube. *)
From Coq Require Import Reals String.
From mathcomp Require Import all_ssreflect all_algebra.
From mathcomp Require Import zify.
From Verif Require Import Np NpLemmas Spec SpecLemmas LinOp LinOpSpec LinOpInv Rep RepSpec RepWf RepAlg RepFun RepExpr RhoProofs Rstruct Expm GrpSpec GrpProofs.
From Verif Require Import Groups GroupsSpec GroupsPerm GroupsSpecR GroupsInit GroupsCtor GroupsThm GroupsFlag GroupsReal GroupsRubik ExactSpec GroupsExact GroupsExactL GroupsExactD.
From Verif Require Import Nn NnSpec NnThm Data DataSpec DataAlg DataThm DataGroups RubikSpec GroupsRubikG DataCube DataCubeThm.
Set Implicit Arguments.
Unset Strict Implicit.
Unset Printing Implicit Defensive.
Import GRing.Theory.
Local Open Scope ring_scope.

Local Opaque kp.
(** ** the states *)
Definition parity_of (x : nat) : nat := (nth 0 parity_perm (x %/ 8) * 8 + x %% 8)%N.
Lemma parity_kp : kp (mkseq parity_of 48). Proof. by vm_compute. Qed.
Lemma roll_mod i : roll 0%N i [:: 0; 4 * 8; 3 * 8 + 2]%N = roll 0%N (i %% 3) [:: 0; 4 * 8; 3 * 8 + 2]%N.
Proof. by rewrite /roll /= modn_mod. Qed.
Lemma corner_kp i : kp (col_perm [:: 0; 4 * 8; 3 * 8 + 2]%N i).
Proof.
rewrite /col_perm roll_mod; have : (i %% 3 < 3)%N by rewrite ltn_mod.
by move: (i %% 3)%N => [|[|[|]]] // _; vm_compute.
Qed.
Lemma edge_kp : kp (col_perm [:: 1; 3 * 8 + 1]%N 1). Proof. by vm_compute. Qed.
Lemma face_kp : kp (col_perm [:: 4 * 8 + 1; 3 * 8 + 1]%N 1). Proof. by vm_compute. Qed.
Lemma solved_hot : one_hot (fun x => x %/ 8)%N (solved_state RR).
Proof.
split=> [|y Hy|c y Hc Hy]; first by rewrite size_mkseq.
  by rewrite ltn_divLR.
rewrite nth_mkseq; last exact: (@row_lt 48 c y 6).
by have [-> ->] := divmod_row c Hy; rewrite eq_sym.
Qed.
Lemma parity_nth c y : (c < 6)%N -> (y < 48)%N ->
  nth 0 (parity_state RR) (c * 48 + y) = nth 0 (solved_state RR) (c * 48 + nth 0%N (mkseq parity_of 48) y).
Proof.
move=> Hc Hy; rewrite [LHS]nth_mkseq; last exact: (@row_lt 48 c y 6).
by have [-> ->] := divmod_row c Hy; rewrite (nth_mkseq _ parity_of).
Qed.
Lemma broken_rows_gen n (S T : seq RR) i : size S = n -> size T = n -> (i < 22)%N ->
  row_of n i (flatten (nseq 11 S) ++ flatten (nseq 11 T)) = if (i < 11)%N then S else T.
Proof.
move=> s1 s2 Hi; apply: (@eq_from_nth _ 0) => [|j]; rewrite size_mkseq ?(fun_if size) ?s1 ?s2 ?if_same // => Hj.
rewrite nth_mkseq // nth_cat size_nseqs s1; have [H|H] := ltnP i 11.
  by rewrite (row_lt H Hj) nth_nseqs.
have -> : (i * n + j < 11 * n)%N = false by apply/negbTE; rewrite -leqNgt (leq_trans _ (leq_addr _ _)) // leq_mul2r H orbT.
have -> : (i * n + j - 11 * n = (i - 11) * n + j)%N by rewrite mulnBl addnBAC // leq_mul2r H orbT.
by rewrite nth_nseqs // ltn_subLR.
Qed.
Lemma broken_row i : (i < 22)%N -> row_of 288 i (broken_X RR) = if (i < 11)%N then solved_state RR else parity_state RR.
Proof. by apply: broken_rows_gen; rewrite size_mkseq. Qed.
Lemma broken_label i : (i < 22)%N -> nth 0 (broken_Y RR) i = (i < 11)%N%:R.
Proof. by move=> Hi; rewrite /broken_Y nth_cat size_nseq !nth_nseq; case: ltnP => // H; case: ifP. Qed.

Section Main.
Variables (sinv : RR -> RR) (linv : nat -> seq RR -> seq RR).
Variables (crho cdrho : nat -> option gid -> gel RR -> res (op RR)).
Variables (gdim : gid -> nat) (csize : nat -> gid -> nat) (le : rel rep) (g : gid).
Variable G : gid -> group RR.
Local Notation sz := (rsize gdim csize).
Local Notation elem := (element sinv linv gdim (the_gens G) (the_lies G) g).
Local Notation gorth := (fun h => g_orth (G h)).
Local Notation rep_of := (rep_of gdim gorth csize le g).
Local Notation acts_rows := (acts_rows idR sinv linv crho gdim csize).
Local Notation equivariant := (equivariant idR sinv linv crho gdim csize elem).
Hypothesis HC : customs_ok sinv linv crho cdrho gdim csize (pred1 g).
Hypothesis HCo : forall c C M, elem M -> crho c (Some g) M = Ok C -> g_orth (G g) -> orthm (csize c g) (den C).
Hypothesis O : total_order_on (key gdim csize le (pred1 g)) le.
Hypothesis C0 : forall c, (0 < csize c g)%N.
Local Notation inG k := (in_group k (lmats (G g)) (gmats (G g))).
(** u is moved to v by an element of the group *)
Definition linked (rin : rep) (u v : seq RR) : Prop := exists2 M, elem M & acts_rows rin (fun=> M) 1 u v.

(** *** RubiksCube() *)
Section Rubik.
Let PR (X : fmat RR) := exists2 p, keeps_kinds p & meq X (perm_mat RR 48 p) /\ fdet 24 (edge_part X) = 1.
Variable x : res (group RR).
Hypothesis HX : exact_group x 48 PR.
Hypothesis EG : x = Ok (G g).
Hypothesis Ek : gdim g = 48%N.
Lemma PR_perm X : PR X -> exists2 p, is_perm 48 p & meq X (perm_mat RR 48 p).
Proof. by case=> p [Pp _] [E _]; exists p. Qed.
Lemma edet_inG p : kp p -> edet p = 1 -> inG 48 (perm_mat RR 48 p).
Proof.
move=> K D; have [G1 E1 [_ H]] := HX; move: E1; rewrite EG => -[?]; subst G1.
apply/H; split=> //; exists p; first exact/kp_keeps.
by split; [exact: meq_refl | rewrite edet_part].
Qed.
Lemma recolour rin p col S S' : rep_of cube_in rin -> kp p -> one_hot col S -> size S' = 288%N ->
  (forall c y, (c < 6)%N -> (y < 48)%N -> nth 0 S' (c * 48 + y) = nth 0 S (c * 48 + nth 0%N p y)) ->
  linked rin S S' /\ one_hot (fun y => col (nth 0%N p y)) S'.
Proof.
move=> Ri Kp [s1 Hc HS] s2 HS'; have [Pp Kk] := kpP Kp; split; last first.
  split=> // [y Hy|c y H1 Hy]; first by apply: Hc; case: (Kk y Hy).
  by rewrite HS' // HS //; case: (Kk y Hy).
have [q [Kq Dq] Eq] := reach Kp Hc; have [Pq Kq'] := kpP Kq.
have EM := perm_elem sinv linv Ek Pq (edet_inG Kq Dq); exists (GMat (OPerm RR q)); first exact: EM.
have [r1 Ri1 [_ HA]] := cube_reps HC HCo O C0 HX EG Ek isT PR_perm (isT : 0 < 6)%N; rewrite (rep_of_inj Ri Ri1).
have ED : meq (den (OPerm RR q)) (perm_mat RR 48 q) by rewrite /= (is_perm_size Pq); exact: meq_refl.
apply/(HA _ _ _ _ _ EM erefl Pq ED); split=> // c y H1 Hy.
have [p48 _] := Kk y Hy; have [q48 _] := Kq' y Hy; by rewrite HS' // (HS _ _ H1 p48) (HS _ _ H1 q48) Eq.
Qed.
Lemma rolled rin ids i col S : rep_of cube_in rin -> kp (col_perm ids i) -> one_hot col S ->
  linked rin S (roll_cols ids i S) /\ exists col', one_hot col' (roll_cols ids i S).
Proof.
move=> Ri K H; have [s1 _ _] := H.
have [|c y Hc Hy|L H'] := @recolour rin (col_perm ids i) col S (roll_cols ids i S) Ri K H; first by rewrite size_mkseq.
  exact: nth_roll_cols.
by split=> //; eexists; exact: H'.
Qed.
Theorem broken_ways : exists2 rin, rep_of cube_in rin & sz rin = 288%N /\
  forall col S, one_hot col S -> [/\
    linked rin S (UBedge_flip S) /\ (exists col', one_hot col' (UBedge_flip S)),
    forall i, linked rin S (ULBcorner_rot i S) /\ (exists col', one_hot col' (ULBcorner_rot i S)) &
    linked rin S (LBface_swap S) /\ (exists col', one_hot col' (LBface_swap S))].
Proof.
have [rin Ri [zi _]] := cube_reps HC HCo O C0 HX EG Ek isT PR_perm (isT : 0 < 6)%N.
exists rin; first exact: Ri.
split; first exact: zi.
move=> col S H; split; [exact: rolled Ri edge_kp H | move=> i; exact: rolled Ri (corner_kp i) H | exact: rolled Ri face_kp H].
Qed.
Lemma parity_linked rin : rep_of cube_in rin -> linked rin (solved_state RR) (parity_state RR).
Proof.
move=> Ri; have [|c y|L _] := recolour (S' := parity_state RR) Ri parity_kp solved_hot; last exact: L.
  by rewrite size_mkseq.
exact: parity_nth.
Qed.
Theorem broken_refuted : exists rin rout, [/\ rep_of cube_in rin, rep_of cube_out rout, sz rin = 288%N, sz rout = 2%N &
  [/\ linked rin (row_of 288 0 (broken_X RR)) (row_of 288 11 (broken_X RR)),
      nth 0 (broken_Y RR) 0 = 1, nth 0 (broken_Y RR) 11 = 0 &
      forall f, equivariant rin rout f -> exists2 y,
        forall i, (i < 22)%N -> f 1%N (row_of 288 i (broken_X RR)) = Ok y &
        forall gs p, size gs = (440 * (48 * 48))%N ->
          (forall b, (b < 440)%N -> inG 48 (FM 48 48 (fun i j => nth 0 gs (b * (48 * 48) + (i * 48 + j))%N))) -> is_perm 440 p ->
          exists X Y, broken_test gs p = Ok (X, Y) /\ forall i, (i < 440)%N -> f 1%N (row_of 288 i X) = Ok y]].
Proof.
have T := cube_reps HC HCo O C0 HX EG Ek isT PR_perm.
have [rin Ri [zi _]] := T 6%N isT.
have [rout Ro [zo _]] := scalar_reps HC HCo O C0 HX EG Ek isT PR_perm (isT : 0 < 2)%N.
have L := parity_linked Ri.
exists rin, rout; split; [exact: Ri | exact: Ro | exact: zi | exact: zo |].
split; [by rewrite !broken_row | by rewrite broken_label | by rewrite broken_label |].
move=> f Hf; have SV u v : linked rin u v -> exists y, f 1%N u = Ok y /\ f 1%N v = Ok y.
  by case=> M EM A; exact: (same_value HC HCo O C0 HX EG Ek isT PR_perm (isT : 0 < 2)%N Ro Hf EM A).
have [y [E1 E2]] := SV _ _ L; exists y.
  by move=> i Hi; rewrite broken_row //; case: ifP.
move=> gs p Sg Hg Pp.
have [X [Y [ES _ _ H]]] := scramble_ok HC HCo O C0 HX EG Ek isT PR_perm (broken_X RR) (broken_Y RR) (isT : 0 < 6)%N Ri
  (Sg : size gs = (22 * 20 * (48 * 48))%N) Hg Pp.
exists X, Y; split; first exact: ES.
move=> i Hi; have [Hb _ LM] := H i Hi; have [z [F1 F2]] := SV _ _ LM.
have F3 : f 1%N (row_of 288 (nth 0%N p i %/ 20) (broken_X RR)) = Ok z := F1.
have -> : Ok y = Ok z by rewrite -F3 (broken_row Hb); case: ifP.
exact: F2.
Qed.
End Rubik.

(** *** Cube() *)
Section Cube.
Let PC (X : fmat RR) := exists2 p, rotation p & meq X (perm_mat RR 6 p).
Variable x : res (group RR).
Hypothesis HX : exact_group x 6 PC.
Hypothesis EG : x = Ok (G g).
Hypothesis Ek : gdim g = 6%N.
Lemma rot_perm p : rotation p -> is_perm 6 p. Proof. by case/and3P. Qed.
Lemma PC_perm X : PC X -> exists2 p, is_perm 6 p & meq X (perm_mat RR 6 p).
Proof. by case=> p /rot_perm Pp E; exists p. Qed.
Lemma rot_inG p : rotation p -> inG 6 (perm_mat RR 6 p).
Proof.
move=> Rp; have [G1 E1 [_ H]] := HX; move: E1; rewrite EG => -[?]; subst G1.
by apply/H; split=> //; exists p => //; exact: meq_refl.
Qed.
Lemma inG_rot p : is_perm 6 p -> inG 6 (perm_mat RR 6 p) -> rotation p.
Proof.
move=> Pp I; have [G1 E1 [_ H]] := HX; move: E1; rewrite EG => -[?]; subst G1.
by have [_ _ [q Rq E]] := proj1 (H _) I; rewrite (perm_mat_inj Pp (rot_perm Rq) E).
Qed.
Lemma rot_gather p q : rotation p -> rotation q -> rotation (gather 0%N q p).
Proof.
move=> Rp Rq; have Pp := rot_perm Rp; have Pq := rot_perm Rq.
apply: inG_rot; first exact: is_perm_gather.
by apply: (I_mul (rot_inG Rp) (rot_inG Rq)); apply: meq_sym; exact: perm_mul.
Qed.
Lemma rot_inv p : rotation p -> rotation (argsort p).
Proof.
move=> Rp; have Pp := rot_perm Rp; apply: inG_rot; first exact: argsort_perm.
by apply: inG_argsort => //; exact: rot_inG.
Qed.
Definition shown (p : seq nat) : seq RR := mkseq (fun t => ((t %/ 6)%N == nth 0%N p (t %% 6))%:R) 36.
Lemma nth_shown p c a : (c < 6)%N -> (a < 6)%N -> nth 0 (shown p) (c * 6 + a) = (c == nth 0%N p a)%:R.
Proof.
move=> Hc Ha; rewrite nth_mkseq; last exact: (@row_lt 6 c a 6).
by have [-> ->] := divmod_row c Ha.
Qed.
Lemma eq_rows6 (u v : seq RR) : size u = 36%N -> size v = 36%N ->
  (forall c a, (c < 6)%N -> (a < 6)%N -> nth 0 u (c * 6 + a) = nth 0 v (c * 6 + a)) -> u = v.
Proof.
move=> s1 s2 H; apply: (@eq_from_nth _ 0); rewrite ?s1 ?s2 // => i Hi.
by rewrite (divn_eq i 6) H // ?ltn_mod // ltn_divLR.
Qed.
Lemma shown_inj p q : is_perm 6 p -> is_perm 6 q -> shown p = shown q -> p = q.
Proof.
move=> Pp Pq E; apply: (@eq_from_nth _ 0%N); rewrite (is_perm_size Pp) ?(is_perm_size Pq) // => a Ha.
have := nth_shown p (is_perm_nth Pp Ha) Ha; rewrite E nth_shown ?eqxx ?(is_perm_nth Pp) //.
by case: eqP => // _ /eqP; rewrite eq_sym oner_eq0.
Qed.
Lemma inverted_rows b : (b < 2)%N -> row_of 36 b (inverted_X RR) = shown (if b == 0%N then iota 0 6 else parity_perm).
Proof.
move=> Hb; apply: eq_rows6; rewrite ?size_mkseq // => c a Hc Ha.
have Hi := @row_lt 6 c a 6 Hc Ha; rewrite nth_shown // nth_mkseq //.
rewrite nth_cat size_mkseq; case: b Hb => [|[|]] // _.
  rewrite mul0n add0n Hi nth_mkseq //; have [-> ->] := divmod_row c Ha; by rewrite eqxx nth_iota.
rewrite mul1n ltnNge leq_addr /= addKn nth_mkseq //; by have [-> ->] := divmod_row c Ha.
Qed.
Definition cube_class (rots : seq (seq nat)) : nat -> seq RR -> res (seq RR) :=
  rowwise 36 (fun u => let s := has (fun p => u == shown p) rots in Ok [:: s%:R; (~~ s)%:R]).
Lemma class_half rots p u v : (forall p, rotation p = (p \in rots)) -> rotation p -> size v = 36%N ->
  (forall c a, (c < 6)%N -> (a < 6)%N -> nth 0 v (c * 6 + a) = nth 0 u (c * 6 + nth 0%N p a)) ->
  has (fun p => u == shown p) rots -> has (fun p => v == shown p) rots.
Proof.
move=> Hr Rp sv H /hasP[q]; rewrite -Hr => Rq /eqP E; have Pp := rot_perm Rp.
apply/hasP; exists (gather 0%N q p); first by rewrite -Hr; exact: rot_gather.
apply/eqP; apply: eq_rows6; rewrite ?size_mkseq // => c a Hc Ha.
by rewrite H // E !nth_shown ?(is_perm_nth Pp) // nth_gather ?(is_perm_size Pp).
Qed.
Theorem inverted_learnable : exists rin rout, [/\ rep_of cube_in rin, rep_of cube_out rout, sz rin = 36%N, sz rout = 2%N &
  exists2 f, equivariant rin rout f &
    [/\ f 1%N (row_of 36 0 (inverted_X RR)) = Ok [:: 1; 0], f 1%N (row_of 36 1 (inverted_X RR)) = Ok [:: 0; 1] &
        forall gs p, size gs = (100 * (6 * 6))%N ->
          (forall b, (b < 100)%N -> inG 6 (FM 6 6 (fun i j => nth 0 gs (b * (6 * 6) + (i * 6 + j))%N))) -> is_perm 100 p ->
          exists X Y, inverted_test gs p = Ok (X, Y) /\
            forall i, (i < 100)%N -> f 1%N (row_of 36 i X) = Ok [:: nth 0 Y i; 1 - nth 0 Y i]]].
Proof.
have [rin Ri [zi HA]] := cube_reps HC HCo O C0 HX EG Ek isT PC_perm (isT : 0 < 6)%N.
have [rout Ro [zo HO]] := scalar_reps HC HCo O C0 HX EG Ek isT PC_perm (isT : 0 < 2)%N.
have [rots [_ _ Hr]] := cube_count.
exists rin, rout; split; [exact: Ri | exact: Ro | exact: zi | exact: zo |].
have Hf : equivariant rin rout (cube_class rots).
  rewrite /cube_class (_ : 36%N = sz rin); last by rewrite zi.
  apply: rowwise_equivariant => M u v EM; have [A [p [EA Pp Ep Ip]]] := elem_perm HX EG Ek PC_perm EM.
  have Rp := inG_rot Pp Ip; case/(HA _ _ _ _ _ EM EA Pp Ep) => s1 s2 H.
  have E : has (fun p => v == shown p) rots = has (fun p => u == shown p) rots.
    apply/idP/idP; last exact: class_half Hr Rp s2 H.
    apply: (class_half Hr (rot_inv Rp) s1) => c a Hc Ha.
    by rewrite H ?(is_perm_nth (argsort_perm Pp)) // (perm_argsort Pp).
  eexists; eexists; rewrite E; split; [exact: erefl | exact: erefl |].
  by apply/(HO M _ _ EM).
exists (cube_class rots); first exact: Hf.
have V p : is_perm 6 p -> cube_class rots 1%N (shown p) = Ok [:: (rotation p)%:R; (~~ rotation p)%:R].
  move=> Pp; rewrite /cube_class /rowwise size_mkseq /=.
  have -> : row_of 36 0 (shown p) = shown p by apply: eq_rows6; rewrite ?size_mkseq // => c a Hc Ha; rewrite nth_row //; exact: (@row_lt 6 c a 6).
  have -> : has (fun q => shown p == shown q) rots = rotation p.
    apply/hasP/idP => [[q]|Rp]; last by exists p; rewrite -?Hr.
    by rewrite -Hr => Rq /eqP/(shown_inj Pp (rot_perm Rq)) ->.
  by [].
have V0 : cube_class rots 1%N (row_of 36 0 (inverted_X RR)) = Ok [:: 1; 0] by rewrite inverted_rows // V.
have V1 : cube_class rots 1%N (row_of 36 1 (inverted_X RR)) = Ok [:: 0; 1] by rewrite inverted_rows // V.
split; [exact: V0 | exact: V1 |] => gs p Sg Hg Pp.
have [X [Y [ES _ _ H]]] := scramble_ok HC HCo O C0 HX EG Ek isT PC_perm (inverted_X RR) (inverted_Y RR) (isT : 0 < 6)%N Ri
  (Sg : size gs = (2 * 50 * (6 * 6))%N) Hg Pp.
exists X, Y; split; first exact: ES.
move=> i Hi; have [Hb EY [M EM LM]] := H i Hi.
have [z [F1 F2]] := same_value HC HCo O C0 HX EG Ek isT PC_perm (isT : 0 < 2)%N Ro Hf EM LM.
have F3 : cube_class rots 1%N (row_of 36 (nth 0%N p i %/ 50) (inverted_X RR)) = Ok z := F1.
have -> : Ok [:: nth 0 Y i; 1 - nth 0 Y i] = Ok z; last exact: F2.
rewrite EY -F3; move: (nth 0%N p i %/ 50)%N Hb => [|[|]] // _; rewrite ?V0 ?V1 /=; by rewrite ?subrr ?subr0.
Qed.
End Cube.
End Main.
