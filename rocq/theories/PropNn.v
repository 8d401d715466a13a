(** * PropNn: C41, C42, C43 and C55, the linear and bilinear layers. *)
From Coq Require Import Reals.
From mathcomp Require Import all_ssreflect all_algebra.
From Verif Require Import Np Spec LinOp LinOpSpec Rep RepSpec RepWf RepCode Solver SolSpec Rstruct Expm GrpSpec ExRep ExGrp ExSol.
From Verif Require Import Nn NnSpec NnLin NnBil NnThm NnBack ExNn.
Set Implicit Arguments.
Unset Strict Implicit.
Unset Printing Implicit Defensive.
Import GRing.Theory.
Local Open Scope ring_scope.

Section Lin.
Variables (sinv : RR -> RR) (linv : nat -> seq RR -> seq RR).
Variables (crho cdrho : nat -> option gid -> gel RR -> res (op RR)).
Variables (gdim : gid -> nat) (gorth : gid -> bool) (csize : nat -> gid -> nat) (le : rel rep) (g : gid).
Variables (gens lies : gid -> seq (op RR)).
Variables (svd : nat -> nat -> seq RR -> seq RR * seq RR * seq RR) (big : pred RR).
Variable krylov : op RR -> res (darr RR).
Variable tenth : RR.
Local Notation sz := (rsize gdim csize).
Local Notation wfr := (wfr gdim csize le (pred1 g)).
Local Notation customs_ok := (customs_ok sinv linv crho cdrho gdim csize (pred1 g)).
Local Notation generators_ok := (generators_ok idR gdim sinv linv crho cdrho csize (pred1 g) gens lies).
Local Notation total_order := (total_order_on (key gdim csize le (pred1 g)) le).
Local Notation solver_ok := (solver_ok idR gdim sinv linv crho cdrho csize gens lies svd big krylov).
Local Notation element := (element sinv linv gdim gens lies g).
Local Notation orth_elem := (orth_elem crho gdim csize gorth (pred1 g)).
Local Notation equivariant := (equivariant idR sinv linv crho gdim csize element).
Local Notation mk_linear := (mk_linear idR sinv linv crho cdrho gdim gorth csize le gens lies svd big krylov).
Local Notation mk_bilinear := (mk_bilinear gdim gorth csize le).
Local Notation bilinear_call := (bilinear_call gdim csize tenth).

(** C41.  a and b are representations of one group g, r = a>>b.  Linear(a,b) can be built; for
    all parameters w, c it computes x |-> x W'^T + c' for some W', c', and commutes with the
    group, each row of the batch being moved by an element of its own; if x |-> x w^T + c
    commutes with the group then W' = w and c' = c: every equivariant affine map is
    represented. *)
Theorem C41_linear a b r : linv_ok linv -> customs_ok -> generators_ok -> total_order ->
  (forall M, element M -> orth_elem M) -> wfr a -> wfr b -> rshift gdim gorth csize le a b = Ok r ->
  (forall c, c \in systems gdim csize r ++ systems gdim csize b -> solver_ok c) ->
  exists2 L, mk_linear a b = Ok L & [/\ l_in L = sz a, l_out L = sz b &
    forall w c, size w = (sz b * sz a)%N -> size c = sz b ->
      exists W' c', [/\ size W' = (sz b * sz a)%N /\ size c' = sz b,
        forall bs X, linear_call idR L w c bs X = affine bs (sz a) (sz b) W' c' X,
        equivariant a b (linear_call idR L w c) &
        equivariant a b (fun bs => affine bs (sz a) (sz b) w c) -> w = W' /\ c = c']].
Proof. by move=> h1 h2 h3 h4 h5; exact: linear_real. Qed.

(** C42.  The input representation is a sum; for all parameters (at least active_dims of
    them) and random choices BiLinear commutes with the group; with fewer parameters it raises. *)
Theorem C42_bilinear d p b choice : customs_ok -> total_order ->
  (forall M, element M -> orth_elem M) -> wfr (RSum d p) -> wfr b -> choice_ok choice ->
  exists2 B, mk_bilinear b (RSum d p) choice = Ok B &
    (forall params, (bl_dim B <= size params)%N -> equivariant (RSum d p) b (bilinear_call B params)) /\
    (forall params bs X, (size params < bl_dim B)%N -> bilinear_call B params bs X = Err TypeError).
Proof.
move=> h2 h4 h5 W1 W2 HC.
have [B [dW [pW [E1 _ _ H1 H2]]]] := bilinear_thm tenth h4 (element_group (gens := gens) (lies := lies) h2) h5 W1 W2 HC.
by exists B => //; split=> // params /H1[].
Qed.

(** C43.  lazy_projection succeeds exactly if there are active_dims parameters, ignores
    further ones, and depends on each of the first active_dims. *)
Theorem C43_parameters (R : comRingType) d p b choice : total_order -> wfr (RSum d p) -> wfr b -> choice_ok choice ->
  exists B, [/\ mk_bilinear b (RSum d p) choice = Ok B,
    forall (params : seq R) bs X, size X = (bs * sz (RSum d p))%N ->
      (bl_dim B <= size params)%N = is_ok (lazy_projection gdim csize B params bs X) ,
    forall (params extra : seq R) bs X, (bl_dim B <= size params)%N -> size X = (bs * sz (RSum d p))%N ->
      lazy_projection gdim csize B (params ++ extra) bs X = lazy_projection gdim csize B params bs X &
    forall (params params' : seq R) i, (i < bl_dim B)%N -> (bl_dim B <= size params)%N -> (bl_dim B <= size params')%N ->
      nth 0 params i <> nth 0 params' i -> (forall i', i' <> i -> nth 0 params i' = nth 0 params' i') ->
      lazy_projection gdim csize B params 1 (nseq (sz (RSum d p)) 1) <>
      lazy_projection gdim csize B params' 1 (nseq (sz (RSum d p)) 1)].
Proof.
move=> O; have no0 (P : gel R -> Prop) M : (fun _ : gel R => False) M -> P M by [].
exact: (bilinear_params (conj := id) (sinv := id) (linv := fun _ D => D) (crho := fun _ _ _ => Err TypeError) O (no0 _) (no0 _)).
Qed.
End Lin.
Print Assumptions C41_linear.
Print Assumptions C42_bilinear.
Print Assumptions C43_parameters.

(** the hypotheses hold for the group {1,-1} and all its representations *)
Example C41_example :
  [/\ linv_ok linvE, customs_ok exsinv linvE excr excr zd zcs (pred1 0%N),
      generators_ok idR zd exsinv linvE excr excr zcs (pred1 0%N) zgens zlies /\
      total_order_on (key zd zcs le_asc (pred1 0%N)) le_asc,
      (forall M, element exsinv linvE zd zgens zlies 0%N M -> orth_elem excr zd zcs yes (pred1 0%N) M) &
      forall r c, wfr zd zcs le_asc (pred1 0%N) r -> c \in systems zd zcs r ->
        solver_ok idR zd exsinv linvE excr excr zcs zgens zlies zsvd zbig zkry c].
Proof.
split; [exact: linvE_ok | exact: z_customs | split; [exact: z_generators | exact: le_asc_total] | exact: z_orth |].
exact: z_solver.
Qed.
(** Linear(V,Scalar+V+V): the weight onto Scalar and the biases onto V are removed *)
Example C41_example_run :
  (wfr zd zcs le_asc (pred1 0%N) zV && wfr zd zcs le_asc (pred1 0%N) zS) &&
  (if Ilinear zV zS is Ok L then
     if linear_call Iid L [:: 2; 3; 4] [:: 5; 6; 7] 2 [:: 10; 20] is Ok y then y == [:: 5; 30; 40; 5; 60; 80] else false
   else false).
Proof. by vm_compute. Qed.
(** BiLinear(Scalar+V+V,Scalar+V+V) with four parameters on the rows (3,1,2), (3,-1,-2) *)
Example C42_example_run :
  choice_ok first_choices /\
  if mk_bilinear zd yes zcs le_asc zS zS first_choices is Ok B then
    (bl_dim B == 4%N) &&
    (if bilinear_call zd zcs (1 : Z0) B [:: 2; 3; 4; 5] 2 [:: 3; 1; 2; 3; -1; -2] is Ok y
     then y == [:: 8; 12; 15; 8; -12; -15] else false)
  else false.
Proof. by split; [exact: first_ok | vm_compute]. Qed.

(** C41 with several groups: here repout*repin.T raises (C19), so that there is no layer *)
Theorem C41_mixed_refuted :
  exists (a b : rep), [/\ total_order_on (key gd2 cs1 le_asc predT) le_asc, wfr gd2 cs1 le_asc predT a,
    wfr gd2 cs1 le_asc predT b &
    mk_linear idz idz (@linv2 R0) (@cr1 R0) (@cd1 R0) gd2 (fun _ => false) cs1 le_asc (@exg R0) (@exl R0) (@exsvd R0) (@exbig R0) (@exkry R0) a b
      = Err AssertionError].
Proof.
exists V0, (if (do x <- mul gd2 cs1 le_asc V0 V0; mul gd2 cs1 le_asc x V1') is Ok r then r else V0).
by split; [exact: le_asc_total | vm_compute..].
Qed.
Print Assumptions C41_mixed_refuted.

(** C42: the input has to be a SumRep, V has neither reps nor as_dict *)
Theorem C42_nonsum_refuted :
  exists a : rep, [/\ total_order_on (key zd zcs le_asc (pred1 0%N)) le_asc, wfr zd zcs le_asc (pred1 0%N) a, choice_ok first_choices &
    mk_bilinear zd yes zcs le_asc a a first_choices = Err AttributeError].
Proof. by exists zV; split; [exact: le_asc_total | by vm_compute | exact: first_ok | by vm_compute]. Qed.
Print Assumptions C42_nonsum_refuted.

(** C55.  The constructors of objax, flax, haiku and pytorch succeed together, and then
    the four layers compute the same function of (w,b,x); objax, flax and pytorch raise
    the same exception. *)
Section Back.
Variable R : comRingType.
Variables (conj sinv : R -> R) (linv : nat -> seq R -> seq R).
Variables (crho cdrho : nat -> option gid -> gel R -> res (op R)).
Variables (gdim : gid -> nat) (gorth : gid -> bool) (csize : nat -> gid -> nat) (le : rel rep).
Variables (gens lies : gid -> seq (op R)).
Variables (svd : nat -> nat -> seq R -> seq R * seq R * seq R) (big : pred R).
Variable krylov : op R -> res (darr R).
Local Notation mk_linear := (mk_linear conj sinv linv crho cdrho gdim gorth csize le gens lies svd big krylov).
Local Notation mk_flax_linear := (mk_flax_linear conj sinv linv crho cdrho gdim gorth csize le gens lies svd big krylov).
Local Notation mk_hk_linear := (mk_hk_linear conj sinv linv crho cdrho gdim gorth csize le gens lies svd big krylov).
Local Notation mk_torch_linear := (mk_torch_linear conj sinv linv crho cdrho gdim gorth csize le gens lies svd big krylov).
Theorem C55_backends a b :
  match mk_linear a b with
  | Ok L => exists Lf Lh Lt,
      [/\ mk_flax_linear a b = Ok Lf, mk_hk_linear a b = Ok Lh, mk_torch_linear a b = Ok Lt &
          forall w c bs x,
            [/\ flax_linear_call conj Lf w c (l_in L) bs x = linear_call conj L w c bs x,
                hk_linear_call conj Lh w c bs x = linear_call conj L w c bs x &
                torch_linear_call conj Lt w c bs x = linear_call conj L w c bs x]]
  | Err e => [/\ mk_torch_linear a b = Err e, mk_flax_linear a b = Err e & exists e', mk_hk_linear a b = Err e']
  end.
Proof. exact: backends. Qed.
(** the weight representations: repin>>repout, repout<<repin and repout*repin.T *)
Theorem C55_weight_representations a b :
  rshift gdim gorth csize le a b = (do t <- tr gdim gorth csize le a; mul gdim csize le b t) /\
  lshift gdim gorth csize le b a = rshift gdim gorth csize le a b.
Proof. by []. Qed.
End Back.
Print Assumptions C55_backends.
Print Assumptions C55_weight_representations.
Example C55_example : is_ok (Ilinear zV zS). Proof. by vm_compute. Qed.
