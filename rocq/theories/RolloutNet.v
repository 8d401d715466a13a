(** * RolloutNet: exact integrators exist; the losses of EMLPode and EMLPH; the harmonic oscillator. *)
From Coq Require Import Reals Lra ClassicalEpsilon.
From mathcomp Require Import all_ssreflect all_algebra.
From mathcomp Require Import zify.
From Verif Require Import Np Spec SpecLemmas LinOp LinOpSpec Rep RepSpec Rstruct Expm RField RNum GrpSpec GroupsSpec GroupsFlag Nn NnSpec Data DataSpec DataAlg DataThm DataHamSpec DataHam DataHamThm NnNets Trainer TrainerThm2 TrainerThm3 TrainerFlow FlowSpec Smooth FlowThm FlowNet FlowGlobal Rollout RolloutSpec RolloutThm.
Set Implicit Arguments.
Unset Strict Implicit.
Unset Printing Implicit Defensive.
Import GRing.Theory.
Local Open Scope ring_scope.

Lemma batch_solves a b n F bs (cs : nat -> R -> seq RR) : field_on n F -> (forall i, (i < bs)%N -> solves_on a b n F (cs i)) ->
  solves_on a b (bs * n) (rowwise n F bs) (fun t => flatten [seq cs i t | i <- iota 0 bs]).
Proof.
move=> FO S t at_ tb.
have Z s : Rlt a s -> Rlt s b -> forall i, (i < bs)%N -> size (cs i s) = n by move=> h1 h2 i Hi; have [] := S i Hi s h1 h2.
have Zt := Z t at_ tb; have E0 : size (flatten [seq cs i t | i <- iota 0 bs]) = (bs * n)%N by exact: (size_rows (f := cs^~ t)).
split=> //; pose w i := if F (cs i t) is Ok v then v else [::].
have W i : (i < bs)%N -> F (cs i t) = Ok (w i) by move=> Hi; have [_ [v Ev _]] := S i Hi t at_ tb; rewrite /w Ev.
have Zw i : (i < bs)%N -> size (w i) = n by move=> Hi; exact: FO (Zt i Hi) (W i Hi).
have R i : (i < bs)%N -> row_of n i (flatten [seq cs i t | i <- iota 0 bs]) = cs i t.
  move=> Hi; apply: (@eq_from_nth _ 0); rewrite size_mkseq ?Zt // => k Hk.
  by rewrite nth_row // (nth_rows (f := cs^~ t) (n := n)).
exists (flatten [seq w i | i <- iota 0 bs]).
  rewrite /rowwise E0 eqxx (_ : mapM F _ = Ok [seq w i | i <- iota 0 bs]) //.
  rewrite -[in RHS](map_id (iota 0 bs)) -map_comp /=.
  have -> : mapM F [seq row_of n b0 (flatten [seq cs i t | i <- iota 0 bs]) | b0 <- iota 0 bs] = mapM (fun i => F (row_of n i (flatten [seq cs i t | i <- iota 0 bs]))) (iota 0 bs).
    by rewrite /mapM -map_comp.
  apply: DataAlg.mapM_ok => i; rewrite mem_iota add0n => /= Hi; rewrite R //; exact: W.
move=> k Hk; have n0 : (0 < n)%N by lia.
have Hi : (k %/ n < bs)%N by rewrite ltn_divLR.
have Hj : (k %% n < n)%N by rewrite ltn_mod.
rewrite (divn_eq k n) (nth_rows (f := w) (n := n)) //.
have [_ [v Ev D]] := S _ Hi t at_ tb; move: Ev; rewrite W // => -[?]; subst v.
apply: (dl_local at_ tb _ (D _ Hj)) => s h1 h2.
by rewrite (nth_rows (f := cs^~ s) (n := n)) //; exact: Z.
Qed.
(** an integrator without error: it raises only if there is no solution *)
Definition ideal (F : seq RR -> res (seq RR)) (z0 ts : seq RR) : res (seq (seq RR)) :=
  if excluded_middle_informative (exists zs, exact_rollout (size z0) F z0 ts zs)
  then Ok (epsilon (inhabits [::]) (exact_rollout (size z0) F z0 ts)) else Err RuntimeError.
Theorem ideal_thm : (forall n F, exact n F ideal) /\
  forall F z0 ts zs, exact_rollout (size z0) F z0 ts zs -> exists zs', ideal F z0 ts = Ok zs'.
Proof.
split=> [n F z0 ts zs <-|F z0 ts zs H]; rewrite /ideal; case: excluded_middle_informative => // h.
- by move=> [<-]; exact: (epsilon_spec (inhabits [::]) _ h).
- by eexists.
by case: h; exists zs.
Qed.
Lemma ham_field m H gr : gradient_of (2 * m) H gr -> field_on (2 * m) (hamiltonian_dynamics gr).
Proof.
move=> G z w Sz; have [Sg _] := G z Sz; have [w' Ew [Sw _]] := sform_nth Sg.
by rewrite /hamiltonian_dynamics Ew => -[<-].
Qed.
Section Net.
Variables (sinv : RR -> RR) (linv : nat -> seq RR -> seq RR).
Variables (crho : nat -> option gid -> gel RR -> res (op RR)).
Variables (gdim : gid -> nat) (csize : nat -> gid -> nat).
Variables (gperm : gid -> bool) (cperm : nat -> bool) (tenth : RR).
Variable E : gel RR -> Prop.
Local Notation sz := (rsize gdim csize).
Local Notation acts_rows := (acts_rows idR sinv linv crho gdim csize).
Local Notation equivariant := (equivariant idR sinv linv crho gdim csize E).
Local Notation rho_dense := (rho_dense idR sinv linv crho).
Local Notation network_call := (network_call idR gdim csize gperm cperm sigmoid tenth).
Local Notation emlph_call := (emlph_call idR gdim csize gperm cperm sigmoid tenth).
Variables (r : rep) (Ms : nat -> gel RR) (bs : nat).
Local Notation n := (sz r).
Hypothesis HE : forall b, (b < bs)%N -> E (Ms b).
Hypothesis HO : forall b D, (b < bs)%N -> rho_dense r (Ms b) = Ok (n, n, D) -> orthm n (unflat n n D).
Lemma net_field N Ps w b M D : equivariant r r (network_call N Ps w b) -> E M -> rho_dense r M = Ok (n, n, D) ->
  field_on n (network_call N Ps w b 1).
Proof.
move=> HN EM ED z y Sz Ey; have [y' Ey' Sy'] := equi_total HN (ex_intro _ M (ex_intro _ D (conj EM ED))) Sz.
by move: Ey'; rewrite Ey => -[->].
Qed.
Theorem emlpode_loss odeint N Ps w b z0 z0' ts zs zs' l l' : let T := size (nth [::] ts 0) in let F := network_call N Ps w b 1 in
  equivariant r r (network_call N Ps w b) -> (0 < bs)%N -> exact (bs * n) (rowwise n F bs) odeint ->
  acts_rows r Ms bs z0 z0' -> acts_rows r (fun t => Ms (t %/ T)) (bs * T) zs zs' ->
  ode_loss (F := R_fieldType) odeint n F bs z0 ts zs = Ok l -> ode_loss (F := R_fieldType) odeint n F bs z0' ts zs' = Ok l' -> l' = l.
Proof.
move=> T F HN b0 X A AZ; have [_ _ /(_ 0%N b0)[D ED _]] := A.
apply: (loss_thm HO (net_field HN (HE b0) ED) _ X A AZ) => i Hi.
exact: (flow_equi HN (@network_lip gdim csize gperm cperm tenth n N Ps w b) (HE Hi)).
Qed.
Theorem emlph_loss odeint m N Ps w b z0 z0' ts zs zs' l l' H gr : let T := size (nth [::] ts 0) in let F := hamiltonian_dynamics gr in
  equivariant r RScalar (network_call N Ps w b) -> (0 < bs)%N -> n = (2 * m)%N ->
  (forall b D, (b < bs)%N -> rho_dense r (Ms b) = Ok (n, n, D) -> isometry (sympl RR m) (unflat n n D)) ->
  (forall z, size z = n -> emlph_call N Ps w b 1 z = Ok (H z)) -> gradient_of n H gr ->
  exact (bs * n) (rowwise n F bs) odeint ->
  acts_rows r Ms bs z0 z0' -> acts_rows r (fun t => Ms (t %/ T)) (bs * T) zs zs' ->
  dynamics_loss (F := R_fieldType) odeint n gr bs z0 ts zs = Ok l -> dynamics_loss (F := R_fieldType) odeint n gr bs z0' ts zs' = Ok l' -> l' = l.
Proof.
move=> T F HN b0 En HS HH G X A AZ; have [_ _ HA] := A; have [D ED _] := HA 0%N b0.
have [H' HH' [_ _ FP]] := emlph_thm HN (ex_intro _ _ (ex_intro _ D (conj (HE b0) ED))) En.
have EH z : size z = n -> H' z = H z by move=> Sz; have := HH z Sz; rewrite HH' // => -[].
have G' : gradient_of n H' gr.
  move=> z Sz; have [Sg Hg] := G z Sz; split=> // eps e0; have [del d0 Hd] := Hg eps e0; exists del => // v Sv Hv.
  by rewrite !EH ?size_mkseq //; exact: Hd.
have FO : field_on n F by move: G; rewrite En; exact: ham_field.
apply: (loss_thm HO FO _ X A AZ) => i Hi; have [D' ED' _] := HA i Hi.
exact: (FP gr (Ms i) D' G' (HE Hi) ED' (HS i D' Hi ED')).
Qed.
End Net.
