(** * PropCache: C29, the cache of solutions. *)
From mathcomp Require Import all_ssreflect all_algebra.
From Verif Require Import Np Spec LinOp Rep RepWf RepSpec RepCode ExRep Solver SolSpec ExSol Cache CacheProofs ExCache.
Set Implicit Arguments.
Unset Strict Implicit.
Unset Printing Implicit Defensive.
Import GRing.Theory.

Section C.
Variable R : comRingType.
Variables (conj sinv : R -> R) (linv : nat -> seq R -> seq R).
Variables (crho cdrho : nat -> option gid -> gel R -> res (op R)).
Variables (gdim : gid -> nat) (csize : nat -> gid -> nat) (le : rel rep) (gs : pred gid).
Variables (gens lies : gid -> seq (op R)).
Variables (svd : nat -> nat -> seq R -> seq R * seq R * seq R) (big : pred R).
Variable krylov : op R -> res (darr R).
Variable name : gid -> gid.
Local Notation wfr := (wfr gdim csize le gs).
Local Notation calls := (do_calls conj sinv linv crho cdrho gdim csize le gens lies svd big krylov name).
Local Notation fresh := (fresh conj sinv linv crho cdrho gdim csize le gens lies svd big krylov).

(** C29.  When groups with the same name are the same, every history of calls of
    equivariant_basis and equivariant_projector, starting with the empty cache, returns (or
    raises) what the same calls would without a cache. *)
Theorem C29_transparent bs : total_order_on (key gdim csize le gs) le ->
  (forall g h, gs g -> gs h -> name g = name h -> g = h) ->
  all (fun b => wfr (bcall_rep b)) bs -> calls bs [::] = map fresh bs.
Proof. move=> h1 h2; exact: calls_fresh. Qed.
End C.
Print Assumptions C29_transparent.

Example C29_ex : ccalls id [:: CallBasis U0; CallBasis U1; CallProj U0; CallBasis U1] [::] =
  map cfresh [:: CallBasis U0; CallBasis U1; CallProj U0; CallBasis U1].
Proof. by apply: (@C29_transparent _ _ _ _ _ _ _ _ _ two) => //; exact: le_asc_total. Qed.

(** C29 as stated is false: Embed(SO(2),3,slice(0,2)) and Embed(SO(2),3,slice(1,3)) have the
    same name.  All other hypotheses hold; after V(G0).equivariant_basis(), the call
    V(G1).equivariant_basis() returns the invariants of G0. *)
Theorem C29_names_refuted : exists (lies : gid -> seq (op R0)) svd,
  [/\ total_order_on (key gd3 cs1 le_asc two) le_asc,
      generators_ok idz gd3 idz (@linv2 R0) (@cr1 R0) (@cd1 R0) cs1 two cg lies,
      forall r, r \in [:: U0; U1] -> wfr gd3 cs1 le_asc two r /\
        solver_ok idz gd3 idz (@linv2 R0) (@cr1 R0) (@cd1 R0) cs1 cg lies svd (@exbig R0) (@exkry R0) r &
      do_calls idz idz (@linv2 R0) (@cr1 R0) (@cd1 R0) gd3 cs1 le_asc cg lies svd (@exbig R0) (@exkry R0) cname
        [:: CallBasis U0; CallBasis U1] [::] <>
      map (fresh idz idz (@linv2 R0) (@cr1 R0) (@cd1 R0) gd3 cs1 le_asc cg lies svd (@exbig R0) (@exkry R0))
        [:: CallBasis U0; CallBasis U1]].
Proof. exact: names_refuted. Qed.
Print Assumptions C29_names_refuted.
