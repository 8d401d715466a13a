(** * GroupsOrthT: the dual of a representation of a group flagged is_orthogonal, and D(k). *)
From Coq Require Import Reals String.
From mathcomp Require Import all_ssreflect all_algebra.
From mathcomp Require Import zify.
From Verif Require Import Np NpLemmas Spec SpecLemmas LinOp LinOpSpec LinOpMore LinOpProofs MxBridge Rep RepSpec RhoProofs RepWf Order RepThm1 Rstruct Expm GrpSpec.
From Verif Require Import Groups GroupsSpec GroupsSpecR GroupsInit GroupsCtor GroupsPerm GroupsThm GroupsFlag GroupsReal GroupsTol GroupsSample.
Set Implicit Arguments.
Unset Strict Implicit.
Unset Printing Implicit Defensive.
Import GRing.Theory.
Local Open Scope ring_scope.

Section Dual.
Variables (sinv : RR -> RR) (linv : nat -> seq RR -> seq RR).
Variables (crho : nat -> option gid -> gel RR -> res (op RR)).
Variables (gdim : gid -> nat) (csize : nat -> gid -> nat) (le : rel rep) (g : gid).
Variable G : gid -> group RR.
Local Notation sz := (rsize gdim csize).
Local Notation gs := (pred1 g).
Local Notation generated := (generated gdim gs (the_gens G) (the_lies G)).
Local Notation rho_dense := (rho_dense idR sinv linv crho).
Theorem generated_T M X r : total_order_on (key gdim csize le gs) le -> tested (gdim g) (G g) -> g_orth (G g) ->
  generated X -> (exists2 A, glook M (Some g) = Ok A & meq (den A) (X g)) ->
  group_elem idR sinv linv crho gdim csize gs M ->
  (forall c C, crho c (Some g) M = Ok C -> orthm (csize c g) (den C)) ->
  wfr gdim csize le gs r ->
  exists r' D, [/\ tr gdim (fun h => g_orth (G h)) csize le r = Ok r', rho_dense r M = Ok (sz r, sz r, D) & rho_dense r' M = Ok (sz r, sz r, D)].
Proof.
move=> O T F HX HMX HM Hc W.
have T' h : gs h -> tested (gdim h) (G h) by move=> /eqP ->.
have HO : orth_elem crho gdim csize (fun h => g_orth (G h)) gs M.
  move=> h /= /eqP Eh _; rewrite Eh; split=> [A E|c C E]; last by have [_ _ H1 H2] := Hc c C E; split.
  have [A'] := HMX; rewrite E => -[<-] EX.
  have := (orth_iff T).1 F _ (generated_in HX (eqxx g) T') => /(orthm_meq (meq_sym EX))[_ _ H1 H2].
  by split.
have [r' [D [D' [E1 _ E2 E3 [_ E4]]]]] := tr_thm O W HM HO.
by exists r', D; split=> //; rewrite E3 (E4 F).
Qed.
End Dual.

(** D(k): the reflection is added after the test, but is orthogonal *)
Lemma dihedral_orth k : (0 < k)%N -> exists G, [/\ g_dihedral idR cosR sinR (@same RR) k = Ok G, g_d G = Some 2%N, g_orth G &
  forall X, in_group 2 (lmats G) (gmats G) X -> orthm 2 X].
Proof.
case: k => // k _; have R1 : cosR k.+1 * cosR k.+1 + sinR k.+1 * sinR k.+1 = 1.
  by have := sin2_cos2 (Rdiv (Rmult 2 PI) (INR k.+1)); rewrite /Rsqr Rplus_comm.
have O h (a b c e : RR) : a * a + c * c = 1 -> a * b + c * e = 0 -> b * b + e * e = 1 -> h = den (OArr 2 2 [:: a; b; c; e]) -> orthm 2 h.
  move=> H1 H2 H3 ->.
  have E : meq (fmul (ftr (den (OArr 2 2 [:: a; b; c; e]))) (den (OArr 2 2 [:: a; b; c; e]))) (fid RR 2).
    split=> //= -[|[|//]] [|[|//]] _ _; rewrite big_nat_recr //= big_nat1 //=.
    by rewrite mulrC [e * c]mulrC.
  by split=> //; apply: one_sided E.
have Oc : orthm 2 (den (OArr 2 2 [:: cosR k.+1; sinR k.+1; - sinR k.+1; cosR k.+1])).
  apply: (O _ _ _ _ _ _ _ _ erefl); rewrite ?mulrNN //.
    by rewrite mulNr [cosR _ * _]mulrC addrN.
  by rewrite addrC.
have Or : orthm 2 (den (OArr 2 2 [:: -1; 0; 0; 1 : RR])).
  by apply: (O _ _ _ _ _ _ _ _ erefl); rewrite ?mulrNN ?(mulr1, mulr0, mul0r, addr0, add0r).
rewrite /g_dihedral /= (@init_gens _ idR (@same RR) _ 2 (GArr (c_gens cosR sinR k.+1))) //; last exact: (@gok_arr _ _ 1).
eexists; split; [by []|by []| |].
  rewrite /=; apply/(gen_flagP (conj := idR)); first exact: (@gok_arr _ _ 1).
  by move=> A /= [<-|//]; case: Oc.
by move=> X; apply: group_orth => // h /= [<-|[<-|//]].
Qed.

Section SampleIn.
Variables (linv : nat -> seq RR -> seq RR) (expm : nat -> seq RR -> seq RR).
Theorem sample_in (G : group RR) d z ks perm : linv_ok linv -> expm_ok expm ->
  g_d G = Some d -> gok idR d (g_lie G) -> gok idR d (g_gens G) ->
  (forall h, List.In h (gmats G) -> exists V, [/\ fr V = d, fc V = d, meq (fmul h V) (fid RR d) & meq (fmul V h) (fid RR d)]) ->
  size z = size (lmats G) -> (if g_zscale G is Some zs then size zs = size z else True) ->
  (forall k, all (fun i => i < size (gmats G))%N (perm k)) ->
  exists2 D, sample idR linv expm G z ks perm = Ok D & in_group d (lmats G) (gmats G) (unflat d d D).
Proof.
move=> Hl He Ed Gl Gg HV Sz Hz Hp.
have [D [Es [Ys [ED EM SD HE [SY HY]]]]] := sample_ok Hl He Ed Gl Gg HV ks Sz Hz Hp; exists D => //.
have SL : forall A, List.In A (lmats G) -> sq d A.
  by move=> A /List.in_map_iff[B [<- HB]]; exact: gop_sz (Gl _ HB).
have SG : forall A, List.In A (gmats G) -> sq d A.
  by move=> A /List.in_map_iff[B [<- HB]]; exact: gop_sz (Gg _ HB).
apply: in_group_meq EM => //; apply: in_group_mprod; first exact/I_one/meq_refl.
move=> Y HY0; have [HYs|HYs] := List.in_app_or _ _ _ HY0.
  move: HE; case: ifP => N; first by move=> E0; rewrite E0 in HYs.
  case=> E E1 E2; move: HYs; rewrite E1 => -[<-|//]; apply: (@I_exp _ _ _ (lincomb id d (nth 0 (noise G z)) (lmats G))) => //.
  by apply: span_lincomb => // E0; rewrite E0 in N.
have [t Ht <-] : exists2 t, (t < size Ys)%N & nth no Ys t = Y.
  elim: (Ys) HYs => //= W l IH [->|/IH[t Ht Et]]; [by exists 0%N | by exists t.+1].
apply: in_group_zpow (HY t Ht) => //; apply: In_nth.
suff : all (fun m => m.1 < size (gmats G))%N (moves ks perm) by move=> /(all_nthP (0%N, 0)); apply; rewrite -SY.
by rewrite /moves /= !all_cat !all_map /= !(eq_all (a2 := fun i => i < size (gmats G))%N) ?Hp.
Qed.
End SampleIn.
