(** * RepExprProofs: evaluating an expression gives the representation it denotes,
    both directly and by instantiating the deferred form. *)
From mathcomp Require Import all_ssreflect all_algebra.
From mathcomp Require Import zify.
From Verif Require Import Np NpLemmas Spec LinOp SpecLemmas LinOpInv Rep RepMat RepWf RepProd RepAlg RepDist RepMul RepFun RepOps RepExpr.
Set Implicit Arguments.
Unset Strict Implicit.
Unset Printing Implicit Defensive.
Import GRing.Theory.

Section E.
Variables (gdim : gid -> nat) (gorth : gid -> bool) (csize : nat -> gid -> nat).
Variable le : rel rep.
Variable g : gid.
Local Notation sz := (rsize gdim csize).
Local Notation gs := (pred1 g).
Local Notation atomic := (atomic gdim csize gs).
Local Notation key := (key gdim csize le gs).
Local Notation wfr := (wfr gdim csize le gs).
Local Notation ta := (ta gorth).
Hypothesis O : total_order_on key le.
Hypothesis G0 : 0 < gdim g.
Hypothesis C0 : forall c, 0 < csize c g.
Let Hgs : forall h, gs h -> h = g. Proof. by move=> h /eqP. Qed.

Definition leafrep (G : option gid) (l : option nat) : rep :=
  if l is Some c then RCustom c G else RBase G.

Lemma leaf_atomic l : atomic (leafrep (Some g) l).
Proof. by case: l => [c|] /=; rewrite eqxx ?C0 ?G0. Qed.

Lemma taK l : ta (ta (leafrep (Some g) l)) = leafrep (Some g) l.
Proof. by case: l => [c|]; rewrite /= /t_atom /=; case E: (gorth g) => //=; rewrite /t_atom /= E. Qed.

Section Atom.
Variable R : comRingType.

Lemma fdsuml_fid1 n : meq (fdsuml (nseq n (fid R 1))) (fid R n).
Proof.
elim: n => [|n IH]; first by split.
apply: meq_trans (meq_fdsum (meq_refl _) IH) _; exact: fdsum_id.
Qed.

Lemma meq_nseq_sum n (X Y : fmat R) : meq X Y -> meq (fdsuml (nseq n X)) (fdsuml (nseq n Y)).
Proof. by move=> H; elim: n => [|n IH] /=; [apply: meq_refl | apply: meq_fdsum]. Qed.
Lemma meq_nseq_kron n (X Y : fmat R) : meq X Y -> meq (fkronl (nseq n X)) (fkronl (nseq n Y)).
Proof. by move=> H; elim: n => [|n IH] /=; [apply: meq_refl | apply: meq_fkron]. Qed.

Definition vrel (atom : rep -> fmat R) (s : sval R) (v : val) : Prop :=
  match s, v with
  | SInt n, VInt z => z = Posz n
  | SMat X, VRep r => wfr r /\ meq (rmat atom r) X
  | _, _ => False
  end.

Lemma scalar_int_ok (atom : rep -> fmat R) n : (forall r, atomic r -> kok atom sz r) ->
  exists2 r, mul_int gdim csize le RScalar (Posz n.+1) = Ok (VRep r) &
    wfr r /\ meq (rmat atom r) (fid R n.+1).
Proof.
move=> HA.
have [r E [W S M]] := @mul_int_ok gdim csize le gs O R atom HA RScalar n.+1 isT isT.
exists r => //; split=> //; apply: meq_trans M _; exact: fdsuml_fid1.
Qed.

Theorem eval_ok e : forall (atom : rep -> fmat R) (A B : option nat -> fmat R) s,
  (forall r, atomic r -> kok atom sz r) ->
  (forall l, A l = atom (leafrep (Some g) l)) ->
  (forall l, B l = atom (ta (leafrep (Some g) l))) ->
  espec A B e = Some s ->
  exists2 v, eval gdim gorth csize le (Some g) e = Ok v & vrel atom s v.
Proof.
elim: e => [|c||n|a IHa b IHb|a IHa b IHb|a IHa|a IHa n] atom A B s HA EA EB.
- move=> [<-]; exists (VRep (RBase (Some g))) => //; split; last by rewrite EA; apply: meq_refl.
  by apply: nonsum_wfr; apply: atomic_sub; apply: (leaf_atomic None).
- move=> [<-]; exists (VRep (RCustom c (Some g))) => //; split; last by rewrite EA; apply: meq_refl.
  by apply: nonsum_wfr; apply: atomic_sub; apply: (leaf_atomic (Some c)).
- by move=> [<-]; exists (VRep RScalar) => //; split=> //; apply: meq_refl.
- by move=> [<-]; exists (VInt (Posz n)).
- rewrite /=; case Ea : (espec A B a) => [sa|] //; case Eb : (espec A B b) => [sb|] //; last by case: sa {Ea}.
  have [va -> Va] := IHa atom A B sa HA EA EB Ea; have [vb -> Vb] := IHb atom A B sb HA EA EB Eb.
  case: sa va Va {Ea} => [m|X] [z|ra] // Va; case: sb vb Vb {Eb} => [n|Y] [z'|rb] // Vb; rewrite !bindOk.
  + by case=> <-; rewrite Va Vb; exists (VInt (Posz (m + n))) => //=; rewrite PoszD.
  + case=> <-; rewrite Va; case: Vb => Wb Mb.
    case: m {Va} => [|m].
      by exists (VRep rb) => //; split=> //; apply: meq_trans Mb (meq_sym (fdsum_0l _)).
    have [s' E' [Ws Ms]] := scalar_int_ok m HA.
    rewrite /add_val E' bindOk.
    have [r -> [H1 H2 H3]] := add_ok O HA Ws Wb.
    exists (VRep r) => //; split; first exact: issum_wfr.
    by apply: meq_trans H3 (meq_fdsum Ms Mb).
  + case=> <-; rewrite Vb; case: Va => Wa Ma.
    case: n {Vb} => [|n].
      by exists (VRep ra) => //; split=> //; apply: meq_trans Ma _; apply: meq_sym;
         apply: meq_trans (fdsum_0r X); apply: meq_fdsum.
    have [s' E' [Ws Ms]] := scalar_int_ok n HA.
    rewrite /add_val E' bindOk.
    have [r -> [H1 H2 H3]] := add_ok O HA Wa Ws.
    exists (VRep r) => //; split; first exact: issum_wfr.
    by apply: meq_trans H3 (meq_fdsum Ma Ms).
  + case=> <-; case: Va Vb => Wa Ma [Wb Mb].
    have [r E [H1 H2 H3]] := add_ok O HA Wa Wb.
    exists (VRep r); first by rewrite /= E.
    split; first exact: issum_wfr.
    by apply: meq_trans H3 (meq_fdsum Ma Mb).
- rewrite /=; case Ea : (espec A B a) => [sa|] //; case Eb : (espec A B b) => [sb|] //; last by case: sa {Ea}.
  have [va -> Va] := IHa atom A B sa HA EA EB Ea; have [vb -> Vb] := IHb atom A B sb HA EA EB Eb.
  have Hint n r X (z : int) : z = Posz n -> wfr r /\ meq (rmat atom r) X -> exists2 v, mul_int gdim csize le r z = Ok v &
      vrel atom (if n is 0 then SInt R 0 else SMat (fdsuml (nseq n X))) v.
    move=> -> [W M]; case: n => [|n]; first by exists (VInt 0).
    have [r' -> [W' S' M']] := @mul_int_ok gdim csize le gs O R atom HA r n.+1 W isT.
    exists (VRep r') => //; split=> //; apply: meq_trans M' _; exact: meq_nseq_sum.
  case: sa va Va {Ea} => [m|X] [z|ra] // Va; case: sb vb Vb {Eb} => [n|Y] [z'|rb] // Vb; rewrite !bindOk.
  + by case=> <-; rewrite Va Vb; exists (VInt (Posz (m * n))) => //=; rewrite PoszM.
  + by case=> <-; apply: Hint.
  + by case=> <-; apply: Hint.
  + case=> <-; case: Va Vb => Wa Ma [Wb Mb].
    have [r E [H1 H2 H3]] := mul_ok Hgs O HA Wa Wb.
    exists (VRep r); first by rewrite /= E.
    by split=> //; apply: meq_trans H3 (meq_fkron Ma Mb).
- rewrite /=; case Ea : (espec B A a) => [[m|X]|] // [<-].
  pose atomT k := atom (ta k).
  have HAT r : atomic r -> kok atomT sz r.
    by move=> Ar; have [A' S _] := ta_atomic gorth Ar; rewrite /kok -S; apply: HA.
  have [v -> V] := IHa atomT B A (SMat X) HAT EB (fun l => etrans (EA l) (esym (congr1 atom (taK l)))) Ea.
  case: v V => // r [W M]; rewrite bindOk.
  have [r' -> [W' S' M']] := tr_ok gorth Hgs O HA W.
  by exists (VRep r') => //; split=> //; apply: meq_trans M' M.
- rewrite /=; case Ea : (espec A B a) => [sa|] //.
  have [va -> Va] := IHa atom A B sa HA EA EB Ea.
  case: sa va Va {Ea} => [m|X] [z|ra] // Va; rewrite bindOk => -[<-].
    exists (VInt (z ^+ n)%R) => //=; rewrite Va; elim: (n) => [|k IH] //.
    by rewrite exprS expnS PoszM IH.
  case: Va => W M; have [r -> [H1 H2 H3]] := pow_ok Hgs O HA n W.
  exists (VRep r) => //; split=> //; apply: meq_trans H3 _; exact: meq_nseq_kron.
Qed.
End Atom.
End E.
