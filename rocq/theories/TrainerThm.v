(** * TrainerThm: lemmas about Trainer.v: epochs, averages, checkpoints, chunks. *)
From Coq Require Import Field.
From mathcomp Require Import all_ssreflect all_algebra.
From mathcomp Require Import zify.
From Verif Require Import Np DataThm Trainer TrainerSpec.
Set Implicit Arguments.
Unset Strict Implicit.
Unset Printing Implicit Defensive.
Import GRing.Theory Num.Theory.
Local Open Scope ring_scope.

(** ** training *)
Section Train.
Variable F : numFieldType.
Variables B S : Type.
Variable upd : F -> B -> S -> S.
Variable loader : nat -> seq B.
Variable spe : nat.
Hypothesis HL : forall k, size (loader k) = spe.
Local Notation event := (event F B).
Local Notation trainer := (trainer F B S).
Local Notation train := (train upd loader spe).
Local Notation train_to := (train_to upd loader spe).
Local Notation steps_state := (steps_state upd).
Local Notation numbered := (numbered spe).

Lemma epoch_eventsP e l : size l = spe ->
  [/\ map (@ev_step F B) (epoch_events F spe e l) = iota (e * spe) spe, map (@ev_batch F B) (epoch_events F spe e l) = l &
      numbered (epoch_events F spe e l)].
Proof.
move=> Sl; rewrite /epoch_events /numbered Sl; split.
- rewrite -map_comp.
  rewrite (eq_map (f2 := addn (e * spe) \o fst)); last by move=> ib /=; rewrite addnC.
  by rewrite map_comp -/(unzip1 _) unzip1_zip ?size_iota ?Sl // -iotaDl addn0.
- by rewrite -map_comp -[RHS](@unzip2_zip _ _ (iota 0 spe) l) ?size_iota ?Sl.
case: (posnP spe) => [s0|s0]; first by rewrite s0 in Sl *; rewrite (size0nil Sl).
move=> ev /(List.in_map_iff _ _ _)[[i b] [<- _]] /=.
by rewrite natrD natrM mulrDl mulfK ?pnatr_eq0 -?lt0n // addrC.
Qed.
Lemma epochsP n e (t : trainer) : exists evs,
  [/\ epochs upd loader spe n e t = TrainerSt (if n is n'.+1 then e + n' else t_epoch t)%N (t_pass t + n)%N (steps_state (t_state t) evs)
        (t_events t ++ evs) (t_logs t),
      map (@ev_step F B) evs = iota (e * spe) (n * spe), map (@ev_batch F B) evs = flatten (map loader (iota (t_pass t) n)) &
      numbered evs].
Proof.
elim: n e t => [|n IH] e t /=; first by exists [::]; split=> [||//|ev []]; rewrite ?addn0 ?cats0 //; case: t.
have [e1 e2 e3] := epoch_eventsP e (HL (t_pass t)).
have [evs [-> h1 h2 h3]] := IH e.+1 (one_epoch upd loader spe e t).
exists (epoch_events F spe e (loader (t_pass t)) ++ evs); split.
- rewrite /= /steps_state foldl_cat catA addSnnS; congr TrainerSt.
  by case: (n) => [|n'] /=; rewrite ?addn0 // addSnnS.
- by rewrite map_cat e1 h1 !mulSn iotaD addnC.
- by rewrite map_cat e2 h2 /=.
by move=> ev /List.in_app_iff[/e3|/h3].
Qed.
Theorem train_thm n (t : trainer) : (0 < n)%N -> exists evs,
  [/\ train n t = TrainerSt (t_epoch t + n) (t_pass t + n) (steps_state (t_state t) evs) (t_events t ++ evs)
        (rcons (t_logs t) ((t_epoch t + n) * spe).-1),
      map (@ev_step F B) evs = iota (t_epoch t * spe) (n * spe),
      map (@ev_batch F B) evs = flatten (map loader (iota (t_pass t) n)) & numbered evs].
Proof.
move=> n0; have [evs [E h1 h2 h3]] := epochsP n (t_epoch t) t; exists evs; split=> //.
rewrite /Trainer.train E /= drop_size_cat // h1; congr TrainerSt; first by case: (n) n0 => // n' _; rewrite addnS.
congr rcons; case: (posnP spe) => [->|s0]; first by rewrite !muln0.
have -> : iota (t_epoch t * spe) (n * spe) = rcons (iota (t_epoch t * spe) (n * spe).-1) (t_epoch t * spe + (n * spe).-1)%N.
  by rewrite -cats1 -[[:: _]]/(iota _ 1) -iotaD addn1 prednK // muln_gt0 n0.
by rewrite last_rcons mulnDl; nia.
Qed.
Theorem train_compose n m (t : trainer) : (0 < n)%N -> (0 < m)%N ->
  let a := train m (train n t) in let b := train (n + m) t in
  [/\ t_epoch a = t_epoch b, t_pass a = t_pass b, t_state a = t_state b & t_events a = t_events b].
Proof.
move=> n0 m0 a b; rewrite /a /b {a b}.
have [e1 [E1 h1 h2 h3]] := train_thm t n0.
have [e2 [-> k1 k2 k3]] := train_thm (train n t) m0.
have [e3 [-> l1 l2 l3]] := train_thm t (ltn_addr m n0).
have Estep : map (@ev_step F B) (e1 ++ e2) = map (@ev_step F B) e3.
  by rewrite map_cat h1 k1 l1 E1 /= !mulnDl iotaD.
have Ebatch : map (@ev_batch F B) (e1 ++ e2) = map (@ev_batch F B) e3.
  by rewrite map_cat h2 k2 l2 E1 /= iotaD map_cat flatten_cat.
have N12 : numbered (e1 ++ e2) by move=> ev /List.in_app_iff[/h3|/k3].
have -> : e3 = e1 ++ e2.
  elim: (e1 ++ e2) e3 l3 N12 Estep Ebatch {l1 l2} => [|a l IH] [|b l'] // N' N [E2 E3] [E4 E5].
  rewrite (IH l') //; last by move=> ev H; apply: N; right.
  2: by move=> ev H; apply: N'; right.
  congr cons; have := N a (or_introl erefl); have := N' b (or_introl erefl).
  by case: a b E2 E4 {N N' E3 E5} => s e b [s' e' b'] /= -> -> -> ->.
by split; rewrite E1 /= ?addnA // ?/TrainerSpec.steps_state ?foldl_cat // catA.
Qed.
(** train_to *)
Theorem train_to_thm f (t : trainer) :
  [/\ (f < t_epoch t)%N -> train_to f t = Err AssertionError,
      (t_epoch t < f)%N -> exists2 t', train_to f t = Ok t' &
        t_epoch t' = f /\ map (@ev_step F B) (t_events t') =
          map (@ev_step F B) (t_events t) ++ iota (t_epoch t * spe) ((f - t_epoch t) * spe) &
      f = t_epoch t -> exists2 t', train_to f t = Ok t' &
        [/\ t_state t' = t_state t, t_events t' = t_events t, t_epoch t' = f.+1 & train_to f t' = Err AssertionError]].
Proof.
rewrite /Trainer.train_to; split=> [->|H|->] //.
  rewrite ltnNge ltnW //=; eexists; first by []. 
  have [|evs [-> h1 _ _]] := @train_thm (f - t_epoch t) t; first by rewrite subn_gt0.
  by rewrite /= map_cat h1 subnKC // ltnW.
rewrite ltnn subnn; eexists; first by [].
by rewrite /Trainer.train /= ltnS leqnn.
Qed.
End Train.

(** ** averages *)
Section Id0.
Variables (T : Type) (z o : T) (ad mu su : T -> T -> T) (op : T -> T) (di : T -> T -> T) (iv : T -> T).
Hypothesis th : field_theory z o ad mu su op di iv eq.
Add Field Tfield : th.
Lemma avg_identity0 (a l q b r : T) : ad q o <> z -> ad (mu q b) r <> z ->
  su (di (ad (mu a q) l) (ad q o)) (di (ad (mu a (mu q b)) (mu l r)) (ad (mu q b) r)) =
  di (mu (su a l) (mu q (su r b))) (mu (ad q o) (ad (mu q b) r)).
Proof. by move=> h1 h2; field; split. Qed.
End Id0.
Section Id.
Variable F : fieldType.
Lemma field_th : @field_theory F 0 1 +%R *%R (fun a b => a - b) -%R (fun a b => a / b) (fun a => a^-1) eq.
Proof.
split=> //; [exact: comring_theory | by apply/eqP/oner_neq0 | by move=> p /eqP H; rewrite mulVf].
Qed.
Lemma avg_identity (a l q b r : F) : q + 1 <> 0 -> q * b + r <> 0 ->
  (a * q + l) / (q + 1) - (a * (q * b) + l * r) / (q * b + r) = (a - l) * (q * (r - b)) / ((q + 1) * (q * b + r)).
Proof. exact: (avg_identity0 field_th). Qed.
End Id.
Section Avg.
Variable F : numFieldType.
Lemma mean_ofE (T : Type) (f : T -> F) l : mean_of f l = (\sum_(x <- l) f x) / (size l)%:R.
Proof. by rewrite /mean_of; congr (_ / _); elim: l => [|x l IH]; rewrite ?big_nil ?big_cons //= IH. Qed.
Theorem eval_thm (B : Type) bs (l : seq B) (metric : B -> F) :
  eval_average bs l metric =
    if (weight bs == 0)%N || (size l == 0)%N then Err KeyError else Ok ((\sum_(b <- l) metric b) / (size l)%:R).
Proof.
rewrite /eval_average -/(weight bs); set mb := weight bs.
have H n s : foldl (fun (s : nat * F) b => ((s.1 + mb)%N, s.2 + mb%:R * metric b)) (n, s) l =
    ((n + size l * mb)%N, s + mb%:R * \sum_(b <- l) metric b).
  elim: l n s => [|b l IH] n s /=; first by rewrite big_nil mulr0 addr0 addn0.
  by rewrite IH big_cons mulrDr addrA mulSn addnA.
rewrite H /= add0n add0r muln_eq0 orbC; case: eqP => //= M0; case: eqP => //= L0.
by congr Ok; rewrite natrM [mb%:R * _]mulrC -mulf_div divff ?mulr1 // pnatr_eq0; apply/eqP.
Qed.
Variables (T : Type) (f : T -> F).
Lemma full_batches bs q (data : seq T) : (q * bs <= size data)%N ->
  \sum_(k <- iota 0 q) \sum_(x <- take bs (drop (k * bs) data)) f x = \sum_(x <- take (q * bs) data) f x.
Proof.
elim: q => [|q IH] H; first by rewrite take0 !big_nil.
rewrite -addn1 iotaD big_cat /= IH; last by apply: leq_trans H; rewrite leq_mul2r leqnSn orbT.
by rewrite big_seq1 add0n mulnDl mul1n takeD big_cat.
Qed.
Lemma size_batch bs q (data : seq T) k : (q * bs <= size data)%N -> (k < q)%N -> size (take bs (drop (k * bs) data)) = bs.
Proof. by move=> H kq; rewrite size_take size_drop; case: ltnP => //; nia. Qed.
Lemma full_means bs q (data : seq T) : (q * bs <= size data)%N ->
  \sum_(k <- iota 0 q) mean_of f (take bs (drop (k * bs) data)) = (\sum_(x <- take (q * bs) data) f x) / bs%:R.
Proof.
move=> H; rewrite -full_batches // mulr_suml big_seq [RHS]big_seq; apply: eq_bigr => k; rewrite mem_iota => /andP[_ Hk].
by rewrite mean_ofE (size_batch H).
Qed.
Lemma num_batches bs (data : seq T) : (0 < bs)%N ->
  ((size data + bs.-1) %/ bs)%N = (size data %/ bs + (size data %% bs != 0))%N.
Proof.
move=> b0; rewrite {1}(divn_eq (size data) bs) -addnA divnMDl //; congr addn.
have := ltn_pmod (size data) b0; case: (size data %% bs)%N => [|r] /= Hr; first by rewrite add0n divn_small // prednK.
have -> : (r.+1 + bs.-1 = r + bs)%N by lia.
by rewrite divnDr ?dvdnn // divnn b0 divn_small //; lia.
Qed.
Theorem average_even bs (data : seq T) : (0 < bs)%N -> (0 < size data)%N -> (bs %| size data)%N ->
  eval_average (Some bs) (batches_of bs data) (mean_of f) = Ok (mean_of f data).
Proof.
move=> b0 d0 D; rewrite eval_thm /batches_of size_mkseq num_batches // (eqP D) eqxx addn0 /=.
have q0 : (0 < size data %/ bs)%N by rewrite divn_gt0 // dvdn_leq.
rewrite (gtn_eqF b0) (gtn_eqF q0) /=; congr Ok; rewrite /mkseq big_map full_means ?divnK //.
by rewrite take_size mean_ofE -mulrA -invfM -natrM mulnC divnK.
Qed.
Theorem average_uneven bs (data : seq T) : (0 < size data %/ bs)%N -> (0 < size data %% bs)%N ->
  exists e, eval_average (Some bs) (batches_of bs data) (mean_of f) = Ok e /\
   (e = mean_of f data <-> mean_of f (take (size data %/ bs * bs) data) = mean_of f (drop (size data %/ bs * bs) data)).
Proof.
set q := (size data %/ bs)%N; set r := (size data %% bs)%N => q0 r0.
have b0 : (0 < bs)%N by case: (bs) @q @r q0 r0.
have rb : (r < bs)%N by rewrite ltn_mod.
have EN : size data = (q * bs + r)%N by exact: divn_eq.
rewrite eval_thm /batches_of size_mkseq num_batches // -/q -/r -lt0n r0 addn1 (gtn_eqF b0) /=; eexists; split; first by [].
rewrite /mkseq big_map -addn1 iotaD big_cat /= full_means; last by rewrite EN leq_addr.
have SL : size (drop (q * bs) data) = r by rewrite size_drop EN addKn.
have ST : size (take (q * bs) data) = (q * bs)%N by rewrite size_take EN; case: ltnP => //; lia.
rewrite big_seq1 add0n [take bs _]take_oversize; last by rewrite SL ltnW.
rewrite !mean_ofE SL ST.
have -> : \sum_(x <- data) f x = \sum_(x <- take (q * bs) data) f x + \sum_(x <- drop (q * bs) data) f x by rewrite -big_cat cat_take_drop.
move: (\sum_(x <- take _ _) _) (\sum_(x <- drop _ _) _) => A L; rewrite EN.
pose a : F := A / (q * bs)%:R; pose l : F := L / r%:R; rewrite -/a -/l.
have nz n : (0 < n)%N -> n%:R != 0 :> F by move=> h; rewrite pnatr_eq0 -lt0n.
have EA : A = a * (q%:R * bs%:R) by rewrite /a natrM mulfVK // -natrM nz // muln_gt0 q0.
have EL : L = l * r%:R by rewrite /l mulfVK // nz.
have -> : A / bs%:R = a * q%:R by rewrite EA mulrA mulfK // nz.
rewrite EA EL.
have nzq : (q + 1)%:R != 0 :> F by rewrite nz // addn1.
have nzt : (q * bs + r)%:R != 0 :> F by rewrite nz // addn_gt0 r0 orbT.
have K : (a * q%:R + l) / (q + 1)%:R - (a * (q%:R * bs%:R) + l * r%:R) / (q * bs + r)%:R
         = (a - l) * (q%:R * (r%:R - bs%:R)) / ((q + 1)%:R * (q * bs + r)%:R).
  move: nzq nzt; rewrite !natrD natrM => /eqP nzq /eqP nzt; exact: avg_identity.
split=> E; last first.
  have -> : (a * q%:R + l) / (q + 1)%:R = (a * (q%:R * bs%:R) + l * r%:R) / (q * bs + r)%:R; last by [].
  by apply/eqP; rewrite -subr_eq0 K E subrr !mul0r.
apply/eqP; rewrite -subr_eq0; have : (a - l) * (q%:R * (r%:R - bs%:R)) / ((q + 1)%:R * (q * bs + r)%:R) = 0 by rewrite -K E subrr.
move/eqP; rewrite !mulf_eq0 invr_eq0 mulf_eq0 (negbTE nzq) (negbTE nzt) (negbTE (nz _ q0)) !orbF subr_eq0.
by rewrite orFb subr_eq0 eqr_nat (ltn_eqF rb) orbF.
Qed.
End Avg.
