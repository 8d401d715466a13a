(** * Rep: model of the representation algebra,
    emlp/reps/representation.py and emlp/reps/product_sum_reps.py.

    Simplifications, once for the file.
    - Groups are identified by a number [gid]: two groups are equal in Python
      iff their reprs are (groups.py:92-96), and the number stands for the repr.
    - A dictionary is the association list of its items in insertion order.
      Keys are compared structurally.  (Python compares dictionaries as sets of
      items; for the canonical, sorted keys that occur the two agree, see
      [req_canonical] in OrderProofs.)
    - Python's [sorted] on a list of distinct representations is
      [sort le], [le] being a parameter: see Order.v for the real comparison.
    - numpy integer arrays of indices are lists of nat.
    - The attribute [is_permutation] is a function, [isperm], of the representation. *)
From mathcomp Require Import all_ssreflect all_algebra.
From Verif Require Import Np LinOp.
Set Implicit Arguments.
Unset Strict Implicit.
Unset Printing Implicit Defensive.

Definition gid := nat.

(** One constructor per class:
    ScalarRep (representation.py:202), Base (235), a user-defined subclass of
    Rep number [c] (the docstring of Rep, 25-32), Dual (266), SumRep and
    SumRepFromCollection (product_sum_reps.py:13,167: fields reps, perm),
    ProductRep (244), DirectProduct (341), DeferredSumRep (395),
    DeferredProductRep (416).  The fields invperm, canonical, is_permutation, G
    are functions of the others and are recomputed. *)
Inductive rep : Type :=
| RScalar
| RBase (G : option gid)
| RCustom (c : nat) (G : option gid)
| RDual (r : rep)
| RSum (d : seq (rep * nat)) (p : seq nat)
| RProd (d : seq (rep * nat)) (p : seq nat)
| RDir (d : seq (rep * nat)) (p : seq nat)
| RDefSum (l : seq rep)
| RDefProd (l : seq rep).

Section RepInd.
Variable P : rep -> Prop.
Hypothesis HS : P RScalar.
Hypothesis HB : forall G, P (RBase G).
Hypothesis HC : forall c G, P (RCustom c G).
Hypothesis HD : forall r, P r -> P (RDual r).
Hypothesis HSum : forall d p, foldr (fun x Q => P x.1 /\ Q) True d -> P (RSum d p).
Hypothesis HProd : forall d p, foldr (fun x Q => P x.1 /\ Q) True d -> P (RProd d p).
Hypothesis HDir : forall d p, foldr (fun x Q => P x.1 /\ Q) True d -> P (RDir d p).
Hypothesis HDS : forall l, foldr (fun x Q => P x /\ Q) True l -> P (RDefSum l).
Hypothesis HDP : forall l, foldr (fun x Q => P x /\ Q) True l -> P (RDefProd l).
Fixpoint rep_ind' (r : rep) : P r :=
  let fd := fix fd (d : seq (rep * nat)) : foldr (fun x Q => P x.1 /\ Q) True d :=
    match d with [::] => I | (k, _) :: d' => conj (rep_ind' k) (fd d') end in
  let fl := fix fl (l : seq rep) : foldr (fun x Q => P x /\ Q) True l :=
    match l with [::] => I | k :: l' => conj (rep_ind' k) (fl l') end in
  match r with
  | RScalar => HS
  | RBase G => HB G
  | RCustom c G => HC c G
  | RDual r => HD (rep_ind' r)
  | RSum d p => HSum p (fd d)
  | RProd d p => HProd p (fd d)
  | RDir d p => HDir p (fd d)
  | RDefSum l => HDS (fl l)
  | RDefProd l => HDP (fl l)
  end.
End RepInd.

(** Structural equality. *)
Fixpoint rep_eqb (a b : rep) {struct a} : bool :=
  let deq := fix deq (d e : seq (rep * nat)) :=
    match d, e with
    | [::], [::] => true
    | (k, c) :: d', (l, c') :: e' => [&& rep_eqb k l, c == c' & deq d' e']
    | _, _ => false
    end in
  let leq := fix leq (d e : seq rep) :=
    match d, e with
    | [::], [::] => true
    | k :: d', l :: e' => rep_eqb k l && leq d' e'
    | _, _ => false
    end in
  match a, b with
  | RScalar, RScalar => true
  | RBase G, RBase H => G == H
  | RCustom c G, RCustom c' H => (c == c') && (G == H)
  | RDual r, RDual s => rep_eqb r s
  | RSum d p, RSum e q | RProd d p, RProd e q | RDir d p, RDir e q => deq d e && (p == q)
  | RDefSum l, RDefSum k | RDefProd l, RDefProd k => leq l k
  | _, _ => false
  end.
Lemma rep_eqP : Equality.axiom rep_eqb.
Proof.
move=> a b; apply: (iffP idP) => [|<-{b}].
  have HD d : foldr (fun x Q => (forall b, rep_eqb x.1 b -> x.1 = b) /\ Q) True d ->
    forall e, (fix deq (d e : seq (rep * nat)) :=
    match d, e with
    | [::], [::] => true
    | (k, c) :: d', (l, c') :: e' => [&& rep_eqb k l, c == c' & deq d' e']
    | _, _ => false
    end) d e -> d = e.
    elim: d => [|[k c] d IH] /=; first by move=> _ [].
    by move=> [Hk Hd] [//|[l c'] e] /and3P[/Hk -> /eqP -> /(IH Hd) ->].
  have HL d : foldr (fun x Q => (forall b, rep_eqb x b -> x = b) /\ Q) True d ->
    forall e, (fix leq (d e : seq rep) :=
    match d, e with
    | [::], [::] => true
    | k :: d', l :: e' => rep_eqb k l && leq d' e'
    | _, _ => false
    end) d e -> d = e.
    elim: d => [|k d IH] /=; first by move=> _ [].
    by move=> [Hk Hd] [//|l e] /andP[/Hk -> /(IH Hd) ->].
  elim/rep_ind': a b => [|G|c G|r IH|d p IH|d p IH|d p IH|l IH|l IH] [] //=.
  - by move=> H /eqP ->.
  - by move=> c' H /andP[/eqP -> /eqP ->].
  - by move=> s /IH ->.
  - by move=> e q /andP[/(HD _ IH) -> /eqP ->].
  - by move=> e q /andP[/(HD _ IH) -> /eqP ->].
  - by move=> e q /andP[/(HD _ IH) -> /eqP ->].
  - by move=> k /(HL _ IH) ->.
  - by move=> k /(HL _ IH) ->.
have HD d : foldr (fun x Q => rep_eqb x.1 x.1 /\ Q) True d ->
    (fix deq (d e : seq (rep * nat)) :=
    match d, e with
    | [::], [::] => true
    | (k, c) :: d', (l, c') :: e' => [&& rep_eqb k l, c == c' & deq d' e']
    | _, _ => false
    end) d d.
  by elim: d => [|[k c] d IH] //= [-> /IH ->]; rewrite eqxx.
have HL d : foldr (fun x Q => rep_eqb x x /\ Q) True d ->
    (fix leq (d e : seq rep) :=
    match d, e with
    | [::], [::] => true
    | k :: d', l :: e' => rep_eqb k l && leq d' e'
    | _, _ => false
    end) d d.
  by elim: d => [|k d IH] //= [-> /IH ->].
elim/rep_ind': a => [|G|c G|r IH|d p IH|d p IH|d p IH|l IH|l IH] //=.
- by rewrite !eqxx.
- by rewrite HD ?eqxx.
- by rewrite HD ?eqxx.
- by rewrite HD ?eqxx.
- exact: HL.
- exact: HL.
Qed.
Definition rep_eqMixin := EqMixin rep_eqP.
Canonical rep_eqType := EqType rep rep_eqMixin.

Definition dict := seq (rep * nat).
Definition keys (d : dict) : seq rep := [seq x.1 | x <- d].
Definition vals (d : dict) : seq nat := [seq x.2 | x <- d].
(** d.get(rep,0) *)
Definition cnt (d : dict) (r : rep) : nat := nth 0 (vals d) (index r (keys d)).
(** [rep for rep,c in d.items() for _ in range(c)] *)
Definition dexp (d : dict) : seq rep := flatten [seq nseq x.2 x.1 | x <- d].
(** {k:v for k,v in l}: a later value replaces an earlier one, in place. *)
Definition dset (d : dict) (k : rep) (v : nat) : dict :=
  if k \in keys d then [seq if x.1 == k then (k, v) else x | x <- d] else rcons d (k, v).
Definition dict_of (l : dict) : dict := foldl (fun d x => dset d x.1 x.2) [::] l.

(** itertools.product(a0, a1, ...) *)
Definition cartesian (T : Type) (ls : seq (seq T)) : seq (seq T) :=
  foldr (fun l acc => flatten [seq [seq x :: t | t <- acc] | x <- l]) [:: [::]] ls.

(** isinstance(rep,SumRep) *)
Definition is_sum (r : rep) : bool := if r is RSum _ _ then true else false.

(** The attribute G, [None] when the object has no such attribute:
    ScalarRep (representation.py:204; G=None unless called, see Heap.v), Base (238),
    Dual (269), ProductRep (product_sum_reps.py:261-263); SumRep, DirectProduct and the
    deferred representations have none. *)
Fixpoint gattr (r : rep) : option (option gid) :=
  match r with
  | RScalar => Some None
  | RBase G | RCustom _ G => Some G
  | RDual r => gattr r
  | RProd ((k, _) :: _) _ => gattr k
  | _ => None
  end.

(** rep.concrete: representation.py:125-126,232-233; product_sum_reps.py:72,286,413,433 *)
Definition concrete (r : rep) : bool :=
  match r with
  | RScalar | RSum _ _ | RProd _ _ | RDir _ _ => true
  | RDefSum _ | RDefProd _ => false
  | _ => if gattr r is Some (Some _) then true else false
  end.
(** both_concrete, product_sum_reps.py:145-146 *)
Definition both_concrete (a b : rep) : bool := concrete a && concrete b.

Section Model.
(** Group data: G.d, G.is_orthogonal; size of a user-defined representation. *)
Variables (gdim : gid -> nat) (gorth : gid -> bool) (csize : nat -> gid -> nat).
(** the order used by [sorted] *)
Variable le : rel rep.

(** rep.size() as a number (0 for non-concrete ones, where Python raises: [size_py]):
    representation.py:63-70,209,248-250,292; product_sum_reps.py:30-31,266-267 *)
Fixpoint rsize (r : rep) : nat :=
  match r with
  | RScalar => 1
  | RBase (Some g) => gdim g
  | RCustom c (Some g) => csize c g
  | RDual r => rsize r
  | RSum d _ => sumn [seq rsize x.1 * x.2 | x <- d]
  | RProd d _ | RDir d _ => prodn [seq rsize x.1 ^ x.2 | x <- d]
  | _ => 0
  end.
Fixpoint size_py (r : rep) : res nat :=
  match r with
  | RBase None => Err AssertionError
  | RCustom _ None | RDefSum _ | RDefProd _ => Err NotImplementedError
  | RDual s => size_py s
  | _ => Ok (rsize r)
  end.

(** sorted(reduce(lambda a,b: a|b, [cnter.keys() ...])) *)
Definition unique_reps (cs : seq dict) : seq rep := sort le (undup (flatten (map keys cs))).

(** ** SumRep.compute_canonical, product_sum_reps.py:109-129 *)

(** lines 118-122 *)
Fixpoint shifted (n : nat) (ps : seq (seq nat)) : seq (seq nat) :=
  match ps with [::] => [::] | p :: ps' => [seq n + x | x <- p] :: shifted (n + size p) ps' end.

(** lines 123-128: the state is, for every counter, (cnter, ids[i], shifted_perms[i]) *)
Definition sum_chunk (r : rep) (s : dict * nat * seq nat) : seq nat :=
  let: (c, i, p) := s in slice i (i + cnt c r * rsize r) p.
Definition sum_adv (r : rep) (s : dict * nat * seq nat) : dict * nat * seq nat :=
  let: (c, i, p) := s in (c, i + cnt c r * rsize r, p).
Fixpoint sum_loop (us : seq rep) (st : seq (dict * nat * seq nat)) : dict * seq nat :=
  match us with
  | [::] => ([::], [::])
  | r :: us' =>
      let: (d, p) := sum_loop us' (map (sum_adv r) st) in
      ((r, sumn [seq cnt s.1.1 r | s <- st]) :: d, flatten (map (sum_chunk r) st) ++ p)
  end.
Definition sum_canonical (cs : seq dict) (ps : seq (seq nat)) : dict * seq nat :=
  sum_loop (unique_reps cs) [seq (x.1, 0, x.2) | x <- zip cs (shifted 0 ps)].

(** ** ProductRep.compute_canonical, product_sum_reps.py:303-338 *)

(** lines 315-316 *)
Definition permute_axes (ps : seq (seq nat)) (order : nd nat) : nd nat :=
  foldl (fun o x => moveaxis 0 (take_ax0 0 (moveaxis 0 o x.1 0) x.2) 0 x.1)
        order (zip (iota 0 (size ps)) ps).
(** lines 319-326 *)
Fixpoint axis_idsi (n : nat) (c : dict) : seq (rep * seq nat) :=
  match c with [::] => [::] | (r, k) :: c' => (r, iota n k) :: axis_idsi (n + k) c' end.
Fixpoint axis_ids (n : nat) (cs : seq dict) : seq (seq (rep * seq nat)) :=
  match cs with
  | [::] => [::]
  | c :: cs' => axis_idsi n c :: axis_ids (n + sumn (vals c)) cs'
  end.
Definition aget (a : seq (rep * seq nat)) (r : rep) : seq nat :=
  nth [::] [seq x.2 | x <- a] (index r [seq x.1 | x <- a]).
(** lines 327-334 (np.concatenate) *)
Definition axes_perm (us : seq rep) (cs : seq dict) : seq nat :=
  flatten [seq flatten [seq aget a r | a <- axis_ids 0 cs] | r <- us].
Definition prod_canonical (cs : seq dict) (ps : seq (seq nat)) : res (dict * seq nat) :=
  let s := map size ps in
  let us := unique_reps cs in
  let order := permute_axes ps (ND s (arange (prodn s))) in
  do order' <- reshape [seq rsize r | r <- flatten (map dexp cs)] order;
  let final := np_transpose 0 order' (axes_perm us cs) in
  Ok ([seq (r, sumn [seq cnt c r | c <- cs]) | r <- us], dat final).

(** ** Constructors *)

(** SumRepFromCollection(counter,perm), product_sum_reps.py:168-174 *)
Definition sum_coll (d : dict) (perm : option (seq nat)) : rep :=
  let p := if perm is Some p then p else arange (sumn [seq rsize x.1 * x.2 | x <- d]) in
  let: (d', p') := sum_canonical [:: d] [:: p] in RSum d' p'.

(** extra_perm[perm] if extra_perm is not None else perm *)
Definition with_extra (extra : option (seq nat)) (perm : seq nat) : seq nat :=
  if extra is Some e then gather 0 e perm else perm.

(** lines 261-263: exactly one group among the factors *)
Definition one_group (d : dict) : res unit :=
  if has (fun x => ~~ isSome (gattr x.1)) d then Err AttributeError
  else if size (undup [seq gattr x.1 | x <- d]) == 1 then Ok tt else Err AssertionError.

(** ProductRep(counter=...,extra_perm=...), product_sum_reps.py:247-249,259-264 *)
Definition prod_coll (d : dict) (extra : option (seq nat)) : res rep :=
  let p := if extra is Some e then e else arange (prodn [seq rsize x.1 ^ x.2 | x <- d]) in
  do dp <- prod_canonical [:: d] [:: p];
  do _ <- one_group dp.1;
  Ok (RProd dp.1 dp.2).

(** DirectProduct(counter=...,extra_perm=...), product_sum_reps.py:349-352,367-372 *)
Definition dir_coll (d : dict) (extra : option (seq nat)) : res rep :=
  do dp <- prod_canonical [:: d] [:: arange (prodn [seq rsize x.1 ^ x.2 | x <- d])];
  if all (fun x => x.2 == 1) dp.1 then Ok (RDir dp.1 (with_extra extra dp.2))
  else Err AssertionError.

(** rep.canonicalize(): representation.py:72-78; product_sum_reps.py:63-66,298-301 *)
Definition canonicalize (r : rep) : res (rep * seq nat) :=
  match r with
  | RSum d p => Ok (sum_coll d None, p)
  | RProd d p => do c <- prod_coll d None; Ok (c, p)
  | RDir d p => do c <- dir_coll d None; Ok (c, p)
  | _ => do n <- size_py r; Ok (r, arange n)
  end.

(** rep.reps if isinstance(rep,SumRep) else {rep:1}, line 21 *)
Definition sum_counter (r : rep) : dict := if r is RSum d _ then d else [:: (r, 1)].
(** rep.reps if type(rep)==ProductRep else {rep:1}, line 253 *)
Definition prod_counter (r : rep) : dict := if r is RProd d _ then d else [:: (r, 1)].
(** rep.reps if type(rep)==DirectProduct else {rep:1}, line 356 *)
Definition dir_counter (r : rep) : dict := if r is RDir d _ then d else [:: (r, 1)].

(** SumRep( *reps,extra_perm), product_sum_reps.py:14-28; the integer arguments of
    line 18 are dealt with by [mul_int] and [add_int].  No arguments: zip( *[]) cannot
    be unpacked (ValueError). *)
Definition sum_rep (rs : seq rep) (extra : option (seq nat)) : res rep :=
  do cps <- mapM canonicalize rs;
  if nilp cps then Err ValueError else
  let: (d, p) := sum_canonical [seq sum_counter x.1 | x <- cps] [seq x.2 | x <- cps] in
  Ok (RSum d (with_extra extra p)).

(** ProductRep( *reps,extra_perm), product_sum_reps.py:250-264 *)
Definition prod_rep (rs : seq rep) (extra : option (seq nat)) : res rep :=
  do cps <- mapM canonicalize rs;
  if nilp cps then Err ValueError else
  do dp <- prod_canonical [seq prod_counter x.1 | x <- cps] [seq x.2 | x <- cps];
  do _ <- one_group dp.1;
  Ok (RProd dp.1 (with_extra extra dp.2)).

(** __hash__ of a product asserts self.canonical, which is perm==invperm
    (product_sum_reps.py:260,279-281); a SumRep asserts that perm is the identity (46-48). *)
Definition hashable (r : rep) : bool :=
  match r with
  | RSum d p => p == arange (size p)
  | RProd d p | RDir d p => p == argsort p
  | _ => true
  end.

(** group_dict[rep.G]=group_dict[rep.G]*rep**c (lines 360-362), starting from the
    integer 1.  All operands have the group rep.G, are concrete and are neither
    sums nor Scalar, so that every * is ProductRep(a,b) (mul_reps, 155-161). *)
Definition opt_mul (a : option rep) (b : rep) : res rep :=
  if a is Some a' then prod_rep [:: a'; b] None else Ok b.
Fixpoint pow_prod (r : rep) (c : nat) : res rep :=
  match c with
  | 0 => Ok RScalar
  | 1 => Ok r
  | c'.+1 => do a <- pow_prod r c'; prod_rep [:: a; r] None
  end.
Definition gd_get (gd : seq (option gid * rep)) (G : option gid) : option rep :=
  if has (fun x => x.1 == G) gd then Some (nth RScalar (map snd gd) (index G (map fst gd))) else None.
Definition gd_set (gd : seq (option gid * rep)) (G : option gid) (r : rep) :=
  if has (fun x => x.1 == G) gd then [seq if x.1 == G then (G, r) else x | x <- gd]
  else rcons gd (G, r).
Definition group_step (gd : seq (option gid * rep)) (x : rep * nat) : res (seq (option gid * rep)) :=
  match gattr x.1 with
  | None => Err AttributeError
  | Some G =>
      do q <- pow_prod x.1 x.2;
      do r <- opt_mul (gd_get gd G) q;
      Ok (gd_set gd G r)
  end.

(** DirectProduct( *reps,extra_perm), product_sum_reps.py:353-372 *)
Definition dir_rep (rs : seq rep) (extra : option (seq nat)) : res rep :=
  do cps <- mapM canonicalize rs;
  if nilp cps then Err ValueError else
  do dp <- prod_canonical [seq dir_counter x.1 | x <- cps] [seq x.2 | x <- cps];
  do gd <- foldM group_step [::] dp.1;
  if ~~ all (fun x => hashable x.2) gd then Err AssertionError else
  let sub := dict_of [seq (x.2, 1) | x <- gd] in
  do dp2 <- prod_canonical [:: sub] [:: arange (prodn [seq rsize x.1 ^ x.2 | x <- sub])];
  if all (fun x => x.2 == 1) dp2.1
  then Ok (RDir dp2.1 (with_extra extra (gather 0 dp.2 dp2.2)))
  else Err AssertionError.

(** DeferredSumRep / DeferredProductRep, product_sum_reps.py:396-400,417-421 *)
Definition defsum (rs : seq rep) : rep :=
  RDefSum (flatten [seq if r is RDefSum l then l else [:: r] | r <- rs]).
Definition defprod (rs : seq rep) : res rep :=
  if has (fun r => match r with RProd _ _ | RDir _ _ => true | _ => false end) rs
  then Err AssertionError
  else Ok (RDefProd (flatten [seq if r is RDefProd l then l else [:: r] | r <- rs])).

(** mul_reps, base case, product_sum_reps.py:154-162 *)
Definition mul_base (a b : rep) : res rep :=
  match a, b with
  | RScalar, _ => Ok b
  | _, RScalar => Ok a
  | _, _ =>
      if ~~ both_concrete a b then defprod [:: a; b] else
      match gattr a, gattr b with
      | Some G, Some H => if G == H then prod_rep [:: a; b] None else dir_rep [:: a; b] None
      | _, _ => dir_rep [:: a; b] None
      end
  end.

(** Python integers that stand for representations: the value of 0*rep is the
    integer 0. *)
Inductive val : Type := VInt (z : int) | VRep (r : rep).

(** mul_reps(rep,int), representation.py:186-193; a negative integer gives an
    empty argument list. *)
Definition mul_int (a : rep) (z : int) : res val :=
  match z with
  | Posz 1 => Ok (VRep a)
  | Posz 0 => Ok (VInt 0)
  | Posz n => if concrete a then rmap VRep (sum_rep (nseq n a) None)
              else Ok (VRep (defsum (nseq n a)))
  | Negz _ => if concrete a then Err ValueError else Ok (VRep (defsum [::]))
  end.

(** ** distribute_product, product_sum_reps.py:178-225 *)

(** lines 188-191 *)
Definition dist_order (ps : seq (seq nat)) : seq nat :=
  let s := map size ps in
  dat (foldl (fun o x => swapaxes 0 (take_ax0 0 (swapaxes 0 o 0 x.1) x.2) 0 x.1)
             (ND s (arange (prodn s))) (zip (iota 0 (size ps)) ps)).

(** rep_permutation, product_sum_reps.py:228-242 *)
Definition starts (szs : seq nat) : seq nat := 0 :: cumsum_from 0 szs.
Definition in_slices (lo hi idx : seq nat) : bool :=
  all (fun x => (x.1.1 <= x.2) && (x.2 < x.1.2)) (zip (zip lo hi) idx).
Definition rp_step (szs : seq (seq nat)) (st : nd nat * nat) (ind : seq nat) : nd nat * nat :=
  let: (a, i) := st in
  let lo := [seq nth 0 (starts x.2) x.1 | x <- zip ind szs] in
  let hi := [seq nth 0 (starts x.2) x.1.+1 | x <- zip ind szs] in
  let lens := [seq x.2 - x.1 | x <- zip lo hi] in
  (nd_init (dims a) (fun idx => get 0 a idx +
       if in_slices lo hi idx then i + ravel lens [seq x.1 - x.2 | x <- zip idx lo] else 0),
   i + prodn lens).
Definition rep_permutation (szs : seq (seq nat)) : seq nat :=
  let s := map sumn szs in
  let: (a, _) := foldl (rp_step szs) (ND s (nseq (prodn s) 0), 0)
                       (cartesian [seq iota 0 (size x) | x <- szs]) in
  argsort (dat a).

(** reduce(lambda a,b: a*b, rs) on non-sum representations, line 209 *)
Definition reduce_mul (mul : rep -> rep -> res rep) (rs : seq rep) : res rep :=
  if rs is r :: rs' then foldM mul r rs' else Err TypeError.

(** lines 206-218: one iteration, given the items of the product; the result is
    prod_rep and mul_perm[canonicalizing_perm] *)
Definition dist_item (prod : seq (rep * nat)) : res (rep * seq nat) :=
  do r <- reduce_mul mul_base (map fst prod);
  do v <- mul_int r (Posz (prodn (map snd prod)));
  match v with
  | VInt _ => Err AttributeError
  | VRep r' =>
      do cp <- canonicalize r';
      let shape := flatten [seq [:: x.2; rsize x.1] | x <- prod] in
      let k := size prod in
      let axis_perm := [seq 2 * i | i <- iota 0 k] ++ [seq (2 * i).+1 | i <- iota 0 k] in
      do a <- reshape shape (ND [:: size cp.2] (arange (size cp.2)));
      Ok (cp.1, gather 0 (dat (np_transpose 0 a axis_perm)) cp.2)
  end.
Fixpoint dist_cat (i : nat) (l : seq (rep * seq nat)) : seq nat :=
  match l with [::] => [::] | x :: l' => [seq i + t | t <- x.2] ++ dist_cat (i + size x.2) l' end.

Definition distribute_product (rs : seq rep) (extra : option (seq nat)) : res rep :=
  do cps <- mapM canonicalize rs;
  let perms := map snd cps in
  let ds := [seq (if x.1 is RSum d _ then d
                  else if sum_coll [:: (x.1, 1)] None is RSum d _ then d else [::]) | x <- cps] in
  let order := dist_order perms in
  let szs := [seq [seq x.2 * rsize x.1 | x <- d] | d <- ds] in
  let block_perm := rep_permutation szs in
  do items <- mapM dist_item (cartesian ds);
  let each_perm := dist_cat 0 items in
  let total := gather 0 order (gather 0 block_perm each_perm) in
  sum_rep (map fst items) (Some (with_extra extra total)).

(** ** Operators *)

(** mul_reps for two representations (plum dispatch: product_sum_reps.py:148-162);
    ScalarRep.__mul__ (representation.py:225-227) returns the other operand before dispatch. *)
Definition mul (a b : rep) : res rep :=
  if a is RScalar then Ok b else
  if is_sum a || is_sum b then
    (if both_concrete a b then distribute_product [:: a; b] None else defprod [:: a; b])
  else mul_base a b.

(** a+b for two representations, representation.py:131-139 *)
Definition add (a b : rep) : res rep :=
  if both_concrete a b then sum_rep [:: a; b] None else Ok (defsum [:: a; b]).

(** a**n, representation.py:154-158 *)
Definition pow (a : rep) (n : nat) : res rep := foldM mul RScalar (nseq n a).

(** a.T: representation.py:179-183,214-216,282-284; product_sum_reps.py:50-53,289-292,409-411,429-431 *)
Definition t_atom (r : rep) : rep :=
  match gattr r with
  | Some (Some g) => if gorth g then r else RDual r
  | _ => RDual r
  end.
Fixpoint tr (r : rep) : res rep :=
  let trs := fix trs (d : seq (rep * nat)) : res (seq rep) :=
    match d with
    | [::] => Ok [::]
    | (k, c) :: d' => do k' <- tr k; do l <- trs d'; Ok (nseq c k' ++ l)
    end in
  let trl := fix trl (l : seq rep) : res (seq rep) :=
    match l with [::] => Ok [::] | k :: l' => do k' <- tr k; do l'' <- trl l'; Ok (k' :: l'') end in
  match r with
  | RScalar => Ok RScalar
  | RBase _ | RCustom _ _ => Ok (t_atom r)
  | RDual s => Ok s
  | RSum d p => do l <- trs d; sum_rep l (Some p)
  | RProd d p => do l <- trs d; prod_rep l (Some p)
  | RDir d p => do l <- trs d; dir_rep l (Some p)
  | RDefSum l => do l' <- trl l; Ok (defsum l')
  | RDefProd l => do l' <- trl l; defprod l'
  end.

(** a>>b and a<<b, representation.py:159-164 *)
Definition rshift (a b : rep) : res rep := do t <- tr a; mul b t.
Definition lshift (a b : rep) : res rep := do t <- tr b; mul a t.

(** ** Operators on values (integers allowed), Python's + and * *)
(** self+int, representation.py:133-135,141-145; n*Scalar is [mul_int] *)
Definition add_val (x y : val) : res val :=
  match x, y with
  | VInt m, VInt n => Ok (VInt (m + n)%R)
  | VRep a, VRep b => rmap VRep (add a b)
  | VRep a, VInt z =>
      if z == 0%R then Ok (VRep a) else
      do s <- mul_int RScalar z;
      if s is VRep s' then rmap VRep (add a s') else Err TypeError
  | VInt z, VRep a =>
      if z == 0%R then Ok (VRep a) else
      do s <- mul_int RScalar z;
      if s is VRep s' then rmap VRep (add s' a) else Err TypeError
  end.
Definition mul_val (x y : val) : res val :=
  match x, y with
  | VInt m, VInt n => Ok (VInt (m * n)%R)
  | VRep a, VRep b => rmap VRep (mul a b)
  | VRep a, VInt z | VInt z, VRep a => mul_int a z
  end.

(** rep(G): representation.py:45-47,206-208,240-241,271-272; product_sum_reps.py:68-69,
    402-404,422-424.  ScalarRep also stores G (see Heap.v).  A user-defined
    representation is assumed to return the same class for G.  A deferred
    representation called with None returns itself. *)
Fixpoint call (r : rep) (G : option gid) : res rep :=
  let calld := fix calld (d : seq (rep * nat)) : res (seq (rep * nat)) :=
    match d with
    | [::] => Ok [::]
    | (k, c) :: d' => do k' <- call k G; do l <- calld d'; Ok ((k', c) :: l)
    end in
  let calll := fix calll (l : seq rep) : res (seq rep) :=
    match l with [::] => Ok [::] | k :: l' => do k' <- call k G; do l'' <- calll l'; Ok (k' :: l'') end in
  match r with
  | RScalar => Ok RScalar
  | RBase _ => Ok (RBase G)
  | RCustom c _ => Ok (RCustom c G)
  | RDual s => do s' <- call s G; tr s'
  | RSum d p => do l <- calld d; Ok (sum_coll (dict_of l) (Some p))
  | RProd _ _ | RDir _ _ => Err NotImplementedError
  | RDefSum l =>
      if G is None then Ok r else do l' <- calll l; sum_rep l' None
  | RDefProd l =>
      if G is None then Ok r else do l' <- calll l; reduce_mul mul l'
  end.

(** T(p,q,G), representation.py:299-302 *)
Definition tensor_T (p q : nat) (G : option gid) : res rep :=
  do a <- pow (RBase None) p;
  do v <- tr (RBase None);
  do b <- pow v q;
  do c <- mul a b;
  call c G.

(** is_permutation: representation.py:34,205,239,270; product_sum_reps.py:28,174,264,371.
    [gperm] is G.is_permutation; a user-defined class has the flag [cperm c]. *)
Variables (gperm : gid -> bool) (cperm : nat -> bool).
Fixpoint isperm (r : rep) : bool :=
  match r with
  | RScalar => true
  | RBase (Some g) => gperm g
  | RBase None => false
  | RCustom c _ => cperm c
  | RDual r => isperm r
  | RSum d _ | RProd d _ | RDir d _ => all (fun x => isperm x.1) d
  | RDefSum _ | RDefProd _ => false
  end.
End Model.

(** ** rho and drho *)
Section Rho.
Variable R : comRingType.
Variables (conj sinv : R -> R) (linv : nat -> seq R -> seq R).

(** A group element as passed to rho: a matrix, or a dictionary from groups to
    matrices. *)
Inductive gel : Type := GMat (M : op R) | GDict (f : gid -> option (op R)).

(** if hasattr(self,'G') and isinstance(M,dict): M=M[self.G] *)
Definition glook (M : gel) (G : option gid) : res (op R) :=
  match M with
  | GMat A => Ok A
  | GDict f => if G is Some g then (if f g is Some A then Ok A else Err KeyError) else Err KeyError
  end.

(** user-defined representations *)
Variables (crho cdrho : nat -> option gid -> gel -> res (op R)).

(** rho.invT() if isinstance(rho,LinearOperator) else jnp.linalg.inv(rho).T,
    representation.py:275 *)
Definition inv_transpose (A : op R) : res (op R) :=
  if A is OArr m n D then
    (if m == n then Ok (OArr n n (tr2 0%R n n (linv n D))) else Err ValueError)
  else invT sinv linv A.

(** LazyPerm(invperm)@A@LazyPerm(perm) *)
Definition conjp (p : seq nat) (A : op R) : res (op R) :=
  do B <- mkProd (OPerm R (argsort p)) A;
  mkProd B (OPerm R p).

(** rep.rho(M): representation.py:217-218,242-244,273-276; product_sum_reps.py:33-36,
    269-272,382-384 *)
Fixpoint rho (r : rep) (M : gel) {struct r} : res (op R) :=
  let rhos := fix rhos (M : gel) (d : seq (rep * nat)) : res (seq (op R)) :=
    match d with [::] => Ok [::] | (k, _) :: d' => do A <- rho k M; do l <- rhos M d'; Ok (A :: l) end in
  (* [rep.rho(Ms) for rep,c in reps.items() for _ in range(c)]: the value is
     computed once per copy in Python, the copies are equal *)
  let rhosc := fix rhosc (M : gel) (d : seq (rep * nat)) : res (seq (op R)) :=
    match d with
    | [::] => Ok [::]
    | (k, c) :: d' =>
        do As <- (if c is 0 then Ok [::] else do A <- rho k M; Ok (nseq c A));
        do l <- rhosc M d'; Ok (As ++ l)
    end in
  match r with
  | RScalar => Ok (OArr 1 1 (eye R 1))
  | RBase G => glook M G
  | RCustom c G => crho c G M
  | RDual s => do A <- rho s M; inv_transpose A
  | RSum d p =>
      do As <- rhos M d;
      do D <- mkDsum As (Some (vals d));
      conjp p D
  | RProd d p =>
      do M' <- (if gattr r is Some G then glook M G else Err AttributeError);
      do As <- rhosc (GMat M') d;
      do K <- mkKron As;
      conjp p K
  | RDir d p =>
      do As <- rhosc M d;
      do K <- mkKron As;
      conjp p K
  | RDefSum _ | RDefProd _ => Err NotImplementedError
  end.

(** rep.drho(A): representation.py:219-220,245-247,277-278; product_sum_reps.py:38-41,
    274-277,386-388 *)
Fixpoint drho (r : rep) (M : gel) {struct r} : res (op R) :=
  let rhos := fix rhos (M : gel) (d : seq (rep * nat)) : res (seq (op R)) :=
    match d with [::] => Ok [::] | (k, _) :: d' => do A <- drho k M; do l <- rhos M d'; Ok (A :: l) end in
  let rhosc := fix rhosc (M : gel) (d : seq (rep * nat)) : res (seq (op R)) :=
    match d with
    | [::] => Ok [::]
    | (k, c) :: d' =>
        do As <- (if c is 0 then Ok [::] else do A <- drho k M; Ok (nseq c A));
        do l <- rhosc M d'; Ok (As ++ l)
    end in
  match r with
  | RScalar => Ok (OArr 1 1 [:: 0%R])
  | RBase G => glook M G
  | RCustom c G => cdrho c G M
  | RDual s => do A <- drho s M; Ok (neg (transpose A))
  | RSum d p =>
      do As <- rhos M d;
      do D <- mkDsum As (Some (vals d));
      conjp p D
  | RProd d p =>
      do M' <- (if gattr r is Some G then glook M G else Err AttributeError);
      do As <- rhosc (GMat M') d;
      do K <- mkKronsum As;
      conjp p K
  | RDir d p =>
      do As <- rhosc M d;
      do K <- mkKronsum As;
      conjp p K
  | RDefSum _ | RDefProd _ => Err NotImplementedError
  end.

(** rep.rho_dense(M), rep.drho_dense(A): densify(self.rho(M)), representation.py:80-85;
    the result is (rows, columns, data) *)
Definition rho_dense (r : rep) (M : gel) : res (darr R) := do A <- rho r M; to_dense conj A.
Definition drho_dense (r : rep) (M : gel) : res (darr R) := do A <- drho r M; to_dense conj A.
End Rho.
