(** * Groups: emlp/groups.py.

    Simplifications, once for the file: exact arithmetic in a commutative ring R; the
    dtype of an array is ignored except where a complex array is stored into a real one
    (Embed), which keeps the real part, [re]; [im] is 1j, [recip n] is 1/n, [cosk k] and
    [sink k] are np.cos(2*np.pi/k) and np.sin(2*np.pi/k); [close A B] is
    rel_err(A,B)<1e-6 (lines 10-11), defined over ordered fields in GroupsNum.v.
    The class attributes of Group (lines 16-21) that a subclass does not set
    (NotImplemented, None) are [None]. *)
From Coq Require Import String DecimalString.
From mathcomp Require Import all_ssreflect all_algebra.
From Verif Require Import Np LinOp.
Set Implicit Arguments.
Unset Strict Implicit.
Unset Printing Implicit Defensive.
Import GRing.Theory.
Local Open Scope ring_scope.

(** repr of an int; repr of a group, lines 86-90: the class name and the arguments *)
Definition show (n : nat) : string := NilZero.string_of_uint (Nat.to_uint n).
Definition cat (s t : string) : string := String.append s t.
Definition grepr (cls : string) (args : seq string) : string :=
  if nilp args then cls else cat cls (cat "(" (cat (foldr cat ""%string args) ")")).

(** slice(start,stop,step) and its indices on an axis of length d (Python's slice.indices
    and range) *)
Record pyslice := Slice { s_start : option int; s_stop : option int; s_step : option int }.
Definition s_upto (n : nat) : pyslice := Slice None (Some (Posz n)) None.
Definition s_from (n : nat) : pyslice := Slice (Some (Posz n)) None None.
Definition s_all : pyslice := Slice None None None.
Definition clip (d : nat) (lo up x : int) : int :=
  if x < 0 then Num.max (x + Posz d) lo else Num.min x up.
Definition pyrange (a b st : int) : seq int :=
  let len := if 0 < st then (if a < b then absz (((b - a - 1) %/ st)%Z + 1) else 0%N)
             else (if b < a then absz (((a - b - 1) %/ (- st))%Z + 1) else 0%N) in
  mkseq (fun k => a + Posz k * st) len.
Definition slice_ix (d : nat) (s : pyslice) : res (seq nat) :=
  let st := odflt 1 (s_step s) in
  if st == 0 then Err ValueError else
  let: (lo, up) := if 0 < st then (0, Posz d) else (-1, Posz d - 1) in
  let a := if s_start s is Some x then clip d lo up x else (if 0 < st then lo else up) in
  let b := if s_stop s is Some x then clip d lo up x else (if 0 < st then up else lo) in
  Ok (map absz (pyrange a b st)).

Section Groups.
Variable R : comRingType.
Variable conj : R -> R.
Variables (re : R -> R) (im : R) (recip : nat -> R) (cosk sink : nat -> R).
Variable close : seq R -> seq R -> bool.

(** ** arrays *)
(** np.zeros(s) *)
Definition zeros (s : seq nat) : nd R := ND s (nseq (prodn s) 0).
(** a[i0,i1,...] = x *)
Definition put (a : nd R) (i : seq nat) (x : R) : res (nd R) :=
  if valid (dims a) i then Ok (ND (dims a) (set_nth 0 (dat a) (ravel (dims a) i) x)) else Err IndexError.
(** a[I0,I1,I2] = b for slices with index lists I: b is broadcast to the shape of the target *)
Definition bcast1 (n m : nat) : bool := (m == n) || (m == 1%N).
Definition put_block (a : nd R) (I : seq (seq nat)) (b : nd R) : res (nd R) :=
  if (size (dims b) == size I) && all (fun x => bcast1 x.1 x.2) (zip (map size I) (dims b)) then
    Ok (nd_init (dims a) (fun i =>
      if all (fun x => x.1 \in x.2) (zip i I) then
        get 0 b [seq if x.2 == 1%N then 0%N else index x.1.1 x.1.2 | x <- zip (zip i I) (dims b)]
      else get 0 a i))
  else Err ValueError.
(** np.eye(n)[None] *)
Definition eye1 (n : nat) : nd R := ND [:: 1; n; n]%N (eye R n).

(** for x in l: body *)
Definition for_ (S T : Type) (l : seq T) (s : S) (body : S -> T -> res S) : res S := foldM body s l.

(** ** the base class *)
(** lie_algebra and discrete_generators: a three-dimensional array or a list of operators *)
Inductive garr : Type := GArr (a : nd R) | GOps (l : seq (op R)).
Definition glen (x : garr) : nat := match x with GArr a => head 0%N (dims a) | GOps l => size l end.
(** the elements, in the order in which a for loop yields them *)
Definition gitems (x : garr) : seq (op R) :=
  match x with
  | GArr a => let m := nth 0%N (dims a) 1 in let n := nth 0%N (dims a) 2 in
      mkseq (fun k => OArr m n (slice (k * (m * n)) (k.+1 * (m * n)) (dat a))) (head 0%N (dims a))
  | GOps l => l
  end.
(** x.shape: a list has none *)
Definition gshape (x : garr) : res (seq nat) := if x is GArr a then Ok (dims a) else Err AttributeError.

(** the attributes set before Group.__init__ runs *)
Record attrs := Attrs {
  a_d : option nat; a_lie : option garr; a_gens : option garr;
  a_orth : option bool; a_perm : option bool; a_zscale : option (seq R) }.
(** a constructed group.  [g_d]: None when d is still NotImplemented; [g_perm]: None and
    False are not distinguished. *)
Record group := Grp {
  g_repr : string; g_d : option nat; g_lie : garr; g_gens : garr;
  g_orth : bool; g_perm : bool; g_zscale : option (seq R) }.

(** Ai@jnp.eye(self.d) for Ai in l *)
Definition dense_items (d : nat) (l : seq (op R)) : res (seq (seq R)) := mapM (fun A => matmat conj A d (eye R d)) l.
(** self.lie_algebra[0].shape[-1] *)
Definition last_dim (x : garr) : nat := if gitems x is A :: _ then cols A else 0%N.

(** lines 24-28 *)
Definition init_d (a : attrs) : option nat :=
  if a_d a is Some d then Some d else
  let from x o := if x is Some y then (if glen y != 0%N then Some (last_dim y) else o) else o in
  from (a_gens a) (from (a_lie a) None).
(** lines 30-33: np.zeros of a shape containing NotImplemented raises TypeError *)
Definition or_zeros (d : option nat) (x : option garr) : res garr :=
  if x is Some y then Ok y else if d is Some n then Ok (GArr (zeros [:: 0; n; n]%N)) else Err TypeError.
(** self.d where a number is needed: jnp.eye(NotImplemented) raises TypeError *)
Definition need (d : option nat) : res nat := if d is Some n then Ok n else Err TypeError.
(** lines 43-45: rel_err(-A_dense.transpose((0,2,1)),A_dense)<1e-6 *)
Definition check_skew (d : option nat) (lie : garr) : res bool :=
  if glen lie == 0%N then Ok true else
  do n <- need d; do As <- dense_items n (gitems lie);
  Ok (close (flatten [seq map -%R (tr2 0 n n A) | A <- As]) (flatten As)).
(** lines 46-48: rel_err(h_dense.transpose((0,2,1))@h_dense,jnp.eye(self.d))<1e-6, the
    identity broadcast *)
Definition check_orth (d : option nat) (gens : garr) : res bool :=
  if glen gens == 0%N then Ok true else
  do n <- need d; do hs <- dense_items n (gitems gens);
  Ok (close (flatten [seq matmul n n n (tr2 0 n n h) h | h <- hs]) (flatten [seq eye R n | h <- hs])).
(** lines 54-56: ((h_dense==1).astype(int).sum(-1)==1).all() *)
Definition check_ones (d : option nat) (gens : garr) : res bool :=
  if glen gens == 0%N then Ok true else
  do n <- need d; do hs <- dense_items n (gitems gens);
  Ok (all (fun h => all (fun i => count (pred1 1) (srows n i i.+1 h) == 1%N) (iota 0 n)) hs).

(** Group.__init__, lines 22-56 *)
Definition group_init (repr : string) (a : attrs) : res group :=
  let d := init_d a in
  do lie <- or_zeros d (a_lie a);
  do gens <- or_zeros d (a_gens a);
  do orth <-
    (if a_perm a == Some true then Ok true else
     if a_orth a is Some b then Ok b else
     do b1 <- check_skew d lie; do b2 <- check_orth d gens; Ok (b1 && b2));
  do perm <-
    (if orth && ~~ isSome (a_perm a) then do b <- check_ones d gens; Ok ((glen lie == 0%N) && b)
     else Ok (odflt false (a_perm a)));
  Ok (Grp repr d lie gens orth perm (a_zscale a)).

Definition with_lie (x : garr) : attrs := Attrs None (Some x) None None None None.
Definition with_gens (x : garr) : attrs := Attrs None None (Some x) None None None.
Definition with_both (x y : garr) : attrs := Attrs None (Some x) (Some y) None None None.

(** ** the groups *)
(** Trivial.__init__, lines 137-139 *)
Definition g_trivial (n : nat) : res group :=
  group_init (grepr "Trivial" [:: show n]) (Attrs (Some n) None None None None None).

(** SO.__init__, lines 144-152 *)
Definition so_lie (n : nat) : res (nd R) :=
  rmap fst (for_ (iota 0 n) (zeros [:: (n * (n - 1)) %/ 2; n; n]%N, 0%N) (fun s i =>
    for_ (iota 0 i) s (fun s j =>
      let: (a, k) := s in
      do a <- put a [:: k; i; j] 1;
      do a <- put a [:: k; j; i] (-1);
      Ok (a, k.+1)))).
Definition g_so (n : nat) : res group :=
  do a <- so_lie n; group_init (grepr "SO" [:: show n]) (with_lie (GArr a)).

(** O.__init__, lines 157-160 *)
Definition g_o (n : nat) : res group :=
  do h <- put (eye1 n) [:: 0; 0; 0]%N (-1);
  do a <- so_lie n;
  group_init (grepr "O" [:: show n]) (with_both (GArr a) (GArr h)).

(** C.__init__, lines 165-169; 2*np.pi/k raises for k=0 *)
Definition c_gens (k : nat) : nd R := ND [:: 1; 2; 2]%N [:: cosk k; sink k; - sink k; cosk k].
Definition g_c (k : nat) : res group :=
  if k == 0%N then Err ZeroDivisionError else
  group_init (grepr "C" [:: show k]) (with_gens (GArr (c_gens k))).
(** D.__init__, lines 173-175: the reflection is added after Group.__init__ has run *)
Definition d_gens (a : nd R) : nd R := ND [:: (head 0 (dims a)).+1; 2; 2]%N (dat a ++ [:: -1; 0; 0; 1]).
Definition g_dihedral (k : nat) : res group :=
  if k == 0%N then Err ZeroDivisionError else
  do G <- group_init (grepr "D" [:: show k]) (with_gens (GArr (c_gens k)));
  if g_gens G is GArr a then
    Ok (Grp (g_repr G) (g_d G) (g_lie G) (GArr (d_gens a)) (g_orth G) (g_perm G) (g_zscale G))
  else Err TypeError.

(** Scaling.__init__, lines 179-181 *)
Definition g_scaling (n : nat) : res group :=
  group_init (grepr "Scaling" [:: show n]) (with_lie (GArr (eye1 n))).

(** -np.eye(n)[None] *)
Definition neye1 (n : nat) : nd R := ND [:: 1; n; n]%N (map -%R (eye R n)).
(** Parity and TimeReversal, lines 183-189 *)
Definition g_parity : res group :=
  do h <- put (neye1 4) [:: 0; 0; 0]%N 1; group_init "Parity" (with_gens (GArr h)).
Definition g_time : res group :=
  do h <- put (eye1 4) [:: 0; 0; 0]%N (-1); group_init "TimeReversal" (with_gens (GArr h)).

(** SO13p.lie_algebra, lines 194-197 *)
Definition so13_lie : res (nd R) :=
  do a <- so_lie 3;
  do b <- put_block (zeros [:: 6; 4; 4]%N) [:: iota 3 3; iota 1 3; iota 1 3] a;
  for_ (iota 0 3) b (fun b i =>
    do b <- put b [:: i; i.+1; 0%N] 1; put b [:: i; 0%N; i.+1] 1).
(** z_scale, line 201: three tenths and one *)
Definition so13_z : seq R := let x := 3%:R * recip 10 in [:: x; x; x; 1; 1; 1].
Definition g_so13p : res group :=
  do a <- so13_lie; group_init "SO13p" (Attrs None (Some (GArr a)) None None None (Some so13_z)).
Definition g_so13 : res group :=
  do a <- so13_lie;
  group_init "SO13" (Attrs None (Some (GArr a)) (Some (GArr (neye1 4))) None None (Some so13_z)).
(** np.eye(n)[None]+np.zeros((2,1,1)), the first negated, the second with one entry
    negated: lines 210-212, 224-226 *)
Definition two_gens (n : nat) : res (nd R) :=
  put (ND [:: 2; n; n]%N (map -%R (eye R n) ++ eye R n)) [:: 1; 0; 0]%N (-1).
Definition g_o13_as (cls : string) : res group :=
  do a <- so13_lie; do h <- two_gens 4;
  group_init cls (Attrs None (Some (GArr a)) (Some (GArr h)) None None (Some so13_z)).
Definition g_o13 : res group := g_o13_as "O13".
Definition g_lorentz : res group := g_o13_as "Lorentz".

(** SO11p and O11, lines 217-226 *)
Definition so11_lie : nd R := ND [:: 1; 2; 2]%N [:: 0; 1; 1; 0].
Definition g_so11p : res group := group_init "SO11p" (with_lie (GArr so11_lie)).
Definition g_o11 : res group :=
  do h <- two_gens 2; group_init "O11" (with_both (GArr so11_lie) (GArr h)).

(** Sp.__init__, lines 232-248 *)
Definition sp_lie (m : nat) : res (nd R) :=
  do s <- for_ (iota 0 m) (zeros [:: m * (2 * m + 1); 2 * m; 2 * m]%N, 0%N) (fun s i =>
    for_ (iota 0 m) s (fun s j =>
      let: (a, k) := s in
      do a <- put a [:: k; i; j] 1;
      do a <- put a [:: k; (m + j)%N; (m + i)%N] (-1);
      Ok (a, k.+1)));
  rmap fst (for_ (iota 0 m) s (fun s i =>
    for_ (iota 0 i.+1) s (fun s j =>
      let: (a, k) := s in
      do a <- put a [:: k; (m + i)%N; j] 1;
      do a <- put a [:: k; (m + j)%N; i] 1;
      let k := k.+1 in
      do a <- put a [:: k; i; (m + j)%N] 1;
      do a <- put a [:: k; j; (m + i)%N] 1;
      Ok (a, k.+1)))).
Definition g_sp (m : nat) : res group :=
  do a <- sp_lie m; group_init (grepr "Sp" [:: show m]) (with_lie (GArr a)).

(** Z.__init__, lines 254-256 *)
Definition g_z (n : nat) : res group :=
  group_init (grepr "Z" [:: show n]) (with_gens (GOps [:: OShift R n 1])).

(** S.__init__, lines 261-268: row t of perms is arange(n) with perms[t,0]=t+1 and
    perms[t,t+1]=0; np.zeros((-1,1)) raises for n=0 *)
Definition s_perms (n : nat) : seq (seq nat) :=
  [seq set_nth 0%N (set_nth 0%N (arange n) 0 t.+1) t.+1 0%N | t <- iota 0 n.-1].
Definition g_s (n : nat) : res group :=
  if n == 0%N then Err ValueError else
  group_init (grepr "S" [:: show n]) (with_gens (GOps (map (OPerm R) (s_perms n)))).

(** SL.__init__, lines 277-289; the index -1 is n-1; np.zeros raises for n=0 *)
Definition sl_lie (n : nat) : res (nd R) :=
  if n == 0%N then Err ValueError else
  do s <- for_ (iota 0 n) (zeros [:: n * n - 1; n; n]%N, 0%N) (fun s i =>
    for_ (iota 0 n) s (fun s j =>
      let: (a, k) := s in
      if i == j then Ok (a, k) else
      do a <- put a [:: k; i; j] 1; Ok (a, k.+1)));
  rmap fst (for_ (iota 0 n.-1) s (fun s l =>
    let: (a, k) := s in
    do a <- put a [:: k; l; l] 1;
    do a <- put a [:: k; n.-1; n.-1] (-1);
    Ok (a, k.+1))).
Definition g_sl (n : nat) : res group :=
  do a <- sl_lie n; group_init (grepr "SL" [:: show n]) (with_lie (GArr a)).

(** GL.__init__, lines 294-301 *)
Definition gl_lie (n : nat) : res (nd R) :=
  rmap fst (for_ (iota 0 n) (zeros [:: n * n; n; n]%N, 0%N) (fun s i =>
    for_ (iota 0 n) s (fun s j =>
      let: (a, k) := s in do a <- put a [:: k; i; j] 1; Ok (a, k.+1)))).
Definition g_gl (n : nat) : res group :=
  do a <- gl_lie n; group_init (grepr "GL" [:: show n]) (with_lie (GArr a)).

(** lie_algebra_real + lie_algebra_imag*1j *)
Definition cplx_arr (a b : nd R) : nd R := ND (dims a) [seq x.1 + x.2 * im | x <- zip (dat a) (dat b)].
(** the loop shared by U and SU, lines 310-319 and 334-343 *)
Definition u_loop (n : nat) (s : nd R * nd R * nat) : res (nd R * nd R * nat) :=
  for_ (iota 0 n) s (fun s i =>
    for_ (iota 0 i) s (fun s j =>
      let: (a, b, k) := s in
      do a <- put a [:: k; i; j] 1;
      do a <- put a [:: k; j; i] (-1);
      let k := k.+1 in
      do b <- put b [:: k; i; j] 1;
      do b <- put b [:: k; j; i] 1;
      Ok (a, b, k.+1))).
(** U.__init__, lines 306-325 *)
Definition u_lie (n : nat) : res (nd R) :=
  let z := zeros [:: n ^ 2; n; n]%N in
  do s <- u_loop n (z, z, 0%N);
  do s <- for_ (iota 0 n) s (fun s i =>
    let: (a, b, k) := s in do b <- put b [:: k; i; i] 1; Ok (a, b, k.+1));
  Ok (cplx_arr s.1.1 s.1.2).
Definition g_u (n : nat) : res group :=
  do a <- u_lie n; group_init (grepr "U" [:: show n]) (with_lie (GArr a)).

(** SU.__init__, lines 329-352; for n=1 it returns an object, which is a TypeError; for n=0
    np.zeros raises *)
Definition su_lie (n : nat) : res (nd R) :=
  let z := zeros [:: n ^ 2 - 1; n; n]%N in
  do s <- u_loop n (z, z, 0%N);
  do s <- for_ (iota 0 n.-1) s (fun s i =>
    let: (a, b, k) := s in
    do b <- put b [:: k; i; i] 1;
    do b <- for_ (iota 0 n) b (fun b j =>
      if i == j then Ok b else put b [:: k; j; j] (- recip n.-1));
    Ok (a, b, k.+1));
  Ok (cplx_arr s.1.1 s.1.2).
Definition g_su (n : nat) : res group :=
  if n == 1%N then Err TypeError else
  if n == 0%N then Err ValueError else
  do a <- su_lie n; group_init (grepr "SU" [:: show n]) (with_lie (GArr a)).

(** Cube.__init__, lines 358-363 *)
Definition cube_perms : seq (seq nat) := [:: [:: 4; 1; 0; 3; 5; 2]; [:: 3; 0; 2; 5; 4; 1]]%N.
Definition g_cube : res group := group_init "Cube" (with_gens (GOps (map (OPerm R) cube_perms))).

(** pad and unpad, lines 366-374, on the six rows of a 6x9 array *)
Definition pad (p : seq nat) : seq (seq nat) :=
  mkseq (fun f => slice (8 * f) (8 * f + 4) p ++ 0%N :: slice (8 * f + 4) (8 * f + 8) p) 6.
Definition unpad (a : seq (seq nat)) : seq nat := flatten [seq take 4 r ++ drop 5 r | r <- a].
(** np.rot90(r.reshape(3,3),1).reshape(9): entry [i,j] is entry [j,2-i] *)
Definition rot9 (r : seq nat) : seq nat := mkseq (fun t => nth 0%N r ((t %% 3) * 3 + (2 - t %/ 3))) 9.
(** a[ids,:w] = a[np.roll(ids,1),:w] *)
Definition roll_rows (w : nat) (ids : seq nat) (a : seq (seq nat)) : seq (seq nat) :=
  mkseq (fun f => let r := nth [::] a f in
    if f \in ids then
      let src := nth 0%N ids ((index f ids + size ids - 1) %% size ids) in
      take w (nth [::] a src) ++ drop w r
    else r) (size a).
(** RubiksCube.__init__, lines 383-410 *)
Definition rubik_perms : seq (seq nat) :=
  let o := pad (arange 48) in
  let o := set_nth [::] o 0 (rot9 (nth [::] o 0)) in
  let U := unpad (roll_rows 3 [:: 1; 2; 3; 4]%N o) in
  let front := unpad (roll_rows 9 [:: 0; 2; 5; 4]%N (pad (arange 48))) in
  let back := argsort front in
  let left := unpad (roll_rows 9 [:: 0; 1; 5; 3]%N (pad (arange 48))) in
  let right := argsort left in
  let ix := gather 0%N in
  [:: U; ix right (ix U left); ix back (ix U front); ix left (ix U right); ix front (ix U back);
      ix right (ix right (ix U (ix left left)))].
Definition g_rubik : res group := group_init "RubiksCube" (with_gens (GOps (map (OPerm R) rubik_perms))).

(** ZksZnxZn.__init__, lines 416-425 *)
Definition g_zkszn (k n : nat) : res group :=
  do _ <- g_z n; do _ <- g_z k;
  if k \notin [:: 2; 4]%N then Err AssertionError else
  do t1 <- mkKron [:: OI R k; OShift R n 1; OI R n];
  do t2 <- mkKron [:: OI R k; OI R n; OShift R n 1];
  do t3 <- mkKron [:: OShift R k 1; ORot90 R n (Posz (4 %/ k))];
  group_init (grepr "ZksZnxZn" [:: show k; show n]) (with_gens (GOps [:: t1; t2; t3])).

(** Embed.__init__, lines 434-441.  The arrays are real: the assignment of a complex array
    drops the imaginary parts. *)
Definition embed_arr (base : seq R) (d : nat) (sl : pyslice) (x : garr) : res (nd R) :=
  do s <- gshape x;
  let D := head 0%N s in
  do ix <- slice_ix d sl;
  if x is GArr a then
    put_block (ND [:: D; d; d]%N (flatten (nseq D base))) [:: iota 0 D; ix; ix] (ND (dims a) (map re (dat a)))
  else Err AttributeError.
Definition g_embed (G : group) (d : nat) (sl : pyslice) : res group :=
  do _ <- gshape (g_lie G); do _ <- gshape (g_gens G);
  do a <- embed_arr (nseq (d * d) 0) d sl (g_lie G);
  do h <- embed_arr (eye R d) d sl (g_gens G);
  group_init (cat (g_repr G) (cat "_R" (show d))) (with_both (GArr a) (GArr h)).
(** SO2eR3, O2eR3, DkeR3, lines 446-459 *)
Definition g_so2er3 : res group := do G <- g_so 2; g_embed G 3 (s_upto 2).
Definition g_o2er3 : res group := do G <- g_o 2; g_embed G 3 (s_upto 2).
Definition g_dker3 (k : nat) : res group := do G <- g_dihedral k; g_embed G 3 (s_upto 2).

(** DirectProduct.__init__, lines 463-468; I(d) with d NotImplemented has an invalid shape *)
Definition g_prod (G1 G2 : group) : res group :=
  if g_d G1 is Some d1 then if g_d G2 is Some d2 then
    let I1 := OI R d1 in let I2 := OI R d2 in
    do l1 <- mapM (fun A => mkKronsum [:: A; OScaled I2 0]) (gitems (g_lie G1));
    do l2 <- mapM (fun A => mkKronsum [:: OScaled I1 0; A]) (gitems (g_lie G2));
    do h1 <- mapM (fun M => mkKron [:: M; I2]) (gitems (g_gens G1));
    do h2 <- mapM (fun M => mkKron [:: I1; M]) (gitems (g_gens G2));
    group_init (cat (g_repr G1) (cat "x" (g_repr G2))) (with_both (GOps (l1 ++ l2)) (GOps (h1 ++ h2)))
  else Err ValueError else Err ValueError.

(** Group.__eq__, lines 92-93 *)
Definition g_eq (G1 G2 : group) : bool := String.eqb (g_repr G1) (g_repr G2).

(** ** sampling *)
Variable linv : nat -> seq R -> seq R.
(** jax.scipy.linalg.expm of an n x n array *)
Variable expm : nat -> seq R -> seq R.

(** matrix_power_simple(M,n), lines 106-110 *)
Definition matrix_power_simple (d : nat) (M : seq R) (n : int) : seq R :=
  let body (Mn : seq R * nat) := iter Mn.2 (matmul d d d Mn.1) (eye R d) in
  if n < 0 then body (linv d M, absz n) else body (M, absz n).

(** noise2sample, lines 113-127: z of length D, ks k-th round and i-th generator
    [nth (nth ks i) k]; [perm k] is jax.random.permutation of the k-th round *)
Definition noise2sample (d : nat) (lie gens : seq (seq R)) (z : seq R) (ks : seq (seq int)) (K : nat)
    (perm : nat -> seq nat) : seq R :=
  let g := eye R d in
  let g := if nilp lie then g else
    let A := foldl (fun acc x => vadd acc (vscale x.1 x.2)) (nseq (d * d) 0) (zip z lie) in
    matmul d d d g (expm d A) in
  foldl (fun g k => foldl (fun g i =>
      matmul d d d g (matrix_power_simple d (nth [::] gens i) (nth 0 (nth [::] ks i) k))) g (perm k))
    g (if nilp gens then [::] else iota 0 K).

(** one of the samples of Group.samples, lines 69-78: [z] and [k] are the random draws for
    that sample (K is 3), scaled by z_scale *)
Definition sample (G : group) (z : seq R) (ks : seq (seq int)) (perm : nat -> seq nat) : res (seq R) :=
  do d <- need (g_d G);
  do As <- dense_items d (gitems (g_lie G));
  do hs <- dense_items d (gitems (g_gens G));
  do z <- (if g_zscale G is Some zs then
             (if size zs == size z then Ok [seq x.1 * x.2 | x <- zip z zs] else Err ValueError) else Ok z);
  Ok (noise2sample d As hs z ks 3 perm).
End Groups.
