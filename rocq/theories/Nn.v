(** * Nn: the layers of emlp/nn/objax.py, bilinear_weights (emlp/reps/representation.py:417-457)
    and the Linear layers of emlp/nn/flax.py, haiku.py and pytorch.py.

    Simplifications, once for the file.
    - Numbers are elements of a commutative ring; [tenth] is the literal .1 and [act] is
      jax.nn.sigmoid, both arbitrary.
    - An array of shape (...,n) is given as bs rows of length n, flat; bs is the
      product of the leading dimensions (a vector is the case bs = 1).  Reshapes that only
      change the leading dimensions are the identity.
    - Trainable parameters are arguments of the call instead of fields of the module,
      and their initial values are not modelled; np.random.* at construction is an
      argument of the constructor.  jit, torch/jax conversions, logging and dtypes are
      ignored; so is the lru_cache of gate_indices, except that it hashes its argument. *)
From mathcomp Require Import all_ssreflect all_algebra.
From Verif Require Import Np LinOp Rep Solver.
Set Implicit Arguments.
Unset Strict Implicit.
Unset Printing Implicit Defensive.
Import GRing.Theory.

Section Shapes.
Variables (gdim : gid -> nat) (gorth : gid -> bool) (csize : nat -> gid -> nat) (le : rel rep).
Variables (gperm : gid -> bool) (cperm : nat -> bool).
Local Notation sz := (rsize gdim csize).
Local Notation add_val := (add_val gdim csize le).
Local Notation mul_val := (mul_val gdim csize le).
Local Notation isperm := (isperm gperm cperm).

(** the builtin sum(l): 0+l[0]+l[1]+... *)
Definition sum_vals (l : seq val) : res val := foldM add_val (VInt 0) l.

(** an integer has none of the methods of a representation *)
Definition as_rep (v : val) : res rep := if v is VRep r then Ok r else Err AttributeError.

(** Scalar(rep.G): the attribute G is read, the call returns Scalar (representation.py:206-208;
    that it also stores G is in Heap.v) *)
Definition scalar_of (r : rep) : res val := if gattr r is Some _ then Ok (VRep RScalar) else Err AttributeError.

(** rep!=Scalar and not rep.is_permutation *)
Definition needs_gate (r : rep) : bool := (r != RScalar) && ~~ isperm r.

(** gated(ch_rep), nn/objax.py:67-75; iterating a SumRep gives each summand as often as
    it occurs (product_sum_reps.py:130-131) *)
Definition gated (r : rep) : res val :=
  if r is RSum d p then
    do l <- mapM scalar_of [seq k <- dexp d | needs_gate k];
    do s <- sum_vals l;
    add_val (VRep r) s
  else if isperm r then Ok (VRep r)
  else do s <- scalar_of r; add_val (VRep r) s.

(** the index arrays made by gate_indices: of integers, or (np.ones(n)*n) of floats *)
Inductive indexer : Type := IntIdx (l : seq nat) | FloatIdx (l : seq nat).

(** indices[ps] = v *)
Definition set_at (idx ps : seq nat) (v : nat) : res (seq nat) :=
  if all (fun i => i < size idx) ps
  then Ok (mkseq (fun i => if i \in ps then v else nth 0 idx i) (size idx))
  else Err IndexError.
(** the loop of nn/objax.py:344-348 *)
Fixpoint gate_loop (channels : nat) (p : seq nat) (ks : seq rep) (i n : nat) (idx : seq nat) : res (seq nat) :=
  match ks with
  | [::] => Ok idx
  | k :: ks' =>
      if needs_gate k then
        do idx' <- set_at idx (slice i (i + sz k) p) (channels + n);
        gate_loop channels p ks' (i + sz k) n.+1 idx'
      else gate_loop channels p ks' (i + sz k) n idx
  end.
(** gate_indices(ch_rep), nn/objax.py:330-349.  ch_rep.perm is read for every
    representation; Scalar, V, user-defined representations and duals have no such attribute. *)
Definition gate_indices (r : rep) : res indexer :=
  if ~~ hashable r then Err AssertionError else
  do channels <- size_py gdim csize r;
  match r with
  | RSum d p => rmap IntIdx (gate_loop channels p (dexp d) 0 0 (arange channels))
  | RProd _ _ | RDir _ _ =>
      Ok (if isperm r then IntIdx (arange channels) else FloatIdx (nseq channels channels))
  | _ => Err AttributeError
  end.

(** ** uniform_rep, nn/objax.py:112-155.  Loops take a bound on the number of iterations
    and return None when it is exhausted. *)

(** lambertW(ch,d), nn/objax.py:135-141, plus 1: the returned max_rank may be -1 *)
Fixpoint lambert_loop (fuel : nat) (ch d k : nat) : option nat :=
  if k.+1 * d ^ k <= ch then (if fuel is f.+1 then lambert_loop f ch d k.+1 else None) else Some k.
Definition lambertW1 (fuel : nat) (ch d : nat) : option nat := lambert_loop fuel ch d 0.

(** Ns[:k]+=np.array([d**(max_rank-r) for r in range(k)]), k = max_rank+1; arrays of
    different lengths do not add *)
Definition bump (k d : nat) (Ns : seq nat) : res (seq nat) :=
  if k <= size Ns then Ok (mkseq (fun r => nth 0 Ns r + if r < k then d ^ (k.-1 - r) else 0) (size Ns))
  else Err ValueError.
(** the while loop of lines 127-130 *)
Fixpoint alloc_loop (fuel lfuel : nat) (ch d : nat) (Ns : seq nat) : option (res (seq nat)) :=
  if ch == 0 then Some (Ok Ns) else
  if fuel is f.+1 then
    if lambertW1 lfuel ch d is Some k then
      match bump k d Ns with
      | Ok Ns' => alloc_loop f lfuel (ch - k * d ^ k.-1) d Ns'
      | Err e => Some (Err e)
      end
    else None
  else None.

(** binomial_allocation(N,rank,G), nn/objax.py:143-155 (the binomial
    coefficients, computed in floating point, are exact here); [draw rank n_leftover] is
    np.random.binomial(rank,.5,n_leftover) *)
Definition T_val (p q : nat) (g : gid) : res val := rmap VRep (tensor_T gdim gorth csize le p q (Some g)).
Definition binomial_allocation (draw : nat -> nat -> seq nat) (N rank : nat) (g : gid) : res val :=
  if N == 0 then Ok (VInt 0) else
  let n_binoms := N %/ 2 ^ rank in
  do evens <- mapM (fun k => do t <- T_val k (rank - k) g; mul_val (VInt (Posz (n_binoms * 'C(rank, k)))) t)
                (iota 0 rank.+1);
  do even_split <- sum_vals evens;
  do rags <- mapM (fun p => T_val p (rank - p) g) (draw rank (N %% 2 ^ rank));
  do ragged <- sum_vals rags;
  add_val even_split ragged.

(** uniform_rep(ch,group), nn/objax.py:112-133 *)
Definition uniform_rep (fuel : nat) (draw : nat -> nat -> seq nat) (ch : nat) (g : gid) : option (res rep) :=
  let d := gdim g in
  if lambertW1 fuel ch d is Some k then
    match alloc_loop fuel fuel ch d (nseq k 0) with
    | Some (Ok Ns) =>
        Some (do l <- mapM (fun x => binomial_allocation draw x.2 x.1 g) (zip (iota 0 (size Ns)) Ns);
              do s <- sum_vals l;
              do r <- as_rep s;
              rmap fst (canonicalize gdim csize le r))
    | Some (Err e) => Some (Err e)
    | None => None
    end
  else None.
End Shapes.

Section Layers.
Variable R : comRingType.
Variables (conj sinv : R -> R) (linv : nat -> seq R -> seq R).
Variables (crho cdrho : nat -> option gid -> gel R -> res (op R)).
Variables (gdim : gid -> nat) (gorth : gid -> bool) (csize : nat -> gid -> nat) (le : rel rep).
Variables (gperm : gid -> bool) (cperm : nat -> bool).
Variables (gens lies : gid -> seq (op R)).
Variables (svd : nat -> nat -> seq R -> seq R * seq R * seq R) (big : pred R).
Variable krylov : op R -> res (darr R).
Variables (act : R -> R) (tenth : R).
Local Notation sz := (rsize gdim csize).
Local Notation size_py := (size_py gdim csize).
Local Notation tr := (tr gdim gorth csize le).
Local Notation mul := (mul gdim csize le).
Local Notation projector := (projector conj sinv linv crho cdrho gdim csize le gens lies svd big krylov).
Local Notation matmat := (matmat conj).
Local Open Scope ring_scope.

(** ** Linear *)
Record linear := Linear { l_in : nat; l_out : nat; l_Pw : op R; l_Pb : op R }.
(** objax Linear.__init__, nn/objax.py:31-41 *)
Definition mk_linear (repin repout : rep) : res linear :=
  do nin <- size_py repin;
  do nout <- size_py repout;
  do t <- tr repin;
  do rep_W <- mul repout t;
  do Pw <- projector rep_W;
  do Pb <- projector repout;
  Ok (Linear nin nout Pw Pb).
(** X+b for X of shape (bs,n) and b of shape (n,) *)
Definition add_rows (n : nat) (X b : seq R) : seq R := mkseq (fun t => nth 0 X t + nth 0 b (t %% n)) (size X).
(** x@W.T+b for x of shape (bs,nin), W of shape (nout,nin), b of shape (nout,) *)
Definition affine (bs nin nout : nat) (W b x : seq R) : res (seq R) :=
  if (size x == (bs * nin)%N) then Ok (add_rows nout (matmul bs nin nout x (tr2 0 nout nin W)) b) else Err TypeError.
(** objax Linear.__call__, nn/objax.py:42-48; w has shape (nout,nin), b has shape (nout,) *)
Definition linear_call (L : linear) (w b : seq R) (bs : nat) (x : seq R) : res (seq R) :=
  do Ww <- matmat (l_Pw L) 1 w;
  do W <- reshape [:: l_out L; l_in L] (ND [:: size Ww] Ww);
  do b' <- matmat (l_Pb L) 1 b;
  affine bs (l_in L) (l_out L) (dat W) b' x.

(** flax Linear and _Linear, nn/flax.py:22-45: rep_W = repin>>repout; the shape of w is
    (cout,x.shape[-1]), [n] being x.shape[-1] *)
Record flax_linear := FlaxLinear { fl_Pw : op R; fl_Pb : op R; fl_cout : nat }.
Definition mk_flax_linear (repin repout : rep) : res flax_linear :=
  do cin <- size_py repin;
  do cout <- size_py repout;
  do rep_W <- rshift gdim gorth csize le repin repout;
  do Pw <- projector rep_W;
  do Pb <- projector repout;
  Ok (FlaxLinear Pw Pb cout).
Definition flax_linear_call (L : flax_linear) (w b : seq R) (n bs : nat) (x : seq R) : res (seq R) :=
  do Ww <- matmat (fl_Pw L) 1 w;
  do W <- reshape [:: fl_cout L; n] (ND [:: size Ww] Ww);
  do B <- matmat (fl_Pb L) 1 b;
  affine bs n (fl_cout L) (dat W) B x.
(** haiku Linear and hkLinear, nn/haiku.py:16-41: rep_W = repout<<repin *)
Record hk_linear := HkLinear { hk_Pw : op R; hk_Pb : op R; hk_shape : nat * nat }.
Definition mk_hk_linear (repin repout : rep) : res hk_linear :=
  do rep_W <- lshift gdim gorth csize le repout repin;
  do Pw <- projector rep_W;
  do Pb <- projector repout;
  do nout <- size_py repout;
  do nin <- size_py repin;
  Ok (HkLinear Pw Pb (nout, nin)).
Definition hk_linear_call (L : hk_linear) (w b : seq R) (bs : nat) (x : seq R) : res (seq R) :=
  do Ww <- matmat (hk_Pw L) 1 w;
  do W <- reshape [:: (hk_shape L).1; (hk_shape L).2] (ND [:: size Ww] Ww);
  do b' <- matmat (hk_Pb L) 1 b;
  affine bs (hk_shape L).2 (hk_shape L).1 (dat W) b' x.
(** pytorch Linear, nn/pytorch.py:69-86; F.linear(x,W,b) is x@W.T+b *)
Record torch_linear := TorchLinear { to_in : nat; to_out : nat; to_Pw : op R; to_Pb : op R }.
Definition mk_torch_linear (repin repout : rep) : res torch_linear :=
  do nin <- size_py repin;
  do nout <- size_py repout;
  do t <- tr repin;
  do rep_W <- mul repout t;
  do Pw <- projector rep_W;
  do Pb <- projector repout;
  Ok (TorchLinear nin nout Pw Pb).
Definition torch_linear_call (L : torch_linear) (w b : seq R) (bs : nat) (x : seq R) : res (seq R) :=
  do Ww <- matmat (to_Pw L) 1 w;
  do W <- reshape [:: to_out L; to_in L] (ND [:: size Ww] Ww);
  do b' <- matmat (to_Pb L) 1 b;
  affine bs (to_in L) (to_out L) (dat W) b' x.

(** ** bilinear_weights, representation.py:417-457 *)
(** nelems(nx,rep) = min(nx,rep.size()) *)
Definition nelems (nx : nat) (r : rep) : nat := minn nx (sz r).
(** SumRep.as_dict(np.arange(size)), product_sum_reps.py:134-141: for each key its
    (count,size) array of coordinates, here the list of the rows *)
Fixpoint as_dict (i : nat) (p : seq nat) (d : dict) : seq (rep * seq (seq nat)) :=
  match d with
  | [::] => [::]
  | (k, c) :: d' =>
      (k, mkseq (fun a => slice (i + a * sz k) (i + a.+1 * sz k) p) c) :: as_dict (i + c * sz k) p d'
  end%N.
(** reduced_indices_dict[rep] = ids[np.random.choice(len(ids),nelems)].reshape(-1);
    [choice rep] is the random array *)
Definition reduced (d : dict) (p : seq nat) (choice : rep -> seq nat) (k : rep) : seq nat :=
  let D := as_dict 0 p d in
  let ids := nth [::] [seq x.2 | x <- D] (index k [seq x.1 | x <- D]) in
  flatten [seq nth [::] ids j | j <- choice k].
(** x[...,ids] for x with bs rows of length n *)
Definition gcols (bs n : nat) (x : seq R) (ids : seq nat) : seq R :=
  flatten [seq [seq nth 0 x (b * n + i)%N | i <- ids] | b <- iota 0 bs].
(** jnp.concatenate(blocks,axis=-1) of arrays of shapes (bs,n_j), given with their widths *)
Definition hcat (bs : nat) (l : seq (nat * seq R)) : seq R :=
  flatten [seq flatten [seq slice (b * y.1)%N (b.+1 * y.1)%N y.2 | y <- l] | b <- iota 0 bs].

Record bilinear := Bilinear {
  bl_in : nat; bl_out : nat; bl_dim : nat;
  bl_W : dict; bl_x : dict; bl_ids : rep -> seq nat; bl_inv : seq nat }.
(** The data computed at construction, lines 420-431.  Only a SumRep has both reps and
    as_dict: on the others the code raises AttributeError at line 425, 426 or 431.
    [choice rep len nelems] is np.random.choice(len,nelems). *)
Definition mk_bilinear (out_rep in_rep : rep) (choice : rep -> nat -> nat -> seq nat) : res bilinear :=
  do W <- rshift gdim gorth csize le in_rep out_rep;
  do Wc <- canonicalize gdim csize le W;
  do nout <- size_py out_rep;
  do nin <- size_py in_rep;
  match Wc.1, in_rep with
  | RSum dW _, RSum dx px =>
      let xm := [seq y <- dx | y.1 != RScalar] in
      let active := sumn [seq (cnt dW y.1 * nelems y.2 y.1)%N | y <- xm] in
      Ok (Bilinear nin nout active dW xm (reduced dx px (fun k => choice k (cnt dx k) (nelems (cnt dx k) k))) (argsort Wc.2))
  | _, _ => Err AttributeError
  end.
(** the loop of lazy_projection, lines 438-453: the list of the blocks Ws with their widths *)
Fixpoint bl_loop (B : bilinear) (params : seq R) (bs : nat) (x : seq R) (i : nat) (W : dict) :
    res (seq (nat * seq R)) :=
  match W with
  | [::] => Ok [::]
  | (k, c) :: W' =>
      if k \notin keys (bl_x B) then
        do l <- bl_loop B params bs x i W';
        Ok (((c * sz k)%N, nseq (bs * (c * sz k))%N 0) :: l)
      else
        let n := nelems (cnt (bl_x B) k) k in
        let i_end := (i + c * n)%N in
        let sl := slice i i_end params in
        if size sl != (c * n)%N then Err TypeError else
        let bids := bl_ids B k in
        if (size bids * bs != n * (sz k * bs))%N then Err TypeError else
        let xb := tr2 0 bs (size bids) (gcols bs (bl_in B) x bids) in
        let e := matmul c n (sz k * bs)%N sl xb in
        let y := tr2 0 (c * sz k) bs e in
        do l <- bl_loop B params bs x i_end W';
        Ok (((c * sz k)%N, y) :: l)
  end.
(** lazy_projection(params,x), lines 434-456: bs matrices of shape (bl_out,bl_in) *)
Definition lazy_projection (B : bilinear) (params : seq R) (bs : nat) (x : seq R) : res (seq R) :=
  if size x != (bs * bl_in B)%N then Err TypeError else
  do l <- bl_loop B params bs x 0 (bl_W B);
  if nilp l then Err ValueError else
  let n := sumn (map fst l) in
  let Ws := hcat bs l in
  do a <- reshape [:: bs; bl_out B; bl_in B] (ND [:: bs; size (bl_inv B)] (gcols bs n Ws (bl_inv B)));
  Ok (dat a).
(** BiLinear.__call__, nn/objax.py:61-65: .1*(W@x[...,None])[...,0] *)
Definition bilinear_call (B : bilinear) (params : seq R) (bs : nat) (x : seq R) : res (seq R) :=
  do W <- lazy_projection B params bs x;
  Ok (mkseq (fun t => let b := (t %/ bl_out B)%N in
        tenth * rsum (bl_in B) (fun j => nth 0 W (t * bl_in B + j)%N * nth 0 x (b * bl_in B + j)%N))
      (bs * bl_out B)%N).

(** ** GatedNonlinearity.__call__, nn/objax.py:85-88.  values has bs rows of length m;
    out of range indices of a jax array are clamped.  (If m is smaller than rep.size() the
    two factors do not broadcast; simplification: also for m = 1.) *)
Definition gated_call (r : rep) (bs m : nat) (v : seq R) : res (seq R) :=
  if size v != (bs * m)%N then Err TypeError else
  do idx <- gate_indices gdim csize gperm cperm r;
  match idx with
  | FloatIdx _ => Err TypeError
  | IntIdx l =>
      let n := sz r in
      if (m < n)%N || (size l != n) then Err TypeError else
      Ok (mkseq (fun t => let b := (t %/ n)%N in let i := (t %% n)%N in
            act (nth 0 v (b * m + minn (nth 0%N l i) m.-1)%N) * nth 0 v (b * m + i)%N) (bs * n)%N)
  end.

(** ** EMLPBlock, nn/objax.py:90-102 *)
Record block := Block { b_lin : linear; b_bil : bilinear; b_rep : rep }.
Definition mk_block (rep_in rep_out : rep) (choice : rep -> nat -> nat -> seq nat) : res block :=
  do g <- (do v <- gated gdim csize le gperm cperm rep_out; as_rep v);
  do L <- mk_linear rep_in g;
  do B <- mk_bilinear g g choice;
  Ok (Block L B rep_out).
(** the parameters of a block: w, b of the linear layer, w of the bilinear layer *)
Record bparams := BParams { p_w : seq R; p_b : seq R; p_bi : seq R }.
Definition block_call (K : block) (P : bparams) (bs : nat) (x : seq R) : res (seq R) :=
  do lin <- linear_call (b_lin K) (p_w P) (p_b P) bs x;
  do bil <- bilinear_call (b_bil K) (p_bi P) bs lin;
  gated_call (b_rep K) bs (l_out (b_lin K)) (vadd bil lin).

(** ** EMLP, nn/objax.py:166-202 (EMLPode, 274-297, is the same) *)
(** the argument ch: an int, a representation, or a list of these.  (An int is a
    natural number here; a negative one behaves as 0.) *)
Inductive chan : Type := ChInt (n : nat) | ChRep (r : rep).
Inductive chans : Type := ChOne (c : chan) | ChList (l : seq chan).
(** [fuel] bounds the loops of uniform_rep; when it is exhausted nothing is returned *)
Definition middle (fuel : nat) (draw : nat -> nat -> seq nat) (g : gid) (c : chan) : option (res rep) :=
  match c with
  | ChInt n => uniform_rep gdim gorth csize le fuel draw n g
  | ChRep r => Some (call gdim gorth csize le r (Some g))
  end.
Fixpoint middles (fuel : nat) (draws : nat -> nat -> nat -> seq nat) (g : gid) (i : nat) (l : seq chan) : option (res (seq rep)) :=
  match l with
  | [::] => Some (Ok [::])
  | c :: l' =>
      match middle fuel (draws i) g c with
      | Some (Ok r) =>
          match middles fuel draws g i.+1 l' with
          | Some m => Some (rmap (cons r) m)
          | None => None
          end
      | Some (Err e) => Some (Err e)
      | None => None
      end
  end.
(** lines 191-193 *)
Definition middle_layers (fuel : nat) (draws : nat -> nat -> nat -> seq nat) (g : gid) (ch : chans) (num_layers : nat) :
    option (res (seq rep)) :=
  match ch with
  | ChOne c => omap (rmap (fun r => nseq num_layers r)) (middle fuel (draws 0%N) g c)
  | ChList l => middles fuel draws g 0 l
  end.
(** [EMLPBlock(rin,rout) for rin,rout in zip(reps,reps[1:])] and the last Linear, lines
    197-200; [choices i] are the random index choices of block i *)
Fixpoint mk_blocks (choices : nat -> rep -> nat -> nat -> seq nat) (i : nat) (rin : rep) (l : seq rep) : res (seq block) :=
  match l with
  | [::] => Ok [::]
  | r :: l' => do K <- mk_block rin r (choices i); do Ks <- mk_blocks choices i.+1 r l'; Ok (K :: Ks)
  end.
Record network := Network { n_blocks : seq block; n_last : linear }.
Definition mk_network (choices : nat -> rep -> nat -> nat -> seq nat) (rin rout : rep) (l : seq rep) : res network :=
  do Ks <- mk_blocks choices 0 rin l;
  do L <- mk_linear (last rin l) rout;
  Ok (Network Ks L).
Definition emlp (fuel : nat) (draws : nat -> nat -> nat -> seq nat) (choices : nat -> rep -> nat -> nat -> seq nat)
    (rep_in rep_out : rep) (g : gid) (ch : chans) (num_layers : nat) : option (res network) :=
  match call gdim gorth csize le rep_in (Some g), call gdim gorth csize le rep_out (Some g) with
  | Ok rin, Ok rout =>
      match middle_layers fuel draws g ch num_layers with
      | Some (Ok l) => Some (mk_network choices rin rout l)
      | Some (Err e) => Some (Err e)
      | None => None
      end
  | Ok _, Err e | Err e, _ => Some (Err e)
  end.
(** Sequential.__call__; the parameters of each block, then w and b of the last layer *)
Fixpoint blocks_call (Ks : seq block) (Ps : seq bparams) (bs : nat) (x : seq R) : res (seq R) :=
  match Ks, Ps with
  | K :: Ks', P :: Ps' => do y <- block_call K P bs x; blocks_call Ks' Ps' bs y
  | _, _ => Ok x
  end.
Definition network_call (N : network) (Ps : seq bparams) (w b : seq R) (bs : nat) (x : seq R) : res (seq R) :=
  do y <- blocks_call (n_blocks N) Ps bs x;
  linear_call (n_last N) w b bs y.
(** EMLPH, nn/objax.py:319-327: network(x).sum() *)
Definition emlph_call (N : network) (Ps : seq bparams) (w b : seq R) (bs : nat) (x : seq R) : res R :=
  rmap (fun y => foldr +%R 0 y) (network_call N Ps w b bs x).
End Layers.
