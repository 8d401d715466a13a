(** * NnNets: the networks of emlp/nn/flax.py, haiku.py and pytorch.py, the baseline MLP of the
    four back ends, and how Standardize calls the models it wraps.

    The conventions are those of Nn.v.  BiLinear and bilinear_weights, gated, gate_indices and
    uniform_rep are shared by the back ends (imports from emlp.reps and emlp.nn; the call
    .1*(W@x[...,None])[...,0] is repeated in flax.py:62-64, haiku.py:64-65, pytorch.py:100-102)
    and are those of Nn.v. *)
From mathcomp Require Import all_ssreflect all_algebra.
From Verif Require Import Np LinOp Rep Solver Nn Data.
Set Implicit Arguments.
Unset Strict Implicit.
Unset Printing Implicit Defensive.
Import GRing.Theory.

Section Nets.
Variable R : comRingType.
Variables (conj sinv : R -> R) (linv : nat -> seq R -> seq R).
Variables (crho cdrho : nat -> option gid -> gel R -> res (op R)).
Variables (gdim : gid -> nat) (gorth : gid -> bool) (csize : nat -> gid -> nat) (le : rel rep).
Variables (gperm : gid -> bool) (cperm : nat -> bool).
Variables (gens lies : gid -> seq (op R)).
Variables (svd : nat -> nat -> seq R -> seq R * seq R * seq R) (big : pred R).
Variable krylov : op R -> res (darr R).
Variables (act : R -> R) (tenth : R).
Local Notation sz := (rsize gdim csize).
Local Notation size_py := (size_py gdim csize).
Local Notation mk_flax_linear := (mk_flax_linear conj sinv linv crho cdrho gdim gorth csize le gens lies svd big krylov).
Local Notation mk_hk_linear := (mk_hk_linear conj sinv linv crho cdrho gdim gorth csize le gens lies svd big krylov).
Local Notation mk_torch_linear := (mk_torch_linear conj sinv linv crho cdrho gdim gorth csize le gens lies svd big krylov).
Local Notation mk_bilinear := (mk_bilinear gdim gorth csize le).
Local Notation bilinear_call := (bilinear_call gdim csize tenth).
Local Notation gated_call := (gated_call gdim csize gperm cperm act).
Local Notation gated_rep r := (do v <- gated gdim csize le gperm cperm r; as_rep v).
Local Open Scope ring_scope.

(** ** EMLPBlock and EMLP of flax.py:77-125 *)
Record flax_block := FlaxBlock { fb_lin : flax_linear R; fb_bil : bilinear; fb_rep : rep }.
Definition mk_flax_block (rep_in rep_out : rep) (choice : rep -> nat -> nat -> seq nat) : res flax_block :=
  do g <- gated_rep rep_out;
  do L <- mk_flax_linear rep_in g;
  do B <- mk_bilinear g g choice;
  Ok (FlaxBlock L B rep_out).
(** [n] is x.shape[-1] *)
Definition flax_block_call (K : flax_block) (P : bparams R) (n bs : nat) (x : seq R) : res (seq R) :=
  do lin <- flax_linear_call conj (fb_lin K) (p_w P) (p_b P) n bs x;
  do bil <- bilinear_call (fb_bil K) (p_bi P) bs lin;
  gated_call (fb_rep K) bs (fl_cout (fb_lin K)) (vadd bil lin).
Fixpoint mk_flax_blocks (choices : nat -> rep -> nat -> nat -> seq nat) (i : nat) (rin : rep) (l : seq rep) : res (seq flax_block) :=
  match l with
  | [::] => Ok [::]
  | r :: l' => do K <- mk_flax_block rin r (choices i); do Ks <- mk_flax_blocks choices i.+1 r l'; Ok (K :: Ks)
  end.
Record flax_network := FlaxNetwork { fn_blocks : seq flax_block; fn_last : flax_linear R }.
Definition mk_flax_network (choices : nat -> rep -> nat -> nat -> seq nat) (rin rout : rep) (l : seq rep) : res flax_network :=
  do Ks <- mk_flax_blocks choices 0 rin l;
  do L <- mk_flax_linear (last rin l) rout;
  Ok (FlaxNetwork Ks L).
(** _Sequential.__call__, lines 129-134: the output of GatedNonlinearity(rep) has rep.size() columns *)
Fixpoint flax_blocks_call (Ks : seq flax_block) (Ps : seq (bparams R)) (n bs : nat) (x : seq R) : res (nat * seq R) :=
  match Ks, Ps with
  | K :: Ks', P :: Ps' => do y <- flax_block_call K P n bs x; flax_blocks_call Ks' Ps' (sz (fb_rep K)) bs y
  | _, _ => Ok (n, x)
  end.
Definition flax_network_call (N : flax_network) (Ps : seq (bparams R)) (w b : seq R) (n bs : nat) (x : seq R) : res (seq R) :=
  do y <- flax_blocks_call (fn_blocks N) Ps n bs x;
  flax_linear_call conj (fn_last N) w b y.1 bs y.2.

(** ** EMLPBlock and EMLP of haiku.py:83-122 *)
Record hk_block := HkBlock { hb_lin : hk_linear R; hb_bil : bilinear; hb_rep : rep }.
Definition mk_hk_block (rep_in rep_out : rep) (choice : rep -> nat -> nat -> seq nat) : res hk_block :=
  do g <- gated_rep rep_out;
  do L <- mk_hk_linear rep_in g;
  do B <- mk_bilinear g g choice;
  Ok (HkBlock L B rep_out).
Definition hk_block_call (K : hk_block) (P : bparams R) (bs : nat) (x : seq R) : res (seq R) :=
  do lin <- hk_linear_call conj (hb_lin K) (p_w P) (p_b P) bs x;
  do bil <- bilinear_call (hb_bil K) (p_bi P) bs lin;
  gated_call (hb_rep K) bs (hk_shape (hb_lin K)).1 (vadd bil lin).
Fixpoint mk_hk_blocks (choices : nat -> rep -> nat -> nat -> seq nat) (i : nat) (rin : rep) (l : seq rep) : res (seq hk_block) :=
  match l with
  | [::] => Ok [::]
  | r :: l' => do K <- mk_hk_block rin r (choices i); do Ks <- mk_hk_blocks choices i.+1 r l'; Ok (K :: Ks)
  end.
Record hk_network := HkNetwork { hn_blocks : seq hk_block; hn_last : hk_linear R }.
Definition mk_hk_network (choices : nat -> rep -> nat -> nat -> seq nat) (rin rout : rep) (l : seq rep) : res hk_network :=
  do Ks <- mk_hk_blocks choices 0 rin l;
  do L <- mk_hk_linear (last rin l) rout;
  Ok (HkNetwork Ks L).
Fixpoint hk_blocks_call (Ks : seq hk_block) (Ps : seq (bparams R)) (bs : nat) (x : seq R) : res (seq R) :=
  match Ks, Ps with
  | K :: Ks', P :: Ps' => do y <- hk_block_call K P bs x; hk_blocks_call Ks' Ps' bs y
  | _, _ => Ok x
  end.
Definition hk_network_call (N : hk_network) (Ps : seq (bparams R)) (w b : seq R) (bs : nat) (x : seq R) : res (seq R) :=
  do y <- hk_blocks_call (hn_blocks N) Ps bs x;
  hk_linear_call conj (hn_last N) w b bs y.

(** ** GatedNonlinearity, EMLPBlock and EMLP of pytorch.py:104-170 *)
(** out of range indices of a tensor raise IndexError *)
Definition torch_gated_call (r : rep) (bs m : nat) (v : seq R) : res (seq R) :=
  if size v != (bs * m)%N then Err RuntimeError else
  do idx <- gate_indices gdim csize gperm cperm r;
  match idx with
  | FloatIdx _ => Err IndexError
  | IntIdx l =>
      if ~~ all (fun i => i < m)%N l then Err IndexError else
      let n := sz r in
      if (m < n)%N || (size l != n) then Err RuntimeError else
      Ok (mkseq (fun t => let b := (t %/ n)%N in let i := (t %% n)%N in
            act (nth 0 v (b * m + nth 0%N l i)%N) * nth 0 v (b * m + i)%N) (bs * n)%N)
  end.
Record torch_block := TorchBlock { tb_lin : torch_linear R; tb_bil : bilinear; tb_rep : rep }.
Definition mk_torch_block (rep_in rep_out : rep) (choice : rep -> nat -> nat -> seq nat) : res torch_block :=
  do g <- gated_rep rep_out;
  do L <- mk_torch_linear rep_in g;
  do B <- mk_bilinear g g choice;
  Ok (TorchBlock L B rep_out).
Definition torch_block_call (K : torch_block) (P : bparams R) (bs : nat) (x : seq R) : res (seq R) :=
  do lin <- torch_linear_call conj (tb_lin K) (p_w P) (p_b P) bs x;
  do bil <- bilinear_call (tb_bil K) (p_bi P) bs lin;
  torch_gated_call (tb_rep K) bs (to_out (tb_lin K)) (vadd bil lin).
Fixpoint mk_torch_blocks (choices : nat -> rep -> nat -> nat -> seq nat) (i : nat) (rin : rep) (l : seq rep) : res (seq torch_block) :=
  match l with
  | [::] => Ok [::]
  | r :: l' => do K <- mk_torch_block rin r (choices i); do Ks <- mk_torch_blocks choices i.+1 r l'; Ok (K :: Ks)
  end.
Record torch_network := TorchNetwork { tn_blocks : seq torch_block; tn_last : torch_linear R }.
Definition mk_torch_network (choices : nat -> rep -> nat -> nat -> seq nat) (rin rout : rep) (l : seq rep) : res torch_network :=
  do Ks <- mk_torch_blocks choices 0 rin l;
  do L <- mk_torch_linear (last rin l) rout;
  Ok (TorchNetwork Ks L).
Fixpoint torch_blocks_call (Ks : seq torch_block) (Ps : seq (bparams R)) (bs : nat) (x : seq R) : res (seq R) :=
  match Ks, Ps with
  | K :: Ks', P :: Ps' => do y <- torch_block_call K P bs x; torch_blocks_call Ks' Ps' bs y
  | _, _ => Ok x
  end.
Definition torch_network_call (N : torch_network) (Ps : seq (bparams R)) (w b : seq R) (bs : nat) (x : seq R) : res (seq R) :=
  do y <- torch_blocks_call (tn_blocks N) Ps bs x;
  torch_linear_call conj (tn_last N) w b bs y.

(** ** the constructors EMLP, flax.py:100-121, haiku.py:96-122, pytorch.py:130-168: the lines that
    compute rep_in, rep_out and middle_layers are those of objax *)
Definition emlp_with (N : Type) (mk : rep -> rep -> seq rep -> res N) (fuel : nat) (draws : nat -> nat -> nat -> seq nat)
    (rep_in rep_out : rep) (g : gid) (ch : chans) (num_layers : nat) : option (res N) :=
  match call gdim gorth csize le rep_in (Some g), call gdim gorth csize le rep_out (Some g) with
  | Ok rin, Ok rout =>
      match middle_layers gdim gorth csize le fuel draws g ch num_layers with
      | Some (Ok l) => Some (mk rin rout l)
      | Some (Err e) => Some (Err e)
      | None => None
      end
  | Ok _, Err e | Err e, _ => Some (Err e)
  end.
Definition flax_emlp fuel draws choices := emlp_with (mk_flax_network choices) fuel draws.
Definition hk_emlp fuel draws choices := emlp_with (mk_hk_network choices) fuel draws.
Definition torch_emlp fuel draws choices := emlp_with (mk_torch_network choices) fuel draws.

(** ** MLP: objax.py:203-228 (MLPode 258-272 and MLPH 299-317 have the same network),
    flax.py:138-154, haiku.py:124-132, pytorch.py:171-195 *)
(** x@w+b with w of shape (n,m), the layers objax nn.Linear, flax Dense and haiku Linear; n is the
    last dimension of x *)
Definition dense (bs n m : nat) (w b x : seq R) : res (seq R) :=
  if (size x == (bs * n)%N) && (size w == (n * m)%N) && (size b == m) then Ok (add_rows m (matmul bs n m x w) b) else Err TypeError.
(** torch.nn.Linear: w has shape (m,n) *)
Definition torch_dense (bs n m : nat) (w b x : seq R) : res (seq R) :=
  if (size x == (bs * n)%N) && (size w == (m * n)%N) && (size b == m) then Ok (add_rows m (matmul bs n m x (tr2 0 m n w)) b) else Err RuntimeError.
(** sigmoid(x)*x *)
Definition swish (x : seq R) : seq R := [seq act a * a | a <- x].
(** the widths of the layers: [rep_in.size()]+num_layers*[ch]+[cout]; a module is its list of widths *)
Definition mlp (rep_in rep_out : rep) (g : gid) (ch num_layers : nat) : res (seq nat) :=
  do rin <- call gdim gorth csize le rep_in (Some g);
  do rout <- call gdim gorth csize le rep_out (Some g);
  do n <- size_py rin;
  do m <- size_py rout;
  Ok (n :: rcons (nseq num_layers ch) m).
(** a hidden layer is followed by swish, the last one is not; one (w,b) per layer *)
Fixpoint mlp_call (lay : nat -> nat -> nat -> seq R -> seq R -> seq R -> res (seq R)) (n : nat) (ms : seq nat)
    (Ps : seq (seq R * seq R)) (bs : nat) (x : seq R) : res (seq R) :=
  match ms, Ps with
  | [:: m], P :: _ => lay bs n m P.1 P.2 x
  | m :: ms', P :: Ps' => do y <- lay bs n m P.1 P.2 x; mlp_call lay m ms' Ps' bs (swish y)
  | _, _ => Err TypeError
  end.
Definition objax_mlp_call (ns : seq nat) := mlp_call dense (head 0%N ns) (behead ns).
Definition torch_mlp_call (ns : seq nat) := mlp_call torch_dense (head 0%N ns) (behead ns).
(** flax and haiku only compute rep_out(group).size(); the other widths come from the input and ch;
    [n] is x.shape[-1] *)
Definition flax_mlp (rep_out : rep) (g : gid) (ch num_layers : nat) : res (seq nat) :=
  do rout <- call gdim gorth csize le rep_out (Some g);
  do m <- size_py rout;
  Ok (rcons (nseq num_layers ch) m).
Definition flax_mlp_call (ms : seq nat) (n : nat) := mlp_call dense n ms.
(** MLPH: net(x).sum() *)
Definition mlph_call (ns : seq nat) (Ps : seq (seq R * seq R)) (bs : nat) (x : seq R) : res R :=
  rmap (fun y => foldr +%R 0 y) (objax_mlp_call ns Ps bs x).

(** ** the calling conventions of the modules *)
(** __call__ / forward (x,training) or only (x) (or (z,t)); model(x,training=..) on the latter raises
    TypeError *)
Inductive pymodel : Type :=
| WithTraining (f : bool -> nat -> seq R -> res (seq R))
| WithoutTraining (f : nat -> seq R -> res (seq R)).
Definition call_training (m : pymodel) (training : bool) (bs : nat) (x : seq R) : res (seq R) :=
  match m with WithTraining f => f training bs x | WithoutTraining _ => Err TypeError end.
(** objax EMLP.__call__ and MLP.__call__ (objax.py:201-202,226-228) take training, the forward of the
    pytorch modules (pytorch.py:169-170,193-195) does not *)
Definition objax_model (f : nat -> seq R -> res (seq R)) : pymodel := WithTraining (fun=> f).
Definition torch_model (f : nat -> seq R -> res (seq R)) : pymodel := WithoutTraining f.
End Nets.
(** Standardize.__call__ (objax.py:243-251), Standardize.forward (pytorch.py:212-220): both call
    self.model(.., training=training); ds_stats is a tuple of any length.  The exception for statistics
    that do not broadcast is that of objax; pytorch raises RuntimeError there. *)
Definition standardize (R : comRingType) (div : R -> R -> R) (model : pymodel R) (n m : nat) (stats : seq (stat R)) (training : bool)
    (bs : nat) (x : seq R) : res (seq R) :=
  match stats with
  | [:: muin; sin] => standardize2 div (call_training model) n muin sin training bs x
  | [:: muin; sin; muout; sout] => standardize4 div (call_training model) n m (muin, sin, muout, sout) training bs x
  | _ => Err ValueError
  end.
