(** * PropCount: C86, the number of columns of equivariant bases of sums, multiples and products, and
    of the spaces of equivariant linear maps. *)
From Coq Require Import Reals Lra String.
From mathcomp Require Import all_ssreflect all_algebra.
From Verif Require Import Np Spec LinOp LinOpSpec LinOpInv Rep RepSpec RepWf RepCode RepAlg RepOps Solver SolSpec Rstruct Expm GrpSpec GrpThm.
From Verif Require Import Groups GroupsSpec GroupsSpecR GroupsThm GroupsFlag GroupsReal GroupsPerm ExactSpec Nn NnSpec NnThm Data DataSpec ExGrp ExNn ExData ExData2.
From Verif Require Import SvdReal SvdThm DimSpec DimTenSpec DimThm ExDim CharSO2 CountSpec CountThm CountTen CountGrp.
Set Implicit Arguments.
Unset Strict Implicit.
Unset Printing Implicit Defensive.
Import GRing.Theory.
Local Open Scope ring_scope.

Section Count.
Variables (sinv : RR -> RR) (linv : nat -> seq RR -> seq RR).
Variables (crho cdrho : nat -> option gid -> gel RR -> res (op RR)).
Variables (gdim : gid -> nat) (gorth : gid -> bool) (csize : nat -> gid -> nat) (le : rel rep) (g : gid).
Variables (gens lies : gid -> seq (op RR)).
Variables (svd : nat -> nat -> seq RR -> seq RR * seq RR * seq RR) (big : pred RR).
Variable krylov : op RR -> res (darr RR).
Local Notation wfr := (wfr gdim csize le (pred1 g)).
Local Notation add := (add gdim csize le).
Local Notation adds := (adds gdim csize le).
Local Notation mul := (mul gdim csize le).
Local Notation mul_int := (mul_int gdim csize le).
Local Notation rep_of := (rep_of gdim gorth csize le g).
Local Notation basis_columns := (basis_columns sinv linv crho cdrho gdim csize le gens lies svd big krylov).
Local Notation map_columns := (map_columns sinv linv crho cdrho gdim gorth csize le gens lies svd big krylov).
Local Notation counting := (counting sinv linv crho cdrho gdim csize le gens lies svd big krylov g).
Local Notation flag_correct := (flag_correct sinv linv crho gdim gorth csize gens lies g).

(** C86.  The equivariant basis of a+b has as many columns as those of a and b together *)
Theorem C86_sum a b : counting -> wfr a -> wfr b ->
  exists r ka kb, [/\ add a b = Ok r, wfr r, basis_columns a ka, basis_columns b kb & basis_columns r (ka + kb)].
Proof. by case=> h1 h2 h3 h4 h5; exact: sum_columns. Qed.
(** n*a *)
Theorem C86_multiple a n : counting -> wfr a ->
  exists r k, [/\ mul_int a (Posz n.+1) = Ok (VRep r), wfr r, basis_columns a k & basis_columns r (n.+1 * k)].
Proof. by case=> h1 h2 h3 h4 h5; exact: mult_columns. Qed.
(** a*b and b*a *)
Theorem C86_exchange a b : counting -> wfr a -> wfr b ->
  exists r r' k, [/\ mul a b = Ok r, mul b a = Ok r', wfr r /\ wfr r', basis_columns r k & basis_columns r' k].
Proof. by case=> h1 h2 h3 h4 h5; exact: swap_columns. Qed.
(** (a+b)*c and c*(a+b) *)
Theorem C86_left a b c : counting -> wfr a -> wfr b -> wfr c ->
  exists ab r r1 r2 k1 k2, [/\ add a b = Ok ab /\ wfr ab, mul ab c = Ok r /\ wfr r,
    mul a c = Ok r1 /\ basis_columns r1 k1, mul b c = Ok r2 /\ basis_columns r2 k2 & basis_columns r (k1 + k2)].
Proof. by case=> h1 h2 h3 h4 h5; exact: left_columns. Qed.
Theorem C86_right a b c : counting -> wfr a -> wfr b -> wfr c ->
  exists ab r r1 r2 k1 k2, [/\ add a b = Ok ab /\ wfr ab, mul c ab = Ok r /\ wfr r,
    mul c a = Ok r1 /\ basis_columns r1 k1, mul c b = Ok r2 /\ basis_columns r2 k2 & basis_columns r (k1 + k2)].
Proof. by case=> h1 h2 h3 h4 h5; exact: right_columns. Qed.

(** every layer has its number of columns, and only one *)
Theorem C86_maps a b : counting -> flag_correct -> wfr a -> wfr b ->
  exists2 k, map_columns a b k & forall k', map_columns a b k' -> k' = k.
Proof.
by case=> h1 h2 h3 h4 h5 h6 Wa Wb; have [k C] := map_exists h1 h2 h3 h4 h5 h6 Wa Wb; exists k => // k' C'; exact: map_uniq C' C.
Qed.
(** layers between sums: the number for a1+a2+... >> b1+b2+... is the sum of the numbers for ai >> bj *)
Theorem C86_layer a l b m (c : nat -> nat -> nat) : counting -> flag_correct -> all wfr (a :: l) -> all wfr (b :: m) ->
  (forall i j, (i <= size l)%N -> (j <= size m)%N -> map_columns (nth RScalar (a :: l) i) (nth RScalar (b :: m) j) (c i j)) ->
  exists A B, [/\ adds a l = Ok A, adds b m = Ok B & map_columns A B (\sum_(i < (size l).+1) \sum_(j < (size m).+1) c i j)%N].
Proof. by case=> h1 h2 h3 h4 h5 h6; exact: layer_columns. Qed.
(** channels: n*a >> m*b *)
Theorem C86_channels a b n m k : counting -> flag_correct -> wfr a -> wfr b -> map_columns a b k ->
  exists A B, [/\ mul_int a (Posz n.+1) = Ok (VRep A), mul_int b (Posz m.+1) = Ok (VRep B) & map_columns A B (n.+1 * (m.+1 * k))].
Proof. by case=> h1 h2 h3 h4 h5 h6; exact: multiples_columns. Qed.
(** orthogonal groups: as many maps from a to b as from b to a *)
Theorem C86_transpose a b k : counting -> flag_correct -> gorth g -> wfr a -> wfr b -> map_columns a b k -> map_columns b a k.
Proof. by case=> h1 h2 h3 h4 h5 h6; exact: map_sym. Qed.
(** and as many maps from T(p,q) to T(p',q') as invariant tensors of rank p+q+p'+q' *)
Theorem C86_tensors p q p' q' s t a b r k : counting -> flag_correct -> (0 < gdim g)%N -> (forall c, (0 < csize c g)%N) -> gorth g ->
  rep_of (T_expr p q) a -> rep_of (T_expr p' q') b -> rep_of (T_expr s t) r -> (s + t = p + q + (p' + q'))%N ->
  basis_columns r k -> map_columns a b k.
Proof. by case=> h1 h2 h3 h4 h5 h6 h7 h8 h9; exact: (tensor_columns h1 h2 h3 h4 h5 h6 h7 h8 h9). Qed.
End Count.
Print Assumptions C86_sum.
Print Assumptions C86_multiple.
Print Assumptions C86_exchange.
Print Assumptions C86_left.
Print Assumptions C86_right.
Print Assumptions C86_maps.
Print Assumptions C86_layer.
Print Assumptions C86_channels.
Print Assumptions C86_transpose.
Print Assumptions C86_tensors.

Section Groups.
Variables (sinv : RR -> RR) (linv : nat -> seq RR -> seq RR).
Variables (crho cdrho : nat -> option gid -> gel RR -> res (op RR)).
Variables (gdim : gid -> nat) (csize : nat -> gid -> nat) (le : rel rep) (g : gid).
Variable G : gid -> group RR.
Variables (svd : nat -> nat -> seq RR -> seq RR * seq RR * seq RR) (big : pred RR).
Variable krylov : op RR -> res (darr RR).
Local Notation gorth := (fun h => g_orth (G h)).
Local Notation rep_of := (rep_of gdim gorth csize le g).
Local Notation mul_int := (mul_int gdim csize le).
Local Notation map_columns := (map_columns sinv linv crho cdrho gdim gorth csize le (the_gens G) (the_lies G) svd big krylov).
Local Notation setting := (setting sinv linv crho cdrho gdim csize le g G svd big krylov).
Local Notation same := (@same RR).
(** the flag is correct for the group objects that Group.__init__ builds *)
Theorem C86_flag : setting -> tested (gdim g) (G g) -> flag_correct sinv linv crho gdim gorth csize (the_gens G) (the_lies G) g.
Proof. by case=> h1 h2 h3 h4 h5 h6 M; exact: (element_orth h6 h3). Qed.
(** S(n), Z(n) and SO(2): the number of columns for c*T(p,q) >> d*T(p',q'), all c and d *)
Let layers p q p' q' k : Prop := forall c d, exists a b A B,
  [/\ rep_of (T_expr p q) a /\ rep_of (T_expr p' q') b, mul_int a (Posz c.+1) = Ok (VRep A),
      mul_int b (Posz d.+1) = Ok (VRep B) & map_columns A B (c.+1 * (d.+1 * k))].
Theorem C86_s n p q p' q' : setting -> (1 < n)%N -> g_s idR same n = Ok (G g) -> gdim g = n -> (p + q + (p' + q') <= n)%N ->
  layers p q p' q' (bell (p + q + (p' + q'))).
Proof. by move=> HS; exact: (layers_s HS). Qed.
Theorem C86_z n p q p' q' k : setting -> (0 < n)%N -> g_z idR same n = Ok (G g) -> gdim g = n -> (p + q + (p' + q') = k.+1)%N ->
  layers p q p' q' (n ^ k).
Proof. by move=> HS; exact: (layers_z HS). Qed.
Theorem C86_so2 p q p' q' : setting -> g_so idR same 2 = Ok (G g) -> gdim g = 2%N ->
  let N := (p + q + (p' + q'))%N in layers p q p' q' (if odd N then 0 else 'C(N, N./2))%N.
Proof. by move=> HS; exact: (layers_so2 HS). Qed.
End Groups.
Print Assumptions C86_flag.
Print Assumptions C86_s.
Print Assumptions C86_z.
Print Assumptions C86_so2.

(** S(n), all n > 1, with exact solvers: the hypotheses hold, with V as representation *)
Example C86_example n : (1 < n)%N -> exists G,
  [/\ usable_as (g_s idR (@same RR) n) n G,
      counting exsinv linvE excr excr (ndim n) (ncs n) le_asc (the_gens G) (the_lies G) real_svd nonzero real_krylov 0%N,
      flag_correct exsinv linvE excr (ndim n) (fun h => g_orth (G h)) (ncs n) (the_gens G) (the_lies G) 0%N,
      g_orth (G 0%N) & wfr (ndim n) (ncs n) le_asc (pred1 0%N) (RBase (Some 0%N))].
Proof. exact: count_example. Qed.
(** sets of n elements: the equivariant maps from c to d channels have 2cd parameters *)
Example C86_example_sets n : (1 < n)%N -> exists G, usable_as (g_s idR (@same RR) n) n G /\ forall c d, exists a A B,
  [/\ DataSpec.rep_of (ndim n) (fun h => g_orth (G h)) (ncs n) le_asc 0%N (T_expr 1 0) a,
      mul_int (ndim n) (ncs n) le_asc a (Posz c.+1) = Ok (VRep A), mul_int (ndim n) (ncs n) le_asc a (Posz d.+1) = Ok (VRep B) &
      map_columns exsinv linvE excr excr (ndim n) (fun h => g_orth (G h)) (ncs n) le_asc (the_gens G) (the_lies G) real_svd nonzero real_krylov
        A B (c.+1 * (d.+1 * 2))].
Proof. exact: sets_example. Qed.
(** by C86_s the factor 2 is the Bell number of rank 2; the first Bell numbers *)
Example C86_example_bell : [seq bell k | k <- [:: 0; 1; 2; 3; 4]%N] = [:: 1; 1; 2; 5; 15]%N.
Proof. by vm_compute. Qed.
