# Formal model of equivariant-MLP (emlp) in Coq

Target: `/repo` (mfinzi/equivariant-MLP, pinned), Python.  Prover: Coq 8.16.1 with
mathcomp (ssreflect, algebra), and Coquelicot for the analytic part.

## 1. What is modelled, and how

* **Scalars.**  Exact arithmetic over an arbitrary commutative ring `R : comRingType`
  (an arbitrary field / real field where the code divides or takes an SVD; Coq's reals for
  the exponential).  float32 rounding, `rel_err < 1e-6` style tolerances and dtypes are *not*
  modelled; where the code compares against a tolerance the model takes either the exact test
  or an explicit tolerance over an ordered field, and the comment says which.
* **Arrays.**  An ndarray is its shape and its flat row-major data (`Np.v`).  `reshape`,
  `transpose`, `moveaxis`, `swapaxes`, fancy indexing, `concatenate`, `split`, `roll`, `rot90`,
  `argsort`, slicing are executable functions on that data.
* **Exceptions** are values: `res T := Ok t | Err e` with `e` one of the Python exception
  classes raised on that path.
* **Lazy operators** (`LinOp.v`): one constructor per class of `linear_operators.py` /
  `linear_operator_base.py`, plus the raw ndarray; `matmat`, `rmatmat`, `adjoint`, `transpose`,
  `invT`, `to_dense` are transcribed class by class.
* **Representations** (`Rep.v`): one constructor per class, with the stored dictionary
  (association list in insertion order) and the stored permutation; constructors, `+`, `*`,
  `**`, `T`, `>>`, `__call__`, `canonicalize`, `compute_canonical`, `distribute_product`,
  `rep_permutation`, `rho`, `drho`, `__eq__`, `__lt__`, `size` are transcribed.
* **Python's `sorted`** on representations is modelled with the real comparison `__lt__`
  (which depends on hashes: the hash function is an arbitrary parameter).  Positive theorems
  assume the comparison is a strict total order on the representations involved, and it is
  proved separately when that holds and shown by witnesses when it fails.
* **Numerical oracles** (LAPACK `inv`, `svd`; random draws; optimiser traces) are universally
  quantified parameters with a stated contract as a theorem hypothesis, never axioms.

## 2. What is not modelled

Floating point, jit/vmap/device placement, logging, plotting (of `vis` the number of clusters and the plotted vector are modelled, KMeans and plt not), progress bars, pickling,
scripts of `experiments/` (of `experiments/trainer` the bookkeeping of `Trainer`, the metrics, the losses, the data sets
and the errors are modelled; the model update is an arbitrary function, odeint an arbitrary flow), `optax` internals (only the loop control around them), the numerical
convergence of gradient descent, KMeans, `WreathProduct`/`SemiDirectProduct` (constructors raise).

## 3. Trusted base

* Coq 8.16.1's kernel (and its VM, used by `vm_compute` in the concrete witnesses).
* The correspondence between `/repo` and the model, which is by reading; each definition cites
  file and lines.
* `Print Assumptions` for every property theorem is run in the property files; everything
  algebraic is closed under the global context.  Theorems about the matrix exponential use Coq's
  `Reals` and therefore list the standard library's axioms of the real numbers
  (see section 6, kept up to date).

## 4. Files

See the header of each file; `rocq/_CoqProject` lists them in dependency order.  Model files hold
definitions only; `*Proofs.v` hold lemmas; `Prop*.v` hold the property theorems (each closed by
`exact`), non-vacuity examples and `Print Assumptions`.

## 5. Property by property plan

| id | model | statement and proof |
|----|-------|---------------------|
| C01 | `op`, `matmat` | for every well-formed `op` and X: `matmat A X = Ok (den A * X)`, `den` an independent entry-wise matrix semantics; induction on the operator, inner induction on the factors for LazyKron/LazyKronsum with the processed prefix generalised |
| C02 | `to_dense` | `to_dense A = Ok` array of `den A`; same induction |
| C03 | `adjoint`, `transpose`, `rmatmat` | on the supported class `.T@X`,`.H@X` multiply by the transpose; raising classes characterised by separate theorems |
| C04 | same with a conjugation on R | refuted by a Gaussian-rational witness |
| C05 | `invT` | supported class: `invT A` has a matrix `B` with `B^T A = 1`; witnesses refuting it for sum / scaled / direct sum |
| C06 | shape checks of constructors and `matmat` | iff-characterisation of errors; size of the result |
| C07 | `SumRep.__init__`, `compute_canonical`, `rho` | entries of `rho (a+b)` = block diagonal; label argument (each coordinate carries a label, the perm carries user labels to canonical labels) |
| C08 | `mul_reps`, `ProductRep`, `distribute_product`, `rep_permutation` | entries of `rho (a*b)` = Kronecker product of entries; label argument on multi-indices |
| C09 | `T` | entries of `rho a.T` = inverse transpose |
| C10 | `size` | equalities of sizes, from C07-C09 development |
| C11 | `canonicalize` | invariant on constructible reps by induction on the user expression |
| C12 | two arbitrary orders | corollary of C07-C09: both equal the specification |
| C13 | `Deferred*`, `__call__` | induction on user expressions |
| C14 | int cases | case analysis + C07/C08 |
| C15 | | from the specification of `rho` by induction on user expressions |
| C16 | `drho` | dual numbers `R[eps]`: `rho(1+eps A) = 1 + eps drho(A)`; plus the analytic derivative over the reals |
| C17 | | dual numbers in two variables / direct induction |
| C18 | `__rshift__` | vec identity from C08, C09 |
| C19 | `DirectProduct` | under "factors sort contiguously by group"; refuted without |
| C20 | `__lt__` | proved for one group of dimension >= 2 with injective hash; refuted in general |
| C21 | heap with the global `Scalar` | refuted by a trace; proved for everything but Scalar |
| C22 | `SumRep.__call__` | refuted by witness; proved for canonical reps without key collision |
| C23 | `__eq__`, `__hash__` | equal implies equal hash and matrices; totality refuted |
| C24, C25 | `constraint_matrix` | words in generators by induction; exponentials by one-parameter subgroups and the mean value theorem |
| C26-C28 | `equivariant_basis/projector` | linear algebra over the invariants |
| C29 | cache state machine | invariant over all call histories; refuted for Embed groups with equal names |
| C30, C31, C54 | loops with oracle | termination measures, postconditions; C54 refuted by a divergent oracle |
| C32-C40 | `groups.py` constructors | for all n by index arithmetic; refutations by computation |
| C41-C48, C55 | `nn/*.py` | equivariance for all parameters; EMLP by induction on depth |
| C49-C53, C56 | `datasets.py`, `equivariance_error` | algebraic identities over a commutative ring / real field |
| C57 | `groups.py` constructors, `in_group` | both inclusions, for all n: invariants of the generators (forms, determinants) by induction on `in_group`; conversely factorisation into exponentials (elementary matrices by Gauss elimination, plane rotations, boosts, symplectic transvections) |
| C58 | `datasets.py` targets, `DoubleSpringPendulum.H`, group objects | C57 identifies the generated group, C51-C53 and an analogous identity for H give the equivariance |
| C59 | `symplectic_form`, `hamiltonian_dynamics`, `EMLPH` | total derivatives of functions on R^n, chain rule, functions with derivative 0 are constant; the gradient transforms with the inverse transpose |
| C60, C61 | `InvertedCube`, `BrokenRubiksCube` of `datasets.py` (constructors, test sets, ways of breaking a cube) | C57 gives the group; RubiksCube() contains an even permutation of the edges with the same effect on every one-hot state (two edge stickers have the same colour); for Cube() the indicator of the orbit of the solved state |
| C62, C63, C64 | `EMLP`, `MLP`, `Standardize` of `nn/flax.py`, `nn/haiku.py`, `nn/pytorch.py`, `nn/objax.py` | the modules of the other back ends are images of the objax ones; induction on the layers; out of range gates (IndexError in torch, clamped in jax) excluded by the invariant of the index loop |
| C65, C66, C67 | `Trainer.train`, `train_to`, `evalAverageMetrics`, `logStuff` of `experiments/trainer/trainer.py` | induction on the epochs and on the batches; the checkpoint by induction on the list of logged metrics |
| C68 | `HamiltonianDataset.chunk_training_data`, `generate_trajectory_data`, `__getitem__` | index arithmetic of split and concatenate; the flow is any one-parameter group of maps |
| C69, C70 | `rel_err`, `log_rollout_error`, `equivariance_err`, losses, accuracy | Cauchy-Schwarz and the triangle inequality over any real closed field; orthogonality row by row |
| C71 | `align2ref` | the matrix is a rotation times a stretch; the case distinction of division by zero |
| C72 | exact solutions of `hamiltonian_dynamics` | Gronwall's inequality gives uniqueness, so moved solutions are solutions from moved initial states |
| C73 | `solver_ok` of C26 | exact singular value decompositions over the reals, by induction on the number of columns (a maximum of the Rayleigh quotient); null space bases by Gram-Schmidt |
| C74 | `basis` for T(p,q), `exact_group` of C57 | rho of T(p,q) is the Kronecker product; soundness and completeness of the basis for the whole group |
| C75 | permutation groups | functions constant on orbits, one basis vector per orbit; orbits of S(n) are set partitions (Stirling numbers) |
| C76 | groups with -1 | -1 acts by -1 on odd ranks |
| C77 | rank 2 and 3 of O(n), SO(n) | sign changes and permutations, then a rotation by 45 degrees |
| C78 | `vis` | a vector constant on orbits has at most as many values as orbits, and some vector has as many |
| C79 | `Group.__init__` flags | iff versions of C34, C35; table from the exact descriptions of C57 |
| C80 | `basis` of finite groups | the average of rho over the group is the projector on the basis (C28 with the exact group of C57); compare traces; the trace of a Kronecker product is the product of the traces |
| C81 | C(k), D(k), Parity, TimeReversal, Cube | list the exact group, sum the powers of the traces; for C(k) sums of powers of cosines over the k-th roots of unity |
| C82 | SO(2), O(2), any rank | a tensor of rank n fixed by C(k) for some k > n is fixed by all rotations: the coefficients are trigonometric polynomials of degree n in the angle |
| C83 | EMLPode, MLPode: z' = network(z) (`network_call`, `objax_mlp_call` with the logistic function, `solves_on`) | networks are expressions in +, * and sigmoid (`Smooth`, `NnSmooth`), so Lipschitz in every box; uniqueness by Gronwall (`FlowThm`), existence by Picard iteration (`Picard`, `FlowExist`); equivariance from C46 and uniqueness |
| C84 | EMLPH, MLPH: z' = J grad H(z) | symbolic derivatives of the expressions are gradients, so the dynamics are expressions again; C59 for the symmetry |
| C85 | MLPode, MLPH: solutions for all times | swish has a bounded derivative, so an MLP is Lipschitz on the whole space and its gradient is bounded; local solutions are continued |
| C86 | number of columns of equivariant_basis of sums, multiples, products and a>>b; channels | the dense matrices of a+b and a*b are block diagonal and Kronecker products; bases of the summands give a basis of the sum, exchange of tensor factors maps bases to bases; spaces with orthonormal bases have one dimension |
| C87 | `SHO.H`, its gradient and flow (`Rollout.v`) | the energy is a polynomial, its gradient is computed symbolically and unique; the rotation solves the equation, uniqueness by Gronwall |
| C88 | `BOdeFlow`, `BHamiltonianFlow`, the losses of the two trainers, `log_rollout_error(_ode)` with the integrator as parameter | a curve solves the vmapped equation iff its rows solve the equation; moved rollouts by C83 and C84; orthogonal matrices keep sums of squares |
| C89 | `equivariant_basis` of T(1,1), T(2,0), T(0,2) (`SL`, `GL`, `Sp`, `SO13p`, `SO13`, `Lorentz`, `O11`) | the fixed tensors of T(1,1) are the matrices that commute with the group, those of T(2,0) and T(0,2) are J times them; commutants by diagonal, permutation, boost and turn matrices that lie in the group |
| C90 | `equivariant_basis` of T(p,q) (`GL`, `Scaling`, `SL`) | a diagonal element multiplies the entry of index tuple t by a power of 2, not 1 for some element: 2*I for GL(n) and Scaling(n), a torus element for SL(n) by counting the indices of t; Scaling(n) acts on T(p,p) by c^p c^-p = 1 |
| C91 | the descent of `krylov_constraint_solve_upto_r` (`sgd`, `descend` of `Krylov.v`) over an ordered field, real constraints, exact arithmetic | an energy (loss, momentum, and for the sharp bound a cross term) that two steps reduce by a factor; the component in the null space is an invariant; closed form of the divergent run |

## 6. Assumptions listed by `Print Assumptions`

* Every theorem of `PropLinOp`, `PropRep`, `PropOrder`, `PropDir`, `PropEq`, `PropSolver`, `PropCache`, `PropKrylov`, `PropGroups`,
  `PropGroups3`, and of `PropNn`, `PropNn2` except C41_linear, C42_bilinear, C46_emlp, C46_emlp_group:
  "Closed under the global context"; so are C50-C53 in `PropData` and C62-C64 in `PropNets` except C62_equivariant, C65-C71 in `PropTrainer` and C91 in `PropDesc`.
* C49 and C56 (`PropData`; real groups), C57 (`PropExact`), C58 and C59 (`PropData2`, except the closed C59_symplectic_form),
  C60 and C61 (`PropCube`), C62_equivariant (`PropNets`), C72 (`PropTrainer`), C73-C78 (`PropDim`), C79 (`PropFlags`), C80-C82 (`PropChar`), C83 and C84 (`PropFlow`), C85 (`PropFlow2`), C86 (`PropCount`), C87 and C88 (`PropRollout`, except the closed C87_shape), C89 and C90 (`PropSchur`),
  `PropGroups2` (C34-C36; real groups, except C34_tolerance_* and C35_tolerance_refuted, which are closed),
  C41_linear, C42_bilinear, C46_emlp, C46_emlp_group (real groups),
  `PropConstraint` (C24, C25), which is about real matrix exponentials, and `PropSparsify` (C54), which is about
  optax.adam over the real numbers: the axioms of Coq's
  `Reals`, `ClassicalDedekindReals.sig_forall_dec`, `ClassicalDedekindReals.sig_not_dec` and
  `FunctionalExtensionality.functional_extensionality_dep`, and
  `Classical_Prop.classic` and `ClassicalEpsilon.constructive_indefinite_description`
  (from Coquelicot's and our use of the standard library's classical files: the choice type
  structure on R, and the exact inverse of the example).  No other axioms.

## 7. Status convention, and what was found

A claim is `proved` in MANIFEST.json when every clause of its statement is either proved or
refuted (theorem name ending in `_refuted`, with a concrete witness), and the note says which; it is
`partial` when some clause is neither.  Clauses refuted of the faithful model:

* C04: `.H` of a complex operator is the plain transpose.  C05: `invT` of sums, multiples, direct sums.
* C19: a third factor of a group that already occurs is merged wrongly (wrong matrices, or AssertionError).
* C20: `<` is not a total order with two groups.
* C21: calling something that contains `Scalar` changes the global `Scalar`.
* C22: products raise on re-instantiation; other dimensions, orthogonality or sort orders give wrong results.
* C23: `V+V == V*V` style collisions and exceptions when a sum is compared with a non-sum.
* C27: a mixed product with a factor without invariants has a basis that raises when applied.
* C29: two `Embed` groups with different slices have the same name, so the cache returns the solution of the other.
* C28: the projector of a sum has no `.T`; over complex scalars it is `Q Q^T`.
* C30: with full nullity `S[rank]` raises IndexError; with complex constraints only real solutions are found.
* C54: `sparsify_basis` has no floor on the learning rate; `sparsify_basis([[1000.]],lr=1e-5)` recurses forever.
* C40: `SO(1)`, `SL(1)`, `S(1)`, `SU(1)` raise TypeError (the generator array is empty, so `d` is never set).

* C34: the tolerance of the test accepts `[[1+2.5e-7]]` as orthogonal.
* C35: `D(1)` is flagged is_permutation and contains diag(-1,1); the tolerance lets a shear `[[1,2.5e-7],[0,1]]` be
  flagged is_permutation.
* C37: only the first generator of `RubiksCube` turns a face (layer); the conjugations move whole faces without turning
  the two faces on the axis, so however stickers are grouped into cubies some generator tears one apart.
* C38: holds; V(G1*G2).T raises at generators that are arrays; a product of two trivial groups has no dimension.
* C39: equality of embeddings ignores the slice; a group on one coordinate is broadcast over a longer slice (singular
  generators); the imaginary part of complex generators is dropped; S, Z, Cube and products cannot be embedded.
* C42: BiLinear raises if the input representation is not a SumRep.
* C47: `uniform_rep(0,G)` raises, and loops forever for a group of dimension 0.
* C48: `EMLP(...,ch=V)`, `ch=V+Scalar`, `ch=V*V` construct networks that raise on every input, `ch=1` raises at once.
* C49: `GroupAugmentation` applies `rep.rho` under vmap, which must return arrays: it raises NotImplementedError for every sum
  or product representation (rho is a lazy operator there), and so does `default_aug` of every data set.
* C57: `GL(n)` generates only the matrices of positive determinant, not the general linear group.
  `RubiksCube()` generates all permutations of the 24 corner stickers times the even permutations of the 24 edge stickers.
* C60: so `BrokenRubiksCube` cannot be learned by an equivariant model: the symmetry moves the solvable configuration to
  the broken one, and every equivariant function is constant on the training and test sets.
* C63: `MLP` is not equivariant.
* C64: pytorch `Standardize` calls `model(x,training=training)`, which the forward of no module of `pytorch.py` accepts:
  TypeError on every input.
* C65: `train_to(epoch)` makes no step but advances the epoch (`self.epoch+=1` after a loop that did
  not run), so the same call again raises AssertionError.
* C66: with a smaller last batch `evalAverageMetrics` weighs batches equally: 1/2 instead of 1/3 for 0,0,1 in batches of two.
* C68: chunks are longer than the times they are labelled with if chunk_len does not divide the length (12 and 5: 6 and 5).
* C71: `align2ref` is nan for references pointing straight down, the rest position of the pendulum.
* C78: for groups that do not act by permutations `vis` merges distinct values: SO(2), V->V asks for two clusters but
  (2,1,-1,2) is equivariant and has three values.
* C79: `C(1)` is flagged as a permutation group, `C(k)` for k>1 is not, also for k=2,4.
* C87: orthogonal matrices that are not symplectic do not preserve the flow of `SHO`: a reflection reverses time.
* C91: the docstring of `krylov_constraint_solve_upto_r` ("provably converges at an exponential rate") needs a bound on
  the learning rate: with the default lr=1e-2 and C=(20) the iterates grow like 1.5^t (the routine then retries with lr/3).
  It holds for lr*L<3.8, L the square of the largest singular value of C.

## 8. Notes on the statements

* **Solvers** (`SolSpec.solver_ok`): C26-C28 assume the SVD, respectively the Krylov solver, returns an exact
  orthonormal null space basis of the systems they are called on.
* **Whole group** (`GrpSpec.v`): a group element is a family of matrices, one per group; `generated` closes the
  discrete generators and the exponentials (sum of the series A^k/k!, entry by entry) of all elements of the
  Lie algebra (linear combinations and commutators) under products and inverses.  `customs_ok` is the contract of
  user-defined `Rep` subclasses: rho is a homomorphism whose derivative along exponentials is drho.  The proof of
  soundness differentiates t -> rho(exp tA) v and uses that a function with zero derivative is constant.
* **Cache** (`Cache.v`): a state monad over the dictionary; here a `gid` is a group with its generators and `name`
  its printed form, the only thing `==` and `hash` look at.
* **Krylov** (`Krylov.v`, `KrySpec.v`): the loops are executable; the tests on losses are parameters, the random
  starts an oracle.  C30 assumes of each attempt that its start has a component of full rank in the null space and
  that, *if* the test of convergence passes, the next residual is exactly zero and its decomposition exact; that
  gradient descent keeps the null space component is proved.  The numerical convergence itself is not.
* **Rollouts** (`Rollout.v`, `RolloutSpec.v`): `odeint` is a parameter.  `exact` says that what it returns are the states of
  a solution at the given times; it may raise.  `ideal` (by choice over the solutions) is one such integrator
  for all equations.  `tol`, and the fact that one step size is used for a whole batch, are not modelled.
* **adam** (`Sparsify.v`): the update rule over the reals, gradients arbitrary.
* **Groups** (`Groups.v`, `GroupsSpec.v`): constructors with their loops; a Lie algebra basis is stated against the
  defining linear equation (`skew`, `traceless`, `preserves J`, `skew_herm`), a generated finite group against an
  inductive set of words (`words`) and an independent description (permutation matrices, shifts, orientation
  preserving permutations of the faces of a cube).  `close` is `rel_err(A,B)<1e-6`, arbitrary where it does not matter.
* **Flags and samples** (`GroupsSpecR.v`): `in_group` is the group generated by the discrete generators and the
  exponentials of the Lie algebra; `tested` says that Group.__init__ built G and computed the flags with an exact
  test (`same`), `near` is `rel_err(A,B)<1e-6` over an ordered field.  C36 takes the random draws as arguments.
* **Products and embeddings** (`GroupsProd.v`, `GroupsEmb.v`): `usable d G` is a group of dimension d with d x d generators
  (proved of all constructors in `GroupsCtor.v`); `acts_on d ix c M E` describes E by its action on an arbitrary vector.
  Slices are modelled by Python's slice.indices and range.
* **Layers** (`Nn.v`, `NnSpec.v`): parameters and inputs are arguments of the call functions; a batch is its flat data.
  `equivariant E rin rout f`: for every batch and one element of E per row, f commutes with the action on rows.
  Random index choices and binomial draws are arguments restricted only by their range (`choice_ok`, `draw_ok`).
  The loops of uniform_rep run on fuel, `None` when it is exhausted; C47 proves fuel = ch suffices.  `.1*` of BiLinear
  and the activation are arbitrary.  C46 assumes the exact solver on the systems of all representations.
* **Data** (`Data.v`, `DataSpec.v`): targets as functions of a batch of rows, `sin`, square root and division arbitrary
  functions of the invariants; `isometries E J` says every element of E preserves the form J.  Statistics are numbers or
  vectors (`stat`), `invariant_stat`/`commuting_stat` are stated entry by entry; the statistics of the data sets are the ones
  computed by the code, for every data matrix.  `vrho` is rho under vmap (Err when it is a lazy operator).
  equivariance_error takes the samples as arguments; the `+ 1e-8`-like constant is any positive `tiny`.
* **Exact groups** (`ExactSpec.v`): `exact_group x d P` says that the constructor call x succeeds with dimension d and that `in_group` of
  its Lie algebra and generators is the set of d x d matrices satisfying P; P is written with `isometry`, the determinant
  (mathcomp's) and explicit rotations, never with the generators.
* **Trainer** (`Trainer.v`, `TrainerSpec.v`): the state of a trainer is the epoch, the number of passes through the loader, the model and
  optimiser state (any type, any update), the steps made (number, epoch handed to the schedule, minibatch) and the step of each
  log.  `None` is nan.  Square roots are those of a real closed field, the logarithm any monotone function.
* **Dimensions** (`DimSpec.v`, `DimTenSpec.v`): `setting` collects the hypotheses of the earlier claims (custom representations,
  total order, exact solvers); `returns x N k Q`: x is Ok with an operator whose dense form is the N x k matrix Q; `spans N k Q P`: its
  columns are orthonormal and the vectors Q w are exactly those with P; `tensor p q A B` is the Kronecker product of p copies of A and q of B, B the inverse transpose.
  `transversal n k Ps xs`: xs has exactly one index tuple of each orbit.  `ExDim.usable_as` shows that the setting can be met for
  every group of the claims.
* **Characters** (`CharSpec.v`): `enumerates d P Es`: Es lists, once each, the flat arrays of the d x d matrices with P; `trace n D` sums
  the diagonal of a flat n x n array; `balanced k n` counts the sequences of n signs whose sum is a multiple of k (2i = n mod k for i plus signs);
  `fixed_points n p` counts the i < n with p i = i.
