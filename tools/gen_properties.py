#!/usr/bin/env python3
"""Writes /verif/properties.jsonl (kept as a script so that entries are easy to append)."""
import json
P=[]
def p(title,statement,quantifier,why,anchors):
    P.append(dict(id=f"C{len(P)+1:02d}",title=title,statement=statement,quantifier=quantifier,why_tests_cant=why,anchors=anchors))
LO="emlp/reps/linear_operators.py"; LB="emlp/reps/linear_operator_base.py"; RP="emlp/reps/representation.py"
PS="emlp/reps/product_sum_reps.py"; GR="emlp/groups.py"; OB="emlp/nn/objax.py"; DS="emlp/datasets.py"
p("Lazy matmul equals dense matmul",
  "For every lazy operator built from arrays, identities, permutations, shifts, swaps, 90-degree rotations, Kronecker products, Kronecker sums, direct sums with multiplicities, vertical concatenations, sums, products, scalings and powers, A@X is exactly the matrix product of the mathematical matrix of A with X.",
  "all operator expressions of any nesting and size, all X with any number of columns",
  "reshape/moveaxis bookkeeping must be right for every combination of factor shapes and column counts; tests use a few shapes",
  [f"{LO}:LazyKron._matmat",f"{LO}:LazyKronsum._matmat",f"{LO}:lazy_direct_matmat",f"{LO}:LazyPerm",f"{LO}:LazyShift",f"{LO}:SwapMatrix",f"{LO}:Rot90",f"{LO}:ConcatLazy",f"{LB}:LinearOperator.dot"])
p("to_dense returns the mathematical matrix",
  "A.to_dense() returns the Kronecker product / Kronecker sum / block diagonal / product / ... of its operands and agrees with A@eye for every operator.",
  "all operator expressions","two implementations of the same matrix (dense path, lazy path) must agree for all operands",
  [f"{LB}:LinearOperator.to_dense",f"{LO}:LazyKron.to_dense",f"{LO}:LazyKronsum.to_dense",f"{LO}:LazyDirectSum.to_dense",f"{LO}:ConcatLazy.to_dense"])
p("Transpose and adjoint of a (real) lazy operator",
  "A.T@X and A.H@X multiply by the transpose of the matrix of A whenever they do not raise; (A.T).T acts as A; and the operators for which they raise are exactly characterised (LazyDirectSum and Rot90 always, ConcatLazy on a single column).",
  "all real operator expressions, all X","transposition is defined by recursion over the operator classes; a class whose adjoint drops an argument only shows up on particular nestings",
  [f"{LB}:_TransposedLinearOperator",f"{LB}:_AdjointLinearOperator",f"{LO}:LazyKron._adjoint",f"{LO}:LazyPerm._adjoint",f"{LO}:LazyShift._adjoint",f"{LO}:ConcatLazy._rmatmat",f"{LO}:LazyDirectSum._adjoint"])
p("Adjoint is the conjugate transpose for complex operators",
  "For complex data A.H acts as the conjugate transpose (so P = Q@Q.H is the orthogonal projector onto the columns of Q).",
  "all complex matrices","tests only check equivariance of P v, not that P is a projector",
  [f"{LB}:Lazy._rmatmat",f"{LO}:LazyKron._adjoint",f"{RP}:Rep.equivariant_projector"])
p("invT is the inverse transpose",
  "A.invT() returns the inverse transpose of the matrix of A for identities, permutations, shifts, swaps, rotations, dense operators, Kronecker products, products and powers; the classes for which it is not (sums, scalings, direct sums) are exhibited.",
  "all operator expressions with invertible leaves","depends on every nesting of invT through products and Kronecker products",
  [f"{LB}:_ProductLinearOperator.invT",f"{LB}:_ScaledLinearOperator.invT",f"{LB}:_SumLinearOperator.invT",f"{LO}:LazyKron.invT",f"{LO}:LazyPerm.invT",f"{LO}:LazyDirectSum.invT"])
p("Shape errors are raised, never silently wrong shapes",
  "Multiplying an operator with an array of the wrong height, or combining operators of mismatched shapes, raises ValueError; with matching shapes the result has exactly the shape (rows(A), columns(X)).",
  "all operators and arrays","a silent broadcast would only appear for particular sizes",
  [f"{LB}:LinearOperator.matmat",f"{LB}:_ProductLinearOperator.__init__",f"{LB}:_SumLinearOperator.__init__",f"{LO}:ConcatLazy.__init__"])
p("Direct sum acts block-diagonally in the user's order",
  "(a+b).rho(g) is the block diagonal matrix of a.rho(g) and b.rho(g) in the coordinate order the user wrote, although the object stores a re-ordered canonical form and a permutation.",
  "all concrete representations a, b, all group elements, every outcome of the internal sort",
  "the canonicalising permutation depends on hashes, sizes, multiplicities and nesting; tests sample a few sums",
  [f"{PS}:SumRep.__init__",f"{PS}:SumRep.compute_canonical",f"{PS}:SumRep.rho",f"{RP}:Rep.__add__"])
p("Tensor product acts as the Kronecker product in the user's order",
  "(a*b).rho(g) is the Kronecker product of a.rho(g) and b.rho(g) in row-major order of the pair (coordinate of a, coordinate of b), including when a or b are direct sums (distribution of products over sums) or products.",
  "all concrete representations of one group, all group elements, every outcome of the internal sort",
  "axis reordering, block permutation and multiplicity grouping compose; a wrong composition can be invisible for small symmetric shapes",
  [f"{PS}:mul_reps",f"{PS}:ProductRep.compute_canonical",f"{PS}:distribute_product",f"{PS}:rep_permutation",f"{PS}:ProductRep.rho"])
p("Dual acts by the inverse transpose",
  "a.T.rho(g) is the inverse transpose of a.rho(g), in the same coordinate order; for groups flagged orthogonal a.T has the same matrices as a.",
  "all concrete representations and invertible (resp. orthogonal) group elements","T re-sorts the dualised summands/factors and composes permutations",
  [f"{RP}:Dual",f"{RP}:Rep.T",f"{PS}:SumRep.T",f"{PS}:ProductRep.T"])
p("Sizes follow the algebra",
  "size(a+b)=size a+size b, size(a*b)=size a*size b, size(a.T)=size a, size(n*a)=n*size a, size(a**n)=size(a)**n, size(T(p,q,G))=G.d**(p+q), and rho(g) has exactly that many rows and columns.",
  "all concrete representations and all n","sizes are recomputed from the canonical dictionary after merging",
  [f"{PS}:SumRep.size",f"{PS}:ProductRep.size",f"{RP}:Rep.__pow__",f"{RP}:T"])
p("Stored permutations are permutations and canonicalize honours its contract",
  "Every representation's perm is a permutation of range(size), invperm is its inverse, canonicalize() returns a representation in canonical order (identity perm) together with a perm such that v[perm] transforms under the canonical representation when v transforms under the original.",
  "all constructible representations","invariant over arbitrary sequences of +,*,T,n*,** operations",
  [f"{PS}:SumRep.canonicalize",f"{PS}:ProductRep.canonicalize",f"{PS}:SumRepFromCollection"])
p("Matrices do not depend on hash seeds or sort order",
  "Two processes with different hash randomisation (hence different internal orderings) compute identical rho(g) and drho(A) matrices for the same representation expression.",
  "all orderings the sort may produce, all expressions","hash randomisation cannot be enumerated by tests",
  [f"{RP}:Rep.__lt__",f"{PS}:SumRep.compute_canonical",f"{PS}:ProductRep.compute_canonical"])
p("Deferred instantiation equals direct construction",
  "Building an expression from the abstract V and then calling it with G gives the same matrices as building the expression from V(G).",
  "all expressions over +,*,T,**,integer multiples and all groups","nesting of deferred sums and products",
  [f"{PS}:DeferredSumRep.__call__",f"{PS}:DeferredProductRep.__call__",f"{RP}:Base.__call__",f"{RP}:Dual.__call__"])
p("Integer sugar",
  "n*rep is the direct sum of n copies, rep+n and n+rep add n trivial coordinates on the right/left, rep**n is the n-fold tensor product with rep**0 trivial, 0*rep is the integer 0 and neutral for +.",
  "all n and representations","boundary cases 0 and 1 take different code paths",
  [f"{RP}:mul_reps",f"{RP}:Rep.__add__",f"{RP}:Rep.__radd__",f"{RP}:Rep.__pow__"])
p("rho is a group homomorphism",
  "rho(gh)=rho(g)rho(h), rho(identity)=identity and rho(g^-1)=rho(g)^-1 for every tensor representation.",
  "all representations and group elements","quantifies over all matrices",
  [f"{PS}:SumRep.rho",f"{PS}:ProductRep.rho",f"{RP}:Dual.rho"])
p("drho is the derivative of rho at the identity",
  "drho(A) is the first-order coefficient of rho(1+eps A) for every tensor representation, so the explicit drho agrees with the automatic-differentiation fallback.",
  "all representations and all A","a missing Kronecker-sum term only shows for particular A",
  [f"{PS}:SumRep.drho",f"{PS}:ProductRep.drho",f"{RP}:Dual.drho",f"{RP}:Rep.drho",f"{LO}:LazyJVP",f"{LO}:kronsum"])
p("drho is a Lie algebra homomorphism",
  "drho is linear and drho([A,B]) = [drho(A),drho(B)] for every tensor representation.",
  "all representations and all A, B","quantifies over all matrices",
  [f"{PS}:ProductRep.drho",f"{PS}:SumRep.drho",f"{RP}:Dual.drho"])
p("repin>>repout is the representation on linear maps",
  "vec(W) is fixed by (repin>>repout).rho(g) if and only if W repin.rho(g) = repout.rho(g) W; `>>`, `<<` and `repout*repin.T` denote the same representation.",
  "all representations, matrices W and group elements","row-major vectorisation convention must match everywhere",
  [f"{RP}:Rep.__rshift__",f"{RP}:Rep.__lshift__",f"{OB}:Linear"])
p("Products of representations of different groups",
  "(a*b).rho({G1:g1,G2:g2}) is the Kronecker product of a.rho(g1) and b.rho(g2) in the user's order, and further products merge factors group by group without changing the matrices.",
  "all representations of distinct groups, all group elements","depends on the relative order in which the sort places factors of different groups",
  [f"{PS}:DirectProduct.__init__",f"{PS}:DirectProduct.rho",f"{PS}:mul_reps"])
p("The ordering used for canonical forms is a strict weak order",
  "rep1<rep2 is irreflexive, asymmetric and transitive with transitive incomparability on the representations that can be compared, so canonical forms are well defined.",
  "all triples of representations, all hash functions","needs specific triples and hash values",
  [f"{RP}:Rep.__lt__",f"{RP}:Base.__lt__",f"{RP}:Dual.__lt__"])
p("Representations are immutable values",
  "Instantiating or combining representations never changes an existing representation object.",
  "all histories of API calls","aliasing through a module-level object needs an interleaving of uses",
  [f"{RP}:ScalarRep.__call__",f"{RP}:Scalar"])
p("Re-instantiating a concrete representation",
  "Calling an already concrete representation with a group gives the representation of the same shape for that group.",
  "all concrete representations and groups","EMLP calls every representation it is given",
  [f"{PS}:SumRep.__call__",f"{RP}:Rep.__call__",f"{OB}:EMLP.__init__"])
p("Equality and hashing contract",
  "Equal representations have equal hashes and equal matrices; == is total (never raises) between representations.",
  "all pairs of representations","dictionary lookups depend on it for all histories",
  [f"{PS}:SumRep.__eq__",f"{PS}:ProductRep.__eq__",f"{PS}:SumRep.__hash__",f"{RP}:Base.__eq__"])
p("Constraint matrix is sound for the whole group",
  "A vector annihilated by the constraint matrix is fixed by rho(g) for every g in the group generated by the discrete generators, their inverses and the exponentials of the Lie algebra.",
  "all representations, all vectors, all words in the generators, all real times","the group is infinite",
  [f"{RP}:Rep.constraint_matrix",f"{GR}:noise2sample"])
p("Constraint matrix is complete",
  "Every vector fixed by rho(g) for all group elements is annihilated by the constraint matrix.",
  "all representations and vectors","missing solutions are invisible to equivariance tests",
  [f"{RP}:Rep.constraint_matrix",f"{RP}:orthogonal_complement"])
p("Equivariant basis of a direct sum",
  "For a direct sum (with multiplicities) equivariant_basis() spans exactly the invariant vectors of the sum, in the user's coordinate order, and its column count is the sum of multiplicity times the dimension of each summand's solution space.",
  "all sums","block/multiplicity/permutation bookkeeping for all shapes",
  [f"{PS}:SumRep.equivariant_basis",f"{LO}:lazy_direct_matmat"])
p("Equivariant basis for products of different groups",
  "For representations of distinct groups the Kronecker product of the factor bases spans exactly the vectors invariant under the product group.",
  "all mixed products","completeness cannot be tested by sampling",
  [f"{PS}:DirectProduct.equivariant_basis",f"{PS}:DirectProduct.equivariant_projector"])
p("equivariant_projector is the orthogonal projector onto the invariants",
  "P@P=P, P.T=P, P v is invariant for every v and P v = v for every invariant v, for atomic, product, sum and mixed representations; P is Q Q^T.",
  "all representations and vectors (real scalars)","all v",
  [f"{RP}:Rep.equivariant_projector",f"{PS}:SumRep.equivariant_projector",f"{PS}:DirectProduct.equivariant_projector"])
p("Solution cache is transparent",
  "For any history of equivariant_basis calls the answer equals the answer of a fresh solve.",
  "all histories of calls on all representations","needs particular interleavings of groups with equal names",
  [f"{RP}:Rep.solcache",f"{RP}:Rep.equivariant_basis",f"{GR}:Group.__eq__",f"{GR}:Embed.__init__"])
p("Krylov rank doubling finds the whole solution space",
  "krylov_constraint_solve terminates and, unless it hits the memory limit (which it reports), returns a basis of the complete null space.",
  "all constraint sizes, all nullities","needs nullities at each boundary r=10,20,40,...",
  [f"{RP}:krylov_constraint_solve"])
p("Krylov inner loop terminates with a converged basis or an exception",
  "krylov_constraint_solve_upto_r makes at most six attempts with decreasing learning rate, each of at most 20000 iterations, and returns only after an iterate with loss below tol^2 was seen.",
  "all loss traces","depends on the divergence history",
  [f"{RP}:krylov_constraint_solve_upto_r"])
p("Lie algebra generators satisfy the defining equations",
  "For every n the Lie algebra basis of SO, O, Sp, SL, GL, U, SU, SO13p and SO11p consists of matrices satisfying the defining linear equation, fills every slot of the allocated array, is linearly independent and spans.",
  "all n","index arithmetic for all n",
  [f"{GR}:SO",f"{GR}:Sp",f"{GR}:SL",f"{GR}:GL",f"{GR}:U",f"{GR}:SU",f"{GR}:SO13p",f"{GR}:SO11p"])
p("Discrete generators generate the advertised finite groups",
  "S(n) generates every permutation matrix, Z(n) exactly the n cyclic shifts, Cube() exactly 24 permutations, O(n)/O13/O11 generators preserve the (pseudo-)orthogonal form.",
  "all n, all permutations","group elements are words of unbounded length",
  [f"{GR}:S",f"{GR}:Z",f"{GR}:Cube",f"{GR}:O",f"{GR}:O13",f"{GR}:O11"])
p("is_orthogonal is sound",
  "If the automatic check passes (exactly) then every group element, and every tensor representation of it, is orthogonal, so a.T may return a.",
  "all groups, all words/exponentials, all tensor representations","infinite group",
  [f"{GR}:Group.__init__",f"{RP}:Rep.T"])
p("is_permutation is sound",
  "If is_permutation is set then every group element acts by a permutation matrix in every representation flagged is_permutation.",
  "all groups and words","flag is computed once in the constructor; subclasses that add generators later are not re-checked",
  [f"{GR}:Group.__init__",f"{GR}:D.__init__",f"{OB}:gated"])
p("Samples are group elements",
  "Group.samples returns products of exponentials of Lie algebra elements and integer powers (negative powers being inverses) of discrete generators, for every random draw.",
  "all random draws","random",
  [f"{GR}:noise2sample",f"{GR}:matrix_power_simple",f"{GR}:Group.samples"])
p("RubiksCube is the Rubik's cube group",
  "The six generators are the quarter turns of a 3x3x3 cube: the eight corner cubies and twelve edge cubies are never torn apart by any sequence of moves.",
  "all words in the generators","the group is astronomically large",
  [f"{GR}:RubiksCube",f"{DS}:BrokenRubiksCube"])
p("Product groups",
  "V(G1*G2) is the tensor product of the base representations, its generators are generators of the two factors acting on separate tensor axes, and its invariant vectors are those of the mixed product representation.",
  "all pairs of groups","two encodings of the product must agree",
  [f"{GR}:DirectProduct"])
p("Embed acts on the given slice only",
  "Embed(G,d,slice) acts as G on the slice coordinates and trivially elsewhere; two embeddings that act differently are different groups.",
  "all groups, dimensions and slices","equality is by name",
  [f"{GR}:Embed",f"{GR}:Group.__eq__"])
p("Group constructors are total on the documented domain",
  "SO(n), SL(n), SU(n), S(n), ... construct for every n>=1.",
  "all n","boundary n=1",
  [f"{GR}:SO",f"{GR}:SL",f"{GR}:SU",f"{GR}:S",f"{GR}:Group.__init__"])
p("Linear layer is equivariant for all parameters",
  "Linear(repin,repout)(rho_in(g) x) = rho_out(g) Linear(repin,repout)(x) for every parameter value, input and group element, and can represent every equivariant affine map.",
  "all parameters, inputs, group elements, representations","training visits parameters no test samples",
  [f"{OB}:Linear",f"emlp/nn/flax.py:_Linear",f"emlp/nn/haiku.py:hkLinear",f"emlp/nn/pytorch.py:Linear"])
p("BiLinear layer is equivariant",
  "BiLinear(repin,repout) commutes with the group for every parameter value, input batch and random choice of indices made at construction.",
  "all parameters, inputs, random index choices","random choices and parameters",
  [f"{RP}:bilinear_weights",f"{OB}:BiLinear"])
p("BiLinear consumes exactly its parameters",
  "bilinear_weights returns active_dims equal to the number of parameters read; all slices are in range and every parameter is used exactly once.",
  "all representations","multiplicity arithmetic",
  [f"{RP}:bilinear_weights"])
p("gated adds one gate per non-scalar non-permutation summand",
  "gated(rep) has size size(rep)+number of such summands, keeps the first size(rep) coordinates unchanged, and gate_indices maps each coordinate to itself or to the gate of its own summand, always in range.",
  "all canonical sums","index arithmetic for all multiplicities",
  [f"{OB}:gated",f"{OB}:gate_indices"])
p("GatedNonlinearity is equivariant",
  "GatedNonlinearity(rep) maps vectors of gated(rep) to vectors of rep and commutes with the group for any activation function.",
  "all inputs, all canonical sums whose permutation flags are truthful","all inputs",
  [f"{OB}:GatedNonlinearity"])
p("EMLP is equivariant end to end",
  "EMLP(rep_in,rep_out,group,ch,num_layers)(rho_in(g) x) = rho_out(g) EMLP(...)(x) for all parameters of all layers.",
  "all depths, widths, parameters, inputs, group elements","composition over unbounded depth",
  [f"{OB}:EMLP",f"{OB}:EMLPBlock"])
p("uniform_rep has exactly ch channels",
  "uniform_rep(ch,G) terminates and has size exactly ch for every ch>=1 and every group of dimension>=1, for every random draw.",
  "all ch, d, random draws","loop over all ch",
  [f"{OB}:uniform_rep",f"{OB}:lambertW",f"{OB}:binomial_allocation"])
p("Any representation can be used for the hidden layers",
  "EMLP accepts any representation (or list of representations) for ch as documented.",
  "all representations","depends on the order in which the user wrote the summands",
  [f"{OB}:EMLP.__init__",f"{OB}:gate_indices",f"{PS}:SumRep.__hash__"])
p("Augmenting an equivariant model changes nothing",
  "GroupAugmentation(model) computes the same function as model when model is equivariant, for every random draw of group elements, and is the model itself when training is False.",
  "all models, inputs, draws","random draws",
  [f"{DS}:GroupAugmentation"])
p("Standardize preserves equivariance under invariant statistics",
  "Standardize(model,stats) is equivariant when model is, the means are invariant and the scales commute with the group; the dataset statistics satisfy this.",
  "all models and statistics","all inputs",
  [f"{OB}:Standardize",f"{DS}:ParticleInteraction",f"{DS}:O5Synthetic",f"{DS}:Inertia"])
p("Inertia targets are equivariant",
  "The Inertia dataset's target, as a function of masses and positions, is O(3)-equivariant of type T(2).",
  "all masses, positions, orthogonal matrices","all inputs",[f"{DS}:Inertia"])
p("O5Synthetic targets are invariant",
  "The O5Synthetic target is invariant under all orthogonal transformations.",
  "all inputs and orthogonal matrices","all inputs",[f"{DS}:O5Synthetic"])
p("ParticleInteraction targets are Lorentz invariant",
  "The ParticleInteraction matrix element is invariant under every matrix preserving the Minkowski form.",
  "all momenta and Lorentz matrices","all inputs",[f"{DS}:ParticleInteraction"])
p("sparsify_basis terminates",
  "sparsify_basis returns for every input.",
  "all divergence histories","needs persistent divergence",[f"{RP}:sparsify_basis"])
p("The four framework back ends compute the same layer",
  "objax, flax, haiku and pytorch Linear layers use the same weight representation and compute the same function of (w,b,x).",
  "all representations, parameters, inputs","four copies of the code",
  [f"{OB}:Linear","emlp/nn/flax.py:_Linear","emlp/nn/haiku.py:hkLinear","emlp/nn/pytorch.py:Linear"])
p("equivariance_error is zero exactly on equivariant maps",
  "equivariance_error(W,repin,repout,G) is 0 for every exactly equivariant W (or basis of such maps) and every draw of group elements, and is positive when a drawn element violates equivariance.",
  "all W, all draws","random draws",[f"{RP}:equivariance_error",f"{RP}:scale_adjusted_rel_error"])
p("The built-in groups generate exactly the groups they are named after",
  "The group generated by the discrete generators and the exponentials of the Lie algebra of each built-in real group object is exactly the matrix group named in its docstring: O(n), SO(n), SL(n), GL(n), Sp(m), the Lorentz groups SO13p/SO13/O13/SO11p/O11, C(k), D(k), S(n), Z(n), Cube, RubiksCube, Scaling, Parity, TimeReversal, the embedded groups SO2eR3/O2eR3/DkeR3, embeddings and products of groups.",
  "all n, all matrices","a sampled element only shows inclusion on one side; that every matrix of the group is generated needs a proof for all n",
  [f"{GR}:SO",f"{GR}:O",f"{GR}:SL",f"{GR}:GL",f"{GR}:Sp",f"{GR}:SO13p",f"{GR}:O13",f"{GR}:C",f"{GR}:D",f"{GR}:Embed",f"{GR}:DirectProduct"])
HD="experiments/trainer/hamiltonian_dynamics.py"
p("Data set targets are equivariant under the symmetry objects the data sets declare",
  "For every element of the group generated by dataset.symmetry, the target of Inertia (O(3)), O5Synthetic (O(5)), ParticleInteraction (Lorentz()) and DoubleSpringPendulum.H (O2eR3()) satisfies f(rho_in(g)x) = rho_out(g)f(x) with the declared rep_in and rep_out.",
  "all inputs, all elements of the generated group","a continuous group and real inputs; the group object is only given by generators",
  [f"{DS}:Inertia",f"{DS}:O5Synthetic",f"{DS}:ParticleInteraction",f"{HD}:DoubleSpringPendulum",f"{GR}:O2eR3"])
p("Hamiltonian dynamics conserve the Hamiltonian and inherit its symmetries",
  "symplectic_form(z) raises AssertionError on vectors of odd length and otherwise is multiplication by J=[[0,I],[-I,0]], orthogonal to z, with J(Jz)=-z. Along every exact solution of z'=hamiltonian_dynamics(H,z) the value of H is constant. hamiltonian_dynamics commutes with every symplectic matrix leaving H unchanged; hence for orthogonal groups acting on m positions and m momenta the dynamics of an invariant H (such as EMLPH with scalar output) are equivariant, and the dynamics of DoubleSpringPendulum commute with O2eR3() wherever H is differentiable.",
  "all dimensions, all differentiable H, all solutions","integrators are approximate, so a test can only see an approximate drift",
  [f"{HD}:unpack",f"{HD}:symplectic_form",f"{HD}:hamiltonian_dynamics",f"{HD}:DoubleSpringPendulum",f"{OB}:EMLPH"])
p("BrokenRubiksCube can be classified by an equivariant model",
  "The label of BrokenRubiksCube is constant on the orbits of RubiksCube(): no element of the group moves a configuration labelled solvable to one labelled broken, nor a state to the result of UBedge_flip, ULBcorner_rot or LBface_swap, so an equivariant model 6*Vector -> 2*Scalar can separate the classes.",
  "all elements of the generated group, all equivariant functions, all samples and permutations of the test set, all one-hot states","the orbit has more than 10^40 states; a model that fails to train does not show that none exists",
  [f"{DS}:BrokenRubiksCube",f"{DS}:UBedge_flip",f"{DS}:ULBcorner_rot",f"{DS}:LBface_swap",f"{GR}:RubiksCube"])
p("InvertedCube can be classified by an equivariant model",
  "There is a function 6*Vector -> 2*Scalar, equivariant for Cube(), that separates the two training rows of InvertedCube and gives every row of every test set (whatever group samples and permutation are drawn) its label.",
  "all samples and permutations of the test set","existence over all draws",
  [f"{DS}:InvertedCube",f"{GR}:Cube"])
p("EMLP is the same network in the four back ends",
  "EMLP of objax, flax, haiku and pytorch are constructed for the same arguments; with the same parameters they compute the same outputs and reject the same inputs, and all four are equivariant for all parameters.",
  "all representations, groups, channel specifications, depths, parameters, inputs","four copies of the code, unboundedly many networks",
  [f"{OB}:EMLP","emlp/nn/flax.py:EMLP","emlp/nn/haiku.py:EMLP","emlp/nn/pytorch.py:EMLP","emlp/nn/pytorch.py:GatedNonlinearity"])
p("The baseline MLP uses representations and group for shapes only",
  "MLP(rep_in,rep_out,group,ch,num_layers) has layers of widths rep_in.size(), num_layers times ch, rep_out.size(); it maps batches of rows of length rep_in.size() to rows of length rep_out.size(), raises on other inputs, is the same function in the four back ends (pytorch with transposed matrices), MLPH is the sum of its outputs; and it is equivariant like EMLP.",
  "all representations, widths, depths, parameters, inputs","all sizes and parameters",
  [f"{OB}:MLP",f"{OB}:MLPH","emlp/nn/flax.py:MLP","emlp/nn/haiku.py:MLP","emlp/nn/pytorch.py:MLP"])
p("Standardize wraps the networks of its back end",
  "Standardize(model,ds_stats) of objax and of pytorch wraps EMLP and MLP of the same back end: it returns sout*model((x-muin)/sin)+muout, or model((x-muin)/sin) for two statistics, and preserves equivariance for statistics that commute with the group.",
  "all models, statistics, inputs","all models and statistics",
  [f"{OB}:Standardize","emlp/nn/pytorch.py:Standardize",f"{OB}:EMLP","emlp/nn/pytorch.py:EMLP","emlp/nn/pytorch.py:MLP"])
TR="experiments/trainer/trainer.py"; MT="experiments/trainer/model_trainer.py"; CL="experiments/trainer/classifier.py"
p("Trainer.train makes every step once, in order",
  "train(n) with n>0 makes n*len(loader) steps, numbered consecutively from epoch*len(loader), on the minibatches of n passes through the loader in order, with learning rate lr_sched(step/len(loader)), and advances epoch by n; train(a) then train(b) has the same effect as train(a+b). train_to(f) raises AssertionError if f is less than the current epoch and otherwise leaves the epoch at f, having made the missing steps.",
  "all n, loaders, updates, states","all numbers of epochs and all loaders",
  [f"{TR}:Trainer.train",f"{TR}:Trainer.train_to",f"{TR}:Trainer.step"])
p("evalAverageMetrics averages over the data set",
  "evalAverageMetrics(loader,metrics) raises KeyError for a loader without batches and otherwise returns the mean of the metric of the batches; for a metric that is itself a mean over the batch this is the mean over the data set.",
  "all loaders, metrics, batch sizes","all batch sizes, including those that do not divide the size of the data set",
  [f"{TR}:Trainer.evalAverageMetrics"])
p("logStuff keeps the best checkpoint",
  "With early_stop_metric the checkpoint kept is one at which the metric was best among all logged values, the latest such one; without, it is the last one.",
  "all sequences of metric values","all histories",[f"{TR}:Trainer.logStuff"])
p("HamiltonianDataset items are pieces of trajectories",
  "chunk_training_data raises if the number of chunks per trajectory does not divide the length, and otherwise returns one contiguous piece of each trajectory; the item ((z0,T),zs) of the data set satisfies: zs are the states of the solution starting at z0 at the times T. generate_trajectory_data returns n_systems trajectories for every batch size.",
  "all lengths, chunk lengths, numbers of systems, batch sizes, flows, random choices","all combinations of lengths and all random choices",
  [f"{HD}:HamiltonianDataset.chunk_training_data",f"{HD}:HamiltonianDataset.generate_trajectory_data",f"{HD}:HamiltonianDataset.__getitem__"])
p("rel_err and log_rollout_error are bounded and detect equality",
  "rel_err(a,b) is symmetric, between 0 and 1, 0 exactly if a equals b, and nan exactly if both are zero. The log_rollout_error lies between log(1e-7) and 0, is log(1e-7) for equal trajectories and nan exactly if some predicted and true state are both zero.",
  "all arrays, all trajectories","the triangle inequality for all arrays",
  [f"{HD}:rel_err",f"{HD}:log_rollout_error"])
p("The losses and equivariance_err of the trainers respect the symmetry",
  "The mean squared error is at least 0 and 0 exactly for equal arrays; for an equivariant model with orthogonal output representation the loss of a minibatch does not change if the group acts on inputs and targets. equivariance_err is between 0 and 1, 0 exactly if the two predictions agree, and 0 (or nan) for every equivariant model. The predicted class is the first of the largest logits.",
  "all models, minibatches, group samples, representations","all samples and models",
  [f"{MT}:RegressorPlus.loss",f"{MT}:equivariance_err",f"{MT}:scale_adjusted_rel_err",f"{CL}:Classifier.metrics"])
p("align2ref rotates the vectors to the reference",
  "align2ref(refs,vecs) is finite, maps (0,0,1) to the reference, and preserves angles in the plane orthogonal to it, for every reference.",
  "all references and vectors","all directions, including the exceptional one",
  [f"{HD}:align2ref"])
p("The exact flow of an invariant Hamiltonian is equivariant",
  "If a symplectic matrix A leaves H unchanged, A maps solutions of z'=hamiltonian_dynamics(H,z) to solutions; solutions are determined by their state at time 0, and the flow satisfies phi_t(Az) = A phi_t(z).",
  "all dimensions, all H with Lipschitz gradient, all times","integrators are approximate and times unbounded",
  [f"{HD}:hamiltonian_dynamics",f"{HD}:HamiltonianDataset",f"{HD}:BHamiltonianFlow"])
p("Exact solvers exist",
  "For every group and representation there are a singular value decomposition, a rank test and a result of the iterative solver that meet their contracts: the claims about equivariant_basis are not vacuous for any representation.",
  "all groups, all representations","existence of an exact decomposition for every real matrix",
  ["emlp/reps/representation.py:orthogonal_complement","emlp/reps/representation.py:krylov_constraint_solve"])
p("equivariant_basis of T(p,q) is a basis of the invariant tensors",
  "T(p,q)(G).equivariant_basis() of a group whose group elements are known has d**(p+q) rows, orthonormal columns, and its columns span exactly the tensors with p upper and q lower indices that every element of the group fixes.",
  "all groups given by their elements, all p, q, d","all ranks and dimensions",
  ["emlp/reps/representation.py:T","emlp/reps/representation.py:Rep.equivariant_basis"])
p("Permutation groups have one basis element per orbit",
  "For a group of permutation matrices T(p,q)(G).equivariant_basis() has one column per orbit of the group on index tuples of length p+q: for S(n) the number of set partitions of p+q elements with at most n blocks (the Bell number if p+q<=n), for Z(n) n**(p+q-1), for Trivial(n) n**(p+q).",
  "all n, p, q","all n and all ranks",
  ["emlp/groups.py:S","emlp/groups.py:Z","emlp/groups.py:Trivial","emlp/reps/representation.py:Rep.equivariant_basis"])
p("No invariant tensors of odd rank for groups with -1",
  "For O(n), SO(2m), Sp(m), SO13 and Lorentz T(p,q)(G).equivariant_basis() has no column if p+q is odd.",
  "all n, m, p, q","all dimensions and ranks",
  ["emlp/groups.py:O","emlp/groups.py:SO","emlp/groups.py:Sp","emlp/groups.py:SO13","emlp/groups.py:Lorentz"])
p("Invariant tensors of small rank of O(n) and SO(n)",
  "For rank 2 the basis of O(n), and of SO(n) with n>=3, is one column proportional to the identity; for SO(2) it spans the identity and the quarter turn; for rank 3 and SO(3) it is one column proportional to the Levi-Civita symbol.",
  "all n, p, q of total rank 2 or 3","all dimensions",
  ["emlp/groups.py:O","emlp/groups.py:SO","emlp/reps/representation.py:Rep.equivariant_basis"])
p("vis asks for as many clusters as there are distinct values",
  "vis(repin,repout) clusters the entries of a projected random vector into as many clusters as the basis has columns. For representations that act by permutations no projected vector has more distinct entries (also after rounding), and some has as many.",
  "all permutation representations, random vectors, rounding functions","all random vectors",
  ["emlp/reps/representation.py:vis"])
p("is_orthogonal and is_permutation are exact, and their values for the groups",
  "With exact comparisons is_orthogonal is set exactly if every element of the group is orthogonal, and is_permutation exactly if there is no Lie algebra and every generator is a permutation matrix (so every element is). Both are set for S(n), Z(n), Trivial(n), Cube and RubiksCube; only is_orthogonal for SO(n), O(n), C(k) with k>1, Parity and TimeReversal; none for SL, GL, Sp, Scaling and the Lorentz groups.",
  "all groups tested at construction; all n>1 for the table","all n",
  [f"{GR}:Group.__init__",f"{GR}:S",f"{GR}:SO",f"{GR}:Lorentz"])
p("The size of the basis is the average character",
  "For a finite group and every representation the number of columns of equivariant_basis() is the average over the group of the traces of rho_dense(g); for T(p,q) of a group of orthogonal matrices the average of trace(g)**(p+q), for permutation groups the average of the (p+q)-th powers of the numbers of fixed points.",
  "all finite groups given by their elements, all representations","all groups and representations",
  ["emlp/reps/representation.py:Rep.equivariant_basis","emlp/reps/representation.py:Rep.rho_dense"])
p("Numbers of invariant tensors of C(k), D(k), Parity, TimeReversal and Cube",
  "T(p,q)(G).equivariant_basis() has, with n=p+q, for C(k) as many columns as there are sequences of n signs with sum divisible by k, for D(k) half of them (n>0), for Parity (4**n -+ 2**n)/2, for TimeReversal (4**n+2**n)/2, for Cube (6**n+9*2**n)/24 (n>0).",
  "all k, p, q","all ranks",
  [f"{GR}:C",f"{GR}:D",f"{GR}:Parity",f"{GR}:TimeReversal",f"{GR}:Cube"])
p("Numbers of invariant tensors of SO(2) and O(2)",
  "T(p,q)(G).equivariant_basis() has no columns if n=p+q is odd; if n is even binomial(n,n/2) for SO(2), and half of that for O(2) (n>0).",
  "all p, q","all ranks",
  [f"{GR}:SO",f"{GR}:O","emlp/reps/representation.py:Rep.equivariant_basis"])
p("EMLPode: the flow of an equivariant network is well defined and equivariant",
  "For the differential equation z'=model(z) of an EMLPode with swish gates: through every state runs a solution, two solutions on an interval that agree at one time agree everywhere, and if rho(g) takes one solution to another at one time it does at all times. MLPode has the first two properties.",
  "all networks, parameters, group elements, states, time intervals","all states and times; the integrator only approximates solutions",
  [f"{OB}:EMLPode",f"{OB}:MLPode",f"{HD}:BOdeFlow"])
p("EMLPH and MLPH define Hamiltonian flows that conserve their energy",
  "The energy of EMLPH and MLPH is differentiable everywhere. For z'=hamiltonian_dynamics(H,z) a unique solution runs through every state and H is constant along it. For EMLPH every element of the group that acts by a symplectic matrix, and for 2m copies of V of an orthogonal group every element, takes solutions to solutions.",
  "all networks, parameters, group elements, states, time intervals","all states and times",
  [f"{OB}:EMLPH",f"{OB}:MLPH",f"{HD}:hamiltonian_dynamics",f"{HD}:HamiltonianFlow"])
p("The flows of MLPode and MLPH exist for all times",
  "For all widths and weights, through every state runs a solution of z'=MLPode(z), and of z'=hamiltonian_dynamics(MLPH.H,z), that is defined for all times, so the integration over any list of times is well posed; the flow maps satisfy phi(s+t)=phi(s) after phi(t), and the flow of MLPH conserves its energy.",
  "all widths, weights, states and times","all times; integrators only see finite intervals",
  [f"{OB}:MLPode",f"{OB}:MLPH",f"{HD}:hamiltonian_dynamics",f"{HD}:BOdeFlow"])
p("The number of parameters of equivariant linear layers is additive",
  "(a+b).equivariant_basis() has as many columns as the bases of a and b together, n*a has n times as many as a, and a*b as many as b*a; the products (a+b)*c and c*(a+b) have the columns of a*c and b*c together. For layers, the number of columns of the basis of (a1+a2+...)>>(b1+b2+...) is the sum of the numbers for ai>>bj, so c*a>>d*b has c*d times the number for a>>b; for orthogonal groups a>>b and b>>a have the same number and T(p,q)>>T(p',q') has as many as there are invariant tensors of rank p+q+p'+q'. For S(n) a layer from c*T(p) to d*T(q), p+q<=n, has c*d times the Bell number of p+q, for Z(n) c*d*n^(p+q-1), for SO(2) c*d times a central binomial coefficient.",
  "all groups, all representations built from them, all numbers of summands and channels, all ranks, exact solvers",
  "Tests can compare ranks for a few representations; additivity for all sums, and the numbers for all n, c, d, p and q, need the decomposition of the invariant spaces.",
  [RP+":Rep.equivariant_basis", PS+":SumRep.equivariant_basis", PS+":ProductRep", RP+":Rep.__rshift__", RP+":Rep.__mul__"])
p("The harmonic oscillator SHO",
  "SHO.H of a batch is the sum over its rows of (q**2+p**2)/2 and raises IndexError for states with fewer than two entries. Its gradient is z, so hamiltonian_dynamics is (p,-q); the flow is the rotation of the (q,p) plane, it conserves H, and BHamiltonianFlow with an integrator that makes no error returns exactly the rotated states, for every batch size and every list of times. Rotations of the plane take solutions to solutions; not all orthogonal matrices do (reflections reverse time).",
  "all batches, states, lists of times, orthogonal symplectic matrices","all times and states; a numerical integrator only approximates",
  [f"{HD}:SHO.H",f"{HD}:hamiltonian_dynamics",f"{HD}:BHamiltonianFlow"])
p("Rollouts of batches: the losses and rollout errors of the trainers are invariant",
  "With an integrator that makes no error, BOdeFlow and BHamiltonianFlow return for every row of z0 the flow of that row alone (vmap of HamiltonianFlow). The losses of IntegratedODETrainer and IntegratedDynamicsTrainer are 0 exactly if the targets are the rollouts of the model. If each example of a minibatch (initial condition and targets) is moved by a group element of its own that acts by an orthogonal matrix, the loss does not change for EMLPode of every group flagged is_orthogonal, nor for EMLPH if the matrices are also symplectic; log_rollout_error and log_rollout_error_ode do not change if the data set has the symmetry too.",
  "all batch sizes, lists of times, networks, parameters, group elements (one per example), minibatches","all times, states and elements",
  [f"{HD}:BOdeFlow",f"{HD}:BHamiltonianFlow",f"{HD}:IntegratedODETrainer.loss",f"{HD}:IntegratedDynamicsTrainer.loss",f"{HD}:log_rollout_error",f"{HD}:log_rollout_error_ode"])
p("Schur's lemma for the computed equivariant bases of the non-compact groups",
  "For SL(n), GL(n), Sp(m), SO13p, SO13, Lorentz and O11 the basis returned for T(1,1) has exactly one column, a multiple of the identity, so the only equivariant linear maps V->V are multiples of the identity. For Sp(m) the bases of T(2,0) and T(0,2) have one column, a multiple of the symplectic form, and for SO13p, SO13, Lorentz and O11 one column, a multiple of the Minkowski metric. In general, if only multiples of the identity commute with the group, T(1,1) has one basis element, and T(2,0) and T(0,2) have one if the group also preserves a form.",
  "all n, all m, all groups with the stated properties, exact solvers",
  "A test can compute ranks for a few n; that no other map commutes with a continuous group is a statement about infinitely many matrices and all n.",
  [f"{GR}:SL",f"{GR}:GL",f"{GR}:Sp",f"{GR}:SO13p",f"{GR}:Lorentz",f"{GR}:O11",f"{RP}:Rep.equivariant_basis"])
p("Representations without invariant tensors",
  "For GL(n) and Scaling(n) the basis returned for T(p,q) with p!=q has no column, and for SL(n), n>1, the basis for T(p,q) has no column unless p and q agree modulo n. A layer between such representations has no free weight. In contrast Scaling(n) fixes every tensor with p=q: the basis of T(p,p) has n^(2p) columns.",
  "all n, p and q, exact solvers",
  "All ranks and all n; dense tests reach a few small tensors only.",
  [f"{GR}:SL",f"{GR}:GL",f"{GR}:Scaling",f"{RP}:Rep.equivariant_basis",f"{RP}:T"])
p("The descent of the iterative solver converges at an exponential rate",
  "krylov_constraint_solve_upto_r minimises |CW|^2 by gradient descent with momentum .9. If L bounds the square of the largest singular value of C and lr*L<1/5, the loss after t iterations is at most q**(t//2) times the loss at the start, with some q<1 that depends on C and lr only; so the loss never exceeds the first one, and with enough iterations the loop breaks by convergence, for every tolerance, rank r and start. For lr*L<3.8=2(1+.9) the loss still goes to zero geometrically, up to a constant factor, and W converges as fast to the projection of the start to the null space of C. Such an L exists for every C. Without a bound on lr the claim of the docstring is false: for C=(20) and the default lr=1e-2 (lr*L=4) the iterates grow like 1.5**t.",
  "all real matrices C, ranks, starts, learning rates below the bound, numbers of iterations, tolerances; exact arithmetic",
  "A rate for all matrices and all numbers of iterations is not observable on runs; the threshold 3.8 separates convergence from divergence for all of them.",
  [f"{RP}:krylov_constraint_solve_upto_r"])
with open("/verif/properties.jsonl","w") as f:
    for x in P: f.write(json.dumps(x,ensure_ascii=False)+"\n")
print(len(P))
