{"id": "C01", "title": "Lazy matmul equals dense matmul", "statement": "For every lazy operator built from arrays, identities, permutations, shifts, swaps, 90-degree rotations, Kronecker products, Kronecker sums, direct sums with multiplicities, vertical concatenations, sums, products, scalings and powers, A@X is exactly the matrix product of the mathematical matrix of A with X.", "quantifier": "all operator expressions of any nesting and size, all X with any number of columns", "why_tests_cant": "reshape/moveaxis bookkeeping must be right for every combination of factor shapes and column counts; tests use a few shapes", "anchors": ["emlp/reps/linear_operators.py:LazyKron._matmat", "emlp/reps/linear_operators.py:LazyKronsum._matmat", "emlp/reps/linear_operators.py:lazy_direct_matmat", "emlp/reps/linear_operators.py:LazyPerm", "emlp/reps/linear_operators.py:LazyShift", "emlp/reps/linear_operators.py:SwapMatrix", "emlp/reps/linear_operators.py:Rot90", "emlp/reps/linear_operators.py:ConcatLazy", "emlp/reps/linear_operator_base.py:LinearOperator.dot"]}
{"id": "C02", "title": "to_dense returns the mathematical matrix", "statement": "A.to_dense() returns the Kronecker product / Kronecker sum / block diagonal / product / ... of its operands and agrees with A@eye for every operator.", "quantifier": "all operator expressions", "why_tests_cant": "two implementations of the same matrix (dense path, lazy path) must agree for all operands", "anchors": ["emlp/reps/linear_operator_base.py:LinearOperator.to_dense", "emlp/reps/linear_operators.py:LazyKron.to_dense", "emlp/reps/linear_operators.py:LazyKronsum.to_dense", "emlp/reps/linear_operators.py:LazyDirectSum.to_dense", "emlp/reps/linear_operators.py:ConcatLazy.to_dense"]}
{"id": "C03", "title": "Transpose and adjoint of a (real) lazy operator", "statement": "A.T@X and A.H@X multiply by the transpose of the matrix of A whenever they do not raise; (A.T).T acts as A; and the operators for which they raise are exactly characterised (LazyDirectSum and Rot90 always, ConcatLazy on a single column).", "quantifier": "all real operator expressions, all X", "why_tests_cant": "transposition is defined by recursion over the operator classes; a class whose adjoint drops an argument only shows up on particular nestings", "anchors": ["emlp/reps/linear_operator_base.py:_TransposedLinearOperator", "emlp/reps/linear_operator_base.py:_AdjointLinearOperator", "emlp/reps/linear_operators.py:LazyKron._adjoint", "emlp/reps/linear_operators.py:LazyPerm._adjoint", "emlp/reps/linear_operators.py:LazyShift._adjoint", "emlp/reps/linear_operators.py:ConcatLazy._rmatmat", "emlp/reps/linear_operators.py:LazyDirectSum._adjoint"]}
{"id": "C04", "title": "Adjoint is the conjugate transpose for complex operators", "statement": "For complex data A.H acts as the conjugate transpose (so P = Q@Q.H is the orthogonal projector onto the columns of Q).", "quantifier": "all complex matrices", "why_tests_cant": "tests only check equivariance of P v, not that P is a projector", "anchors": ["emlp/reps/linear_operator_base.py:Lazy._rmatmat", "emlp/reps/linear_operators.py:LazyKron._adjoint", "emlp/reps/representation.py:Rep.equivariant_projector"]}
{"id": "C05", "title": "invT is the inverse transpose", "statement": "A.invT() returns the inverse transpose of the matrix of A for identities, permutations, shifts, swaps, rotations, dense operators, Kronecker products, products and powers; the classes for which it is not (sums, scalings, direct sums) are exhibited.", "quantifier": "all operator expressions with invertible leaves", "why_tests_cant": "depends on every nesting of invT through products and Kronecker products", "anchors": ["emlp/reps/linear_operator_base.py:_ProductLinearOperator.invT", "emlp/reps/linear_operator_base.py:_ScaledLinearOperator.invT", "emlp/reps/linear_operator_base.py:_SumLinearOperator.invT", "emlp/reps/linear_operators.py:LazyKron.invT", "emlp/reps/linear_operators.py:LazyPerm.invT", "emlp/reps/linear_operators.py:LazyDirectSum.invT"]}
{"id": "C06", "title": "Shape errors are raised, never silently wrong shapes", "statement": "Multiplying an operator with an array of the wrong height, or combining operators of mismatched shapes, raises ValueError; with matching shapes the result has exactly the shape (rows(A), columns(X)).", "quantifier": "all operators and arrays", "why_tests_cant": "a silent broadcast would only appear for particular sizes", "anchors": ["emlp/reps/linear_operator_base.py:LinearOperator.matmat", "emlp/reps/linear_operator_base.py:_ProductLinearOperator.__init__", "emlp/reps/linear_operator_base.py:_SumLinearOperator.__init__", "emlp/reps/linear_operators.py:ConcatLazy.__init__"]}
{"id": "C07", "title": "Direct sum acts block-diagonally in the user's order", "statement": "(a+b).rho(g) is the block diagonal matrix of a.rho(g) and b.rho(g) in the coordinate order the user wrote, although the object stores a re-ordered canonical form and a permutation.", "quantifier": "all concrete representations a, b, all group elements, every outcome of the internal sort", "why_tests_cant": "the canonicalising permutation depends on hashes, sizes, multiplicities and nesting; tests sample a few sums", "anchors": ["emlp/reps/product_sum_reps.py:SumRep.__init__", "emlp/reps/product_sum_reps.py:SumRep.compute_canonical", "emlp/reps/product_sum_reps.py:SumRep.rho", "emlp/reps/representation.py:Rep.__add__"]}
{"id": "C08", "title": "Tensor product acts as the Kronecker product in the user's order", "statement": "(a*b).rho(g) is the Kronecker product of a.rho(g) and b.rho(g) in row-major order of the pair (coordinate of a, coordinate of b), including when a or b are direct sums (distribution of products over sums) or products.", "quantifier": "all concrete representations of one group, all group elements, every outcome of the internal sort", "why_tests_cant": "axis reordering, block permutation and multiplicity grouping compose; a wrong composition can be invisible for small symmetric shapes", "anchors": ["emlp/reps/product_sum_reps.py:mul_reps", "emlp/reps/product_sum_reps.py:ProductRep.compute_canonical", "emlp/reps/product_sum_reps.py:distribute_product", "emlp/reps/product_sum_reps.py:rep_permutation", "emlp/reps/product_sum_reps.py:ProductRep.rho"]}
{"id": "C09", "title": "Dual acts by the inverse transpose", "statement": "a.T.rho(g) is the inverse transpose of a.rho(g), in the same coordinate order; for groups flagged orthogonal a.T has the same matrices as a.", "quantifier": "all concrete representations and invertible (resp. orthogonal) group elements", "why_tests_cant": "T re-sorts the dualised summands/factors and composes permutations", "anchors": ["emlp/reps/representation.py:Dual", "emlp/reps/representation.py:Rep.T", "emlp/reps/product_sum_reps.py:SumRep.T", "emlp/reps/product_sum_reps.py:ProductRep.T"]}
{"id": "C10", "title": "Sizes follow the algebra", "statement": "size(a+b)=size a+size b, size(a*b)=size a*size b, size(a.T)=size a, size(n*a)=n*size a, size(a**n)=size(a)**n, size(T(p,q,G))=G.d**(p+q), and rho(g) has exactly that many rows and columns.", "quantifier": "all concrete representations and all n", "why_tests_cant": "sizes are recomputed from the canonical dictionary after merging", "anchors": ["emlp/reps/product_sum_reps.py:SumRep.size", "emlp/reps/product_sum_reps.py:ProductRep.size", "emlp/reps/representation.py:Rep.__pow__", "emlp/reps/representation.py:T"]}
{"id": "C11", "title": "Stored permutations are permutations and canonicalize honours its contract", "statement": "Every representation's perm is a permutation of range(size), invperm is its inverse, canonicalize() returns a representation in canonical order (identity perm) together with a perm such that v[perm] transforms under the canonical representation when v transforms under the original.", "quantifier": "all constructible representations", "why_tests_cant": "invariant over arbitrary sequences of +,*,T,n*,** operations", "anchors": ["emlp/reps/product_sum_reps.py:SumRep.canonicalize", "emlp/reps/product_sum_reps.py:ProductRep.canonicalize", "emlp/reps/product_sum_reps.py:SumRepFromCollection"]}
{"id": "C12", "title": "Matrices do not depend on hash seeds or sort order", "statement": "Two processes with different hash randomisation (hence different internal orderings) compute identical rho(g) and drho(A) matrices for the same representation expression.", "quantifier": "all orderings the sort may produce, all expressions", "why_tests_cant": "hash randomisation cannot be enumerated by tests", "anchors": ["emlp/reps/representation.py:Rep.__lt__", "emlp/reps/product_sum_reps.py:SumRep.compute_canonical", "emlp/reps/product_sum_reps.py:ProductRep.compute_canonical"]}
{"id": "C13", "title": "Deferred instantiation equals direct construction", "statement": "Building an expression from the abstract V and then calling it with G gives the same matrices as building the expression from V(G).", "quantifier": "all expressions over +,*,T,**,integer multiples and all groups", "why_tests_cant": "nesting of deferred sums and products", "anchors": ["emlp/reps/product_sum_reps.py:DeferredSumRep.__call__", "emlp/reps/product_sum_reps.py:DeferredProductRep.__call__", "emlp/reps/representation.py:Base.__call__", "emlp/reps/representation.py:Dual.__call__"]}
{"id": "C14", "title": "Integer sugar", "statement": "n*rep is the direct sum of n copies, rep+n and n+rep add n trivial coordinates on the right/left, rep**n is the n-fold tensor product with rep**0 trivial, 0*rep is the integer 0 and neutral for +.", "quantifier": "all n and representations", "why_tests_cant": "boundary cases 0 and 1 take different code paths", "anchors": ["emlp/reps/representation.py:mul_reps", "emlp/reps/representation.py:Rep.__add__", "emlp/reps/representation.py:Rep.__radd__", "emlp/reps/representation.py:Rep.__pow__"]}
{"id": "C15", "title": "rho is a group homomorphism", "statement": "rho(gh)=rho(g)rho(h), rho(identity)=identity and rho(g^-1)=rho(g)^-1 for every tensor representation.", "quantifier": "all representations and group elements", "why_tests_cant": "quantifies over all matrices", "anchors": ["emlp/reps/product_sum_reps.py:SumRep.rho", "emlp/reps/product_sum_reps.py:ProductRep.rho", "emlp/reps/representation.py:Dual.rho"]}
{"id": "C16", "title": "drho is the derivative of rho at the identity", "statement": "drho(A) is the first-order coefficient of rho(1+eps A) for every tensor representation, so the explicit drho agrees with the automatic-differentiation fallback.", "quantifier": "all representations and all A", "why_tests_cant": "a missing Kronecker-sum term only shows for particular A", "anchors": ["emlp/reps/product_sum_reps.py:SumRep.drho", "emlp/reps/product_sum_reps.py:ProductRep.drho", "emlp/reps/representation.py:Dual.drho", "emlp/reps/representation.py:Rep.drho", "emlp/reps/linear_operators.py:LazyJVP", "emlp/reps/linear_operators.py:kronsum"]}
{"id": "C17", "title": "drho is a Lie algebra homomorphism", "statement": "drho is linear and drho([A,B]) = [drho(A),drho(B)] for every tensor representation.", "quantifier": "all representations and all A, B", "why_tests_cant": "quantifies over all matrices", "anchors": ["emlp/reps/product_sum_reps.py:ProductRep.drho", "emlp/reps/product_sum_reps.py:SumRep.drho", "emlp/reps/representation.py:Dual.drho"]}
{"id": "C18", "title": "repin>>repout is the representation on linear maps", "statement": "vec(W) is fixed by (repin>>repout).rho(g) if and only if W repin.rho(g) = repout.rho(g) W; `>>`, `<<` and `repout*repin.T` denote the same representation.", "quantifier": "all representations, matrices W and group elements", "why_tests_cant": "row-major vectorisation convention must match everywhere", "anchors": ["emlp/reps/representation.py:Rep.__rshift__", "emlp/reps/representation.py:Rep.__lshift__", "emlp/nn/objax.py:Linear"]}
{"id": "C19", "title": "Products of representations of different groups", "statement": "(a*b).rho({G1:g1,G2:g2}) is the Kronecker product of a.rho(g1) and b.rho(g2) in the user's order, and further products merge factors group by group without changing the matrices.", "quantifier": "all representations of distinct groups, all group elements", "why_tests_cant": "depends on the relative order in which the sort places factors of different groups", "anchors": ["emlp/reps/product_sum_reps.py:DirectProduct.__init__", "emlp/reps/product_sum_reps.py:DirectProduct.rho", "emlp/reps/product_sum_reps.py:mul_reps"]}
{"id": "C20", "title": "The ordering used for canonical forms is a strict weak order", "statement": "rep1<rep2 is irreflexive, asymmetric and transitive with transitive incomparability on the representations that can be compared, so canonical forms are well defined.", "quantifier": "all triples of representations, all hash functions", "why_tests_cant": "needs specific triples and hash values", "anchors": ["emlp/reps/representation.py:Rep.__lt__", "emlp/reps/representation.py:Base.__lt__", "emlp/reps/representation.py:Dual.__lt__"]}
{"id": "C21", "title": "Representations are immutable values", "statement": "Instantiating or combining representations never changes an existing representation object.", "quantifier": "all histories of API calls", "why_tests_cant": "aliasing through a module-level object needs an interleaving of uses", "anchors": ["emlp/reps/representation.py:ScalarRep.__call__", "emlp/reps/representation.py:Scalar"]}
{"id": "C22", "title": "Re-instantiating a concrete representation", "statement": "Calling an already concrete representation with a group gives the representation of the same shape for that group.", "quantifier": "all concrete representations and groups", "why_tests_cant": "EMLP calls every representation it is given", "anchors": ["emlp/reps/product_sum_reps.py:SumRep.__call__", "emlp/reps/representation.py:Rep.__call__", "emlp/nn/objax.py:EMLP.__init__"]}
{"id": "C23", "title": "Equality and hashing contract", "statement": "Equal representations have equal hashes and equal matrices; == is total (never raises) between representations.", "quantifier": "all pairs of representations", "why_tests_cant": "dictionary lookups depend on it for all histories", "anchors": ["emlp/reps/product_sum_reps.py:SumRep.__eq__", "emlp/reps/product_sum_reps.py:ProductRep.__eq__", "emlp/reps/product_sum_reps.py:SumRep.__hash__", "emlp/reps/representation.py:Base.__eq__"]}
{"id": "C24", "title": "Constraint matrix is sound for the whole group", "statement": "A vector annihilated by the constraint matrix is fixed by rho(g) for every g in the group generated by the discrete generators, their inverses and the exponentials of the Lie algebra.", "quantifier": "all representations, all vectors, all words in the generators, all real times", "why_tests_cant": "the group is infinite", "anchors": ["emlp/reps/representation.py:Rep.constraint_matrix", "emlp/groups.py:noise2sample"]}
{"id": "C25", "title": "Constraint matrix is complete", "statement": "Every vector fixed by rho(g) for all group elements is annihilated by the constraint matrix.", "quantifier": "all representations and vectors", "why_tests_cant": "missing solutions are invisible to equivariance tests", "anchors": ["emlp/reps/representation.py:Rep.constraint_matrix", "emlp/reps/representation.py:orthogonal_complement"]}
{"id": "C26", "title": "Equivariant basis of a direct sum", "statement": "For a direct sum (with multiplicities) equivariant_basis() spans exactly the invariant vectors of the sum, in the user's coordinate order, and its column count is the sum of multiplicity times the dimension of each summand's solution space.", "quantifier": "all sums", "why_tests_cant": "block/multiplicity/permutation bookkeeping for all shapes", "anchors": ["emlp/reps/product_sum_reps.py:SumRep.equivariant_basis", "emlp/reps/linear_operators.py:lazy_direct_matmat"]}
{"id": "C27", "title": "Equivariant basis for products of different groups", "statement": "For representations of distinct groups the Kronecker product of the factor bases spans exactly the vectors invariant under the product group.", "quantifier": "all mixed products", "why_tests_cant": "completeness cannot be tested by sampling", "anchors": ["emlp/reps/product_sum_reps.py:DirectProduct.equivariant_basis", "emlp/reps/product_sum_reps.py:DirectProduct.equivariant_projector"]}
{"id": "C28", "title": "equivariant_projector is the orthogonal projector onto the invariants", "statement": "P@P=P, P.T=P, P v is invariant for every v and P v = v for every invariant v, for atomic, product, sum and mixed representations; P is Q Q^T.", "quantifier": "all representations and vectors (real scalars)", "why_tests_cant": "all v", "anchors": ["emlp/reps/representation.py:Rep.equivariant_projector", "emlp/reps/product_sum_reps.py:SumRep.equivariant_projector", "emlp/reps/product_sum_reps.py:DirectProduct.equivariant_projector"]}
{"id": "C29", "title": "Solution cache is transparent", "statement": "For any history of equivariant_basis calls the answer equals the answer of a fresh solve.", "quantifier": "all histories of calls on all representations", "why_tests_cant": "needs particular interleavings of groups with equal names", "anchors": ["emlp/reps/representation.py:Rep.solcache", "emlp/reps/representation.py:Rep.equivariant_basis", "emlp/groups.py:Group.__eq__", "emlp/groups.py:Embed.__init__"]}
{"id": "C30", "title": "Krylov rank doubling finds the whole solution space", "statement": "krylov_constraint_solve terminates and, unless it hits the memory limit (which it reports), returns a basis of the complete null space.", "quantifier": "all constraint sizes, all nullities", "why_tests_cant": "needs nullities at each boundary r=10,20,40,...", "anchors": ["emlp/reps/representation.py:krylov_constraint_solve"]}
{"id": "C31", "title": "Krylov inner loop terminates with a converged basis or an exception", "statement": "krylov_constraint_solve_upto_r makes at most six attempts with decreasing learning rate, each of at most 20000 iterations, and returns only after an iterate with loss below tol^2 was seen.", "quantifier": "all loss traces", "why_tests_cant": "depends on the divergence history", "anchors": ["emlp/reps/representation.py:krylov_constraint_solve_upto_r"]}
{"id": "C32", "title": "Lie algebra generators satisfy the defining equations", "statement": "For every n the Lie algebra basis of SO, O, Sp, SL, GL, U, SU, SO13p and SO11p consists of matrices satisfying the defining linear equation, fills every slot of the allocated array, is linearly independent and spans.", "quantifier": "all n", "why_tests_cant": "index arithmetic for all n", "anchors": ["emlp/groups.py:SO", "emlp/groups.py:Sp", "emlp/groups.py:SL", "emlp/groups.py:GL", "emlp/groups.py:U", "emlp/groups.py:SU", "emlp/groups.py:SO13p", "emlp/groups.py:SO11p"]}
{"id": "C33", "title": "Discrete generators generate the advertised finite groups", "statement": "S(n) generates every permutation matrix, Z(n) exactly the n cyclic shifts, Cube() exactly 24 permutations, O(n)/O13/O11 generators preserve the (pseudo-)orthogonal form.", "quantifier": "all n, all permutations", "why_tests_cant": "group elements are words of unbounded length", "anchors": ["emlp/groups.py:S", "emlp/groups.py:Z", "emlp/groups.py:Cube", "emlp/groups.py:O", "emlp/groups.py:O13", "emlp/groups.py:O11"]}
{"id": "C34", "title": "is_orthogonal is sound", "statement": "If the automatic check passes (exactly) then every group element, and every tensor representation of it, is orthogonal, so a.T may return a.", "quantifier": "all groups, all words/exponentials, all tensor representations", "why_tests_cant": "infinite group", "anchors": ["emlp/groups.py:Group.__init__", "emlp/reps/representation.py:Rep.T"]}
{"id": "C35", "title": "is_permutation is sound", "statement": "If is_permutation is set then every group element acts by a permutation matrix in every representation flagged is_permutation.", "quantifier": "all groups and words", "why_tests_cant": "flag is computed once in the constructor; subclasses that add generators later are not re-checked", "anchors": ["emlp/groups.py:Group.__init__", "emlp/groups.py:D.__init__", "emlp/nn/objax.py:gated"]}
{"id": "C36", "title": "Samples are group elements", "statement": "Group.samples returns products of exponentials of Lie algebra elements and integer powers (negative powers being inverses) of discrete generators, for every random draw.", "quantifier": "all random draws", "why_tests_cant": "random", "anchors": ["emlp/groups.py:noise2sample", "emlp/groups.py:matrix_power_simple", "emlp/groups.py:Group.samples"]}
{"id": "C37", "title": "RubiksCube is the Rubik's cube group", "statement": "The six generators are the quarter turns of a 3x3x3 cube: the eight corner cubies and twelve edge cubies are never torn apart by any sequence of moves.", "quantifier": "all words in the generators", "why_tests_cant": "the group is astronomically large", "anchors": ["emlp/groups.py:RubiksCube", "emlp/datasets.py:BrokenRubiksCube"]}
{"id": "C38", "title": "Product groups", "statement": "V(G1*G2) is the tensor product of the base representations, its generators are generators of the two factors acting on separate tensor axes, and its invariant vectors are those of the mixed product representation.", "quantifier": "all pairs of groups", "why_tests_cant": "two encodings of the product must agree", "anchors": ["emlp/groups.py:DirectProduct"]}
{"id": "C39", "title": "Embed acts on the given slice only", "statement": "Embed(G,d,slice) acts as G on the slice coordinates and trivially elsewhere; two embeddings that act differently are different groups.", "quantifier": "all groups, dimensions and slices", "why_tests_cant": "equality is by name", "anchors": ["emlp/groups.py:Embed", "emlp/groups.py:Group.__eq__"]}
{"id": "C40", "title": "Group constructors are total on the documented domain", "statement": "SO(n), SL(n), SU(n), S(n), ... construct for every n>=1.", "quantifier": "all n", "why_tests_cant": "boundary n=1", "anchors": ["emlp/groups.py:SO", "emlp/groups.py:SL", "emlp/groups.py:SU", "emlp/groups.py:S", "emlp/groups.py:Group.__init__"]}
{"id": "C41", "title": "Linear layer is equivariant for all parameters", "statement": "Linear(repin,repout)(rho_in(g) x) = rho_out(g) Linear(repin,repout)(x) for every parameter value, input and group element, and can represent every equivariant affine map.", "quantifier": "all parameters, inputs, group elements, representations", "why_tests_cant": "training visits parameters no test samples", "anchors": ["emlp/nn/objax.py:Linear", "emlp/nn/flax.py:_Linear", "emlp/nn/haiku.py:hkLinear", "emlp/nn/pytorch.py:Linear"]}
{"id": "C42", "title": "BiLinear layer is equivariant", "statement": "BiLinear(repin,repout) commutes with the group for every parameter value, input batch and random choice of indices made at construction.", "quantifier": "all parameters, inputs, random index choices", "why_tests_cant": "random choices and parameters", "anchors": ["emlp/reps/representation.py:bilinear_weights", "emlp/nn/objax.py:BiLinear"]}
{"id": "C43", "title": "BiLinear consumes exactly its parameters", "statement": "bilinear_weights returns active_dims equal to the number of parameters read; all slices are in range and every parameter is used exactly once.", "quantifier": "all representations", "why_tests_cant": "multiplicity arithmetic", "anchors": ["emlp/reps/representation.py:bilinear_weights"]}
{"id": "C44", "title": "gated adds one gate per non-scalar non-permutation summand", "statement": "gated(rep) has size size(rep)+number of such summands, keeps the first size(rep) coordinates unchanged, and gate_indices maps each coordinate to itself or to the gate of its own summand, always in range.", "quantifier": "all canonical sums", "why_tests_cant": "index arithmetic for all multiplicities", "anchors": ["emlp/nn/objax.py:gated", "emlp/nn/objax.py:gate_indices"]}
{"id": "C45", "title": "GatedNonlinearity is equivariant", "statement": "GatedNonlinearity(rep) maps vectors of gated(rep) to vectors of rep and commutes with the group for any activation function.", "quantifier": "all inputs, all canonical sums whose permutation flags are truthful", "why_tests_cant": "all inputs", "anchors": ["emlp/nn/objax.py:GatedNonlinearity"]}
{"id": "C46", "title": "EMLP is equivariant end to end", "statement": "EMLP(rep_in,rep_out,group,ch,num_layers)(rho_in(g) x) = rho_out(g) EMLP(...)(x) for all parameters of all layers.", "quantifier": "all depths, widths, parameters, inputs, group elements", "why_tests_cant": "composition over unbounded depth", "anchors": ["emlp/nn/objax.py:EMLP", "emlp/nn/objax.py:EMLPBlock"]}
{"id": "C47", "title": "uniform_rep has exactly ch channels", "statement": "uniform_rep(ch,G) terminates and has size exactly ch for every ch>=1 and every group of dimension>=1, for every random draw.", "quantifier": "all ch, d, random draws", "why_tests_cant": "loop over all ch", "anchors": ["emlp/nn/objax.py:uniform_rep", "emlp/nn/objax.py:lambertW", "emlp/nn/objax.py:binomial_allocation"]}
{"id": "C48", "title": "Any representation can be used for the hidden layers", "statement": "EMLP accepts any representation (or list of representations) for ch as documented.", "quantifier": "all representations", "why_tests_cant": "depends on the order in which the user wrote the summands", "anchors": ["emlp/nn/objax.py:EMLP.__init__", "emlp/nn/objax.py:gate_indices", "emlp/reps/product_sum_reps.py:SumRep.__hash__"]}
{"id": "C49", "title": "Augmenting an equivariant model changes nothing", "statement": "GroupAugmentation(model) computes the same function as model when model is equivariant, for every random draw of group elements, and is the model itself when training is False.", "quantifier": "all models, inputs, draws", "why_tests_cant": "random draws", "anchors": ["emlp/datasets.py:GroupAugmentation"]}
{"id": "C50", "title": "Standardize preserves equivariance under invariant statistics", "statement": "Standardize(model,stats) is equivariant when model is, the means are invariant and the scales commute with the group; the dataset statistics satisfy this.", "quantifier": "all models and statistics", "why_tests_cant": "all inputs", "anchors": ["emlp/nn/objax.py:Standardize", "emlp/datasets.py:ParticleInteraction", "emlp/datasets.py:O5Synthetic", "emlp/datasets.py:Inertia"]}
{"id": "C51", "title": "Inertia targets are equivariant", "statement": "The Inertia dataset's target, as a function of masses and positions, is O(3)-equivariant of type T(2).", "quantifier": "all masses, positions, orthogonal matrices", "why_tests_cant": "all inputs", "anchors": ["emlp/datasets.py:Inertia"]}
{"id": "C52", "title": "O5Synthetic targets are invariant", "statement": "The O5Synthetic target is invariant under all orthogonal transformations.", "quantifier": "all inputs and orthogonal matrices", "why_tests_cant": "all inputs", "anchors": ["emlp/datasets.py:O5Synthetic"]}
{"id": "C53", "title": "ParticleInteraction targets are Lorentz invariant", "statement": "The ParticleInteraction matrix element is invariant under every matrix preserving the Minkowski form.", "quantifier": "all momenta and Lorentz matrices", "why_tests_cant": "all inputs", "anchors": ["emlp/datasets.py:ParticleInteraction"]}
{"id": "C54", "title": "sparsify_basis terminates", "statement": "sparsify_basis returns for every input.", "quantifier": "all divergence histories", "why_tests_cant": "needs persistent divergence", "anchors": ["emlp/reps/representation.py:sparsify_basis"]}
{"id": "C55", "title": "The four framework back ends compute the same layer", "statement": "objax, flax, haiku and pytorch Linear layers use the same weight representation and compute the same function of (w,b,x).", "quantifier": "all representations, parameters, inputs", "why_tests_cant": "four copies of the code", "anchors": ["emlp/nn/objax.py:Linear", "emlp/nn/flax.py:_Linear", "emlp/nn/haiku.py:hkLinear", "emlp/nn/pytorch.py:Linear"]}
{"id": "C56", "title": "equivariance_error is zero exactly on equivariant maps", "statement": "equivariance_error(W,repin,repout,G) is 0 for every exactly equivariant W (or basis of such maps) and every draw of group elements, and is positive when a drawn element violates equivariance.", "quantifier": "all W, all draws", "why_tests_cant": "random draws", "anchors": ["emlp/reps/representation.py:equivariance_error", "emlp/reps/representation.py:scale_adjusted_rel_error"]}
{"id": "C57", "title": "The built-in groups generate exactly the groups they are named after", "statement": "The group generated by the discrete generators and the exponentials of the Lie algebra of each built-in real group object is exactly the matrix group named in its docstring: O(n), SO(n), SL(n), GL(n), Sp(m), the Lorentz groups SO13p/SO13/O13/SO11p/O11, C(k), D(k), S(n), Z(n), Cube, RubiksCube, Scaling, Parity, TimeReversal, the embedded groups SO2eR3/O2eR3/DkeR3, embeddings and products of groups.", "quantifier": "all n, all matrices", "why_tests_cant": "a sampled element only shows inclusion on one side; that every matrix of the group is generated needs a proof for all n", "anchors": ["emlp/groups.py:SO", "emlp/groups.py:O", "emlp/groups.py:SL", "emlp/groups.py:GL", "emlp/groups.py:Sp", "emlp/groups.py:SO13p", "emlp/groups.py:O13", "emlp/groups.py:C", "emlp/groups.py:D", "emlp/groups.py:Embed", "emlp/groups.py:DirectProduct"]}
{"id": "C58", "title": "Data set targets are equivariant under the symmetry objects the data sets declare", "statement": "For every element of the group generated by dataset.symmetry, the target of Inertia (O(3)), O5Synthetic (O(5)), ParticleInteraction (Lorentz()) and DoubleSpringPendulum.H (O2eR3()) satisfies f(rho_in(g)x) = rho_out(g)f(x) with the declared rep_in and rep_out.", "quantifier": "all inputs, all elements of the generated group", "why_tests_cant": "a continuous group and real inputs; the group object is only given by generators", "anchors": ["emlp/datasets.py:Inertia", "emlp/datasets.py:O5Synthetic", "emlp/datasets.py:ParticleInteraction", "experiments/trainer/hamiltonian_dynamics.py:DoubleSpringPendulum", "emlp/groups.py:O2eR3"]}
{"id": "C59", "title": "Hamiltonian dynamics conserve the Hamiltonian and inherit its symmetries", "statement": "symplectic_form(z) raises AssertionError on vectors of odd length and otherwise is multiplication by J=[[0,I],[-I,0]], orthogonal to z, with J(Jz)=-z. Along every exact solution of z'=hamiltonian_dynamics(H,z) the value of H is constant. hamiltonian_dynamics commutes with every symplectic matrix leaving H unchanged; hence for orthogonal groups acting on m positions and m momenta the dynamics of an invariant H (such as EMLPH with scalar output) are equivariant, and the dynamics of DoubleSpringPendulum commute with O2eR3() wherever H is differentiable.", "quantifier": "all dimensions, all differentiable H, all solutions", "why_tests_cant": "integrators are approximate, so a test can only see an approximate drift", "anchors": ["experiments/trainer/hamiltonian_dynamics.py:unpack", "experiments/trainer/hamiltonian_dynamics.py:symplectic_form", "experiments/trainer/hamiltonian_dynamics.py:hamiltonian_dynamics", "experiments/trainer/hamiltonian_dynamics.py:DoubleSpringPendulum", "emlp/nn/objax.py:EMLPH"]}
{"id": "C60", "title": "BrokenRubiksCube can be classified by an equivariant model", "statement": "The label of BrokenRubiksCube is constant on the orbits of RubiksCube(): no element of the group moves a configuration labelled solvable to one labelled broken, nor a state to the result of UBedge_flip, ULBcorner_rot or LBface_swap, so an equivariant model 6*Vector -> 2*Scalar can separate the classes.", "quantifier": "all elements of the generated group, all equivariant functions, all samples and permutations of the test set, all one-hot states", "why_tests_cant": "the orbit has more than 10^40 states; a model that fails to train does not show that none exists", "anchors": ["emlp/datasets.py:BrokenRubiksCube", "emlp/datasets.py:UBedge_flip", "emlp/datasets.py:ULBcorner_rot", "emlp/datasets.py:LBface_swap", "emlp/groups.py:RubiksCube"]}
{"id": "C61", "title": "InvertedCube can be classified by an equivariant model", "statement": "There is a function 6*Vector -> 2*Scalar, equivariant for Cube(), that separates the two training rows of InvertedCube and gives every row of every test set (whatever group samples and permutation are drawn) its label.", "quantifier": "all samples and permutations of the test set", "why_tests_cant": "existence over all draws", "anchors": ["emlp/datasets.py:InvertedCube", "emlp/groups.py:Cube"]}
{"id": "C62", "title": "EMLP is the same network in the four back ends", "statement": "EMLP of objax, flax, haiku and pytorch are constructed for the same arguments; with the same parameters they compute the same outputs and reject the same inputs, and all four are equivariant for all parameters.", "quantifier": "all representations, groups, channel specifications, depths, parameters, inputs", "why_tests_cant": "four copies of the code, unboundedly many networks", "anchors": ["emlp/nn/objax.py:EMLP", "emlp/nn/flax.py:EMLP", "emlp/nn/haiku.py:EMLP", "emlp/nn/pytorch.py:EMLP", "emlp/nn/pytorch.py:GatedNonlinearity"]}
{"id": "C63", "title": "The baseline MLP uses representations and group for shapes only", "statement": "MLP(rep_in,rep_out,group,ch,num_layers) has layers of widths rep_in.size(), num_layers times ch, rep_out.size(); it maps batches of rows of length rep_in.size() to rows of length rep_out.size(), raises on other inputs, is the same function in the four back ends (pytorch with transposed matrices), MLPH is the sum of its outputs; and it is equivariant like EMLP.", "quantifier": "all representations, widths, depths, parameters, inputs", "why_tests_cant": "all sizes and parameters", "anchors": ["emlp/nn/objax.py:MLP", "emlp/nn/objax.py:MLPH", "emlp/nn/flax.py:MLP", "emlp/nn/haiku.py:MLP", "emlp/nn/pytorch.py:MLP"]}
{"id": "C64", "title": "Standardize wraps the networks of its back end", "statement": "Standardize(model,ds_stats) of objax and of pytorch wraps EMLP and MLP of the same back end: it returns sout*model((x-muin)/sin)+muout, or model((x-muin)/sin) for two statistics, and preserves equivariance for statistics that commute with the group.", "quantifier": "all models, statistics, inputs", "why_tests_cant": "all models and statistics", "anchors": ["emlp/nn/objax.py:Standardize", "emlp/nn/pytorch.py:Standardize", "emlp/nn/objax.py:EMLP", "emlp/nn/pytorch.py:EMLP", "emlp/nn/pytorch.py:MLP"]}
{"id": "C65", "title": "Trainer.train makes every step once, in order", "statement": "train(n) with n>0 makes n*len(loader) steps, numbered consecutively from epoch*len(loader), on the minibatches of n passes through the loader in order, with learning rate lr_sched(step/len(loader)), and advances epoch by n; train(a) then train(b) has the same effect as train(a+b). train_to(f) raises AssertionError if f is less than the current epoch and otherwise leaves the epoch at f, having made the missing steps.", "quantifier": "all n, loaders, updates, states", "why_tests_cant": "all numbers of epochs and all loaders", "anchors": ["experiments/trainer/trainer.py:Trainer.train", "experiments/trainer/trainer.py:Trainer.train_to", "experiments/trainer/trainer.py:Trainer.step"]}
{"id": "C66", "title": "evalAverageMetrics averages over the data set", "statement": "evalAverageMetrics(loader,metrics) raises KeyError for a loader without batches and otherwise returns the mean of the metric of the batches; for a metric that is itself a mean over the batch this is the mean over the data set.", "quantifier": "all loaders, metrics, batch sizes", "why_tests_cant": "all batch sizes, including those that do not divide the size of the data set", "anchors": ["experiments/trainer/trainer.py:Trainer.evalAverageMetrics"]}
{"id": "C67", "title": "logStuff keeps the best checkpoint", "statement": "With early_stop_metric the checkpoint kept is one at which the metric was best among all logged values, the latest such one; without, it is the last one.", "quantifier": "all sequences of metric values", "why_tests_cant": "all histories", "anchors": ["experiments/trainer/trainer.py:Trainer.logStuff"]}
{"id": "C68", "title": "HamiltonianDataset items are pieces of trajectories", "statement": "chunk_training_data raises if the number of chunks per trajectory does not divide the length, and otherwise returns one contiguous piece of each trajectory; the item ((z0,T),zs) of the data set satisfies: zs are the states of the solution starting at z0 at the times T. generate_trajectory_data returns n_systems trajectories for every batch size.", "quantifier": "all lengths, chunk lengths, numbers of systems, batch sizes, flows, random choices", "why_tests_cant": "all combinations of lengths and all random choices", "anchors": ["experiments/trainer/hamiltonian_dynamics.py:HamiltonianDataset.chunk_training_data", "experiments/trainer/hamiltonian_dynamics.py:HamiltonianDataset.generate_trajectory_data", "experiments/trainer/hamiltonian_dynamics.py:HamiltonianDataset.__getitem__"]}
{"id": "C69", "title": "rel_err and log_rollout_error are bounded and detect equality", "statement": "rel_err(a,b) is symmetric, between 0 and 1, 0 exactly if a equals b, and nan exactly if both are zero. The log_rollout_error lies between log(1e-7) and 0, is log(1e-7) for equal trajectories and nan exactly if some predicted and true state are both zero.", "quantifier": "all arrays, all trajectories", "why_tests_cant": "the triangle inequality for all arrays", "anchors": ["experiments/trainer/hamiltonian_dynamics.py:rel_err", "experiments/trainer/hamiltonian_dynamics.py:log_rollout_error"]}
{"id": "C70", "title": "The losses and equivariance_err of the trainers respect the symmetry", "statement": "The mean squared error is at least 0 and 0 exactly for equal arrays; for an equivariant model with orthogonal output representation the loss of a minibatch does not change if the group acts on inputs and targets. equivariance_err is between 0 and 1, 0 exactly if the two predictions agree, and 0 (or nan) for every equivariant model. The predicted class is the first of the largest logits.", "quantifier": "all models, minibatches, group samples, representations", "why_tests_cant": "all samples and models", "anchors": ["experiments/trainer/model_trainer.py:RegressorPlus.loss", "experiments/trainer/model_trainer.py:equivariance_err", "experiments/trainer/model_trainer.py:scale_adjusted_rel_err", "experiments/trainer/classifier.py:Classifier.metrics"]}
{"id": "C71", "title": "align2ref rotates the vectors to the reference", "statement": "align2ref(refs,vecs) is finite, maps (0,0,1) to the reference, and preserves angles in the plane orthogonal to it, for every reference.", "quantifier": "all references and vectors", "why_tests_cant": "all directions, including the exceptional one", "anchors": ["experiments/trainer/hamiltonian_dynamics.py:align2ref"]}
{"id": "C72", "title": "The exact flow of an invariant Hamiltonian is equivariant", "statement": "If a symplectic matrix A leaves H unchanged, A maps solutions of z'=hamiltonian_dynamics(H,z) to solutions; solutions are determined by their state at time 0, and the flow satisfies phi_t(Az) = A phi_t(z).", "quantifier": "all dimensions, all H with Lipschitz gradient, all times", "why_tests_cant": "integrators are approximate and times unbounded", "anchors": ["experiments/trainer/hamiltonian_dynamics.py:hamiltonian_dynamics", "experiments/trainer/hamiltonian_dynamics.py:HamiltonianDataset", "experiments/trainer/hamiltonian_dynamics.py:BHamiltonianFlow"]}
{"id": "C73", "title": "Exact solvers exist", "statement": "For every group and representation there are a singular value decomposition, a rank test and a result of the iterative solver that meet their contracts: the claims about equivariant_basis are not vacuous for any representation.", "quantifier": "all groups, all representations", "why_tests_cant": "existence of an exact decomposition for every real matrix", "anchors": ["emlp/reps/representation.py:orthogonal_complement", "emlp/reps/representation.py:krylov_constraint_solve"]}
{"id": "C74", "title": "equivariant_basis of T(p,q) is a basis of the invariant tensors", "statement": "T(p,q)(G).equivariant_basis() of a group whose group elements are known has d**(p+q) rows, orthonormal columns, and its columns span exactly the tensors with p upper and q lower indices that every element of the group fixes.", "quantifier": "all groups given by their elements, all p, q, d", "why_tests_cant": "all ranks and dimensions", "anchors": ["emlp/reps/representation.py:T", "emlp/reps/representation.py:Rep.equivariant_basis"]}
{"id": "C75", "title": "Permutation groups have one basis element per orbit", "statement": "For a group of permutation matrices T(p,q)(G).equivariant_basis() has one column per orbit of the group on index tuples of length p+q: for S(n) the number of set partitions of p+q elements with at most n blocks (the Bell number if p+q<=n), for Z(n) n**(p+q-1), for Trivial(n) n**(p+q).", "quantifier": "all n, p, q", "why_tests_cant": "all n and all ranks", "anchors": ["emlp/groups.py:S", "emlp/groups.py:Z", "emlp/groups.py:Trivial", "emlp/reps/representation.py:Rep.equivariant_basis"]}
{"id": "C76", "title": "No invariant tensors of odd rank for groups with -1", "statement": "For O(n), SO(2m), Sp(m), SO13 and Lorentz T(p,q)(G).equivariant_basis() has no column if p+q is odd.", "quantifier": "all n, m, p, q", "why_tests_cant": "all dimensions and ranks", "anchors": ["emlp/groups.py:O", "emlp/groups.py:SO", "emlp/groups.py:Sp", "emlp/groups.py:SO13", "emlp/groups.py:Lorentz"]}
{"id": "C77", "title": "Invariant tensors of small rank of O(n) and SO(n)", "statement": "For rank 2 the basis of O(n), and of SO(n) with n>=3, is one column proportional to the identity; for SO(2) it spans the identity and the quarter turn; for rank 3 and SO(3) it is one column proportional to the Levi-Civita symbol.", "quantifier": "all n, p, q of total rank 2 or 3", "why_tests_cant": "all dimensions", "anchors": ["emlp/groups.py:O", "emlp/groups.py:SO", "emlp/reps/representation.py:Rep.equivariant_basis"]}
{"id": "C78", "title": "vis asks for as many clusters as there are distinct values", "statement": "vis(repin,repout) clusters the entries of a projected random vector into as many clusters as the basis has columns. For representations that act by permutations no projected vector has more distinct entries (also after rounding), and some has as many.", "quantifier": "all permutation representations, random vectors, rounding functions", "why_tests_cant": "all random vectors", "anchors": ["emlp/reps/representation.py:vis"]}
{"id": "C79", "title": "is_orthogonal and is_permutation are exact, and their values for the groups", "statement": "With exact comparisons is_orthogonal is set exactly if every element of the group is orthogonal, and is_permutation exactly if there is no Lie algebra and every generator is a permutation matrix (so every element is). Both are set for S(n), Z(n), Trivial(n), Cube and RubiksCube; only is_orthogonal for SO(n), O(n), C(k) with k>1, Parity and TimeReversal; none for SL, GL, Sp, Scaling and the Lorentz groups.", "quantifier": "all groups tested at construction; all n>1 for the table", "why_tests_cant": "all n", "anchors": ["emlp/groups.py:Group.__init__", "emlp/groups.py:S", "emlp/groups.py:SO", "emlp/groups.py:Lorentz"]}
{"id": "C80", "title": "The size of the basis is the average character", "statement": "For a finite group and every representation the number of columns of equivariant_basis() is the average over the group of the traces of rho_dense(g); for T(p,q) of a group of orthogonal matrices the average of trace(g)**(p+q), for permutation groups the average of the (p+q)-th powers of the numbers of fixed points.", "quantifier": "all finite groups given by their elements, all representations", "why_tests_cant": "all groups and representations", "anchors": ["emlp/reps/representation.py:Rep.equivariant_basis", "emlp/reps/representation.py:Rep.rho_dense"]}
{"id": "C81", "title": "Numbers of invariant tensors of C(k), D(k), Parity, TimeReversal and Cube", "statement": "T(p,q)(G).equivariant_basis() has, with n=p+q, for C(k) as many columns as there are sequences of n signs with sum divisible by k, for D(k) half of them (n>0), for Parity (4**n -+ 2**n)/2, for TimeReversal (4**n+2**n)/2, for Cube (6**n+9*2**n)/24 (n>0).", "quantifier": "all k, p, q", "why_tests_cant": "all ranks", "anchors": ["emlp/groups.py:C", "emlp/groups.py:D", "emlp/groups.py:Parity", "emlp/groups.py:TimeReversal", "emlp/groups.py:Cube"]}
{"id": "C82", "title": "Numbers of invariant tensors of SO(2) and O(2)", "statement": "T(p,q)(G).equivariant_basis() has no columns if n=p+q is odd; if n is even binomial(n,n/2) for SO(2), and half of that for O(2) (n>0).", "quantifier": "all p, q", "why_tests_cant": "all ranks", "anchors": ["emlp/groups.py:SO", "emlp/groups.py:O", "emlp/reps/representation.py:Rep.equivariant_basis"]}
{"id": "C83", "title": "EMLPode: the flow of an equivariant network is well defined and equivariant", "statement": "For the differential equation z'=model(z) of an EMLPode with swish gates: through every state runs a solution, two solutions on an interval that agree at one time agree everywhere, and if rho(g) takes one solution to another at one time it does at all times. MLPode has the first two properties.", "quantifier": "all networks, parameters, group elements, states, time intervals", "why_tests_cant": "all states and times; the integrator only approximates solutions", "anchors": ["emlp/nn/objax.py:EMLPode", "emlp/nn/objax.py:MLPode", "experiments/trainer/hamiltonian_dynamics.py:BOdeFlow"]}
{"id": "C84", "title": "EMLPH and MLPH define Hamiltonian flows that conserve their energy", "statement": "The energy of EMLPH and MLPH is differentiable everywhere. For z'=hamiltonian_dynamics(H,z) a unique solution runs through every state and H is constant along it. For EMLPH every element of the group that acts by a symplectic matrix, and for 2m copies of V of an orthogonal group every element, takes solutions to solutions.", "quantifier": "all networks, parameters, group elements, states, time intervals", "why_tests_cant": "all states and times", "anchors": ["emlp/nn/objax.py:EMLPH", "emlp/nn/objax.py:MLPH", "experiments/trainer/hamiltonian_dynamics.py:hamiltonian_dynamics", "experiments/trainer/hamiltonian_dynamics.py:HamiltonianFlow"]}
{"id": "C85", "title": "The flows of MLPode and MLPH exist for all times", "statement": "For all widths and weights, through every state runs a solution of z'=MLPode(z), and of z'=hamiltonian_dynamics(MLPH.H,z), that is defined for all times, so the integration over any list of times is well posed; the flow maps satisfy phi(s+t)=phi(s) after phi(t), and the flow of MLPH conserves its energy.", "quantifier": "all widths, weights, states and times", "why_tests_cant": "all times; integrators only see finite intervals", "anchors": ["emlp/nn/objax.py:MLPode", "emlp/nn/objax.py:MLPH", "experiments/trainer/hamiltonian_dynamics.py:hamiltonian_dynamics", "experiments/trainer/hamiltonian_dynamics.py:BOdeFlow"]}
{"id": "C86", "title": "The number of parameters of equivariant linear layers is additive", "statement": "(a+b).equivariant_basis() has as many columns as the bases of a and b together, n*a has n times as many as a, and a*b as many as b*a; the products (a+b)*c and c*(a+b) have the columns of a*c and b*c together. For layers, the number of columns of the basis of (a1+a2+...)>>(b1+b2+...) is the sum of the numbers for ai>>bj, so c*a>>d*b has c*d times the number for a>>b; for orthogonal groups a>>b and b>>a have the same number and T(p,q)>>T(p',q') has as many as there are invariant tensors of rank p+q+p'+q'. For S(n) a layer from c*T(p) to d*T(q), p+q<=n, has c*d times the Bell number of p+q, for Z(n) c*d*n^(p+q-1), for SO(2) c*d times a central binomial coefficient.", "quantifier": "all groups, all representations built from them, all numbers of summands and channels, all ranks, exact solvers", "why_tests_cant": "Tests can compare ranks for a few representations; additivity for all sums, and the numbers for all n, c, d, p and q, need the decomposition of the invariant spaces.", "anchors": ["emlp/reps/representation.py:Rep.equivariant_basis", "emlp/reps/product_sum_reps.py:SumRep.equivariant_basis", "emlp/reps/product_sum_reps.py:ProductRep", "emlp/reps/representation.py:Rep.__rshift__", "emlp/reps/representation.py:Rep.__mul__"]}
{"id": "C87", "title": "The harmonic oscillator SHO", "statement": "SHO.H of a batch is the sum over its rows of (q**2+p**2)/2 and raises IndexError for states with fewer than two entries. Its gradient is z, so hamiltonian_dynamics is (p,-q); the flow is the rotation of the (q,p) plane, it conserves H, and BHamiltonianFlow with an integrator that makes no error returns exactly the rotated states, for every batch size and every list of times. Rotations of the plane take solutions to solutions; not all orthogonal matrices do (reflections reverse time).", "quantifier": "all batches, states, lists of times, orthogonal symplectic matrices", "why_tests_cant": "all times and states; a numerical integrator only approximates", "anchors": ["experiments/trainer/hamiltonian_dynamics.py:SHO.H", "experiments/trainer/hamiltonian_dynamics.py:hamiltonian_dynamics", "experiments/trainer/hamiltonian_dynamics.py:BHamiltonianFlow"]}
{"id": "C88", "title": "Rollouts of batches: the losses and rollout errors of the trainers are invariant", "statement": "With an integrator that makes no error, BOdeFlow and BHamiltonianFlow return for every row of z0 the flow of that row alone (vmap of HamiltonianFlow). The losses of IntegratedODETrainer and IntegratedDynamicsTrainer are 0 exactly if the targets are the rollouts of the model. If each example of a minibatch (initial condition and targets) is moved by a group element of its own that acts by an orthogonal matrix, the loss does not change for EMLPode of every group flagged is_orthogonal, nor for EMLPH if the matrices are also symplectic; log_rollout_error and log_rollout_error_ode do not change if the data set has the symmetry too.", "quantifier": "all batch sizes, lists of times, networks, parameters, group elements (one per example), minibatches", "why_tests_cant": "all times, states and elements", "anchors": ["experiments/trainer/hamiltonian_dynamics.py:BOdeFlow", "experiments/trainer/hamiltonian_dynamics.py:BHamiltonianFlow", "experiments/trainer/hamiltonian_dynamics.py:IntegratedODETrainer.loss", "experiments/trainer/hamiltonian_dynamics.py:IntegratedDynamicsTrainer.loss", "experiments/trainer/hamiltonian_dynamics.py:log_rollout_error", "experiments/trainer/hamiltonian_dynamics.py:log_rollout_error_ode"]}
{"id": "C89", "title": "Schur's lemma for the computed equivariant bases of the non-compact groups", "statement": "For SL(n), GL(n), Sp(m), SO13p, SO13, Lorentz and O11 the basis returned for T(1,1) has exactly one column, a multiple of the identity, so the only equivariant linear maps V->V are multiples of the identity. For Sp(m) the bases of T(2,0) and T(0,2) have one column, a multiple of the symplectic form, and for SO13p, SO13, Lorentz and O11 one column, a multiple of the Minkowski metric. In general, if only multiples of the identity commute with the group, T(1,1) has one basis element, and T(2,0) and T(0,2) have one if the group also preserves a form.", "quantifier": "all n, all m, all groups with the stated properties, exact solvers", "why_tests_cant": "A test can compute ranks for a few n; that no other map commutes with a continuous group is a statement about infinitely many matrices and all n.", "anchors": ["emlp/groups.py:SL", "emlp/groups.py:GL", "emlp/groups.py:Sp", "emlp/groups.py:SO13p", "emlp/groups.py:Lorentz", "emlp/groups.py:O11", "emlp/reps/representation.py:Rep.equivariant_basis"]}
{"id": "C90", "title": "Representations without invariant tensors", "statement": "For GL(n) and Scaling(n) the basis returned for T(p,q) with p!=q has no column, and for SL(n), n>1, the basis for T(p,q) has no column unless p and q agree modulo n. A layer between such representations has no free weight. In contrast Scaling(n) fixes every tensor with p=q: the basis of T(p,p) has n^(2p) columns.", "quantifier": "all n, p and q, exact solvers", "why_tests_cant": "All ranks and all n; dense tests reach a few small tensors only.", "anchors": ["emlp/groups.py:SL", "emlp/groups.py:GL", "emlp/groups.py:Scaling", "emlp/reps/representation.py:Rep.equivariant_basis", "emlp/reps/representation.py:T"]}
{"id": "C91", "title": "The descent of the iterative solver converges at an exponential rate", "statement": "krylov_constraint_solve_upto_r minimises |CW|^2 by gradient descent with momentum .9. If L bounds the square of the largest singular value of C and lr*L<1/5, the loss after t iterations is at most q**(t//2) times the loss at the start, with some q<1 that depends on C and lr only; so the loss never exceeds the first one, and with enough iterations the loop breaks by convergence, for every tolerance, rank r and start. For lr*L<3.8=2(1+.9) the loss still goes to zero geometrically, up to a constant factor, and W converges as fast to the projection of the start to the null space of C. Such an L exists for every C. Without a bound on lr the claim of the docstring is false: for C=(20) and the default lr=1e-2 (lr*L=4) the iterates grow like 1.5**t.", "quantifier": "all real matrices C, ranks, starts, learning rates below the bound, numbers of iterations, tolerances; exact arithmetic", "why_tests_cant": "A rate for all matrices and all numbers of iterations is not observable on runs; the threshold 3.8 separates convergence from divergence for all of them.", "anchors": ["emlp/reps/representation.py:krylov_constraint_solve_upto_r"]}
