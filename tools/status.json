{
"C01": ["proved", "For every well-formed operator expression without transposed views, every width and any commutative ring of scalars."],
"C02": ["proved", "Direct sums of zero blocks are excluded (scipy block_diag returns shape (1,0) there)."],
"C03": ["proved", "For real data (conjugation is the identity). The operators whose transposed product raises are stated exactly."],
"C04": ["proved", "The claim is false of the code; both refutations are theorems with concrete witnesses."],
"C05": ["proved", "For the class hierarchy with a correct invT, given a correct linalg.inv on the dense leaves. Sum and Scaled are refuted, DirectSum, Concat and raw-array Kron are proved to raise."],
"C06": ["proved", ""],
"C07": ["proved", "For any number of groups, any representation the API can build, any sort order that is total on the summands. Both rho and drho."],
"C08": ["proved", "For representations of one group (products over several groups are C19); sums, products, permuted operands; rho and drho."],
"C09": ["proved", "For one group; orthogonal groups under the hypothesis that the elements are orthogonal; rho and drho."],
"C10": ["proved", ""],
"C11": ["proved", "For any number of groups, any representation the API can build, any sort order that is total on the summands."],
"C12": ["proved", "Any two total orders give the same rho and drho for every expression built from V, dual, +, *, **, integers and user classes. Whether Python's < is a total order is C20."],
"C13": ["proved", "Direct and deferred construction both equal a specification evaluated without canonical forms."],
"C14": ["proved", "Includes negative multiples, which raise."],
"C15": ["proved", "For any number of groups."],
"C16": ["proved", "First-order coefficient taken in the dual numbers over any commutative ring."],
"C17": ["proved", "For any number of groups."],
"C18": ["proved", "For one group."],
"C20": ["proved", "Strict weak order (total for injective hashes) on the summands of representations of one group of dimension at least 2. False in general: four refutations (two groups, several-group products, small user classes, one-dimensional groups)."],
"C19": ["proved", "proved for factors over disjoint sets of groups and any total order used by sorted(); the second half of the statement (further products merge factors of groups that already occur) is false: C19_merge_refuted gives wrong matrices and C19_merge_raises_refuted an AssertionError"],
"C21": ["proved", "every object other than Scalar keeps its value under all histories; Scalar.G changes only by calling something containing Scalar. The statement is false for Scalar itself: C21_scalar_refuted."],
"C22": ["proved", "proved for atoms, for sums of atoms when sizes, distinctness and sorting order carry over, and for the same group. False in general: products raise, other dimensions, orthogonal groups and other sort orders give wrong results (four refutations)."],
"C23": ["proved", "== is equality between two sums and from any non-sum, for any total order. False when a sum is compared with a non-sum: raises (C23_sum_raises_refuted) or identifies V+V with V*V (C23_sum_equals_product_refuted); hash raises on permuted sums."],
"C26": ["proved", "for every well-formed representation, with the numerical solvers assumed exact on the systems they are called on (solver_ok)"],
"C27": ["proved", "proved when every factor has a nonzero invariant vector; refuted otherwise: the returned operator raises when applied"],
"C28": ["proved", "proved on the dense data and on application; refuted for P.T of a sum as an operator (it raises) and for complex scalars (Q Q^T instead of Q Q^H)"],
"C24": ["proved", "for every well-formed representation with a group attribute; constraint_matrix raises AttributeError on the others (C24_constraint_undefined), for which C25_basis_whole_group covers the computed invariants"],
"C25": ["proved", "converse of C24, plus C25_basis_whole_group for all representations (solvers assumed exact)"],
"C29": ["proved", "proved when equal names mean equal groups; refuted in general by two Embed groups with different slices"],
"C30": ["proved", "proved for real constraints with generic starts and exact convergence; refuted at full nullity (IndexError) and for complex constraints (only real solutions are found)"],
"C31": ["proved", "for all losses: attempts, iterations, learning rates, and what is returned"],
"C54": ["proved", "refuted: infinite recursion for a concrete input and all gradients; characterised when it returns, and the entries it returns"],
"C32": ["proved", "for all n >= 1 (SO, SL, SU: n >= 2, the constructor raises for n = 1); U and SU bases over the reals"],
"C33": ["proved", "S(n): exactly the permutation matrices; Z(n): exactly the n distinct shifts; Cube: exactly the 24 orientation preserving face permutations; O, O13, O11: all words preserve the form"],
"C40": ["proved", "total for n >= 2, and for n >= 1 except SO(1), SL(1), S(1), SU(1), which raise TypeError (refuted)"],
"C34": ["proved", "exact test: set iff every element of the generated group is orthogonal, all representations orthogonal, rho(r.T)=rho(r); the tolerance 1e-6 admits non-orthogonal generators (refuted); D(k) right although its reflection is added after the test"],
"C35": ["proved", "exact test: elements and all flagged representations are permutation matrices; refuted for D(1) (reflection added after the test) and with the tolerance (a shear is flagged)"],
"C36": ["proved", "real groups; expm and inv exact; every draw of z, exponents and orders"],
"C37": ["proved", "words permute the 48 stickers, corners among corners; refuted: for every assignment of corner stickers to triples (edge stickers to pairs) some generator tears one apart, so the generators are not quarter turns of a cube"],
"C38": ["proved", "generators on separate axes, sizes, same invariants as the mixed product V(G1)*V(G2); error cases: no generators at all (no dimension), dual of V(G1*G2) at array generators (AttributeError)"],
"C39": ["proved", "acts on the slice as G and trivially elsewhere when the slice has the size of G; refuted: equality ignores the slice, one-dimensional groups are broadcast to singular matrices, complex groups lose their imaginary part; list generators raise"],
"C41": ["proved", "real groups, one group per layer, exact solver; with representations of several groups repin>>repout may raise (refuted, cf. C19)"],
"C42": ["proved", "input representation a SumRep; refuted for others (AttributeError)"],
"C43": ["proved", "succeeds iff active_dims parameters are given, ignores further ones, depends on each of the active ones"],
"C44": ["proved", "all representations of one group, gate_indices on canonical sums; gated raises on a mixed product under a non-total order (refuted)"],
"C45": ["proved", "any activation; permutation flags truthful (proved of the exact test in C35)"],
"C46": ["proved", "all depths, widths, hidden canonical sums or ch >= 2, parameters, random draws; batches with one group element per row"],
"C47": ["proved", "for every ch >= 1 and dimension >= 1 under a total order (Python's is one for dimension >= 2); ch = 0 raises, dimension 0 loops forever (refuted)"],
"C48": ["proved", "refuted: exactly the sums in canonical order can be used; V, V+Scalar, V*V construct a network that fails on every input, ch=1 raises"],
"C55": ["proved", "same function of (w,b,x), constructors succeed together; same exception for objax, flax, pytorch"],
"C49": ["proved", "all models, draws and batches, representations Scalar, V, V*; sums and products, and default_aug of the data sets, raise for every model (refuted)"],
"C50": ["proved", "any field, all models and statistics; statistics of Inertia, O5Synthetic and ParticleInteraction for every data matrix"],
"C51": ["proved", "any commutative ring, any number of bodies, every orthogonal 3x3 matrix"],
"C52": ["proved", "any commutative ring; sin, square root and division are arbitrary functions"],
"C53": ["proved", "any commutative ring, every isometry of the Minkowski form"],
"C56": ["proved", "over the reals, any list of samples; a W of the wrong size raises TypeError"],
"C57": ["proved", "Coq reals, all n; GL(n) is refuted: its object generates only the matrices of positive determinant. RubiksCube() generates all permutations of the corner stickers times all even permutations of the edge stickers, much more than the moves of a cube. U(n), SU(n) (complex) are not among the groups covered."],
"C58": ["proved", "Coq reals, the exact symmetry test (same) for Lorentz(); sqrt, sin and division are arbitrary functions; customs_ok is the contract of user-defined representations"],
"C59": ["proved", "Coq reals; grad(H) is a function with the derivative of H as value at the states in question; solutions are exact, the numerical integrator is not modelled"],
"C60": ["proved", "refuted: RubiksCube() as written moves the solved state to the broken one, so every equivariant function has the same value on all training and test rows; the three ways of constructing invalid cubes stay in the orbit of every one-hot state. Coq reals"],
"C61": ["proved", "Coq reals; the samples are any elements of the generated group, the permutation is any permutation"],
"C62": ["proved", "equality of the outcomes for every commutative ring; pytorch may raise another exception class (RuntimeError); equivariance over Coq reals with the hypotheses of C46"],
"C63": ["proved", "the last clause is refuted: MLP is not equivariant (C63_symmetry_refuted); parameters are given, their random initialisation is not modelled"],
"C64": ["proved", "refuted for pytorch: no forward of pytorch.py takes training, so Standardize of EMLP or MLP raises TypeError on every input; objax holds"],
"C65": ["proved", "the last clause is refuted at f = current epoch (C65_train_to_refuted); loader of constant length, update arbitrary; time-based extra logging inside the loop not modelled"],
"C66": ["proved", "the last clause holds when batch_size divides the size of the data set (C66_even); otherwise characterised (C66_uneven) and refuted (C66_average_refuted)"],
"C67": ["proved", "over any ordered domain, no nan values"],
"C68": ["proved", "raising cases in C68_errors; the clause on items holds exactly if chunk_len divides the length (C68_item), refuted otherwise (C68_length_refuted); odeint is any exact flow; batch size 0 does not terminate and n_systems = 0 raises (C68_generate_bad)"],
"C69": ["proved", "over any real closed field; log any function monotone on positive numbers"],
"C70": ["proved", "over any real closed field; the samples are arguments; nan exactly if both predictions are 0 and all samples are the identity; cross entropy not modelled"],
"C71": ["proved", "refuted for references straight down (C71_rest_refuted), which are the only ones giving nan; scalar products are those of the vectors stretched along z by the length of the reference"],
"C72": ["proved", "on a set of states preserved by flow and symmetry on which the gradient exists and is Lipschitz; existence of the flow is a hypothesis"],
"C73": ["proved", "existence over the reals, by induction on the size and by classical choice"],
"C74": ["proved", "for groups whose generators are arrays, permutations or shifts, with exact solvers"],
"C75": ["proved", "with exact solvers"],
"C76": ["proved", "with exact solvers"],
"C77": ["proved", "with exact solvers"],
"C78": ["proved", "proved for permutation representations; refuted for SO(2) (C78_vis_refuted); KMeans and plotting are not modelled"],
"C79": ["proved", "exact comparison of arrays; with a tolerance see C35_tolerance_refuted"],
"C80": ["proved", "with exact solvers"],
"C81": ["proved", "with exact solvers"],
"C82": ["proved", "with exact solvers"],
"C83": ["proved", "exact solutions of the differential equation with the logistic function as gate; the integrator odeint and its tolerance are not modelled"],
"C84": ["proved", "exact gradients and solutions; jax.grad and odeint are not modelled"],
"C85": ["proved", "exact solutions; odeint is not modelled"],
"C86": ["proved", "exact solvers (C73); C86_transpose and C86_tensors for groups flagged orthogonal"],
"C87": ["proved", "exact gradients and integration; C87_reflection_refuted: orthogonal matrices that are not symplectic do not preserve the flow"],
"C88": ["proved", "integrators without error (C88_ideal: they exist); the error of odeint and its tolerances are not modelled"],
"C89": ["proved", "exact solvers (C73: they exist)"],
"C90": ["proved", "exact solvers (C73: they exist)"],
"C91": ["proved", "real constraints, exact arithmetic; the docstring without a bound on lr is refuted (C91_large_refuted)"]
}
