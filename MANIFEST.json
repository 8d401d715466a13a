{"claims": [
{"property": "C01", "status": "proved", "theorems": ["C01_matmul_is_matrix_product"], "note": "For every well-formed operator expression without transposed views, every width and any commutative ring of scalars."},
{"property": "C02", "status": "proved", "theorems": ["C02_to_dense_is_the_matrix"], "note": "Direct sums of zero blocks are excluded (scipy block_diag returns shape (1,0) there)."},
{"property": "C03", "status": "proved", "theorems": ["C03_transpose_matmul", "C03_adjoint_matmul", "C03_transpose_involutive", "C03_concat_transpose", "C03_transposes_that_raise"], "note": "For real data (conjugation is the identity). The operators whose transposed product raises are stated exactly."},
{"property": "C04", "status": "proved", "theorems": ["C04_adjoint_is_conjugate_transpose_refuted", "C04_projector_from_adjoint_refuted"], "note": "The claim is false of the code; both refutations are theorems with concrete witnesses."},
{"property": "C05", "status": "proved", "theorems": ["C05_invT_is_inverse_transpose", "C05_invT_of_sum_refuted", "C05_invT_of_scaled_refuted", "C05_invT_that_raises"], "note": "For the class hierarchy with a correct invT, given a correct linalg.inv on the dense leaves. Sum and Scaled are refuted, DirectSum, Concat and raw-array Kron are proved to raise."},
{"property": "C06", "status": "proved", "theorems": ["C06_wrong_height_raises", "C06_mismatched_operands_raise", "C06_result_shape"], "note": ""},
{"property": "C07", "status": "proved", "theorems": ["C07_sum_is_block_diagonal", "C07_sum_drho_is_block_diagonal"], "note": "For any number of groups, any representation the API can build, any sort order that is total on the summands. Both rho and drho."},
{"property": "C08", "status": "proved", "theorems": ["C08_product_is_kronecker", "C08_product_drho_is_kronecker_sum"], "note": "For representations of one group (products over several groups are C19); sums, products, permuted operands; rho and drho."},
{"property": "C09", "status": "proved", "theorems": ["C09_dual_is_inverse_transpose", "C09_dual_drho_is_minus_transpose"], "note": "For one group; orthogonal groups under the hypothesis that the elements are orthogonal; rho and drho."},
{"property": "C10", "status": "proved", "theorems": ["C10_sizes", "C10_size_of_T", "C10_rho_is_square"], "note": ""},
{"property": "C11", "status": "proved", "theorems": ["C11_canonicalize"], "note": "For any number of groups, any representation the API can build, any sort order that is total on the summands."},
{"property": "C12", "status": "proved", "theorems": ["C12_hash_seeds", "C12_order_independent", "C12_order_independent_drho"], "note": "Any two total orders give the same rho and drho for every expression built from V, dual, +, *, **, integers and user classes. Whether Python's < is a total order is C20."},
{"property": "C13", "status": "proved", "theorems": ["C13_expression_matrices", "C13_expression_drho_matrices"], "note": "Direct and deferred construction both equal a specification evaluated without canonical forms."},
{"property": "C14", "status": "proved", "theorems": ["C14_integer_multiple", "C14_zero", "C14_integer_sum", "C14_power", "C14_power_zero", "C14_negative_multiple"], "note": "Includes negative multiples, which raise."},
{"property": "C15", "status": "proved", "theorems": ["C15_rho_mul", "C15_rho_id", "C15_rho_inverse"], "note": "For any number of groups."},
{"property": "C16", "status": "proved", "theorems": ["C16_drho_is_derivative"], "note": "First-order coefficient taken in the dual numbers over any commutative ring."},
{"property": "C17", "status": "proved", "theorems": ["C17_drho_linear", "C17_drho_bracket"], "note": "For any number of groups."},
{"property": "C18", "status": "proved", "theorems": ["C18_linear_maps"], "note": "For one group."},
{"property": "C19", "status": "proved", "theorems": ["C19_disjoint_product", "C19_disjoint_product_drho", "C19_dictionary_entry", "C19_merge_refuted", "C19_merge_raises_refuted"], "note": "proved for factors over disjoint sets of groups and any total order used by sorted(); the second half of the statement (further products merge factors of groups that already occur) is false: C19_merge_refuted gives wrong matrices and C19_merge_raises_refuted an AssertionError"},
{"property": "C20", "status": "proved", "theorems": ["C20_strict_weak_order", "C20_total_order", "C20_two_groups_refuted", "C20_direct_product_refuted", "C20_small_class_refuted", "C20_one_dimensional_refuted"], "note": "Strict weak order (total for injective hashes) on the summands of representations of one group of dimension at least 2. False in general: four refutations (two groups, several-group products, small user classes, one-dimensional groups)."},
{"property": "C21", "status": "proved", "theorems": ["C21_objects_unchanged", "C21_scalar_changed_only_by_call", "C21_scalar_refuted"], "note": "every object other than Scalar keeps its value under all histories; Scalar.G changes only by calling something containing Scalar. The statement is false for Scalar itself: C21_scalar_refuted."},
{"property": "C22", "status": "proved", "theorems": ["C22_atoms", "C22_sum_of_other_group", "C22_same_group", "C22_product_refuted", "C22_dimension_refuted", "C22_orthogonal_refuted", "C22_order_refuted"], "note": "proved for atoms, for sums of atoms when sizes, distinctness and sorting order carry over, and for the same group. False in general: products raise, other dimensions, orthogonal groups and other sort orders give wrong results (four refutations)."},
{"property": "C23", "status": "proved", "theorems": ["C23_eq_is_equality", "C23_equal_hash_and_matrices", "C23_sum_raises_refuted", "C23_sum_equals_product_refuted", "C23_hash_raises_refuted"], "note": "== is equality between two sums and from any non-sum, for any total order. False when a sum is compared with a non-sum: raises (C23_sum_raises_refuted) or identifies V+V with V*V (C23_sum_equals_product_refuted); hash raises on permuted sums."},
{"property": "C24", "status": "proved", "theorems": ["C24_constraint_sound", "C24_constraint_undefined", "C24_elements"], "note": "for every well-formed representation with a group attribute; constraint_matrix raises AttributeError on the others (C24_constraint_undefined), for which C25_basis_whole_group covers the computed invariants"},
{"property": "C25", "status": "proved", "theorems": ["C25_constraint_complete", "C25_basis_whole_group"], "note": "converse of C24, plus C25_basis_whole_group for all representations (solvers assumed exact)"},
{"property": "C26", "status": "proved", "theorems": ["C26_basis", "C26_columns"], "note": "for every well-formed representation, with the numerical solvers assumed exact on the systems they are called on (solver_ok)"},
{"property": "C27", "status": "proved", "theorems": ["C27_basis_mixed", "C27_empty_factor_refuted"], "note": "proved when every factor has a nonzero invariant vector; refuted otherwise: the returned operator raises when applied"},
{"property": "C28", "status": "proved", "theorems": ["C28_projector", "C28_projector_is_QQT", "C28_transpose_refuted", "C28_complex_refuted"], "note": "proved on the dense data and on application; refuted for P.T of a sum as an operator (it raises) and for complex scalars (Q Q^T instead of Q Q^H)"},
{"property": "C29", "status": "proved", "theorems": ["C29_transparent", "C29_names_refuted"], "note": "proved when equal names mean equal groups; refuted in general by two Embed groups with different slices"},
{"property": "C30", "status": "proved", "theorems": ["C30_krylov", "C30_full_nullity", "C30_full_nullity_refuted", "C30_complex_refuted"], "note": "proved for real constraints with generic starts and exact convergence; refuted at full nullity (IndexError) and for complex constraints (only real solutions are found)"},
{"property": "C31", "status": "proved", "theorems": ["C31_attempts", "C31_ends", "C31_converged"], "note": "for all losses: attempts, iterations, learning rates, and what is returned"},
{"property": "C32", "status": "proved", "theorems": ["C32_so", "C32_o", "C32_gl", "C32_sl", "C32_sp", "C32_so13p", "C32_so13", "C32_o13", "C32_lorentz", "C32_so11p", "C32_o11", "C32_u", "C32_su"], "note": "for all n >= 1 (SO, SL, SU: n >= 2, the constructor raises for n = 1); U and SU bases over the reals"},
{"property": "C33", "status": "proved", "theorems": ["C33_s", "C33_z", "C33_z_distinct", "C33_cube", "C33_cube_24", "C33_cube_distinct", "C33_o", "C33_o13", "C33_lorentz", "C33_o11"], "note": "S(n): exactly the permutation matrices; Z(n): exactly the n distinct shifts; Cube: exactly the 24 orientation preserving face permutations; O, O13, O11: all words preserve the form"},
{"property": "C34", "status": "proved", "theorems": ["C34_orthogonal_flag", "C34_orthogonal_representations", "C34_orthogonal_dual", "C34_dihedral", "C34_tolerance_complete", "C34_tolerance_refuted"], "note": "exact test: set iff every element of the generated group is orthogonal, all representations orthogonal, rho(r.T)=rho(r); the tolerance 1e-6 admits non-orthogonal generators (refuted); D(k) right although its reflection is added after the test"},
{"property": "C35", "status": "proved", "theorems": ["C35_permutation_flag", "C35_permutation_representations", "C35_dihedral_refuted", "C35_tolerance_refuted"], "note": "exact test: elements and all flagged representations are permutation matrices; refuted for D(1) (reflection added after the test) and with the tolerance (a shear is flagged)"},
{"property": "C36", "status": "proved", "theorems": ["C36_sample_product", "C36_sample_in_group"], "note": "real groups; expm and inv exact; every draw of z, exponents and orders"},
{"property": "C37", "status": "proved", "theorems": ["C37_sticker_kinds", "C37_corners_refuted", "C37_edges_refuted"], "note": "words permute the 48 stickers, corners among corners; refuted: for every assignment of corner stickers to triples (edge stickers to pairs) some generator tears one apart, so the generators are not quarter turns of a cube"},
{"property": "C38", "status": "proved", "theorems": ["C38_generators", "C38_no_generators", "C38_dual_error", "C38_invariants"], "note": "generators on separate axes, sizes, same invariants as the mixed product V(G1)*V(G2); error cases: no generators at all (no dimension), dual of V(G1*G2) at array generators (AttributeError)"},
{"property": "C39", "status": "proved", "theorems": ["C39_acts_on_slice", "C39_slices", "C39_errors", "C39_no_generators", "C39_equality_refuted", "C39_broadcast_refuted", "C39_complex_refuted"], "note": "acts on the slice as G and trivially elsewhere when the slice has the size of G; refuted: equality ignores the slice, one-dimensional groups are broadcast to singular matrices, complex groups lose their imaginary part; list generators raise"},
{"property": "C40", "status": "proved", "theorems": ["C40_total_2", "C40_total_1", "C40_total_zkszn", "C40_total_0", "C40_total_refuted", "C40_total_u"], "note": "total for n >= 2, and for n >= 1 except SO(1), SL(1), S(1), SU(1), which raise TypeError (refuted)"},
{"property": "C41", "status": "proved", "theorems": ["C41_linear", "C41_mixed_refuted"], "note": "real groups, one group per layer, exact solver; with representations of several groups repin>>repout may raise (refuted, cf. C19)"},
{"property": "C42", "status": "proved", "theorems": ["C42_bilinear", "C42_nonsum_refuted"], "note": "input representation a SumRep; refuted for others (AttributeError)"},
{"property": "C43", "status": "proved", "theorems": ["C43_parameters"], "note": "succeeds iff active_dims parameters are given, ignores further ones, depends on each of the active ones"},
{"property": "C44", "status": "proved", "theorems": ["C44_gated", "C44_gate_indices", "C44_mixed_refuted"], "note": "all representations of one group, gate_indices on canonical sums; gated raises on a mixed product under a non-total order (refuted)"},
{"property": "C45", "status": "proved", "theorems": ["C45_gated_nonlinearity"], "note": "any activation; permutation flags truthful (proved of the exact test in C35)"},
{"property": "C46", "status": "proved", "theorems": ["C46_emlp", "C46_emlp_group"], "note": "all depths, widths, hidden canonical sums or ch >= 2, parameters, random draws; batches with one group element per row"},
{"property": "C47", "status": "proved", "theorems": ["C47_uniform_rep", "C47_uniform_rep_python", "C47_zero_channels", "C47_dimension_zero_refuted"], "note": "for every ch >= 1 and dimension >= 1 under a total order (Python's is one for dimension >= 2); ch = 0 raises, dimension 0 loops forever (refuted)"},
{"property": "C48", "status": "proved", "theorems": ["C48_unusable", "C48_hidden_refuted"], "note": "refuted: exactly the sums in canonical order can be used; V, V+Scalar, V*V construct a network that fails on every input, ch=1 raises"},
{"property": "C49", "status": "proved", "theorems": ["C49_augment", "C49_arrays", "C49_eval", "C49_composite_refuted", "C49_default_inertia_refuted", "C49_default_invariant_refuted"], "note": "all models, draws and batches, representations Scalar, V, V*; sums and products, and default_aug of the data sets, raise for every model (refuted)"},
{"property": "C50", "status": "proved", "theorems": ["C50_standardize", "C50_inertia_stats", "C50_o5_stats", "C50_particle_stats"], "note": "any field, all models and statistics; statistics of Inertia, O5Synthetic and ParticleInteraction for every data matrix"},
{"property": "C51", "status": "proved", "theorems": ["C51_inertia"], "note": "any commutative ring, any number of bodies, every orthogonal 3x3 matrix"},
{"property": "C52", "status": "proved", "theorems": ["C52_o5"], "note": "any commutative ring; sin, square root and division are arbitrary functions"},
{"property": "C53", "status": "proved", "theorems": ["C53_particle"], "note": "any commutative ring, every isometry of the Minkowski form"},
{"property": "C54", "status": "proved", "theorems": ["C54_sparsify_refuted", "C54_sparsify_returns", "C54_sparsify_entries"], "note": "refuted: infinite recursion for a concrete input and all gradients; characterised when it returns, and the entries it returns"},
{"property": "C55", "status": "proved", "theorems": ["C55_backends", "C55_weight_representations"], "note": "same function of (w,b,x), constructors succeed together; same exception for objax, flax, pytorch"},
{"property": "C56", "status": "proved", "theorems": ["C56_error", "C56_shape"], "note": "over the reals, any list of samples; a W of the wrong size raises TypeError"},
{"property": "C57", "status": "proved", "theorems": ["C57_sl", "C57_gl", "C57_gl_refuted", "C57_so", "C57_o", "C57_sp", "C57_so13p", "C57_so13", "C57_o13", "C57_so11p", "C57_o11", "C57_parity", "C57_time", "C57_scaling", "C57_c", "C57_d", "C57_trivial", "C57_s", "C57_z", "C57_cube", "C57_rubik", "C57_embed", "C57_so2er3", "C57_o2er3", "C57_dker3", "C57_product"], "note": "Coq reals, all n; GL(n) is refuted: its object generates only the matrices of positive determinant. RubiksCube() generates all permutations of the corner stickers times all even permutations of the edge stickers, much more than the moves of a cube. U(n), SU(n) (complex) are not among the groups covered."},
{"property": "C58", "status": "proved", "theorems": ["C58_inertia", "C58_o5", "C58_particle", "C58_pendulum"], "note": "Coq reals, the exact symmetry test (same) for Lorentz(); sqrt, sin and division are arbitrary functions; customs_ok is the contract of user-defined representations"},
{"property": "C59", "status": "proved", "theorems": ["C59_pendulum", "C59_pendulum_smooth", "C59_symplectic_form", "C59_energy", "C59_symplectic", "C59_orthogonal", "C59_emlph"], "note": "Coq reals; grad(H) is a function with the derivative of H as value at the states in question; solutions are exact, the numerical integrator is not modelled"},
{"property": "C60", "status": "proved", "theorems": ["C60_broken_refuted", "C60_ways_refuted"], "note": "refuted: RubiksCube() as written moves the solved state to the broken one, so every equivariant function has the same value on all training and test rows; the three ways of constructing invalid cubes stay in the orbit of every one-hot state. Coq reals"},
{"property": "C61", "status": "proved", "theorems": ["C61_inverted"], "note": "Coq reals; the samples are any elements of the generated group, the permutation is any permutation"},
{"property": "C62", "status": "proved", "theorems": ["C62_networks", "C62_equivariant"], "note": "equality of the outcomes for every commutative ring; pytorch may raise another exception class (RuntimeError); equivariance over Coq reals with the hypotheses of C46"},
{"property": "C63", "status": "proved", "theorems": ["C63_mlp", "C63_rows", "C63_symmetry_refuted"], "note": "the last clause is refuted: MLP is not equivariant (C63_symmetry_refuted); parameters are given, their random initialisation is not modelled"},
{"property": "C64", "status": "proved", "theorems": ["C64_objax", "C64_pytorch_refuted"], "note": "refuted for pytorch: no forward of pytorch.py takes training, so Standardize of EMLP or MLP raises TypeError on every input; objax holds"},
{"property": "C65", "status": "proved", "theorems": ["C65_train", "C65_compose", "C65_train_to", "C65_train_to_refuted"], "note": "the last clause is refuted at f = current epoch (C65_train_to_refuted); loader of constant length, update arbitrary; time-based extra logging inside the loop not modelled"},
{"property": "C66", "status": "proved", "theorems": ["C66_mean", "C66_even", "C66_uneven", "C66_average_refuted"], "note": "the last clause holds when batch_size divides the size of the data set (C66_even); otherwise characterised (C66_uneven) and refuted (C66_average_refuted)"},
{"property": "C67", "status": "proved", "theorems": ["C67_checkpoint", "C67_last"], "note": "over any ordered domain, no nan values"},
{"property": "C68", "status": "proved", "theorems": ["C68_errors", "C68_chunks", "C68_item", "C68_length_refuted", "C68_generate", "C68_generate_bad"], "note": "raising cases in C68_errors; the clause on items holds exactly if chunk_len divides the length (C68_item), refuted otherwise (C68_length_refuted); odeint is any exact flow; batch size 0 does not terminate and n_systems = 0 raises (C68_generate_bad)"},
{"property": "C69", "status": "proved", "theorems": ["C69_rel_err", "C69_rollout"], "note": "over any real closed field; log any function monotone on positive numbers"},
{"property": "C70", "status": "proved", "theorems": ["C70_mse", "C70_mean_square", "C70_loss", "C70_equivariance_err", "C70_equivariant", "C70_argmax"], "note": "over any real closed field; the samples are arguments; nan exactly if both predictions are 0 and all samples are the identity; cross entropy not modelled"},
{"property": "C71", "status": "proved", "theorems": ["C71_align", "C71_rest_refuted"], "note": "refuted for references straight down (C71_rest_refuted), which are the only ones giving nan; scalar products are those of the vectors stretched along z by the length of the reference"},
{"property": "C72", "status": "proved", "theorems": ["C72_solution", "C72_unique", "C72_flow"], "note": "on a set of states preserved by flow and symmetry on which the gradient exists and is Lipschitz; existence of the flow is a hypothesis"},
{"property": "C73", "status": "proved", "theorems": ["C73_solvers"], "note": "existence over the reals, by induction on the size and by classical choice"},
{"property": "C74", "status": "proved", "theorems": ["C74_tensors"], "note": "for groups whose generators are arrays, permutations or shifts, with exact solvers"},
{"property": "C75", "status": "proved", "theorems": ["C75_orbits", "C75_s", "C75_s_bell", "C75_z", "C75_trivial"], "note": "with exact solvers"},
{"property": "C76", "status": "proved", "theorems": ["C76_o", "C76_so", "C76_sp", "C76_so13", "C76_lorentz"], "note": "with exact solvers"},
{"property": "C77", "status": "proved", "theorems": ["C77_o", "C77_so", "C77_so2", "C77_so3"], "note": "with exact solvers"},
{"property": "C78", "status": "proved", "theorems": ["C78_vis", "C78_vis_flag", "C78_vis_refuted"], "note": "proved for permutation representations; refuted for SO(2) (C78_vis_refuted); KMeans and plotting are not modelled"},
{"property": "C79", "status": "proved", "theorems": ["C79_orthogonal", "C79_permutation", "C79_orthogonal_exact", "C79_permutation_exact", "C79_permutation_groups", "C79_orthogonal_groups", "C79_other_groups", "C79_c1"], "note": "exact comparison of arrays; with a tolerance see C35_tolerance_refuted"},
{"property": "C80", "status": "proved", "theorems": ["C80_character", "C80_tensors", "C80_perms"], "note": "with exact solvers"},
{"property": "C81", "status": "proved", "theorems": ["C81_c", "C81_d", "C81_parity", "C81_time", "C81_cube"], "note": "with exact solvers"},
{"property": "C82", "status": "proved", "theorems": ["C82_so2", "C82_o2"], "note": "with exact solvers"},
{"property": "C83", "status": "proved", "theorems": ["C83_ode", "C83_fixed", "C83_mlp", "C83_emlpode"], "note": "exact solutions of the differential equation with the logistic function as gate; the integrator odeint and its tolerance are not modelled"},
{"property": "C84", "status": "proved", "theorems": ["C84_emlph", "C84_orthogonal", "C84_mlph"], "note": "exact gradients and solutions; jax.grad and odeint are not modelled"},
{"property": "C85", "status": "proved", "theorems": ["C85_mlpode", "C85_mlph"], "note": "exact solutions; odeint is not modelled"},
{"property": "C86", "status": "proved", "theorems": ["C86_sum", "C86_multiple", "C86_exchange", "C86_left", "C86_right", "C86_maps", "C86_layer", "C86_channels", "C86_transpose", "C86_tensors", "C86_flag", "C86_s", "C86_z", "C86_so2"], "note": "exact solvers (C73); C86_transpose and C86_tensors for groups flagged orthogonal"},
{"property": "C87", "status": "proved", "theorems": ["C87_energy", "C87_shape", "C87_gradient", "C87_flow", "C87_batch", "C87_symmetry", "C87_reflection_refuted"], "note": "exact gradients and integration; C87_reflection_refuted: orthogonal matrices that are not symplectic do not preserve the flow"},
{"property": "C88", "status": "proved", "theorems": ["C88_ideal", "C88_vmap", "C88_zero", "C88_loss", "C88_rollout_error", "C88_emlpode", "C88_emlph", "C88_group"], "note": "integrators without error (C88_ideal: they exist); the error of odeint and its tolerances are not modelled"},
{"property": "C89", "status": "proved", "theorems": ["C89_maps", "C89_forms", "C89_sl", "C89_gl", "C89_sp", "C89_so13p", "C89_so13", "C89_lorentz", "C89_o11"], "note": "exact solvers (C73: they exist)"},
{"property": "C90", "status": "proved", "theorems": ["C90_gl", "C90_scaling", "C90_sl", "C90_scaling_all"], "note": "exact solvers (C73: they exist)"},
{"property": "C91", "status": "proved", "theorems": ["C91_rate", "C91_sharp", "C91_limit", "C91_converges", "C91_first_attempt", "C91_bound_exists", "C91_large_refuted"], "note": "real constraints, exact arithmetic; the docstring without a bound on lr is refuted (C91_large_refuted)"}
]}
