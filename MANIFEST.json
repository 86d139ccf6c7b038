{
 "claims": [
  {
   "property": "C01",
   "status": "proved",
   "theorems": [
    "C01_cyclic_group_laws"
   ],
   "note": ""
  },
  {
   "property": "C02",
   "status": "proved",
   "theorems": [
    "C02_dihedral_group_laws"
   ],
   "note": ""
  },
  {
   "property": "C03",
   "status": "proved",
   "theorems": [
    "C03_continuous_group_laws"
   ],
   "note": "Angle equality is exact (tolerance 0)."
  },
  {
   "property": "C04",
   "status": "proved",
   "theorems": [
    "C04_cyclic_subgroups",
    "C04_dihedral_subgroups"
   ],
   "note": ""
  },
  {
   "property": "C05",
   "status": "partial",
   "theorems": [
    "C05_so2_subgroups_partial",
    "C05_o2_subgroups_partial",
    "C05_so2_child_refuted",
    "C05_o2_child_refuted"
   ],
   "note": "Everything but the last clause is proved. The last clause (the child map always returns an element) is false of the code: refuted with witnesses."
  },
  {
   "property": "C06",
   "status": "proved",
   "theorems": [
    "C06_irreps"
   ],
   "note": ""
  },
  {
   "property": "C07",
   "status": "proved",
   "theorems": [
    "C07_representation",
    "C07_directsum",
    "C07_change_basis",
    "C07_directsum_change_of_basis"
   ],
   "note": ""
  },
  {
   "property": "C08",
   "status": "proved",
   "theorems": [
    "C08_restriction",
    "C08_result_is_representation"
   ],
   "note": ""
  },
  {
   "property": "C09",
   "status": "proved",
   "theorems": [
    "C09_regular_cyclic",
    "C09_regular_dihedral",
    "C09_multiplicities"
   ],
   "note": ""
  },
  {
   "property": "C10",
   "status": "proved",
   "theorems": [
    "C10_induced_cyclic",
    "C10_induced_dihedral",
    "C10_quotient_permutation"
   ],
   "note": "Includes: whenever the builder returns, its change of basis reproduces the induced matrices. That its internal assertions never fail is not proved."
  },
  {
   "property": "C11",
   "status": "proved",
   "theorems": [
    "C11_field_bookkeeping"
   ],
   "note": "Generic in gspace, representation and channel types."
  },
  {
   "property": "C12",
   "status": "proved",
   "theorems": [
    "C12_sorting_grouping"
   ],
   "note": "sorted() modelled by insertion sort on (size, position) keys, which are distinct."
  },
  {
   "property": "C13",
   "status": "partial",
   "theorems": [
    "C13_slicing_partial",
    "C13_slicing_succeeds",
    "C13_slicing_refuted"
   ],
   "note": "Channel dimension only. Full claim is false: an int index z with -2n <= z < -n-1 wraps twice and returns a field (C13_slicing_refuted); proved for all slices and all other ints."
  },
  {
   "property": "C14",
   "status": "proved",
   "theorems": [
    "C14_split_directsum"
   ],
   "note": ""
  },
  {
   "property": "C15",
   "status": "partial",
   "theorems": [
    "C15_split_history_refuted",
    "C15_split_fresh_lists_partial"
   ],
   "note": "False of the code: split appends to the caller's list, so the same call with the same list object always fails the second time. Holds when each call gets its own list or None."
  },
  {
   "property": "C16",
   "status": "proved",
   "theorems": [
    "C16_fiber_action"
   ],
   "note": ""
  },
  {
   "property": "C17",
   "status": "proved",
   "theorems": [
    "C17_arithmetic"
   ],
   "note": "np.allclose in the comparison of types is idealised to equality."
  },
  {
   "property": "C18",
   "status": "partial",
   "theorems": [
    "C18_restriction_partial",
    "C18_restriction_exists",
    "C18_cyclic",
    "C18_same_name_refuted",
    "C18_module_partial",
    "C18_module_exists",
    "C18_same_name_restrictions"
   ],
   "note": "False for types with two different representations of the same name (dict keyed by name, C18_same_name_refuted); proved when names identify representations. C18_module_partial is about RestrictionModule: any gspace, any subgroup, any element, interpolated or not."
  },
  {
   "property": "C19",
   "status": "proved",
   "theorems": [
    "C19_grid_action",
    "C19_featurefield_action",
    "C19_exact_elements"
   ],
   "note": "Interpolated rotations (scipy) are not modelled; floating point is_integer test taken over the reals."
  },
  {
   "property": "C20",
   "status": "proved",
   "theorems": [
    "C20_restrict_space"
   ],
   "note": ""
  },
  {
   "property": "C21",
   "status": "partial",
   "theorems": [
    "C21_gspace_eq_partial",
    "C21_gspace_eq_refuted",
    "C21_gspace_hash_refuted",
    "C21_kernel_basis_eq_partial",
    "C21_steerable_basis_eq_partial",
    "C21_kernel_basis_eq_refuted",
    "C21_kernel_basis_eq_raises_refuted",
    "C21_diffop_basis_eq_partial",
    "C21_diffop_basis_eq_refuted"
   ],
   "note": "False of the code: __eq__ of the mirror spaces and of the kernel bases of D_N and O(2) ignores the axis; comparing kernel bases of different dimension raises ValueError. Proved when the axes agree. Bases of differential operators: no basis for D_N equals itself (its __eq__ tests for another class), O(2) ignores the axis; proved for mirrors and C_N."
  },
  {
   "property": "C22",
   "status": "proved",
   "theorems": [
    "C22_mirror",
    "C22_cyclic",
    "C22_dihedral",
    "C22_SO2",
    "C22_O2"
   ],
   "note": ""
  },
  {
   "property": "C23",
   "status": "proved",
   "theorems": [
    "C23_cyclic",
    "C23_dihedral",
    "C23_mirror",
    "C23_trivial",
    "C23_SO2",
    "C23_O2"
   ],
   "note": ""
  },
  {
   "property": "C24",
   "status": "partial",
   "theorems": [
    "C24_offsets",
    "C24_offsets_T_partial",
    "C24_offsets_refuted"
   ],
   "note": "True when max_frequency is given. With only max_offset: offsets beyond 10000 are dropped and non_negative is ignored (C24_offsets_refuted)."
  },
  {
   "property": "C25",
   "status": "partial",
   "theorems": [
    "C25_independent",
    "C25_independent_refuted"
   ],
   "note": "False between one-dimensional irreps when only max_offset is given: cos(-ka) and cos(ka) are both generated (C25_independent_refuted). Proved in all other cases."
  },
  {
   "property": "C26",
   "status": "proved",
   "theorems": [
    "C26_complete",
    "C26_complete_continuous"
   ],
   "note": ""
  },
  {
   "property": "C27",
   "status": "proved",
   "theorems": [
    "C27_steerable_basis",
    "C27_polar_basis",
    "C27_sample_masked",
    "C27_tensor_basis"
   ],
   "note": "Block and product bases of kernels, and TensorBasis of differential operators."
  },
  {
   "property": "C28",
   "status": "proved",
   "theorems": [
    "C28_weight_layout",
    "C28_R2Conv",
    "C28_R2Diffop",
    "C28_repeated_ids_refuted",
    "C28_R2ConvTransposed"
   ],
   "note": "For distinct rings (the defaults are). With repeated rings the ids collide and forward always fails (C28_repeated_ids_refuted)."
  },
  {
   "property": "C29",
   "status": "proved",
   "theorems": [
    "C29_R2Conv_equivariant",
    "C29_stride_1",
    "C29_different_axes_refuted"
   ],
   "note": "Exact real arithmetic. Both types over one gspace; R2Conv also accepts types over mirrors about different axes (gspace equality ignores the axis) and is then not equivariant (C29_different_axes_refuted)."
  },
  {
   "property": "C30",
   "status": "proved",
   "theorems": [
    "C30_sampling_grid"
   ],
   "note": ""
  },
  {
   "property": "C31",
   "status": "proved",
   "theorems": [
    "C31_bias_invariant",
    "C31_transposed_bias"
   ],
   "note": "R2Conv and R2ConvTransposed."
  },
  {
   "property": "C32",
   "status": "partial",
   "theorems": [
    "C32_current_filter_partial",
    "C32_train_refreshes",
    "C32_update_in_eval_refuted",
    "C32_transposed_partial",
    "C32_transposed_eval_refuted"
   ],
   "note": "False of the code when parameters change in evaluation mode (C32_update_in_eval_refuted); proved for all other histories. The same for R2ConvTransposed."
  },
  {
   "property": "C33",
   "status": "partial",
   "theorems": [
    "C33_restriction_shape",
    "C33_R2Conv_shape_partial",
    "C33_R2Conv_tuple_refuted",
    "C33_R2Diffop_shape_partial",
    "C33_branching_shape",
    "C33_multiple_shape_refuted",
    "C33_maxpool_shape_partial",
    "C33_maxpool_ceil_refuted",
    "C33_avgpool_refuted",
    "C33_avgpool_antialiased_shape",
    "C33_maxpool_antialiased_shape_partial",
    "C33_maxpool_antialiased_refuted",
    "C33_adaptive_refuted",
    "C33_upsampling_shape",
    "C33_norm_max_shape",
    "C33_norm_max_ceil_refuted",
    "C33_transposed_shape_partial",
    "C33_transposed_refuted",
    "C33_module_shape_partial",
    "C33_network_shape_partial",
    "C33_nested_shape_partial",
    "C33_gated2_shape",
    "C33_induced_gated_shape",
    "C33_reshuffle_shape",
    "C33_merge_shape",
    "C33_network_avgpool_refuted"
   ],
   "note": "Every module is covered: the announcement is either proved right (C33_module_shape_partial lists 28 kinds of modules, C33_network_shape_partial any SequentialModule of them) or refuted. False for R2Conv with a tuple padding; MultipleModule.evaluate_output_shape always raises; PointwiseMaxPool with ceil_mode; PointwiseAvgPool always raises; PointwiseMaxPoolAntialiased with padding; adaptive pooling always returns pairs; NormMaxPool with ceil_mode raises instead of returning the last windows. R2ConvTransposed uses the formula of a convolution: right only when the size does not change."
  },
  {
   "property": "C48",
   "status": "partial",
   "theorems": [
    "C48_restriction_export",
    "C48_R2Conv_export",
    "C48_R2Conv_export_exists",
    "C48_R2Conv_version_refuted",
    "C48_inner_export",
    "C48_maxpool_export_partial",
    "C48_maxpool_ceil_refuted",
    "C48_maxpool_antialiased_export",
    "C48_adaptive_export",
    "C48_upsampling_export_partial",
    "C48_upsampling_size_refuted",
    "C48_transposed_export_partial",
    "C48_transposed_refuted",
    "C48_network_partial",
    "C48_nested_partial"
   ],
   "note": "C48_network_partial: any SequentialModule built from modules with export (R2Conv, R2ConvTransposed, PointwiseMaxPool, its antialiased form, PointwiseAdaptiveMaxPool, R2Upsampling, ReLU, ELU, GroupPooling, InnerBatchNorm, PointwiseDropout, IdentityModule), C48_nested_partial for nested sequences. False for PointwiseMaxPool with ceil_mode and for R2Upsampling with a size: export drops these arguments, and the exported upsampling always raises. R2ConvTransposed: right without output padding, which export drops."
  },
  {
   "property": "C39",
   "status": "partial",
   "theorems": [
    "C39_construction",
    "C39_construction_dict",
    "C39_history_partial",
    "C39_add_module",
    "C39_forward",
    "C39_equivariant",
    "C39_repeated_name_refuted",
    "C39_illegal_name_refuted"
   ],
   "note": "Proved for constructors and for add_module histories with legal, distinct names; false for a repeated name (the module is replaced in place) and after a call with an illegal name (out_type already changed)."
  },
  {
   "property": "C40",
   "status": "proved",
   "theorems": [
    "C40_reshuffle",
    "C40_branching",
    "C40_branching_construction",
    "C40_merge",
    "C40_multiple",
    "C40_reshuffle_duplicates_refuted",
    "C40_branching_dot_refuted"
   ],
   "note": "Channel dimension. Outside the quantifier: a list that repeats entries is accepted as a permutation and duplicates fields; labels with a dot raise KeyError."
  },
  {
   "property": "C50",
   "status": "partial",
   "theorems": [
    "C50_merge_rebuild",
    "C50_rebuild_refuted"
   ],
   "note": "False of the code: MergeModule rewrites the caller's list; building a MultipleModule again from it raises TypeError."
  },
  {
   "property": "C41",
   "status": "proved",
   "theorems": [
    "C41_places",
    "C41_norm",
    "C41_induced_norm",
    "C41_gated2",
    "C41_gated1",
    "C41_concatenated",
    "C41_group_pool",
    "C41_norm_pool",
    "C41_induced_norm_pool",
    "C41_vectorfield",
    "C41_induced_gated1"
   ],
   "note": "The batch norms are covered under C44."
  },
  {
   "property": "C42",
   "status": "partial",
   "theorems": [
    "C42_pointwise",
    "C42_norm",
    "C42_induced_norm",
    "C42_gated1",
    "C42_gated2",
    "C42_concatenated",
    "C42_vectorfield_partial",
    "C42_vectorfield_ties_refuted",
    "C42_vectorfield_C2_refuted",
    "C42_regular_cyclic",
    "C42_regular_dihedral",
    "C42_induced",
    "C42_concatenated_accepts",
    "C42_induced_gated1",
    "C42_induced_one_subgroup",
    "C42_induced_gated1_subgroups_refuted"
   ],
   "note": "False for VectorFieldNonLinearity: ties of the maximum (C42_vectorfield_ties_refuted), C_2 (every call raises). False for InducedGatedNonLinearity1 when gates and gated fields are induced from different subgroups of the same index, which its constructor accepts (C42_induced_gated1_subgroups_refuted); proved when they come from one subgroup."
  },
  {
   "property": "C43",
   "status": "proved",
   "theorems": [
    "C43_group_pool",
    "C43_norm_pool",
    "C43_induced_norm_pool",
    "C43_norm_pool_unsupported_refuted"
   ],
   "note": "For the representations the modules are meant for (permutations, orthogonal matrices). NormPool does not look at what a representation declares: C43_norm_pool_unsupported_refuted."
  },
  {
   "property": "C45",
   "status": "partial",
   "theorems": [
    "C45_fields_partial",
    "C45_own_numbers",
    "C45_eval",
    "C45_equivariant_partial",
    "C45_pointwise",
    "C45_inplace_refuted",
    "C45_p1_refuted"
   ],
   "note": "Field-wise and point-wise dropout for every input type, batch, drawn numbers and mode. Partial because the full statement is false of the code in two cases, both refuted with a witness: in-place dropout over fields of one size that are not adjacent changes nothing, and p = 1 divides zero by zero."
  },
  {
   "property": "C46",
   "status": "proved",
   "theorems": [
    "C46_disk",
    "C46_symmetric",
    "C46_module"
   ],
   "note": "Mask of every size and margin: which cells lie in the disk, exact symmetry under the grid rotations and flips, and equivariance of the module."
  },
  {
   "property": "C44",
   "status": "proved",
   "theorems": [
    "C44_norm_history",
    "C44_norm_value",
    "C44_induced_history",
    "C44_induced_value",
    "C44_inner_history",
    "C44_inner_value",
    "C44_gnorm_history",
    "C44_gnorm_value",
    "C44_reset_parameters_refuted"
   ],
   "note": "All four batch norms, over every history of training and evaluation batches, resets and parameter updates. torch.nn.BatchNorm3d, on which InnerBatchNorm is built, is modelled from its documentation. Side finding: NormBatchNorm.reset_parameters raises AttributeError when affine is False."
  },
  {
   "property": "C47",
   "status": "proved",
   "theorems": [
    "C47_he_init",
    "C47_R2Conv"
   ],
   "note": "For every expansion that lists all its weights, and for every R2Conv. The cache of generalized_he_init (off by default) is not modelled."
  },
  {
   "property": "C49",
   "status": "proved",
   "theorems": [
    "C49_disentangle",
    "C49_back",
    "C49_finest",
    "C49_module",
    "C49_make"
   ],
   "note": "For all accepted representations and field types. The module theorem assumes that equal names mean equal representations (the module is keyed by names). connected_components is modelled as the reachability classes numbered by their first nodes; isclose(x, 0) as x = 0."
  },
  {
   "property": "C35",
   "status": "proved",
   "theorems": [
    "C35_cheby",
    "C35_kind",
    "C35_operations"
   ],
   "note": "Also the other polynomial operations: product, Laplacian powers, evaluation, linear change of coordinates (transform_polynomial evaluates P at A^T x, its docstring says P(A x))."
  },
  {
   "property": "C38",
   "status": "proved",
   "theorems": [
    "C38_required_points_suffice",
    "C38_fewer_points_fail",
    "C38_order_zero",
    "C38_guaranteed_accuracy",
    "C38_consistent",
    "C38_largest_possible_order",
    "C38_R2Diffop_sizes"
   ],
   "note": "Accuracy is stated through exactness on polynomials. \"Fewer points fail\" holds for order at least 1, whatever the weights; for order 0 the centre point alone is exact (C38_order_zero). sympy.finite_diff_weights is modelled by the Lagrange form, proved to be the unique exact weights."
  },
  {
   "property": "C36",
   "status": "proved",
   "theorems": [
    "C36_cyclic",
    "C36_dihedral",
    "C36_mirror",
    "C36_trivial",
    "C36_SO2",
    "C36_O2"
   ],
   "note": "Every element of every basis the factories build, between any representations, at every point of the plane. Coefficients are exact reals (the code sets coefficients below 1e-8 to 0)."
  },
  {
   "property": "C37",
   "status": "partial",
   "theorems": [
    "C37_stencil_partial",
    "C37_mirror_sign",
    "C37_mirror_refuted",
    "C37_R2Diffop_equivariant_partial",
    "C37_R2Diffop_mirror_refuted",
    "gauss1_derivative"
   ],
   "note": "Proved for all rotations of the grid (every order, size, dilation, both methods, angle offsets) and for mirrors with even orders or with derivatives of Gaussians; proved at the level of stencils and of R2Diffop. False of the code for mirrors with operators of odd order and finite differences: the stencil is transposed, and changes sign (C37_mirror_sign, C37_mirror_refuted, C37_R2Diffop_mirror_refuted). Method rbffd (external package) is not modelled."
  },
  {
   "property": "C34",
   "status": "partial",
   "theorems": [
    "C34_layers_partial",
    "C34_after_history_partial",
    "C34_discretize",
    "C34_diffop_power_refuted",
    "C34_diffop_smoothing_refuted",
    "C34_axis_refuted"
   ],
   "note": "Every sequence of constructions of R2Conv and R2Diffop whose layers do not disturb one another gives the layers of a fresh process; the table of stencils never changes a result. False of the code: R2Diffop layers of one gspace that differ by maximum_power or by smoothing share one basis (the memory key omits them), and kernels on D_N with different mirror axes share their sampled filters (equality of bases omits the axis)."
  },
  {
   "property": "C51",
   "status": "partial",
   "theorems": [
    "C51_request_o2",
    "C51_request_so2",
    "C51_subgroup_persists",
    "C51_restrict_persists",
    "C51_restrict_so2_persists",
    "C51_restrict_finite",
    "C51_restrict_so2",
    "C51_restrict_continuous_partial",
    "C51_restrict_grown_refuted",
    "C51_restrict_high_refuted",
    "C51_induce_grown_refuted"
   ],
   "note": "Over every history: requests return the one object, restrictions that succeeded once succeed for ever with the same result, and restriction to finite subgroups never fails. Restriction to SO(2) or to O(2) about an axis succeeds for the frequencies known before the subgroup was first asked for; for later or higher frequencies it raises KeyError, and growing SO(2) makes induction to O(2) raise AssertionError (both refuted for all frequencies)."
  },
  {
   "property": "C52",
   "status": "partial",
   "theorems": [
    "C52_maxpool",
    "C52_maxpool_default",
    "C52_avgpool",
    "C52_avgpool_antialiased",
    "C52_maxpool_antialiased",
    "C52_adaptive",
    "C52_norm_max_value",
    "C52_norm_max_partial",
    "C52_norm_max_ties_refuted",
    "C52_untiled_refuted"
   ],
   "note": "All six pointwise pooling modules, for every image whose padded sides are tiled exactly by the windows and, where the element swaps the axes, for arguments equal on both axes. NormMaxPool: proved what it computes, and its equivariance when no window holds two different fields with the same largest norm; with such ties the claim is false (C52_norm_max_ties_refuted). Without exact tiling the last rows are dropped on one side only and the claim is false (C52_untiled_refuted)."
  },
  {
   "property": "C53",
   "status": "proved",
   "theorems": [
    "C53_declared",
    "C53_pointwise",
    "C53_norm",
    "C53_concatenated",
    "C53_concatenated_accepts",
    "C53_group_pool",
    "C53_change_of_basis_refuted"
   ],
   "note": "The family of representations is the inductive predicate built in Spec_Support.v. A direct sum with a change_of_basis argument keeps the declaration: there the claim would be false (C53_change_of_basis_refuted). The names induced_norm_k and induced_gated_k are given a meaning in C69; vectorfield and gated are not among the names that are given one."
  },
  {
   "property": "C54",
   "status": "proved",
   "theorems": [
    "C54_upsampling",
    "C54_scale_factor",
    "C54_nearest_refuted",
    "C54_align_corners_refuted"
   ],
   "note": "The two conditions of the statement are needed: mode nearest between 3 and 2 pixels takes its pixels from one side (C54_nearest_refuted), and align_corners with one output pixel takes the first corner (C54_align_corners_refuted). For elements that swap the axes the requested size is a square."
  },
  {
   "property": "C55",
   "status": "proved",
   "theorems": [
    "C55_transposed_equivariant",
    "C55_output_padding_refuted"
   ],
   "note": "The condition on the output padding is needed (C55_output_padding_refuted). Exact real arithmetic, as C29."
  },
  {
   "property": "C56",
   "status": "proved",
   "theorems": [
    "C56_network",
    "C56_invariant",
    "C56_nested"
   ],
   "note": "Spec_Net.v lists the layers (made) and, for each, the condition on its input (suits). Not among the layers: GatedNonLinearity2, InducedGatedNonLinearity, ReshuffleModule, BranchingModule, MergeModule, MultipleModule, RestrictionModule and IdentityModule. C56_nested: nested SequentialModules."
  },
  {
   "property": "C57",
   "status": "proved",
   "theorems": [
    "C57_nested",
    "C57_modules",
    "C57_networks"
   ],
   "note": "C57_nested for any modules with the contract Spec_Nested.checks, C57_modules: every module has it, C57_networks: two nestings."
  },
  {
   "property": "C58",
   "status": "proved",
   "theorems": [
    "C58_windows",
    "C58_rolls"
   ],
   "note": "C58_windows: windows of images of any sizes; C58_rolls: images wrapped around, also batch normalisation in training mode and global pooling. The layers are those for which Spec_Move.sees and Spec_Move.wraps hold; not among them, because the code does not move with the image there: MaskModule, bilinear upsampling, adaptive pooling to more than one pixel (and, for rolls, layers that pad with zeros or -inf, transposed convolution and the antialiased pooling layers). SequentialModules are not nested here (see C57)."
  },
  {
   "property": "C59",
   "status": "proved",
   "theorems": [
    "C59_irreducible",
    "C59_inequivalent",
    "C59_complete",
    "C59_counting",
    "C59_direct_sum"
   ],
   "note": "Completeness (C59_complete, C59_counting, and C59_direct_sum: every representation is a direct sum of irreps up to a change of basis) for the finite groups; for SO(2) and O(2) the statement makes no claim of completeness."
  },
  {
   "property": "C60",
   "status": "proved",
   "theorems": [
    "C60_succeeds",
    "C60_orthonormal",
    "C60_R2Conv"
   ],
   "note": "Random draws are parameters of the model: an orthogonal matrix for each irrep and size, and normal numbers none of which is exactly zero (a row of zeros gives nan in the code, with probability zero)."
  },
  {
   "property": "C61",
   "status": "proved",
   "theorems": [
    "C61_program",
    "C61_rolls"
   ],
   "note": "Programs are straight-line; variables share no memory (in-place statements on views of other variables are not modelled)."
  },
  {
   "property": "C62",
   "status": "partial",
   "theorems": [
    "C62_restores_partial",
    "C62_raises",
    "C62_train_restores",
    "C62_ungrouped",
    "C62_fresh_refuted",
    "C62_nonstrict_refuted"
   ],
   "note": "The full claim is false of the code: a checkpoint of a network on which neither train() nor eval() was called holds zero filters, which a network in evaluation mode accepts and uses; and with strict=False a network in evaluation mode keeps its old filters. R2Diffop (whose train is the same) is not in the networks; the constant buffers are left out of the state dicts."
  },
  {
   "property": "C63",
   "status": "proved",
   "theorems": [
    "C63_motions",
    "C63_invariant"
   ],
   "note": "The two kinds of motion ask different things of strides (C56 and C58), which the hypothesis route states for every step."
  },
  {
   "property": "C64",
   "status": "partial",
   "theorems": [
    "C64_representations_partial",
    "C64_types_partial",
    "C64_exact",
    "C64_equivalence_refuted",
    "C64_raises_refuted",
    "C64_matrices_refuted"
   ],
   "note": "Missing because false: without orthogonal changes of basis equal representations can have different matrices; == is not symmetric or transitive, equal objects can have different hashes, and comparing two sizes raises ValueError."
  },
  {
   "property": "C65",
   "status": "proved",
   "theorems": [
    "C65_training",
    "C65_classifier"
   ],
   "note": "One element for the whole batch in each step (the running statistics of a batch do not change when its images are permuted, and with an element per image the layers are equivariant image by image, but this is not modelled); dropouts in eval mode; autograd is taken to be a function of the loss as a function of the parameters; torch layers after the last module (the fully connected head of the example) are part of the loss and are not trained."
  },
  {
   "property": "C66",
   "status": "partial",
   "theorems": [
    "C66_network",
    "C66_module",
    "C66_finite",
    "C66_errors",
    "C66_continuous_refuted",
    "C66_training_refuted"
   ],
   "note": "False of the code in two ways: for SO(2) and O(2) only 52 angles are tested, so a ReLU on a field of frequency 52 that is declared point-wise passes although it is not equivariant; in training mode a NormBatchNorm, which meets the other conditions, fails its check because the calls change the running variances it normalises with. Modules whose check_equivariance is pass (batch normalisations, dropouts, poolings on their own, MergeModule) check nothing."
  },
  {
   "property": "C67",
   "status": "partial",
   "theorems": [
    "C67_sound",
    "C67_irreps_cyclic",
    "C67_irreps_dihedral",
    "C67_succeeds_cyclic",
    "C67_succeeds_dihedral",
    "C67_any_cyclic",
    "C67_any_dihedral",
    "C67_homomorphism_refuted"
   ],
   "note": "Exact homomorphism is false of the code: matrices within numpy's tolerance of a representation are stored as they are. Multiplicities are compared with integers exactly (the code allows 1e-9). That the search finds a change of basis is not proved: it is a hypothesis of C67_succeeds_* and C67_any_*. C67_any_* cover every exact homomorphism into real matrices (complete reducibility is proved)."
  },
  {
   "property": "C68",
   "status": "proved",
   "theorems": [
    "C68_induced",
    "C68_representation",
    "C68_irreps",
    "C68_copies",
    "C68_declared",
    "C68_quotient",
    "C68_refused"
   ],
   "note": "Exact real arithmetic. The assertion that the irrep belongs to the right SO(2) object and the caching of the result by name are in Model_Hist (C51), not here."
  },
  {
   "property": "C69",
   "status": "proved",
   "theorems": [
    "C69_declared",
    "C69_subfields",
    "C69_induced_norm",
    "C69_induced_pool"
   ],
   "note": "Inducing is from irreps of the subgroup; disentangled parts are left out of the family. The modules are in exact arithmetic."
  }
 ]
}