# DESIGN: a Rocq model of QUVA-Lab/e2cnn

All Coq files are in `rocq/theories`. `Model_*` mirror the code function by function, with a citation of file and lines beside each definition. `Spec_*` hold small specifications that do not use the helpers of the model. `Proofs_*` hold lemmas. `Prop_*` hold the theorems of MANIFEST.json, each followed by `Print Assumptions` and by an `Example` that meets its hypotheses. `Base.v` and `LinAlg.v` are finite sums and matrices.

## Trusted base

- The kernel of Coq 8.16.1. No axiom, parameter, admitted proof or plugin of our own.
- Axioms of the standard library, reached only through its real numbers and classical reasoning: `ClassicalDedekindReals.sig_forall_dec`, `ClassicalDedekindReals.sig_not_dec`, `FunctionalExtensionality.functional_extensionality_dep` and, for some theorems, `Classical_Prop.classic`. The last section lists them for every theorem.
- The model: that the definitions of `Model_*` say what the cited lines of /repo do, under the idealisations below.

## Idealisations

- Floats are exact real numbers (`R`). `np.isclose`, `np.allclose` and rounding of nearly integer quotients become exact equality, so rounding errors are outside every theorem. Only C64 models the tolerance, in the comparison of representations and field types. Comparisons of reals are decided classically (`Req_EM_T`, `Rle_dec`); such models are definitions over the stdlib reals, not programs that can be extracted.
- Python ints are `Z` (or `nat` where the code can only meet non-negative ones), `%` and `//` are `Z.modulo` and `Z.div`.
- A call that raises is `Err "ClassName"`. A result that would contain NaN is `Err "nan"`. `assert` is `Err "AssertionError"`.
- Arrays are functions with explicit sizes, tensors are lists of channels or functions from the remaining indices; views, `reshape`, `gather`, `scatter` are index arithmetic as coded.
- Uninitialised memory (`torch.empty`) is an arbitrary parameter (`junk`), random numbers are parameters.
- Mutable objects (caches, buffers, modules in training or evaluation mode, lists mutated by callees, the growing SO(2)/O(2) objects) are explicit states, and the properties about them quantify over all histories of calls.
- PyTorch, numpy and scipy primitives (`conv2d`, `pad`, pooling, `linspace`, `connected_components`, , ...) are modelled by their mathematical definition, stated in the comment of the model.
- Fields that the code stores but never reads for the modelled behaviour (names for printing, devices, dtypes, gradients) are left out.

## Properties: what is modelled, how it is proved, status

- **C01 Cyclic group laws** (proved). Z-valued elements, Python % = Z.modulo; laws by Z arithmetic.  Theorems: `C01_cyclic_group_laws`.
- **C02 Dihedral group laws** (proved). Pairs of Z; case analysis on flips and Z.modulo arithmetic.  Theorems: `C02_dihedral_group_laws`.
- **C03 Continuous group laws up to 2*pi** (proved). R angles, `%` on reals modelled by an exact real modulo; equality = differ by an integer multiple of 2pi (idealised isclose). Angle equality is exact (tolerance 0). Theorems: `C03_continuous_group_laws`.
- **C04 Subgroup maps of finite groups** (proved). Functions returning option; divisibility arithmetic over Z.  Theorems: `C04_cyclic_subgroups`, `C04_dihedral_subgroups`.
- **C05 Subgroup maps of SO(2) and O(2)** (partial). Same over R; expected disagreement: SO2 child map can return M at angles just below a full turn / equal to 2pi. Everything but the last clause is proved. The last clause (the child map always returns an element) is false of the code: refuted with witnesses. Theorems: `C05_so2_subgroups_partial`, `C05_o2_subgroups_partial`, `C05_so2_child_refuted`, `C05_o2_child_refuted`.
- **C06 Irreps are orthogonal representations** (proved). Matrices over stdlib R with cos/sin; angle addition, periodicity.  Theorems: `C06_irreps`.
- **C07 Representations built from irreps are representations** (proved). Block diagonal matrices by induction on list of blocks.  Theorems: `C07_representation`, `C07_directsum`, `C07_change_basis`, `C07_directsum_change_of_basis`.
- **C08 Restriction of a representation** (proved). Model of _restrict_irrep for each group; conjugation identities per case; lift to direct sums.  Theorems: `C08_restriction`, `C08_result_is_representation`.
- **C09 Regular representation** (proved). Model build_regular_representation for C_N and D_N; finite trigonometric sums for all N.  Theorems: `C09_regular_cyclic`, `C09_regular_dihedral`, `C09_multiplicities`.
- **C10 Quotient and induced representations** (proved). Induced matrices over coset representatives; abstract finite group with a section, instantiated to C_N, D_N. Includes: whenever the builder returns, its change of basis reproduces the induced matrices. That its internal assertions never fail is not proved. Theorems: `C10_induced_cyclic`, `C10_induced_dihedral`, `C10_quotient_permutation`.
- **C11 FieldType channel bookkeeping** (proved). Lists of sizes, prefix sums; induction. Generic in gspace, representation and channel types. Theorems: `C11_field_bookkeeping`.
- **C12 Sorting and grouping fields** (proved). Stable sort model; group_by_labels as filter; permutation proofs. sorted() modelled by insertion sort on (size, position) keys, which are distinct. Theorems: `C12_sorting_grouping`.
- **C13 Slicing a GeometricTensor by fields** (partial). Model __getitem__ on the channel dim with Python slice semantics; compare with list indexing; expected refutation for doubly negative ints. Channel dimension only. Full claim is false: an int index z with -2n <= z < -n-1 wraps twice and returns a field (C13_slicing_refuted); proved for all slices and all other ints. Theorems: `C13_slicing_partial`, `C13_slicing_succeeds`, `C13_slicing_refuted`.
- **C14 split and tensor_directsum are inverse** (proved). Induction on breaks.  Theorems: `C14_split_directsum`.
- **C15 split does not depend on call history** (partial). State-passing model of the mutated list; expected refutation. False of the code: split appends to the caller's list, so the same call with the same list object always fails the second time. Holds when each call gets its own list or None. Theorems: `C15_split_history_refuted`, `C15_split_fresh_lists_partial`.
- **C16 Fiber transformation acts field by field and is a group action** (proved). Block-diagonal matrix action on channel vectors.  Theorems: `C16_fiber_action`.
- **C17 Arithmetic of GeometricTensors commutes with the group** (proved). Linearity of the action; typed operations returning option. np.allclose in the comparison of types is idealised to equality. Theorems: `C17_arithmetic`.
- **C18 Restricting a tensor keeps data and symmetry** (partial). From C08; name-keyed dictionary model gives a refutation for colliding names. False for types with two different representations of the same name (dict keyed by name, C18_same_name_refuted); proved when names identify representations. C18_module_partial is about RestrictionModule: any gspace, any subgroup, any element, interpolated or not. Theorems: `C18_restriction_partial`, `C18_restriction_exists`, `C18_cyclic`, `C18_same_name_refuted`, `C18_module_partial`, `C18_module_exists`, `C18_same_name_restrictions`.
- **C19 Exact action on the pixel grid** (proved). Arrays as functions with dims; rot90/flip index arithmetic. Interpolated rotations (scipy) are not modelled; floating point is_integer test taken over the reals. Theorems: `C19_grid_action`, `C19_featurefield_action`, `C19_exact_elements`.
- **C20 Restricting a gspace is compatible with the action on the plane** (proved). Plane action by rotation matrices and mirrored axes; trig.  Theorems: `C20_restrict_space`.
- **C21 Equal gspaces and bases are interchangeable** (partial). Model of __eq__/__hash__ fields; expected refutations (axis ignored; diffop eq not reflexive). False of the code: __eq__ of the mirror spaces and of the kernel bases of D_N and O(2) ignores the axis; comparing kernel bases of different dimension raises ValueError. Proved when the axes agree. Bases of differential operators: no basis for D_N equals itself (its __eq__ tests for another class), O(2) ignores the axis; proved for mirrors and C_N. Theorems: `C21_gspace_eq_partial`, `C21_gspace_eq_refuted`, `C21_gspace_hash_refuted`, `C21_kernel_basis_eq_partial`, `C21_steerable_basis_eq_partial`, `C21_kernel_basis_eq_refuted`, `C21_kernel_basis_eq_raises_refuted`, `C21_diffop_basis_eq_partial`, `C21_diffop_basis_eq_refuted`.
- **C22 Steerable kernels satisfy the equivariance constraint** (proved). Trig identities per family.  Theorems: `C22_mirror`, `C22_cyclic`, `C22_dihedral`, `C22_SO2`, `C22_O2`.
- **C23 Kernels between arbitrary representations satisfy the constraint at every plane point** (proved). Change of basis algebra + radial factor + origin case.  Theorems: `C23_cyclic`, `C23_dihedral`, `C23_mirror`, `C23_trivial`, `C23_SO2`, `C23_O2`.
- **C24 Frequencies enumerated by the basis generator** (partial). Integer model of offset_iterator with floor/ceil; lia. True when max_frequency is given. With only max_offset: offsets beyond 10000 are dropped and non_negative is ignored (C24_offsets_refuted). Theorems: `C24_offsets`, `C24_offsets_T_partial`, `C24_offsets_refuted`.
- **C25 Kernel bases are linearly independent** (partial). Fourier independence by finite trigonometric sums (discrete orthogonality); refutation for offset-only requests. False between one-dimensional irreps when only max_offset is given: cos(-ka) and cos(ka) are both generated (C25_independent_refuted). Proved in all other cases. Theorems: `C25_independent`, `C25_independent_refuted`.
- **C26 Kernel bases are complete up to the band-limit** (proved). Fourier coefficient comparison for trigonometric polynomials.  Theorems: `C26_complete`, `C26_complete_continuous`.
- **C27 Basis indexing agrees with sampling order** (proved). div/mod arithmetic and prefix sums. Block and product bases of kernels, and TensorBasis of differential operators. Theorems: `C27_steerable_basis`, `C27_polar_basis`, `C27_sample_masked`, `C27_tensor_basis`.
- **C28 Weights of a convolution are partitioned among blocks** (proved). List model of weights ranges and index lists. For distinct rings (the defaults are). With repeated rings the ids collide and forward always fails (C28_repeated_ids_refuted). Theorems: `C28_weight_layout`, `C28_R2Conv`, `C28_R2Diffop`, `C28_repeated_ids_refuted`, `C28_R2ConvTransposed`.
- **C29 R2Conv is exactly equivariant for grid symmetries** (proved). Cross-correlation as finite sum over kernel points on zero-padded Z-indexed images; reindexing of sums. Exact real arithmetic. Both types over one gspace; R2Conv also accepts types over mirrors about different axes (gspace equality ignores the axis) and is then not equivariant (C29_different_axes_refuted). Theorems: `C29_R2Conv_equivariant`, `C29_stride_1`, `C29_different_axes_refuted`.
- **C30 The sampling grid is symmetric** (proved). Integer/real grid coordinates.  Theorems: `C30_sampling_grid`.
- **C31 Convolution bias is invariant** (proved). Columns of the change of basis for trivial irreps are invariant. R2Conv and R2ConvTransposed. Theorems: `C31_bias_invariant`, `C31_transposed_bias`.
- **C32 Evaluation mode uses the current weights** (partial). State machine with filter cache; invariant over histories + refutation for in-eval weight updates. False of the code when parameters change in evaluation mode (C32_update_in_eval_refuted); proved for all other histories. The same for R2ConvTransposed. Theorems: `C32_current_filter_partial`, `C32_train_refreshes`, `C32_update_in_eval_refuted`, `C32_transposed_partial`, `C32_transposed_eval_refuted`.
- **C33 Announced output shapes are the real ones** (partial). Integer shape formulas against the PyTorch definition of conv/pool output size; for networks, induction over the list of modules. Every module is covered: the announcement is either proved right (C33_module_shape_partial lists 28 kinds of modules, C33_network_shape_partial any SequentialModule of them) or refuted. False for R2Conv with a tuple padding; MultipleModule.evaluate_output_shape always raises; PointwiseMaxPool with ceil_mode; PointwiseAvgPool always raises; PointwiseMaxPoolAntialiased with padding; adaptive pooling always returns pairs; NormMaxPool with ceil_mode raises instead of returning the last windows. R2ConvTransposed uses the formula of a convolution: right only when the size does not change. Theorems: `C33_restriction_shape`, `C33_R2Conv_shape_partial`, `C33_R2Conv_tuple_refuted`, `C33_R2Diffop_shape_partial`, `C33_branching_shape`, `C33_multiple_shape_refuted`, `C33_maxpool_shape_partial`, `C33_maxpool_ceil_refuted`, `C33_avgpool_refuted`, `C33_avgpool_antialiased_shape`, `C33_maxpool_antialiased_shape_partial`, `C33_maxpool_antialiased_refuted`, `C33_adaptive_refuted`, `C33_upsampling_shape`, `C33_norm_max_shape`, `C33_norm_max_ceil_refuted`, `C33_transposed_shape_partial`, `C33_transposed_refuted`, `C33_module_shape_partial`, `C33_network_shape_partial`, `C33_nested_shape_partial`, `C33_gated2_shape`, `C33_induced_gated_shape`, `C33_reshuffle_shape`, `C33_merge_shape`, `C33_network_avgpool_refuted`.
- **C34 Caches never change results** (partial). Dictionary-cache state machine, abstract key; theorem: sound iff key determines result; refutations. Every sequence of constructions of R2Conv and R2Diffop whose layers do not disturb one another gives the layers of a fresh process; the table of stencils never changes a result. False of the code: R2Diffop layers of one gspace that differ by maximum_power or by smoothing share one basis (the memory key omits them), and kernels on D_N with different mirror axes share their sampled filters (equality of bases omits the axis). Theorems: `C34_layers_partial`, `C34_after_history_partial`, `C34_discretize`, `C34_diffop_power_refuted`, `C34_diffop_smoothing_refuted`, `C34_axis_refuted`.
- **C35 Chebyshev-type polynomials are the angular harmonics** (proved). Complex power induction. Also the other polynomial operations: product, Laplacian powers, evaluation, linear change of coordinates (transform_polynomial evaluates P at A^T x, its docstring says P(A x)). Theorems: `C35_cheby`, `C35_kind`, `C35_operations`.
- **C36 Steerable differential operators satisfy the constraint** (proved). As C22 via polynomials evaluated on points. Every element of every basis the factories build, between any representations, at every point of the plane. Coefficients are exact reals (the code sets coefficients below 1e-8 to 0). Theorems: `C36_cyclic`, `C36_dihedral`, `C36_mirror`, `C36_trivial`, `C36_SO2`, `C36_O2`.
- **C37 Discretised differential operators keep the symmetry** (partial). Separable stencils with axis order as coded; refutation with an explicit 3-point stencil. Proved for all rotations of the grid (every order, size, dilation, both methods, angle offsets) and for mirrors with even orders or with derivatives of Gaussians; proved at the level of stencils and of R2Diffop. False of the code for mirrors with operators of odd order and finite differences: the stencil is transposed, and changes sign (C37_mirror_sign, C37_mirror_refuted, C37_R2Diffop_mirror_refuted). Method rbffd (external package) is not modelled. Theorems: `C37_stencil_partial`, `C37_mirror_sign`, `C37_mirror_refuted`, `C37_R2Diffop_equivariant_partial`, `C37_R2Diffop_mirror_refuted`, `gauss1_derivative`.
- **C38 Stencil-size arithmetic** (proved). Integer arithmetic. Accuracy is stated through exactness on polynomials. "Fewer points fail" holds for order at least 1, whatever the weights; for order 0 the centre point alone is exact (C38_order_zero). sympy.finite_diff_weights is modelled by the Lagrange form, proved to be the unique exact weights. Theorems: `C38_required_points_suffice`, `C38_fewer_points_fail`, `C38_order_zero`, `C38_guaranteed_accuracy`, `C38_consistent`, `C38_largest_possible_order`, `C38_R2Diffop_sizes`.
- **C39 Sequential composition is type safe and equivariant** (partial). fold over typed modules. Proved for constructors and for add_module histories with legal, distinct names; false for a repeated name (the module is replaced in place) and after a call with an illegal name (out_type already changed). Theorems: `C39_construction`, `C39_construction_dict`, `C39_history_partial`, `C39_add_module`, `C39_forward`, `C39_equivariant`, `C39_repeated_name_refuted`, `C39_illegal_name_refuted`.
- **C40 Branching, merging and reshuffling only move fields** (proved). gather index lists. Channel dimension. Outside the quantifier: a list that repeats entries is accepted as a permutation and duplicates fields; labels with a dot raise KeyError. Theorems: `C40_reshuffle`, `C40_branching`, `C40_branching_construction`, `C40_merge`, `C40_multiple`, `C40_reshuffle_duplicates_refuted`, `C40_branching_dot_refuted`.
- **C41 Grouping fields by size never changes what is computed** (proved). generic gather/process/scatter lemma. The batch norms are covered under C44. Theorems: `C41_places`, `C41_norm`, `C41_induced_norm`, `C41_gated2`, `C41_gated1`, `C41_concatenated`, `C41_group_pool`, `C41_norm_pool`, `C41_induced_norm_pool`, `C41_vectorfield`, `C41_induced_gated1`.
- **C42 Non-linearities are equivariant** (partial). Per-field equivariance + C41. False for VectorFieldNonLinearity: ties of the maximum (C42_vectorfield_ties_refuted), C_2 (every call raises). False for InducedGatedNonLinearity1 when gates and gated fields are induced from different subgroups of the same index, which its constructor accepts (C42_induced_gated1_subgroups_refuted); proved when they come from one subgroup. Theorems: `C42_pointwise`, `C42_norm`, `C42_induced_norm`, `C42_gated1`, `C42_gated2`, `C42_concatenated`, `C42_vectorfield_partial`, `C42_vectorfield_ties_refuted`, `C42_vectorfield_C2_refuted`, `C42_regular_cyclic`, `C42_regular_dihedral`, `C42_induced`, `C42_concatenated_accepts`, `C42_induced_gated1`, `C42_induced_one_subgroup`, `C42_induced_gated1_subgroups_refuted`.
- **C43 Invariant maps are invariant** (proved). Per-field invariance + C41. For the representations the modules are meant for (permutations, orthogonal matrices). NormPool does not look at what a representation declares: C43_norm_pool_unsupported_refuted. Theorems: `C43_group_pool`, `C43_norm_pool`, `C43_induced_norm_pool`, `C43_norm_pool_unsupported_refuted`.
- **C44 Batch normalisation is equivariant over its whole life** (proved). Running statistics as fold over batches of real matrices. All four batch norms, over every history of training and evaluation batches, resets and parameter updates. torch.nn.BatchNorm3d, on which InnerBatchNorm is built, is modelled from its documentation. Side finding: NormBatchNorm.reset_parameters raises AttributeError when affine is False. Theorems: `C44_norm_history`, `C44_norm_value`, `C44_induced_history`, `C44_induced_value`, `C44_inner_history`, `C44_inner_value`, `C44_gnorm_history`, `C44_gnorm_value`, `C44_reset_parameters_refuted`.
- **C45 Dropout drops whole fields** (partial). Mask model + inplace copy semantics; refutation for inplace non-contiguous. Field-wise and point-wise dropout for every input type, batch, drawn numbers and mode. Partial because the full statement is false of the code in two cases, both refuted with a witness: in-place dropout over fields of one size that are not adjacent changes nothing, and p = 1 divides zero by zero. Theorems: `C45_fields_partial`, `C45_own_numbers`, `C45_eval`, `C45_equivariant_partial`, `C45_pointwise`, `C45_inplace_refuted`, `C45_p1_refuted`.
- **C46 The mask is symmetric** (proved). Real arithmetic. Mask of every size and margin: which cells lie in the disk, exact symmetry under the grid rotations and flips, and equivariance of the module. Theorems: `C46_disk`, `C46_symmetric`, `C46_module`.
- **C47 Generalised He initialisation** (proved). Sums over association counts. For every expansion that lists all its weights, and for every R2Conv. The cache of generalized_he_init (off by default) is not modelled. Theorems: `C47_he_init`, `C47_R2Conv`.
- **C48 Exported modules compute the same function** (partial). Pairs of functions; refutations for dropped parameters; for networks, induction over the list of modules: both runs stay related or both raise. C48_network_partial: any SequentialModule built from modules with export (R2Conv, R2ConvTransposed, PointwiseMaxPool, its antialiased form, PointwiseAdaptiveMaxPool, R2Upsampling, ReLU, ELU, GroupPooling, InnerBatchNorm, PointwiseDropout, IdentityModule), C48_nested_partial for nested sequences. False for PointwiseMaxPool with ceil_mode and for R2Upsampling with a size: export drops these arguments, and the exported upsampling always raises. R2ConvTransposed: right without output padding, which export drops. Theorems: `C48_restriction_export`, `C48_R2Conv_export`, `C48_R2Conv_export_exists`, `C48_R2Conv_version_refuted`, `C48_inner_export`, `C48_maxpool_export_partial`, `C48_maxpool_ceil_refuted`, `C48_maxpool_antialiased_export`, `C48_adaptive_export`, `C48_upsampling_export_partial`, `C48_upsampling_size_refuted`, `C48_transposed_export_partial`, `C48_transposed_refuted`, `C48_network_partial`, `C48_nested_partial`.
- **C49 Disentangling a representation** (proved). Model of the coded algorithm; block structure. For all accepted representations and field types. The module theorem assumes that equal names mean equal representations (the module is keyed by names). connected_components is modelled as the reachability classes numbered by their first nodes; isclose(x, 0) as x = 0. Theorems: `C49_disentangle`, `C49_back`, `C49_finest`, `C49_module`, `C49_make`.
- **C50 Constructors leave their arguments alone** (partial). State passing; refutation. False of the code: MergeModule rewrites the caller's list; building a MultipleModule again from it raises TypeError. Theorems: `C50_merge_rebuild`, `C50_rebuild_refuted`.
- **C51 Growing the group singletons never breaks earlier objects** (partial). State machine of singletons and subgroup caches; refutation. Over every history: requests return the one object, restrictions that succeeded once succeed for ever with the same result, and restriction to finite subgroups never fails. Restriction to SO(2) or to O(2) about an axis succeeds for the frequencies known before the subgroup was first asked for; for later or higher frequencies it raises KeyError, and growing SO(2) makes induction to O(2) raise AssertionError (both refuted for all frequencies). Theorems: `C51_request_o2`, `C51_request_so2`, `C51_subgroup_persists`, `C51_restrict_persists`, `C51_restrict_so2_persists`, `C51_restrict_finite`, `C51_restrict_so2`, `C51_restrict_continuous_partial`, `C51_restrict_grown_refuted`, `C51_restrict_high_refuted`, `C51_induce_grown_refuted`.
- **C52 Pooling over pixels commutes with the transformations of the plane** (partial). Pooling as an operator on images whose pixels are vectors, that commutes with reversing rows and columns, with transposing and with the matrices that permute channels (max) or with all matrices (averages); all grid motions are composed of these. Gaussian filters are symmetric. All six pointwise pooling modules, for every image whose padded sides are tiled exactly by the windows and, where the element swaps the axes, for arguments equal on both axes. NormMaxPool: proved what it computes, and its equivariance when no window holds two different fields with the same largest norm; with such ties the claim is false (C52_norm_max_ties_refuted). Without exact tiling the last rows are dropped on one side only and the claim is false (C52_untiled_refuted). Theorems: `C52_maxpool`, `C52_maxpool_default`, `C52_avgpool`, `C52_avgpool_antialiased`, `C52_maxpool_antialiased`, `C52_adaptive`, `C52_norm_max_value`, `C52_norm_max_partial`, `C52_norm_max_ties_refuted`, `C52_untiled_refuted`.
- **C53 What a representation declares it supports, its matrices allow** (proved). An inductive predicate of the representations that can be built; induction over it. The kinds of matrices (permutations, signed permutations, orthogonal, identity) are closed under block sums, parts of block sums, reordering and restriction; induced matrices have the entries of the inducing ones. The family of representations is the inductive predicate built in Spec_Support.v. A direct sum with a change_of_basis argument keeps the declaration: there the claim would be false (C53_change_of_basis_refuted). The names induced_norm_k and induced_gated_k are given a meaning in C69; vectorfield and gated are not among the names that are given one. Theorems: `C53_declared`, `C53_pointwise`, `C53_norm`, `C53_concatenated`, `C53_concatenated_accepts`, `C53_group_pool`, `C53_change_of_basis_refuted`.
- **C54 Upsampling commutes with the transformations of the plane** (proved). torch.nn.functional.interpolate is modelled per axis as a weighted sum over two taps; the taps are symmetric under the mirror image of the axis; the lemmas for grid operations of C52 then give the claim. The two conditions of the statement are needed: mode nearest between 3 and 2 pixels takes its pixels from one side (C54_nearest_refuted), and align_corners with one output pixel takes the first corner (C54_align_corners_refuted). For elements that swap the axes the requested size is a square. Theorems: `C54_upsampling`, `C54_scale_factor`, `C54_nearest_refuted`, `C54_align_corners_refuted`.
- **C55 R2ConvTransposed is equivariant** (proved). conv_transpose2d is modelled as the sum over all pixels and filter taps that hit an output pixel; mirrors and transposition of the grid are reindexings of that sum; the steering of the filters is that of C29. The condition on the output padding is needed (C55_output_padding_refuted). Exact real arithmetic, as C29. Theorems: `C55_transposed_equivariant`, `C55_output_padding_refuted`.
- **C56 A whole network is equivariant, and an invariant network is invariant** (proved). layers are the modules of Model_Modules.v, with the tensors of the single layers (images, channels, numbered entries of a batch) related to one another; one law (outputs of related inputs are related) is derived for each layer from C29, C42, C43, C44, C45, C49, C52, C54, C55; induction over the list of layers. Spec_Net.v lists the layers (made) and, for each, the condition on its input (suits). Not among the layers: GatedNonLinearity2, InducedGatedNonLinearity, ReshuffleModule, BranchingModule, MergeModule, MultipleModule, RestrictionModule and IdentityModule. C56_nested: nested SequentialModules. Theorems: `C56_network`, `C56_invariant`, `C56_nested`.
- **C57 Nesting SequentialModules does not matter** (proved). trees of modules, built bottom-up with the constructor of C39; induction over the tree, with the invariant that the built module behaves as the run of its innermost modules; every module is shown to reject wrong types with AssertionError and to return its output type. C57_nested for any modules with the contract Spec_Nested.checks, C57_modules: every module has it, C57_networks: two nestings. Theorems: `C57_nested`, `C57_modules`, `C57_networks`.
- **C58 Translation equivariance: a network does the same wherever the content of the image lies** (proved). the layers of C56 as they are modelled; Spec_Move says which outputs read which inputs (reads, writes) and when a layer wraps around (turns); one lemma per layer that the outputs of a window (or of the rolled image) are the same, with the fields of a pixel treated by the lemmas of C56 for the identity element; then induction over the layers. C58_windows: windows of images of any sizes; C58_rolls: images wrapped around, also batch normalisation in training mode and global pooling. The layers are those for which Spec_Move.sees and Spec_Move.wraps hold; not among them, because the code does not move with the image there: MaskModule, bilinear upsampling, adaptive pooling to more than one pixel (and, for rolls, layers that pad with zeros or -inf, transposed convolution and the antialiased pooling layers). SequentialModules are not nested here (see C57). Theorems: `C58_windows`, `C58_rolls`.
- **C59 The irreps of a group are irreducible, pairwise inequivalent and complete** (proved). the irreps of C06 against a textbook specification (Spec_Irred: invariant subspaces, equivariant maps, equivalence); at one rotation (and one reflection) the matrices determine everything: cosines that differ exclude equivariant maps, a sine that is not zero excludes invariant lines; completeness by mapping a representation into the regular one of C09 and taking a non-zero block, then Schur's lemma. Completeness (C59_complete, C59_counting, and C59_direct_sum: every representation is a direct sum of irreps up to a change of basis) for the finite groups; for SO(2) and O(2) the statement makes no claim of completeness. Theorems: `C59_irreducible`, `C59_inequivalent`, `C59_complete`, `C59_counting`, `C59_direct_sum`.
- **C60 Delta-orthogonal initialisation is zero off the centre and orthonormal at the centre** (proved). the function as written, the drawn matrices as parameters: selection of the elements, dictionaries of positions in insertion order, assertions, assignments to the tensor in order; the weights of a pair of positions are described by the entries of the expansion only (Spec_Delta). Assertions = full product of positions with equal counts (counting lemmas); every weight is assigned at most once; orthonormality from the rows and columns of the orthogonal matrix. Random draws are parameters of the model: an orthogonal matrix for each irrep and size, and normal numbers none of which is exactly zero (a row of zeros gives nan in the code, with probability zero). Theorems: `C60_succeeds`, `C60_orthonormal`, `C60_R2Conv`.
- **C61 Forward methods with residual connections, direct sums and slices of fields are equivariant** (proved). straight-line programs over numbered variables, with the layers of Model_Net and the operators of geometric_tensor.py on images (broadcasting of sizes 1 included). Correspondence of every variable, by induction over the statements; for the operators, the group action is linear (sums), acts on blocks (direct sum, slices) and turning commutes with broadcasting. Programs are straight-line; variables share no memory (in-place statements on views of other variables are not modelled). Theorems: `C61_program`, `C61_rolls`.
- **C62 Loading a checkpoint restores the saved network** (partial). state dicts as lists of named tensors with shapes, load_state_dict of torch with its three error conditions, histories as lists of operations. An invariant over histories gives the buffers present as a function of the last call of train/eval; lookups by name then show what is copied. Two refutations with a C4 convolution. The full claim is false of the code: a checkpoint of a network on which neither train() nor eval() was called holds zero filters, which a network in evaluation mode accepts and uses; and with strict=False a network in evaluation mode keeps its old filters. R2Diffop (whose train is the same) is not in the networks; the constant buffers are left out of the state dicts. Theorems: `C62_restores_partial`, `C62_raises`, `C62_train_restores`, `C62_ungrouped`, `C62_fresh_refuted`, `C62_nonstrict_refuted`.
- **C63 Networks are equivariant under every sequence of turns, mirrorings and rolls** (proved). the programs of Model_Graph; motions as a list of group elements and rolls. Induction over the sequence; each step is C61_program or C61_rolls. Invariance: scalar fields of one pixel are fixed by every motion. The two kinds of motion ask different things of strides (C56 and C58), which the hypothesis route states for every step. Theorems: `C63_motions`, `C63_invariant`.
- **C64 Field types that compare equal transform data in the same way** (partial). __eq__ and __hash__ with np.allclose (tolerance, broadcasting, exception) instead of exact equality. For orthogonal changes of basis A, B the difference of A D A^T and B D B^T is bounded by the Cauchy-Schwarz inequality; witnesses refute the rest. Missing because false: without orthogonal changes of basis equal representations can have different matrices; == is not symmetric or transitive, equal objects can have different hashes, and comparing two sizes raises ValueError. Theorems: `C64_representations_partial`, `C64_types_partial`, `C64_exact`, `C64_equivalence_refuted`, `C64_raises_refuted`, `C64_matrices_refuted`.
- **C65 Training on transformed images trains the same network** (proved). The loop of the example with a sequence of modules whose batch normalisations update their buffers; backward and optimiser step are any function of the loss as a function of the network. By induction over the steps: from equal networks, equivariance (C56) gives equal losses for all values of parameters, and the statistics of the transformed batch are permuted sums, so the buffers are equal. One element for the whole batch in each step (the running statistics of a batch do not change when its images are permuted, and with an element per image the layers are equivariant image by image, but this is not modelled); dropouts in eval mode; autograd is taken to be a function of the loss as a function of the parameters; torch layers after the last module (the fully connected head of the example) are part of the loss and are not trained. Theorems: `C65_training`, `C65_classifier`.
- **C66 check_equivariance tells the truth** (partial). The loop of check_equivariance with the calls threading the state of the modules, over any input (not only random ones of 10 x 10 pixels). Positive part from the laws of the layers (C56) for each testing element, comparing equal tensors; the equivalence by induction over the list of testing elements, which for finite groups is the list of all elements. Refutations by a representation of frequency 52 and by a NormBatchNorm in training mode. False of the code in two ways: for SO(2) and O(2) only 52 angles are tested, so a ReLU on a field of frequency 52 that is declared point-wise passes although it is not equivariant; in training mode a NormBatchNorm, which meets the other conditions, fails its check because the calls change the running variances it normalises with. Modules whose check_equivariance is pass (batch normalisations, dropouts, poolings on their own, MergeModule) check nothing. Theorems: `C66_network`, `C66_module`, `C66_finite`, `C66_errors`, `C66_continuous_refuted`, `C66_training_refuted`.
- **C67 Representations built from matrices** (partial). decompose_representation and compute_change_of_basis with the numerical search (null space, orthogonalisation) and linalg.inv as parameters, then the constructor with its checks. Soundness by inverting the run: the checks are the claim. Multiplicities by the orthogonality of the characters of C_N and D_N (sums of products of cosines), counted with count_occ. A change of basis exists because permuting blocks is conjugation by a permutation matrix. Any homomorphism: the equivariant maps v -> sum_g psi(g)_ab rho(g) v span R^n because the irreps are complete; adding them one by one, each is either inside the span of the earlier ones or independent of them because the irrep is irreducible; at the end they are a basis. Exact homomorphism is false of the code: matrices within numpy's tolerance of a representation are stored as they are. Multiplicities are compared with integers exactly (the code allows 1e-9). That the search finds a change of basis is not proved: it is a hypothesis of C67_succeeds_* and C67_any_*. C67_any_* cover every exact homomorphism into real matrices (complete reducibility is proved). Theorems: `C67_sound`, `C67_irreps_cyclic`, `C67_irreps_dihedral`, `C67_succeeds_cyclic`, `C67_succeeds_dihedral`, `C67_any_cyclic`, `C67_any_dihedral`, `C67_homomorphism_refuted`.
- **C68 Representations of O(2) induced from SO(2)** (proved). The loops of _induced_from_irrep with arrays as functions (column ranges assigned in place), scipy.linalg.inv as a parameter known to invert the identity. The averaging matrix and its normalisation are evaluated to rotations by 45 degrees; the change of basis then has entries +-1/2 (or +-1/sqrt 2), and conjugating the irreps with it gives the block table of the specification, entry by entry with cos and sin symbolic. Exact real arithmetic. The assertion that the irrep belongs to the right SO(2) object and the caching of the result by name are in Model_Hist (C51), not here. Theorems: `C68_induced`, `C68_representation`, `C68_irreps`, `C68_copies`, `C68_declared`, `C68_quotient`, `C68_refused`.
- **C69 Declared sub-fields are permuted** (proved). The family of representations is an inductive predicate (Spec_Subfields.assembled). Induction over it: irreps, restrictions and changes of basis declare no such names, induced representations permute blocks of the inducing irrep's size (C_N and D_N from the coset formula, O(2) from C68), and a direct sum keeps a name only if every summand has it, so the sum of the block permutations is one. The modules then follow from C42 and C43, whose hypothesis on the blocks this discharges. Inducing is from irreps of the subgroup; disentangled parts are left out of the family. The modules are in exact arithmetic. Theorems: `C69_declared`, `C69_subfields`, `C69_induced_norm`, `C69_induced_pool`.

## What is modelled

| files of /repo/e2cnn | model |
|---|---|
| group/groups/{cyclicgroup,dihedralgroup,so2group,o2group}.py, group/irrep.py, group/utils.py | Model_Groups.v (operations, subgroup maps, irreps, restriction of irreps), Model_Hist.v (growing SO(2) and O(2) objects, their memories, restriction and induction over a process) |
| group/representation.py, group/group.py | Model_Rep.v, Model_Regular.v, Model_Disentangle.v, Model_Support.v (declared non-linearities), Model_Hist.v |
| nn/field_type.py, nn/geometric_tensor.py | Model_FieldType.v, Model_Tensor.v |
| gspaces/*.py, gspaces/r2/*.py | Model_GSpace.v, Model_Cache.v (the memory of bases) |
| kernels/*.py | Model_Kernels.v |
| diffops/*.py | Model_Diffops.v, Model_Diffops2.v, Model_R2Diffop.v |
| nn/modules/r2_conv/{basisexpansion*,r2convolution,r2diffop}.py | Model_Expansion.v, Model_Conv.v, Model_R2Diffop.v, Model_Cache.v |
| nn/modules/nonlinearities/*.py, nn/modules/invariantmaps/*.py | Model_Fieldwise.v, Model_IGated.v |
| nn/modules/batchnormalization/*.py | Model_BatchNorm.v |
| nn/modules/dropout/*.py | Model_Dropout.v |
| nn/modules/{sequential,reshuffle,branching,merge,multiple,identity}_module.py, nn/modules/utils.py | Model_Modules.v, Model_Utils.v |
| nn/modules/disentangle_module.py | Model_Disentangle.v |
| nn/modules/masking_module.py | Model_Mask.v |
| nn/modules/pooling/pointwise_*.py | Model_Pool.v |
| nn/modules/pooling/norm_max.py | Model_NormMax.v |
| nn/modules/r2upsampling.py | Model_Upsample.v |
| nn/modules/r2_conv/r2_transposed_convolution.py | Model_ConvT.v |
| nn/modules/restriction_module.py | Model_Restriction.v |
| (the layers as modules of a SequentialModule) | Model_Net.v |
| nn/modules/sequential_module.py (export) and the export of its modules | Model_Export.v |
| evaluate_output_shape of sequential_module.py, merge_module.py and of the modules not named above | Model_Shape.v |
| sequential_module.py: SequentialModules in SequentialModules | Model_Nested.v |
| `deltaorthonormal_init` of nn/init.py | Model_Delta.v |
| forward methods over tensors: operators of geometric_tensor.py on images, with broadcasting | Model_Graph.v |
| state dicts and load_state_dict of networks, train/eval histories | Model_Checkpoint.v |
| `Representation.__eq__`, `__hash__` with numpy's tolerance; `FieldType.__eq__`, `__hash__` | Model_Equality.v |
| buffers after a forward pass of a network, the training loop of examples/model.ipynb | Model_Train.v |
| check_equivariance (the default and the one that transforms fibres), testing_elements | Model_Check.v |
| build_from_discrete_group_representation, decompose_representation, compute_change_of_basis (its numerical search is a parameter) | Model_Decompose.v |
| O2._induced_from_irrep, induced_representation and quotient_representation of O(2) | Model_InduceO2.v |
| nn/init.py (generalized_he_init) | Model_Init.v |

## What is not modelled

- Interpolated rotation of arrays by angles that are not multiples of a right angle (scipy `affine_transform` in gspaces): a parameter `interp` of the theorems.
- `nn/modules/module_list.py`.
- The `rbf` package (method `rbffd` of R2Diffop; `rbf.basis.ga` is modelled by the derivative of the Gaussian).
- `check_equivariance` of the modules (sampled tests), `__repr__`/`extra_repr`, plotting, documentation.
- Devices, dtypes and autograd; pickling of whole modules (state dicts are modelled in Model_Checkpoint.v).

## Findings: statements that are false of the code

Every line is a theorem with a concrete witness (suffix `_refuted`), and the part that holds is proved separately.

- `C05_so2_child_refuted`, `C05_o2_child_refuted`: the map to a cyclic subgroup of SO(2) or O(2) can return a number that is not an element of the subgroup.
- `C13_slicing_refuted`: an int index between -2n and -n-2 wraps twice and returns a field instead of raising.
- `C15_split_history_refuted`: `split` appends to the caller's list, and the second call with the same list fails.
- `C18_same_name_refuted` (and `C18_same_name_restrictions`: such types arise from two restrictions of one representation): restriction of a type keyed by the names of representations confuses two representations of one name.
- `C21_gspace_eq_refuted`, `C21_gspace_hash_refuted`, `C21_kernel_basis_eq_refuted`, `C21_kernel_basis_eq_raises_refuted`, `C21_diffop_basis_eq_refuted`: equality of spaces and bases ignores the mirror axis, can raise, and for differential operators of D_N is not reflexive.
- `C24_offsets_refuted`, `C25_independent_refuted`: with only a maximum offset, frequencies are missed beyond 10000 and bases between one-dimensional irreps contain an element twice.
- `C28_repeated_ids_refuted`: representations of one name share a block of weights.
- `C29_different_axes_refuted`: a layer between gspaces that differ by the axis is accepted and not equivariant.
- `C32_update_in_eval_refuted`: weights changed in evaluation mode are not used.
- `C33_R2Conv_tuple_refuted`, `C33_multiple_shape_refuted`: announced shapes raise or are wrong.
- `C33_maxpool_ceil_refuted`, `C33_avgpool_refuted`, `C33_maxpool_antialiased_refuted`, `C33_adaptive_refuted`: announced shapes of the pooling modules are wrong with ceil_mode or padding, raise AttributeError, or contain pairs.
- `C32_transposed_eval_refuted`, `C33_transposed_refuted`, `C48_transposed_refuted`: R2ConvTransposed ignores updates in evaluation mode, announces the shape of a convolution, and export drops its output_padding.
- `C34_diffop_power_refuted`, `C34_diffop_smoothing_refuted`, `C34_axis_refuted`: caches give a layer the basis or filters of another.
- `C37_mirror_refuted`, `C37_R2Diffop_mirror_refuted`: stencils of odd order change sign under mirrors.
- `C39_repeated_name_refuted`, `C39_illegal_name_refuted`: add_module leaves a SequentialModule inconsistent.
- `C40_reshuffle_duplicates_refuted`, `C40_branching_dot_refuted`.
- `C42_vectorfield_ties_refuted`, `C42_vectorfield_C2_refuted`: ties of the maximum break equivariance; with C_2 every call raises.
- `C42_induced_gated1_subgroups_refuted`: gates and gated fields over different subgroups of one index are accepted and not equivariant.
- `C43_norm_pool_unsupported_refuted`: NormPool accepts representations that do not declare 'norm' and is not invariant on them.
- `C44_reset_parameters_refuted`.
- `C45_inplace_refuted`, `C45_p1_refuted`.
- `C33_network_avgpool_refuted`: evaluate_output_shape of every network with a PointwiseAvgPool raises.
- `C48_R2Conv_version_refuted`.
- `C48_maxpool_ceil_refuted`: export drops ceil_mode.
- `C48_upsampling_size_refuted`: export drops the size, and the exported module always raises ValueError.
- `C50_rebuild_refuted`: MergeModule rewrites the caller's list.
- `C51_restrict_grown_refuted`, `C51_restrict_high_refuted`, `C51_induce_grown_refuted`: after SO(2) or O(2) grew, restriction to SO(2) raises KeyError and induction raises AssertionError.
- `C52_untiled_refuted`: max pooling of an image that the windows do not tile is not equivariant.
- `C52_norm_max_ties_refuted`: when two different fields of a window have the same largest norm, NormMaxPool is not equivariant.
- `C33_norm_max_ceil_refuted`: NormMaxPool with ceil_mode raises RuntimeError whenever there is an incomplete window.
- `C53_change_of_basis_refuted`: directsum with a change of basis keeps the declared non-linearities, and ReLU accepts a type on which it is not equivariant.
- `C54_nearest_refuted`, `C54_align_corners_refuted`: nearest upsampling by a fraction, and align_corners to one pixel, are not equivariant.
- `C55_output_padding_refuted`: with an output padding a transposed convolution is not equivariant.

Also visible in the model: `load_cache`/`store_cache` of stencils never change a result (C34_discretize); the discretisation arguments are not part of any key. `compute_basis_params` of R2ConvTransposed sums the squared coordinates over the wrong axis (line 475), so that its check of the rings allows radii larger than the filter, does not multiply the default rings by the dilation, and its constructor does not check for an empty basis.
- `C62_fresh_refuted`: a checkpoint of a network on which neither train() nor eval() was called holds zero filters; a network in evaluation mode loads it without an error and computes with the zeros.
- `C62_nonstrict_refuted`: with strict=False a network in evaluation mode accepts a checkpoint taken after train() and goes on using its old filters.
- `C64_matrices_refuted`: two representations whose changes of basis are not orthogonal compare equal although an entry is 2000001 in one and -1999999 in the other.
- `C64_equivalence_refuted`: == between representations is not symmetric and not transitive, and equal representations can have different hashes.
- `C64_raises_refuted`: comparing two representations of the same name and group with sizes 2 and 3 raises ValueError.
- `C66_continuous_refuted`: for SO(2) and O(2) check_equivariance uses 52 angles, which act as the identity on frequencies divisible by 52; a ReLU on such a field passes with error zero although it is not equivariant.
- `C66_training_refuted`: the check of a network with a NormBatchNorm in training mode fails, because each call changes the running variances used by the next one (and the check leaves them changed). (Not a theorem: check_equivariance of the batch normalisations, dropouts, pooling modules and MergeModule is `pass`, so it succeeds without checking anything.)
- `C67_homomorphism_refuted`: build_from_discrete_group_representation stores the matrices it is given, which need only be within numpy's tolerance of a representation; rep(e) rep(e) and rep(e e) can differ.

## Seeded bugs

`seeded/LOG.jsonl` records every edit of the model that was tried, the theorems that failed and the theorems that were tightened. `theorems_failed` is read off the build: the first statement that fails in each file (files that need it are then not rebuilt). `properties_of_the_claim` is what the edit was aimed at, written down before the build, and is not a measurement; entries written from C65 on also have `property_files_not_rebuilt`, which is measured: the property files that depend on the edited file and could not be rebuilt. A failing build shows that the proof as written no longer goes through, which is weaker than showing that the statement has become false. Survivors with an empty list of failures are either harmless edits or logged as open.

## Assumptions of every theorem of the manifest (output of `Print Assumptions`)

- Closed under the global context (no axioms): C01_cyclic_group_laws, C02_dihedral_group_laws, C04_cyclic_subgroups, C04_dihedral_subgroups, C11_field_bookkeeping, C12_sorting_grouping, C13_slicing_partial, C13_slicing_refuted, C13_slicing_succeeds, C14_split_directsum, C15_split_fresh_lists_partial, C15_split_history_refuted, C18_restriction_exists, C21_gspace_eq_partial, C24_offsets, C24_offsets_T_partial, C24_offsets_refuted, C27_sample_masked, C33_adaptive_refuted, C33_avgpool_refuted, C33_branching_shape, C33_merge_shape, C33_multiple_shape_refuted, C33_network_avgpool_refuted, C38_R2Diffop_sizes, C38_consistent, C38_largest_possible_order, C39_add_module, C39_construction, C39_construction_dict, C39_equivariant, C39_forward, C39_history_partial, C39_illegal_name_refuted, C39_repeated_name_refuted, C40_branching, C40_branching_construction, C40_branching_dot_refuted, C40_merge, C40_multiple, C40_reshuffle, C40_reshuffle_duplicates_refuted, C41_places, C45_own_numbers, C50_merge_rebuild, C50_rebuild_refuted, C57_nested.
- Axioms `sig_forall_dec`: C28_repeated_ids_refuted, C35_kind, C42_induced, C42_induced_one_subgroup, C44_reset_parameters_refuted.
- Axioms `functional_extensionality_dep`, `sig_forall_dec`: C07_change_basis, C07_directsum, C07_directsum_change_of_basis, C07_representation, C16_fiber_action, C17_arithmetic, C18_restriction_partial, C21_gspace_hash_refuted, C28_weight_layout, C32_current_filter_partial, C32_train_refreshes, C32_transposed_partial, C33_maxpool_shape_partial, C33_reshuffle_shape, C33_upsampling_shape, C35_operations, C38_fewer_points_fail, C38_guaranteed_accuracy, C38_order_zero, C38_required_points_suffice, C41_group_pool, C42_concatenated_accepts, C43_group_pool, C45_equivariant_partial, C45_eval, C45_fields_partial, C45_p1_refuted, C45_pointwise, C48_R2Conv_export, C48_R2Conv_export_exists, C48_R2Conv_version_refuted, C48_adaptive_export, C48_maxpool_export_partial, C48_restriction_export, C48_transposed_export_partial, C48_upsampling_export_partial, C48_upsampling_size_refuted, C49_back, C49_disentangle, C49_finest, C49_make, C49_module, C62_raises, C62_restores_partial, C62_train_restores, C64_exact, C67_sound.
- Axioms `functional_extensionality_dep`, `sig_forall_dec`, `sig_not_dec`: C03_continuous_group_laws, C05_o2_child_refuted, C05_o2_subgroups_partial, C05_so2_child_refuted, C05_so2_subgroups_partial, C06_irreps, C08_restriction, C08_result_is_representation, C09_multiplicities, C09_regular_cyclic, C09_regular_dihedral, C10_induced_cyclic, C10_induced_dihedral, C10_quotient_permutation, C18_cyclic, C18_module_exists, C18_module_partial, C18_same_name_refuted, C18_same_name_restrictions, C19_exact_elements, C19_featurefield_action, C19_grid_action, C20_restrict_space, C21_diffop_basis_eq_partial, C21_diffop_basis_eq_refuted, C21_gspace_eq_refuted, C21_kernel_basis_eq_partial, C21_kernel_basis_eq_raises_refuted, C21_kernel_basis_eq_refuted, C21_steerable_basis_eq_partial, C22_O2, C22_SO2, C22_cyclic, C22_dihedral, C22_mirror, C25_independent, C25_independent_refuted, C26_complete, C26_complete_continuous, C27_steerable_basis, C27_tensor_basis, C30_sampling_grid, C33_R2Diffop_shape_partial, C33_avgpool_antialiased_shape, C33_gated2_shape, C33_induced_gated_shape, C33_maxpool_antialiased_refuted, C33_maxpool_antialiased_shape_partial, C33_maxpool_ceil_refuted, C33_norm_max_ceil_refuted, C33_norm_max_shape, C33_restriction_shape, C34_discretize, C35_cheby, C37_mirror_refuted, C37_mirror_sign, C37_stencil_partial, C41_concatenated, C41_gated1, C41_gated2, C41_induced_gated1, C41_induced_norm, C41_induced_norm_pool, C41_norm, C41_norm_pool, C41_vectorfield, C42_concatenated, C42_gated1, C42_gated2, C42_induced_gated1, C42_induced_norm, C42_norm, C42_pointwise, C42_regular_cyclic, C42_regular_dihedral, C42_vectorfield_C2_refuted, C42_vectorfield_partial, C42_vectorfield_ties_refuted, C43_induced_norm_pool, C43_norm_pool, C43_norm_pool_unsupported_refuted, C44_gnorm_history, C44_gnorm_value, C44_induced_history, C44_induced_value, C44_inner_history, C44_inner_value, C44_norm_history, C44_norm_value, C45_inplace_refuted, C46_module, C46_symmetric, C47_he_init, C48_inner_export, C48_maxpool_antialiased_export, C48_maxpool_ceil_refuted, C48_nested_partial, C48_network_partial, C51_induce_grown_refuted, C51_request_o2, C51_request_so2, C51_restrict_continuous_partial, C51_restrict_finite, C51_restrict_grown_refuted, C51_restrict_high_refuted, C51_restrict_persists, C51_restrict_so2, C51_restrict_so2_persists, C51_subgroup_persists, C52_norm_max_value, C53_change_of_basis_refuted, C53_concatenated, C53_concatenated_accepts, C53_declared, C53_group_pool, C53_norm, C53_pointwise, C57_modules, C57_networks, C59_counting, C59_inequivalent, C60_orthonormal, C60_succeeds, C64_equivalence_refuted, C64_matrices_refuted, C64_raises_refuted, C64_representations_partial, C64_types_partial, C66_continuous_refuted, C66_errors, C66_finite, C67_homomorphism_refuted, C67_irreps_cyclic, C67_irreps_dihedral, C67_succeeds_cyclic, C67_succeeds_dihedral, C68_copies, C68_declared, C68_induced, C68_irreps, C68_quotient, C68_refused, C68_representation, C69_declared, C69_induced_norm, C69_induced_pool, C69_subfields, gauss1_derivative.
- Axioms `classic`, `functional_extensionality_dep`, `sig_forall_dec`, `sig_not_dec`: C23_O2, C23_SO2, C23_cyclic, C23_dihedral, C23_mirror, C23_trivial, C27_polar_basis, C28_R2Conv, C28_R2ConvTransposed, C28_R2Diffop, C29_R2Conv_equivariant, C29_different_axes_refuted, C29_stride_1, C31_bias_invariant, C31_transposed_bias, C32_transposed_eval_refuted, C32_update_in_eval_refuted, C33_R2Conv_shape_partial, C33_R2Conv_tuple_refuted, C33_module_shape_partial, C33_nested_shape_partial, C33_network_shape_partial, C33_transposed_refuted, C33_transposed_shape_partial, C34_after_history_partial, C34_axis_refuted, C34_diffop_power_refuted, C34_diffop_smoothing_refuted, C34_layers_partial, C36_O2, C36_SO2, C36_cyclic, C36_dihedral, C36_mirror, C36_trivial, C37_R2Diffop_equivariant_partial, C37_R2Diffop_mirror_refuted, C42_induced_gated1_subgroups_refuted, C46_disk, C47_R2Conv, C48_transposed_refuted, C52_adaptive, C52_avgpool, C52_avgpool_antialiased, C52_maxpool, C52_maxpool_antialiased, C52_maxpool_default, C52_norm_max_partial, C52_norm_max_ties_refuted, C52_untiled_refuted, C54_align_corners_refuted, C54_nearest_refuted, C54_scale_factor, C54_upsampling, C55_output_padding_refuted, C55_transposed_equivariant, C56_invariant, C56_nested, C56_network, C58_rolls, C58_windows, C59_complete, C59_direct_sum, C59_irreducible, C60_R2Conv, C61_program, C61_rolls, C62_fresh_refuted, C62_nonstrict_refuted, C62_ungrouped, C63_invariant, C63_motions, C65_classifier, C65_training, C66_module, C66_network, C66_training_refuted, C67_any_cyclic, C67_any_dihedral.
