{"id": "C01", "title": "Cyclic group laws", "statement": "For every order N, the operations that CyclicGroup(N) exposes (combine, inverse, identity, elements) form a group: results are again elements, combine is associative and commutative, the identity is neutral and inverse cancels on both sides; elements has exactly N entries.", "quantifier": "all orders N >= 1 and all elements of C_N", "why_tests_cant": "There are infinitely many orders; tests only run a few small N.", "anchors": ["e2cnn/group/groups/cyclicgroup.py: CyclicGroup.combine, inverse, is_element"]}
{"id": "C02", "title": "Dihedral group laws", "statement": "For every N, DihedralGroup(N) with its pair elements (flip, rotation) is a group: closure, associativity, identity, two-sided inverse, and it has exactly 2N elements; reflections are involutions and conjugate rotations to their inverses.", "quantifier": "all N >= 1 and all elements of D_N", "why_tests_cant": "Infinitely many N; sign conventions of the semidirect product can be wrong only for combinations tests do not sample.", "anchors": ["e2cnn/group/groups/dihedralgroup.py: DihedralGroup.combine, inverse, is_element"]}
{"id": "C03", "title": "Continuous group laws up to 2*pi", "statement": "The operations of SO(2) and O(2) satisfy the group laws up to the library's own equality (angles modulo 2*pi): associativity, identity, inverses, and compatibility of combine/inverse with equality; SO(2) results always lie in [0, 2*pi).", "quantifier": "all real angles and flip bits", "why_tests_cant": "The groups are uncountable; only finitely many testing elements can be tried.", "anchors": ["e2cnn/group/groups/so2group.py: SO2.combine, inverse, equal", "e2cnn/group/groups/o2group.py: O2.combine, inverse, equal"]}
{"id": "C04", "title": "Subgroup maps of finite groups", "statement": "For every valid subgroup id of C_N and D_N the returned parent map is an injective homomorphism into the group, the child map inverts it, and the child map returns None exactly for the elements that are not images of a subgroup element; invalid ids are rejected.", "quantifier": "all N, all subgroup ids (order M dividing N, reflection axis), all elements", "why_tests_cant": "Three families of ids for every divisor of every N; boundary ids (axis = N/M - 1, M = 1, M = N) are easy to miss.", "anchors": ["e2cnn/group/groups/cyclicgroup.py: CyclicGroup.subgroup", "e2cnn/group/groups/dihedralgroup.py: DihedralGroup.subgroup"]}
{"id": "C05", "title": "Subgroup maps of SO(2) and O(2)", "statement": "For every finite subgroup id of SO(2) and O(2), the parent map is a homomorphism up to angle equality, and the child map sends every group element lying in the subgroup to the subgroup element it represents, returning None on all the others; in particular what the child map returns is always an element of the subgroup.", "quantifier": "all subgroup orders M, axes, and all real angles", "why_tests_cant": "Continuum of group elements; the wrap-around at 2*pi is a boundary case.", "anchors": ["e2cnn/group/groups/so2group.py: SO2.subgroup", "e2cnn/group/groups/o2group.py: O2.subgroup", "e2cnn/group/utils.py: cycle_isclose"]}
{"id": "C06", "title": "Irreps are orthogonal representations", "statement": "Every irreducible representation the library builds for C_N, D_N, SO(2) and O(2) maps the identity to the identity matrix, products to matrix products, and every element to an orthogonal matrix (so inverse = transpose); the requests the library must refuse (frequencies out of range, non-existent parities) are refused.", "quantifier": "all groups, all irreps (every frequency and parity), all pairs of elements", "why_tests_cant": "For each of infinitely many groups there are N^2 pairs per irrep, and a continuum for SO(2)/O(2).", "anchors": ["e2cnn/group/groups/cyclicgroup.py: CyclicGroup.irrep", "e2cnn/group/groups/dihedralgroup.py: DihedralGroup.irrep", "e2cnn/group/groups/so2group.py: SO2.irrep", "e2cnn/group/groups/o2group.py: O2.irrep", "e2cnn/group/utils.py: psi, chi, psichi"]}
{"id": "C07", "title": "Representations built from irreps are representations", "statement": "A representation given by a list of irreps and an invertible change of basis is a homomorphism; directsum(r1..rn) acts block-diagonally by the r_i, in order; change_basis(r, Q) acts by Q r(g) Q^-1; sizes add up.", "quantifier": "all groups, all finite lists of representations, all invertible changes of basis, all elements", "why_tests_cant": "Arbitrary nesting of direct sums and arbitrary real matrices.", "anchors": ["e2cnn/group/representation.py: Representation, directsum, change_basis, direct_sum_factory"]}
{"id": "C08", "title": "Restriction of a representation", "statement": "Restricting any representation of C_N, D_N, SO(2) or O(2) to any subgroup gives a representation of the subgroup whose matrix at h equals the original matrix at the image of h in the big group.", "quantifier": "all groups, all subgroup ids, all irreps and all direct sums with change of basis, all subgroup elements", "why_tests_cant": "Case analysis on frequency folding (f mod M, f > M/2, f = M/2) for every N, M, axis; few are covered by unit tests.", "anchors": ["e2cnn/group/group.py: Group.restrict_representation", "e2cnn/group/groups/*.py: _restrict_irrep"]}
{"id": "C09", "title": "Regular representation", "statement": "The regular representation of C_N and D_N, which the library stores as a change of basis of a direct sum of irreps, acts exactly as the left-translation permutation of the group elements, and its change of basis is orthogonal.", "quantifier": "all N, all group elements, all matrix entries", "why_tests_cant": "Requires character orthogonality for every N; tests can only check small N numerically.", "anchors": ["e2cnn/group/representation.py: build_regular_representation", "e2cnn/group/group.py: Group.regular_representation"]}
{"id": "C10", "title": "Quotient and induced representations", "statement": "The matrices from which an induced representation is built (coset permutation combined with the subgroup representation of the cocycle) form a representation, orthogonal when the inducing one is; inducing the trivial representation gives the permutation of the cosets.", "quantifier": "all finite groups C_N, D_N, all subgroup ids, all subgroup representations, all elements", "why_tests_cant": "Choice of coset representatives interacts with every element; infinitely many groups.", "anchors": ["e2cnn/group/representation.py: build_induced_representation, build_quotient_representation"]}
{"id": "C11", "title": "FieldType channel bookkeeping", "statement": "For every field type, fields_start/fields_end are the boundaries of consecutive, disjoint blocks covering all channels in order, with block i having the size of representation i; `+` concatenates; index_select returns the selected representations in the requested order.", "quantifier": "all lists of representations, all index lists", "why_tests_cant": "Unbounded lists of fields of arbitrary sizes.", "anchors": ["e2cnn/nn/field_type.py: FieldType.fields_start, fields_end, __add__, index_select, size"]}
{"id": "C12", "title": "Sorting and grouping fields", "statement": "FieldType.sorted returns a permutation of the fields, in non-decreasing size and stable; group_by_labels returns for each label exactly the fields carrying it, in order; labels of wrong length are rejected.", "quantifier": "all field types and all labelings", "why_tests_cant": "Unbounded lists; stability can only break on particular multiplicity patterns.", "anchors": ["e2cnn/nn/field_type.py: FieldType.sorted, group_by_labels"]}
{"id": "C13", "title": "Slicing a GeometricTensor by fields", "statement": "Indexing the channel dimension of a GeometricTensor with an int or slice either raises or returns exactly the channels of the selected fields, in order, typed with the selected representations - as indexing the list of fields would.", "quantifier": "all field types, all start/stop/step/int indices including negative and out-of-range ones, all data", "why_tests_cant": "Infinite index space with Python's negative-index corner cases.", "anchors": ["e2cnn/nn/geometric_tensor.py: GeometricTensor.__getitem__"]}
{"id": "C14", "title": "split and tensor_directsum are inverse", "statement": "Splitting a tensor at any valid increasing list of breaks and concatenating the pieces with tensor_directsum gives back the tensor and its type; each piece holds exactly the fields between consecutive breaks.", "quantifier": "all field types, all break lists, all data", "why_tests_cant": "Unbounded breaks; interactions of the first/last piece.", "anchors": ["e2cnn/nn/geometric_tensor.py: GeometricTensor.split, tensor_directsum"]}
{"id": "C15", "title": "split does not depend on call history", "statement": "Calling split repeatedly with the same arguments gives the same result: a call must not change the arguments the caller passed.", "quantifier": "all tensors, all break lists, any number of repeated calls", "why_tests_cant": "A unit test calls it once; the effect is only visible on the caller's list afterwards.", "anchors": ["e2cnn/nn/geometric_tensor.py: GeometricTensor.split"]}
{"id": "C16", "title": "Fiber transformation acts field by field and is a group action", "statement": "transform_fibers(g) applies each field's representation to that field's own channels and nothing else; transforming by the identity changes nothing and transforming by h then g equals transforming by g*h.", "quantifier": "all field types, all group elements, all data", "why_tests_cant": "All data and all pairs of group elements.", "anchors": ["e2cnn/nn/field_type.py: FieldType.transform_fibers, fiber_representation", "e2cnn/nn/geometric_tensor.py: transform_fibers"]}
{"id": "C17", "title": "Arithmetic of GeometricTensors commutes with the group", "statement": "Sum, difference (also in place) and scalar multiplication of tensors of the same type have that type and commute with transform_fibers; operands of different types are rejected.", "quantifier": "all types, data, scalars, group elements", "why_tests_cant": "All data and group elements.", "anchors": ["e2cnn/nn/geometric_tensor.py: __add__, __sub__, __mul__"]}
{"id": "C18", "title": "Restricting a tensor keeps data and symmetry", "statement": "Restricting a tensor/field type to a subgroup leaves the numbers unchanged, and transforming the restricted tensor by h is the same as transforming the original one by the image of h, for every field type.", "quantifier": "all field types (including ones with distinct representations sharing a name), all subgroup ids and elements", "why_tests_cant": "Needs every representation and subgroup, and rep-name collisions.", "anchors": ["e2cnn/nn/field_type.py: FieldType.restrict", "e2cnn/nn/geometric_tensor.py: restrict", "e2cnn/nn/modules/restriction_module.py"]}
{"id": "C19", "title": "Exact action on the pixel grid", "statement": "For group elements realised exactly on the grid (quarter turns, the four mirror axes), the basespace action on H x W arrays is a group action (quarter-turns compose, mirrors square to the identity, mirror then rotation follows D4), and featurefield_action is therefore a group action on feature fields.", "quantifier": "all array sizes, all contents, all elements of C4/D4", "why_tests_cant": "All array sizes and contents.", "anchors": ["e2cnn/gspaces/gspace.py: featurefield_action", "e2cnn/gspaces/r2/utils.py: rotate_array", "e2cnn/gspaces/r2/fliprot2d_on_r2.py: _basespace_action"]}
{"id": "C20", "title": "Restricting a gspace is compatible with the action on the plane", "statement": "For every subgroup id, the restricted gspace's action on plane points by h equals the original space's action by the image of h: in particular the new mirror axis is the right one.", "quantifier": "all N, ids, axes and points of the plane", "why_tests_cant": "Continuum of axes and points.", "anchors": ["e2cnn/gspaces/r2/fliprot2d_on_r2.py: restrict", "e2cnn/gspaces/r2/rot2d_on_r2.py: restrict", "e2cnn/gspaces/r2/flip2d_on_r2.py: restrict"]}
{"id": "C21", "title": "Equal gspaces and bases are interchangeable", "statement": "Two gspaces (or kernel/differential-operator bases) that compare equal behave the same: same hash, same plane action, same sampled kernels; and everything equals itself.", "quantifier": "all pairs of spaces/bases", "why_tests_cant": "Needs all pairs, including pairs that differ only in the mirror axis.", "anchors": ["e2cnn/gspaces/r2/fliprot2d_on_r2.py: __eq__, __hash__", "e2cnn/kernels/irreps_basis.py: __eq__", "e2cnn/diffops/irreps_basis.py: __eq__"]}
{"id": "C22", "title": "Steerable kernels satisfy the equivariance constraint", "statement": "Every kernel the library generates between two irreps of the mirror group, C_N, D_N, SO(2) or O(2) satisfies k(g.phi) = rho_out(g) k(phi) rho_in(g)^-1 for every group element and angle, whatever the mirror axis, the band-limit and the offsets.", "quantifier": "all groups, pairs of irreps, mirror axes, frequencies/offsets, group elements, angles", "why_tests_cant": "Continuum of angles and axes, infinitely many groups/frequencies.", "anchors": ["e2cnn/kernels/irreps_basis.py: R2FlipsSolution, R2DiscreteRotationsSolution, R2ContinuousRotationsSolution, R2FlipsDiscreteRotationsSolution, R2FlipsContinuousRotationsSolution"]}
{"id": "C23", "title": "Kernels between arbitrary representations satisfy the constraint at every plane point", "statement": "The kernels built for arbitrary input/output representations (change of basis around blocks of irrep kernels), multiplied by any radial profile, satisfy the constraint at every point of the plane including the origin.", "quantifier": "all representations, radial profiles, points of the plane, group elements", "why_tests_cant": "All representations and plane points; origin is a singular case.", "anchors": ["e2cnn/kernels/steerable_basis.py: SteerableKernelBasis", "e2cnn/kernels/basis.py: PolarBasis, GaussianRadialProfile"]}
{"id": "C24", "title": "Frequencies enumerated by the basis generator", "statement": "The offsets produced for (base frequency k, group order N, bounds F, T) are exactly the integers t with |k + tN| <= F (when F is given) and |t| <= T (when T is given), each once and in increasing order; with non_negative only non-negative resulting frequencies are produced.", "quantifier": "all integers k, N, F, T", "why_tests_cant": "Infinite parameter space, floor/ceil boundary cases with negative numbers.", "anchors": ["e2cnn/kernels/utils.py: offset_iterator"]}
{"id": "C25", "title": "Kernel bases are linearly independent", "statement": "The kernels generated for a pair of irreps are linearly independent functions, so dim is the true dimension and no weight is redundant.", "quantifier": "all groups, irreps, bounds", "why_tests_cant": "Statement about all linear combinations as functions on the circle.", "anchors": ["e2cnn/kernels/irreps_basis.py", "e2cnn/kernels/utils.py: offset_iterator"]}
{"id": "C26", "title": "Kernel bases are complete up to the band-limit", "statement": "Every kernel satisfying the constraint whose entries are trigonometric polynomials of degree at most F is a combination of the generated ones.", "quantifier": "all groups, irreps, band-limits, kernels", "why_tests_cant": "Quantifies over all solutions of the constraint.", "anchors": ["e2cnn/kernels/irreps_basis.py"]}
{"id": "C27", "title": "Basis indexing agrees with sampling order", "statement": "For product and block bases, element i reported by basis[i] / iteration (its attributes) is the i-th sampled element: the nested index <-> flat index maps are mutually inverse and in range.", "quantifier": "all dimensions and indices", "why_tests_cant": "All dimensions.", "anchors": ["e2cnn/kernels/basis.py: PolarBasis.__getitem__, __iter__, sample", "e2cnn/kernels/steerable_basis.py: __getitem__, __iter__", "e2cnn/diffops/basis.py: TensorBasis"]}
{"id": "C28", "title": "Weights of a convolution are partitioned among blocks", "statement": "The weight ranges assigned to representation pairs partition the weight vector; the expanded filter's block for output field o and input field i is the combination of that pair's basis with its own slice of weights and no other block uses these weights; get_element_info and get_basis_info describe the same element for each weight index.", "quantifier": "all input/output field types, basis sizes, weights", "why_tests_cant": "Unbounded lists of fields in arbitrary interleavings (contiguous and non contiguous code paths).", "anchors": ["e2cnn/nn/modules/r2_conv/basisexpansion_blocks.py: BlocksBasisExpansion"]}
{"id": "C29", "title": "R2Conv is exactly equivariant for grid symmetries", "statement": "With stride 1 and zero padding, for any weights and bias, the R2Conv forward map commutes with the exact grid symmetries (quarter turns, mirrors): conv(g.x) = g.conv(x), for every image size and kernel size.", "quantifier": "all weights, biases, pairs of field types over one gspace (fields of the same name equal), image sizes, kernel sizes, dilations, groups, padding modes, distinct rings, elements of the grid symmetry group; also any stride that tiles the image exactly", "why_tests_cant": "All weights and images; tests sample random ones with tolerance 0.1.", "anchors": ["e2cnn/nn/modules/r2_conv/r2convolution.py: R2Conv.forward, expand_parameters, get_grid_coords"]}
{"id": "C30", "title": "The sampling grid is symmetric", "statement": "The points on which kernels are sampled are mapped to each other by quarter turns and mirrors exactly as the array indices are by rot90/flip, for every kernel size and dilation.", "quantifier": "all kernel sizes and dilations", "why_tests_cant": "All sizes, even and odd.", "anchors": ["e2cnn/nn/modules/r2_conv/r2convolution.py: get_grid_coords"]}
{"id": "C31", "title": "Convolution bias is invariant", "statement": "The expanded bias added to the output is fixed by the output representation for every value of the bias parameters, so adding it preserves equivariance.", "quantifier": "all output types, bias values, group elements", "why_tests_cant": "All types and values.", "anchors": ["e2cnn/nn/modules/r2_conv/r2convolution.py: R2Conv.__init__ (bias_expansion), expand_parameters"]}
{"id": "C32", "title": "Evaluation mode uses the current weights", "statement": "In every sequence of train(), eval(), weight updates, forward and export calls, a forward pass (or export) uses the filter expanded from the current weights.", "quantifier": "all finite call sequences", "why_tests_cant": "Arbitrary histories.", "anchors": ["e2cnn/nn/modules/r2_conv/r2convolution.py: train, forward, export"]}
{"id": "C33", "title": "Announced output shapes are the real ones", "statement": "For every module with evaluate_output_shape, the announced shape equals the shape of the tensor forward returns, for every input shape and parameter the constructor accepts.", "quantifier": "all input shapes, kernel sizes, strides, paddings, dilations", "why_tests_cant": "Unbounded parameter space with floor divisions.", "anchors": ["e2cnn/nn/modules/r2_conv/*.py, e2cnn/nn/modules/pooling/*.py, e2cnn/nn/modules/r2upsampling.py: evaluate_output_shape"]}
{"id": "C34", "title": "Caches never change results", "statement": "The result of building a kernel basis, a differential-operator basis or sampled filters depends only on the requested parameters, not on what was built before in the same process.", "quantifier": "all sequences of requests", "why_tests_cant": "Arbitrary histories in one process.", "anchors": ["e2cnn/gspaces/r2/general_r2.py: build_kernel_basis, build_diffop_basis", "e2cnn/nn/modules/r2_conv/basisexpansion_singleblock.py: block_basisexpansion", "e2cnn/diffops/utils.py: load_cache, store_cache"]}
{"id": "C35", "title": "Chebyshev-type polynomials are the angular harmonics", "statement": "The homogeneous polynomial generated for frequency n evaluates at (r cos a, r sin a) to r^|n| cos(n a) (kind t) and r^|n| sin(n a) (kind u).", "quantifier": "all integers n, all points", "why_tests_cant": "All n and points.", "anchors": ["e2cnn/diffops/utils.py: homogenized_cheby, laplacian_power, multiply_polynomials, transform_polynomial"]}
{"id": "C36", "title": "Steerable differential operators satisfy the constraint", "statement": "The symbol of every generated differential operator satisfies the same equivariance constraint as kernels, for all groups, irreps and orders.", "quantifier": "all groups, irreps, orders, axes, group elements, points", "why_tests_cant": "Continuum.", "anchors": ["e2cnn/diffops/irreps_basis.py"]}
{"id": "C37", "title": "Discretised differential operators keep the symmetry", "statement": "The finite-difference stencil of an equivariant differential operator is equivariant under the exact grid symmetries of the space (quarter turns and mirrors).", "quantifier": "all operators, stencil sizes, grid symmetries", "why_tests_cant": "Tests use tolerance 0.1 on nearly constant images.", "anchors": ["e2cnn/diffops/utils.py: discretize_homogeneous_polynomial, discretize_2d_monomial"]}
{"id": "C38", "title": "Stencil-size arithmetic", "statement": "required_points, largest_possible_order and guaranteed_accuracy are consistent: a stencil of required_points(order, accuracy) points supports that order and accuracy, one of fewer points does not.", "quantifier": "all orders, accuracies, sizes", "why_tests_cant": "All integers.", "anchors": ["e2cnn/diffops/utils.py: required_points, largest_possible_order, guaranteed_accuracy"]}
{"id": "C39", "title": "Sequential composition is type safe and equivariant", "statement": "A SequentialModule accepts a chain iff consecutive types match; its forward is the composition, from in_type to out_type; if all parts are equivariant so is the whole.", "quantifier": "all lists of modules, any construction history (constructor and add_module)", "why_tests_cant": "Unbounded lists/histories.", "anchors": ["e2cnn/nn/modules/sequential_module.py"]}
{"id": "C40", "title": "Branching, merging and reshuffling only move fields", "statement": "ReshuffleModule permutes whole fields; BranchingModule gives each label exactly its fields in order (with or without reshuffling, contiguous or not); MergeModule concatenates; nothing is lost, duplicated or mixed.", "quantifier": "all field types, labelings, permutations, data", "why_tests_cant": "Unbounded; contiguity shortcuts.", "anchors": ["e2cnn/nn/modules/reshuffle_module.py", "e2cnn/nn/modules/branching_module.py", "e2cnn/nn/modules/merge_module.py", "e2cnn/nn/modules/multiple_module.py"]}
{"id": "C41", "title": "Grouping fields by size never changes what is computed", "statement": "All modules which group fields by size/label and process contiguous groups by slicing and others by indexing compute, for every field type, the same as applying the operation to each field separately.", "quantifier": "all field types and data", "why_tests_cant": "Contiguity depends on the whole arrangement of fields.", "anchors": ["e2cnn/nn/modules/utils.py: indexes_from_labels, check_consecutive_numbers", "e2cnn/nn/modules/nonlinearities/norm.py", "e2cnn/nn/modules/nonlinearities/gated1.py", "e2cnn/nn/modules/invariantmaps/gpool.py"]}
{"id": "C42", "title": "Non-linearities are equivariant", "statement": "Pointwise activations on permutation representations, norm non-linearities on orthogonal representations, gated and induced ones, concatenated and vector-field ones commute with the group action on fibers.", "quantifier": "all field types, functions, parameters, data, group elements", "why_tests_cant": "All data and parameters.", "anchors": ["e2cnn/nn/modules/nonlinearities/*.py"]}
{"id": "C43", "title": "Invariant maps are invariant", "statement": "GroupPooling, NormPool and InducedNormPool give one channel per field whose value does not change when the input is transformed by the group.", "quantifier": "all field types, data, group elements", "why_tests_cant": "All data.", "anchors": ["e2cnn/nn/modules/invariantmaps/*.py"]}
{"id": "C44", "title": "Batch normalisation is equivariant over its whole life", "statement": "InnerBatchNorm, NormBatchNorm and GNormBatchNorm commute with the group action in training and evaluation; after any history of batches the running statistics do not depend on how the batches were transformed, and variances stay non-negative.", "quantifier": "all histories of batches, field types, group elements", "why_tests_cant": "Arbitrary histories of real-valued batches.", "anchors": ["e2cnn/nn/modules/batchnormalization/*.py"]}
{"id": "C45", "title": "Dropout drops whole fields", "statement": "FieldDropout multiplies each field by 0 or 1/(1-p), in place or not, in train mode, and is the identity in eval mode; hence it commutes with the group action given the mask.", "quantifier": "all field types, masks, p in [0,1], inplace flag", "why_tests_cant": "Random masks, arrangement of fields.", "anchors": ["e2cnn/nn/modules/dropout/field.py"]}
{"id": "C46", "title": "The mask is symmetric", "statement": "MaskModule's mask is invariant under quarter turns and mirrors, equals 1 inside the disk and lies strictly between 0 and 1 outside, for every size and margin.", "quantifier": "all sizes and margins", "why_tests_cant": "All sizes, real margin.", "anchors": ["e2cnn/nn/modules/masking_module.py: build_mask"]}
{"id": "C47", "title": "Generalised He initialisation", "statement": "The standard deviations used to initialise weights are such that, for every output irrep, the squared standard deviations of the weights mapping into it sum to one.", "quantifier": "all basis expansions", "why_tests_cant": "Unbounded bases.", "anchors": ["e2cnn/nn/init.py: _generalized_he_init_variances"]}
{"id": "C48", "title": "Exported modules compute the same function", "statement": "The plain PyTorch module returned by export computes the same as the original in evaluation mode.", "quantifier": "all modules with export, all constructor parameters, all inputs", "why_tests_cant": "All parameters.", "anchors": ["e2cnn/nn/modules/batchnormalization/inner.py: export", "e2cnn/nn/modules/pooling/pointwise_max.py: export", "e2cnn/nn/modules/r2upsampling.py: export", "e2cnn/nn/modules/r2_conv/r2_transposed_convolution.py: export"]}
{"id": "C49", "title": "Disentangling a representation", "statement": "disentangle(r) returns a permutation-like change of basis and representations whose direct sum, conjugated back, is r; DisentangleModule's output transforms under its out_type.", "quantifier": "all representations", "why_tests_cant": "All representations.", "anchors": ["e2cnn/group/representation.py: disentangle", "e2cnn/nn/modules/disentangle_module.py"]}
{"id": "C50", "title": "Constructors leave their arguments alone", "statement": "Building a module twice from the same arguments succeeds both times with equal results: constructors do not modify the lists passed to them.", "quantifier": "all argument values", "why_tests_cant": "Only visible on reuse.", "anchors": ["e2cnn/nn/modules/merge_module.py", "e2cnn/nn/modules/multiple_module.py"]}
{"id": "C51", "title": "Growing the group singletons never breaks earlier objects", "statement": "Requesting a continuous group with a larger maximum frequency later never makes operations on previously valid subgroups/representations fail, and restriction of any available irrep always succeeds.", "quantifier": "all histories of group requests and restrictions", "why_tests_cant": "Histories.", "anchors": ["e2cnn/group/groups/o2group.py: _generator, subgroup, _restrict_irrep", "e2cnn/group/groups/so2group.py: _generator"]}
{"id": "C52", "title": "Pooling over pixels commutes with the transformations of the plane", "statement": "Transforming a tensor by a group element that maps the pixel grid to itself and then pooling (max, average, antialiased max and average, adaptive) gives the transform of the pooled tensor, when the windows tile the image exactly.", "quantifier": "all pooling modules and their arguments, all field types they accept, images, and group elements that act exactly on the grid", "why_tests_cant": "All sizes, strides, paddings, dilations, images and group elements.", "anchors": ["e2cnn/nn/modules/pooling/pointwise_max.py", "e2cnn/nn/modules/pooling/pointwise_avg.py", "e2cnn/nn/modules/pooling/pointwise_adaptive_max.py", "e2cnn/nn/modules/pooling/pointwise_adaptive_avg.py"]}
{"id": "C53", "title": "What a representation declares it supports, its matrices allow", "statement": "Every representation obtained from irreps, regular, induced and quotient representations by direct sum (without its change_of_basis argument), restriction to a subgroup, disentangling and change_basis (with its default declaration) has, at every group element, a permutation matrix if it lists 'pointwise' among its supported non-linearities, an orthogonal matrix if it lists 'norm', a signed permutation matrix if it lists 'concatenated', and the identity if it lists 'gate'. So ReLU, ELU, PointwiseNonLinearity, NormNonLinearity, ConcatenatedNonLinearity and GroupPooling are equivariant on every type of such representations that their constructors accept.", "quantifier": "all groups C_N, D_N, SO(2), O(2), all representations that can be built by any sequence of these operations, all elements, all types and tensors", "why_tests_cant": "The representations form an infinite family closed under the operations; a test sees a few of them.", "anchors": ["e2cnn/group/group.py:Group.induced_representation", "e2cnn/group/group.py:Group.restrict_representation", "e2cnn/group/group.py:Group._induced_nonlinearities", "e2cnn/group/representation.py:directsum", "e2cnn/group/representation.py:change_basis", "e2cnn/group/representation.py:disentangle"]}
{"id": "C54", "title": "Upsampling commutes with the transformations of the plane", "statement": "Transforming a tensor by a group element that maps the pixel grid to itself and then upsampling it with R2Upsampling (nearest or bilinear, by a scale factor or to a size, with or without align_corners) gives the transform of the upsampled tensor, when nearest repeats every pixel a whole number of times and align_corners does not shrink an axis to one pixel.", "quantifier": "all arguments of R2Upsampling, all field types, images, and group elements that act exactly on the grid", "why_tests_cant": "All sizes, factors, modes, images and group elements.", "anchors": ["e2cnn/nn/modules/r2upsampling.py:R2Upsampling"]}
{"id": "C55", "title": "R2ConvTransposed is equivariant", "statement": "For every R2ConvTransposed layer without output padding that has at least one weight, in which both types are over one gspace, transforming the input by a group element that maps the pixel grid to itself and then applying the layer gives the transform of the layer's output, whatever the weights, bias, kernel size, stride, dilation, padding, number of groups and image size.", "quantifier": "all gspaces, field types, layer arguments, weights, images, and group elements that act exactly on the grid", "why_tests_cant": "All weights, strides, paddings, sizes and images; the layer has its own copies of the ring, radius and group computations.", "anchors": ["e2cnn/nn/modules/r2_conv/r2_transposed_convolution.py:R2ConvTransposed", "e2cnn/nn/modules/r2_conv/r2_transposed_convolution.py:compute_basis_params"]}
{"id": "C56", "title": "A whole network is equivariant, and an invariant network is invariant", "statement": "For every SequentialModule over one planar gspace built from any number of the layers R2Conv, R2Diffop, R2ConvTransposed, the pooling, upsampling, masking, pointwise, norm, gated, concatenated and vector field layers, the invariant maps, the batch normalisations (in either mode, in any state that training can reach), DisentangleModule and the dropout layers in evaluation mode, transforming the input by a group element that maps the pixel grid to itself and running the network gives the transform of the network's output. If moreover the output consists of scalar fields on one pixel, the output does not change at all. The kernel sizes and strides of the layers must cover their inputs exactly and layers that choose a winner must find no ties.", "quantifier": "all gspaces, numbers and orders of layers, layer arguments, weights, states of the normalisations, batches, images, and group elements that act exactly on the grid", "why_tests_cant": "Networks of every length, built from 26 kinds of layers, with all weights and states and all images; the claim is about their composition.", "anchors": ["e2cnn/nn/modules/sequential_module.py:SequentialModule", "e2cnn/nn/modules/equivariant_module.py:EquivariantModule", "e2cnn/nn/modules/r2_conv/r2convolution.py:R2Conv"]}
{"id": "C57", "title": "Nesting SequentialModules does not matter", "statement": "A SequentialModule may contain SequentialModules, to any depth. Such a network can be constructed exactly if the SequentialModule of all its innermost modules in order can be, has the same in_type and out_type, and returns the same output, or raises the same exception, on every input. Two ways of nesting the same modules therefore give interchangeable networks.", "quantifier": "all trees of modules (without empty SequentialModules), all modules of the library with any arguments and states, all inputs of any type", "why_tests_cant": "Trees of every depth and width, with any modules in them, on every input, including inputs and modules whose types do not fit.", "anchors": ["e2cnn/nn/modules/sequential_module.py:SequentialModule"]}
{"id": "C58", "title": "Translation equivariance: a network does the same wherever the content of the image lies", "statement": "If two images, of any sizes, are the same in a window, at possibly different places, then a SequentialModule of convolutions (also transposed), pooling layers (also antialiased), nearest-neighbour upsampling, non-linearities and the other layers that treat pixels alone returns images that are the same in every window whose computation reads only from there: the shift of the window is divided by the stride, multiplied by the upsampling factor. If the convolutions pad circularly to as much as they cover (or fit into their stride, as the pooling layers must), then rolling the image by a multiple of the strides rolls the output; also with batch normalisation in training mode; after global pooling the output stays the same.", "quantifier": "all lists of layers with any kernel sizes, strides, paddings and dilations, all weights and states, all input images of any size and batch, all windows and all rolls", "why_tests_cant": "Every architecture, every shift and every pair of windows; tests try a few shifts of a few images through a few layers.", "anchors": ["e2cnn/nn/modules/r2_conv/r2convolution.py:R2Conv.forward", "e2cnn/nn/modules/r2_conv/r2_transposed_convolution.py:R2ConvTransposed.forward", "e2cnn/nn/modules/pooling/pointwise_max.py:PointwiseMaxPool.forward", "e2cnn/nn/modules/pooling/pointwise_avg.py:PointwiseAvgPool.forward", "e2cnn/nn/modules/sequential_module.py:SequentialModule.forward"]}
{"id": "C59", "title": "The irreps of a group are irreducible, pairwise inequivalent and complete", "statement": "Every irrep that C_N, D_N, SO(2) or O(2) returns has no invariant subspace, between two different irreps of a group there is no equivariant linear map but zero, and the equivariant maps of an irrep to itself form a space of exactly the dimension announced as sum_of_squares_constituents. For C_N and D_N the list of irreps is complete: every real representation has a non-zero equivariant map to one of them, and every irreducible one is one of them up to a change of basis, and every real representation is a direct sum of them up to a change of basis; no irrep is listed twice, and the squares of the sizes divided by sum_of_squares_constituents add up to the order of the group.", "quantifier": "all N, all frequencies, all linear maps, all subspaces; for completeness all real representations of any size", "why_tests_cant": "All orders and frequencies, all matrices and all representations: the enumeration of the kernel bases and of the regular representation rely on this for every group.", "anchors": ["e2cnn/group/cyclicgroup.py:CyclicGroup.irrep", "e2cnn/group/dihedralgroup.py:DihedralGroup.irrep", "e2cnn/group/so2group.py:SO2.irrep", "e2cnn/group/o2group.py:O2.irrep", "e2cnn/group/irrep.py:IrreducibleRepresentation"]}
{"id": "C60", "title": "Delta-orthogonal initialisation is zero off the centre and orthonormal at the centre", "statement": "deltaorthonormal_init(tensor, basisexpansion) returns exactly when the tensor has one entry for each element of the expansion, every element has a radius or an order, and for every irrep each of its input positions is joined to each of its output positions by the same number of elements at radius zero; otherwise it raises. When it returns, all weights of elements that are not at radius zero, or that join different irreps, are zero; for every irrep, the matrix of weights from its input positions to its output positions has orthonormal rows if there are at most as many outputs as inputs, and orthonormal columns if there are at least as many.", "quantifier": "all lists of basis elements, all lengths of the tensor, all orthogonal matrices and all normal numbers drawn (none exactly zero); in particular the expansions of all R2Conv layers", "why_tests_cant": "The draws are random and the grouping of the weights depends on the whole expansion: tests sample a few layers and draws and check no orthonormality.", "anchors": ["e2cnn/nn/init.py:deltaorthonormal_init"]}
{"id": "C61", "title": "Forward methods with residual connections, direct sums and slices of fields are equivariant", "statement": "Take a forward method that calls equivariant layers and combines GeometricTensors with +, -, * by a number, tensor_directsum, indexing of fields and the in-place forms +=, -=, *=, in any order and with any wiring (residual blocks, dense connections, several branches). If it runs on some tensors, then it runs on the tensors transformed by an element of the group that maps the pixel grid to itself, and every variable of the second run is the transformed variable of the first one. Run on tensors rolled along the axes, with layers that wrap around, it returns the rolled tensors.", "quantifier": "all planar G-spaces and elements that map the grid to itself, all numbers of statements and variables, all wirings, all layers of C56 with any parameters, all types, all broadcastable image sizes, all contents of uninitialised memory", "why_tests_cant": "Tests check single layers and single operators on a few types; a forward method is any program over them, with any number of statements and any wiring.", "anchors": ["e2cnn/nn/geometric_tensor.py:GeometricTensor.__add__", "e2cnn/nn/geometric_tensor.py:GeometricTensor.__iadd__", "e2cnn/nn/geometric_tensor.py:GeometricTensor.__mul__", "e2cnn/nn/geometric_tensor.py:GeometricTensor.__getitem__", "e2cnn/nn/geometric_tensor.py:tensor_directsum"]}
{"id": "C62", "title": "Loading a checkpoint restores the saved network", "statement": "Take two networks built with the same arguments, each after any history of parameter updates, forward passes, train(), eval() and loads. Loading the state dict of the first into the second makes the second compute the function of the first. When the last call of train()/eval() was the same on both sides, the load never raises and restores the whole state. In general the load raises only RuntimeError, and exactly in the stated combinations of last calls; whatever the combination, after train() the loader equals the saver after train().", "quantifier": "all networks of convolutions, transposed convolutions and modules with fixed buffers, all initial parameters, all histories on both sides, strict and non-strict loads", "why_tests_cant": "Tests save and load in one or two states; the set of buffers depends on the whole history of train() and eval() on each side, and their contents on the updates in between.", "anchors": ["e2cnn/nn/modules/r2_conv/r2convolution.py:R2Conv.train", "e2cnn/nn/modules/r2_conv/r2convolution.py:R2Conv.__init__", "e2cnn/nn/modules/r2_conv/r2_transposed_convolution.py:R2ConvTransposed.train"]}
{"id": "C63", "title": "Networks are equivariant under every sequence of turns, mirrorings and rolls", "statement": "Turn, mirror and roll the inputs of a forward method any number of times in any order (turns and mirrorings that map the pixel grid to itself, rolls by distances that the strides divide, layers that wrap around). The method still runs, and each of its variables undergoes the same sequence, with the rolls divided by the strides. In particular the scores of a classifier that ends with global pooling are the same for all the images that turns, mirrorings and rolls make of one another.", "quantifier": "all planar G-spaces, all finite sequences of motions, all forward methods of C61, all parameters, types and image sizes", "why_tests_cant": "Tests apply one transformation to one input; the sequences generate a group that grows with the image, and the size of the image and the alignment of strides change along the sequence.", "anchors": ["e2cnn/nn/modules/r2_conv/r2convolution.py:R2Conv.forward", "e2cnn/nn/geometric_tensor.py:GeometricTensor.transform", "e2cnn/nn/modules/sequential_module.py:SequentialModule.forward"]}
{"id": "C64", "title": "Field types that compare equal transform data in the same way", "statement": "When two representations or two field types compare equal with ==, they have the same fields with the same names, sizes, irreps and supported non-linearities, and their actions on a tensor agree up to the tolerance of the comparison. Comparing never raises, is symmetric and transitive, and equal objects have equal hashes.", "quantifier": "all representations of the groups of the planar G-spaces with any change of basis, all field types over the same G-space, all group elements, all tensors", "why_tests_cant": "Tests compare objects built by the same calls, whose changes of basis are the same; what the tolerance lets through depends on all entries of arbitrary matrices.", "anchors": ["e2cnn/group/representation.py:Representation.__eq__", "e2cnn/group/representation.py:Representation.__hash__", "e2cnn/nn/field_type.py:FieldType.__eq__", "e2cnn/nn/field_type.py:FieldType.__hash__"]}
{"id": "C65", "title": "Training on transformed images trains the same network", "statement": "Train a network of the library's layers on a sequence of batches, and a copy of it on the same batches after transforming each with its own element of the group (a quarter turn, a mirroring), with the loss following the transformation (the same labels for a classifier, the transformed target otherwise). Both trainings run, and end with the same parameters, the same running statistics of the batch normalisations and the same state of the optimiser.", "quantifier": "all networks of the modelled layers that run on the batches for every value of their parameters, all sequences of batches, all elements of the group that map the pixel grid to itself (one per batch), all losses, all optimisers that see the loss as a function of parameters and buffers, all numbers of steps", "why_tests_cant": "A test trains for a few steps with one optimiser and one seed, and floating point hides small differences; the claim is about every optimiser, every loss and every length of training, including the running statistics that each forward pass changes.", "anchors": ["examples/model.ipynb:training loop", "e2cnn/nn/modules/sequential_module.py:SequentialModule.forward", "e2cnn/nn/modules/batchnormalization/norm.py:NormBatchNorm.forward", "e2cnn/nn/modules/batchnormalization/induced_norm.py:InducedNormBatchNorm.forward", "e2cnn/nn/modules/batchnormalization/inner.py:InnerBatchNorm.forward", "e2cnn/nn/modules/batchnormalization/gnorm.py:GNormBatchNorm.forward"]}
{"id": "C66", "title": "check_equivariance tells the truth", "statement": "check_equivariance of a network of equivariant layers, in evaluation mode and over a group whose elements map the pixel grid to itself, passes with any tolerances, returns each testing element with the error zero and leaves the network unchanged; the same for the modules whose check transforms only the fibres, over each group. Over a finite group the check of any module passes if and only if the outputs agree up to the tolerances for every element of the group. What a check that passes says should also hold for continuous groups and in training mode (it does not: see the refutations).", "quantifier": "all networks and modules of the modelled kinds, all inputs (batch sizes, image sizes, contents), all tolerances >= 0, all contents of uninitialised memory, and for the equivalence all functions from tensors to tensors", "why_tests_cant": "The check is itself the library's test: it draws one random input. Whether passing means anything, and whether a correct network can fail, is a claim about all inputs and all modules.", "anchors": ["e2cnn/nn/modules/equivariant_module.py:EquivariantModule.check_equivariance", "e2cnn/nn/modules/sequential_module.py:SequentialModule", "e2cnn/nn/modules/nonlinearities/relu.py:ReLU.check_equivariance", "e2cnn/nn/modules/invariantmaps/norm.py:NormPool.check_equivariance", "e2cnn/group/groups/so2group.py:SO2.testing_elements", "e2cnn/nn/geometric_tensor.py:GeometricTensor.transform_fibers"]}
{"id": "C67", "title": "Representations built from matrices", "statement": "If build_from_discrete_group_representation returns a Representation, whatever the matrices and whatever its numerical search found, then calling it gives back the given matrices; its irreps are irreps of the group in the order of their names, its change of basis is invertible, and conjugating the irreps with it gives the given matrices up to numpy's tolerance; its character is the trace of that decomposition. For the matrices of any representation of C_N or D_N (any homomorphism into real matrices) the irreps found are exactly those it decomposes into, with their multiplicities, a change of basis exists, and with any change of basis the object is built; the character is the trace of the matrices. The object should also be a homomorphism exactly (it is one only up to the tolerance: see the refutation).", "quantifier": "all N, all dictionaries of matrices (soundness), all representations of C_N and D_N of any size and change of basis, all results of the numerical search, all namings of the irreps", "why_tests_cant": "The multiplicities come from sums of characters over the whole group and are rounded; a test covers a few groups and matrices, and uses the one change of basis that the search happened to find.", "anchors": ["e2cnn/group/representation.py:build_from_discrete_group_representation", "e2cnn/group/representation.py:decompose_representation", "e2cnn/group/representation.py:compute_change_of_basis", "e2cnn/group/representation.py:Representation.__init__"]}
{"id": "C68", "title": "Representations of O(2) induced from SO(2)", "statement": "For every irrep of SO(2), O2.induced_representation((None, -1), irrep) returns an orthogonal representation of O(2) of twice the size whose matrices are exactly those of the induced representation: a rotation by a acts by the irrep at a on the first copy and at -a on the second, and the reflection exchanges the copies. Its irreps are frequency k twice (or the trivial one and the sign of the reflection), its change of basis is orthogonal, the non-linearities it declares are ones its matrices permit, and the sub-fields read off the declaration are permuted. The quotient representation exchanges two channels under reflections. Induction from any other subgroup raises ValueError.", "quantifier": "all frequencies, all angles and both kinds of element, all subgroup ids", "why_tests_cant": "The change of basis comes from an averaging formula and a normalisation; that it reproduces the induced matrices has to hold at a continuum of elements and for every frequency.", "anchors": ["e2cnn/group/groups/o2group.py:O2._induced_from_irrep", "e2cnn/group/group.py:Group.induced_representation", "e2cnn/group/group.py:Group.quotient_representation"]}
{"id": "C69", "title": "Declared sub-fields are permuted", "statement": "Every representation assembled from irreps, regular, induced and quotient representations of C_N, D_N, SO(2) and O(2) by direct sums, restrictions and changes of basis permutes, at every element of the group, the sub-fields of size k for every name induced_norm_k or induced_gated_k among its supported_nonlinearities. Consequently InducedNormNonLinearity is equivariant, for every value of its biases, and InducedNormPool invariant, on every field type of such representations that their constructors accept.", "quantifier": "all representations assembled by any number of direct sums, restrictions and changes of basis; all group elements; all inputs, biases and transformations of the base space", "why_tests_cant": "The names are inherited through arbitrary compositions of constructors; that the promise still holds after each is an induction over how the representation was built.", "anchors": ["e2cnn/group/group.py:_induced_nonlinearities", "e2cnn/group/representation.py:directsum", "e2cnn/nn/modules/nonlinearities/induced_norm.py:InducedNormNonLinearity", "e2cnn/nn/modules/invariantmaps/induced_norm.py:InducedNormPool"]}
