{"id": "C01", "title": "Lexicographic sorting of sector arrays", "statement": "SectorArray.sorted / lexsort_indices (and the same method of BlockInds) returns a permutation of the row indices, the permuted rows are non-decreasing in the np.lexsort order (last column most significant), and rows that compare equal keep their original relative order.", "quantifier": "every array of integer rows of any length and width", "why_tests_cant": "Holds for unboundedly many inputs; a test samples finitely many arrays / charges.", "anchors": ["src/symmetries/sector_array.cpp:SectorArray::lexsort_indices", "src/backends/block_inds.cpp:BlockInds::lexsort_indices", "include/cyten/symmetries/sector.h:Sector::cmp_lexsort"]}
{"id": "C02", "title": "unique_sorted merges duplicates and keeps the total multiplicity", "statement": "SectorArray.unique_sorted(multiplicities) returns strictly increasing sectors, contains exactly the sectors of the input, and the multiplicity of each returned sector is the sum of the multiplicities of its occurrences in the input.", "quantifier": "every sector array and every multiplicity list of the same length", "why_tests_cant": "Holds for unboundedly many inputs; a test samples finitely many arrays / charges.", "anchors": ["src/symmetries/sector_array.cpp:SectorArray::unique_sorted", "src/symmetries/sector_array.cpp:SectorArray::find_row_differences"]}
{"id": "C03", "title": "Merge walks over sorted arrays find exactly the common rows", "statement": "iter_common_sorted on two sorted arrays, at least one of them strictly sorted, yields exactly the index pairs (i, j) with equal rows, each once; iter_common_noncommon_sorted on two strictly sorted arrays yields every index of both arrays exactly once, paired if and only if the rows are equal.", "quantifier": "every pair of sorted arrays", "why_tests_cant": "The number of interleavings of two arrays is unbounded.", "anchors": ["src/backends/block_inds.cpp:BlockInds::iter_common_sorted", "src/backends/block_inds.cpp:BlockInds::iter_common_noncommon_sorted", "src/symmetries/sector_array.cpp:SectorArray::iter_common_sorted", "cyten/tools/misc.py:iter_common_sorted_arrays"]}
{"id": "C04", "title": "Packing block indices into strides is injective and order preserving", "statement": "BlockInds.pack with the F-style strides of the number of sectors per leg maps distinct valid index rows to distinct integers and preserves the lexsort order; make_grid enumerates every multi-index exactly once, in the order given by make_stride.", "quantifier": "every shape and every pair of valid multi-indices", "why_tests_cant": "Holds for unboundedly many inputs; a test samples finitely many arrays / charges.", "anchors": ["cyten/tools/misc.py:make_stride", "cyten/tools/misc.py:make_grid", "src/backends/block_inds.cpp:BlockInds::pack", "src/symmetries/spaces.cpp:make_stride,grid_entry"]}
{"id": "C05", "title": "Permutation utilities", "statement": "inverse_permutation is a two-sided inverse of every permutation; rank_data is the inverse of the stable argsort; permutation_as_swaps returns a list of neighbour swaps that, performed in order, realise exactly the requested permutation.", "quantifier": "every permutation of every size", "why_tests_cant": "Holds for unboundedly many inputs; a test samples finitely many arrays / charges.", "anchors": ["cyten/tools/misc.py:inverse_permutation,rank_data,permutation_as_swaps", "src/backends/fusion_tree_permute.cpp:permutation_as_swaps"]}
{"id": "C06", "title": "Abelian group factors obey the group laws on valid sectors", "statement": "For U(1), Z_N, fermion parity and fermion number: fusion is closed on valid sectors, associative, commutative, has the trivial sector as unit and dual_sector as inverse; the batched forms agree element-wise with the scalar ones and multiple_fusion is independent of bracketing.", "quantifier": "every modulus N >= 1 and every tuple of representable (int16) charges", "why_tests_cant": "Charges and N are unbounded up to machine integers; overflow cases are not hit by samples.", "anchors": ["src/symmetries/factors/zn.cpp", "src/symmetries/factors/u1.cpp", "src/symmetries/factors/fermion_parity.cpp", "src/symmetries/factors/fermion_number.cpp", "src/symmetries/abelian_group.cpp"]}
{"id": "C07", "title": "U(1) fusion adds charges", "statement": "For the U(1) symmetry the coupled sector of two sectors is the (integer) sum of the charges and the dual is minus the charge.", "quantifier": "every pair of charges that a sector can hold", "why_tests_cant": "The failing cases are the charges whose sum leaves the 16 bit range.", "anchors": ["src/symmetries/factors/u1.cpp", "include/cyten/symmetries/sector.h"]}
{"id": "C08", "title": "Z_N anyon categories satisfy the pentagon, hexagon and symbol identities", "statement": "For ZNAnyonCategory(N, n), ZNAnyonCategory2(N, n) and the quantum double of Z_N the F and R symbols returned by the library satisfy the pentagon and both hexagon equations, the C symbol equals the composition of R and F moves, and the Frobenius-Schur indicator and quantum dimension match the F symbol.", "quantifier": "every N (even for the second kind), every n and all sectors", "why_tests_cant": "The family is infinite in N and n; numerical tests check a handful with tolerances.", "anchors": ["src/symmetries/factors/zn_anyon_category.cpp", "src/symmetries/factors/zn_anyon_category2.cpp", "src/symmetries/factors/quantum_double_zn_anyon_category.cpp"]}
{"id": "C09", "title": "Fibonacci category is a unitary braided fusion category", "statement": "The fusion rules, F, R and C symbols of FibonacciAnyonCategory satisfy associativity of fusion, the pentagon and hexagon equations exactly, F is unitary, and the tabulated C symbols equal the R/F composition, for both handedness choices.", "quantifier": "all combinations of sectors, exactly (not up to floating point tolerance)", "why_tests_cant": "Tests compare floating point approximations with a tolerance; here the identity is over an exact number field.", "anchors": ["src/symmetries/factors/fibonacci_anyon_category.cpp"]}
{"id": "C10", "title": "Ising category is a unitary braided fusion category with consistent C symbols", "statement": "The F and R symbols of IsingAnyonCategory(nu) satisfy pentagon and hexagon for every odd nu, F is unitary, the Frobenius-Schur indicator agrees with F, and the C symbol equals the R/F composition.", "quantifier": "all odd nu and all sectors", "why_tests_cant": "An infinite family of nu, and exactness.", "anchors": ["src/symmetries/factors/ising_anyon_category.cpp", "src/symmetries/base_symmetry.cpp"]}
{"id": "C11", "title": "SU(2) fusion rules", "statement": "SU2 fusion_outcomes(a, b) lists each c with |a-b| <= c <= a+b and c+a+b even exactly once in increasing order, can_fuse_to agrees with it, dimensions add up (sum of dim c = dim a * dim b), fusion is commutative and associative in multiplicities, and every sector is self dual.", "quantifier": "all non-negative (doubled) spins", "why_tests_cant": "Unbounded spins.", "anchors": ["src/symmetries/factors/su2.cpp", "include/cyten/symmetries/styles.h"]}
{"id": "C12", "title": "SU(2)_k fusion rules", "statement": "SU2_kAnyonCategory(k) fusion outcomes are the truncated Clebsch-Gordan series, closed in 0..k, commutative, with unit and self-dual, and associative: for all a,b,c,d the number of e with N_ab^e N_ec^d equals the number of f with N_bc^f N_af^d.", "quantifier": "every level k and all sectors", "why_tests_cant": "Unbounded k.", "anchors": ["src/symmetries/factors/su2_k_anyon_category.cpp"]}
{"id": "C13", "title": "SU(N) sectors, duals and dimensions", "statement": "A sector of SUNSymmetry is valid iff it is a normalised non-increasing weight; dual_sector of a valid sector is valid, dual_sector is an involution, fixes the trivial sector, and the dimension of a sector equals that of its dual and is the Weyl dimension formula.", "quantifier": "every N and every valid weight", "why_tests_cant": "Unbounded N and weights.", "anchors": ["src/symmetries/factors/sun.cpp"]}
{"id": "C14", "title": "Product symmetry acts factor-wise", "statement": "For a product Symmetry, fusion_outcomes, dual_sector, n_symbol, sector_dim, validity, and the F/R/C symbols of a concatenated sector are given by the factors; in particular the product of factors that satisfy the fusion-ring laws satisfies them.", "quantifier": "every list of factors and all sectors", "why_tests_cant": "Any number and kind of factors.", "anchors": ["src/symmetries/symmetry.cpp:Symmetry", "src/symmetries/fusion_symbol.cpp:kron"]}
{"id": "C15", "title": "Symmetry equivalence check", "statement": "Symmetry.is_equivalent_to / equals decide whether two products have the same factors up to the library's factor-equivalence, i.e. the result is reflexive, symmetric and transitive and does not depend on the matching order.", "quantifier": "every pair/triple of products", "why_tests_cant": "Unbounded number of factors.", "anchors": ["src/symmetries/symmetry.cpp:Symmetry::is_equivalent_to,Symmetry::equals"]}
{"id": "C16", "title": "Braiding category SU(3)_3 data is consistent", "statement": "SU3_3AnyonCategory: fusion multiplicities are associative, the F symbols are unitary and satisfy the pentagon equation, R satisfies the hexagon equation, exactly.", "quantifier": "all sectors and multiplicity labels", "why_tests_cant": "Exactness; more than 10^4 equations.", "anchors": ["src/symmetries/factors/su3_3_anyon_category.cpp"]}
{"id": "C17", "title": "Enumeration of fusion trees is complete, duplicate free and indexed consistently", "statement": "fusion_trees(uncoupled, coupled): iterating yields every allowed fusion tree exactly once, len() equals the number of yielded trees, and index(t) returns the position of t in the iteration.", "quantifier": "every symmetry (any fusion rule), any number of uncoupled sectors", "why_tests_cant": "Unbounded number of legs and arbitrary fusion rules.", "anchors": ["src/symmetries/trees.cpp:fusion_trees"]}
{"id": "C18", "title": "Splitting and inserting fusion trees are inverse", "statement": "FusionTree.split(n) followed by FusionTree.insert reproduces the tree; extending a tree at the bottom and removing the bottom vertex are inverse; both preserve validity.", "quantifier": "every valid tree and split position", "why_tests_cant": "Unbounded tree depth.", "anchors": ["src/symmetries/trees.cpp:FusionTree::split,insert,extended,split_bottom_vertex"]}
{"id": "C19", "title": "Fusion tree ordering is a strict total order compatible with equality", "statement": "FusionTree operator< is irreflexive, transitive and total, and two trees are incomparable iff they are equal, so that sorted maps of trees neither lose nor duplicate keys.", "quantifier": "every pair/triple of trees of one symmetry", "why_tests_cant": "Infinite set of trees.", "anchors": ["src/symmetries/trees.cpp:FusionTree::operator<,operator=="]}
{"id": "C20", "title": "Braiding a fusion tree is inverted by the opposite braid", "statement": "Overbraiding neighbouring legs j, j+1 of a fusion tree and then underbraiding the same pair gives back the original tree (as linear combination), for any symmetry whose R and C symbols are unitary.", "quantifier": "every tree, every j", "why_tests_cant": "Unbounded tree depth.", "anchors": ["src/symmetries/trees.cpp:FusionTree::braid"]}
{"id": "C21", "title": "Sparse mappings compose like matrices", "statement": "SparseMapping.pre_compose is the matrix product of the represented linear maps, is associative, and identity mappings are neutral; pruning only removes entries below the tolerance.", "quantifier": "every pair/triple of mappings", "why_tests_cant": "Unbounded supports.", "anchors": ["include/cyten/tools/mappings.h:SparseMapping,IdentityMapping"]}
{"id": "C22", "title": "permute_legs instructions realise the requested leg permutation", "statement": "PermuteLegsInstructionEngine.evaluate_instructions never trips its internal checks and the emitted braid/bend/twist instructions, executed one after the other on the leg configuration, produce exactly the requested codomain_idcs and domain_idcs. BraidChiralityUnspecifiedError is raised exactly if the braid is not symmetric and two legs that have to pass each other have equal or missing levels; every crossing has the leg with the higher level on top. For symmetries with one-dimensional sectors the resulting phase depends only on the initial and final leg order and levels (right bends), so permuting in two steps equals permuting at once; a left bend differs by the twist of the bent legs. Leg pipes move as blocks.", "quantifier": "any numbers of codomain/domain legs, any target bipartition and order, any bend_right choice, any levels, any bicharacter and any charges obeying the charge rule, any pipes", "why_tests_cant": "Unbounded leg numbers, exponentially many configurations.", "anchors": ["src/backends/fusion_tree_permute.cpp:PermuteLegsInstructionEngine", "src/backends/fusion_tree_backend.cpp:FusionTreeBackend::permute_legs"]}
{"id": "C23", "title": "sectors_of_basis inverts from_basis", "statement": "ElementarySpace.from_basis(symmetry, sectors).sectors_of_basis() == sectors, whenever from_basis accepts the input; it rejects exactly those inputs where some sector does not occur a multiple of its dimension times.", "quantifier": "every list of sectors", "why_tests_cant": "Holds for unboundedly many inputs; a test samples finitely many arrays / charges.", "anchors": ["src/symmetries/spaces.cpp:ElementarySpace::from_basis,sectors_of_basis"]}
{"id": "C24", "title": "from_defining_sectors keeps the basis", "statement": "from_defining_sectors(sectors, multiplicities, basis_perm): the sector of each public basis index is preserved, duplicates are merged, the resulting defining sectors are strictly sorted, multiplicities per sector add up and the stored basis permutation is a permutation.", "quantifier": "every (unsorted, non-unique) sector list", "why_tests_cant": "Holds for unboundedly many inputs; a test samples finitely many arrays / charges.", "anchors": ["src/symmetries/spaces.cpp:ElementarySpace::from_defining_sectors"]}
{"id": "C25", "title": "parse_index and idx_to_sector agree with sectors_of_basis", "statement": "For every valid public index i, idx_to_sector(i) == sectors_of_basis()[i], and parse_index(i) = (s, m) where the internal position of i is slices[s][0]+m and m is smaller than the number of states in that sector; negative indices count from the end and out-of-range indices raise.", "quantifier": "every space and every index", "why_tests_cant": "Holds for unboundedly many inputs; a test samples finitely many arrays / charges.", "anchors": ["src/symmetries/spaces.cpp:ElementarySpace::parse_index,idx_to_sector"]}
{"id": "C26", "title": "take_slice selects the masked basis states", "statement": "ElementarySpace.take_slice(mask).sectors_of_basis() is sectors_of_basis() restricted to the True entries of mask, in order, and the internal projection is again a plain mask.", "quantifier": "every space and every mask that keeps or discards whole multiplets", "why_tests_cant": "Holds for unboundedly many inputs; a test samples finitely many arrays / charges.", "anchors": ["src/symmetries/spaces.cpp:ElementarySpace::take_slice"]}
{"id": "C27", "title": "direct_sum concatenates bases", "statement": "direct_sum(V, W, ...).sectors_of_basis() is the concatenation of the sectors_of_basis and the multiplicity of each sector is the sum of multiplicities.", "quantifier": "every list of spaces of one symmetry and one duality", "why_tests_cant": "Holds for unboundedly many inputs; a test samples finitely many arrays / charges.", "anchors": ["src/symmetries/spaces.cpp:ElementarySpace::direct_sum"]}
{"id": "C28", "title": "Changing duality does not change the space", "statement": "with_opposite_duality (as_bra_space/as_ket_space/with_is_dual) flips is_dual but preserves sectors_of_basis and all sector multiplicities; the dual of the dual is equal to the original space.", "quantifier": "every elementary space", "why_tests_cant": "Holds for unboundedly many inputs; a test samples finitely many arrays / charges.", "anchors": ["src/symmetries/spaces.cpp:ElementarySpace::with_opposite_duality,dual_es"]}
{"id": "C29", "title": "Isomorphism, subspace and common subspace", "statement": "is_isomorphic_to holds iff both spaces have the same multiplicity for every sector; is_subspace_of holds iff every sector multiplicity is at most that of the other; from_largest_common_subspace has for every sector the minimum of the multiplicities, and is a subspace of each argument.", "quantifier": "every pair/list of spaces, regardless of their internal sector order", "why_tests_cant": "Holds for unboundedly many inputs; a test samples finitely many arrays / charges.", "anchors": ["src/symmetries/spaces.cpp:Space::is_isomorphic_to,is_subspace_of,ElementarySpace::from_largest_common_subspace"]}
{"id": "C30", "title": "Abelian leg pipes order their basis consistently", "statement": "For an AbelianLegPipe of legs L_1..L_n the stored basis permutation is a permutation of the product dimension, and the sector of the public basis state with (C- or F-style) combined index (i_1..i_n) is the fusion of the sectors of basis states i_k of the legs.", "quantifier": "any number of legs, any multiplicities and basis permutations, either combine style and duality", "why_tests_cant": "Unbounded leg number/size.", "anchors": ["src/symmetries/spaces.cpp:AbelianLegPipe::prepare,calc_basis_perm,fusion_outcomes_perm"]}
{"id": "C31", "title": "Multiplicities of a tensor product", "statement": "The multiplicity of a sector c in a TensorProduct of spaces equals the number of (uncoupled sectors, fusion tree to c, multiplicity indices) combinations, hence the tree blocks listed by iter_tree_blocks tile each coupled block exactly: their slices are consecutive, start at 0 and end at block_size(c), and tree_block_slice(t) returns the slice that the iteration lists for t.", "quantifier": "any fusion rule, any number of factors", "why_tests_cant": "Unbounded number of legs and fusion rules.", "anchors": ["src/symmetries/spaces.cpp:calc_sectors_of_spaces,TensorProduct::iter_tree_blocks,tree_block_slice,block_size"]}
{"id": "C32", "title": "drop_symmetry preserves the dimension", "statement": "Dropping some (or all) factors of the symmetry of a space yields a space of the same dimension whose sectors are the restrictions of the original ones.", "quantifier": "every space with a droppable symmetry and every subset of factors", "why_tests_cant": "Holds for unboundedly many inputs; a test samples finitely many arrays / charges.", "anchors": ["src/symmetries/spaces.cpp:ElementarySpace::drop_symmetry,parse_inputs_drop_symmetry"]}
{"id": "C33", "title": "left_multiply and right_multiply add the factor at the ends", "statement": "TensorProduct.left_multiply(x) has factors [x, *factors], right_multiply(x) has factors [*factors, x], insert_multiply(x, pos) inserts at position pos.", "quantifier": "every product and position", "why_tests_cant": "Holds for unboundedly many inputs; a test samples finitely many arrays / charges.", "anchors": ["src/symmetries/spaces.cpp:TensorProduct::insert_multiply,left_multiply,right_multiply"]}
{"id": "C34", "title": "Leg pipes: duals and flattening", "statement": "The dual of a (nested) LegPipe is an involution; the flattened leg permutation of any nested pipe is a permutation of the flat legs and maps C-style pipes to the identity order and F-style pipes to the reversed order.", "quantifier": "every nesting of pipes", "why_tests_cant": "Unbounded nesting.", "anchors": ["src/symmetries/spaces.cpp:LegPipe::dual_leg,_flat_leg_permutation"]}
{"id": "C35", "title": "Block-sparse addition equals dense addition", "statement": "For the abelian backend, converting linear_combination(a, v, b, w) to a dense array gives a*dense(v) + b*dense(w), and the result again has strictly sorted block indices.", "quantifier": "every pair of block-sparse tensors over the same legs with entries in a commutative ring", "why_tests_cant": "Unbounded blocks and shapes.", "anchors": ["src/backends/abelian.cpp:AbelianBackend::linear_combination,to_dense_block"]}
{"id": "C36", "title": "Block-sparse composition equals dense tensor contraction", "statement": "dense(compose(a, b)) is the contraction of dense(a) and dense(b) over all domain legs of a / codomain legs of b, when both satisfy the charge rule; the result has strictly sorted unique block indices and satisfies the charge rule.", "quantifier": "every pair of composable block-sparse tensors with at least one leg between them (composing two scalars raises, recorded as a refuted case), commutative semiring entries", "why_tests_cant": "Unbounded.", "anchors": ["src/backends/abelian.cpp:abelian_compose_worker"]}
{"id": "C37", "title": "Block-sparse permute_legs, outer, inner and traces match the dense operations", "statement": "dense(permute_legs(a)) is the axis permutation of dense(a); dense(outer(a,b)) is the outer product; inner(a,b) is the full contraction; trace_full and partial_trace are the (partial) traces of dense(a).", "quantifier": "all block-sparse tensors, any number of legs (inner of two tensors without legs raises, recorded as a refuted case)", "why_tests_cant": "Unbounded.", "anchors": ["src/backends/abelian.cpp:permute_legs,outer,inner,trace_full,partial_trace"]}
{"id": "C38", "title": "combine_legs and split_legs are inverse and match dense reshapes", "statement": "split_legs after combine_legs restores the tensor; in dense form combining is the reshape of the axes with the basis permutation of the pipe.", "quantifier": "all block-sparse tensors, any grouping", "why_tests_cant": "Unbounded.", "anchors": ["src/backends/abelian.cpp:combine_legs,split_legs"]}
{"id": "C39", "title": "get_element agrees with the dense array", "statement": "get_element(a, idcs) equals to_dense_block(a)[idcs] for all valid indices, including zero for missing blocks.", "quantifier": "every tensor and index tuple", "why_tests_cant": "Unbounded.", "anchors": ["src/backends/abelian.cpp:get_element,to_dense_block,src/symmetries/spaces.cpp:parse_index"]}
{"id": "C40", "title": "Conversion between the abelian and the fusion tree backend is lossless", "statement": "Converting a symmetric tensor from the abelian to the fusion-tree backend, or back, succeeds and keeps every number: the entry for given sectors and multiplicity indices on the legs is the entry of the coupled-sector matrix at the row and column given by the slices TensorProduct.forest_block_slice reports. Converting there and back returns the same dense tensor, and the same coupled-sector matrices in the other direction.", "quantifier": "every abelian symmetry, all codomains and domains with at least one leg (no pipes), all data of either backend", "why_tests_cant": "Ranges over unboundedly many legs, sectors and multiplicities; offsets accumulate over loops, so an error shows only for particular combinations.", "anchors": ["src/tensors/helpers.cpp:_convert_abelian_to_FT,_convert_FT_to_abelian"]}
{"id": "C41", "title": "Singular value truncation respects its constraints", "statement": "The mask returned by the truncation selects a suffix of the values sorted by weight (never drops a heavier value while keeping a lighter one), keeps at least one value, at most chi_max and at least chi_min values when these are compatible, and the reported error and norm are the sums of the squared discarded and kept weights.", "quantifier": "every list of singular values and every parameter combination", "why_tests_cant": "Continuous parameter space.", "anchors": ["src/backends/tensor_backend.cpp:TensorBackend::_truncate_singular_values_selection", "cyten/tools/misc.py:combine_constraints"]}
{"id": "C42", "title": "Combined leg labels split back", "statement": "_split_leg_label(_combine_leg_labels(labels)) returns labels for every list of labels a tensor can carry.", "quantifier": "every list of (optional) leg labels", "why_tests_cant": "Infinitely many strings.", "anchors": ["src/tensors/labels.cpp:_combine_leg_labels,_split_leg_label"]}
{"id": "C43", "title": "Dual labels are an involution", "statement": "Taking the dual label twice gives the label back, also for combined (nested) labels.", "quantifier": "every label", "why_tests_cant": "Infinitely many strings.", "anchors": ["src/tensors/labels.cpp:_dual_leg_label"]}
{"id": "C44", "title": "Label bookkeeping of a tensor stays consistent", "statement": "After any sequence of set_label / set_labels / relabel operations the label->index lookup agrees with the label list, no non-None label occurs twice, and a failed operation reports an error.", "quantifier": "every history of label operations", "why_tests_cant": "Unbounded histories.", "anchors": ["src/tensors/labels.cpp:LabelledLegs"]}
{"id": "C45", "title": "Cost polynomials", "statement": "Multiplication of cost monomials/polynomials is commutative and associative, evaluation is a homomorphism up to dropping negligible terms, and simplification keeps exactly the maximal terms.", "quantifier": "all polynomials", "why_tests_cant": "Infinite algebra.", "anchors": ["src/tools/cost_polynomials.cpp"]}
{"id": "C46", "title": "Common dtype is a least upper bound", "statement": "dtype::common returns a dtype to which every input can be promoted (precision and complexness at least those of each input), is independent of the order of the inputs and idempotent.", "quantifier": "all non-empty lists of dtypes", "why_tests_cant": "Unbounded lists.", "anchors": ["src/block_backend/dtypes.cpp"]}
{"id": "C47", "title": "Config option validation", "statement": "After any sequence of config updates from dicts, files and environment variables, the options always satisfy their documented bounds, an update with an invalid value raises (or warns) and does not change that option.", "quantifier": "every history of updates", "why_tests_cant": "Unbounded histories.", "anchors": ["src/config.cpp:CytenConfig"]}
{"id": "C48", "title": "Backend factory returns one backend per configuration", "statement": "get_backend returns the same object for the same (tensor backend, block backend) pair for the life of the process, and the returned backend supports the symmetry it was requested for.", "quantifier": "every sequence of get_backend calls", "why_tests_cant": "Histories.", "anchors": ["src/backends/backend_factory.cpp:get_backend"]}
{"id": "C49", "title": "HDF5 save/load round trip with shared and cyclic references", "statement": "save_to_hdf5(h5group, obj) followed by load_from_hdf5 returns an object graph equal to the one saved: None, numbers, strings, arrays, lists, tuples, sets, dicts, ranges, functions, classes and Hdf5Exportable instances, where the same objects are shared and cycles are closed in the same way; saving under a new name does not change the other contents of the file; masked arrays keep mask, values and fill value; objects saved through __reduce__ keep their list items.", "quantifier": "every object graph (any size, with sharing and cycles) of supported types, every order in which h5py lists the names of a group, every file that does not contain the name yet", "why_tests_cant": "Object graphs are unbounded and sharing/cycles interact with the memo in every shape; tests try a handful of nested literals.", "anchors": ["cyten/tools/hdf5_io.py:Hdf5Saver.save,create_group_for_obj,memorize_save,save_iterable,save_dict_content,save_masked_array,save_reduce", "cyten/tools/hdf5_io.py:Hdf5Loader.load,load_list,load_tuple,load_general_dict,load_simple_dict,load_hdf5exportable,load_masked_array,load_reduce", "cyten/tools/hdf5_io.py:save_to_hdf5,load_from_hdf5"]}
{"id": "C50", "title": "Linear operators act like their matrix", "statement": "For sums, shifts, projections and direct sums of linear operators: matvec is linear and equals applying to_tensor where that exists, adjoint() represents the adjoint map, a projected operator with orthonormal ortho_vecs is P H P + penalty (1-P) with the ortho_vecs as eigenvectors with eigenvalue penalty and the rest of the spectrum unchanged, unwrapped returns the innermost operator, and gram_schmidt returns an orthonormal list spanning the inputs up to rcond.", "quantifier": "every composition of operator wrappers, every list of vectors, every dimension", "why_tests_cant": "Unbounded nesting and arbitrary vectors.", "anchors": ["src/tensors/sparse.cpp: matvec/to_tensor/adjoint of all LinearOperator classes, LinearOperatorWrapper::unwrapped, gram_schmidt", "src/tensors/direct_sum.cpp", "pybind/tensors/py_sparse.cpp"]}
{"id": "C51", "title": "Fermionic braiding is a consistent symmetric braiding", "statement": "For fermion parity and fermion number the R symbol is -1 exactly for two odd sectors, satisfies both hexagon equations, squares to one, the C symbol is the composition of R and F moves, and the topological twist is R(a,a), is the same for a sector and its dual and satisfies the ribbon equation.", "quantifier": "all valid sectors (any fermion number in the int16 range, including those whose fusion wraps around)", "why_tests_cant": "infinitely many (2^16 per leg) charges and triples of charges; tests sample a few random sectors", "anchors": ["src/symmetries/factors/fermion_parity.cpp:FermionParity::_r_symbol,_c_symbol,topological_twist", "src/symmetries/factors/fermion_number.cpp:FermionNumber::_r_symbol,_c_symbol,topological_twist"]}
{"id": "C52", "title": "Leg permutation, combination and splitting put legs and labels where documented", "statement": "permute_legs(tensor, codomain, domain) is accepted exactly if every leg is listed once, and the result has the listed legs and labels in that order (domain right to left); the inverse arrangement restores the tensor. move_leg moves one leg and keeps the order of all others. combine_legs(tensor, *which_legs, pipe_dualities, pipes) replaces each group by one pipe at the place of its first leg, which_legs[i] has pipe_dualities[i] and pipes[i], and a leg in two groups is rejected. split_legs replaces each chosen pipe by its legs and labels, rejects legs that are no pipes and undoes combine_legs. combine_to_matrix returns a tensor with one codomain and one domain leg.", "quantifier": "every tensor, leg arrangement, list of groups, dualities and given pipes", "why_tests_cant": "Unboundedly many leg numbers, groupings and orders; the documented correspondence of pipe_dualities fails only for groups that are not listed in leg order.", "anchors": ["src/tensors/ops_legs.cpp: permute_legs_py, move_leg_py, combine_legs_py, combine_to_matrix_py, split_legs_py", "src/backends/tensor_backend.cpp: TensorBackend::make_pipe", "src/backends/abelian.cpp: AbelianBackend::make_pipe", "pybind/tensors/py_planar.cpp (documentation of combine_legs)"]}
{"id": "C53", "title": "truncated_svd normalises the singular values as requested", "statement": "truncated_svd(tensor, normalize_to=v) returns singular values whose norm is v.", "quantifier": "every list of singular values and every truncation parameter", "why_tests_cant": "Continuous parameter space; the defect is invisible when nothing is truncated.", "anchors": ["src/tensors/decompositions.cpp:truncated_svd_py", "src/backends/tensor_backend.cpp:TensorBackend::_truncate_singular_values_selection"]}
{"id": "C54", "title": "Masks of the abelian backend select exactly the states marked true, in every operation", "statement": "For every abelian symmetry, leg (with any basis permutation) and vector of booleans over its basis: the mask made from the vector has a valid small leg with one state per true and the orientation of the large leg, reading the vector back gives the same vector, and the small leg is the one that ElementarySpace.take_slice computes; a mask is determined by its vector; elementwise logic on masks, conversion from and to diagonal tensors give the mask or diagonal of the elementwise result; single entries and the full matrix are one exactly at (x-th small state, x-th kept state); applying a mask to any leg of any tensor selects the entries of the kept states, enlarging puts zeros at the others, enlarging then applying is the identity and applying then enlarging zeroes exactly the dropped states; applying a mask to a diagonal tensor selects from its diagonal; adjoint and transpose exchange projection and inclusion.", "quantifier": "all abelian symmetries (abelian group laws), all legs with any basis permutation, all boolean vectors, all tensors with any stored blocks, any leg of codomain or domain, all scalars", "why_tests_cant": "sectors without any kept state vanish from the small leg and shift all sector indices, blocks may be missing in the tensor or in the mask, and the basis permutation of the small leg is a ranking; all patterns of these have to be right", "anchors": ["src/backends/abelian.cpp: mask_from_block, mask_to_block, mask_binary_operand, mask_unary_operand, diagonal_to_mask, mask_to_diagonal, mask_dagger, mask_transpose, _mask_contract, mask_contract_large_leg, mask_contract_small_leg, apply_mask_to_DiagonalTensor, full_data_from_mask, get_element_mask", "src/block_backend/numpy.cpp: apply_mask, enlarge_leg, block_from_mask", "src/block_backend/block_backend.cpp: get_block_mask_element"]}
{"id": "C55", "title": "Lanczos returns the lowest Ritz pair and the Krylov evolution", "statement": "For a hermitian operator H, lanczos(H, psi0, options) returns (E0, psi, N) with psi normalised, in the span of psi0, H psi0, ..., H^(N-1) psi0, E0 = <psi|H|psi> the minimum of the energy over that space and H psi - E0 psi orthogonal to it, for every N_cache, reortho and E_shift; the stopping rule (N_min, P_tol, min_gap, E_tol, cutoff) holds when N < N_max. LanczosEvolution.run(delta) returns exp(delta H) psi0 within the Krylov space, exactly if that space is invariant, and may be called repeatedly. Calling lanczos twice with the same arguments gives the same result.", "quantifier": "every inner product space, hermitian operator, starting vector and option values", "why_tests_cant": "Continuous inputs of unbounded dimension and all cache sizes; tests use a few random matrices.", "anchors": ["src/tensors/krylov_based.cpp: KrylovBased::KrylovBased, _calc_result_full, _to_cache, LanczosGroundState::*, LanczosEvolution::*, lanczos", "pybind/tensors/py_krylov_based.cpp"]}
{"id": "C56", "title": "GMRES solves linear systems", "statement": "GMRES(A, x, b, options).run() returns a vector, its relative residual |b - A x| / |b| and the history of the run. The residual is never larger than that of the initial guess; every cycle minimises it over x + Krylov space, the listed errors are these minima; the result is below `res` unless all `restart` cycles of N_max steps were used.", "quantifier": "every linear operator on every inner product space, every right-hand side, starting vector and choice of N_min, N_max, restart and res", "why_tests_cant": "Minimality is a statement about all vectors of the Krylov space, for all operators; the failures only occur for special inputs (exact breakdown, complex Hessenberg entries).", "anchors": ["src/tensors/krylov_based.cpp: GMRES"]}
{"id": "C57", "title": "Arnoldi finds the requested Ritz pairs of any linear operator; ArnoldiEvolution computes exp(delta H) psi", "statement": "Arnoldi(H, psi, options).run() returns eigenvalue/eigenvector pairs of H compressed to the Krylov space span(psi, H psi, ..., H^(N-1) psi): normalised, sorted as requested by `which`, none of the other Ritz values comes earlier; E_shift does not change the values; the iteration stops early only if the residuals are below the cutoff, or the first residual is small compared to the gaps. ArnoldiEvolution.run(delta, normalize) returns exp(delta H) psi within the Krylov space, normalised only on request, and may be called repeatedly.", "quantifier": "every linear (also non-hermitian) operator on every inner product space, every starting vector, all options, every shift, every complex delta, every sequence of runs", "why_tests_cant": "The Galerkin condition and the ordering are statements about all vectors of the Krylov space and all Ritz values, for all operators; the wrong results only occur for special histories (second run, early breakdown, defective operators).", "anchors": ["src/tensors/krylov_based.cpp: Arnoldi", "src/tensors/krylov_based.cpp: ArnoldiEvolution", "src/tensors/krylov_based.cpp: argsort_which"]}
{"id": "C58", "title": "Linear algebra on tensors of the fusion tree backend acts sector by sector with quantum dimension weights", "statement": "For tensors of the fusion tree backend and any symmetry: compose multiplies the matrices of equal coupled sectors; dagger, scalar multiplication and linear combinations act entrywise, with missing blocks counting as zero; eye is the identity; from_sector_block_func asks for every common sector once with the right shape; inner, trace and norm sum over the coupled sectors weighted with their quantum dimensions, inner(A, B) is the trace of dagger(A) B; diagonal tensors: conversion to and from full tensors, elementwise functions, all, any, trace; scale_axis multiplies with the diagonal tensor on that leg. All results are well formed (blocks sorted, right shapes).", "quantifier": "every symmetry with a fusion ring (abelian, non-abelian, anyonic), all codomains and domains, every set of stored blocks, all entries from a commutative semiring with conjugation", "why_tests_cant": "Merge loops over sorted block indices, missing blocks and re-sorting depend on which sectors are present on both sides; tests use a few symmetries with few sectors, and the same dtype for both arguments.", "anchors": ["src/backends/fusion_tree_backend.cpp: compose, dagger, mul, linear_combination, eye_data, from_sector_block_func, inner, trace_full, norm", "src/backends/fusion_tree_backend.cpp: diagonal_elementwise_unary, diagonal_elementwise_binary, diagonal_to_block, diagonal_from_sector_block_func, diagonal_all, diagonal_any, diagonal_tensor_trace_full", "src/backends/fusion_tree_backend.cpp: act_block_diagonal_square_matrix, scale_axis"]}
{"id": "C59", "title": "Decompositions of the fusion tree backend: factors are isometric and multiply back to the tensor", "statement": "qr, lq, svd and eigh of a tensor of the fusion tree backend return well formed tensors on the new leg (largest common subspace of codomain and domain, with the requested duality; for eigh a copy of the domain) such that Q R = A, L Q = A, U S V = A, V W dagger(V) = A, and Q, U, dagger(V) are isometries, also in the coupled sectors for which A stores no block; singular values and eigenvalues keep the property promised for the blocks (real, non negative).", "quantifier": "every symmetry with a fusion ring, all codomains and domains, every set of stored blocks, every block level decomposition that keeps its contract on those blocks, both dualities of the new leg", "why_tests_cant": "The loops count the common sectors and the stored blocks at the same time; an error shows only for special patterns of missing blocks and sectors that exist on one side only.", "anchors": ["src/backends/fusion_tree_backend.cpp: qr, lq, svd, eigh", "src/tensors/helpers.cpp: _decomposition_prepare", "src/symmetries/spaces.cpp: from_largest_common_subspace, as_ElementarySpace"]}
{"id": "C60", "title": "Braids, bends and twists of fusion tree tensors: permute_legs acts tree by tree and never mixes up multiplicities", "statement": "apply_instructions and permute_legs of the fusion tree backend succeed whenever the instruction engine accepts the request, return a well formed tensor on the permuted legs (duals of those that change sides), and every entry of the result, for a splitting tree X and a fusion tree Y with multiplicity indices, is the sum over all pairs of trees of the old tensor of the coefficient with which the sequence of single tree moves (braid, twist, bend) maps that pair to (X, Y), times the old entry at the indices that travel with the legs. It makes no difference whether the mapping of pairs or the separate mappings for the two sides are used. For symmetries with one-dimensional sectors and trivial associator each entry is one old entry times the exchange phases of the legs; for bosonic group symmetries permute_legs just permutes.", "quantifier": "every symmetry with a fusion ring and any numbers for its F, R, B symbols, twists and dimensions; all codomains and domains, also with pipes; every executable sequence of instructions or accepted permute_legs request; every set of stored blocks; real and complex dtypes as verify_dtype allows", "why_tests_cant": "The implementation threads four index sets (trees, slices in the blocks, axes inside of the slices, stored blocks) through sparse mappings that are pruned and composed; errors show only for particular combinations of multiplicities, missing blocks and leg orders.", "anchors": ["src/backends/fusion_tree_mapping.cpp: TreePairMapping, FactorizedTreeMapping, transform_tensor, compose_*", "src/backends/fusion_tree_backend.cpp: apply_instructions, permute_legs", "src/block_backend/block_backend.cpp: permute_combined_matrix, permute_combined_idx", "src/symmetries/trees.cpp: braid, twist, bend_leg", "include/cyten/tools/mappings.h"]}
{"id": "C61", "title": "Braids, bends and twists of fusion trees and tensors can be undone; quantum dimensions, B symbols and topological twists", "statement": "For a symmetry whose F and R symbols form a unitary braided category, the numbers derived from them by the code are consistent: qdim is 1 for the trivial sector, equal for dual sectors and positive, frobenius_schur is +-1 and equal for dual sectors, b_symbol(a,b,c) is a unitary matrix times sqrt(d_c/d_a) and inverse to the B symbol of the opposite bend up to the Frobenius-Schur indicator, topological_twist(a) has unit modulus and equals frobenius_schur(a) / R(a, dual(a); 1). A bend of a leg of a pair of fusion trees followed by the opposite bend is the identity, a twist multiplies a tree by the twist of the sector that the twisted legs fuse to, and the opposite twist or braid undoes a twist or braid. Consequently applying a list of leg moves to a tensor and then the opposite moves in the opposite order returns all entries of the tensor, and applying two lists of moves one after the other is the same as applying the concatenated list.", "quantifier": "all symmetries with a unitary braided category as topological data (any number of sectors and multiplicities), all legal pairs of fusion trees, all tensors, all executable lists of braids, bends and twists", "why_tests_cant": "tests sample a few trees and tensors per symmetry with floating point tolerances; the statement is about all trees, all tensors, all move lists and all categories", "anchors": ["src/symmetries/base_symmetry.cpp:BaseSymmetry::qdim", "src/symmetries/base_symmetry.cpp:BaseSymmetry::frobenius_schur", "src/symmetries/base_symmetry.cpp:BaseSymmetry::_b_symbol", "src/symmetries/base_symmetry.cpp:BaseSymmetry::topological_twist", "src/symmetries/trees.cpp:FusionTree::bend_leg", "src/symmetries/trees.cpp:FusionTree::twist", "src/symmetries/trees.cpp:FusionTree::braid", "src/backends/fusion_tree_backend.cpp:apply_instructions"]}
{"id": "C62", "title": "permute_legs, braids, bends and twists preserve the inner product and the norm of tensors", "statement": "For two tensors A, B with the same legs, inner(permute_legs(A, ...), permute_legs(B, ...)) = inner(A, B) and norm(permute_legs(A, ...)) = norm(A), for every request that permute_legs accepts, and more generally for every list of braids, bends and twists that can be carried out on the legs. On single pairs of fusion trees: the matrix elements of a move and of the opposite move are adjoint, where a pair of trees has the weight qdim(coupled sector). This holds whenever the topological data of the symmetry is unitary, in particular for the numbers that cyten derives from the F and R symbols of a unitary braided category with finitely many sectors, and for groups with a phase as braid.", "quantifier": "all symmetries with unitary topological data, all tensors with arbitrary legs and pipes, all requests accepted by permute_legs and all executable instruction lists, all pairs of fusion trees", "why_tests_cant": "tests compare norms for a handful of random tensors within a tolerance; the statement is an exact identity for all tensors, legs, permutations, levels and all unitary categories", "anchors": ["src/backends/fusion_tree_backend.cpp:FusionTreeBackend::inner", "src/backends/fusion_tree_backend.cpp:FusionTreeBackend::norm", "src/backends/fusion_tree_backend.cpp:FusionTreeBackend::permute_legs", "src/backends/fusion_tree_backend.cpp:apply_instructions", "src/symmetries/trees.cpp:FusionTree::bend_leg", "src/symmetries/base_symmetry.cpp:BaseSymmetry::_b_symbol", "src/symmetries/base_symmetry.cpp:BaseSymmetry::qdim"]}
{"id": "C63", "title": "qr, lq, svd and eigh of the abelian backend", "statement": "For a charge conserving tensor with one codomain and one domain leg (any duality, any block structure, blocks missing or present), qr returns Q, R with A = Q R and orthonormal columns of Q, lq returns L, Q with A = L Q and orthonormal rows of Q, svd returns U, S, Vh with A = U S Vh, orthonormal columns of U and rows of Vh and singular values as good as those of the matrix routine, eigh of a hermitian A returns W, V with A = V W dagger(V) and orthonormal columns of V, as identities of the dense arrays. The factors satisfy the charge rule and the data invariants, and the new leg has in each sector the minimum of the two multiplicities.", "quantifier": "every abelian symmetry, every pair of legs, either duality of each leg and of the new leg, every set of stored blocks, every matrix routine that fulfils its documented contract", "why_tests_cant": "tests run a few random block structures; the running index, the searches on dual legs, the re-sorting of blocks and the identity blocks for missing blocks have to be right for every combination of sectors and dualities", "anchors": ["src/backends/abelian.cpp:AbelianBackend::qr", "src/backends/abelian.cpp:AbelianBackend::lq", "src/backends/abelian.cpp:AbelianBackend::svd", "src/backends/abelian.cpp:AbelianBackend::eigh", "src/backends/abelian.cpp:AbelianBackend::diagonal_tensor_to_block", "src/tensors/decompositions.cpp:qr", "src/tensors/decompositions.cpp:svd", "src/tensors/decompositions.cpp:eigh"]}
{"id": "C64", "title": "Diagonal tensors of the abelian backend behave like the vector of their diagonal entries", "statement": "For every abelian symmetry, leg and block-sparse data of a diagonal tensor (with any subset of the sectors stored): elementwise functions, elementwise binary operations, conversion from a vector, from a function and from or to a matrix, trace, reductions (max, min), all, any, reading one entry by its public index, and scale_axis (multiplying one leg of an arbitrary tensor) give exactly what the corresponding operation on the vector of all diagonal entries gives; functions of the square blocks of a matrix act on every sector, including the sectors that are not stored. With partial_zero_is_zero = true the binary operation is wrong when a sector is stored only by the second tensor.", "quantifier": "all abelian symmetries (abelian group laws), all legs, all well-formed block-sparse diagonal data with any stored sectors, all scalars (any semiring where sums are used), all entry functions", "why_tests_cant": "which sectors are stored is data dependent; the merge loops over stored and missing sectors have to be right for every pattern of missing blocks, and the bug found needs a particular pattern", "anchors": ["src/backends/abelian.cpp: diagonal_elementwise_unary, diagonal_elementwise_binary, diagonal_from_block, diagonal_from_sector_block_func, full_data_from_diagonal_tensor, diagonal_tensor_from_full_tensor, diagonal_tensor_trace_full, reduce_DiagonalTensor, diagonal_all, diagonal_any, get_element_diagonal, scale_axis, act_block_diagonal_square_matrix", "src/tensors/diagonal_tensor.cpp: _binary_operand, _elementwise_binary, _elementwise_unary"]}
{"id": "C65", "title": "The operators of the model sites satisfy their defining algebra for every spin, number of species, occupation cutoff and clock order", "statement": "SpinSite(S): for every half-integer S the three components of the spin vector are hermitian, satisfy [S_x,S_y] = i S_z and cyclic, S^2 = S(S+1), S_z is diagonal with the values -S..S, Sp and Sm are the ladder operators, and the charge of a basis state is 2 S_z (U(1)) or its parity. Bosonic sites: for every list of maximal occupations the basis states are exactly the occupation lists, the labels name the right states, the charges are the (total, parity, per species) particle numbers, the annihilators have the entries sqrt(n), creators are their adjoints, number operators / squares / parities / dN are the diagonal operators of the occupations, and the canonical commutation relations hold except at the cutoff. Fermionic sites: for every number of species the operators with Jordan-Wigner strings satisfy the canonical anticommutation relations, JW is the total parity and anticommutes with them, c^dagger c = n. Spinful fermions: S_+ = c_up^dagger c_down and the spin algebra holds. Clock sites: X Z = w Z X, X^q = Z^q = 1, X, Z unitary, for every q. Negative python indices of species and states are resolved or rejected.", "quantifier": "all spins, all lists of maximal occupations, all numbers of fermionic species, all q, all conservation options, all indices", "why_tests_cant": "the tests check a handful of small spins, cutoffs and species numbers; the claim is about every size of the constructions by loops, Kronecker products and cumulative sums", "anchors": ["src/models/sites.cpp: SpinSite::prepare, SpinlessBosonSite::prepare, SpinlessFermionSite::prepare, SpinHalfFermionSite::prepare, ClockSite::prepare, leg_from_spin_symmetry", "src/models/degrees_of_freedom.cpp: SpinDOF::spin_vector_from_Sp, BosonicDOF::creation_annihilation_op_from_single_Nmax, creation_annihilation_ops_from_Nmax, OccupationDOF, FermionicDOF::get_annihilator_numpy, get_creator_numpy, Site::state_index"]}
{"id": "C66", "title": "Spin, density and clock couplings are the documented operators, hermitian and symmetric", "statement": "For every spin (or other site with spin operators), dimension and coupling constants, the dense block h[p0, p1, p1*, p0*] of spin_spin, heisenberg, aklt, chiral_3spin, spin_field, chemical_potential, onsite_interaction, density_density, clock_clock and clock_field is the operator of the documented formula (Jx SxSx + Jy SySy + Jz SzSz, J S.S, J [S.S + (S.S)^2/3], chi S_i.(S_j x S_k), - mu sum n, U/2 n^2, V n_i n_j, Jx (X_i X_j^dagger + h.c.) + ...). They are hermitian; Heisenberg, AKLT and chiral coupling commute with every component of the total spin; the blocks only connect states with equal total S_z (equal parity for general Jx, Jy), equal clock charge modulo q.", "quantifier": "all dimensions, all operator matrices (respectively all spins, occupations, species, clock orders), all real coupling constants", "why_tests_cant": "tests compare with explicit matrices for a few small spins and numbers of species", "anchors": ["src/models/couplings.cpp: spin_spin_coupling, spin_field_coupling, aklt_coupling, heisenberg_coupling, chiral_3spin_coupling, chemical_potential, onsite_interaction, density_density_interaction, clock_clock_coupling, clock_field_coupling", "pybind/models/py_couplings.cpp: documented formulas"]}
{"id": "C67", "title": "Hopping and pairing are the documented second-quantized operators, including Jordan-Wigner signs", "statement": "hopping is - t sum_{zip(species_i, species_j)} a_i^dagger a_j + h.c., pairing is Delta sum a_i^dagger a_j^dagger + h.c., onsite_pairing is Delta sum a_1^dagger a_2^dagger + h.c., with the operators of the pair of sites (bosonic or, with all strings, fermionic); hermitian; hopping conserves the particle number, pairing changes it by two; by default all species are used.  False for different sites (the operators of the second site are taken from the first), for a second species list shorter than the first (error instead of zip), and the default onsite pairing of fermions is the zero operator.", "quantifier": "all maximal occupations, numbers of species, species lists (also negative numbers), coupling constants", "why_tests_cant": "tests use one or two species and equal sites", "anchors": ["src/models/couplings.cpp: quadratic_coupling_numpy, hopping, pairing, onsite_pairing", "src/models/degrees_of_freedom.cpp: get_creator_numpy, get_annihilator_numpy"]}
{"id": "C68", "title": "Permuting the sites of a coupling braids the operator consistently; stretching pads it with identities", "statement": "Coupling.permute writes the permutation as a shortest sequence of exchanges of neighbours (every pair of sites whose order changes is exchanged exactly once), permutes sites and levels, and gives the operator braided so that the site with the higher level passes over the one with the lower level, independently of the chosen sequence of exchanges; permuting by q and then by p is permuting by the composition, the identity changes nothing, without a symmetry the dense entries are just permuted. over_braid prescribes the crossings; the call is refused exactly for non-permutations, wrong numbers of levels or over_braid entries, and sites that change order without distinct levels; repeated calls return the cached coupling. stretch_with_identities gives the tensors at their positions and identities in between, a valid coupling whose dense operator acts as the given one on its sites and as the identity on all others; wrong numbers of positions, non-ascending positions and non-matching sites are refused. False: permutations of the wrong length are not refused (the result has the wrong number of levels, or out-of-bounds access); levels are not ignored for symmetric braids.", "quantifier": "all numbers of sites, permutations, levels, over_braid lists, site and tensor types, all implementations of permute_legs that satisfy the braid relations; all positions", "why_tests_cant": "tests permute two or three sites; independence of the decomposition and the composition law need all permutations of all lengths", "anchors": ["src/models/couplings.cpp: is_permutation, adjacent_transpositions, levels_from_label_dict, Coupling::permute, Coupling::from_tensor, Coupling::to_tensor, Coupling::stretch_with_identities", "pybind/models/py_couplings.cpp: permute"]}
{"id": "C69", "title": "planar_permute_legs accepts exactly the planar rearrangements and performs them without levels and without phases", "statement": "The legs of a tensor lie on a circle: the codomain from left to right, then the domain from right to left. A request of planar_permute_legs (codomain, domain or both, no leg twice) is accepted if and only if it says enough (at least one list, and not a single empty one) and can be completed so that codomain followed by the reversed domain goes around the circle once; the completion is unique. The calls of permute_legs it makes, without levels, are never rejected for undecided crossings or missing bend directions, whether the braiding is trivial, symmetric or general, the result has exactly the requested legs in the requested order, and all crossings cancel: on every component of vanishing total charge, for every bicharacter, the phase is trivial. parse_leg_bipartition returns the given legs and the others in the order in which they follow on the circle, and raises exactly if the given legs are not contiguous on the circle (or repeated or out of range). Found: both lists empty is undefined behaviour for a tensor with legs on both sides; a list that goes around the circle twice passes the checks.", "quantifier": "all numbers of codomain and domain legs, all requests, all three kinds of braiding, all charge groups and bicharacters", "why_tests_cant": "tests use tensors with a few legs; the case distinction (winding codomain, winding domain, legs staying on one, both or no side) has a dozen branches with index arithmetic that must be right for all numbers of legs", "anchors": ["src/tensors/planar.cpp: planar_permute_legs, parse_leg_bipartition", "src/tensors/ops_legs.cpp: permute_legs (parsing of bend_right)", "src/backends/fusion_tree_permute.cpp: PermuteLegsInstructionEngine"]}
{"id": "C70", "title": "planar_partial_trace accepts exactly the planar traces; traced legs become neighbours", "statement": "planar_partial_trace accepts a list of pairs if and only if every pair has two legs, all the legs are different, no two pairs cross on the circle of legs and no pair separates two remaining legs; equivalently, if the circle of legs can be closed by joining neighbouring legs one pair after the other. With the fusion tree backend the legs are first rearranged in a planar way (an accepted request of planar_permute_legs), the pairs are renamed accordingly, and then all legs between the legs of a pair are traced. In the order of legs in which FusionTreeBackend::partial_trace evaluates the trace, the legs of every pair are neighbours on the same side of the tensor, and the remaining legs keep their order and their side; this holds for every planar trace and for every trace whose pairs are given in ascending order. False for pairs given in descending order: the pairs are sorted before the legs within the pairs are, so that e.g. partial_trace([(2, 3), (5, 0)]) evaluates the wrong pairs of legs.", "quantifier": "all numbers of codomain and domain legs, all lists of pairs of legs, both kinds of backends", "why_tests_cant": "tests trace a few pairs of small tensors; the side conditions (nested pairs, traces around the left, bends of several legs) involve all positions of all pairs", "anchors": ["src/tensors/planar.cpp: planar_partial_trace", "src/backends/fusion_tree_backend.cpp: FusionTreeBackend::partial_trace", "src/tensors/ops_algebra.cpp: partial_trace"]}
{"id": "C71", "title": "planar_contraction joins exactly the given pairs of legs and keeps the other legs in order", "statement": "planar_contraction(A, B, legs1, legs2) gives an answer only if the contraction is planar: around A the legs legs1 follow each other in some order, and their partners follow each other around B in the opposite order. Every planar contraction should be accepted, should join exactly the pairs (legs1[i], legs2[i]), and around the result the open legs of A, in their order, should be followed by those of B. Proved for all contractions except those where the code fails: it is false if all legs of B are contracted and B is bent down (error, or two legs are joined crosswise), if all legs of A are contracted but the partners do not start at the one of leg 0 (rejected), and if the contracted legs of a tensor run across the point between its last leg and leg 0 while the open legs do not lie between the contracted ones of the codomain and those of the domain, e.g. the first and the last leg of a tensor without domain (the wrong legs are contracted).", "quantifier": "all numbers of codomain and domain legs of both tensors, all lists of legs, trivial, symmetric and general braiding", "why_tests_cant": "the fifteen contraction cases of the test suite have at most four legs per tensor; the defects need particular positions of the open legs", "anchors": ["src/tensors/planar.cpp: planar_contraction", "src/tensors/planar.cpp: _planar_contraction_helper", "src/tensors/ops_algebra.cpp: compose_py", "src/tensors/ops_algebra.cpp: partial_compose_py"]}
{"id": "C72", "title": "tdot joins the given legs and returns the open legs in the documented order", "statement": "tdot(A, B, legs1, legs2) joins legs1[i] with legs2[i] for every i and nothing else, whatever the types of the tensors. The result has the open legs of A in its codomain and, as a list of legs, the open legs of A followed by those of B; it is a number if there are none; relabel1 and relabel2 rename the labels of the open legs. Naming a leg twice, or lists of different lengths, are errors; if the symmetry has trivial braids, nothing else is. Proved for SymmetricTensors, and for DiagonalTensor, Identity and Mask except where the code misses it: it is false if one leg is contracted with a Mask or DiagonalTensor A, or a Mask B, through legs with different numbers (a wrong leg is put on the other side, or an error), or with an Identity B through any leg but the only one in the domain of A (the legs of A stay where they were, and relabelled labels land on wrong legs); if both legs of an Identity are contracted with a tensor that has no other legs (error); and with relabel1 or relabel2 if the result is a number (error).", "quantifier": "all numbers of codomain and domain legs, all lists of legs, all labels and relabellings, tensors of type SymmetricTensor, DiagonalTensor, Identity or Mask; trivial, symmetric and general braiding", "why_tests_cant": "the tests with a single contracted leg use leg 1 of both tensors, where the wrong index list and the right one agree; Identity and relabelling of full contractions are not tested", "anchors": ["src/tensors/ops_algebra.cpp: tdot_py", "src/tensors/ops_legs.cpp: permute_legs_py", "src/tensors/ops_legs.cpp: bend_legs_py", "src/tensors/helpers.cpp: _compose_with_Mask", "src/tensors/helpers.cpp: _compose_SymmetricTensors"]}
{"id": "C73", "title": "Operator names of a site: products by name", "statement": "get_op of a name made of words separated by single spaces returns the product, from left to right, of the operators with these names, or reports the first word that is not an operator; a space at the end is ignored. multiply_op_names joins names such that get_op returns what multiply_operators returns for the list (products may be nested), and both give the identity for the empty list. Over the whole life of a site the names are distinct and have no spaces, 'Id' is the identity, adding an operator changes nothing that could be looked up before, and add_onsite_operator fails exactly for a taken name, a name with a space, or an operator that does not fit. valid_opname holds exactly for the operators that were added, and get_op returns them unchanged. False where the documentation says more: names separated by whitespace are accepted with a leading or doubled space (they are reported as a missing operator ''), and the joined name that multiply_op_names calls valid is valid for valid_opname (it never is).", "quantifier": "all sites built by the constructor and any sequence of add_onsite_operator calls, all names (any characters), all lists of names, any associative product", "why_tests_cant": "the tests multiply one fixed pair of operators of one site; nested products, spaces and histories of additions are not tested", "anchors": ["src/models/degrees_of_freedom.cpp: Site::get_op", "src/models/degrees_of_freedom.cpp: Site::multiply_op_names", "src/models/degrees_of_freedom.cpp: Site::multiply_operators", "src/models/degrees_of_freedom.cpp: Site::add_onsite_operator", "pybind/models/py_degrees_of_freedom.cpp"]}
{"id": "C74", "title": "planar_combine_legs gathers every group without braiding", "statement": "For disjoint groups of legs, each of neighbouring legs on the circle around the tensor and given in any order, planar_combine_legs bends legs by a planar rearrangement (no braid) such that every group is a run of neighbouring legs in ascending order, entirely in the codomain if the first leg given was in the codomain and entirely in the domain otherwise; the groups handed on name exactly the legs that were given. Nothing is bent if no group reaches around an end. A group that is not contiguous is an error. True of the code except for a group around the left end (with the first and the last leg) if one of codomain and domain is empty, or if it reaches around the right end as well without having all the legs: then memory outside an array is read, or the legs beyond the left end are not bent.", "quantifier": "all numbers of codomain and domain legs, all lists of groups, in all orders within the groups", "why_tests_cant": "the tests use six cases with three legs on each side; a group around both ends, or a tensor without domain legs, never occurs", "anchors": ["src/tensors/planar.cpp: planar_combine_legs", "src/tensors/planar.cpp: parse_leg_bipartition", "src/tensors/ops_legs.cpp: combine_legs_py"]}
