# Formal model of tenpy/cyten in Rocq (Coq 8.16.1)

The code under /repo is C++ (`src/`, `include/cyten/`) with a Python layer (`cyten/`).  The model is a shallow
embedding in Gallina: every C++/Python function that is modelled becomes a total function that mirrors its branches;
exceptions are values (`option`/`result`), mutation becomes returning the new value, loops become structural
recursion or folds.  `*Model.v` files contain definitions only, `*Spec.v` the independent specifications used in the statements,
`*Proofs*.v` lemmas, `*Props.v` the property theorems (each closed by `exact` or a short script, followed by `Print Assumptions`)
and non-vacuity examples (`Example ..._met`, concrete instances).

Naming: `Cnn_..._partial` is proved for less than the English property says (the note says what is missing);
`Cnn_..._refuted` is a theorem that the *code* (as modelled) violates the naive reading of the property, with a witness; the
corresponding positive theorem carries the hypothesis that excludes it.

## Plan and state per property

Each entry: what is modelled and how it is proved; then where it stands (theorem statements are in the named file, status and remarks as in MANIFEST.json).

### C01 Lexicographic sorting of sector arrays

*Plan*: stable insertion sort with the C++ comparator (last column first); permutation/sortedness/stability by induction.
*State*: **proved**, 3 theorems in `RowProps.v`. 

### C02 unique_sorted merges duplicates and keeps the total multiplicity

*Plan*: run-grouping of the sorted rows exactly as find_row_differences does; sum per sector by induction over the sorted list.
*State*: **proved**, 2 theorems in `RowProps.v`. 

### C03 Merge walks over sorted arrays find exactly the common rows

*Plan*: the two-pointer loops as fuelled recursion over suffixes; completeness by strong induction using sortedness.
*State*: **proved**, 5 theorems in `RowProps.v`. 

### C04 Packing block indices into strides is injective and order preserving

*Plan*: strides as running products, grid_entry as (m/stride) mod shape; mixed-radix injectivity, order and bijectivity.
*State*: **proved**, 6 theorems in `GridProps.v`. 

### C05 Permutation utilities

*Plan*: inverse, rank, bubble-sort style swap list executed on a list.
*State*: **proved**, 7 theorems in `GridProps.v`. 

### C06 Abelian group factors obey the group laws on valid sectors

*Plan*: int16 wrap written into the model (Z mod 2^16); group laws by modular arithmetic for every N.
*State*: **proved**, 13 theorems in `AbelianProps.v`. 

### C07 U(1) fusion adds charges

*Plan*: integer addition inside the int16 range; witness of wrap-around outside (`_refuted`).
*State*: **proved**, 3 theorems in `AbelianProps.v`. 

### C08 Z_N anyon categories satisfy the pentagon, hexagon and symbol identities

*Plan*: roots of unity represented by their exponents in Z/N (or Z/2N); pentagon/hexagon become linear congruences.
*State*: **proved**, 5 theorems in `AnyonProps.v`. 

### C09 Fibonacci category is a unitary braided fusion category

*Plan*: exact arithmetic in a number field containing the symbols, finite sweep lifted by forallb_forall (the category has 2 sectors so the domain is finite).
*State*: **proved**, 2 theorems in `AnyonProps.v`. 

### C10 Ising category is a unitary braided fusion category with consistent C symbols

*Plan*: same with cyclotomic integers Z[zeta_16]; C-symbol deviation proved as `_refuted`.
*State*: **partial**, 3 theorems in `AnyonProps.v`. Ising C symbol deviates from R F R* (refuted theorem); everything else proved for all odd nu. Product Symmetry uses the default C symbol and is unaffected.

### C11 SU(2) fusion rules

*Plan*: the outcome list as a function of a and b over unbounded Z; arithmetic series induction.
*State*: **proved**, 6 theorems in `Su2Props.v`. 

### C12 SU(2)_k fusion rules

*Plan*: as SU2 with the level cut-off; associativity for every k by interval counting.
*State*: **proved**, 4 theorems in `Su2Props.v`. 

### C13 SU(N) sectors, duals and dimensions

*Plan*: validity, dual; dimension by the Weyl product over Q.
*State*: **partial**, 9 theorems in `SunProps.v`. Validity, duals, Weyl-dimension duality, index and table paths proved for all N; sector_dim proved exact for N=2,3 and REFUTED for every constructible N>=4 (float truncation); outcome key ambiguity refuted.

### C14 Product symmetry acts factor-wise

*Plan*: factor interface as a record of functions, product over a list of factors.
*State*: **proved**, 10 theorems in `ProductProps.v`. 

### C15 Symmetry equivalence check

*Plan*: greedy matching loop over a factor-equivalence relation.
*State*: **proved**, 6 theorems in `ProductProps.v`. 

### C16 Braiding category SU(3)_3 data is consistent

*Plan*: exact sweep in a number field (finite category).
*State*: **proved**, 3 theorems in `AnyonProps.v`. 

### C17 Enumeration of fusion trees is complete, duplicate free and indexed consistently

*Plan*: recursion of fusion_trees for an arbitrary fusion category given as a Section record.
*State*: **proved**, 6 theorems in `TreeProps.v`. Enumeration complete, duplicate free, len, index, test_sanity; for every fusion ring.

### C18 Splitting and inserting fusion trees are inverse

*Plan*: tree as uncoupled/inner/multiplicity lists; split, insert.
*State*: **partial**, 7 theorems in `TreeProps.v`. split/insert and extended/split_bottom_vertex proved in full. insert_at with an empty tree is valid except at the last of >= 3 legs, where the code keeps one inner sector too many (refuted). insert_at with F moves not modelled.

### C19 Fusion tree ordering is a strict total order compatible with equality

*Plan*: lexicographic comparison of the fields.
*State*: **proved**, 2 theorems in `TreeProps.v`. operator< is a strict total order, operator== is equality.

### C20 Braiding a fusion tree is inverted by the opposite braid

*Plan*: linear combinations as finite maps over an abstract ring; unitarity hypotheses of R and C as record fields/hypotheses.
*State*: **proved**, 5 theorems in `TreeProps.v`. For every fusion ring with unitary R and C symbols over a ring with positive conjugation (the complex numbers in the instances); cutoff drops only exact zeros; exact arithmetic.

### C21 Sparse mappings compose like matrices

*Plan*: nested maps key->key->coefficient over an abstract commutative ring.
*State*: **proved**, 5 theorems in `MappingProps.v`. 

### C22 permute_legs instructions realise the requested leg permutation

*Plan*: instruction emission and the replay machine.
*State*: **proved**, 9 theorems in `PermLegsProps.v`. The engine is modelled call by call (swap, move_leg, bend, the five stages, the final check); specification: executing the instructions on the legs. Instructions realise the request; error iff an undecided crossing; crossings decided by levels; phases for pointed symmetries (bicharacters); composition; pipes. The application of the instructions to non-abelian fusion trees (braid with C symbols, bend with B symbols) is not part of this claim.

### C23 sectors_of_basis inverts from_basis

*Plan*: from_basis/sectors_of_basis on lists of sectors.
*State*: **proved**, 4 theorems in `SpaceProps.v`. 

### C24 from_defining_sectors keeps the basis

*Plan*: from_defining_sectors with basis_perm handling.
*State*: **proved**, 3 theorems in `SpaceProps.v`. 

### C25 parse_index and idx_to_sector agree with sectors_of_basis

*Plan*: bisect over slice starts.
*State*: **proved**, 2 theorems in `SpaceProps.v`. 

### C26 take_slice selects the masked basis states

*Plan*: take_slice for abelian (one-dimensional) sectors; non-abelian deviation as `_refuted` if confirmed.
*State*: **partial**, 5 theorems in `SpaceProps.v`. Sectors and internal projection proved for every symmetry; equality of the labelled basis states proved when all sectors are one dimensional; refuted for non-abelian sectors (take_slice assumes contiguous multiplets, contrary to the basis convention).

### C27 direct_sum concatenates bases

*Plan*: concatenation of perms with offsets.
*State*: **proved**, 2 theorems in `SpaceProps.v`. 

### C28 Changing duality does not change the space

*Plan*: re-sorting of dual sectors.
*State*: **proved**, 3 theorems in `SpaceProps.v`. 

### C29 Isomorphism, subspace and common subspace

*Plan*: multiplicity functions.
*State*: **proved**, 6 theorems in `SpaceProps.v`. is_isomorphic_to / is_subspace_of / largest common subspace / sector_multiplicity for all spaces; is_trivial reads out of bounds for the zero-dimensional space (refuted).

### C30 Abelian leg pipes order their basis consistently

*Plan*: AbelianLegPipe.prepare on lists.
*State*: **proved**, 6 theorems in `PipeProps.v`. AbelianLegPipe constructor, block_ind_map, internal/public basis and dual for every abelian symmetry with a basis and any number of legs; the legs are elementary spaces satisfying the ElementarySpace invariants. from_independent_symmetries of pipes (which drops combine_cstyle) is not covered.

### C31 Multiplicities of a tensor product

*Plan*: multiplicity recursion versus tree enumeration.
*State*: **proved**, 11 theorems in `TensorProps.v`. Constructor, block_size, iter_tree_blocks, iter_forest_blocks, tree_block_slice, forest_block_slice, flat_legs_nesting, derived products. Factors that are AbelianLegPipes are treated as elementary spaces.

### C32 drop_symmetry preserves the dimension

*Plan*: column selection, dimension.
*State*: **partial**, 5 theorems in `SpaceProps.v`. Dropping abelian factors, dropping all factors and from_independent_symmetries proved; dropping a non-abelian factor loses dimension and repeated indices drop everything (refuted).

### C33 left_multiply and right_multiply add the factor at the ends

*Plan*: list insertion with Python negative positions.
*State*: **partial**, 5 theorems in `TensorProps.v`. insert_multiply and left_multiply proved; right_multiply as documented is false of the code (C33_right_multiply_refuted: it inserts before the last factor), and a nested pipe cannot be multiplied at all (C33_nested_pipe_refuted).

### C34 Leg pipes: duals and flattening

*Plan*: nested inductive pipe type.
*State*: **proved**, 11 theorems in `PipeProps.v`. Nested LegPipes of any depth: dual is an involution reversing the flat legs, dimension, flattening permutation and its meaning, basis permutation.

### C35 Block-sparse addition equals dense addition

*Plan*: blocks as maps from index rows to functions; dense semantics as function of full index.
*State*: **proved**, 4 theorems in `SparseProps.v`. linear_combination and scalar multiplication of block-sparse data, over any commutative semiring; the result is again well-formed (sorted rows, shapes, charge rule).

### C36 Block-sparse composition equals dense tensor contraction

*Plan*: compose worker on sorted block lists.
*State*: **proved**, 2 theorems in `SparseProps.v`. All branches of compose (worker, no contraction, scalar result). Composing two tensors without any leg raises in the code (C36_compose_of_scalars_refuted).

### C37 Block-sparse permute_legs, outer, inner and traces match the dense operations

*Plan*: permute/outer/inner/trace.
*State*: **proved**, 8 theorems in `SparseProps.v`. permute_legs, dagger, outer, inner, trace_full, partial_trace against the dense array. inner of tensors without legs raises (C37_inner_of_scalars_refuted).

### C38 combine_legs and split_legs are inverse and match dense reshapes

*Plan*: combine/split.
*State*: **proved**, 4 theorems in `CombineProps.v`. combine_legs and split_legs of the abelian backend for any grouping of codomain/domain legs into AbelianLegPipes (C- and F-style, dual or not); entries compared through the dense array. Splitting with no pipe at all (the code raises in np.indices) is not modelled.

### C39 get_element agrees with the dense array

*Plan*: parse_index + block lookup.
*State*: **proved**, 3 theorems in `SparseProps.v`. get_element at public indices (negative ones included) equals the dense entry at the internal positions; out of range raises.

### C40 Conversion between the abelian and the fusion tree backend is lossless

*Plan*: forest/tree block addressing.
*State*: **proved**, 4 theorems in `ConvertProps.v`. Legs are elementary spaces (to_backend splits pipes before and combines them after, C38/C52). Not covered: dtypes, conversion between block backends (as_block), tensors without any leg (see findings).

### C41 Singular value truncation respects its constraints

*Plan*: sorted weights over Q, boolean masks.
*State*: **proved**, 6 theorems in `TruncProps.v`. Selection for every list of values and every parameter set, for every sorting permutation np.argsort may return; values are real numbers. chi_max >= 0; chi_max = 0 behaves like an unsatisfiable constraint (all values are kept). FINDING: with quantum dimensions (non-abelian symmetries) svd_min can be violated (C41_svd_min_with_qdims_refuted). The construction of the Mask from the boolean array is C54.

### C42 Combined leg labels split back

*Plan*: strings as lists of ascii, the actual split/combine functions; nested labels as witness.
*State*: **partial**, 4 theorems in `LabelsProps.v`. Round trip proved for every non-empty list of names without '.' and not starting with '?'; nested combined labels, the empty list and '?x' names are refuted (split is not bracket aware).

### C43 Dual labels are an involution

*Plan*: dual label recursion.
*State*: **partial**, 4 theorems in `LabelsProps.v`. Exact condition for plain labels; involution for all named labels of any nesting depth and one level with unlabelled legs; renumbered / nested placeholders refuted.

### C44 Label bookkeeping of a tensor stays consistent

*Plan*: state machine over label operations.
*State*: **proved**, 7 theorems in `LabelsProps.v`. Proved with C++ assertions enabled (the shipped Debug build); in a Release build duplicates are silently accepted (refuted theorem).

### C45 Cost polynomials

*Plan*: monomials as finite maps.
*State*: **proved**, 5 theorems in `CostProps.v`. 

### C46 Common dtype is a least upper bound

*Plan*: finite lattice (finite domain), lists of arbitrary length by induction.
*State*: **proved**, 4 theorems in `DtypeProps.v`. 

### C47 Config option validation

*Plan*: state machine over option updates.
*State*: **proved**, 8 theorems in `ConfigProps.v`. Every history of set_option/update/temporary_options/config files keeps the declared bounds (the exact set of values accepted is characterised); precedence defaults < file < environment. Findings proved as _refuted: NaN is accepted for fusion_tree_eps; a failing temporary_options.__enter__ leaves partial changes behind; an invalid config file is partially applied although the warning says it is ignored.

### C48 Backend factory returns one backend per configuration

*Plan*: cache state machine.
*State*: **proved**, 3 theorems in `FactoryProps.v`. History model of the module-level cache; configuration may change between calls; availability of block backends is a parameter.

### C49 HDF5 save/load round trip with shared and cyclic references

*Plan*: object graph -> file tree -> object graph.
*State*: **partial**, 11 theorems in `Hdf5Props.v`. Object heap and HDF5 file as graphs; saver and loader modelled function by function; the round trip is proved for every storable object graph (sharing, cycles), every listing order of h5py, and every prior content of the file; loading also terminates within the stated recursion depth. Missing (refuted by theorems): tuples on cycles, empty-string keys, dictionary order, np.bool_, Hdf5Ignored in lists, fully unmasked arrays equal to the fill value, list/dict items of __reduce__; outside the model: dtypes, custom save_hdf5 (spaces, tensors), exclude, format_selection.

### C50 Linear operators act like their matrix

*Plan*: operator trees over an abstract inner product space; matrices as instance.
*State*: **proved**, 10 theorems in `LinOpProps.v`. Exact arithmetic over any complex inner product space; two-leg tensors enter through five operations with matrix laws (proved for matrices of every size). Refuted: the documented claim that ortho_vecs need not be orthonormal (no Gram-Schmidt is performed, so a single unnormalised vector is not an eigenvector and with non-orthogonal vectors adjoint() is wrong); legs, labels and dtypes are not modelled.

### C51 Fermionic braiding is a consistent symmetric braiding

*Plan*: fermionic braiding factors: exact sign arithmetic on the abelian factors and their products.
*State*: **proved**, 2 theorems in `AbelianProps.v`. 

### C52 Leg permutation, combination and splitting put legs and labels where documented

*Plan*: leg and label bookkeeping of combine/split/permute/move/transpose on lists of legs; permutation reasoning.
*State*: **partial**, 15 theorems in `LegOpsProps.v`. Legs, labels, bipartition and the arguments handed to the backend. combine_legs is proved for every list of groups, with the documented assignment of pipe_dualities and pipes when the groups are listed in leg order; that assignment is refuted for groups in another order (C52_dualities_of_unordered_groups_refuted, C52_pipes_of_unordered_groups_refuted). split after combine restores legs and labels for plain labels (no dot, no leading question mark). combine_to_matrix with an empty side reads element 0 of an empty vector: modelled as failure. The effect on the numerical data is C22 (permutation) and C38 (combine/split).

### C53 truncated_svd normalises the singular values as requested

*Plan*: exact arithmetic on the squares and norms returned by the truncation.
*State*: **partial**, 3 theorems in `TruncProps.v`. FINDING: false of the code, because new_norm is the squared norm of the kept values (documented as the norm): C53_normalize_to_refuted. C53_norm_after_truncation gives the norm actually obtained, C53_normalize_to_partial the case without truncation.

### C54 Masks of the abelian backend select exactly the states marked true, in every operation

*Plan*: MaskModel.v mirrors the loops over sectors with running indices, the ranking of the basis permutation and the merge walk of _mask_contract. Proof: every loop pushes the non-empty ones of a family of boolean segments (pushed), so all constructors equal mask_from_block of the concatenated vector; the kept positions of a concatenation (kept_concat) locate the small states; contraction by the specification of the merge walk and the location lemmas of C36..
*State*: **proved**, 17 theorems in `MaskProps.v`. All statements for the data level functions of AbelianBackend. The front end (labels, the Mask class, dtype checks) is not modelled; the C++ mask front end passes the vector already permuted to the internal basis, as the theorems take it.

### C55 Lanczos returns the lowest Ritz pair and the Krylov evolution

*Plan*: Lanczos as recursion over an abstract inner product space; invariant: orthonormal basis of the Krylov space, tridiagonal projected matrix.
*State*: **partial**, 6 theorems in `KrylovProps.v`. Exact arithmetic over any complex inner product space, numpy.linalg.eigh assumed right on the matrices of the run (shown to be satisfiable on an example). The statement is proved except its last sentence, which is refuted: E_shift on a projected operator shifts the caller's operator in place, so the second identical call returns another energy. With E_shift and a projected operator the theorem needs psi0 orthogonal to ortho_vecs. Options are non-negative numbers; logging and dtypes are not modelled.

### C56 GMRES solves linear systems

*Plan*: GMRES as recursion with explicit Givens rotations; invariant: the reported residual is the residual norm.
*State*: **partial**, 6 theorems in `GmresProps.v`. Exact arithmetic. Proved for hermitian operators and for real problems (real matrix elements): residual, minimality of every cycle, error history, termination, and NaN only if a Krylov space is exhausted early. Refuted: (a) with complex matrix elements the Givens rotations are not unitary: the result can be worse than the initial guess, or NaN; (b) exact breakdown within N_min steps always gives NaN, e.g. the identity with the default options. Missing: floating point; the state after a second call of run() on the same object.

### C57 Arnoldi finds the requested Ritz pairs of any linear operator; ArnoldiEvolution computes exp(delta H) psi

*Plan*: Arnoldi: invariant as for Lanczos with the full Hessenberg matrix; evolution via eigen-decomposition of the projected matrix.
*State*: **partial**, 7 theorems in `ArnoldiProps.v`. Exact arithmetic; numpy's eig and solve are parameters, assumed right on the matrices of the run; the unstable sort is a parameter. Proved: the first min(N, num_ev) pairs are the requested Ritz pairs, stopping rule, shift; the evolution is exp(delta H) psi in the Krylov space, for first and repeated runs. Refuted: entries of the returned values beyond N are not Ritz values (zeros); a second Arnoldi.run() on the same object uses the stale cache and gives wrong values; the evolution fails for defective operators (Jordan block). Missing: floating point; num_ev > N_max.

### C58 Linear algebra on tensors of the fusion tree backend acts sector by sector with quantum dimension weights

*Plan*: fusion tree data as rows (codomain sector, domain sector, matrix); one lemma per loop that finds the matrix of a sector in the result, from it the entries.
*State*: **partial**, 25 theorems in `FtOpsProps.v`, `FtScaleProps.v`. Semiring entries instead of floats; is_zero, the block norm and matrix functions are parameters with contracts. scale_axis is proved on the only leg (C58_scale_axis_single) and on one of several legs (C58_scale_axis). Refuted: inner of a real with a complex tensor drops the imaginary part; scale_axis on a leg behind a pipe uses a wrong flat position or raises (right without a pipe before the leg: C58_scale_axis_position). Missing: dtypes.

### C59 Decompositions of the fusion tree backend: factors are isometric and multiply back to the tensor

*Plan*: generic lemma for the loops over common sectors with a running index into the stored blocks; factors by sector, then composition via C58.
*State*: **proved**, 4 theorems in `FtOpsProps.v`. The block decompositions are parameters; their contract is assumed for the blocks of the tensor only. eigh: a symmetry that can be dropped must have positive dimensions. Not covered: truncation (C41), pivoting and sorting options of the block decompositions, dtypes.

### C60 Braids, bends and twists of fusion tree tensors: permute_legs acts tree by tree and never mixes up multiplicities

*Plan*: the mapping as association list; invariant: row k of the mapping is the image of k under the instructions so far (as amounts); one lemma for the slices and axes of a block per tree, then sums over all pairs; the single tree moves enter only through their leg bookkeeping.
*State*: **proved**, 7 theorems in `FtMapProps.v`. For every symmetry and any topological data: entries of the result are the linear image of the old ones under the composed single-tree moves; the two kinds of mappings agree; phases for pointed symmetries and plain permutation for bosonic ones. Numbers exact, prune tolerance and discard test drop zeros only. C60_real_dtype_refuted documents why verify_dtype is needed (latent: the public constructor forbids the case).

### C61 Braids, bends and twists of fusion trees and tensors can be undone; quantum dimensions, B symbols and topological twists

*Plan*: B symbols from F symbols: the identity for bending back follows from one instance of the pentagon and unitarity (norms of the amplitudes add up to 1, so the others vanish); positivity argument over all sectors for the exchange rule; theta R = chi from one hexagon; then every move has an inverse on amounts, induction over the instructions.
*State*: **proved**, 11 theorems in `BendProps.v`. Unitary braided categories as in CatSpec.v with exact symbols; thresholds of the code discard exact zeros only. The twists have unit modulus for finitely many sectors (all instances); the bends for any number of sectors. Ising: bends and twists (the code's own C symbol is wrong, C10). b_symbol overrides of abelian groups return 1, which is the value of the default.

### C62 permute_legs, braids, bends and twists preserve the inner product and the norm of tensors

*Plan*: adjointness of each move and its inverse (bend: exchange rule of the B symbols with quantum dimensions; braid: unitary R, C), induction over the instructions; with C61 (inverse) the matrix of a list of moves is an isometry for the weights qdim; inner as a sum over all pairs of trees and multi-indices, whose boxes are permuted by the moves.
*State*: **proved**, 7 theorems in `InnerProps.v`. inner and norm of the fusion tree backend are invariant under permute_legs and every list of moves, for any unitary topological data; the hypothesis is proved for unitary braided categories with finitely many sectors, for the categories of cyten, their products and for pointed groups. Not covered: SU(2), SU(2)_k, SU(N), whose symbols are tables or floating point formulas (the theorem applies to any data that meets unitary_moves)

### C63 qr, lq, svd and eigh of the abelian backend

*Plan*: AbDecModel.v mirrors the shared loop head of qr/lq/svd (common sectors, searches on dual legs, running index) and the three tails, eigh as identity blocks with replacements. Proof: the loop finds for every common sector the stored block or none (ab_rows_spec); a charge conserving matrix is determined by its blocks per sector (blockform lemmas), for which the products and isometry conditions reduce to those of the blocks and of parts of identity matrices..
*State*: **proved**, 5 theorems in `AbDecProps.v`. Dense identities for qr, lq, svd, eigh of the abelian backend, relative to the contract of the matrix routine on the stored blocks; tensors of several legs are combined first (C38). dtypes, devices and sort orders of the singular values not modelled.

### C64 Diagonal tensors of the abelian backend behave like the vector of their diagonal entries

*Plan*: AbDiagModel.v mirrors the loops over sectors with running indices into the stored blocks. Proof: the vector of the diagonal is the concatenation of one segment per sector (vec_concat); every loop is shown by induction on the number of remaining sectors to produce the segments; scale_axis by the specification of the merge walk..
*State*: **proved**, 18 theorems in `AbDiagProps.v`. All operations proved for every pattern of stored sectors. partial_zero_is_zero = true is refuted (real bug: the loop index of the second tensor is not advanced when the first lacks the block; C64_binary_partial_zero_refuted) and proved when the sectors of the second are stored in the first; no operator of the front end passes true, only the public methods _elementwise_binary and diagonal_elementwise_binary do on request.

### C65 The operators of the model sites satisfy their defining algebra for every spin, number of species, occupation cutoff and clock order

*Plan*: SiteModel.v mirrors the numpy code of the sites (loops filling matrices, np.kron chains, cumsum, matrix products) with complex numbers over Coq's reals. Proof: the Kronecker chain of any length is a product over the species of one-species factors in the mixed-radix digits of the index (bigop); bigop is multiplicative, so all relations reduce to one-species matrices; spin algebra by the tridiagonal structure of the ladder operators; clock by the roots of unity..
*State*: **proved**, 18 theorems in `SiteProps.v`. Numbers are real/complex numbers (floating point rounding is not modelled); the arrays handed to the tensor constructors are modelled, the conversion into symmetric tensors is C40/C35.

### C66 Spin, density and clock couplings are the documented operators, hermitian and symmetric

*Plan*: CouplingModel.v mirrors the numpy code (tensordot, transpose, cross products, conditional terms); CouplingSpec.v has Kronecker products and the documented formulas. Proof: entries of the arrays are entries of Kronecker products, commutators by the algebra of otimes; total spin commutes with S.S and S.(SxS) from the commutation relations only..
*State*: **proved**, 15 theorems in `CouplingProps.v`. Numpy arrays as functions on index lists, tensordot/transposes mirrored; conversion of the dense block to the symmetric tensor is not part of this claim (C40).

### C67 Hopping and pairing are the documented second-quantized operators, including Jordan-Wigner signs

*Plan*: same model; the pair of sites is the site with the concatenated species (C65 operators), strings by splitting the Kronecker chain of the concatenation (CouplingProofs4)..
*State*: **partial**, 9 theorems in `QuadraticProps.v`. Proved for equal sites and species lists with len(second) >= len(first). Refuted: C67_hopping_sites_refuted (operators of site j taken from site i: wrong result for different sites of the same dimension), C67_hopping_dims_refuted (error for different dimensions), C67_species_refuted (shorter second list is an error). C67_fermion_onsite_default_zero: default onsite pairing of fermions vanishes identically.

### C68 Permuting the sites of a coupling braids the operator consistently; stretching pads it with identities

*Plan*: CPermModel.v mirrors adjacent_transpositions, permute (labels, level dictionary, relabelling, from_tensor checks, cache) and stretch_with_identities. Proof: the word is one bubble pass per target position, its crossings are the inversions; Matsumoto-type theorem (two words with the same permutation give the same braid when heights are distinct) by a normal form of words (Lehmer code) and the Coxeter relations of (operator, order) pairs; the chain of a stretched coupling by induction on the positions..
*State*: **partial**, 15 theorems in `CPermProps.v`. permute_legs is a parameter that satisfies the braid relations (C60, C61, C20 for the fusion tree backend); the factorization of the tensor is not modelled (to_tensor/from_tensor on the operator). Partial only because of two documented claims that are false of the code: C68_length_refuted, C68_levels_ignored_refuted.

### C69 planar_permute_legs accepts exactly the planar rearrangements and performs them without levels and without phases

*Plan*: PlanarModel.v mirrors planar_permute_legs (completion of the request, all branches that choose the calls), parse_leg_bipartition and the bend_right parsing of permute_legs. Proof: a planar request is a cut point k and a number c of codomain legs; in each of the cases of (k, c) relative to (nc, nd) the staying legs are intervals, the branch is determined by linear arithmetic, and the call bends only outermost legs, so that PermLegs requests need no crossing (C22: must_cross is empty, phase is that of a full turn); two-step windings compose..
*State*: **proved**, 10 theorems in `PlanarProps.v`. Legs are given as indices (get_leg_idcs not modelled); DiagonalTensor, Mask and ChargedTensor inputs of permute_legs left out. The phases are those of pointed (abelian) braidings; the effect of the instructions on tensors of general symmetries is C60, C61.

### C70 planar_partial_trace accepts exactly the planar traces; traced legs become neighbours

*Plan*: PtModel.v mirrors the checks of planar_partial_trace, the bend counts and the rearrangement, the duplicate check and the order idcs of FusionTreeBackend::partial_trace. Proof: the scans are characterised by the partner of a leg (unique if no leg is repeated); the outermost leg of the pairs that cannot be traced on the right is a cut of the circle that crosses exactly these pairs; the order is a weave of the remaining legs with the pairs, ascending in the number of remaining legs below; equivalence with joining neighbours by turning the circle and an innermost pair..
*State*: **partial**, 7 theorems in `PtProps.v`. Partial only because the claim for pairs in descending order is false of the code (C70_descending_pair_refuted). Not modelled: the check that the legs of a pair are dual, the entries of the result of the fusion tree backend (for the abelian backend: C37).

### C71 planar_contraction joins exactly the given pairs of legs and keeps the other legs in order

*Plan*: PcModel.v mirrors planar_contraction, its helper, and the leg bookkeeping of compose and partial_compose; planar_permute_legs is the model of C69 with its calls executed. Proof: the bipartition is the cyclic one (C69); the partners are an arc in reverse; the helper brings the contracted legs to consecutive positions of one side for contracted legs that do not cross the cut, and for those that do if the open ones lie between; attaching a tensor at consecutive legs replaces them by its open legs on the circle..
*State*: **partial**, 9 theorems in `PcProps.v`. Partial only because the claim is false of the code for the excluded contractions (five _refuted theorems with concrete tensors); the positive theorem covers all others. Not modelled: labels, the entries (compose: C36), the agreement of the spaces.

### C72 tdot joins the given legs and returns the open legs in the documented order

*Plan*: TdModel.v mirrors tdot branch by branch at the level of legs (permute_legs: the front end plus the instruction engine of C22; attaching a Mask or DiagonalTensor replaces a leg). Proof: permute_legs gives the requested lists or an error that trivial braids exclude; the legs in a row, a replaced leg and the legs left by a partial trace as lists; case analysis over the branches..
*State*: **partial**, 11 theorems in `TdProps.v`. Partial only because the claim is false of the code in the excluded cases (six _refuted theorems); C72_joins_the_given_legs and C72_symmetric_tensors have no exclusions. Not modelled: ChargedTensor, the entries, the agreement of the spaces, equal labels.

### C73 Operator names of a site: products by name

*Plan*: OpModel.v mirrors add_onsite_operator, get_op (the while loop on the rest of the string), multiply_op_names and multiply_operators, with strings as lists of characters. Proof: induction on the list of words; find/substr split off one word; product over concatenated word lists by associativity; invariant over histories of additions..
*State*: **partial**, 12 theorems in `OpProps.v`. Partial only because the two documented extensions are false of the code (C73_spaces_refuted, C73_product_names_refuted). The product is an arbitrary associative operation (associativity of compose: C36); labels and the conversion of the operator to a tensor are not modelled.

### C74 planar_combine_legs gathers every group without braiding

*Plan*: PcombModel.v mirrors planar_combine_legs up to the calls of planar_permute_legs and combine_legs (search for the groups at the corners, bipartition, the erase/insert of the index lists, the shift of the groups). Proof: contiguous groups are runs or wrapped runs; three kinds of groups under the hypothesis; the split point after the right bend and the rotation after the left bend, with disjointness of the groups..
*State*: **partial**, 8 theorems in `PcombProps.v`. Partial only because the claim is false of the code in the excluded cases (four _refuted theorems). That a planar rearrangement is carried out without braiding is C69; what combine_legs does with neighbouring legs is C38. Pipes and their dualities are not modelled here.

## Trusted base

* Coq 8.16.1's kernel, including its `vm_compute` machine.  No plugins, no extraction, no axioms of our own, no functors or module types.
* The reading of /repo: the model was written by reading the source; it is not extracted from it and was not run against it (no dependencies
  are installed in the sandbox).  Each definition cites the lines it models.
* Axioms come only from the Coq standard library: `ClassicalDedekindReals.sig_forall_dec`, `ClassicalDedekindReals.sig_not_dec`,
  `FunctionalExtensionality.functional_extensionality_dep` (all three used by Coq's `Reals`) and `Classical_Prop.classic` (used by
  some lemmas on square roots and trigonometric functions).  They appear exactly where real or complex numbers are used.

### What `Print Assumptions` lists, theorem by theorem


**Closed under the global context (no axioms)** - 399 theorems:

- `RowProps.v`: C01_lexsort_is_stable_sorting_permutation, C01_sorted_is_sorted_rearrangement, C01_is_lexsorted_decides_sortedness, C02_unique_sorted_merges_and_sums, C02_unique_sorted_rejects_only_length_mismatch, C03_iter_common_sorted_yields_exactly_equal_rows, C03_iter_common_sorted_rejects_iff_not_strict_or_width_mismatch, C03_iter_common_noncommon_sorted_covers_both_arrays_once, C03_row_where_finds_the_first_match, C03_searchsorted_is_the_left_insertion_point
- `GridProps.v`: C04_pack_is_injective_on_valid_rows, C04_pack_is_bounded_by_the_number_of_blocks, C04_fstyle_pack_preserves_the_lexsort_order, C04_cstyle_pack_preserves_the_reversed_lexsort_order, C04_make_grid_enumerates_every_multi_index_once, C04_grid_row_m_has_flat_index_m_and_is_grid_entry, C05_inverse_permutation_is_two_sided_inverse, C05_reordering_by_the_inverse_restores_the_list, C05_rank_data_gives_stable_ranks, C05_permutation_as_swaps_realises_the_permutation, C05_permutation_as_swaps_rejects_exactly_non_permutations, C05_is_permutation_decides, C05_combine_permutations_acts_axiswise
- `AbelianProps.v`: C06_U1_group, C06_FermionNumber_group, C06_ZN_group, C06_ZN_is_addition_mod_N, C06_FermionParity_group, C06_NoSymmetry_group, C06_group_is_fusion_ring, C06_batched_fusion_elementwise, C06_batched_multiple_fusion_agrees, C06_batched_dual_elementwise, C06_multiple_fusion_bracketing, C06_ZN_all_sectors, C06_ZN_large_N_refuted, C07_U1_adds_charges_in_range, C07_U1_multiple_fusion_adds_mod_2_16, C07_U1_adds_charges_refuted, C51_FermionParity_braiding, C51_FermionNumber_braiding
- `Su2Props.v`: C11_SU2_outcomes_clebsch_gordan, C11_SU2_can_fuse_to_agrees, C11_SU2_fusion_ring_and_dimensions, C11_SU2_machine_outcomes, C11_SU2_machine_overflow_refuted, C11_SU2_R_and_frobenius_schur, C12_SU2k_outcomes_truncated, C12_SU2k_fusion_ring, C12_SU2k_all_sectors
- `AnyonProps.v`: C16_SU3_3_dual_sectors_agree
- `ProductProps.v`: C14_parts_concat, C15_equivalent_iff_matching, C15_equivalence_relation, C15_order_independent, C15_strict_and_equals, C15_equals_equivalence_relation
- `LabelsProps.v`: C42_split_of_combine_partial, C42_nested_labels_refuted, C42_empty_and_question_mark_refuted, C42_split_of_other_labels, C43_dual_twice_plain, C43_dual_twice_named_partial, C43_dual_of_combined, C43_placeholders_refuted, C44_history_keeps_labels_consistent, C44_constructor_rejects_duplicates, C44_set_label_effect, C44_relabel_effect, C44_matching_labels, C44_release_build_refuted, C44_unset_label_refuted
- `MappingProps.v`: C21_pre_compose_is_matrix_product, C21_pre_compose_well_formed, C21_pre_compose_associative, C21_identity_neutral
- `CostProps.v`: C45_monomial_algebra, C45_simplification_keeps_maximal_terms, C45_polynomial_algebra, C45_evaluation_up_to_negligible_terms, C45_zero_exponent_refuted
- `DtypeProps.v`: C46_common_is_least_upper_bound, C46_common_order_independent, C46_real_complex_parts, C46_int64_with_float32_refuted
- `SunProps.v`: C13_valid_iff_normalised_weight, C13_dual, C13_dual_of_trivial, C13_weyl_dimension_of_dual, C13_irrep_index_injective, C13_table_path_injective, C13_irrep_key_ambiguous_refuted
- `SpaceProps.v`: C23_sectors_of_basis, C23_from_basis_inverse, C23_from_basis_rejects, C24_public_basis_preserved, C24_sorted_merged, C24_result_sane, C25_parse_index, C25_out_of_range, C26_take_slice_sectors, C26_internal_projection_is_mask, C26_take_slice_states_partial, C26_accepts_every_mask, C27_direct_sum, C27_multiplicities_add, C28_opposite_duality, C28_with_is_dual, C28_dual_involution, C29_elementary_spaces_qualify, C29_isomorphic, C29_subspace, C29_sector_multiplicity, C29_largest_common_subspace, C26_take_slice_nonabelian_refuted, C29_is_trivial_empty_refuted
- `PipeProps.v`: C30_public_basis, C30_block_ind_map, C30_block_positions, C30_dual_pipe, C30_rejects, C34_dual_involution, C34_dual_pipe, C34_equality, C34_pipe_differs_from_dual, C34_flat_legs, C34_dim, C34_flat_permutation, C34_flat_permutation_meaning, C34_index_bijection, C34_basis_perm, C34_flat_permutations
- `TreeProps.v`: C17_enumeration_complete, C17_enumeration_no_duplicates, C17_len, C17_index, C17_test_sanity, C17_abelian_single_tree, C18_split_then_insert, C18_split_outside_range, C18_insert_then_split, C18_bottom_vertex_then_extend, C18_extend_then_bottom_vertex, C18_insert_at_empty_partial, C18_insert_at_empty_last_leg_refuted, C19_tree_order, C19_ordered_set, C20_braid_inverse, C20_braid_result, C20_C_unitary
- `TensorProps.v`: C31_constructor, C31_block_size_counts, C31_block_size_idx, C31_iter_tree_blocks, C31_iter_tree_blocks_order, C31_iter_forest_blocks, C31_flat_legs_nesting, C31_from_partial_products, C31_permuted, C31_dual_space, C33_insert_multiply, C33_left_multiply, C33_right_multiply_partial, C33_right_multiply_refuted, C33_nested_pipe_refuted
- `SparseProps.v`: C35_dense_shape, C35_zero, C35_linear_combination, C35_scalar_multiple, C36_compose, C36_compose_of_scalars_refuted, C37_permute_legs, C37_dagger, C37_outer, C37_inner_dagger, C37_inner_no_dagger, C37_inner_of_scalars_refuted, C37_trace_full, C37_partial_trace, C39_get_element, C39_position_exists, C39_out_of_range
- `CombineProps.v`: C38_positions_bijective, C38_combine_legs, C38_split_legs, C38_round_trip
- `ConfigProps.v`: C47_options_stay_within_bounds, C47_fusion_tree_eps_is_a_number_refuted, C47_set_option, C47_update, C47_precedence, C47_temporary_options, C47_temporary_options_failing_enter_refuted, C47_invalid_file_ignored_refuted
- `FactoryProps.v`: C48_one_backend_per_request, C48_returned_backend, C48_symmetry_calls_succeed
- `PermLegsProps.v`: C22_instructions_realise_request, C22_distinct_levels_suffice, C22_error_iff_undecided_crossing, C22_crossings_decided_by_levels, C22_phase_from_levels, C22_phase_path_independent, C22_permutations_compose, C22_symmetric_phase, C22_pipes
- `LinOpProps.v`: C50_unwrapped
- `LegOpsProps.v`: C52_permute_legs, C52_permute_legs_one_side, C52_permute_back, C52_move_leg, C52_combine_legs, C52_combine_legs_any_order_partial, C52_given_pipe_checked, C52_combine_is_permutation, C52_combine_rejects_duplicates, C52_split_legs, C52_split_rejects, C52_round_trip, C52_combine_to_matrix, C52_dualities_of_unordered_groups_refuted, C52_pipes_of_unordered_groups_refuted
- `Hdf5Props.v`: C49_round_trip_partial, C49_round_trip_at_name_partial, C49_scalar_at_root_rejected, C49_tuple_on_cycle_refuted, C49_empty_key_refuted, C49_empty_key_root_refuted, C49_dict_order_refuted, C49_np_bool_refuted, C49_ignored_in_list_refuted, C49_reduce_listitems_refuted, C49_reduce_state_refuted
- `ConvertProps.v`: C40_abelian_to_fusion_tree, C40_fusion_tree_to_abelian, C40_round_trip_abelian, C40_round_trip_fusion_tree
- `FtOpsProps.v`: C58_compose, C58_dagger, C58_mul, C58_linear_combination, C58_eye, C58_from_sector_block_func, C58_inner, C58_inner_no_dagger, C58_trace, C58_inner_is_trace, C58_norm, C58_discard, C58_diagonal_to_full, C58_diagonal_from_full, C58_diagonal_elementwise_unary, C58_diagonal_elementwise_binary, C58_diagonal_all_any, C58_diagonal_trace, C58_act_block_diagonal_square_matrix, C58_scale_axis_single, C59_qr, C59_lq, C59_svd, C59_eigh, C58_inner_refuted, C58_scale_axis_pipes_refuted, C58_scale_axis_pipes_error_refuted, C58_scale_axis_position
- `FtMapProps.v`: C60_apply_instructions, C60_apply_instructions_factorized, C60_permute_legs, C60_mappings_agree, C60_pointed_phases, C60_bosonic_permutation, C60_real_dtype_refuted
- `BendProps.v`: C61_bend_back, C61_twist, C61_move_back, C61_composition, C61_undo
- `InnerProps.v`: C62_move_adjoint, C62_apply_instructions, C62_permute_legs, C62_norm, C62_pointed
- `FtScaleProps.v`: C58_scale_axis
- `AbDecProps.v`: C63_new_leg, C63_qr, C63_lq, C63_svd, C63_eigh
- `AbDiagProps.v`: C64_dim, C64_unary, C64_binary, C64_from_block, C64_from_func, C64_full, C64_from_full, C64_full_round_trip, C64_trace, C64_reduce, C64_reduce_all, C64_all, C64_any, C64_get_element, C64_scale_axis, C64_act, C64_binary_partial_zero_refuted, C64_binary_partial_zero_partial
- `MaskProps.v`: C54_from_block, C54_small_leg_is_slice, C54_canonical, C54_to_block, C54_binary, C54_unary, C54_from_diagonal, C54_to_diagonal, C54_full, C54_get_element, C54_dagger, C54_transpose, C54_contract_large, C54_contract_small, C54_enlarge_then_apply, C54_apply_then_enlarge, C54_apply_diagonal
- `SiteProps.v`: C65_states_distinct, C65_states_complete, C65_boson_states_each, C65_species_index, C65_state_index
- `CPermProps.v`: C68_adjacent_transpositions, C68_is_permutation, C68_permute, C68_compose, C68_identity, C68_dense, C68_over_braid, C68_not_a_permutation, C68_wrong_counts, C68_chirality, C68_cached, C68_length_refuted, C68_levels_ignored_refuted, C68_stretch_errors
- `PlanarProps.v`: C69_accepts_exactly_planar, C69_unambiguous, C69_realises_request, C69_no_phase, C69_bipartition, C69_bipartition_found, C69_bipartition_unique, C69_errors, C69_empty_request_undefined, C69_twice_around
- `PtProps.v`: C70_accepts_exactly_planar, C70_planar_iff_joining_neighbours, C70_rearranged, C70_planar_neighbours, C70_ascending_neighbours, C70_descending_pair_refuted, C70_short_pair_undefined
- `PcProps.v`: C71_contracts_as_requested_partial, C71_outer, C71_accepts_only_planar, C71_full_contraction_refuted, C71_crossed_refuted, C71_rotated_refuted, C71_across_refuted, C71_corners_refuted, C71_no_legs_refuted
- `TdProps.v`: C72_symmetric_tensors, C72_convention_partial, C72_joins_the_given_legs, C72_relabel_partial, C72_errors, C72_left_order_refuted, C72_right_order_refuted, C72_identity_right_refuted, C72_identity_trace_refuted, C72_relabel_number_refuted, C72_relabel_identity_refuted
- `OpProps.v`: C73_get_op_is_the_product, C73_every_name_is_words, C73_trailing_space, C73_spaces_refuted, C73_names_multiply, C73_multiply_operators, C73_no_names, C73_names_are_words, C73_add, C73_add_errors, C73_valid_opname, C73_product_names_refuted
- `PcombProps.v`: C74_groups_are_gathered_partial, C74_nothing_bent, C74_not_contiguous, C74_all_legs, C74_vector_refuted, C74_covector_refuted, C74_both_ends_refuted, C74_one_end_forgotten_refuted

**`ClassicalDedekindReals.sig_forall_dec`** - 18 theorems:

- `ProductProps.v`: C14_sector_is_concatenation, C14_fusion_factorwise, C14_dual_factorwise, C14_ring_laws, C14_dimensions, C14_F_symbol_entry, C14_all_sectors, C14_broadcast
- `SpaceProps.v`: C23_symmetries_qualify, C32_drop_factors_partial, C32_drop_all, C32_from_independent_symmetries, C32_drop_nonabelian_factor_refuted, C32_duplicate_index_refuted
- `PipeProps.v`: C30_symmetries_qualify
- `TensorProps.v`: C31_symmetries_qualify
- `LinOpProps.v`: C50_to_tensor, C50_sum_and_shift

**`ClassicalDedekindReals.sig_forall_dec`, `FunctionalExtensionality.functional_extensionality_dep`** - 21 theorems:

- `AnyonProps.v`: C16_SU3_3_R_values
- `ProductProps.v`: C14_category_laws
- `LinOpProps.v`: C50_linear, C50_adjoint, C50_projected, C50_projected_needs_orthonormal_refuted
- `KrylovProps.v`: C55_evolution_exact
- `CouplingProps.v`: C66_spin_spin, C66_heisenberg, C66_spin_field, C66_aklt, C66_chiral, C66_spin_hermitian, C66_rotation_invariant, C66_density_formulas, C66_clock_clock, C66_clock_field
- `QuadraticProps.v`: C67_default_species, C67_onsite_pairing_partial, C67_species_refuted
- `CPermProps.v`: C68_stretch

**`ClassicalDedekindReals.sig_forall_dec`, `ClassicalDedekindReals.sig_not_dec`, `FunctionalExtensionality.functional_extensionality_dep`** - 69 theorems:

- `Su2Props.v`: C12_SU2k_quantum_dimensions
- `AnyonProps.v`: C08_ZN_anyon_category, C08_ZN_anyon_category2, C08_quantum_double, C08_complex_flag_negative_n_refuted, C08_complex_flag_nonnegative_n, C09_Fibonacci_category, C09_Fibonacci_handedness, C10_Ising_category, C10_Ising_C_symbol_partial, C10_Ising_C_symbol_psi_psi_refuted, C16_SU3_3_category
- `ProductProps.v`: C15_same_category_not_equivalent
- `MappingProps.v`: C21_prune_removes_only_small_entries
- `TreeProps.v`: C20_instances, C20_Ising_inverse
- `LinOpProps.v`: C50_gram_schmidt, C50_gram_schmidt_idempotent, C50_direct_sum
- `KrylovProps.v`: C55_ground_state, C55_cache_and_reortho_irrelevant, C55_evolution, C55_evolution_repeated, C55_shifted_projected_operator_refuted
- `GmresProps.v`: C56_gmres, C56_fails_only_if_exhausted, C56_early_breakdown_gives_nan, C56_identity_default_options_refuted, C56_complex_operator_refuted, C56_complex_operator_nan_refuted
- `ArnoldiProps.v`: C57_arnoldi, C57_evolution, C57_evolution_exact, C57_evolution_repeated, C57_more_values_than_steps_refuted, C57_run_twice_refuted, C57_evolution_of_jordan_block_refuted
- `BendProps.v`: C61_qdim, C61_bend_data, C61_topological_twist, C61_b_symbol, C61_instances, C61_undo_category
- `InnerProps.v`: C62_category, C62_instances
- `SiteProps.v`: C65_spin_site, C65_spin_algebra, C65_spin_ladder, C65_boson_states, C65_boson_annihilator, C65_boson_charges, C65_boson_number, C65_boson_commutators, C65_fermion_states, C65_fermion_anticommutators, C65_fermion_number, C65_spinful_fermion, C65_clock
- `CouplingProps.v`: C66_sites_are_spins, C66_spin_charges, C66_chiral_charges, C66_density_diagonal, C66_clock_charges
- `QuadraticProps.v`: C67_boson_hopping_partial, C67_boson_pairing_partial, C67_fermion_quadratic_partial, C67_fermion_onsite_default_zero, C67_hopping_sites_refuted, C67_hopping_dims_refuted

**`ClassicalDedekindReals.sig_forall_dec`, `ClassicalDedekindReals.sig_not_dec`, `Classical_Prop.classic`, `FunctionalExtensionality.functional_extensionality_dep`** - 11 theorems:

- `SunProps.v`: C13_dimension_exact_for_N_2_and_3_partial, C13_float_dimension_refuted
- `TruncProps.v`: C41_selection, C41_constraints_in_order, C41_chi_bounds, C41_svd_min, C41_trunc_cut, C41_svd_min_with_qdims_refuted, C53_norm_after_truncation, C53_normalize_to_partial, C53_normalize_to_refuted

## What is modelled, file by file

Definitions in the `*Model.v` files carry the cited lines; below are the header of each model file and the source lines it cites.

- `RowModel.v` - Model of [SectorArray] and [BlockInds]: arrays of integer rows of a common width. Simplification: entries are unbounded [Z] (int16 for sectors, int64 for block indices in the code); the width is not stored separately but is the length of the rows ("all rows have the same length" is an explicit hypothesis [same_width] wherever the code's constructor checks it). *Cites* sector_array.cpp: 107-115, 95-123, 125-134, 136-141, 156-160, 143-165, 167-194, 196-205, 248-266, 297-314, 283-315; block_inds.cpp: 270-280, 260-288, 290-299, 301-306, 308-336, 338-355, 409-429, 445-460, 98-107, 606-623, 592-624, 635-656, 626-657, 573-590; sector.h: 121-132.
- `GridModel.v` - Model of the index/grid/permutation helpers (cyten/tools/misc.py and their C++ copies). Simplification: indices and shapes are unbounded [nat] (int64 / np.intp in the code). *Cites* misc.py: 273-278, 256-279, 282-331, 200-203, 208-237, 172-174, 160-169, 76-78, 83, 85-86, 79-88, 59-88; spaces.cpp: 2786-2791, 2774-2794, 2796-2805, 40-51, 943-945, 940-951; block_inds.cpp: 556-571; fusion_tree_permute.cpp: 15-23, 28-37, 45-47, 48-57, 42-64, 25-66.
- `SymModel.v` - Symmetries: the interface used by spaces and tensors, and the laws of a fusion ring. *Cites* sector.h: 28-148; base_symmetry.cpp: 284-294, 129-136, 208-241, 273-282, 259-271, 243-257, 349-357, 197-206.
- `AbelianModel.v` - The abelian symmetry factors: no symmetry, U(1), Z_N, fermion parity, fermion number. *Cites* sector.h: 31; zn.cpp: 12-20, 82-90, 92-102, 72-80, 110-118, 37-118, 120-128; topo_ones.h: 39-47; u1.cpp: 40-48, 50-60, 30-38, 68-76, 18-76, 24-28; fermion_parity.cpp: 67-79, 81-91, 57-65, 36-139, 15-19, 185-205, 225-230; fermion_number.cpp: 62-70, 72-82, 52-60, 114-122, 40-128, 13-23, 174-194, 214-222; abelian_group.cpp: 39-55; no_symmetry.cpp: 14-64.
- `Su2Model.v` - SU(2) and SU(2)_k fusion rules. *Cites* su2.cpp: 70-75, 60-76, 40-44, 60-76, 78-85, 165-172; su2_k_anyon_category.cpp: 212-217, 184-188, 205-218, 243-259, 46-67, 360-368.
- `AnyonModel.v` - Anyon categories: fusion rules and F, R, C symbols (src/symmetries/factors/*anyon*.cpp). The float64 / complex128 numbers of the code are modelled by exact numbers: the symbol tables are written over an arbitrary scalar type and instantiated with complex numbers (pairs of reals). Every symbol value is [Fsym K] / [Rsym K]: sectors, then multiplicity indices, with the shapes checked by the n-symbols. *Cites* base_symmetry.cpp: 159-184; fibonacci_anyon_category.cpp: 70-95, 175-178, 112-130, 153-157, 201-205, 213-217, 219-228, 252-260, 133-150, 262-270, 42-67, 230-241; ising_anyon_category.cpp: 83-122, 214-218, 150-165, 193-197, 244-248, 256-260, 161, 49-55, 279-283, 169, 262-277, 302-316, 169-190, 318-332, 56-81, 285-289; su3_3_anyon_category.cpp: 98-128, 387-393, 130-141, 440-453, 203-212, 366-370, 434-438, 395-399, 455-459, 143-162, 164-201, 53-66, 80-94, 271-364, 277-280, 490-503, 243-268, 505-517, 468-479; zn_anyon_category.cpp: 61-110, 151-171, 16-22, 53, 50; zn_anyon_category2.cpp: 69-118, 159-179, 16-34, 53-55, 181-194, 202-219; quantum_double_zn_anyon_category.cpp: 51-67, 69-112, 165-187, 16-21, 189-229, 231-244.
- `ProductModel.v` - Products of symmetry factors: class Symmetry (src/symmetries/symmetry.cpp). *Cites* base_symmetry.cpp: 359-372, 31-33, 138-160; symmetry.cpp: 115-119, 57-75, 157-163, 27-55, 64-66, 244-256, 272-337, 404-416, 434-446, 500-511, 448-498, 339-372, 374-402, 578-594, 596-606, 545-556; fusion_symbol.cpp: 559-597, 539-557.
- `SymEqModel.v` - Comparison of symmetries: src/symmetries/symmetry.cpp:200-236, 670-687 and the virtual methods [_is_equivalent_factor] of the factor classes. *Cites* symmetry.cpp: 200-236, 670-687, 209-216, 675-681, 220-229, 217-235, 200-236, 670-687; u1.cpp: 88-91; zn.cpp: 140-146; fermion_parity.cpp: 118-121; fermion_number.cpp: 103-106; no_symmetry.cpp: 79-82; su2.cpp: 127-130; sun.cpp: 164-170; su2_k_anyon_category.cpp: 235-241; fibonacci_anyon_category.cpp: 193-199; ising_anyon_category.cpp: 236-242; su3_3_anyon_category.cpp: 429-432; zn_anyon_category.cpp: 143-149; zn_anyon_category2.cpp: 151-157; quantum_double_zn_anyon_category.cpp: 157-163; toric_code_category.cpp: 27-33; symmetry_factor.cpp: 87-94.
- `LabelsModel.v` - Model of src/tensors/labels.cpp: leg labels of tensors. Strings are lists of ascii characters (std::string of bytes). *Cites* labels.h: 17; labels.cpp: 85-100, 113-130, 102-133, 146-159, 135-144, 161-197, 16-30, 56-66, 199-218, 231-235, 243-282, 284-295, 297-316, 371-379, 318-332, 334-369; tools.cpp: 52-60.
- `MappingModel.v` - Model of include/cyten/tools/mappings.h: sparse mappings with structured keys. std::unordered_map is modelled by an association list without repeated keys; its iteration order is unspecified in C++ and is an arbitrary list order here. Coefficients are elements of an abstract semiring (exact arithmetic; floating point rounding is not modelled). *Cites* mappings.h: 30-31, 42-51, 56-75, 78-89, 92-100, 105-118, 150-163.
- `CostModel.v` - Model of src/tools/cost_polynomials.cpp: symbolic big-O cost monomials and polynomials. Simplifications: int64 exponents are integers (no overflow); the string parser/printer and hashing are not modelled. *Cites* cost_polynomials.h: 23; cost_polynomials.cpp: 68-75, 77-91, 99-103, 135-156, 164-181, 158-161, 62-66, 223-233, 241-249, 300-309.
- `DtypeModel.v` - Model of src/block_backend/dtypes.cpp / include/cyten/block_backend/dtypes.h (the enum and its arithmetic). *Cites* dtypes.h: 11-21, 25-34; dtypes.cpp: 37-47, 49-59, 61-75, 118-136.
- `SunModel.v` - Model of the parts of SUN (src/symmetries/factors/sun.cpp) that do not read the external HDF5 tables. Fusion outcomes, N symbols and F/R symbols are looked up in user supplied files and are not modelled; only the lookup *key* is ([irrep_key]). *Cites* sun.cpp: 125-129, 94-99, 151-155, 139-157, 188-201, 246-255, 173-174, 168-179, 75-91, 236-243, 40-49, 228, 27-38, 66-69; sector.h: 21.
- `SpaceModel.v` - Model of Leg / Space / ElementarySpace (src/symmetries/spaces.cpp). Simplifications: multiplicities, dimensions and basis indices are unbounded [nat] (int64 in the code, all non-negative); the float64 field [dim] is only modelled for symmetries with can_be_dropped, where it is an integer. C++ exceptions and failing assertions are [None]. *Cites* spaces.cpp: 930-938, 953-964, 316-361, 342-352, 425-435, 282-305, 444-509, 598-622, 527-541, 546-558, 511-563, 1029-1040, 143-150, 167-174, 1382-1404, 1073-1085, 1057-1093, 919-928, 1280-1313, 1232-1254, 1217-1334, 1336-1352, 1209-1215, 1354-1372, 1592-1621, 1673-1678, 1803-1823, 1825-1832, 565-587, 1170-1199, 1149-1207, 1692-1703, 1680-1708, 1710-1715, 1747-1762, 1745-1767, 1717-1801, 1523-1551, 1581-1590; tools.cpp: 52-60.
- `DropModel.v` - Spaces with a product symmetry: dropping factors, combining independent symmetries (src/symmetries/spaces.cpp). *Cites* base_symmetry.cpp: 37-60; spaces.cpp: 975-979, 966-989, 1632-1655, 1623-1658, 1095-1147.
- `PipeModel.v` - Model of AbelianLegPipe and LegPipe (src/symmetries/spaces.cpp). Indices and dimensions are unbounded [nat]. *Cites* spaces.cpp: 2863-2873, 2868-2874, 2858-2860, 2897-2899, 2915-2922, 2915-2922, 2974-3029, 3031-3073, 2820-2946, 2948-2969, 3195-3204, 1673-1678, 197-201, 712-720, 208-212, 734-742, 757-763, 214-218, 744-775, 3747-3763, 661-672, 629-655, 795-820; fusion_tree_backend.cpp: 321-332.
- `TreeModel.v` - Model of src/symmetries/trees.cpp: fusion trees, their enumeration, and the moves on them. A FusionTree stores its symmetry by pointer; here the symmetry is a parameter. are_dual (uint8 flags) are booleans, multiplicities (int64, never negative in a tree) are natural numbers. SectorArray / std::vector are lists. Linear combinations (std::map / unordered_map from trees to complex128) are association lists; complex arithmetic is exact over an abstract ring with conjugation. *Cites* trees.cpp: 333-335, 310-351, 978-998, 1000-1019, 353-381, 414-423, 425-434, 395-404, 382-412, 436-463, 1174-1201, 1203-1216, 1229-1246, 1395-1428, 1430-1452, 1551-1624, 1626-1655, 1731-1748, 1726-1752, 1708-1784, 1685-1706, 484-490, 507-511, 515-519, 492-521, 892-976.
- `TensorModel.v` - Model of TensorProduct (src/symmetries/spaces.cpp:1960-2615). Multiplicities and offsets are unbounded [nat]. Simplifications: a factor that is an AbelianLegPipe is treated as the elementary space it is (its flat_legs are not expanded); the symmetry is a parameter, the checks that the symmetries of the factors agree are not modelled. *Cites* spaces.cpp: 1960-2615, 2032-2044, 2032, 2040, 2019-2049, 2056-2069, 2000-2069, 2071-2086, 2126-2134, 2098-2148, 2161-2187, 2189-2203, 2204-2212, 2290-2319, 2321-2335, 2337-2349, 2613-2617, 2478-2484, 2463-2511, 2546-2560, 2351-2360, 2362-2385, 2421-2437, 2408-2440, 2441-2461, 2562-2590, 2396-2397, 2089-2096, 683-693, 2387-2406, 2513-2517, 2540-2544, 2526-2535, 2519-2538, 2592-2611; sector_array.cpp: 167-194; py_spaces.cpp: 1268.
- `BlockModel.v` - Dense blocks (arrays) and the block-backend operations the abelian backend uses. A block is a shape with its entries in C order (last axis fastest), as NumPy stores them; scalars are an arbitrary type with ring operations (the code uses floating point numbers and performs dtype conversions, neither is modelled). Array-library primitives (np.transpose, np.tensordot, np.dot, np.trace, slicing) are modelled by their documented result. *Cites* numpy.cpp: 1209-1216, 924-930, 915-922, 815-843, 1218-1225, 1367-1372, 1357-1365, 1374-1386, 1140-1164, 1166-1196; block_backend.cpp: 838-848, 993-1010, 1083-1098, 693-697, 682-691, 1012-1031, 784-829, 924-982; abelian.cpp: 231-235, 237-241, 243-247.
- `SparseModel.v` - Model of the block-sparse tensors of the abelian backend (src/backends/abelian.cpp). Data: AbelianBackendData holds [block_inds] (rows of sector indices, one column per leg) and as many [blocks] (abelian.cpp:62-66 rejects other sizes); here a list of pairs (row, block). Indices are [nat] (int64 in the code). Legs are in the conventional order codomain ++ reversed(domain); each column of a row indexes the sectors of that factor. Not modelled: dtypes and devices, floating point. *Cites* abelian.cpp: 62-66, 187-205, 56-80, 82-110, 831-855, 3582-3587, 3570-3592, 343-379, 1388-1424, 329-398, 2253-2301, 2760-2779, 693-703, 987-1006, 2793-2850, 2158-2211, 3594-3620, 1302-1328, 1238-1470, 1517-1565, 1221-1235, 2094-2115, 1790-1826, 1828-1858, 594-612, 3438-3457, 3177-3232, 2953-3081, 2852-2951; tensor.cpp: 706-724; misc.py: 256-279.
- `CombineModel.v` - Model of combine_legs and split_legs of the abelian backend (src/backends/abelian.cpp). *Cites* abelian.cpp: 1068-1113, 1083, 1087-1102, 1066-1113, 1134-1168, 1084, 1022-1218, 3264-3277, 3290-3308, 3332-3395, 3319-3341, 3235-3436.
- `TruncModel.v` - Model of the selection of singular values (src/backends/tensor_backend.cpp:138-240, cyten/tools/misc.py:146-157) and of the renormalisation in truncated_svd (src/tensors/decompositions.cpp:674-711). Singular values are real numbers (float64 in the code). np.argsort uses an unstable sort: the sorting permutation [piv] is a parameter, the theorems hold for every sorting permutation. *Cites* tensor_backend.cpp: 138-240, 160-166, 168-229; misc.py: 146-157; decompositions.cpp: 674-711, 687-709.
- `ConfigModel.v` - Model of the global configuration (src/config.cpp, include/cyten/config.h, pybind/py_config.cpp). *Cites* config.h: 15-28; config.cpp: 165-173, 30-37, 39-52, 69-87, 207-220, 182-205, 222-232, 234-262, 267-283, 264-284, 292-311, 313-323, 325-340, 144-157, 466-480, 403-409, 442-456, 342-364; py_config.cpp: 112-125, 10-41.
- `FactoryModel.v` - Model of get_backend (src/backends/backend_factory.cpp). Backend objects carry an identity (the address in the code). *Cites* abelian.cpp: 796-800; no_symmetry.cpp: 889-896; fusion_tree_backend.cpp: 997-1004; backend_factory.cpp: 18-37, 71-128.
- `PermLegsModel.v` - Model of PermuteLegsInstructionEngine (src/backends/fusion_tree_permute.cpp) and of the flattening of leg pipes in FusionTreeBackend::permute_legs (src/backends/fusion_tree_backend.cpp:1440-1528). int64 is modelled by nat (and Z where negative indices occur); assert, throw and out-of-bounds accesses become errors. *Cites* fusion_tree_backend.cpp: 1440-1528, 1511-1518, 1451-1508; fusion_tree_mapping.h: 17-41; fusion_tree_permute.h: 10-15, 21-30; tools.cpp: 51-60; fusion_tree_permute.cpp: 195-209, 398-419, 370-396, 353-368, 219-224, 211-233, 235-263, 265-314, 316-336, 338-351, 106-132, 83-91, 68-104.
- `LinOpModel.v` - Model of the linear operators of src/tensors/sparse.cpp and the direct-sum vectors of src/tensors/direct_sum.cpp. Simplifications: vectors are elements of an abstract complex inner product space (exact arithmetic instead of floats); dtypes, legs, labels and the constructor checks on them are left out; a two-leg tensor is accessed only through the four tensor operations used here ([tensor_ops]).
- `KrylovModel.v` - Model of the Lanczos and Arnoldi solvers of src/tensors/krylov_based.cpp. Simplifications: exact arithmetic; vectors are elements of an abstract inner product space; the dtype arguments, logging and the final norm warning are left out; numpy's eigensolvers are parameters of the model.
- `LegOpsModel.v` - Model of the leg and label bookkeeping of permute_legs, move_leg, combine_legs, combine_to_matrix and split_legs (src/tensors/ops_legs.cpp) on SymmetricTensors. Legs are given as integers (already parsed by get_leg_idcs). Left out: the block data (see SparseModel / CombineModel for the abelian backend), levels and bend_right, DiagonalTensor, Mask and ChargedTensor inputs (which are converted first). *Cites* tensor.cpp: 628-640, 706-724; ops_legs.cpp: 352-414, 416-439, 472-486, 585-637, 640-692, 770-797, 849-917, 694-953, 955-972, 974-1105; tensor_backend.cpp: 126-136; abelian.cpp: 540-560.
- `GmresModel.v` - Model of the linear solver GMRES of src/tensors/krylov_based.cpp, lines 358-527. Simplifications: exact arithmetic; vectors are elements of an abstract inner product space; the option dictionary is a record; the two dimensional array H is stored by columns (column k has the entries 0, ..., k+1, all others are zero); [None] as a result stands for NaN: the C++ code divides by zero, and every entry of the solution (and the returned error) is NaN. *Cites* krylov_based.cpp: 358-527.
- `ArnoldiModel.v` - Model of the eigensolver Arnoldi and of ArnoldiEvolution: src/tensors/krylov_based.cpp, lines 165-200, 301-307 and 532-801. Simplifications: exact arithmetic; vectors are elements of an abstract inner product space; dtypes, logging and the norm warnings are left out; numpy's eig and solve, and the (unstable) std::ranges::sort, are parameters; np.real_if_close is the identity (it only removes imaginary parts of the size of rounding errors). [None] as a result stands for an exception, or for NaN (division by zero). *Cites* krylov_based.cpp: 165-200, 301-307.
- `Hdf5Model.v` - Model of cyten/tools/hdf5_io.py: Hdf5Saver and Hdf5Loader for the types None, int, str, the types stored as plain datasets, list, tuple, set, dict, range, functions and classes, Hdf5Ignored, and instances of Hdf5Exportable with the default save_hdf5 / from_hdf5. Python objects live in a heap; a value is None or the address of an object (its [id]). An HDF5 file is a list of groups and datasets, addressed by their position (the HDF5 object id); position 0 is the root group. [None] as a result is an exception. Simplifications: h5py >= 3.0; the group handed to the saver and loader is the root of the file; the contents of a plain dataset are an opaque string, and reading returns what was written; strings are byte strings; sets are lists of elements (which are different, and are not compared again when loading); the recursion limit of Python, the arguments [exclude] and [format_selection], numpy dtypes and classes with their own save_hdf5 are left out (for masked arrays and objects that fall back to __reduce__ see the end of the file).
- `ConvertModel.v` - Model of the conversion between the data of the abelian backend and of the fusion tree backend: _convert_abelian_to_FT and _convert_FT_to_abelian (src/tensors/helpers.cpp:62-170, 296-609), with the parts of FusionTreeBackend they use. SymmetricTensor.to_backend calls them for tensors without pipes (src/tensors/symmetric_tensor.cpp:636-662 splits the pipes before): the factors of codomain and domain are elementary spaces. Not modelled: dtypes, devices, the conversion between block backends (as_block). *Cites* helpers.cpp: 62-170, 296-609, 62-107, 95-103, 131-140, 142-152, 156-162, 164-168, 325-354, 355-384, 416-450, 402-456, 458-463, 296-463, 484-513, 514-542, 563-592, 543-598, 465-609; symmetric_tensor.cpp: 636-662; fusion_tree_backend.cpp: 46-74, 84-101, 74-82, 1154-1179; block_inds.cpp: 573-590.
- `FtOpsModel.v` - Model of the block operations of the fusion tree backend (src/backends/fusion_tree_backend.cpp): linear algebra on FusionTreeData and the decompositions. Data: rows (index of the coupled sector in the codomain, index in the domain), each with a matrix (a vector for diagonal tensors). Not modelled: dtypes (but see [cast] of [ft_inner]), devices. *Cites* fusion_tree_backend.cpp: 220-243, 46-72; abelian.cpp: 187-205; numpy.cpp: 338-348, 787-804; helpers.cpp: 614-616.
- `MoveModel.v` - Model of FusionTree::bend_leg and FusionTree::twist (src/symmetries/trees.cpp). [None]: an exception or a failed assertion. FusionTreeLinearCombination and FusionTreePairLinearCombination (maps) are association lists. *Cites* trees.cpp: 835-889, 801-834, 1455-1523, 892-976.
- `FtMapModel.v` - Model of the tree mappings of the fusion tree backend (src/backends/fusion_tree_mapping.cpp) and of apply_instructions / permute_legs (src/backends/fusion_tree_backend.cpp): how instructions become a mapping of (pairs of) fusion trees, and how a mapping acts on the data of a tensor. Numbers are exact. dtypes are modelled by one flag (real or complex), as far as they decide whether as_scalar drops an imaginary part. std::unordered_map and std::map are association lists without repeated keys. [None]: an exception. *Cites* numpy.cpp: 338-348; array_api.cpp: 434-442; block_backend.cpp: 856-885, 887-923; fusion_tree_mapping.cpp: 453-478; mappings.h: 119-170; fusion_tree_backend.cpp: 592-632, 1440-1532.
- `TwistModel.v` - Model of the numbers that BaseSymmetry derives from the F and R symbols, as exact complex numbers: base_symmetry.cpp:359-445. *Cites* base_symmetry.cpp: 359-445, 362-363, 370-371, 359-365, 367-372, 374-378, 380-384, 398-404, 422-445.
- `FtScaleModel.v` - Model of FusionTreeBackend::scale_axis for a codomain or domain with several factors (src/backends/fusion_tree_backend.cpp:3569-3640). Not modelled: dtypes, devices. *Cites* fusion_tree_backend.cpp: 3569-3640.
- `AbDecModel.v` - Model of the decompositions of AbelianBackend (src/backends/abelian.cpp: eigh 1758-1787, lq 2303-2381, qr 3083-3148, svd 3460-3570). The tensor has one codomain leg and one domain leg (the front end combines several legs into a pipe, helpers.cpp:614-645; a pipe is an ElementarySpace here). Rows of the data: [codomain leg sector, domain leg sector]. Not modelled: dtypes, devices. *Cites* helpers.cpp: 614-645.
- `AbDiagModel.v` - Model of the operations of AbelianBackend on diagonal tensors (src/backends/abelian.cpp). Data of a diagonal tensor on the leg [L]: rows [n; n], blocks are vectors. [diagonal_tensor_to_block] is [ab_diag_block] (AbDecModel.v), scale_axis is in SparseModel.v. Functions of blocks are given by what they do with an entry. Not modelled: dtypes, devices. *Cites* abelian.cpp: 62-66; numpy.cpp: 787-804.
- `MaskModel.v` - Model of the masks of AbelianBackend (src/backends/abelian.cpp). Data of a projection from the leg [L] to a smaller leg: rows [small; large], blocks are vectors of booleans over the states of the sector of the large leg. Inclusions have rows [large; small]. Functions of blocks are given by what they do with an entry. Not modelled: dtypes, devices. *Cites* numpy.cpp: 606-612, 701-732, 749-768; block_backend.cpp: 738-757.
- `SiteModel.v` - Model of the numpy part of the site library (src/models/degrees_of_freedom.cpp, src/models/sites.cpp): the operators, state labels and basis sectors that the sites with spin, bosonic, fermionic and clock degrees of freedom are built from. Simplifications: floating point numbers are real/complex numbers, so `np.allclose` conditions are exact; a d x d array is a function of two indices (only the indices below d matter); a 3-dimensional array [d, d, K] is a function of the last index; string labels are represented by the numbers they print. *Cites* degrees_of_freedom.cpp: 187-191, 571-586, 998-1009, 1011-1053, 690-740, 733-739, 843-859, 862-873, 801-815, 820-828, 1186-1192, 1094-1110, 1143-1167, 458-478; sites.cpp: 273-295, 163-190, 268-294, 260-295, 735-748, 317-318, 217-229, 297-431, 397-427, 433-535, 433-503, 505-530, 537-625, 627-664.
- `CouplingModel.v` - Model of the dense blocks of the couplings (src/models/couplings.cpp): the numpy arrays with the legs [p0, p1, ..., p1*, p0*] that are handed to Coupling::from_dense_block. Simplifications: floating point numbers are real/complex numbers; an n-dimensional array is a function of the list of its n indices (only indices below the dimensions matter); the conversion of the dense block into a symmetric tensor and its factorisation are not part of this file. *Cites* couplings.cpp: 860-891, 893-928, 930-954, 956-965, 967-992, 994-1010, 1012-1030, 1032-1065, 1145-1192, 1194-1218, 159-167, 194-254, 1067-1081, 1099-1143; degrees_of_freedom.cpp: 876-892, 1143-1167.
- `CPermModel.v` - Permuting the sites of a coupling and padding it with identities (src/models/couplings.cpp). *Cites* couplings.cpp: 337-362, 73-84, 92-108, 573-619, 500-571, 679-798, 628-677, 409-450; degrees_of_freedom.cpp: 443-455.
- `PlanarModel.v` - Model of planar_permute_legs and parse_leg_bipartition (src/tensors/planar.cpp) and of the parsing of bend_right in permute_legs (src/tensors/ops_legs.cpp). Legs are given as indices (already parsed by get_leg_idcs, hence smaller than num_legs). int64 is modelled by nat: the differences that occur are not negative (they could be for lists that name a leg twice, where the number of loop iterations is 0 as here). Left out: DiagonalTensor, Mask and ChargedTensor inputs of permute_legs. *Cites* planar.cpp: 45-50, 52-61, 135-170, 2943-2988, 2557-2618, 2620-2875; ops_legs.cpp: 376-530.
- `PtModel.v` - Model of planar_partial_trace (src/tensors/planar.cpp), of the duplicate check of partial_trace (src/tensors/ops_algebra.cpp) and of the order of legs in FusionTreeBackend::partial_trace (src/backends/fusion_tree_backend.cpp). Legs are indices (already parsed by get_leg_idcs, hence smaller than num_legs). Left out: the check that the legs of a pair are dual to each other (check_legs), and the values of the result. *Cites* planar.cpp: 2286-2294, 2282-2304, 2262-2352, 2360-2382, 2384-2433, 2248-2447; fusion_tree_backend.cpp: 2903-2969; ops_algebra.cpp: 1390-1402.
- `PcModel.v` - Model of planar_contraction and _planar_contraction_helper (src/tensors/planar.cpp) with compose and partial_compose (src/tensors/ops_algebra.cpp) at the level of legs: which legs are joined and which legs the result has. Legs are given as indices (already parsed by get_leg_idcs). int64 is modelled by nat: the differences that are negative (num_bends) are only compared with 0. Left out: labels, the agreement of the spaces of joined legs (joining legs with different spaces is an error of compose and partial_compose), DiagonalTensor, Mask and ChargedTensor inputs. *Cites* ops_algebra.cpp: 614-676, 1250-1372; planar.cpp: 2990-3094, 2050-2148.
- `TdModel.v` - Model of tdot (src/tensors/ops_algebra.cpp) at the level of legs: which legs are joined, which legs the result has and in which order, and its labels. Legs are given as indices (already parsed by get_leg_idcs, hence smaller than num_legs). Left out: ChargedTensor inputs, the agreement of the spaces of joined legs (check_legs), equal labels among the open legs (without relabel1 and relabel2, composing two SymmetricTensors drops them). *Cites* ops_algebra.cpp: 1373-1520, 1702-1710, 1574-1621, 1695-1747, 1748-1796, 1798-1810, 1812-1826, 1828-1850, 1851-1872, 1904-1918, 1654-1669, 1671-1694; ops_legs.cpp: 331-640, 360-368, 369-376, 251-283; helpers.cpp: 213-257, 259-300.
- `OpModel.v` - Model of the operator names of a site (src/models/degrees_of_freedom.cpp): adding on-site operators and looking up products of them by name. std::string is a list of characters, std::map<std::string, _> an association list without repeated keys. An operator is an element of an arbitrary type with an arbitrary [compose] that always succeeds: operators that fit the leg of the site have equal domain and codomain, with one leg each, so compose neither fails nor returns a number. Left out: the labels (add_onsite_operator sets them to p, p* on a shallow copy), replacing the whole dictionary from python. *Cites* degrees_of_freedom.cpp: 366-370, 320-364, 261-277, 372-402, 404-418, 420-441.
- `PcombModel.v` - Model of planar_combine_legs (src/tensors/planar.cpp): which legs are bent before the legs are combined. Legs are indices smaller than num_legs (parsed by get_leg_idcs). The result are the codomain and domain handed to planar_permute_legs and the groups, as legs of its result, handed to combine_legs. Left out: the pipes and their dualities. *Cites* planar.cpp: 1968-1982, 1984-1986, 1991-2009, 2010-2037.

## Simplifications and what is not modelled

* Integers are unbounded `Z`/`nat` unless the property is about overflow (C06, C07, C11: int16 sectors).
* Floating point numbers are exact: elements of an abstract commutative ring (with conjugation), real or complex numbers.  Rounding is not modelled,
  with the exception of the truncation in `SUN.sector_dim` (C13).  Hence statements about tolerances (`eps`) are about exact values.
* numpy/torch block operations (`BlockModel.v`) and numpy's eigensolvers, `argsort`, `solve` are modelled by their documented result or are
  parameters constrained by their documented contract; their implementation is trusted.
* C++ exceptions and failing assertions are values.  Most theorems assume the shipped build type (assertions on); where the difference matters the
  model has a `debug` flag or the theorem a remark.
* `std::unordered_map` iteration order is an arbitrary list order.  `std::sort` (unstable) is a parameter wherever ties matter.
* Not modelled at all: the pybind11 binding layer (except argument checks cited), GPU/device handling, dtype conversion of blocks (only the dtype
  lattice, C46), threads, performance, printing (`__repr__`, ascii diagrams), the torch and array-API block backends, randomness in constructors.
* Not modelled functions of note: parts of `fusion_tree_backend.cpp` (outer, partial trace and partial compose; masks; conversion from and to
  dense arrays for non-abelian symmetries), `planar.cpp`, `ops_elementwise.cpp`, `charged_tensor.cpp`, `models/*`, the SU(N) Clebsch-Gordan tables.

## Findings (deviations of the code, as modelled, from what its documentation says)

Those marked [T] are witnessed by a `_refuted` theorem.

* [T] `Z_N` with N > 32768: sectors do not fit into int16, fusion is not closed (C06). [T] U(1)/SU(2) sums beyond int16 wrap (C07, C11).
* [T] `ZNAnyonCategory` with a negative `n` raises no flag although the symbols are those of another category; n = -1 and n = N-1 compare different (C08, C15).
* [T] Ising anyons: the hand written C symbol deviates from R F R* (C10).  Product symmetries use the default and are not affected.  The wrong symbols
  are still unitary, so that braiding back works and norms are preserved (C20_Ising_inverse, C62_instances).
* [T] SU(N), N >= 4: `sector_dim` truncates a float product; the irrep key string is ambiguous (C13).
* [T] Labels: splitting nested combined labels, placeholders `?n`, duplicate labels in a Release build, `set_label(None)` (C42-C44).
* [T] Cost polynomials: a zero exponent breaks equality (C45).  [T] common dtype of int64 and float32 is float32 (C46).
* [T] `ElementarySpace.take_slice` uses a different basis convention than `from_basis` for non-abelian sectors (C26); `is_trivial` of the empty space
  reads out of bounds (C29); `drop_symmetry` with repeated indices drops everything, dropping one non-abelian factor loses dimension (C32).
* `AbelianLegPipe.from_independent_symmetries` drops `combine_cstyle`.  [T] `as_Space` of nested pipes and `right_multiply` (C33).
* [T] `FusionTree.insert_at` of an empty tree at the last of >= 3 legs keeps one inner sector too many (C18).
* [T] `inner`/`compose` of tensors without legs raise IndexError in `misc.make_stride([])` (C36, C37); `eye_data` with 0 factors as well.
  `test_tensor_sanity` does not check the charge rule.  Composition of covector and vector casts the result to the dtype of the first.
* [T] Truncation: `chi_max = 0` keeps one value by design; `svd_min` ignores quantum dimensions when others respect them; `err` and `new_norm` are squares although
  documented as norms, hence `truncated_svd(normalize_to=...)` yields a wrong norm (C41, C53).
* [T] Config: NaN accepted for `fusion_tree_eps`; a failing `temporary_options.__enter__` leaves earlier changes in place; an invalid config file is
  applied partially (C47).  A missing `CYTEN_CONFIG_FILE` makes every `get_config` raise.
* [T] `combine_legs`: `pipe_dualities` and `pipes` are consumed in order of the first legs, not of the groups given (C52); `AbelianBackend::make_pipe`
  does not check the legs of a given pipe; `combine_to_matrix` with an empty side reads `group[0]` of an empty vector; `permute_legs` with only one of
  codomain/domain does not check duplicates.
* [T] `ProjectedLinearOperator` with non-orthonormal vectors is no projection; `E_shift` in Lanczos modifies the caller's projected operator (C50, C55).
* [T] GMRES: the Givens rotation is not unitary for complex entries (result can be worse than the guess); exact early breakdown gives NaN with default
  options, e.g. for the identity (C56).
* [T] Arnoldi: values beyond the number of steps are zeros; running twice uses a stale cache; `ArnoldiEvolution` fails for defective operators (C57).
* `speigs`/`speigsh` with `return_eigenvectors=False` return all eigenvalues instead of the selected ones (not modelled).
* [T] HDF5: a tuple that contains itself loads as a list; an empty string as dictionary key fails or, at the root, silently replaces the contents; insertion
  order of dictionaries and the type np.bool_ are lost; lists with `Hdf5Ignored` elements cannot be loaded; scalars cannot be saved to '/'; masked arrays with nothing
  masked and all elements equal to the fill value load as fully masked; objects saved via `__reduce__` with list or dict items lose them: `save_reduce` writes
  `state` in their place (C49).  The call `save_global(obj, REPR_GLOBAL)` lacks the path argument; `load_reduce` with a state setter does not overwrite the memo
  entry although the comment says so (`setdefault`).
* `SymmetricTensor.to_backend` from the abelian to the fusion tree backend for a tensor without any legs calls `combine_legs` with one empty group,
  which reads `front()` of an empty vector (C40 therefore asks for at least one leg).
* [T] `FusionTreeBackend::inner(a, b)` casts every term to the dtype of `a`: for real `a` and complex `b` the imaginary part is silently dropped; the abelian backend keeps it
  (C58).
* [T] `FusionTreeBackend::scale_axis` with pipes: `for (i = 0; i < co_domain_idx; ++i) co_domain_idx += ...` changes the bound of its own loop, so that legs behind a
  pipe are located wrongly (a different leg is scaled) or `flat_leg_idcs` raises (C58).
* [T] `FactorizedTreeMapping::transform_tensor` converts the coefficients of the mapping to the dtype of the old block, `TreePairMapping` to the common dtype: for a real tensor and a
  symmetry with complex R symbols the first drops the imaginary parts.  Latent: `SymmetricTensor::verify_dtype` rejects real dtypes for such symmetries (C60).
* [T] `AbelianBackend::diagonal_elementwise_binary` with `partial_zero_is_zero = true`: when the first tensor has no block of a sector and the second has, `continue` skips advancing the index of the
  second, so all later blocks of the second are lost (e.g. the product becomes zero).  No operator passes true; reachable through the public `_elementwise_binary` (C64).
* [T] `quadratic_coupling_numpy` (hopping, pairing) takes the operators of the second site from the first site (`occ_i` instead of `occ_j`): silently wrong for different sites of equal dimension, an exception
  for different dimensions.  A second species list that is shorter than the first raises although zip is documented.  `onsite_pairing` with the default species is the zero operator for fermions (C67).
* [doc] `density_density_interaction`: the documentation warns that the coupling is not hermitian for different species; it is always hermitian (C66).
* [T] `Coupling.permute` does not compare the length of the permutation with the number of sites: a shorter one is accepted and gives a coupling with too few levels (its own `permute` always raises), a longer one
  reads beyond the end of the site list.  The levels, documented as ignored for symmetric braids, must be distinct there too (C68).
* [T] `planar_permute_legs(T, codomain=[], domain=[])` on a tensor with legs on both sides reads `domain_staying[0]` of an empty vector; a codomain that names every leg twice, once around the circle after the
  other, passes its checks (C69).
* [T] `FusionTreeBackend::partial_trace` sorts the pairs before it sorts the legs within the pairs: for pairs given in descending order, e.g. `partial_trace(T, [(2, 3), (5, 0)])` with legs 1 and 4 remaining, the pair
  (2, 3) is torn apart in the order of legs, and the trace is evaluated for legs that are not a pair.  `planar_partial_trace` with one pair that is fine followed by a list with less than two legs reads beyond its end (C70).
* [T] `planar_contraction`: (a) full contraction of the second tensor while it is bent down uses the contracted legs in the wrong order: three legs give "non-planar permutation", two legs are joined crosswise
  (`planar_contraction(bra, ket, [0, 1], [1, 0])` for a tensor with two domain legs and one with two codomain legs); (b) a full contraction of the first tensor whose partners do not start at the partner of leg 0 is rejected;
  (c) `_planar_contraction_helper` assumes that bending on one side is enough: contracting the first and the last leg of a tensor without domain legs, or all legs except one in the middle of the domain, contracts
  wrong legs (an error if their spaces differ, silently wrong otherwise); (d) no contracted legs and a second tensor without legs: an error (C71).
* [T] `tdot`: (a) `Mask` or `DiagonalTensor` as first tensor with one contracted leg permutes with `codomain=legs1` where `legs2` is meant, `Mask` as second tensor with `domain=legs2` where `legs1` is meant:
  another leg ends up on the wrong side (or "leg index out of range") unless the two numbers agree; (b) `Identity` as second tensor: the permuted tensor is computed and ignored, the legs stay where they were and relabelled
  labels land on wrong legs; (c) `Identity` with both legs contracted with a matrix: `bend_legs` is called on a number; (d) `relabel1`/`relabel2` with a full contraction: `set_labels` is called on a number (C72).
* [T] `Site.get_op`: names "separated by whitespace" with a leading or doubled space are reported as the missing operator `''` (a trailing space is ignored); `multiply_op_names` is documented to return "a valid operator name",
  but `valid_opname` is false for every product of two names (C73).
* [T] `planar_combine_legs`: (a) a group with the first and the last leg of a tensor without domain legs - e.g. all legs of a vector, or the only leg - takes elements of an empty `std::vector`; likewise a wrapped group of a
  tensor without codomain legs; (b) a group around both ends that leaves out legs takes more elements than there are, or its legs beyond the left end are not bent (C74).
