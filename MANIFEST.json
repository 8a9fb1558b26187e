{
 "claims": [
  {
   "property": "C01",
   "status": "proved",
   "theorems": [
    "C01_qn_add_values",
    "C01_qn_neg_values",
    "C01_qn_sub_values",
    "C01_qn_add_comm",
    "C01_qn_add_assoc",
    "C01_qn_add_zero",
    "C01_qn_inverse",
    "C01_qn_sub_undoes_add",
    "C01_qn_arrow",
    "C01_qset_int32",
    "C01_qset_int32_refuted",
    "C01_five_names_refuted"
   ],
   "note": "Group laws for all QNs over a scheme of at most four names. _refuted theorems record int overflow in QNum::set and the silent loss of a charge beyond four names."
  },
  {
   "property": "C02",
   "status": "proved",
   "theorems": [
    "C02_qn_order_independent",
    "C02_qn_lookup",
    "C02_qn_eq_extensional",
    "C02_qn_values_reduced",
    "C02_qn_h5_roundtrip_refuted"
   ],
   "note": "Order independence, lookup, extensional ==, residues. _refuted: the HDF5 round trip leaves an inactive first slot."
  },
  {
   "property": "C03",
   "status": "proved",
   "theorems": [
    "C03_qn_lt_lexicographic",
    "C03_qn_lt_strict_order",
    "C03_qn_lt_five_names_refuted"
   ],
   "note": "operator< is the lexicographic order for schemes of at most four names; totality refuted beyond."
  },
  {
   "property": "C04",
   "status": "partial",
   "theorems": [
    "C04_tagset_history",
    "C04_tagset_nodup",
    "C04_tagset_eq",
    "C04_tagset_hasTags",
    "C04_tagset_add_order",
    "C04_tagset_text",
    "C04_removeTag_partial",
    "C04_removeTag_full_refuted",
    "C04_only_full_removal_undefined"
   ],
   "note": "Refinement of every history to a mathematical set, ==, hasTags, text form. Missing (and false of the code): removing a tag from a full (four-tag) set reads past the array, C04_removeTag_full_refuted; C04_only_full_removal_undefined shows this is the only such case."
  },
  {
   "property": "C05",
   "status": "proved",
   "theorems": [
    "C05_addTag_outcome",
    "C05_add_present_to_full_refuted",
    "C05_long_tag_refuted"
   ],
   "note": "addTag either succeeds with nothing lost or errs for one of the two stated reasons. _refuted: adding a present tag to a full set errs; an over-long tag in the text constructor overruns its buffer in release builds."
  },
  {
   "property": "C06",
   "status": "proved",
   "theorems": [
    "C06_equal",
    "C06_prime",
    "C06_setPrime",
    "C06_noPrime",
    "C06_prime_additive",
    "C06_negative_level",
    "C06_dag",
    "C06_prime_differs",
    "C06_sim",
    "C06_dim",
    "C06_dim_refuted",
    "C06_less_strict",
    "C06_less_total_refuted"
   ],
   "note": "Equality, priming (both builds), dag, sim, dimension, strictness of <. _refuted: dimensions beyond 32 bits are silently narrowed; operator< does not order indices that differ in tags only."
  },
  {
   "property": "C07",
   "status": "proved",
   "theorems": [
    "C07_common",
    "C07_unique",
    "C07_partition",
    "C07_union",
    "C07_noncommon",
    "C07_same_inds",
    "C07_equals",
    "C07_find",
    "C07_duplicates_refuted"
   ],
   "note": "Membership, order and distinctness of common/unique/union/noncommonInds, hasSameInds as permutation, equals, findIndex. _refuted: hasSameInds and unionInds(vector) with repeated indices."
  },
  {
   "property": "C08",
   "status": "proved",
   "theorems": [
    "C08_selected_only",
    "C08_succeeds",
    "C08_debug_no_duplicates",
    "C08_release_duplicates_refuted",
    "C08_repeated_selector_refuted"
   ],
   "note": "All eight operations and three kinds of selector, DEBUG and release. _refuted: release builds create repeated indices silently; an index listed twice in a selector is changed twice."
  },
  {
   "property": "C09",
   "status": "proved",
   "theorems": [
    "C09_swapPrime",
    "C09_swapPrime_debug",
    "C09_swapPrime_twice",
    "C09_private_level_refuted",
    "C09_swapTags",
    "C09_swapTags_twice",
    "C09_swapTags_succeeds",
    "C09_both_tags_refuted",
    "C09_level_tags_refuted",
    "C09_overlap_refuted"
   ],
   "note": "Exchange, involution and success for swapPrime and swapTags, all selectors. _refuted: the private level is changed, an index carrying both tag sets loses one, level-only swaps of an index with three tags read past its array, partial overlap breaks the involution."
  },
  {
   "property": "C10",
   "status": "proved",
   "theorems": [
    "C10_offset_bijection",
    "C10_column_major",
    "C10_reordered",
    "C10_isContiguous",
    "C10_isContiguous_refuted",
    "C10_too_many_refuted"
   ],
   "note": "Bijection, column-major order, permuted views, and the exact condition for isContiguous. _refuted: isContiguous with colliding strides; too many index values in a release build."
  },
  {
   "property": "C11",
   "status": "proved",
   "theorems": [
    "C11_range_loop",
    "C11_gcounter_loop",
    "C11_zero_extent_refuted",
    "C11_gcounter_empty_refuted",
    "C11_order_zero_refuted",
    "C11_postfix_refuted"
   ],
   "note": "Range iterator and GCounter loops visit each multi-index exactly once, in order, with the right offset, and end. _refuted: zero extents, empty GCounter ranges, order 0, postfix increment."
  },
  {
   "property": "C12",
   "status": "proved",
   "theorems": [
    "C12_calcPerm",
    "C12_calcPerm_throws",
    "C12_inverse",
    "C12_permute",
    "C12_permute_calcPerm",
    "C12_isTrivial",
    "C12_calcPerm_subset_refuted"
   ],
   "note": "calcPerm, inverse, permute, isTrivial for all sizes. _refuted: proper subsets are not detected."
  },
  {
   "property": "C13",
   "status": "proved",
   "theorems": [
    "C13_elt",
    "C13_set",
    "C13_set_elt",
    "C13_errors",
    "C13_out_of_range_refuted",
    "C13_repeated_index_refuted"
   ],
   "note": "all orders and permutations of IndexVals. _refuted: out-of-range values and repeated IndexVals are not detected."
  },
  {
   "property": "C14",
   "status": "proved",
   "theorems": [
    "C14_contract_kernel",
    "C14_product",
    "C14_product_deterministic",
    "C14_beta_refuted"
   ],
   "note": "label-level contract with alpha/beta and tensor-level operator*, over any commutative semiring. _refuted: beta<>0 with a permuted C loses beta*C."
  },
  {
   "property": "C15",
   "status": "proved",
   "theorems": [
    "C15_commute",
    "C15_scalar_product",
    "C15_distributes",
    "C15_associative"
   ],
   "note": "commutation, scalar operands, distribution over daxpy, and associativity when no index is in all three tensors."
  },
  {
   "property": "C16",
   "status": "proved",
   "theorems": [
    "C16_daxpy",
    "C16_plus",
    "C16_minus",
    "C16_errors",
    "C16_permute",
    "C16_permute_error",
    "C16_plus_commutes"
   ],
   "note": "daxpy, +=, -= (incl. self), permute and their errors."
  },
  {
   "property": "C17",
   "status": "proved",
   "theorems": [
    "C17_combine",
    "C17_uncombine",
    "C17_roundtrip",
    "C17_combine_elements",
    "C17_refused",
    "C17_both_refuted",
    "C17_qn",
    "C17_qn_sectors",
    "C17_qn_roundtrip",
    "C17_qn_made",
    "C17_qn_arrows",
    "C17_qn_missing",
    "C17_qn_missing_release_refuted"
   ],
   "note": "Dense tensors: combine, uncombine, round trip and refusals for all orders and subsets, both builds. Tensors with QNs (C17_qn...): construction of the combined index and its table, combine, uncombine, round trip, flux and charges, refusals. _refuted: a tensor having the combined index and one of the combined ones gets a repeated index in release builds; a missing combined index is not checked for QN tensors in release builds."
  },
  {
   "property": "C18",
   "status": "proved",
   "theorems": [
    "C18_ncprod",
    "C18_scalars_refuted"
   ],
   "note": "operator/=; the order-0/order-0 case is undefined behaviour (_refuted)."
  },
  {
   "property": "C19",
   "status": "proved",
   "theorems": [
    "C19_get",
    "C19_set",
    "C19_out_of_range_refuted"
   ],
   "note": "Reading and setting any element of any well-formed block tensor. _refuted: an out-of-range value reads past the block list."
  },
  {
   "property": "C20",
   "status": "proved",
   "theorems": [
    "C20_make",
    "C20_div",
    "C20_set",
    "C20_set_other_flux_refuted"
   ],
   "note": "Construction for a flux, div, set within the flux. _refuted: set() of an element of another flux is not refused and leaves a tensor of two fluxes."
  },
  {
   "property": "C21",
   "status": "proved",
   "theorems": [
    "C21_sum",
    "C21_add",
    "C21_refused",
    "C21_zero_left_refuted",
    "C21_scalar_refuted"
   ],
   "note": "All block subsets, index orders, factors and every std::sort. _refuted: a zero tensor without blocks cannot be the left operand of a sum of non-zero flux; a scalar without storage swallows the sum."
  },
  {
   "property": "C22",
   "status": "proved",
   "theorems": [
    "C22_product",
    "C22_dense",
    "C22_refused",
    "C22_deterministic",
    "C22_flux",
    "C22_flux_neither_refuted"
   ],
   "note": "Values for every block structure and index order, equality with the dense product after removeQNs, flux addition for opposite arrows, independence of uninitialised memory, refusal of equal arrows. _refuted: an arrow Neither meeting In/Out passes the check but flux is then not the sum."
  },
  {
   "property": "C23",
   "status": "proved",
   "theorems": [
    "C23_threads",
    "C23_tasks",
    "C23_interleavings",
    "C23_rounding_refuted"
   ],
   "note": "All schedules of the first loop and all interleavings of the second, every std::sort. Exact arithmetic: same tensor as the serial build. Any arithmetic: tasks are race free and all complete interleavings agree. _refuted: in IEEE binary64 the dynamic schedule of the first loop changes the rounding (witness computed with Coq's SpecFloat)."
  },
  {
   "property": "C24",
   "status": "proved",
   "theorems": [
    "C24_truncate",
    "C24_respect_degenerate",
    "C24_respect_degenerate_empty_refuted",
    "C24_mindim_zero_spectrum_refuted",
    "C24_maxdim_zero_refuted",
    "C24_mindim_zero_refuted"
   ],
   "note": "Exact rationals for Real. Holds for every spectrum with positive largest value and MaxDim, MinDim >= 1; RespectDegenerate keeps or drops the whole window. _refuted: RespectDegenerate can keep nothing, an all-zero spectrum ignores MinDim, MaxDim=0 or MinDim=0 reads before the array."
  },
  {
   "property": "C25",
   "status": "partial",
   "theorems": [
    "C25_discarded_weight",
    "C25_relative_partial",
    "C25_relative_normalised",
    "C25_relative_refuted",
    "C25_respect_degenerate_refuted"
   ],
   "note": "Exact in absolute modes. In the default relative mode the code reports the fraction multiplied by the largest value (C25_relative_partial, C25_relative_refuted); with RespectDegenerate the number is stale."
  },
  {
   "property": "C26",
   "status": "proved",
   "theorems": [
    "C26_bound",
    "C26_selection",
    "C26_tie_refuted",
    "C26_degenerate_choice_refuted",
    "C26_negative_refuted"
   ],
   "note": "C26_bound for every input; C26_selection gives equality with the decided dimension when no value sits exactly on the upper threshold. _refuted: ties, block-order choice in the window, negative eigenvalues."
  },
  {
   "property": "C27",
   "status": "partial",
   "theorems": [
    "C27_lookup_partial",
    "C27_operations_succeed_partial",
    "C27_getters_partial",
    "C27_text",
    "C27_names",
    "C27_lookup_with_equals_refuted",
    "C27_remove_eighth_refuted",
    "C27_assign_global_refuted"
   ],
   "note": "Map semantics for everything a program can do, text form, typed getters. Missing because false: removing a name while exactly eight are stored (C27_remove_eighth_refuted, inherited from C28). Also refuted: lookups spelled with '=' never match; assigning the global Args keeps old entries."
  },
  {
   "property": "C28",
   "status": "partial",
   "theorems": [
    "C28_history_partial",
    "C28_history_sized_partial",
    "C28_history_without_erase",
    "C28_history_inline",
    "C28_swap_partial",
    "C28_swap_refuted",
    "C28_erase_boundary_refuted",
    "C28_moved_from_refuted",
    "C28_equality",
    "C28_at"
   ],
   "note": "Refinement of every history to a list, except after an erase from ArrSize+1 to ArrSize elements, where the code is wrong (C28_erase_boundary_refuted, all capacities); the other side of swap and moved-from arrays are refuted likewise."
  },
  {
   "property": "C29",
   "status": "proved",
   "theorems": [
    "C29_history",
    "C29_history_range",
    "C29_bounds",
    "C29_dot",
    "C29_clear_size_refuted"
   ],
   "note": "Total-map semantics for every history, bounds, dot. _refuted: clear() leaves size() and the bounds, and dot after clear reads freed storage."
  },
  {
   "property": "C30",
   "status": "proved",
   "theorems": [
    "C30_int",
    "C30_long",
    "C30_string",
    "C30_vector",
    "C30_args",
    "C30_sweeps",
    "C30_qn",
    "C30_tags",
    "C30_index",
    "C30_index_default",
    "C30_indexset",
    "C30_sites",
    "C30_storage",
    "C30_itensor",
    "C30_mps",
    "C30_file",
    "C30_sequence",
    "C30_injective",
    "C30_index_reuse_refuted",
    "C30_index_blocks_refuted",
    "C30_itensor_null_refuted",
    "C30_itensor_reuse_refuted",
    "C30_mpo_refuted",
    "C30_truncated_refuted",
    "C30_qnum_mod_refuted",
    "C30_sites_empty_refuted",
    "C30_tagset_roundtrip",
    "C30_tagset_noTags_refuted"
   ],
   "note": "Byte-level round trip, with whatever follows in the stream left in place, for integers, strings, vectors, Args, Sweeps, QN, TagSet, Index, IndexSet, SiteSet, every storage type, ITensor and MPS; into any old object for the plain types, into a new object for those that hold tags. _refuted: reading into an object that is not new merges tags, keeps quantum-number blocks or keeps the storage; an MPO's reference norm is lost; a truncated file is accepted; a QNum with a large modulus cannot be read back; noTags() tags come back."
  },
  {
   "property": "C31",
   "status": "proved",
   "theorems": [
    "C31_setter",
    "C31_setter_function",
    "C31_table",
    "C31_ramp",
    "C31_ramp_single_sweep_refuted",
    "C31_expramp",
    "C31_expramp_overflow_refuted",
    "C31_setter_no_sweeps_refuted"
   ],
   "note": "Setter lists (values, Repeat, trailing function), table, RampM and ExpM in exact arithmetic. _refuted: single-sweep RampM and long ExpM convert NaN / an out-of-range double to int; zero sweeps reads past the vector."
  },
  {
   "property": "C32",
   "status": "proved",
   "theorems": [
    "C32_sweep_visits",
    "C32_every_bond_twice",
    "C32_too_short_refuted"
   ],
   "note": "Exact visit list of the sweepnext loop for every N and NumCenter; refuted (never ends) for chains shorter than NumCenter."
  },
  {
   "property": "C33",
   "status": "proved",
   "theorems": [
    "C33_make",
    "C33_mul",
    "C33_mul_real",
    "C33_div",
    "C33_neg",
    "C33_add",
    "C33_add_debug",
    "C33_order",
    "C33_magnitude",
    "C33_approx",
    "C33_pow",
    "C33_sqrt",
    "C33_real0",
    "C33_zero_refuted",
    "C33_pow_negative_refuted",
    "C33_div_zero_refuted",
    "C33_nan_refuted"
   ],
   "note": "Exact reals for Real (standard library axioms of Reals). Construction, products, quotients, sums (both builds), order, magnitude order, pow, sqrt, real0, approxEquals. _refuted: zeros made by multiplication compare unequal to and greater than zero, pow of a negative number, division by zero in release builds, NaN compares greater."
  },
  {
   "property": "C34",
   "status": "proved",
   "theorems": [
    "C34_order",
    "C34_product",
    "C34_equality_refuted"
   ],
   "note": "Order and value of the term in every algebra with fermionic exchange rules. _refuted: HTerm::operator== on equal terms reads past the end."
  },
  {
   "property": "C35",
   "status": "proved",
   "theorems": [
    "C35_sum",
    "C35_set_order",
    "C35_statement",
    "C35_rejects"
   ],
   "note": "Every history of adds, every += statement, error cases, and the ordering of the term set."
  },
  {
   "property": "C36",
   "status": "proved",
   "theorems": [
    "C36_exact",
    "C36_exact_qn",
    "C36_sort_refuted",
    "C36_same_site_refuted",
    "C36_site_zero_refuted"
   ],
   "note": "Every matrix element, all lengths, all one- and two-site terms; with QNs provided std::sort keeps zero-QN elements in order. _refuted: an unstable sort, two operators on one site, and site 0 give a wrong MPO without an error."
  },
  {
   "property": "C37",
   "status": "partial",
   "theorems": [
    "C37_terms",
    "C37_electron",
    "C37_fermion",
    "C37_exchange",
    "C37_tables",
    "C37_odd_refuted",
    "C37_exact_fermion",
    "C37_exact_electron_signs",
    "C37_exact_sign_refuted"
   ],
   "note": "Default conversion: all even terms, electron and spinless site tables, exchange signs. Exact conversion: right for spinless sites; for electron sites the sign is wrong for Cdn as first or Cdagdn as second operator (C37_exact_electron_signs, C37_exact_sign_refuted). Odd terms refuted."
  },
  {
   "property": "C38",
   "status": "proved",
   "theorems": [
    "C38_history",
    "C38_position",
    "C38_position_svd",
    "C38_norm",
    "C38_total",
    "C38_unlinked_refuted",
    "C38_slot0_refuted"
   ],
   "note": "Entries over any commutative ring, any decomposition that keeps its promise; histories of get, set, change, scale, position (both methods), svdBond. position keeps every amplitude and the norm is that of the centre. _refuted: neighbours that share no Index are skipped although the limits move; ref(0) on one site puts the centre at 0."
  },
  {
   "property": "C39",
   "status": "partial",
   "theorems": [
    "C39_transparent",
    "C39_memory",
    "C39_unload_partial",
    "C39_two_refs_refuted",
    "C39_unload_missing_refuted",
    "C39_unload_stale_refuted",
    "C39_null_refuted",
    "C39_dag_refuted",
    "C39_boundary_refuted"
   ],
   "note": "Programs over any number of MPS with copies, doWrite(true) at any time, all accesses: same observations as without paging. doWrite(false) only when every file is current (C39_unload_partial); in general it throws or loses changes (refuted). Also refuted: two references that are not neighbours, storing a null tensor, dag(), boundary tensors."
  },
  {
   "property": "C40",
   "status": "proved",
   "theorems": [
    "C40_current",
    "C40_succeeds",
    "C40_shift_fromright_refuted",
    "C40_reset_mps_refuted",
    "C40_projects",
    "C40_energy",
    "C40_write_jump_refuted",
    "C40_stale_refuted",
    "C40_write_off_refuted",
    "C40_write_boundary_refuted",
    "C40_short_refuted"
   ],
   "note": "LocalMPO in memory and on disk: after every history of position, numCenter, in-window changes of psi, shift, reset and doWrite(true), L() and R() equal the edges recomputed from the current psi (C40_current), no such call fails (C40_succeeds), and product is the projection of the whole MPO, 0, 1 or 2 centre sites, over any commutative ring with conjugation (C40_projects, C40_energy). _refuted: jumps in write mode that reuse the old right position, shift from the right, reset on an MPS projector, stale edges after outside changes, doWrite(false), boundary tensors in write mode, chains as short as the centre."
  },
  {
   "property": "C41",
   "status": "proved",
   "theorems": [
    "C41_add",
    "C41_mismatch",
    "C41_sum",
    "C41_terminates",
    "C41_one_site_refuted",
    "C41_empty_refuted"
   ],
   "note": "addAssumeOrth is exact on every configuration for states on the same sites; sum(vector) of any number of terms ends and is the sum of all amplitudes, for any orthogonalize that keeps the state. _refuted: one-site states cannot be added; the sum of no terms is a default object."
  },
  {
   "property": "C42",
   "status": "proved",
   "theorems": [
    "C42_flux",
    "C42_state",
    "C42_limits",
    "C42_range_refuted",
    "C42_in_arrow_refuted"
   ],
   "note": "Flux of every tensor, totalQN, the amplitudes and the orthogonality limits of MPS(InitState), any length from 2, any QN scheme. _refuted: site Indices with In arrows; a value outside the dimension."
  },
  {
   "property": "C43",
   "status": "proved",
   "theorems": [
    "C43_square_lattice",
    "C43_triangular_lattice",
    "C43_square_next_neighbor",
    "C43_sites_in_range",
    "C43_coordinates",
    "C43_periodic_coordinates_refuted"
   ],
   "note": "Bond lists are exactly the neighbours, each once, for every size. _refuted: coordinates stored with the wrap-around bonds are off by one row from the site they name."
  },
  {
   "property": "C44",
   "status": "proved",
   "theorems": [
    "C44_by_value",
    "C44_copy_keeps",
    "C44_no_leak",
    "C44_plusEq",
    "C44_view_at_once",
    "C44_view_refuted",
    "C44_view_dangling_refuted"
   ],
   "note": "Every history of construction, copy, move, swap, destruction, one- and two-argument tasks, both builds: what a program observes equals value semantics; no leak, no use of freed storage; operator+= incl. self-addition. _refuted: a getBlock view written after the tensor was copied changes the copy too; after destruction it writes freed storage."
  },
  {
   "property": "C45",
   "status": "proved",
   "theorems": [
    "C45_direct_sum",
    "C45_lengths",
    "C45_missing",
    "C45_vector_refuted",
    "C45_qn_index",
    "C45_qn",
    "C45_qn_lengths",
    "C45_qn_missing",
    "C45_qn_debug_opposite_arrows",
    "C45_qn_opposite_arrows_refuted"
   ],
   "note": "Dense tensors of order at least two (C45_direct_sum) and QN tensors of any order (C45_qn), any number of summed indices: the elements of A, of B, and zeros; flux and arrows of the result. _refuted: the direct sum of two dense vectors loses the second one and has too little storage; QN indices with opposite arrows write through a null pointer in release builds."
  },
  {
   "property": "C46",
   "status": "proved",
   "theorems": [
    "C46_periodicWrap",
    "C46_periodicWrap_zero_refuted",
    "C46_negative_positions"
   ],
   "note": "periodicWrap is the representative of j modulo N in 1..N; refuted for N=0."
  },
  {
   "property": "C47",
   "status": "proved",
   "theorems": [
    "C47_group_found",
    "C47_nested_found",
    "C47_group_absent",
    "C47_key_found",
    "C47_key_absent",
    "C47_string",
    "C47_int",
    "C47_getInt",
    "C47_getInt_default",
    "C47_group_terminates",
    "C47_key_terminates",
    "C47_skipline",
    "C47_no_newline_refuted",
    "C47_skipline_refuted",
    "C47_long_token_refuted",
    "C47_comma_refuted",
    "C47_child_refuted",
    "C47_same_line_refuted",
    "C47_yesno_refuted"
   ],
   "note": "Every well-formed file (groups at line starts, any white space, nested groups, pairs separated by newline, comma or semicolon): group and key lookup, values, defaults; every file whose last line is ended: the searches end. _refuted: a last line without newline hangs the search and SkipLine; 512-letter tokens are undefined behaviour; a string ended by a comma keeps the comma; a child search leaves its parent; a group on the line of a pair is not found; GetYesNo(bool) overwrites on failure."
  },
  {
   "property": "C48",
   "status": "proved",
   "theorems": [
    "C48_rename",
    "C48_swap",
    "C48_failed_call_refuted"
   ],
   "note": "Simultaneous renaming with arrows kept, on dense tensors. _refuted: after a dimension mismatch the tensor is left half renamed."
  },
  {
   "property": "C49",
   "status": "proved",
   "theorems": [
    "C49_elt",
    "C49_product",
    "C49_delta",
    "C49_diagITensor",
    "C49_replace",
    "C49_vector_refuted",
    "C49_same_refuted",
    "C49_short_refuted"
   ],
   "note": "Every product of a dense tensor with a diagonal one, both orders, uniform or stored diagonal, provided the result keeps another index or the dimensions match. _refuted: a vector times delta to a larger index has too little storage; a uniform one-element diagonal spreads its value; a short stored diagonal throws on reading."
  },
  {
   "property": "C50",
   "status": "proved",
   "theorems": [
    "C50_sum",
    "C50_out_of_range",
    "C50_unbalanced_refuted",
    "C50_mixed_names_refuted"
   ],
   "note": "Any number of sites, terms and operators per site; every element of the MPO, given that the SVDs keep everything (M V V^dagger = M; the SVD is not modelled). Terms need zero total quantum number and an even number of fermionic operators. _refuted: a term that does not conserve the quantum numbers is added to another term instead of being refused; a term under the internal names of renamed operators can swallow another."
  },
  {
   "property": "C51",
   "status": "proved",
   "theorems": [
    "C51_dense",
    "C51_dense_exact",
    "C51_dense_one_side",
    "C51_qn",
    "C51_qn_exact",
    "C51_fallback_refuted"
   ],
   "note": "Any order, dimensions and splitting, dense (C51_dense) and QN (C51_qn), over any commutative ring with a conjugation; LAPACK is a partial function with exact results, the truncation rule an arbitrary choice of how many values of each block to keep. The method \"ITensor\" (SVDRefImpl) and rounding are not modelled. _refuted: with the default method, when gesdd fails on a matrix that is stored transposed (any tall matrix), the fallback to gesvd reads past the end of the data."
  },
  {
   "property": "C52",
   "status": "proved",
   "theorems": [
    "C52_inner",
    "C52_inner_mpo",
    "C52_inner_AxBy",
    "C52_inner_xABy",
    "C52_trace",
    "C52_trace_product",
    "C52_inner_symmetric",
    "C52_error",
    "C52_one_site_refuted",
    "C52_unmatched_refuted",
    "C52_same_indices_refuted"
   ],
   "note": "Any length, dimensions and names, over any commutative ring with a conjugation. Arrows and QN blocks are left out (C22). _refuted: innerC(A,x,B,y) and innerC(x,A,B,y) on one site return the square; innerC(A,x,B,y) fails when A and B have different output indices, because the matched copy of A is computed and not used; innerC(x,A,B,y) with A and B on the same pair of indices gives <x|A^T B|y>."
  },
  {
   "property": "C53",
   "status": "proved",
   "theorems": [
    "C53_davidson",
    "C53_davidson_all",
    "C53_lower_bound",
    "C53_returns",
    "C53_more_than_iterations_refuted",
    "C53_exhausted_sector_refuted"
   ],
   "note": "Exact arithmetic over any ordered field, any inner product space; the LAPACK eigensolver and sqrt are contracts that may also fail. _refuted: asking for more vectors than MaxIter+1 reads past the end of the last eigenvalues, whatever the size of the space; in a QN sector smaller than A.size() the numbers of further vectors stay NaN."
  },
  {
   "property": "C54",
   "status": "proved",
   "theorems": [
    "C54_dmrg",
    "C54_returns",
    "C54_two_sites_refuted"
   ],
   "note": "Exact complex arithmetic over any ordered field; dense tensors; svd, eigensolver and sqrt are contracts. The observer is arbitrary. _refuted: dmrg on two sites always fails, because LocalOp::operator bool is false with both environments null."
  },
  {
   "property": "C55",
   "status": "proved",
   "theorems": [
    "C55_orthogonalize",
    "C55_returns",
    "C55_serves_sum",
    "C55_one_site_refuted"
   ],
   "note": "Any commutative ring with conjugation and definite |x|^2 (real, complex). diagPosSemiDef is a contract. C55_serves_sum: the assumption made of orthogonalize in C41 holds of this model. _refuted: on one site orthogonalize always fails (a default constructed E[0] in a product)."
  },
  {
   "property": "C56",
   "status": "proved",
   "theorems": [
    "C56_correlation",
    "C56_mixed",
    "C56_expect",
    "C56_returns",
    "C56_equal_names_refuted",
    "C56_equal_fermions_refuted"
   ],
   "note": "Theorems hold over any commutative ring with definite conjugation and division (complex numbers over an ordered field are shown to be one). Hypotheses: svd, diagPosSemiDef and norm do what they promise; F squares to one, is Hermitian and anticommutes with the fermionic operators. C56_returns: correlationMatrix cannot fail when these return. Findings, as theorems: equal operator names switch on the Hermitian shortcut, which gives the conjugate value below the diagonal for a non-Hermitian operator in a complex state (C56_equal_names_refuted) and the wrong sign for a fermionic operator with itself (C56_equal_fermions_refuted)."
  },
  {
   "property": "C57",
   "status": "proved",
   "theorems": [
    "C57_dense",
    "C57_dense_exact",
    "C57_no_pairs",
    "C57_exp_dense",
    "C57_qn",
    "C57_qn_exact",
    "C57_exp_qn",
    "C57_exp_distance_refuted",
    "C57_nothing_kept_refuted"
   ],
   "note": "Over any commutative ring with conjugation; for expHermitian without zero divisors, exp(t*x) being an arbitrary function of x. Hypothesis: when dsyev/zheev succeeds on a Hermitian matrix its result is exact. Findings, as theorems: expHermitian multiplies by prime(U) whatever the distance of the pairs, so for pairs two primes apart, which diagHermitian handles, the result has the wrong indices (C57_exp_distance_refuted); if truncation keeps nothing, diagPosSemiDef with quantum numbers returns a zero U with an index of dimension one (C57_nothing_kept_refuted). Without quantum numbers truncation returns negative kept eigenvalues as zero, with quantum numbers it leaves them (the clamp in C57_dense)."
  },
  {
   "property": "C58",
   "status": "proved",
   "theorems": [
    "C58_stop",
    "C58_files",
    "C58_stop_all",
    "C58_entropy_goal_unset_refuted",
    "C58_zero_goal_refuted",
    "C58_either_goal_refuted"
   ],
   "note": "Real is Q; the entropy of a spectrum is an arbitrary function. Findings, as theorems: with Silent or PrintEigs=false an entropy goal compares a member that was never set (C58_entropy_goal_unset_refuted); an entropy goal of 0 switches the energy goal off (C58_zero_goal_refuted); with both goals set the run goes on until both are met, unlike the comment in the source (C58_either_goal_refuted)."
  },
  {
   "property": "C59",
   "status": "partial",
   "theorems": [
    "C59_dense",
    "C59_dense_thin_needs_upper",
    "C59_dense_one_side",
    "C59_qn_partial",
    "C59_qn_thin_needs_upper",
    "C59_permutation_refuted",
    "C59_complete_not_upper_refuted"
   ],
   "note": "Over any commutative ring with conjugation. Hypothesis: when geqrf and orgqr succeed their result is exact. Missing from the statement with quantum numbers, because it is false of the code: qr puts block b at the place indLiq[b] says, the inverse of the permutation that sorted the sectors; if that permutation is not its own inverse (charges 0,1,2 on the rows and 1,2,0 on the columns) a null block is written (C59_permutation_refuted); C59_qn_partial proves this needs at least three different charges on R's indices. With Complete=true and UpperTriangular=false and more rows than columns in a block the additional columns of Q stay zero (C59_complete_not_upper_refuted)."
  },
  {
   "property": "C60",
   "status": "proved",
   "theorems": [
    "C60_apply",
    "C60_normalize",
    "C60_returns",
    "C60_refused",
    "C60_one_site_refuted"
   ],
   "note": "Over any commutative ring with conjugation and a definite |x|^2. Hypothesis: what diagPosSemiDef promises of a positive semidefinite matrix (diag_ok). On one site the call is always an error (C60_one_site_refuted). The method Fit is a parameter: not modelled."
  },
  {
   "property": "C61",
   "status": "proved",
   "theorems": [
    "C61_nmult",
    "C61_returns",
    "C61_refused",
    "C61_one_site_refuted"
   ],
   "note": "Over any commutative ring with conjugation and a definite |x|^2. Hypotheses: what the SVDs of position (svdl_ok, svdr_ok), diagPosSemiDef (diag_ok) and svdBond's factorisation (split_shape, split_exact) promise. On one site nmultMPO never returns (C61_one_site_refuted). The case that at some site no index is shared is not modelled."
  },
  {
   "property": "C62",
   "status": "proved",
   "theorems": [
    "C62_projector",
    "C62_set_succeeds",
    "C62_set",
    "C62_expect_repeats",
    "C62_penalty_succeeds",
    "C62_penalty",
    "C62_numcenter_refuted",
    "C62_empty_refuted",
    "C62_expect_refuted",
    "C62_penalty_expect_refuted"
   ],
   "note": "Over any commutative ring with conjugation. LocalMPOSet::expect is size() times the sum (C62_expect_repeats, C62_expect_refuted: the loop is nested in itself); LocalMPO_MPS::expect leaves the penalty out (C62_penalty_expect_refuted); with NumCenter other than 2 LocalMPO_MPS::product always throws (C62_numcenter_refuted); product of an empty set is undefined (C62_empty_refuted). Boundary tensors, deltaRho and diag are not modelled."
  },
  {
   "property": "C63",
   "status": "proved",
   "theorems": [
    "C63_residual",
    "C63_minimal",
    "C63_returns",
    "C63_solves",
    "C63_restart_zero_refuted",
    "C63_columns",
    "C63_complex_refuted",
    "C63_real_scalars",
    "C63_complex_scalars",
    "C63_zero_goal_refuted",
    "C63_real_matrices",
    "C63_hermitian_matrices"
   ],
   "note": "Floating point is exact arithmetic. _refuted: a complex system that is not Hermitian gets worse (i x = 1 from 0 returns i/5 with residual 6/5: the projection coefficients are conjugated, C63_complex_refuted); RestartIter = 0 never returns (C63_restart_zero_refuted); ErrGoal = 0 divides by a zero norm after an exact solution (C63_zero_goal_refuted). The dispatch on isComplex and printing are not modelled. C63_real_matrices and C63_hermitian_matrices use the axioms of Coq's Reals."
  },
  {
   "property": "C64",
   "status": "proved",
   "theorems": [
    "C64_gate",
    "C64_gate_types",
    "C64_swap",
    "C64_swap_refuted",
    "C64_evolves",
    "C64_norm",
    "C64_norm_refuted",
    "C64_truncation",
    "C64_returns",
    "C64_second_step_refuted",
    "C64_steps",
    "C64_negative_time_refuted",
    "C64_many_steps_refuted",
    "C64_real"
   ],
   "note": "Exact arithmetic; trunc is the conversion of double to int. Gates with i2 <> i1+1 are not modelled. _refuted: from an unnormalised psi the returned norm counts the initial norm twice (C64_norm_refuted); gate lists that do not wrap around throw in the second step (C64_second_step_refuted; e.g. bonds 3,4,1); ttotal of the opposite sign silently evolves nothing (C64_negative_time_refuted); from 10^9 steps on an exact ttotal is refused (C64_many_steps_refuted); swap gates between sites of different dimensions throw or destroy states (C64_swap_refuted). C64_real uses the axioms of Coq's Reals."
  },
  {
   "property": "C65",
   "status": "proved",
   "theorems": [
    "C65_expansion",
    "C65_first_order",
    "C65_no_time",
    "C65_refuses",
    "C65_same_site_refuted",
    "C65_site_zero_refuted"
   ],
   "note": "The numerical value of each operator on a site is arbitrary (val); that the placed operators are the Jordan-Wigner image is C37, with its exceptions. _refuted: two operators on one site give twice the first one; a term on site 0 is dropped."
  },
  {
   "property": "C66",
   "status": "proved",
   "theorems": [
    "C66_pade",
    "C66_total",
    "C66_refuses",
    "C66_inverse",
    "C66_unitary",
    "C66_zero_refuted"
   ],
   "note": "Exact arithmetic; gesv and the truncated logarithm are parameters with the stated contracts. _refuted: the zero matrix."
  },
  {
   "property": "C67",
   "status": "proved",
   "theorems": [
    "C67_exhausted",
    "C67_stopped",
    "C67_exact",
    "C67_norm",
    "C67_dimension",
    "C67_one_iteration_refuted",
    "C67_zero_time_refuted",
    "C67_zero_vector_refuted"
   ],
   "note": "Exact arithmetic; gesv is a parameter with its contract. _refuted: MaxIter 1, tau = 0, phi = 0."
  },
  {
   "property": "C68",
   "status": "proved",
   "theorems": [
    "C68_spin",
    "C68_custom_spin",
    "C68_spin_xy",
    "C68_spin_squares",
    "C68_S2",
    "C68_spin_two_S2_refuted",
    "C68_boson",
    "C68_fermion",
    "C68_electron",
    "C68_electron_parity",
    "C68_electron_spin",
    "C68_tj",
    "C68_tj_Sx_refuted",
    "C68_z3",
    "C68_kets",
    "C68_state_names",
    "C68_occupation_names",
    "C68_custom_state",
    "C68_boson_state",
    "C68_quantum_number_sz",
    "C68_quantum_number_particles",
    "C68_aliases",
    "C68_flux",
    "C68_product",
    "C68_identity",
    "C68_trivial_F",
    "C68_projectors",
    "C68_proj",
    "C68_complex_numbers"
   ],
   "note": "Exact arithmetic. _refuted: SpinTwo S2, tJ Sx. Products with a ket and the Proj operator inside a product are not modelled."
  },
  {
   "property": "C69",
   "status": "proved",
   "theorems": [
    "C69_views",
    "C69_contiguous_slices",
    "C69_row_check_refuted",
    "C69_gemm",
    "C69_gemm_throws",
    "C69_product",
    "C69_noncontiguous_refuted",
    "C69_matrix_vector",
    "C69_vector_operators",
    "C69_mult_returning",
    "C69_mult_returning_refuted",
    "C69_iteration",
    "C69_assign",
    "C69_add_subtract",
    "C69_scale",
    "C69_scale_complex",
    "C69_divide",
    "C69_vector_assign",
    "C69_vector_add_subtract",
    "C69_vector_scale",
    "C69_vector_divide"
   ],
   "note": "Exact arithmetic; BLAS as documented; operands and result in separate memories. _refuted: mult returning a vector, views that are not contiguous without DEBUG, the bound of row/column."
  },
  {
   "property": "C70",
   "status": "proved",
   "theorems": [
    "C70_rungeKutta4",
    "C70_midpoint",
    "C70_any_derivative",
    "C70_conserved",
    "C70_starts",
    "C70_throws"
   ],
   "note": "Exact arithmetic. Tensors of one index set form a vector space (what C01-C05 prove of the storage)."
  },
  {
   "property": "C71",
   "status": "proved",
   "theorems": [
    "C71_fitWF",
    "C71_throws",
    "C71_one_site_refuted"
   ],
   "note": "One-site states are the refuted case."
  },
  {
   "property": "C72",
   "status": "proved",
   "theorems": [
    "C72_totalQN",
    "C72_limits",
    "C72_checkQNs",
    "C72_check_charge",
    "C72_null"
   ],
   "note": "The zero flux outside the limits is a hypothesis of the totalQN theorem; checkQNs establishes it."
  },
  {
   "property": "C73",
   "status": "proved",
   "theorems": [
    "C73_one_site",
    "C73_one_site_never_further",
    "C73_one_site_closest",
    "C73_one_site_exact_guess",
    "C73_one_site_total",
    "C73_fit_apply",
    "C73_never_further",
    "C73_closest",
    "C73_exact_guess",
    "C73_total",
    "C73_normalize"
   ],
   "note": "Normalize is not modelled for one-site fits. position(1) (C38) and the factorisation in svdBond enter through what they promise."
  },
  {
   "property": "C74",
   "status": "proved",
   "theorems": [
    "C74_diag",
    "C74_diag_hermitian",
    "C74_size",
    "C74_expect",
    "C74_expect_energy",
    "C74_diag_projects"
   ],
   "note": "Over any commutative ring with conjugation; re is any map with re(conj x) = re x that fixes self-conjugate values. Tensors without quantum numbers; deltaRho is not modelled."
  }
 ]
}