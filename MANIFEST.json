{
 "claims": [
  {
   "property": "C01",
   "status": "proved",
   "theorems": [
    "C01_tree_is_map",
    "C01_tree_is_map_separate_keys"
   ],
   "note": "All histories of add and remove for the merged-key instantiation; for separately stored keys all histories without removal (removal there is C05)."
  },
  {
   "property": "C02",
   "status": "proved",
   "theorems": [
    "C02_order_statistics"
   ],
   "note": "All histories; ranks are counted on the specification map."
  },
  {
   "property": "C03",
   "status": "proved",
   "theorems": [
    "C03_lookup_depth"
   ],
   "note": "Depth h satisfies F(h+2) <= n+1 and 2^h <= (n+1)^2."
  },
  {
   "property": "C04",
   "status": "partial",
   "theorems": [
    "C04_add_positions_partial",
    "C04_remove_largest_positions_partial",
    "C04_remove_positions_refuted"
   ],
   "note": "Density and stability hold for every add and for removal of the largest key. For general removals stability is false of the code: the element swapped in changes place."
  },
  {
   "property": "C05",
   "status": "partial",
   "theorems": [
    "C05_remove_separate_keys_refuted",
    "C05_remove_largest_separate_keys_partial"
   ],
   "note": "False of the code: the value swap of a two-child removal leaves the keys behind. Holds for histories removing only absent or largest keys."
  },
  {
   "property": "C06",
   "status": "proved",
   "theorems": [
    "C06_llrb_is_ordered_map",
    "C06_getindex_out_of_range_refuted",
    "C06_depth_twice_black_height_refuted"
   ],
   "note": "All add histories. Depth is bounded by three times the black height (the factor two of a textbook tree is refuted for this code). An out-of-range getindex reads out of bounds (the code marks it XXX); shown as a separate refutation."
  },
  {
   "property": "C07",
   "status": "proved",
   "theorems": [
    "C07_capacity",
    "C07_capacity_monotone",
    "C07_huge_refuted"
   ],
   "note": "Holds up to 2^29 elements; with the default block the loop diverges for every count above 2^30 (C07_huge_refuted)."
  },
  {
   "property": "C08",
   "status": "proved",
   "theorems": [
    "C08_sequence_set_is_list",
    "C08_remove_count_wrap_refuted"
   ],
   "note": "All histories including the exceptions. A removal count that wraps p+s is undefined behaviour (separate refutation). Insertion beyond the end is C09."
  },
  {
   "property": "C09",
   "status": "partial",
   "theorems": [
    "C09_gap_refuted",
    "C09_gap_partial"
   ],
   "note": "False of the code: the last element of the gap is never constructed. Proved for all the others."
  },
  {
   "property": "C10",
   "status": "proved",
   "theorems": [
    "C10_sort_sorts"
   ],
   "note": "The quicksort with moving pivot and insertion-sort fallback; the same code in koset, aoset and avoset is the instance comparing keys or values."
  },
  {
   "property": "C11",
   "status": "proved",
   "theorems": [
    "C11_find_exact",
    "C11_find_after_sort"
   ],
   "note": "Covers oset::findvalue and the array version in src/pavement.cpp."
  },
  {
   "property": "C12",
   "status": "proved",
   "theorems": [
    "C12_compact_removes_duplicates"
   ],
   "note": "Includes that no destroyed or moved-away object is read."
  },
  {
   "property": "C13",
   "status": "proved",
   "theorems": [
    "C13_indexed_set",
    "C13_iset_getorder_refuted"
   ],
   "note": "iset and kiset, all histories with exceptions. iset::getorder is not the inverse of getindex that kiset::getorder is (separate refutation)."
  },
  {
   "property": "C14",
   "status": "proved",
   "theorems": [
    "C14_keyed_set_is_map"
   ],
   "note": "All histories with exceptions. Lookup by an absent key is undefined behaviour in a release build and is excluded by haskey."
  },
  {
   "property": "C15",
   "status": "partial",
   "theorems": [
    "C15_remove_refuted",
    "C15_remove_always_wrong",
    "C15_add_replace_partial"
   ],
   "note": "False of the code: remove(k) keeps k and removes the element stored after it, or is undefined behaviour when k is last; shown for every set. Add and replace are a map."
  },
  {
   "property": "C16",
   "status": "partial",
   "theorems": [
    "C16_self_assignment_refuted",
    "C16_assignment_copies_partial"
   ],
   "note": "False of the code: self-assignment empties every set. Assignment between two sets copies."
  },
  {
   "property": "C17",
   "status": "proved",
   "theorems": [
    "C17_table_axis_edits",
    "C17_preexisting_positions_refuted"
   ],
   "note": "All histories of axis events and assignments, any number of dimensions, up to 2^29 cells. A table of class type built over non-empty axes never constructs its cells (separate refutation)."
  },
  {
   "property": "C18",
   "status": "partial",
   "theorems": [
    "C18_empty_axis_refuted",
    "C18_empty_axis_no_cells",
    "C18_single_axis_partial"
   ],
   "note": "False of the code for two or more axes: emptying one axis zeroes all sizes. Proved for one axis."
  },
  {
   "property": "C19",
   "status": "partial",
   "theorems": [
    "C19_dispatch_in_order",
    "C19_detach_in_handler_refuted",
    "C19_before_on_empty_refuted",
    "C19_moved_listener_refuted"
   ],
   "note": "Proved for all histories whose handlers do not attach or detach during a dispatch; detaching inside a handler, 'before' on an empty list and moving a listener are refuted with witnesses."
  },
  {
   "property": "C20",
   "status": "partial",
   "theorems": [
    "C20_dependent_axis_partial",
    "C20_parent_remove_refuted"
   ],
   "note": "Proved for all histories in which a removed parent has no entries or only the last entry of the dependent axis. For other parents the callback removes through a reference into the tree and never returns (refuted with a witness)."
  },
  {
   "property": "C21",
   "status": "proved",
   "theorems": [
    "C21_order_and_once",
    "C21_all_delivered"
   ],
   "note": "One client thread and any number of workers; tasks and callbacks do not call the queue themselves. Order and at-most-once also hold when tasks throw."
  },
  {
   "property": "C22",
   "status": "partial",
   "theorems": [
    "C22_calls_end_partial",
    "C22_aborted_with_tasks_never_ends",
    "C22_destructor_refuted"
   ],
   "note": "False as stated: once a task has thrown with others still queued, drain() and the destructor never end (C22_aborted_with_tasks_never_ends for all schedules, reached in C22_destructor_refuted). Proved: every call ends in every fair execution that does not begin in such a state."
  },
  {
   "property": "C23",
   "status": "partial",
   "theorems": [
    "C23_blocks_partial",
    "C23_first_slab_refuted",
    "C23_large_request_refuted",
    "C23_huge_request_refuted"
   ],
   "note": "False of the code for a request within 16 bytes of a page at the start of the first slab and for requests beyond a page. With requests of at most a page blocks are aligned and disjoint and at most 16 bytes of the first slab are overrun."
  },
  {
   "property": "C24",
   "status": "partial",
   "theorems": [
    "C24_replay_refuted",
    "C24_replay_nondecreasing_partial",
    "C24_replay_single_slab_partial"
   ],
   "note": "False of the code in general (witness). Proved, for any number of replays, for non-decreasing sizes of at most a page and for sequences served by one slab."
  },
  {
   "property": "C25",
   "status": "partial",
   "theorems": [
    "C25_hash_partial",
    "C25_compare_text",
    "C25_compare_preorder",
    "C25_operators",
    "C25_ne_partial",
    "C25_pieces",
    "C25_hash_refuted",
    "C25_ne_refuted"
   ],
   "note": "Comparison: proved (dictionary order on texts, total preorder on all byte strings). False as stated: the hash of bytes above 127 is not FNV-1a when char is signed; != is not the negation of == on hash collisions and on strings that differ after a null."
  },
  {
   "property": "C26",
   "status": "partial",
   "theorems": [
    "C26_general",
    "C26_plain_partial",
    "C26_base_refuted",
    "C26_copy_refuted"
   ],
   "note": "variant: proved for all histories when the types are scalars and tags differ; in general a read succeeds iff the stored type is the first one castable to the type asked for (C26_general). False as stated: base after derived class in the parameter list; copying a variant that holds an object with a constructor is undefined."
  },
  {
   "property": "C27",
   "status": "partial",
   "theorems": [
    "C27_write_after_use_partial",
    "C27_reset",
    "C27_assign_refuted"
   ],
   "note": "Writes of values, functions and chains are rejected after use for all histories; assignment of another variable is not rejected (refuted), though every later mark then throws until a reset."
  },
  {
   "property": "C28",
   "status": "proved",
   "theorems": [
    "C28_layer_list",
    "C28_links_consistent",
    "C28_position_past_end_refuted",
    "C28_layer_of_empty_refuted"
   ],
   "note": "Links stay consistent whatever the positions. A position one past the end inserts before the last layer, and layer() of an empty system dereferences null (both shown as refuted variants)."
  },
  {
   "property": "C29",
   "status": "partial",
   "theorems": [
    "C29_results_current_partial",
    "C29_refused_after_change",
    "C29_backcalc_refuted",
    "C29_backcalc_out_of_bounds_refuted",
    "C29_directions_refuted"
   ],
   "note": "Proved for all histories of edits, calculations and queries without backcalculation. Backcalculation puts the old points back but leaves its own results valid (refuted); a gradient in other directions is answered from the earlier one (refuted)."
  },
  {
   "property": "C30",
   "status": "partial",
   "theorems": [
    "C30_automatic_layer",
    "C30_explicit_layer",
    "C30_layer_unique",
    "C30_after_calculation_partial",
    "C30_after_edit_refuted",
    "C30_boundary_after_edit_refuted"
   ],
   "note": "True at the first calculation and for explicit layers. The layer found is kept with the point, so after a change of thickness it can be wrong (refuted)."
  },
  {
   "property": "C31",
   "status": "partial",
   "theorems": [
    "C31_one_radius_partial",
    "C31_any_radii_error",
    "C31_two_radii_refuted",
    "C31_modulus_left_stepped"
   ],
   "note": "Proved for one load radius; for more the error is given exactly and shown non-zero by a witness."
  },
  {
   "property": "C32",
   "status": "partial",
   "theorems": [
    "C32_rotates",
    "C32_centre_partial",
    "C32_centre_refuted",
    "C32_invariants",
    "C32_superposition",
    "C32_deflection"
   ],
   "note": "Proved for every point away from the axis of the load, for any number of loads, in any ordered field. On the axis it holds when the response has no direction; otherwise refuted."
  },
  {
   "property": "C33",
   "status": "proved",
   "theorems": [
    "C33_turns",
    "C33_principal",
    "C33_strains",
    "C33_ends_real"
   ],
   "note": "Exact arithmetic with a square root; the loop ends after a bounded number of rounds; reported values are eigenvalues up to the tolerance of the loop."
  },
  {
   "property": "C34",
   "status": "partial",
   "theorems": [
    "C34_handles_isolate_partial",
    "C34_create_not_error_partial",
    "C34_reset_refuted",
    "C34_reset_handle_lives_refuted",
    "C34_thermal_error_value_refuted"
   ],
   "note": "Refuted for two live handles (the handle left reaches the destroyed system) and for the first thermal handle (0 is the error value); holds for all histories that reset only the largest live handle."
  },
  {
   "property": "C35",
   "status": "partial",
   "theorems": [
    "C35_same_number_refuted",
    "C35_group_zero_refuted",
    "C35_group_one_refuted",
    "C35_result_number_refuted",
    "C35_remove_after_add_partial",
    "C35_result_after_add_partial",
    "C35_groups_full",
    "C35_remove_all"
   ],
   "note": "Refuted: adding and reading number groups from 0, removing from 1, and the number read is not checked. Proved: removing with g+1 undoes adding with g, and results of g are those of the group added to."
  },
  {
   "property": "C36",
   "status": "proved",
   "theorems": [
    "C36_transpose"
   ],
   "note": "All shapes with m*n < 2^32, all element types."
  },
  {
   "property": "C37",
   "status": "partial",
   "theorems": [
    "C37_packed_triangle",
    "C37_packed_band",
    "C37_wide_band_refuted"
   ],
   "note": "Triangle: proved. Band: proved when the bandwidth is at most the order; for wider bands B_SIZE is too small (refuted)."
  },
  {
   "property": "C38",
   "status": "proved",
   "theorems": [
    "C38_gauss_solves",
    "C38_gauss_safe",
    "C38_gauss_rejects",
    "C38_gauss_accepts",
    "C38_img_solves",
    "C38_img_safe",
    "C38_img_accepts",
    "C38_gauss_threshold_refuted"
   ],
   "note": "exact arithmetic over any ordered field; acceptance for matrices whose inverse has row sums of at most 1/DBL_EPSILON"
  },
  {
   "property": "C39",
   "status": "partial",
   "theorems": [
    "C39_img_det_partial",
    "C39_img_det_refuted"
   ],
   "note": "determinant up to its sign; refuted after an odd number of row exchanges"
  },
  {
   "property": "C40",
   "status": "partial",
   "theorems": [
    "C40_lu_solves",
    "C40_lu_accepts",
    "C40_lu_mul",
    "C40_lu_mul_accepts",
    "C40_lu_empty_refuted",
    "C40_lu_inverse",
    "C40_lu_inverse_accepts"
   ],
   "note": "Exact arithmetic over any ordered field, any contents of fresh memory: solution (unique), inverse from both sides and determinant with sign for n >= 1, acceptance of regular matrices without rows below the threshold. False of the code only for n = 0, where the determinant returned is 0 instead of 1."
  },
  {
   "property": "C41",
   "status": "partial",
   "theorems": [
    "C41_chol_solves",
    "C41_chol_column",
    "C41_positive_definite_unique",
    "C41_tri_factor",
    "C41_dense_factor",
    "C41_band_factor",
    "C41_band_solves",
    "C41_wide_band_refuted",
    "C41_chol_inverse",
    "C41_ldl_column",
    "C41_ldl_solves",
    "C41_chol_solves_real"
   ],
   "note": "Dense, packed and banded Cholesky, the dense and banded solvers (with the compensated residual and any number of refinements), the inverse, LDL' and its solver, for all orders, in exact arithmetic: accepted exactly when positive definite, result is the unique solution, all accesses in bounds. Guard: bandwidth at most the order; a wider band is stored in too few elements (refuted)."
  },
  {
   "property": "C42",
   "status": "partial",
   "theorems": [
    "C42_qr_decides",
    "C42_qr_reflections_partial",
    "C42_qr_last_partial",
    "C42_qr_refuted"
   ],
   "note": "decmp_qr and bksub_qr modelled over ordered fields. Proved: the flag of decmp_qr says whether the matrix is regular; the reflections and the triangle solve the system if bksub_qr stops before the last turn of its loop. The code does not: it divides by s[n-1], which decmp_qr never sets; the exact effect on the last component is proved, the result is right iff that component is zero, and the claim is refuted."
  },
  {
   "property": "C43",
   "status": "partial",
   "theorems": [
    "C43_eig_ql_partial",
    "C43_sort_keeps_pairs",
    "C43_eigenvalues_complete",
    "C43_bksub_eig_one_column",
    "C43_bksub_eig_partial",
    "C43_bksub_eig_refuted",
    "C43_equ_eig_partial",
    "C43_inv_eig_partial",
    "C43_eig_ql_real_partial"
   ],
   "note": "One right-hand side, sorting and decomposition proved for runs that end; refuted for several columns; termination of the QL iteration not shown"
  },
  {
   "property": "C44",
   "status": "partial",
   "theorems": [
    "C44_tmatrix_element",
    "C44_tmatrix_assign",
    "C44_tmatrix_add",
    "C44_tmatrix_sub",
    "C44_tmatrix_scalar",
    "C44_tmatrix_typed",
    "C44_tmatrix_fill",
    "C44_dense_unary",
    "C44_dense_binary",
    "C44_dense_product",
    "C44_dense_fill",
    "C44_lazy_size",
    "C44_lazy_element",
    "C44_lazy_operators",
    "C44_lazy_equal",
    "C44_getdense_partial",
    "C44_getdense_operand",
    "C44_lazy_null",
    "C44_getdense_neg_refuted",
    "C44_getdense_trans_refuted",
    "C44_getdense_add_refuted",
    "C44_getdense_mul_refuted",
    "C44_getdense_bounds_refuted",
    "C44_lazy_element_refuted"
   ],
   "note": "False for matrix.h: getdense of an operator copies the first operand (negation, transpose, sum and product refuted, the transpose of a non-square matrix reads out of bounds). Proved for matrices and references, for the elements read one by one of what !, ~ and - build, and without reservation for the dense operators and the expression templates of tmatrix.h."
  },
  {
   "property": "C45",
   "status": "proved",
   "theorems": [
    "C45_uniform",
    "C45_uniform_real"
   ],
   "note": "Over ordered fields with a square root; valid input is stated separately (positive thicknesses and time step, non-negative diffusivities, elements that go down and lie in one layer each)."
  },
  {
   "property": "C46",
   "status": "partial",
   "theorems": [
    "C46_interpolate_partial",
    "C46_polynomial_partial",
    "C46_no_undefined",
    "C46_uneven_refuted",
    "C46_uneven_accepted",
    "C46_unsorted_refuted"
   ],
   "note": "Proved for increasing nodes that divide each element evenly and sorted depths. False for uneven nodes inside an element, which the constructor accepts. Without sorted depths the results are defined but may be extrapolated."
  },
  {
   "property": "C47",
   "status": "partial",
   "theorems": [
    "C47_reject_partial",
    "C47_misaligned_partial",
    "C47_valid_accepted",
    "C47_below_refuted",
    "C47_order0_refuted",
    "C47_no_layers_refuted"
   ],
   "note": "Proved when every element starts above the bottom of the layers and order and layer count are not zero. False otherwise: a mesh below the layers reads past the layer array, order 0 divides by zero, no layers reads element 0 of an empty array."
  },
  {
   "property": "C48",
   "status": "partial",
   "theorems": [
    "C48_unsigned_partial",
    "C48_minus_refuted",
    "C48_large_refuted"
   ],
   "note": "Fields of blanks and digits: proved up to INT_MAX-48. A minus sign always gives a wrong number, and the last 48 ints overflow (refuted)."
  },
  {
   "property": "C49",
   "status": "partial",
   "theorems": [
    "C49_line",
    "C49_no_room",
    "C49_last_line_refuted"
   ],
   "note": "Lines ended by a newline: proved. A last line without one gains a blank (refuted)."
  },
  {
   "property": "C50",
   "status": "proved",
   "theorems": [
    "C50_axles"
   ],
   "note": "All records of 256 ASCII characters, all states, any double arithmetic; the counters are unbounded."
  },
  {
   "property": "C51",
   "status": "partial",
   "theorems": [
    "C51_reads",
    "C51_sums_partial",
    "C51_last_day_twice_refuted"
   ],
   "note": "Exact result for every file of whole records; the last record is read twice (refuted), so the sums are right when it is outside the period."
  },
  {
   "property": "C52",
   "status": "proved",
   "theorems": [
    "C52_intervals"
   ],
   "note": "All seeds, any sequence of the four draws; all results are multiples of 2^-52, so the subtractions are exact."
  },
  {
   "property": "C53",
   "status": "proved",
   "theorems": [
    "C53_certified"
   ],
   "note": "All seeds; parity over the 64 bits of both lung words."
  },
  {
   "property": "C54",
   "status": "partial",
   "theorems": [
    "C54_dealt_by_rank_partial",
    "C54_creation_order_partial",
    "C54_rolled_kept",
    "C54_unset_keys_refuted"
   ],
   "note": "Holds, with the value given by rank, whenever the (trial, key) identities are pairwise different; false for realisations whose identity was never set, which all carry the default one."
  },
  {
   "property": "C55",
   "status": "partial",
   "theorems": [
    "C55_counts_exact",
    "C55_legal_histories_partial",
    "C55_assign_realisation",
    "C55_assign_variable_partial",
    "C55_assign_keeps_house_refuted",
    "C55_self_assignment_refuted",
    "C55_null_source_refuted",
    "C55_teardown_refuted",
    "C55_roll_dangling_refuted"
   ],
   "note": "Counts are exact in all histories without undefined behaviour and legal histories have none. False of the code: self assignment of a last handle, assignment does not copy the house, moved-from sources, destruction of a house that holds realisations."
  },
  {
   "property": "C56",
   "status": "proved",
   "theorems": [
    "C56_transform",
    "C56_frequencies",
    "C56_root",
    "C56_roundtrip",
    "C56_convolution",
    "C56_convolution_last",
    "C56_real_transform",
    "C56_real_frequencies",
    "C56_real_roundtrip",
    "C56_real_convolution",
    "C56_real_scale_last_refuted",
    "C56_constants_real",
    "C56_fourier_real",
    "C56_roundtrip_real",
    "C56_real_roundtrip_real",
    "C56_sin_series",
    "C56_sin_digits"
   ],
   "note": "exact arithmetic with M_SQRT1_2 and SIN exact; the error of the SIN series is bounded separately"
  },
  {
   "property": "C57",
   "status": "partial",
   "theorems": [
    "C57_choose_partial",
    "C57_choose_exact",
    "C57_edges_refuted",
    "C57_products_refuted"
   ],
   "note": "Exact result whenever n-k, n-k+1 and k*C(n,k) fit an int, undefined in every other case; some answers that fit are therefore not delivered (refuted)."
  },
  {
   "property": "C58",
   "status": "partial",
   "theorems": [
    "C58_floor_partial",
    "C58_ceil_partial",
    "C58_round_partial",
    "C58_edges_refuted",
    "C58_double_refuted"
   ],
   "note": "In exact arithmetic for all rationals whose answer and its neighbour fit; undefined on the last integers, and wrong with binary64 rounding next to integers (refuted)."
  },
  {
   "property": "C59",
   "status": "partial",
   "theorems": [
    "C59_core",
    "C59_fzero_partial",
    "C59_outside_refuted"
   ],
   "note": "Limits kept, at most 212 evaluations, result an exact zero or within tolerance of a sign change: proved for fzero_core when both starting points are inside the limits and for fzero when two limits or none are supplied. Refuted for one limit: the second starting point is evaluated outside it. Exact rational arithmetic; eps, sqrt and nextafter arbitrary."
  },
  {
   "property": "C60",
   "status": "partial",
   "theorems": [
    "C60_peak_refuted",
    "C60_reversed_refuted",
    "C60_total",
    "C60_single_partial",
    "C60_pair_partial",
    "C60_inside"
   ],
   "note": "Refuted: an inner point higher than both ends is returned, and so may a point worse than the far end of a reversed bracket. Proved: no worse than a single starting point; no worse than both ends otherwise; bounded evaluations; stays inside a valley. Exact rational arithmetic; golden ratio any number in (0,1)."
  },
  {
   "property": "C61",
   "status": "proved",
   "theorems": [
    "C61_fixed",
    "C61_rounding",
    "C61_overflow"
   ],
   "note": "All 0 <= P <= 30 and all int values; products and quotients in exact arithmetic."
  },
  {
   "property": "C62",
   "status": "partial",
   "theorems": [
    "C62_well_nested",
    "C62_shown",
    "C62_rejected_partial",
    "C62_unknown_rejected",
    "C62_stop_refuted",
    "C62_zero_length_refuted"
   ],
   "note": "Well nested sequences with nonzero lengths: proved. A stop outside a bar is not rejected but writes out of bounds, a bar of length zero shows NaN (refuted)."
  },
  {
   "property": "C63",
   "status": "partial",
   "theorems": [
    "C63_cached_geometry_partial",
    "C63_cached_geometry_refuted"
   ],
   "note": "Proved when the blocks of a calculation fit into the first slab; false for larger calculations with two radii (witness)."
  },
  {
   "property": "C64",
   "status": "partial",
   "theorems": [
    "C64_weighted_partial",
    "C64_nan_refuted",
    "C64_sum_refuted"
   ],
   "note": "The sum is weighted correctly when there is an axle of the type; otherwise NaN for good, and a day keeps the sum of spacings rather than their average (refuted)."
  },
  {
   "property": "C65",
   "status": "proved",
   "theorems": [
    "C65_normals",
    "C65_bound"
   ],
   "note": "Real arithmetic for log, sqrt, sin, cos (standard library reals and their axioms); the uniform numbers are the exact ones of the code."
  },
  {
   "property": "C66",
   "status": "proved",
   "theorems": [
    "C66_gram_schmidt",
    "C66_regular_orthonormal",
    "C66_gram_schmidt_real"
   ],
   "note": "orth_gs modelled over ordered fields with a square root; the real instance is C66_gram_schmidt_real."
  },
  {
   "property": "C67",
   "status": "proved",
   "theorems": [
    "C67_trapezoidal_rule",
    "C67_element_matrices",
    "C67_shape_functions"
   ],
   "note": "Exact arithmetic over ordered fields with a square root; element matrices checked against polynomial integrals."
  },
  {
   "property": "C68",
   "status": "proved",
   "theorems": [
    "C68_steady_flux"
   ],
   "note": "Exact arithmetic over ordered fields with a square root."
  },
  {
   "property": "C69",
   "status": "partial",
   "theorems": [
    "C69_matrix",
    "C69_number",
    "C69_own_element_partial",
    "C69_own_element_after",
    "C69_dense_matrix",
    "C69_dense_number",
    "C69_own_element_refuted",
    "C69_dense_own_element_refuted"
   ],
   "note": "False for += and *= with a reference to an own element (and -= without the template programs); what they do then is proved exactly. Proved for all other operands, including the matrix itself, and for =, -= and /= with an own element."
  },
  {
   "property": "C70",
   "status": "partial",
   "theorems": [
    "C70_decomposes_partial",
    "C70_result_partial",
    "C70_two_columns_partial",
    "C70_least_squares",
    "C70_equ_svd_partial",
    "C70_inv_svd_partial",
    "C70_orth_svd_partial",
    "C70_in_bounds_refuted",
    "C70_singular_refuted",
    "C70_cancellation_refuted",
    "C70_two_columns_real_partial"
   ],
   "note": "False as stated: rv1[n] is read behind the end for every matrix, a zero column leaves W unset, the cancellation does not scale rv1, and 30 rounds may not be enough. Proved with one more word of work memory: for full column rank the result is a decomposition or the 30 rounds ran out, and the latter never happens up to two columns. Back substitution, solver, inverse and orthogonalisation follow."
  },
  {
   "property": "C71",
   "status": "partial",
   "theorems": [
    "C71_bst_is_map_partial",
    "C71_bst_height_partial",
    "C71_order_is_rank_partial",
    "C71_order_after_remove_refuted",
    "C71_remove_any_key_partial",
    "C71_remove_above_refuted"
   ],
   "note": "Proved for every history that removes only keys that are there (or from an empty tree): no undefined behaviour, exact map, sorted, height at most 3 log2(n+1); order is the rank while nothing is removed. Removing an absent key either leaves the contents alone or uses a null pointer, and always does the latter for a key above all others; order is wrong after a removal: both refuted."
  },
  {
   "property": "C72",
   "status": "proved",
   "theorems": [
    "C72_cdf_is_distribution",
    "C72_cdf_limits",
    "C72_pdf"
   ],
   "note": "Over exact reals with infinities and NaN; monotone across the joints by a rational comparison and a partial sum of the exponential series."
  },
  {
   "property": "C73",
   "status": "partial",
   "theorems": [
    "C73_inv_defined_partial",
    "C73_inv_special"
   ],
   "note": "Everything but the last sentence: how close cdf(inv(p)) is to p is not proved."
  },
  {
   "property": "C74",
   "status": "partial",
   "theorems": [
    "C74_normal",
    "C74_dirac",
    "C74_lognormal",
    "C74_lognormal_infinite_refuted",
    "C74_uniform_partial",
    "C74_uniform_order_refuted",
    "C74_discrete_partial",
    "C74_discrete_deviation_refuted",
    "C74_discrete_refused",
    "C74_make_rv"
   ],
   "note": "Moments and ranges proved for normal, lognormal, Dirac, ordered uniform and (but for the deviation) discrete variables. Refuted: the deviation of every discrete variable is too small, that of a uniform one with swapped limits is negative, and a lognormal one with infinite deviation has infinite mean."
  },
  {
   "property": "C75",
   "status": "proved",
   "theorems": [
    "C75_rnd_pairs"
   ],
   "note": "Over exact reals; rand is an arbitrary list of numbers between 0 and RAND_MAX."
  },
  {
   "property": "C76",
   "status": "partial",
   "theorems": [
    "C76_list_partial",
    "C76_chains",
    "C76_remove_refuted",
    "C76_remove_null_refuted",
    "C76_insert_first_refuted",
    "C76_pop_empty_refuted",
    "C76_empty_frees",
    "C76_autodelete_safe",
    "C76_autodelete_leak_partial",
    "C76_autodelete_leak_refuted"
   ],
   "note": "Proved for histories that pop only what is there, remove only first elements and do not insert in front of the first one. Refuted for every list otherwise: removing a later element loses the one before it, remove() removes nothing, inserting in front of the first element makes a ring, pop of an empty list uses null; a move assignment of autodelete leaks."
  },
  {
   "property": "C77",
   "status": "partial",
   "theorems": [
    "C77_brent_not_worse",
    "C77_conjgrad_not_worse",
    "C77_clamp",
    "C77_turning_point",
    "C77_turning_point_refuted",
    "C77_level_never_ends_refuted",
    "C77_brent_stalls_refuted",
    "C77_brent_hill_refuted",
    "C77_brent_convex_partial",
    "C77_conjgrad_direction"
   ],
   "note": "not worse: proved for all error functions; the minimum of a strictly convex error is found unless a trial point coincides with the best point; refuted: the first loop uses the mirror image of the turning point, a level error never ends, a coinciding trial point loses the minimum, a concave stretch loses the bracket"
  },
  {
   "property": "C78",
   "status": "partial",
   "theorems": [
    "C78_kalman_partial",
    "C78_noise_suffices",
    "C78_kalman_fit",
    "C78_kalman_fit_refuted",
    "C78_gaussnewton_partial",
    "C78_gaussnewton_fit"
   ],
   "note": "Over any ordered field. Proved for all sizes, with a bound on how far the non-zero eigenvalues of the matrix lie apart, which C78_noise_suffices derives from a noise that is not too small. Partial: that bound is needed since inv_eig and equ_eig drop small eigenvalues, and the iteration inside the eigenvalue routine may run out of fuel. The last sentence is false for kalman: C78_kalman_fit shows that an exact fit gives 0/0 and sets every log modulus to the lower limit, with a witness in C78_kalman_fit_refuted; it holds for gaussnewton."
  },
  {
   "property": "C79",
   "status": "partial",
   "theorems": [
    "C79_dsm_sound_partial",
    "C79_dsm_safe",
    "C79_dsm_tolerance_refuted",
    "C79_dsm_falling_refuted",
    "C79_dsm_clamp_refuted"
   ],
   "note": "all but the end of the search and the limiting are proved; refuted: with tolerance 0 and with an error that falls for ever it does not end, and the limited moduli may be worse than the start"
  },
  {
   "property": "C80",
   "status": "partial",
   "theorems": [
    "C80_deflgrad",
    "C80_length_refuted",
    "C80_flat_refuted"
   ],
   "note": "Over any ordered field with a square root, all sizes: the step is the conjugate gradient iterate, lowers the quadratic error at every inner pass, and a cut step is at most sqrt 2 long. Partial: the claim that a cut step is at most 1 long is false (C80_length_refuted, because line 2104 scales only the last part by sqrt((1-dd)/r)); a deflection with zero gradient divides by zero (C80_flat_refuted)."
  },
  {
   "property": "C81",
   "status": "partial",
   "theorems": [
    "C81_backcalc_partial",
    "C81_exact_fit_refuted",
    "C81_groups_refuted",
    "C81_default_group_refuted"
   ],
   "note": "Over any ordered field with a square root and any forward calculation with non-zero gradients. Partial: the moduli are not kept when they fit exactly (C81_exact_fit_refuted: all become 10 and true is returned, because of 0/0 in kalman); gradients are read for the default load group, so deflections of another group are fitted with the wrong gradients (C81_groups_refuted) and a default group without loads is read out of bounds (C81_default_group_refuted); on the early return of line 1844 the evaluation points are not restored. Runs of dsm and inv_eig which do not end are outside."
  },
  {
   "property": "C82",
   "status": "proved",
   "theorems": [
    "C82_assembly",
    "C82_assembly_safe",
    "C82_prepare",
    "C82_tidy_long",
    "C82_tidy_refuted",
    "C82_chol_refuted",
    "C82_chol_partial",
    "C82_nonzero_refuted",
    "C82_demo"
   ],
   "note": "blocks of any type with 0, + and transpose; the claims about chol() and nonzero() are refuted, tidy() beyond 65535 nodes in a column as well"
  },
  {
   "property": "C83",
   "status": "proved",
   "theorems": [
    "C83_incchol",
    "C83_exact",
    "C83_fails_only",
    "C83_no_exception",
    "C83_positive_refuted"
   ],
   "note": "refuted part: a positive definite matrix with a missing block can be refused"
  },
  {
   "property": "C84",
   "status": "proved",
   "theorems": [
    "C84_solved",
    "C84_no_force_refuted",
    "C84_hypotheses",
    "C84_demo"
   ],
   "note": "Over any ordered field with a square root, sizes below 2^16. The exception of incchol is a possible outcome (C83 says when). With F = 0 the loop divides by zero (C84_no_force_refuted)."
  },
  {
   "property": "C85",
   "status": "proved",
   "theorems": [
    "C85_assembled",
    "C85_positive",
    "C85_solved",
    "C85_repeated_refuted",
    "C85_hypotheses",
    "C85_demo"
   ],
   "note": "Assembly and solution of mesh::solve; an element with a repeated node is assembled wrongly."
  },
  {
   "property": "C86",
   "status": "proved",
   "theorems": [
    "C86_goes_on",
    "C86_mesh",
    "C86_built",
    "C86_solved",
    "C86_stale_copy_refuted",
    "C86_getorderofnode_refuted",
    "C86_duplicate_add_refuted",
    "C86_two_planes_refuted",
    "C86_hypotheses",
    "C86_demo"
   ],
   "note": "the coordinates are the integers of fixed<8>, the elements are given by their stiffness matrices; growing of the arrays is not modelled"
  },
  {
   "property": "C87",
   "status": "proved",
   "theorems": [
    "C87_defined",
    "C87_unity",
    "C87_nodes",
    "C87_straight",
    "C87_slope",
    "C87_slope_absolute",
    "C87_slope_decay",
    "C87_slope_infinite",
    "C87_block",
    "C87_gauss_2",
    "C87_gauss_3",
    "C87_gauss_4",
    "C87_gauss_A",
    "C87_lobatto_4",
    "C87_getgauss",
    "C87_weights",
    "C87_infinite_refuted",
    "C87_hypotheses",
    "C87_demo"
   ],
   "note": "doubles are the elements of an ordered field"
  },
  {
   "property": "C88",
   "status": "proved",
   "theorems": [
    "C88_hooke",
    "C88_stiffness",
    "C88_gauss",
    "C88_symmetric",
    "C88_force",
    "C88_energy",
    "C88_material",
    "C88_firm",
    "C88_mesh",
    "C88_patch",
    "C88_rigid",
    "C88_box",
    "C88_pivot_refuted",
    "C88_hypotheses"
   ],
   "note": "doubles as an ordered field; buildxe and the printing left out; the pivot claim is refuted"
  },
  {
   "property": "C89",
   "status": "proved",
   "theorems": [
    "C89_sort",
    "C89_box",
    "C89_nodes",
    "C89_element",
    "C89_twisted_refuted",
    "C89_hypotheses"
   ],
   "note": "coordinates as an ordered field, without the rounding to fixed<8>; corners in another than a mirrored order are refuted"
  },
  {
   "property": "C90",
   "status": "proved",
   "theorems": [
    "C90_affine",
    "C90_nodes",
    "C90_adaptor",
    "C90_adaptor_only",
    "C90_middle_refuted",
    "C90_hypotheses"
   ],
   "note": "doubles as an ordered field; the numbering of the mask by setup_mask is assumed; a middle node without all edges is refuted"
  },
  {
   "property": "C91",
   "status": "proved",
   "theorems": [
    "C91_round",
    "C91_principle",
    "C91_bounds",
    "C91_hypotheses"
   ],
   "note": "C91_hypotheses rests on the axioms of the real numbers; the others on none"
  }
 ]
}
