{
 "claims": [
  {
   "property": "C01",
   "status": "proved",
   "theorems": [
    "C01_partition_2D",
    "C01_partition_3D",
    "C01_thread_count_3D",
    "C01_recompute_refuted",
    "C01_surface_W_refuted"
   ],
   "note": "Element-count overloads on a fresh object, any direction the callers use; the refuted theorems delimit the claim (recomputation on a used object, W for a surface)."
  },
  {
   "property": "C02",
   "status": "proved",
   "theorems": [
    "C02_separation_2D",
    "C02_separation_3D",
    "C02_parallel_assembly_lagrange_2D",
    "C02_parallel_assembly_lagrange_3D",
    "C02_parallel_assembly_spline_2D",
    "C02_parallel_assembly_spline_3D"
   ],
   "note": "Any interleaving of non-atomic read-modify-write updates equals sequential assembly (sequentially consistent memory, exact arithmetic)."
  },
  {
   "property": "C03",
   "status": "proved",
   "theorems": [
    "C03_masks_2D",
    "C03_masks_3D"
   ],
   "note": "Also shows the scan never reads past the mask (result is Some)."
  },
  {
   "property": "C04",
   "status": "proved",
   "theorems": [
    "C04_filter",
    "C04_filtered_parallel_assembly",
    "C04_map",
    "C04_map_undefined"
   ],
   "note": ""
  },
  {
   "property": "C05",
   "status": "proved",
   "theorems": [
    "C05_equation_numbers",
    "C05_success_consistent",
    "C05_valid_accepted",
    "C05_accepted_valid",
    "C05_duplicate_slave_refuted"
   ],
   "note": "Acceptance is equivalent to validity of the tables; the refuted theorem records that two constraints with one slave are accepted (last one wins)."
  },
  {
   "property": "C06",
   "status": "proved",
   "theorems": [
    "C06_expand",
    "C06_restrict_expand"
   ],
   "note": "Exact arithmetic."
  },
  {
   "property": "C07",
   "status": "proved",
   "theorems": [
    "C07_element_equations",
    "C07_matrix",
    "C07_rhs",
    "C07_virtual_work",
    "C07_order_independent",
    "C07_rhs_only"
   ],
   "note": "Assembly is modelled as its sequence of += updates; exact arithmetic."
  },
  {
   "property": "C08",
   "status": "proved",
   "theorems": [
    "C08_adjoint",
    "C08_element_vector"
   ],
   "note": ""
  },
  {
   "property": "C09",
   "status": "proved",
   "theorems": [
    "C09_cover",
    "C09_symmetric",
    "C09_range",
    "C09_exact",
    "C09_unique_equations"
   ],
   "note": ""
  },
  {
   "property": "C10",
   "status": "partial",
   "theorems": [
    "C10_reaction_sum_partial",
    "C10_last_wins",
    "C10_reaction_sum_refuted",
    "C10_reactions_placed"
   ],
   "note": "The code violates the full property (finding): with several constrained DOFs in an element only the last one contributes; C10_last_wins says exactly what is computed."
  },
  {
   "property": "C11",
   "status": "partial",
   "theorems": [
    "C11_dof_value_partial",
    "C11_last_dof_refuted",
    "C11_outside"
   ],
   "note": "The code violates the full property (finding): the last DOF of the model always reads as zero."
  },
  {
   "property": "C12",
   "status": "partial",
   "theorems": [
    "C12_node_of_dof",
    "C12_out_of_range",
    "C12_equation_shifted",
    "C12_equation_refuted",
    "C12_equation_of_dof"
   ],
   "note": "DOF numbers: proved in full. Equation numbers: the code reports the preceding DOF (finding, characterised exactly by C12_equation_shifted)."
  },
  {
   "property": "C13",
   "status": "proved",
   "theorems": [
    "C13_order",
    "C13_slave_equiv",
    "C13_full_equiv",
    "C13_set"
   ],
   "note": "Coefficients are exact rationals, so NaN (which would break any ordering) is excluded."
  },
  {
   "property": "C14",
   "status": "proved",
   "theorems": [
    "C14_add",
    "C14_merge",
    "C14_renumber",
    "C14_shift"
   ],
   "note": "Also node renumbering and shifting of an equation."
  },
  {
   "property": "C15",
   "status": "partial",
   "theorems": [
    "C15_resolve_partial",
    "C15_resolve_integer",
    "C15_resolve_exact",
    "C15_link",
    "C15_tolerance_refuted",
    "C15_fixed_master_refuted",
    "C15_cyclic_refuted"
   ],
   "note": "Resolution by substitution preserves the solution set when no product of coefficients along a chain falls within the zero tolerance (integers with the code's tolerance, everything with tolerance 0) and ends with no chained master, for all visiting orders; linking by pointers (C15_link) does so for all coefficients. Missing: a bound on the perturbation when terms are dropped (C15_tolerance_refuted shows the exact equivalence fails); chains through a fixed master (C15_fixed_master_refuted) and cyclic sets (C15_cyclic_refuted: endless recursion) are violated by the code."
  },
  {
   "property": "C16",
   "status": "proved",
   "theorems": [
    "C16_expand",
    "C16_rows",
    "C16_fixed_master_refuted"
   ],
   "note": "End to end from patches: table rows hold iff the chained equations hold, masters are free DOFs, and expanding equation vectors gives exactly the vectors satisfying all boundary conditions and constraints. Assumes acyclic links to the equation defining the master and no boundary condition on a linked master; C16_fixed_master_refuted shows that without the latter the code uses the overridden equation."
  },
  {
   "property": "C17",
   "status": "partial",
   "theorems": [
    "C17_merge_partial",
    "C17_lost_constraint_refuted",
    "C17_overflow_refuted",
    "C17_zero_span_refuted",
    "C17_gap_refuted",
    "C17_nspdof_refuted"
   ],
   "note": "Proved for models without ignored constraints and with gapless positive element numbers. The general claim is false of the code: with ignored constraints valid ones are lost (C17_lost_constraint_refuted) or arrays overflow (C17_overflow_refuted), zero-span elements overflow the pointer array, gaps give wrong connectivities, the number of specified DOFs accumulates. The optional renumbering map of merge() is not modelled."
  },
  {
   "property": "C18",
   "status": "proved",
   "theorems": [
    "C18_node_dofs",
    "C18_foreign_bc_refuted"
   ],
   "note": "Node and DOF types are not modelled. Boundary conditions for unknown node numbers are used as array index unchecked (C18_foreign_bc_refuted)."
  },
  {
   "property": "C19",
   "status": "proved",
   "theorems": [
    "C19_connectivity",
    "C19_duplicate_rejected",
    "C19_order"
   ],
   "note": "Duplicated numbers are rejected in all cases when the element count comes from the patches."
  },
  {
   "property": "C20",
   "status": "proved",
   "theorems": [
    "C20_first_come",
    "C20_ordered",
    "C20_ordered_result_refuted",
    "C20_model",
    "C20_conditions",
    "C20_set_order_refuted",
    "C20_duplicates"
   ],
   "note": "Order-preserving and first-come renumbering, of single patches and of the whole model with its fixations and constraint equations. Two side findings are refuted claims: the order-preserving variant returns the number of changed numbers, not of unique nodes as documented; first-come renumbering changes keys inside the std::set of equations and breaks its order."
  },
  {
   "property": "C21",
   "status": "proved",
   "theorems": [
    "C21_reachable_legal",
    "C21_read",
    "C21_compress",
    "C21_compress_transposed",
    "C21_write"
   ],
   "note": "All states reachable by the public operations (inductive definition 'reachable')."
  },
  {
   "property": "C22",
   "status": "partial",
   "theorems": [
    "C22_product_partial",
    "C22_short_vector",
    "C22_product_umfpack_refuted"
   ],
   "note": "Proved except for compressed matrices of the UMFPACK solver, where the code reads column storage as row storage (index -1): refuted by C22_product_umfpack_refuted."
  },
  {
   "property": "C23",
   "status": "partial",
   "theorems": [
    "C23_dump_partial",
    "C23_dump_rows_refuted",
    "C23_dump_empty_column_refuted",
    "C23_dump_empty_refuted"
   ],
   "note": "Holds for editable matrices and compressed columns with a non-empty first column. The code violates it for compressed rows (prints A[i-1] instead of A[j-1]), for an empty first column and for an empty compressed matrix (front() of an empty array)."
  },
  {
   "property": "C24",
   "status": "proved",
   "theorems": [
    "C24_augment",
    "C24_augment_locked",
    "C24_truncate",
    "C24_redim",
    "C24_resize",
    "C24_scale",
    "C24_split",
    "C24_column",
    "C24_norm",
    "C24_csr",
    "C24_split_empty_refuted",
    "C24_column_compressed_refuted",
    "C24_column_stale_refuted"
   ],
   "note": "The refuted theorems delimit the claim: empty and compressed matrices are refused, and a matrix with entries that was then pre-assembled yields stale columns/blocks with a success status."
  },
  {
   "property": "C25",
   "status": "partial",
   "theorems": [
    "C25_increment",
    "C25_sections",
    "C25_final",
    "C25_terminates",
    "C25_counts",
    "C25_cutback_refuted",
    "C25_negative_refuted",
    "C25_maxStep_refuted"
   ],
   "note": "Proved for every simulation (increments, cut-backs of steps not ending at a section end, arbitrary iteration/CFL numbers) from sane parsed input; termination and exact step counts too. Refuted: a cut-back of a step that completed a section makes the section end be stepped over; negative times end at once; the step limit only stops one increment."
  },
  {
   "property": "C26",
   "status": "partial",
   "theorems": [
    "C26_cutback_partial",
    "C26_refused",
    "C26_bounded",
    "C26_listed_steps_refuted",
    "C26_next_section_refuted"
   ],
   "note": "Time/step size part proved for every state; the frame part is exact (only the last listed size of the current section changes), and the full claim is refuted: the overwritten entry is not the one of the current step, and after a completed section it belongs to the next one."
  },
  {
   "property": "C27",
   "status": "partial",
   "theorems": [
    "C27_no_sections",
    "C27_sections_partial",
    "C27_cutback_refuted",
    "C27_startTime_refuted",
    "C27_iterations_refuted",
    "C27_reset_independent"
   ],
   "note": "Proved without sections (any state) and with sections for fixed step sizes, start time 0, no cut-backs; refuted otherwise, since the restored time is recomputed by replaying the schedule from time 0."
  },
  {
   "property": "C28",
   "status": "proved",
   "theorems": [
    "C28_gather",
    "C28_gather_matrix",
    "C28_gather_new",
    "C28_gather_row",
    "C28_gather_norow",
    "C28_cut_block_refuted",
    "C28_stale_refuted"
   ],
   "note": "Proved for inputs of whole blocks. Also shown: a block cut off by the end of the input is read out of bounds, and entries with a negative index keep stale values."
  },
  {
   "property": "C29",
   "status": "partial",
   "theorems": [
    "C29_regularised",
    "C29_writable",
    "C29_locked_refuted",
    "C29_one_equation_refuted",
    "C29_negative_equation_refuted"
   ],
   "note": "Full statement proved whenever the diagonal can be written. The code silently skips equations outside a locked pattern and one-equation systems (refuted theorems)."
  },
  {
   "property": "C30",
   "status": "partial",
   "theorems": [
    "C30_digits",
    "C30_fix",
    "C30_fix_invalid",
    "C30_fix_history",
    "C30_nodes",
    "C30_patch",
    "C30_isFixed",
    "C30_isFixed_all_refuted",
    "C30_isFixed_all_partial",
    "C30_isFixed_all_complete",
    "C30_isFixed_any_refuted",
    "C30_isFixed_any_partial",
    "C30_allDofs"
   ],
   "note": "Setting codes and single-DOF queries are proved; queries with several DOFs at once are refuted (only leading digits, respectively only one digit, are checked) and the exact answer is proved instead."
  },
  {
   "property": "C31",
   "status": "partial",
   "theorems": [
    "C31_diagonal_partial",
    "C31_diagonal_refuted"
   ],
   "note": "Full statement (diagonal of the full assembly for every element) is violated when a free equation occurs twice in an element."
  },
  {
   "property": "C32",
   "status": "partial",
   "theorems": [
    "C32_column_partial",
    "C32_column_refuted"
   ],
   "note": "Full statement is violated: constraint coefficients are ignored, so it holds for unit coefficients only."
  },
  {
   "property": "C33",
   "status": "partial",
   "theorems": [
    "C33_assembled",
    "C33_assembled_noflags",
    "C33_samg_preassembly_refuted"
   ],
   "note": "Proved for all modes that are supported by the solver; for SAMG / no solver with locked pre-assembly the code locks an empty pattern and drops everything (C33_samg_preassembly_refuted)."
  },
  {
   "property": "C34",
   "status": "partial",
   "theorems": [
    "C34_add_partial",
    "C34_add_unflagged_refuted",
    "C34_add_format_refuted"
   ],
   "note": "Proved when B has flagged equations, the formats agree and the target is editable or has the same pattern. The code ignores a B filled through operator() and reads a compressed B in the format of the target's solver."
  },
  {
   "property": "C35",
   "status": "partial",
   "theorems": [
    "C35_add2PC",
    "C35_add3PC",
    "C35_add2PC_fixed",
    "C35_add2PC_twice_refuted",
    "C35_periodicity",
    "C35_periodicity_chain_refuted",
    "C35_prescribe",
    "C35_prescribe_fixed_refuted",
    "C35_prescribe_zero_refuted",
    "C35_override",
    "C35_override_prescribed_refuted",
    "C35_history",
    "C35_exclusive_partial",
    "C35_exclusive_refuted"
   ],
   "note": "Proved for DOFs without conditions and for all histories (well-formedness). Refuted: constraining a slave DOF again changes its equation although failure is reported (twice the same call gives slave = 2*master), periodicity chains become cyclic, overriding a prescribed value is undefined behaviour, fixing a slave DOF leaves both conditions."
  },
  {
   "property": "C36",
   "status": "proved",
   "theorems": [
    "C36_merge",
    "C36_unique",
    "C36_patch_order_refuted"
   ],
   "note": "C36_patch_order_refuted: the result depends on the order of the patches (observed behaviour, not part of the claim)."
  },
  {
   "property": "C37",
   "status": "proved",
   "theorems": [
    "C37_update",
    "C37_increment",
    "C37_zero_value_refuted",
    "C37_affine_refuted"
   ],
   "note": "The incremental form itself is wrong for a prescribed value becoming zero (C37_zero_value_refuted) and for equations with masters and a non-zero constant (C37_affine_refuted)."
  },
  {
   "property": "C38",
   "status": "partial",
   "theorems": [
    "C38_copy_partial",
    "C38_copy_refuted"
   ],
   "note": "Holds until the end of the first section (or without sections); refuted later, the schedule position is reset by copying."
  },
  {
   "property": "C39",
   "status": "proved",
   "theorems": [
    "C39_graded",
    "C39_zero_refuted"
   ],
   "note": "Termination, exact sum and bounds of graded sizes for positive first and last sizes; with a zero last size the loop never ends."
  },
  {
   "property": "C40",
   "status": "proved",
   "theorems": [
    "C40_rigid",
    "C40_nodal"
   ],
   "note": "Offsets and weights of magnitude up to 1e-8 are dropped by the code; the theorems state that."
  },
  {
   "property": "C41",
   "status": "partial",
   "theorems": [
    "C41_collapse",
    "C41_collapse_consistent_partial",
    "C41_connect_partial",
    "C41_neighbors",
    "C41_connect_refuted",
    "C41_collapse_duplicate_refuted"
   ],
   "note": "One collapse is characterised completely; connecting is proved for two patches without common numbers. The transitive claim is refuted: connecting six patches around a point in an unlucky order leaves three different numbers; a duplicated node in one patch is left behind."
  },
  {
   "property": "C42",
   "status": "partial",
   "theorems": [
    "C42_close3D",
    "C42_close2D",
    "C42_periodic_dofs",
    "C42_close_basis_refuted",
    "C42_alldofs_refuted"
   ],
   "note": "Proved when all fields are closed. Refuted: closing one basis of a mixed patch in two directions gives equations violated by constant fields; the \"all DOFs\" test counts digits, so a code containing the digit 0 can merge nodes by mistake."
  },
  {
   "property": "C43",
   "status": "partial",
   "theorems": [
    "C43_resize",
    "C43_vector_resize",
    "C43_expandRows",
    "C43_expandRows_none_refuted",
    "C43_augment",
    "C43_transpose",
    "C43_lines",
    "C43_blocks",
    "C43_extractBlock",
    "C43_fill_vector",
    "C43_fill_array_refuted",
    "C43_diag",
    "C43_sums",
    "C43_trace_refuted"
   ],
   "note": "Proved except for three refuted cases: adding rows to a matrix with no rows and two or more columns never returns; filling a longer vector from an array reads past the array; the trace of a matrix with two more columns than rows adds an off-diagonal entry."
  },
  {
   "property": "C44",
   "status": "partial",
   "theorems": [
    "C44_inverse",
    "C44_singular",
    "C44_det",
    "C44_minus_999_refuted",
    "C44_not_square_refuted"
   ],
   "note": "Exact arithmetic. Proved unless the determinant equals -999, which the code uses as the mark of an unsupported size (refuted); matrices with more rows than columns are accepted and give a meaningless result (refuted)."
  },
  {
   "property": "C45",
   "status": "partial",
   "theorems": [
    "C45_mulVec",
    "C45_mulMat",
    "C45_mulMat_vector",
    "C45_outer",
    "C45_add_scale",
    "C45_addTo_size_refuted"
   ],
   "note": "Built-in (non-BLAS) versions in exact arithmetic. Refuted: accumulating in a result of another size is not rejected and can leave the storage."
  },
  {
   "property": "C46",
   "status": "partial",
   "theorems": [
    "C46_columns3",
    "C46_trace3",
    "C46_product3",
    "C46_getColumn4",
    "C46_fillColumn4_partial",
    "C46_fillColumn4_refuted",
    "C46_print4_refuted"
   ],
   "note": "3D is proved. Refuted: writing a column of a 4D matrix uses a wrong offset (misplaced parenthesis) unless the last index or the second dimension is 1; printing a 4D matrix exchanges the labels."
  },
  {
   "property": "C47",
   "status": "partial",
   "theorems": [
    "C47_add",
    "C47_add_sum",
    "C47_add_to_empty",
    "C47_add_to_empty_strided_refuted",
    "C47_relax",
    "C47_sums",
    "C47_dot",
    "C47_normInf",
    "C47_blas_partial",
    "C47_blas_refuted"
   ],
   "note": "The built-in versions are proved. The BLAS versions agree only if the stride divides the length and the offset is less than the stride; otherwise they miss elements or read past the end (refuted). Adding with a stride to an empty vector loses the last element (refuted)."
  },
  {
   "property": "C48",
   "status": "partial",
   "theorems": [
    "C48_extract",
    "C48_extract_regular",
    "C48_extract_checked",
    "C48_inject",
    "C48_roundtrip",
    "C48_extract_uniform",
    "C48_inject_uniform",
    "C48_inject_uniform_size",
    "C48_inject_check_refuted"
   ],
   "note": "Proved for well-formed tables. Refuted: the INDEX_CHECK test of injectNodalVec accepts a node one past the end and then reads out of bounds."
  },
  {
   "property": "C49",
   "status": "proved",
   "theorems": [
    "C49_elmRes",
    "C49_elmRow",
    "C49_getSolution",
    "C49_getSolution_bad",
    "C49_searchCtrlPt"
   ],
   "note": "Distances are compared by their squares."
  },
  {
   "property": "C50",
   "status": "partial",
   "theorems": [
    "C50_deformed_partial",
    "C50_deformed_bad",
    "C50_deformed_refuted"
   ],
   "note": "Proved when there are as many fields as coordinates. Refuted otherwise: with more fields per node the displacements of wrong nodes are added."
  },
  {
   "property": "C51",
   "status": "partial",
   "theorems": [
    "C51_parse_partial",
    "C51_parse_total",
    "C51_range_comma_refuted"
   ],
   "note": "Proved for the grammar IntList. Refuted: a comma after a range inserts a zero value; a blank before a comma or at the end of the text is an error."
  },
  {
   "property": "C52",
   "status": "partial",
   "theorems": [
    "C52_find_closest",
    "C52_findKey",
    "C52_findIndex",
    "C52_merge",
    "C52_merge_values_partial",
    "C52_merge_duplicate_refuted",
    "C52_interleave"
   ],
   "note": "Refuted: merging values by keys with repeated keys gives more values than merged keys."
  },
  {
   "property": "C53",
   "status": "proved",
   "theorems": [
    "C53_predict",
    "C53_corrections",
    "C53_step"
   ],
   "note": "Without nodal rotations; exact arithmetic."
  },
  {
   "property": "C54",
   "status": "partial",
   "theorems": [
    "C54_genalpha",
    "C54_hht_partial",
    "C54_hht_immediate_refuted",
    "C54_hht_subiteration_refuted",
    "C54_nonlinear_newmark",
    "C54_nonlinear_predict",
    "C54_parameters"
   ],
   "note": "HHT: proved for steps of one or more iterations without sub-iterations. Refuted: an HHT step that converges in the first check gets the velocity increment instead of the velocity, and a second sub-iteration subtracts the predicted velocity again."
  },
  {
   "property": "C55",
   "status": "partial",
   "theorems": [
    "C55_newmark",
    "C55_corrector_moves",
    "C55_hht_predictor",
    "C55_hht_corrector_partial",
    "C55_hht_newton",
    "C55_nonlinear_newmark",
    "C55_hht_massless_refuted",
    "C55_negative_damping_refuted"
   ],
   "note": "HHT is proved for elements with mass matrix and one or two right-hand-side vectors. Refuted: massless elements miss the factor 1+alpha; negative Rayleigh coefficients are in the Newton matrix but not in the residual."
  },
  {
   "property": "C56",
   "status": "partial",
   "theorems": [
    "C56_order1",
    "C56_order2_first",
    "C56_order2",
    "C56_order2_second_partial",
    "C56_order2_second_refuted",
    "C56_second_derivative",
    "C56_extrapolate_partial",
    "C56_extrapolate_variable_refuted",
    "C56_order",
    "C56_element_partial",
    "C56_element_refuted"
   ],
   "note": "Refuted: the second step with a changed step size uses the coefficients for equal steps; extrapolation ignores changed step sizes; BDFMats drops the inertia term when there are only the three vectors that the first-order scheme needs."
  },
  {
   "property": "C57",
   "status": "partial",
   "theorems": [
    "C57_status",
    "C57_updates",
    "C57_reference_refuted",
    "C57_shared_refuted"
   ],
   "note": "NaN norms are not modelled. Refuted: after a step that used the absolute tolerance the reference norm is 1, so later steps may converge with neither tolerance met; the static variables are shared by all simulators of a class."
  },
  {
   "property": "C58",
   "status": "partial",
   "theorems": [
    "C58_search",
    "C58_range",
    "C58_defined_partial",
    "C58_off",
    "C58_zero_refuted",
    "C58_reported_refuted"
   ],
   "note": "Refuted: zero work before and after the update gives 0/0; the reported factor differs from the applied one when the factors agree only within the tolerance."
  },
  {
   "property": "C59",
   "status": "proved",
   "theorems": [
    "C59_push"
   ],
   "note": ""
  },
  {
   "property": "C60",
   "status": "partial",
   "theorems": [
    "C60_round",
    "C60_accepted",
    "C60_scalars_of_empty_element_refuted"
   ],
   "note": "Elements one at a time (the thread number selects the scalar buffer; concurrent access is covered by C04). Sparse matrix types, associated vectors; StdVector right-hand sides. Refuted: an element with neither matrices nor vectors is skipped completely, its scalars are lost."
  },
  {
   "property": "C61",
   "status": "partial",
   "theorems": [
    "C61_legal_defined",
    "C61_all_freed",
    "C61_reinit_leaks_refuted",
    "C61_double_initialize_leaks_refuted",
    "C61_undefined_refuted"
   ],
   "note": "The order restrictions are those of the relation legal. Refuted outside of it: init() on an initialised system leaks its matrices, a second initialize() leaks the thread buffers, self-assignment, finalize() without initialize() and element numbers out of range with reactions are undefined."
  },
  {
   "property": "C62",
   "status": "partial",
   "theorems": [
    "C62_assign",
    "C62_copy_construct",
    "C62_independent",
    "C62_add_partial",
    "C62_copy_association_refuted",
    "C62_add_vectors_refuted",
    "C62_add_reactions_refuted",
    "C62_add_more_matrices_refuted"
   ],
   "note": "add() is proved for the matrices under the conditions of C34, for as many vectors as there are matrices and as many reactions as there are vectors. Refuted: the other vectors and reactions are not added, more matrices than vectors is undefined, and copying a system with several matrices loses the associated vectors."
  },
  {
   "property": "C63",
   "status": "partial",
   "theorems": [
    "C63_condense_partial",
    "C63_recover_partial",
    "C63_refused",
    "C63_last_equation_refuted",
    "C63_matrix_number_refuted",
    "C63_duplicate_refuted"
   ],
   "note": "Exact rational arithmetic; the solver is any function that returns the unique solution or fails. Refuted: whenever the last equation is not retained the retained list is read past its end (undefined); imat equal to the number of matrices is undefined; nodes given twice silently retain equations of other nodes."
  },
  {
   "property": "C64",
   "status": "partial",
   "theorems": [
    "C64_read_back",
    "C64_truncated",
    "C64_end_to_end_partial",
    "C64_empty_refuted",
    "C64_not_opened_refuted"
   ],
   "note": "Numbers are 8 bytes by an arbitrary encoding that is inverted by reading; file contents are byte lists (no other reordering of writes). Refuted: a matrix without rows whose header is cut is accepted; if the file cannot be opened for writing the reduction goes on silently."
  },
  {
   "property": "C65",
   "status": "partial",
   "theorems": [
    "colorsLR_one_basis",
    "colorsLR_race_free_partial",
    "colorsLR_parallel_partial",
    "par_colors_exists",
    "checkThreadGroups_exact",
    "colorsLR_quarter_points_refuted"
   ],
   "note": "Proved in full for one basis. With additional bases it is proved if the midpoint or quarter points of each element of the other basis find all the elements within it; refuted otherwise (an element covering three in a row). The geometric search is a table in the model. Serial consistency of memory as in Race."
  },
  {
   "property": "C66",
   "status": "partial",
   "theorems": [
    "colorsLag_partition",
    "colorsLag_race_free_partial",
    "colorsLag_parallel_partial",
    "colorsLag_chain_refuted",
    "colorsLag_outside_refuted",
    "colorsLag_singles_refuted",
    "colorsLag_merged_refuted"
   ],
   "note": "The partition holds always. Race freedom is proved for unique node numbers, resolved constraints, masters in the patch and at most one one-noded element per node (if these are separated); each of the four conditions is shown necessary by a counterexample."
  },
  {
   "property": "C67",
   "status": "partial",
   "theorems": [
    "boundaryNodes_exact",
    "boundaryNodes_unique_partial",
    "initNodeMap_reports",
    "nodal_forces_partial",
    "nodal_forces_refused",
    "nodal_forces_duplicates_refuted",
    "nodal_forces_short_refuted",
    "nodal_forces_illegal_refuted"
   ],
   "note": "Proved for distinct legal nodes and long enough element vectors. Refuted: two properties covering whole patches with a common node give a duplicate node, the node map is accepted and the assembly writes outside of the matrix; the same after a refused node map; short element vectors are read past the end (the size check is commented out)."
  },
  {
   "property": "C68",
   "status": "partial",
   "theorems": [
    "final_operation",
    "norms_partial",
    "norms_order_partial",
    "resultant",
    "norms_empty_group_refuted",
    "norms_too_many_refuted"
   ],
   "note": "Proved if empty norm groups come last. Refuted: an empty group (a requested projection that is not available) between others loses the first value of the next group and shifts the rest; more values than norms are read past the last group. One process, square root as a parameter."
  },
  {
   "property": "C69",
   "status": "partial",
   "theorems": [
    "lagrange_polynomial_exists",
    "lagrange1d_eval_value",
    "lagrange1d_eval_derivative",
    "lagrange1d_eval_refused",
    "compute_basis_values",
    "compute_basis_derivatives",
    "compute_basis_derivatives_size",
    "compute_basis_derivatives_accepted",
    "compute_basis_reproduces",
    "compute_basis_equidistant",
    "compute_basis_partition_of_unity",
    "interpolator_interpolates",
    "interpolator_reproduces",
    "interpolator_matrix",
    "interpolator_too_much_data_refuted"
   ],
   "note": "Proved for distinct points in exact arithmetic. Refuted: interpolating more data than grid points reads the grid out of bounds."
  },
  {
   "property": "C70",
   "status": "partial",
   "theorems": [
    "chebyshev_polynomials_determined",
    "chebyshev_values",
    "chebyshev_derivative_first_kind",
    "chebyshev_derivative_second_kind",
    "chebyshev_derivative_second_kind_at_ends_refuted",
    "chebyshev_second_derivative",
    "chebyshev_second_derivative_near_end_refuted",
    "chebyshev_func_value",
    "chebyshev_func_derivative",
    "chebyshev_func_second_derivative",
    "chebyshev_func_read",
    "chebyshev_vec_value",
    "chebyshev_vec_gradient",
    "chebyshev_vec_hessian",
    "chebyshev_vec_single_component_refuted"
   ],
   "note": "Refuted: the derivative of the second kind divides by zero at the end points; the second derivative is that of the end point within 1e-6 of it; a planar vector function given by one file dereferences a missing component. ChebyshevTensorFunc is not modelled."
  },
  {
   "property": "C71",
   "status": "proved",
   "theorems": [
    "legendre_polynomial_determined",
    "legendre_eval_value",
    "legendre_eval_derivative",
    "legendre_orthogonal"
   ],
   "note": "Exact arithmetic."
  },
  {
   "property": "C72",
   "status": "partial",
   "theorems": [
    "gl_matrix_eigenvalues",
    "gl_rule_exact_integration",
    "gl_rule_refused",
    "gl_rule_two_points_refuted",
    "gl_two_point_rule_exists",
    "gll_rule_small",
    "gll_iteration_fixed_points",
    "gll_points_residual",
    "gll_rule_exact_integration_partial",
    "gll_weights_exact_integration",
    "gll_basis_derivatives",
    "gll_basis_derivatives_differentiate"
   ],
   "note": "GL proved for every n >= 3 given the eigenvalues of its matrix (proved to be n distinct ones). Refuted: for n = 2 an entry of the matrix is not set, both points are 0 and the weights are not finite (reachable from ASMs1DSpec with two Gauss points). GLL proved for exact GLL points; convergence of its iteration is not proved, only its fixed points and the residual at the tolerance."
  },
  {
   "property": "C73",
   "status": "partial",
   "theorems": [
    "time_function_derivative",
    "space_time_derivative",
    "space_time_second_derivative_partial",
    "piecewise_linear",
    "points_from_file",
    "quadratic_shape",
    "time_function_values",
    "box_values",
    "interpolation_values",
    "rotation_values",
    "rotation_time_derivative_refuted",
    "second_time_derivative_refuted",
    "points_from_file_sorted_refuted"
   ],
   "note": "Exact arithmetic. First derivatives proved except the refuted time derivative of rotations and of products whose spatial part depends on the time; second derivatives proved except double time derivatives (refuted) and those of interpolated functions. Refuted: a line that steps back within the tolerance after a jump leaves the table unsorted."
  },
  {
   "property": "C74",
   "status": "partial",
   "theorems": [
    "zero_function_is_zero",
    "zero_time_function_is_zero",
    "zero_linear_function_is_small",
    "zero_answer_complete",
    "zero_factor_recognised",
    "zero_table_recognised_refuted",
    "constant_function_ignores_time",
    "constant_step_refuted",
    "constant_dirac_refuted",
    "constant_product_refuted"
   ],
   "note": "Refuted: step and Dirac time functions report that they are constant, and a product does when its spatial factor follows the time; a table of zeros interpolated in space is not recognised as zero."
  },
  {
   "property": "C75",
   "status": "partial",
   "theorems": [
    "amplitude_scales",
    "no_name_is_constant",
    "step_form",
    "step_xy_form",
    "linear_form",
    "quadratic_form",
    "rotation_form",
    "time_forms",
    "space_times_time",
    "names_ignore_case",
    "interpolation_amplitude_refuted",
    "expression_amplitude_refuted",
    "linear_slope_refuted",
    "constant_value_refuted",
    "step_xy_unbounded_refuted",
    "missing_parameters_refuted"
   ],
   "note": "Proved for the forms listed. Refuted: the amplitude is dropped for Interpolate1D and taken as difference increment for expressions, parameters of Linear and Constant in the time part are ignored, StepXY without lower bounds starts at -1, missing parameters are undefined behaviour. Field, Chebyshev not modelled; atof, atoi and files are parameters."
  },
  {
   "property": "C76",
   "status": "partial",
   "theorems": [
    "restart_round_trip",
    "restart_other_levels",
    "restart_history",
    "restart_missing",
    "restart_existing_level_keeps",
    "restart_written_is_read_refuted",
    "restart_empty_entry_refuted"
   ],
   "note": "Proved for levels that the file does not have. Refuted: a level that exists keeps its old data although writeData reports success (also a new run with the restart file of an earlier run); entries with empty values are lost."
  },
  {
   "property": "C77",
   "status": "partial",
   "theorems": [
    "crash_keeps_other_levels",
    "crash_new_level_is_prefix",
    "crash_trace_ends",
    "crash_last_level_refuted",
    "crash_rewrite_refuted"
   ],
   "note": "Refuted: a restart without level takes the incomplete level or fails, and repeating the write never completes an entry whose dataset existed without contents. The HDF5 library is taken to keep completed calls in order."
  },
  {
   "property": "C78",
   "status": "partial",
   "theorems": [
    "output_schedule",
    "restarted_schedule",
    "restart_continues_file",
    "restarted_schedule_refuted",
    "restart_from_earlier_level_refuted"
   ],
   "note": "Proved when the results were written at the restart step; refuted for all other intervals (the restarted run then always differs), and for a restart from an earlier level into the same file."
  },
  {
   "property": "C79",
   "status": "partial",
   "theorems": [
    "results_file_contents",
    "append_skips_a_level",
    "vector_field_stored_refuted",
    "knotspan_once_refuted",
    "append_adds_results_refuted",
    "dump_without_value_refuted",
    "dump_after_failure_refuted"
   ],
   "note": "Proved for integer vector and SIM fields in a new file. Refuted: VECTOR fields are never stored, KNOTSPAN fields ignore ONCE and disabling, appending skips a level and later loses data, a field never given a value is undefined behaviour, and a failed dump leaves the file open so that later levels are lost."
  },
  {
   "property": "C80",
   "status": "proved",
   "theorems": [
    "str_mnpc1",
    "str_mnpc2",
    "str_mnpc3",
    "str_mnpc_cover",
    "str_topology2",
    "str_topology3",
    "str_lag2",
    "str_lag3"
   ],
   "note": "Single-basis patches that do not share finite element data with another patch; 3D Lagrange patches have at least two nodes per element in the second direction (otherwise the code divides by zero)."
  },
  {
   "property": "C81",
   "status": "partial",
   "theorems": [
    "str_bnodes2",
    "str_bnodes2_none",
    "str_bnodes3",
    "str_bedge3",
    "str_corner2",
    "str_corner3",
    "str_belms2",
    "str_belms3",
    "str_constrainEdge2",
    "str_constrainFace3",
    "str_setNodeNumbers",
    "str_setNodeNumbers3",
    "str_bnodes1_partial",
    "str_bnodes2_swap_refuted",
    "str_belms3_swap_refuted",
    "str_bnodes1_refuted"
   ],
   "note": "Proved for patches that are not reversed; with reversal for Dirichlet conditions, corners, node numbers and 3D node sets. Refuted for 2D node sets and for element sets of reversed patches, and for curves whose end span has zero length."
  },
  {
   "property": "C82",
   "status": "partial",
   "theorems": [
    "str_connect1",
    "str_connect2",
    "str_orient_bij",
    "str_connect3",
    "str_connectPatch_plain",
    "str_connectPatch2_swap34",
    "str_connectPatch2_swap_refuted",
    "str_connectPatch3_swap_refuted",
    "str_connect3mx_refuted"
   ],
   "note": "Proved for patches that are not reversed and for edges 3 and 4 of reversed surfaces. Refuted for the other edges and for faces of reversed patches. In 2D the pairs before the first mismatch stay connected."
  },
  {
   "property": "C83",
   "status": "partial",
   "theorems": [
    "adap_percent",
    "adap_percent_undef",
    "adap_threshold",
    "adap_dorfel",
    "adap_symmetrized",
    "adap_symmetrized_ties",
    "adap_function_error",
    "adap_function_errors",
    "adap_dorfel_refuted",
    "adap_dorfel_minimal_refuted",
    "adap_threshold_ties_refuted",
    "adap_nothing_marked_refuted",
    "adap_symmetrized_zero_refuted"
   ],
   "note": "Exact arithmetic. Proved: worst-first and the number marked for all criteria; thresholds up to ties of entry 0; the Doerfler target unless entry 0 is needed and has the smallest error. Refuted: ties of entry 0 with the limit, the Doerfler target in that case and its minimality, marking when nothing reaches the limit (read out of bounds), symmetry of zero errors."
  },
  {
   "property": "C84",
   "status": "partial",
   "theorems": [
    "adap_refine_only_if",
    "adap_stop",
    "adap_loop",
    "adap_error_reported_refuted"
   ],
   "note": "Proved for all histories. Refuted: errors in the marking (negative reference norm, several patches with element based refinement) and failing refinements are reported like a criterion, by return value 0."
  },
  {
   "property": "C85",
   "status": "partial",
   "theorems": [
    "gno_numbering",
    "gno_sound",
    "gno_corner_refuted",
    "gno_reversed_refuted",
    "gno_noown_refuted",
    "gno_count_refuted"
   ],
   "note": "Proved when every interface has the lower numbered patch as master, every patch has a function that is not slave at an interface, and functions with a common slave are already connected by earlier patches; without the last condition, that equal numbers imply connection and that the numbers are consecutive. Refuted without these conditions (patches with a common neighbour that meet at a corner, reversed interfaces, patches without own functions)."
  },
  {
   "property": "C86",
   "status": "partial",
   "theorems": [
    "map_jacobian",
    "map_jacobian_singular",
    "map_jacobian_nograd",
    "map_jacobian_curve",
    "map_jacobian_surface",
    "map_jacobian_999_refuted"
   ],
   "note": "Proved over the real numbers when the determinant is not -999; refuted for determinant -999, which is taken for an error of the determinant function: J is not inverted and dNdX is wrong."
  },
  {
   "property": "C87",
   "status": "partial",
   "theorems": [
    "map_hessian",
    "map_hessian_singular",
    "map_hessian_unstructured_affine",
    "map_hessian_unstructured",
    "map_hessian_unstructured_refuted",
    "map_hessian_columns",
    "map_third",
    "map_third_3d_missing",
    "map_third_refuted"
   ],
   "note": "Proved for structured patches. Refuted for unstructured patches, which pass dNdu instead of dNdX to utl::Hessian: the second derivatives are right only where the geometry is affine. Third derivatives proved for affine geometries in 1D and 2D, refuted for others, not implemented in 3D."
  },
  {
   "property": "C88",
   "status": "proved",
   "theorems": [
    "map_edge_normal",
    "map_shell_normal",
    "map_face_normal",
    "map_boundary_singular",
    "map_edge_tangent"
   ],
   "note": "Proved over the real numbers for regular mappings whose tangents are longer than 1e-16 (otherwise nothing is normalized). The normal on a volume face is outward exactly when the mapping is right-handed; on edges of surfaces always."
  },
  {
   "property": "C89",
   "status": "partial",
   "theorems": [
    "map_jacobian_gradient",
    "map_det_gradient",
    "map_piola",
    "map_piola_divergence",
    "map_det_gradient_1d_refuted",
    "map_jacobian_gradient_reuse_refuted",
    "map_gmat",
    "map_gmat_parametrization_refuted"
   ],
   "note": "Proved in 2 and 3 dimensions, with derivatives in the sense of real analysis. Refuted: detJacGradient is zero in 1D, JacobianGradient adds to output matrices that are used again, G depends on the parametrization of the element."
  },
  {
   "property": "C90",
   "status": "partial",
   "theorems": [
    "subdomains_1D",
    "subdomains_2D",
    "subdomains_3D",
    "subdomains_cover",
    "subdomains_overlap_fits",
    "subdomains_overlap_exact",
    "subdomains_apart",
    "subdomains_zero_overlap_refuted",
    "subdomains_big_overlap_refuted"
   ],
   "note": "Proved whenever the subdomains fit (always with an overlap between 1 and the subdomain size). Refuted: without overlap some requests throw std::length_error (4 subdomains of 8 elements); an overlap above the subdomain size is accepted and elements are lost."
  },
  {
   "property": "C91",
   "status": "partial",
   "theorems": [
    "orient_matches_serial",
    "orient_permutation",
    "orient_edge",
    "orient_sizes",
    "orient_rectangular_refuted",
    "iface_pairs_partial",
    "iface_pairs_refuted"
   ],
   "note": "Proved for orientations 0-3 and for 4-7 on square faces. Refuted for 4-7 on rectangular faces (orders with dim1 and dim2 exchanged). getElmConnectivities uses the iterator in the inverse direction: wrong neighbours for orientations 5 and 6."
  },
  {
   "property": "C92",
   "status": "proved",
   "theorems": [
    "part_numbering",
    "part_g2leq_inverse",
    "part_getGlobalEq"
   ],
   "note": "Processes in rank order (forced by the blocking receive of the predecessor message)."
  },
  {
   "property": "C93",
   "status": "partial",
   "theorems": [
    "ghost_numbering",
    "ghost_same_iff",
    "ghost_nodes_like_equations",
    "ghost_mismatch_detected",
    "ghost_inconsistent_refuted",
    "ghost_node_mismatch_refuted",
    "ghost_max_dof_refuted",
    "ghost_max_dof_partial",
    "ghost_order",
    "ghost_set_keeps",
    "ghost_set_refuted"
   ],
   "note": "Proved for interfaces whose masters have lower rank, when two masters of a slave unknown are joined among themselves by earlier interfaces (ghost_same_iff); refuted without (unknowns of the two masters keep different numbers), for the sizes of node interfaces (nRecv =! size is an assignment), for maxDof (0-based argument of getNodeDOFs), and for ghost connections that differ only in the master patch (lost in the set)."
  },
  {
   "property": "C94",
   "status": "partial",
   "theorems": [
    "msg_no_deadlock",
    "msg_terminates",
    "msg_result",
    "msg_completes",
    "msg_kinds",
    "msg_rank_order_refuted",
    "msg_order_refuted",
    "msg_error_refuted",
    "setup_failure_refuted"
   ],
   "note": "Proved when every interface has its master on a lower rank than its slave and the connections are in the order of the set. Refuted: an interface with its master on a higher rank hangs at once (not checked by the code); an error return of one process leaves the later ones waiting; setup adds up lok, which is always one, so failures are ignored in MPI builds."
  },
  {
   "property": "C95",
   "status": "partial",
   "theorems": [
    "rk_explicit",
    "rk_step",
    "rk_order",
    "rke_order",
    "rk_exponential",
    "rk_quadrature",
    "rk_fail",
    "rke_order_function_refuted",
    "rk_linear_restart_refuted"
   ],
   "note": "Order is stated by Butcher's conditions over all rooted trees (not by a limit of the error). Refuted: Order is 0 for the embedded methods; with operators marked linear a run starting with a step number other than 1 solves with a matrix never assembled."
  },
  {
   "property": "C96",
   "status": "partial",
   "theorems": [
    "rke_accept",
    "rke_terminates",
    "rke_adjust",
    "rke_reject",
    "rke_no_estimate_refuted"
   ],
   "note": "Proved. Refuted for tolerances of 1 or more: the estimate starts with 1, so the first solution is accepted without any estimate, and the step size is then changed as if the estimate were 1."
  },
  {
   "property": "C97",
   "status": "partial",
   "theorems": [
    "ab_formula",
    "ab_coefs_exact",
    "ab_coefs_sharp",
    "ab_polynomial",
    "lmm_levels",
    "ab_variable_step_refuted",
    "ab_restart_refuted"
   ],
   "note": "The formula is proved for all runs. Refuted: the weights assume a constant step size (AB2 is exact for linear loads only if the steps are equal); after a restart all methods with two or more levels read a null load vector."
  },
  {
   "property": "C98",
   "status": "partial",
   "theorems": [
    "am_formula",
    "am_coefs_exact",
    "am_failed_step_refuted",
    "am_ics_refuted",
    "am_restart_refuted"
   ],
   "note": "Proved for runs without extra initial conditions in which all steps are solved. Refuted: if a step after the first is not solved, the destructor deletes a vector twice, for every order; with initial conditions AM2 uses the load of the time before the start in place of that of the start; after a restart a null vector is read."
  },
  {
   "property": "C99",
   "status": "partial",
   "theorems": [
    "gauss_exact",
    "gauss2_exact",
    "gauss_points",
    "gauss_sharp",
    "gauss_avail",
    "gauss10_exact_partial",
    "gauss10_refuted"
   ],
   "note": "Proved for 1 to 9 points, with the decimals of the source as exact numbers. Refuted for 10 points: its table has 8 digits, even the length of the interval is off by 2e-8 (that accuracy is proved)."
  },
  {
   "property": "C100",
   "status": "partial",
   "theorems": [
    "tri1_exact",
    "tri4_exact",
    "tri_nodal_loads",
    "tri3_linear_refuted",
    "tri3_fixed",
    "tri_integral_exists",
    "tri_avail"
   ],
   "note": "Proved for the rules with 1 and 4 points. Refuted for 3 points: the point (1/2,1/2) is listed twice, so the integral of the second area coordinate is detJ/4 instead of detJ/6 and a uniform load is distributed 1/3, 1/2, 1/6; with (1/2,0) in its place the rule is exact for quadratic functions."
  },
  {
   "property": "C101",
   "status": "partial",
   "theorems": [
    "C101_product",
    "C101_multiply_in_place",
    "C101_point",
    "C101_unary",
    "C101_det_multiplicative",
    "C101_inverse",
    "C101_shift",
    "C101_self_multiply_refuted",
    "C101_symmetric_in_place_refuted"
   ],
   "note": "Proved for distinct full tensors. Refuted for T.postMult(T), which reads components it has overwritten, and for the in-place product of symmetric tensors, whose storage is copied as if it were full (unit times unit is not unit)."
  },
  {
   "property": "C102",
   "status": "partial",
   "theorems": [
    "C102_storage",
    "C102_invariants",
    "C102_det_inverse",
    "C102_congruence",
    "C102_rotation_invariants",
    "C102_inner_product",
    "C102_inner_product_refuted",
    "C102_vonMises_1D_refuted"
   ],
   "note": "Proved except: the von Mises value in one dimension has the sign of the stress; ddot(A,A) counts each off-diagonal pair once and differs from the squared L2-norm (both refuted, the second with the exact difference)."
  },
  {
   "property": "C103",
   "status": "partial",
   "theorems": [
    "C103_cauchy_green",
    "C103_dyad",
    "C103_symmetric_product",
    "C103_assignment",
    "C103_cauchy_green_33_refuted",
    "C103_dyad_33_refuted",
    "C103_symmetric_product_33_refuted",
    "C103_assignment_33_refuted"
   ],
   "note": "Proved for tensors without the extra 33 component and the assignments named there. Refuted for 2D tensors with 33: the shear is written to (or read from) the 33 slot; assignment to a 3D symmetric tensor loses s33, an old s33 survives, and a full 2D tensor gets the components in the wrong places."
  },
  {
   "property": "C104",
   "status": "proved",
   "theorems": [
    "C104_axes_from_normal",
    "C104_axes_from_tangents"
   ],
   "note": "With t1isZ the cross product is the Y-axis, or with t2isXZ the X-axis; the comment in the source says X-axis and Y-axis."
  },
  {
   "property": "C105",
   "status": "partial",
   "theorems": [
    "C105_principal_2D",
    "C105_principal_3D",
    "C105_hydrostatic_refuted",
    "C105_iterative_refuted"
   ],
   "note": "Proved for 2D and, when the deviator is above the tolerance, for 3D and 2D with the 33 component: the trigonometric formula gives the three roots with their multiplicities. Refuted in 3D for a nonzero hydrostatic tensor, which gets the values 0 (its deviator) instead of the mean, and for the iterative version, which never rotates the pair (1,3): with only s13 it returns the diagonal."
  },
  {
   "property": "C106",
   "status": "partial",
   "theorems": [
    "C106_rotation_tensor",
    "C106_rotate",
    "C106_rotate_2D",
    "C106_rotate_sense_refuted"
   ],
   "note": "Proved for the rotation vector and for rotate about axes 1 and 3. Refuted about axis 2, which turns the other way (proved to be the rotation by the opposite angle)."
  }
 ]
}