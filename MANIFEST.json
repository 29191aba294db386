{
 "claims": [
  {
   "property": "C01",
   "status": "proved",
   "theorems": [
    "C01_range_queries"
   ],
   "note": ""
  },
  {
   "property": "C02",
   "status": "proved",
   "theorems": [
    "C02_range_merge_and_difference"
   ],
   "note": ""
  },
  {
   "property": "C03",
   "status": "proved",
   "theorems": [
    "C03_box_queries",
    "C03_any_dimension_overlaps"
   ],
   "note": ""
  },
  {
   "property": "C04",
   "status": "proved",
   "theorems": [
    "C04_box_difference"
   ],
   "note": ""
  },
  {
   "property": "C05",
   "status": "proved",
   "theorems": [
    "C05_box_merge"
   ],
   "note": ""
  },
  {
   "property": "C06",
   "status": "proved",
   "theorems": [
    "C06_box_iteration"
   ],
   "note": ""
  },
  {
   "property": "C07",
   "status": "proved",
   "theorems": [
    "C07_orders",
    "C07_equality",
    "C07_order_shape"
   ],
   "note": ""
  },
  {
   "property": "C08",
   "status": "partial",
   "theorems": [
    "C08_insert_partial",
    "C08_insert_point_partial",
    "C08_insert_set_partial",
    "C08_additions_partial",
    "C08_C09_small_regions",
    "C08_additions_refuted"
   ],
   "note": "Exact whenever the operation is defined; defined and exact for all histories in a region of at most 16 points. That every addition is defined is false of the code (C08_additions_refuted: 48 added points reach a freed node)."
  },
  {
   "property": "C09",
   "status": "partial",
   "theorems": [
    "C08_C09_small_regions",
    "C09_remove_partial",
    "C09_remove_point_partial",
    "C09_remove_set_partial",
    "C09_history_partial",
    "C09_removals_refuted",
    "C09_removals_defined_refuted"
   ],
   "note": "Nothing else is lost and nothing appears; exact in regions of at most 16 points. Exactness in general is false of the code (C09_removals_refuted: a removed point is still there; C09_removals_defined_refuted: a freed node is used)."
  },
  {
   "property": "C10",
   "status": "partial",
   "theorems": [
    "C10_of_boxes",
    "C10_of_points",
    "C10_disjoint_refuted"
   ],
   "note": "Content exact and construction total for every list; stored ranges disjoint for points and for disjoint boxes. Disjointness for overlapping boxes is false of the code (C10_disjoint_refuted)."
  },
  {
   "property": "C100",
   "status": "partial",
   "theorems": [
    "C100_replaced_partial",
    "C100_balanced",
    "C100_succeeds_partial",
    "C100_two_inductions_refuted",
    "C100_several_ranges_refuted",
    "C100_reduction_arguments_refuted",
    "C100_call_in_reduction_refuted"
   ],
   "note": "every element that replaces a call exists and holds its value for equations with one range, calls that follow the inductions of the first, and flat reductions; the new variable is determined by its equation; refuted for two inductions paired with one, several ranges, and inductions of reductions"
  },
  {
   "property": "C101",
   "status": "partial",
   "theorems": [
    "C101_solutions",
    "C101_once",
    "C101_scalar",
    "C101_compiles_partial",
    "C101_empty_refuted",
    "C101_bounds_refuted",
    "C101_if_refuted"
   ],
   "note": "whenever the compilation ends with templates, their solutions are those of the source, with one template per equation, no iteration twice and scalar sides; compiled for ascending non-empty ranges of literals; refuted for empty, descending and parametric ranges and if equations"
  },
  {
   "property": "C102",
   "status": "partial",
   "theorems": [
    "C102_sections_partial",
    "C102_start_reads_refuted"
   ],
   "note": "the equations hold exactly when the section does, for the statements C89 covers and start values that read only variables the section assigns; refuted for start values that read others; scalars"
  },
  {
   "property": "C103",
   "status": "partial",
   "theorems": [
    "C103_initial_equations_partial",
    "C103_guesses_partial",
    "C103_counts_partial",
    "C103_parameter_start_refuted",
    "C103_fixed_without_start_refuted",
    "C103_binding_and_start_refuted",
    "C103_fixed_array_refuted",
    "C103_each_refuted"
   ],
   "note": "Same solutions as the initial conditions of the language for accepted attributes, and as many equations; default fixed of parameters, fixed without start, fixed start beside a binding, mixed fixed arrays and the each of the first attribute are refuted. Records are not modelled."
  },
  {
   "property": "C104",
   "status": "partial",
   "theorems": [
    "C104_inlining_partial",
    "C104_one_value",
    "C104_no_failure_partial",
    "C104_which",
    "C104_default_reads_refuted",
    "C104_protected_default_refuted",
    "C104_output_default_refuted",
    "C104_subscript_refuted",
    "C104_region_refuted",
    "C104_return_refuted"
   ],
   "note": "Values are kept for any selection and order of inlined calls when the functions are lists of assignments without subscripts, with defaults that read nothing; defaults that read inputs, defaults of other variables, regions, element assignments and conditional returns are refuted. Types are not modelled."
  },
  {
   "property": "C105",
   "status": "partial",
   "theorems": [
    "C105_kept",
    "C105_no_outputs",
    "C105_declared_partial",
    "C105_start_refuted",
    "C105_solutions",
    "C105_outputs"
   ],
   "note": "Kept variables and equations, solutions and outputs proved for all models. Start values that read a variable the equations do not need are left dangling, which is refuted."
  },
  {
   "property": "C106",
   "status": "partial",
   "theorems": [
    "C106_constant_partial",
    "C106_solutions_partial",
    "C106_mixed_access_refuted",
    "C106_elements_lost_refuted"
   ],
   "note": "Constancy under the condition that no access reaches elements with and without a main equation (false otherwise); equal solutions also if arrays are not written element by element (false otherwise), main equations are repeated among the initial ones where these solve for the same elements, and what stays determines its values."
  },
  {
   "property": "C107",
   "status": "partial",
   "theorems": [
    "C107_undisturbed_partial",
    "C107_independent_partial",
    "C107_one_thread_partial",
    "C107_race_refuted",
    "C107_erased_refuted"
   ],
   "note": "For schedules that do not change a binding equation while it is copied; in particular for every schedule if copied binding equations have no reads to replace, and for one thread. False for other schedules: races are refuted."
  },
  {
   "property": "C108",
   "status": "partial",
   "theorems": [
    "C108_one_argument",
    "C108_equal_sizes_partial",
    "C108_declared_ranks",
    "C108_different_sizes_refused",
    "C108_matrices_refuted",
    "C108_runtime_sizes_refuted",
    "C108_dynamic_result_refuted"
   ],
   "note": "Proved for one argument of any shape and for several arguments whose extra dimensions have one size; arrays with extra dimensions of different sizes, run-time mismatches and results of unknown size are refuted."
  },
  {
   "property": "C109",
   "status": "partial",
   "theorems": [
    "C109_read",
    "C109_sizes_partial",
    "C109_fold",
    "C109_merge_partial",
    "C109_merge_refuted",
    "C109_merge_extract_refuted",
    "C109_write_partial",
    "C109_write_refuted"
   ],
   "note": "Reading and folding proved for all subscripts; sizes without empty ranges; merging proved when only the last view has ranges and refuted otherwise; writing proved for steps that are not negative and refuted for negative ones."
  },
  {
   "property": "C11",
   "status": "partial",
   "theorems": [
    "C11_contains_point",
    "C11_contains_box",
    "C11_overlaps_box",
    "C11_overlaps_set",
    "C11_contains_set_partial",
    "C11_contains_set_refuted"
   ],
   "note": "All the queries exact, except contains(IndexSet), exact when the ranges stored by the argument do not overlap and wrong otherwise (C11_contains_set_refuted)."
  },
  {
   "property": "C110",
   "status": "partial",
   "theorems": [
    "C110_once",
    "C110_after_dependencies",
    "C110_warning",
    "C110_before_writers",
    "C110_start_value_partial",
    "C110_computed_partial",
    "C110_reversed",
    "C110_chain_refuted",
    "C110_overwritten_refuted"
   ],
   "note": "Order and values are proved for start expressions that read what blocks compute or nothing sets; start expressions that read what other start equations set, and conflicts that only give a warning, are refuted. The WritesMap is replaced by cells."
  },
  {
   "property": "C111",
   "status": "partial",
   "theorems": [
    "C111_reference_partial",
    "C111_unpacked_partial",
    "C111_middle_refuted",
    "C111_last_refuted",
    "C111_not_record_refuted",
    "C111_nested_refuted"
   ],
   "note": "Missing: subscripts in the middle after kept dimensions, fewer subscripts than dimensions on the last name, components of things that are not records and components of components, all refuted."
  },
  {
   "property": "C112",
   "status": "partial",
   "theorems": [
    "C112_component_partial",
    "C112_scalar_partial",
    "C112_no_arrays",
    "C112_record_partial",
    "C112_index_refuted",
    "C112_nested_refuted",
    "C112_array_refuted",
    "C112_long_refuted"
   ],
   "note": "Missing, all refuted: indices of assigned records, records assigned to components, arrays in components of components, subscripts in references of four names."
  },
  {
   "property": "C113",
   "status": "partial",
   "theorems": [
    "C113_arguments_partial",
    "C113_ranks_partial",
    "C113_array_argument_refuted",
    "C113_results_partial",
    "C113_results_refuted",
    "C113_array_component_refuted"
   ],
   "note": "Missing, all refuted: results that are not records after records, array components of record results, arrays of records as arguments."
  },
  {
   "property": "C114",
   "status": "partial",
   "theorems": [
    "C114_once",
    "C114_values_partial",
    "C114_boxes_refuted"
   ],
   "note": "Missing: calls with dependent indices and several boxes, refuted."
  },
  {
   "property": "C115",
   "status": "partial",
   "theorems": [
    "C115_element",
    "C115_short_refuted",
    "C115_slice_partial",
    "C115_slice_no_alarm_partial",
    "C115_range_refuted",
    "C115_shape_partial",
    "C115_row_refuted",
    "C115_math",
    "C115_size"
   ],
   "note": "Elements, functions of doubles and size: proved exact. Slices: exact with indices and colons, no false alarms with ranges; checks of ranges and of the elements of slice assignments are refuted."
  },
  {
   "property": "C116",
   "status": "partial",
   "theorems": [
    "C116_arrays_partial",
    "C116_scalar_partial",
    "C116_mixed_refuted",
    "C116_division_refuted",
    "C116_product_partial",
    "C116_memory_refuted",
    "C116_dynamic_refuted",
    "C116_power_refuted"
   ],
   "note": "Proved for two arrays, for scalars with arrays in the type combinations that are translated, and for products if fresh memory is zero and result sizes are known. Refuted: the other combinations, Integer quotients, uninitialised destinations, unknown sizes, powers."
  },
  {
   "property": "C117",
   "status": "partial",
   "theorems": [
    "C117_constructor_partial",
    "C117_index_refuted",
    "C117_range_refuted",
    "C117_ragged_refuted",
    "C117_array_element_refuted",
    "C117_fill",
    "C117_size_dimension",
    "C117_ndims",
    "C117_size_partial",
    "C117_size_refuted"
   ],
   "note": "Proved for constructors with consistent sizes, ranges 1:n and scalar expressions that do not read the indices; fill; ndims; size with a dimension; size of vectors. Refuted: expressions that read the index, other ranges, ragged rows, array-valued elements, size of arrays with more dimensions."
  },
  {
   "property": "C118",
   "status": "partial",
   "theorems": [
    "C118_position",
    "C118_names_refuted",
    "C118_derivative_partial",
    "C118_derivative_refuted",
    "C118_printable"
   ],
   "note": "Positions, names, ranks, values and printable boxes proved; derivative numbers proved when no reserved variable precedes the derivative, refuted otherwise; variables named with two leading underscores are dropped (refuted)."
  },
  {
   "property": "C119",
   "status": "partial",
   "theorems": [
    "C119_calls",
    "C119_distinct",
    "C119_results_partial",
    "C119_inner_results_partial",
    "C119_elementwise_refuted",
    "C119_inline_refuted",
    "C119_clash_refuted"
   ],
   "note": "Targets of calls and distinct names proved for every well-named program. Refuted: calls for each element of functions in packages lose the dimensions of their result; functions in packages lose the inline annotation; mangled names can clash with other classes."
  },
  {
   "property": "C12",
   "status": "proved",
   "theorems": [
    "C12_intersect_box",
    "C12_intersect_set"
   ],
   "note": "Total and exact for every index set that can be built."
  },
  {
   "property": "C120",
   "status": "partial",
   "theorems": [
    "C120_equations_partial",
    "C120_small_arrays",
    "C120_starts",
    "C120_none_derived"
   ],
   "note": "Elements that are not derived get exactly one equation and start values are right, for every model; for arrays of at most 16 elements the pass is defined and exact. Missing: that elements the model differentiates get no equation in larger arrays, which rests on exact removal from index sets (C09)."
  },
  {
   "property": "C13",
   "status": "proved",
   "theorems": [
    "C13_complement"
   ],
   "note": "Total and exact for every index set that can be built."
  },
  {
   "property": "C14",
   "status": "proved",
   "theorems": [
    "C14_slice",
    "C14_takeFirst",
    "C14_takeLast",
    "C14_dropFirst",
    "C14_dropLast",
    "C14_append",
    "C14_prepend",
    "C14_empty"
   ],
   "note": "Total and exact for non-empty sets; the empty set is returned unchanged."
  },
  {
   "property": "C15",
   "status": "partial",
   "theorems": [
    "C15_iteration_partial",
    "C15_iteration_refuted"
   ],
   "note": "All and only the points are visited; each once and size() right when the stored ranges do not overlap; false otherwise (C15_iteration_refuted)."
  },
  {
   "property": "C16",
   "status": "partial",
   "theorems": [
    "C16_equality_partial",
    "C16_equality_refuted"
   ],
   "note": "Exact when at least one set is not empty; two empty sets may compare different (C16_equality_refuted)."
  },
  {
   "property": "C17",
   "status": "partial",
   "theorems": [
    "C17_compact_partial",
    "C17_compact_refuted"
   ],
   "note": "Same points; disjoint when the stored ranges are; false otherwise (C17_compact_refuted)."
  },
  {
   "property": "C18",
   "status": "partial",
   "theorems": [
    "C18_insertions",
    "C18_histories_partial",
    "C18_bulk_partial",
    "C18_index_set_additions_partial",
    "C18_index_sets_partial",
    "C18_bulk_refuted",
    "C18_removal_refuted",
    "C18_index_set_removal_refuted"
   ],
   "note": "Insertions total and well formed; histories with removals well formed when defined; lower bound broken by bulk loads, upper bound by index set removals, removals may use a freed node (the three refuted theorems)."
  },
  {
   "property": "C19",
   "status": "proved",
   "theorems": [
    "C19_search"
   ],
   "note": "Every tree reachable by bulk loads, insertions and removals."
  },
  {
   "property": "C20",
   "status": "partial",
   "theorems": [
    "C20_image_partial",
    "C20_image_superset_partial",
    "C20_image_refuted"
   ],
   "note": "Exact image for every access function unless a rotation-translation uses a dimension in two results (refuted there); superset always."
  },
  {
   "property": "C21",
   "status": "proved",
   "theorems": [
    "C21_inverse",
    "C21_round_trip"
   ],
   "note": "For every access function with at least one dimension (the empty function maps nothing)."
  },
  {
   "property": "C22",
   "status": "partial",
   "theorems": [
    "C22_preimage_partial",
    "C22_constant_refuted",
    "C22_constant_result_refuted",
    "C22_outside_refuted"
   ],
   "note": "Exact on the parent's iterations for division-free affine functions without constant results; refuted for constant functions, constant results, and iterations outside the parent."
  },
  {
   "property": "C23",
   "status": "partial",
   "theorems": [
    "C23_combine_partial",
    "C23_combine_refuted"
   ],
   "note": "Division-free affine functions; refuted when the first function accesses several elements."
  },
  {
   "property": "C24",
   "status": "partial",
   "theorems": [
    "C24_equal_partial",
    "C24_equal_refuted"
   ],
   "note": "Same number of results required; refuted otherwise (the results are zipped)."
  },
  {
   "property": "C25",
   "status": "partial",
   "theorems": [
    "C25_history_partial",
    "C25_set_refuted",
    "C25_unset_refuted",
    "C25_unset_drop_refuted",
    "C25_apply_refuted",
    "C25_ranges_refuted"
   ],
   "note": "Full effect of every history of apply/set/unset whose functions are plain affine and whose single entries agree with the rotation-translations already present (all_permitted); what is missing is false of the code: five refutations with concrete histories."
  },
  {
   "property": "C26",
   "status": "partial",
   "theorems": [
    "C26_plus_partial",
    "C26_plus_refuted",
    "C26_minus_partial",
    "C26_minus_refuted",
    "C26_minus_points_refuted"
   ],
   "note": "Entrywise sum and difference under stated compatibility of the groups; the cases left out include three refutations."
  },
  {
   "property": "C27",
   "status": "partial",
   "theorems": [
    "C27_filterRows_partial",
    "C27_filterColumns_partial",
    "C27_flattenColumns",
    "C27_flattenRows_partial"
   ],
   "note": "flattenColumns in full; filterRows, filterColumns and flattenRows for functions that use no dimension twice (and, for filterColumns, regular ones)."
  },
  {
   "property": "C28",
   "status": "partial",
   "theorems": [
    "C28_options_partial",
    "C28_ranges_refuted",
    "C28_functions_refuted"
   ],
   "note": "All matrices whose functions are plain affine and use no dimension twice; refuted for functions with ranges and, at the level of the options of several functions, for termination."
  },
  {
   "property": "C29",
   "status": "proved",
   "theorems": [
    "C29_partition",
    "C29_total",
    "C29_edges",
    "C29_grow_refuted",
    "C29_equation_indices_refuted"
   ],
   "note": "Every history of setMatch, addMatch, removeMatch and removeIndices on a vertex, and of the operations on an edge. The refuted theorems: setIndices with a set not inside the old one loses the partition, and EquationVertex::setIndices always reads a moved-from pointer. Index sets are lists of points."
  },
  {
   "property": "C30",
   "status": "proved",
   "theorems": [
    "C30_augment",
    "C30_search",
    "C30_iteration_partial",
    "C30_together_refuted"
   ],
   "note": "One augmenting path on any valid matching, and every path the search accepts is augmenting, for every local solver meeting C28 and every schedule. The refuted theorem: with array variables several paths accepted together may share a scalar, so an iteration may leave an invalid matching."
  },
  {
   "property": "C31",
   "status": "proved",
   "theorems": [
    "C31_leaf",
    "C31_exact",
    "C31_crash_refuted"
   ],
   "note": "For every system, local solver and order of the candidates. The refuted theorem: on a system that is not matchable the leaf matching may trip an assertion."
  },
  {
   "property": "C32",
   "status": "partial",
   "theorems": [
    "C32_success_partial",
    "C32_failure_partial",
    "C32_complete_partial",
    "C32_success_refuted",
    "C32_failure_refuted"
   ],
   "note": "Proved, with its converse and termination, when every variable with several elements is scalarized, for every schedule and local solver. Missing: array variables left to the general algorithm, where both directions are refuted (accepted paths may overlap)."
  },
  {
   "property": "C33",
   "status": "partial",
   "theorems": [
    "C33_no_missing_edge",
    "C33_edges_partial",
    "C33_edges_refuted",
    "C33_scalar_partial",
    "C33_scalar_refuted",
    "C33_self_refuted",
    "C33_classification"
   ],
   "note": "Array graph: no missing edge for any accesses and task order; exact edges when no dimension is used by two results; scalar graph exact for single-valued accesses. Refuted: x[i][i] gives spurious edges, accesses to several elements miss edges in the scalar graph, self accesses inside the matched indices are not reads."
  },
  {
   "property": "C34",
   "status": "partial",
   "theorems": [
    "C34_order",
    "C34_outside_refuted",
    "C34_schedule_partial"
   ],
   "note": "Order of the components: full (each once, dependencies first unless mutually reachable). Whole schedule: instances exactly once, blocks ordered, for equations whose writes agree, whose accesses are single-valued and whose self-reads are affine. Undefined behaviour for a dependency outside all the components."
  },
  {
   "property": "C35",
   "status": "partial",
   "theorems": [
    "C35_directions_partial",
    "C35_schedule_partial"
   ],
   "note": "Directions and the scheduled order respect the self-dependencies, for affine reads of the written variable and writes that agree."
  },
  {
   "property": "C36",
   "status": "partial",
   "theorems": [
    "C36_forward_partial",
    "C36_backward_partial",
    "C36_backward_refuted",
    "C36_ranges_refuted"
   ],
   "note": "proved for schedules without backward dimensions (every iteration once, increasing within each range) and, with backward dimensions, what is really executed; refuted for backward dimensions (off by one) and for the order between ranges"
  },
  {
   "property": "C37",
   "status": "partial",
   "theorems": [
    "C37_groups",
    "C37_schedule_partial",
    "C37_schedule_refuted",
    "C37_limit_refuted"
   ],
   "note": "C37_groups holds for every list of blocks. That every block is kept in a valid position needs that no block reads another one through two variables: C37_schedule_refuted shows the schedule made invalid otherwise (the in-degree counts variables, the dependants are a set). C37_limit_refuted: a limit of zero fails an assertion."
  },
  {
   "property": "C38",
   "status": "partial",
   "theorems": [
    "C38_array",
    "C38_scalar_partial",
    "C38_scalar_refuted",
    "C38_written",
    "C38_variables"
   ],
   "note": "array variables proved in full; scalar variables when one entity at most writes them (refuted otherwise: the last writer replaces the others)"
  },
  {
   "property": "C39",
   "status": "proved",
   "theorems": [
    "C39_inverse",
    "C39_explicit",
    "C39_total"
   ],
   "note": "Inversion of negation, sum, difference, product, quotient and annotated calls, along paths of any length, for every real valuation where both equations are defined (inverse annotations assumed right)."
  },
  {
   "property": "C40",
   "status": "partial",
   "theorems": [
    "C40_defined_partial",
    "C40_value_partial",
    "C40_negation",
    "C40_distribute",
    "C40_zero_refuted"
   ],
   "note": "The rewritten expression has the value of the original one wherever it is defined, and the same value when no operand of a product is zero; the unconditional statement is refuted (C40_zero_refuted)."
  },
  {
   "property": "C41",
   "status": "proved",
   "theorems": [
    "C41_group",
    "C41_explicit",
    "C41_accesses",
    "C41_solved",
    "C41_coefficients_refuted",
    "C41_assertion_refuted",
    "C41_self_refuted"
   ],
   "note": "For every equation tree (scalar operands, exact reals), every access function and valuation: the explicit equation has the same solutions wherever it is defined. Also shown: linear equations with variable coefficients are not made explicit, an assertion can fail, and the result can read the element it writes."
  },
  {
   "property": "C42",
   "status": "partial",
   "theorems": [
    "C42_derivative",
    "C42_regular",
    "C42_total",
    "C42_equation",
    "C42_elementwise_refuted",
    "C42_induction_refuted",
    "C42_power_refuted",
    "C42_elementwise_power_refuted"
   ],
   "note": "Scalar expressions: every operator with a derivative interface over real scalars, elementwise versions included, and sum reductions. The value of the generated expression is the derivative wherever it has a value; it has one at every regular point. The three refuted theorems show where the full claim fails: elementwise division (assertion), equations that read an induction variable, and powers at negative bases. Missing: arrays, function calls, casts."
  },
  {
   "property": "C43",
   "status": "partial",
   "theorems": [
    "C43_integer",
    "C43_real_partial",
    "C43_digits_refuted",
    "C43_rounding_refuted"
   ],
   "note": "Exact for every integer literal (overflow when it does not fit) and every real literal whose parts fit; refuted for 19 fraction digits (int64 overflow) and for rounding (1.14 is not the nearest double). std::pow is not modelled."
  },
  {
   "property": "C44",
   "status": "partial",
   "theorems": [
    "C44_roundtrip_partial",
    "C44_spaces_partial",
    "C44_tokens",
    "C44_total",
    "C44_bound_refuted",
    "C44_slash_refuted"
   ],
   "note": "Round trip, spacing, tokenisation and termination for every list of rules; missing: bounds beyond int are truncated and a regular expression cannot contain a slash (refuted)."
  },
  {
   "property": "C45",
   "status": "partial",
   "theorems": [
    "C45_visible",
    "C45_derivative_partial",
    "C45_derivative_refuted",
    "C45_elements_partial",
    "C45_scalar",
    "C45_clip_refuted"
   ],
   "note": "Visibility of variables is exact for every filter; derivatives are exact except that a disabled filter hides them (refuted); elements are exact when the listed slices lie within the array, and not otherwise (refuted). POSIX matching is a parameter."
  },
  {
   "property": "C46",
   "status": "partial",
   "theorems": [
    "C46_fold",
    "C46_size_partial",
    "C46_size_refuted",
    "C46_reduction_partial",
    "C46_reduction_refuted",
    "C46_space_partial",
    "C46_space_refuted"
   ],
   "note": "folding in full; sizes, reduction loops for ranges with a value (and reduction loops of step 1 or -1); induction space of one range; refuted for empty ranges and for two ranges. Real ranges not modelled"
  },
  {
   "property": "C47",
   "status": "proved",
   "theorems": [
    "C47_inverse",
    "C47_lookups",
    "C47_shared_refuted",
    "C47_replaced_refuted",
    "C47_passes"
   ],
   "note": "The two lookups are inverse after every history in which each derivative is associated once, and after any number of runs of the two passes that fill the map. Findings: with a shared or replaced derivative the inverse is stale."
  },
  {
   "property": "C48",
   "status": "partial",
   "theorems": [
    "C48_equations",
    "C48_repeats",
    "C48_variables_partial",
    "C48_variables_refuted"
   ],
   "note": "Equations: proved in full (C48_equations). Variables: a repeat implies that the callback has named the variable as a derivative in between (C48_repeats), so the claim holds when answers only go forward (C48_variables_partial); in general it is false, since a variable whose indices have all been differentiated is removed and its record is lost (C48_variables_refuted). Termination is C62."
  },
  {
   "property": "C49",
   "status": "partial",
   "theorems": [
    "C49_box_equals_point_refuted",
    "C49_box_equals_point_partial"
   ],
   "note": "The property is false of the code (Range::operator!=(value) uses && instead of ||): refuted with a witness; the partial theorem characterises what the comparison does."
  },
  {
   "property": "C50",
   "status": "partial",
   "theorems": [
    "C50_hash_partial",
    "C50_hash_refuted"
   ],
   "note": "Proved when the stored ranges of both sets do not overlap; false otherwise (C50_hash_refuted)."
  },
  {
   "property": "C51",
   "status": "partial",
   "theorems": [
    "C51_insert",
    "C51_remove_partial",
    "C51_remove_once_partial"
   ],
   "note": "Insertion exact; removal removes only equal objects, and all of them when stored once. Missing: objects stored several times and undefined removals."
  },
  {
   "property": "C52",
   "status": "partial",
   "theorems": [
    "C52_affine_map_partial",
    "C52_accesses_partial",
    "C52_generic_partial",
    "C52_division_refuted",
    "C52_dependent_refuted"
   ],
   "note": "Division-free affine maps and accesses to ranges and independent iteration spaces; refuted for negative floor divisions and dependent iteration spaces."
  },
  {
   "property": "C53",
   "status": "partial",
   "theorems": [
    "C53_compare_partial",
    "C53_compare_refuted"
   ],
   "note": "Antisymmetric and transitive comparison consistent with the boxes; refuted: equal sets can compare non-zero because the ranges are compared, not the points."
  },
  {
   "property": "C54",
   "status": "partial",
   "theorems": [
    "C54_equations",
    "C54_variables_partial",
    "C54_variables_refuted",
    "C54_both_partial",
    "C54_points_refuted",
    "C54_fewer_variables_refuted"
   ],
   "note": "setEquationSpace in full; setVariableSpace and withSpace for matrices without single entries; three refutations for the rest."
  },
  {
   "property": "C55",
   "status": "proved",
   "theorems": [
    "C55_equal"
   ],
   "note": "operator== and operator!= on all matrices with plain affine functions."
  },
  {
   "property": "C56",
   "status": "partial",
   "theorems": [
    "C56_materialize_partial",
    "C56_materialize_refuted"
   ],
   "note": "no negative dividend of a floor division; refuted otherwise"
  },
  {
   "property": "C57",
   "status": "partial",
   "theorems": [
    "C57_extracted_partial",
    "C57_range_refuted",
    "C57_single_refuted"
   ],
   "note": "subscripts without constant ranges; refuted for ranges (last element lost)"
  },
  {
   "property": "C58",
   "status": "partial",
   "theorems": [
    "C58_tokens_partial",
    "C58_total",
    "C58_adjacent_refuted",
    "C58_quoted_refuted"
   ],
   "note": "All token sequences whose tokens do not run into the next character; totality for every text. Refuted: a character directly after '1.' is dropped, '/*/' closes a comment, 'x' and x are the same identifier."
  },
  {
   "property": "C59",
   "status": "partial",
   "theorems": [
    "C59_attribute",
    "C59_bytecode",
    "C59_attribute_refuted",
    "C59_text_partial",
    "C59_text_refuted",
    "C59_equality",
    "C59_hash_refuted"
   ],
   "note": "Attribute and bytecode forms give back the same map; the text form gives an equal map for consistent maps. Findings: the text loses stale inverses and indices without derivative; setFromAttr does not clear the map; equal maps may have different hashes. Missing: the characters of the text and the encodings of MLIR."
  },
  {
   "property": "C60",
   "status": "proved",
   "theorems": [
    "C60_indices",
    "C60_threads",
    "C60_materialize",
    "C60_walks",
    "C60_walks_refuted"
   ],
   "note": "Derived indices after every history and thread order; the materialization pass; the two walks. Finding: on inconsistent maps the walks do not end."
  },
  {
   "property": "C61",
   "status": "proved",
   "theorems": [
    "C61_safe",
    "C61_calls"
   ],
   "note": "For every build, callbacks, sound local solver, order of results and number of rounds. The crash of the matching itself is C31_crash_refuted."
  },
  {
   "property": "C62",
   "status": "partial",
   "theorems": [
    "C62_matched",
    "C62_end_refuted"
   ],
   "note": "The case of a matching that succeeds is proved; termination is false: an equation without variables is differentiated in every round."
  },
  {
   "property": "C63",
   "status": "partial",
   "theorems": [
    "C63_first_partial",
    "C63_next_refuted"
   ],
   "note": "Proved for the first answer with an id; false for the next ones, whose indices are dropped."
  },
  {
   "property": "C64",
   "status": "partial",
   "theorems": [
    "C64_needed_refuted"
   ],
   "note": "False: the search records all the variables of an edge, not those of the visited indices; C61_calls bounds what is handed over by the indices of the variable."
  },
  {
   "property": "C65",
   "status": "partial",
   "theorems": [
    "C65_settled_partial",
    "C65_reduced_refuted"
   ],
   "note": "proved: when the loop ends, the calls lead from each declared equation to one whose indices are all marked as matched (C65_settled_partial). Refuted in full (C65_reduced_refuted): the derivatives of the other visited equations are never put on the worklist, so on the chain x given, x'=y, y'=w, w'=z the run stops with three equations for two unknowns."
  },
  {
   "property": "C66",
   "status": "partial",
   "theorems": [
    "C66_reads_partial",
    "C66_one_tree",
    "C66_text_partial",
    "C66_reads_refuted",
    "C66_crash_refuted",
    "C66_tree_refuted",
    "C66_kinds",
    "C66_characters_partial"
   ],
   "note": "Proved for the grammar without elseif in expressions, leading dots, the signs .+ and .-, outputs that end with a missing one, matrices, end and partial applications; refuted with elseif (rejected), .a (assertion) and (a, ) (another tree)."
  },
  {
   "property": "C67",
   "status": "partial",
   "theorems": [
    "C67_ends_partial",
    "C67_progress",
    "C67_ends_refuted"
   ],
   "note": "Termination and progress for every sequence of tokens; that failures are diagnostics is refuted: a missing operand violates an assertion."
  },
  {
   "property": "C68",
   "status": "partial",
   "theorems": [
    "C68_only_partial",
    "C68_only_refuted"
   ],
   "note": "Proved for the grammar with chains of powers, outputs without separators and subscripts after arrays and calls; refuted for the grammar of the language by (a b)."
  },
  {
   "property": "C69",
   "status": "partial",
   "theorems": [
    "C69_reads_partial",
    "C69_one_tree",
    "C69_elseif_refuted",
    "C69_when_refuted",
    "C69_only_partial",
    "C69_only_refuted"
   ],
   "note": "Proved for equalities, for equations and if equations without elseif, nested in any way; every if equation with elseif ends the parser and every when equation is rejected (refuted in general). Connect, calls as equations and comments elsewhere are missing."
  },
  {
   "property": "C70",
   "status": "partial",
   "theorems": [
    "C70_reads_partial",
    "C70_one_tree",
    "C70_when_refuted",
    "C70_call_refuted",
    "C70_only_partial",
    "C70_only_refuted"
   ],
   "note": "Proved for all statements but when (rejected in general) and calls without arguments (end the parser in general); comments after statements are missing."
  },
  {
   "property": "C71",
   "status": "partial",
   "theorems": [
    "C71_ends_partial",
    "C71_progress",
    "C71_ends_refuted"
   ],
   "note": "Termination and progress are proved; that failures are diagnostics is refuted."
  },
  {
   "property": "C72",
   "status": "partial",
   "theorems": [
    "C72_reads_partial",
    "C72_one_tree",
    "C72_file_partial",
    "C72_initial_algorithm_refuted",
    "C72_order_refuted",
    "C72_parts_refuted",
    "C72_characters_partial"
   ],
   "note": "Proved for the supported grammar, for classes and files; general or concrete refutations for initial algorithms, initial equations after algorithms, annotations after components, dimensions that begin with an integer, annotations without arguments and pure inner functions."
  },
  {
   "property": "C73",
   "status": "partial",
   "theorems": [
    "C73_ends_partial",
    "C73_initial_refuted",
    "C73_public_refuted",
    "C73_progress",
    "C73_diagnostic_refuted"
   ],
   "note": "Termination on texts without public and protected whose initial is always followed by equation or algorithm; refuted elsewhere, also on a class of the language; violated assertions characterised."
  },
  {
   "property": "C74",
   "status": "partial",
   "theorems": [
    "C74_only_partial",
    "C74_file_partial",
    "C74_only_refuted"
   ],
   "note": "Soundness against the relaxed grammar, for classes and files; refuted for the language with a derivative without variables."
  },
  {
   "property": "C75",
   "status": "partial",
   "theorems": [
    "C75_step_partial",
    "C75_run_partial",
    "C75_variant_partial",
    "C75_array_refuted",
    "C75_coupled_refuted",
    "C75_algebraic_refuted"
   ],
   "note": "Proved for models whose scalars do not read other states or derivatives, every method, every memory and order of execution; refuted in general for coupled arrays, coupled states and algebraic variables."
  },
  {
   "property": "C76",
   "status": "partial",
   "theorems": [
    "C76_tableaux_partial",
    "C76_orders_partial",
    "C76_published",
    "C76_other_names",
    "C76_cash_karp_refuted",
    "C76_polynomials_partial",
    "C76_linear_partial"
   ],
   "note": "All the variants but cash-karp, whose weights are wrong (refuted); the published orders are checked over all rooted trees; exactness on polynomials and linear equations follows end to end for the models of C75."
  },
  {
   "property": "C77",
   "status": "partial",
   "theorems": [
    "C77_estimate_partial",
    "C77_no_embedded",
    "C77_estimate_refuted"
   ],
   "note": "The estimate is the largest signed difference, and zero without an embedded method; the distance is refuted: a negative difference counts as zero."
  },
  {
   "property": "C78",
   "status": "partial",
   "theorems": [
    "C78_accept",
    "C78_derivative_partial",
    "C78_derivative_refuted",
    "C78_others_partial",
    "C78_others_refuted"
   ],
   "note": "Acceptance proved; the derivatives hold after it for equations without the time; refuted after the update of algebraic variables; the other equations are run when there is a derivative, refuted without."
  },
  {
   "property": "C79",
   "status": "partial",
   "theorems": [
    "C79_update_partial",
    "C79_step_partial",
    "C79_update_refuted"
   ],
   "note": "Proved for models where no derivative is itself a state, coupled or not; refuted otherwise."
  },
  {
   "property": "C80",
   "status": "partial",
   "theorems": [
    "C80_time_free_partial",
    "C80_time_refuted"
   ],
   "note": "Proved for equations without the time; refuted for every equation in which the time occurs."
  },
  {
   "property": "C81",
   "status": "partial",
   "theorems": [
    "C81_constants_are_evaluated_right_partial",
    "C81_zero_times_nan_refuted",
    "C81_elementwise_quotient_refuted",
    "C81_negative_power_refuted",
    "C81_array_power_zero_refuted"
   ],
   "note": "every operator on constants except products of Reals by a constant zero, ./ and powers of two Integers, which are refuted (as is an array to the power 0)"
  },
  {
   "property": "C82",
   "status": "partial",
   "theorems": [
    "C82_generated_code_computes_the_value_partial",
    "C82_elementwise_difference_refuted",
    "C82_elementwise_quotient_refuted",
    "C82_order_of_booleans_refuted",
    "C82_different_from_nan_refuted",
    "C82_if_integer_else_real_refuted",
    "C82_boolean_converted_to_number",
    "C82_number_converted_to_boolean_refuted"
   ],
   "note": "expressions of the operators that the compiler gets right (covered), and Booleans converted to numbers; .-, ./ of Integers, the order of Booleans, <> of a NaN, if-expressions with Integer first and Real second and numbers converted to Booleans are refuted; powers are lowered elsewhere"
  },
  {
   "property": "C83",
   "status": "partial",
   "theorems": [
    "C83_compile_time_and_run_time_agree_partial",
    "C83_conversion_to_boolean_refuted",
    "C83_boolean_to_index_refuted",
    "C83_real_to_boolean_refuted",
    "C83_real_to_index_refuted",
    "C83_order_of_booleans_refuted"
   ],
   "note": "for the operations of C81 and C82; conversions to Boolean and to index and the order of Booleans are refuted"
  },
  {
   "property": "C84",
   "status": "partial",
   "theorems": [
    "C84_simplification_keeps_the_value_partial",
    "C84_add_zero_refuted",
    "C84_mul_zero_refuted"
   ],
   "note": "every rewriting but powers, products of Reals by a constant zero and sums of Reals whose value is zero; the last two are refuted"
  },
  {
   "property": "C85",
   "status": "partial",
   "theorems": [
    "C85_integer_reductions",
    "C85_real_minimum",
    "C85_real_maximum_partial",
    "C85_real_maximum_refuted",
    "C85_real_sum_refuted"
   ],
   "note": "all reductions of Integers and the minimum of Reals; the maximum of Reals when one is at least 2^-1022, refuted when none is positive; sums of Reals are refuted to be independent of the order; products of Reals are not treated"
  },
  {
   "property": "C86",
   "status": "partial",
   "theorems": [
    "C86_ranges_of_reductions_partial",
    "C86_empty_range_refuted"
   ],
   "note": "all ranges but those that end less than a step before their beginning, which are refuted"
  },
  {
   "property": "C87",
   "status": "partial",
   "theorems": [
    "C87_rounding",
    "C87_integer_division_partial",
    "C87_integer_division_refuted",
    "C87_sign_max_min"
   ],
   "note": "div and mod for Integers of at most 53 bits, refuted beyond; functions of the C library are a parameter"
  },
  {
   "property": "C88",
   "status": "partial",
   "theorems": [
    "C88_most_generic_type_partial",
    "C88_most_generic_type_refuted"
   ],
   "note": "all pairs but Integer first with index or iN second, which are refuted"
  },
  {
   "property": "C89",
   "status": "partial",
   "theorems": [
    "C89_function_runs_as_written_partial"
   ],
   "note": "Proved, both ways, for bodies where break and return end their block, for has one index and no step and its bound is not assigned in the loop, while ends in break or return, and the first block of an if with an alternative holds only assignments; expressions are functions of the names they read. C91 and C92 show the restrictions are needed."
  },
  {
   "property": "C90",
   "status": "partial",
   "theorems": [
    "C90_graph_runs_as_operations_partial"
   ],
   "note": "Proved, both ways, for all operations such that the then region of an if with else only sets variables and yields end for bodies; outside, see C92."
  },
  {
   "property": "C91",
   "status": "partial",
   "theorems": [
    "C91_for_visits_its_range_partial",
    "C91_stepped_range_refuted",
    "C91_empty_stepped_range_never_ends_refuted",
    "C91_bound_computed_again_refuted",
    "C91_two_indices_refuted",
    "C91_two_indices_read_refuted"
   ],
   "note": "Proved for ranges without a step, one index and a bound that is not assigned in the loop; refuted for a step, for an assigned bound and for two indices."
  },
  {
   "property": "C92",
   "status": "partial",
   "theorems": [
    "C92_covered_functions_compile_partial",
    "C92_while_refuted",
    "C92_if_else_refuted",
    "C92_after_return_refuted",
    "C92_while_in_else_refuted"
   ],
   "note": "Proved for covered bodies; refuted for while, if-else with control flow in its first block, and statements after return."
  },
  {
   "property": "C93",
   "status": "partial",
   "theorems": [
    "C93_cut_keeps_iterations",
    "C93_cut_keeps_solutions",
    "C93_cut_keeps_match_partial",
    "C93_cut_assertion_refuted",
    "C93_match_lost_refuted"
   ],
   "note": "Iterations and solutions are kept in full; the match is kept when the accesses are orderly, and refuted otherwise."
  },
  {
   "property": "C94",
   "status": "partial",
   "theorems": [
    "C94_scalar_ranges",
    "C94_single_valued_partial",
    "C94_single_valued_unmatched",
    "C94_single_valued_refuted"
   ],
   "note": "Scalar ranges in full; single-valued inductions whenever the pass ends and always without a match; refuted for a matched equation. The match is the subject of C95."
  },
  {
   "property": "C95",
   "status": "partial",
   "theorems": [
    "C95_restriction",
    "C95_restriction_match_partial",
    "C95_given_accesses",
    "C95_restriction_refuted"
   ],
   "note": "The match of the restricted equation is characterised exactly; the property holds exactly when other accesses within the match reach no more, and is refuted otherwise."
  },
  {
   "property": "C96",
   "status": "partial",
   "theorems": [
    "C96_determining_iteration",
    "C96_replacement_equivalent",
    "C96_replaced_iterations_partial",
    "C96_constant_read_refuted"
   ],
   "note": "Affine scalar accesses; the iteration taken and the equivalence in full, the iterations replaced when they are given as ranges; refuted for a constant read of an array equation. Array-valued accesses are not modelled."
  },
  {
   "property": "C97",
   "status": "partial",
   "theorems": [
    "C97_component_solutions_partial",
    "C97_given_up_refuted",
    "C97_equation_lost_refuted"
   ],
   "note": "Solutions are kept for any search of cycles that is as good_cycles asks; refuted when the search finds a writer that cannot be inverted, and leaving the component as it was is refuted."
  },
  {
   "property": "C98",
   "status": "partial",
   "theorems": [
    "C98_check",
    "C98_call_inputs_partial",
    "C98_named_order_refuted",
    "C98_argument_names",
    "C98_written_positional",
    "C98_written_refuted"
   ],
   "note": "Missing: a call that names all its arguments in another order than the declaration passes them in the written order (C98_named_order_refuted), and calls written in Modelica with named or omitted arguments are not accepted (C98_written_refuted)."
  },
  {
   "property": "C99",
   "status": "partial",
   "theorems": [
    "C99_defaults_partial",
    "C99_reads_input_refuted"
   ],
   "note": "Missing: defaults of outputs and protected variables that read an input or a variable without default, which make the compiler follow a null pointer (C99_reads_input_refuted)."
  }
 ]
}