{
 "claims": [
  {
   "property": "C01",
   "status": "proved",
   "theorems": [
    "C01_cell",
    "C01_cells_partition",
    "C01_cell_width",
    "C01_draw_above_total",
    "C01_any_arithmetic"
   ],
   "note": "Exact arithmetic for the cells; C01_any_arithmetic covers rounded sums."
  },
  {
   "property": "C02",
   "status": "proved",
   "theorems": [
    "C02_sampled_has_positive_probability"
   ],
   "note": ""
  },
  {
   "property": "C03",
   "status": "partial",
   "theorems": [
    "C03_zero_probability_last_sampled_refuted",
    "C03_infeasible_alternative_chosen_refuted",
    "C03_only_the_last_partial",
    "C03_below_the_rounding_error_partial"
   ],
   "note": "REFUTED for the code: rounding makes the computed probabilities sum below 1-2^-53, and the fallback returns the last alternative. Proved parts: only the last alternative can be drawn with probability 0, and for multinomial probabilities of n alternatives not even that one while the random number is at most 1 - 2n * 2^-53."
  },
  {
   "property": "C04",
   "status": "proved",
   "theorems": [
    "C04_terminates_in_range",
    "C04_finds_first_cell"
   ],
   "note": ""
  },
  {
   "property": "C05",
   "status": "proved",
   "theorems": [
    "C05_samplers_agree"
   ],
   "note": ""
  },
  {
   "property": "C06",
   "status": "proved",
   "theorems": [
    "C06_logit_formula",
    "C06_sum_to_one_and_bounds"
   ],
   "note": "Exact arithmetic."
  },
  {
   "property": "C07",
   "status": "proved",
   "theorems": [
    "C07_infeasible_iff",
    "C07_unchecked",
    "C07_flag_irrelevant_otherwise"
   ],
   "note": "Exact arithmetic."
  },
  {
   "property": "C08",
   "status": "proved",
   "theorems": [
    "C08_shift_invariance"
   ],
   "note": "Exact arithmetic."
  },
  {
   "property": "C09",
   "status": "proved",
   "theorems": [
    "C09_ratio",
    "C09_disable_equals_remove"
   ],
   "note": "Exact arithmetic."
  },
  {
   "property": "C10",
   "status": "proved",
   "theorems": [
    "C10_own_probability_increases",
    "C10_others_do_not_increase"
   ],
   "note": "Exact arithmetic."
  },
  {
   "property": "C11",
   "status": "proved",
   "theorems": [
    "C11_order_irrelevant"
   ],
   "note": "Exact arithmetic."
  },
  {
   "property": "C12",
   "status": "partial",
   "theorems": [
    "C12_infinite_utility_refuted",
    "C12_overflow_refuted",
    "C12_no_nan_partial"
   ],
   "note": "REFUTED for the code: +inf utilities, or finite ones whose exponential overflows, give NaN probabilities. Proved part: finite or -inf utilities in exact arithmetic; C86 says exactly which doubles are NaN."
  },
  {
   "property": "C13",
   "status": "proved",
   "theorems": [
    "C13_nested_logit_equations",
    "C13_total",
    "C13_solution_unique"
   ],
   "note": "Any arithmetic, including IEEE doubles."
  },
  {
   "property": "C14",
   "status": "proved",
   "theorems": [
    "C14_sum_to_one"
   ],
   "note": "Exact arithmetic."
  },
  {
   "property": "C15",
   "status": "proved",
   "theorems": [
    "C15_positive_iff_available",
    "C15_below_infeasible_nest",
    "C15_error_iff",
    "C15_unchecked_all_zero"
   ],
   "note": "Exact arithmetic."
  },
  {
   "property": "C16",
   "status": "proved",
   "theorems": [
    "C16_collapse_to_multinomial"
   ],
   "note": "Exact arithmetic."
  },
  {
   "property": "C17",
   "status": "proved",
   "theorems": [
    "C17_top_shift_invariance"
   ],
   "note": "Exact arithmetic."
  },
  {
   "property": "C18",
   "status": "proved",
   "theorems": [
    "C18_one_level_is_multinomial",
    "C18_double"
   ],
   "note": ""
  },
  {
   "property": "C19",
   "status": "proved",
   "theorems": [
    "C19_multinomial_rows",
    "C19_nested_rows",
    "C19_nothing_else_written",
    "C19_no_deadlock",
    "C19_runs_exist"
   ],
   "note": "Every interleaving, any arithmetic; sequentially consistent memory."
  },
  {
   "property": "C20",
   "status": "proved",
   "theorems": [
    "C20_multinomial_reproducible",
    "C20_nested_reproducible",
    "C20_multinomial_one_draw",
    "C20_nested_one_draw",
    "C20_multinomial_many_draws",
    "C20_nested_many_draws"
   ],
   "note": "Any generator, any arithmetic, every interleaving."
  },
  {
   "property": "C21",
   "status": "partial",
   "theorems": [
    "C21_not_reproducible_refuted",
    "C21_many_draws_raise_refuted",
    "C21_one_draw_in_range_partial"
   ],
   "note": "The claim is false of the code: the random array is filled by unseeded worker threads and n>2 always raises. Proved instead: one-draw calls return valid positions."
  },
  {
   "property": "C22",
   "status": "proved",
   "theorems": [
    "C22_rejected_before_writing",
    "C22_adds_in_every_schedule"
   ],
   "note": ""
  },
  {
   "property": "C23",
   "status": "partial",
   "theorems": [
    "C23_lost_update_refuted",
    "C23_lost_one_refuted",
    "C23_single_thread_partial",
    "C23_any_schedule",
    "C23_every_subset_possible"
   ],
   "note": "The claim is false of the code with two threads (lost update). Proved instead: with a single thread all contributions are added; in every schedule a cell gets the contributions of some, at least one, of the iterations aimed at it, each at most once; and every such set and order can happen."
  },
  {
   "property": "C24",
   "status": "proved",
   "theorems": [
    "C24_tree_stays_consistent",
    "C24_consistent_with_replacement",
    "C24_add_choice_effect",
    "C24_node_add_choice_effect"
   ],
   "note": ""
  },
  {
   "property": "C25",
   "status": "proved",
   "theorems": [
    "C25_labels",
    "C25_depth"
   ],
   "note": ""
  },
  {
   "property": "C26",
   "status": "proved",
   "theorems": [
    "C26_flatten_encodes_tree"
   ],
   "note": ""
  },
  {
   "property": "C27",
   "status": "proved",
   "theorems": [
    "C27_rows_list_elemental_choices_and_sum_to_one"
   ],
   "note": "Exact arithmetic; one row of the table (rows are independent, C19)."
  },
  {
   "property": "C28",
   "status": "partial",
   "theorems": [
    "C28_replacing_a_nest_refuted",
    "C28_flatten_broken_refuted",
    "C28_replacing_a_childless_choice_partial",
    "C28_replacing_any_choice",
    "C28_replacing_any_child"
   ],
   "note": "The claim is false of the code: the children of a replaced nest stay in the model. Proved instead: replacing a childless choice; and exactly what replacing any choice leaves."
  },
  {
   "property": "C29",
   "status": "partial",
   "theorems": [
    "C29_rejected_readd_refuted",
    "C29_rejected_dotted_name_refuted",
    "C29_rejected_new_name_partial",
    "C29_rejected_new_child_partial",
    "C29_rejected_existing_name",
    "C29_rejected_existing_child"
   ],
   "note": "The claim is false of the code when the full name exists: the old choice is removed before the arguments are checked. Proved instead: for new names; and that for existing names the call is rejected for invalid arguments only and then removes exactly that choice."
  },
  {
   "property": "C30",
   "status": "partial",
   "theorems": [
    "C30_nested_add_refuted",
    "C30_top_level_add_partial",
    "C30_top_level_addition_forgets_runs",
    "C30_fresh_table_has_current_choices_partial",
    "C30_nested_choice_after_a_run_raises",
    "C30_readding_refuted",
    "C30_readding_moves_the_choice",
    "C30_readding_shifts_utilities"
   ],
   "note": "The claim is false of the code for choices added under a node. Proved instead: for top-level additions (after one the model has no utilities from earlier runs and every later state is that of a model never run); that after a run the addition of a new choice under a node makes every later run raise; and that adding an existing choice under its node again keeps the table but moves the choice to the last column, so that later runs start each following choice from the cached utilities of its predecessor (and a counterexample with other utilities)."
  },
  {
   "property": "C31",
   "status": "proved",
   "theorems": [
    "C31_validation_exact"
   ],
   "note": ""
  },
  {
   "property": "C75",
   "status": "partial",
   "theorems": [
    "C75_generator_refuted",
    "C75_add_choices_partial"
   ],
   "note": "The claim is false of the code for one-shot iterators without scales. Proved instead: for re-iterable names."
  },
  {
   "property": "C32",
   "status": "partial",
   "theorems": [
    "C32_rewriting_preserves_meaning_partial",
    "C32_environment_exists",
    "C32_rewriting_preserves_meaning_refuted"
   ],
   "note": "False of the code below a unary minus (-df.a is passed on unrewritten). Proved for every expression whose unary-minus operands numexpr can read as they stand."
  },
  {
   "property": "C33",
   "status": "partial",
   "theorems": [
    "C33_symbols_registered_partial",
    "C33_symbols_registered_without_negation",
    "C33_all_symbols",
    "C33_symbols_registered_refuted"
   ],
   "note": "False of the code: -x does not register x. Proved: exact sets of registered symbols; every other name read is registered."
  },
  {
   "property": "C34",
   "status": "proved",
   "theorems": [
    "C34_simple_or_chained",
    "C34_copy_forgets_groups",
    "C34_sum_mixes"
   ],
   "note": "Histories of append/drop/clear. Two further theorems show that copies and sums escape the check."
  },
  {
   "property": "C35",
   "status": "partial",
   "theorems": [
    "C35_rejected_append_partial",
    "C35_rejected_append_refuted"
   ],
   "note": "False of the code: symbols of a rejected expression stay recorded. Proved: expressions and groups are unchanged and unrelated later expressions behave the same."
  },
  {
   "property": "C36",
   "status": "partial",
   "theorems": [
    "C36_substitution_names_distinct_partial",
    "C36_substitution_names_distinct_refuted",
    "C36_names_distinct_iff",
    "C36_up_to_ten_usages"
   ],
   "note": "False of the code (a used 11 times and a1). Proved: exactly when names clash; never when each symbol is used at most ten times with attributes, nor when no such symbol ends in a digit."
  },
  {
   "property": "C37",
   "status": "proved",
   "theorems": [
    "C37_filter_split_off",
    "C37_one_at",
    "C37_stripped_unique"
   ],
   "note": ""
  },
  {
   "property": "C38",
   "status": "partial",
   "theorems": [
    "C38_flat_literal_partial",
    "C38_nested_literal_partial",
    "C38_representable_values_exact",
    "C38_stated_value_refuted"
   ],
   "note": "The stated value is rounded to float32; exact for representable values."
  },
  {
   "property": "C39",
   "status": "partial",
   "theorems": [
    "C39_order_of_entries_partial",
    "C39_order_of_entries_flat",
    "C39_order_of_entries_refuted"
   ],
   "note": "False of the code for A and A._. Proved when no node is concerned by two entries."
  },
  {
   "property": "C41",
   "status": "proved",
   "theorems": [
    "C41_containers_hold_what_was_appended",
    "C41_drop_removes_only_the_group",
    "C41_append_changes_only_the_group"
   ],
   "note": "Histories of new/append/clear/drop/copy over any number of containers."
  },
  {
   "property": "C42",
   "status": "partial",
   "theorems": [
    "C42_no_aliasing_partial",
    "C42_no_aliasing_refuted",
    "C42_sum_holds_both"
   ],
   "note": "False of the code for + (a group in one operand only is shared). Proved for copies."
  },
  {
   "property": "C46",
   "status": "proved",
   "theorems": [
    "C46_vector_accepted_iff_aligned",
    "C46_vector_stored",
    "C46_table_accepted_iff_aligned",
    "C46_table_column"
   ],
   "note": "Exact: accepted if and only if aligned (for tables: with links allowed; without, see C49)."
  },
  {
   "property": "C47",
   "status": "proved",
   "theorems": [
    "C47_matrix_aligned_by_label"
   ],
   "note": ""
  },
  {
   "property": "C48",
   "status": "partial",
   "theorems": [
    "C48_both_axes_refuted",
    "C48_both_axes_partial"
   ],
   "note": "False of the code: numpy pairs the two index arrays. Proved: the call raises except when the data have one decision unit, and is then aligned."
  },
  {
   "property": "C49",
   "status": "partial",
   "theorems": [
    "C49_allow_links_refuted",
    "C49_allow_links_inverted"
   ],
   "note": "False of the code: the test is inverted. Proved: exactly the opposite holds."
  },
  {
   "property": "C40",
   "status": "proved",
   "theorems": [
    "C40_only_the_column",
    "C40_filter_succeeds"
   ],
   "note": ""
  },
  {
   "property": "C43",
   "status": "proved",
   "theorems": [
    "C43_no_reserved_symbol",
    "C43_declare"
   ],
   "note": ""
  },
  {
   "property": "C44",
   "status": "proved",
   "theorems": [
    "C44_units_empty_symbols",
    "C44_stays_unassigned"
   ],
   "note": ""
  },
  {
   "property": "C51",
   "status": "proved",
   "theorems": [
    "C51_nan_raises",
    "C51_probabilities_from_numbers"
   ],
   "note": "Any arithmetic; the table left in the model is the one tested."
  },
  {
   "property": "C59",
   "status": "proved",
   "theorems": [
    "C59_positions_to_labels"
   ],
   "note": ""
  },
  {
   "property": "C45",
   "status": "partial",
   "theorems": [
    "C45_symbols_assigned",
    "C45_failures_partial",
    "C45_reserved_word_refuted"
   ],
   "note": "False of the code for a reserved word with attributes (OUT.x validates, then KeyError). Proved: every other symbol of the selected expressions is declared and assigned."
  },
  {
   "property": "C50",
   "status": "proved",
   "theorems": [
    "C50_utilities_are_sums",
    "C50_meanings_exist",
    "C50_starts_from_cached",
    "tables_obey_frame_laws",
    "orderly_frames_are_tables"
   ],
   "note": "For expressions whose symbols cannot collide with generated names (see C36), numexpr being a function of the values of the names."
  },
  {
   "property": "C52",
   "status": "partial",
   "theorems": [
    "C52_same_probabilities_refuted",
    "C52_second_run_adds"
   ],
   "note": "False of the code: the second run adds the utilities again. Proved: what it returns."
  },
  {
   "property": "C53",
   "status": "partial",
   "theorems": [
    "C53_new_units_refuted",
    "C53_no_cache_partial",
    "C53_other_shape_raises",
    "C53_another_number_of_units_raises",
    "C53_as_many_units_start_from_the_old"
   ],
   "note": "False of the code: cached utilities of the old decision units remain. Proved: without cached utilities nothing assigned before matters; otherwise exactly what happens (another number of units raises, as many start from the old cells)."
  },
  {
   "property": "C54",
   "status": "partial",
   "theorems": [
    "C54_same_utilities",
    "C54_preval_succeeds_partial",
    "C55_shared_symbol_removed_refuted"
   ],
   "note": "Proved: whenever both ways succeed their utilities are equal (exact arithmetic, histories whose choices precede data, names that cannot collide with generated ones); and if the single run succeeds, so do preval and the run after it, without clean-up or for models whose expressions were appended. Missing: with clean-up after copy() the run can raise (refuted theorem)."
  },
  {
   "property": "C55",
   "status": "partial",
   "theorems": [
    "C55_symbol_left_refuted",
    "C55_shared_symbol_removed_refuted",
    "C55_reserved_word_refuted",
    "C55_what_is_cleared",
    "C55_ungrouped_symbols_stay",
    "C55_nothing_cleared",
    "C55_after_copy_partial"
   ],
   "note": "False of the code: appended models keep all symbols, copied models lose symbols other groups need, reserved words raise KeyError. Proved: exactly which symbols are removed, in every history."
  },
  {
   "property": "C56",
   "status": "partial",
   "theorems": [
    "C56_copy_runs_the_same",
    "C56_default_copy_runs_the_same",
    "C56_copy_same_utilities",
    "C56_isolated",
    "C56_isolated_probabilities",
    "C56_isolated_discrete",
    "C56_hidden_name_refuted"
   ],
   "note": "Proved: in every history, no call on other models (copies included) changes a model or its runs; the copy runs to the same utilities when each expression registers its own names, and whenever both runs succeed. False of the code when a name hidden by a unary minus (C33) is only registered by a dropped group: the run of the copy raises."
  },
  {
   "property": "C57",
   "status": "partial",
   "theorems": [
    "C57_subset_runs_on_the_rows",
    "C57_subset_probabilities",
    "C57_linked_tables",
    "tables_obey_frame_slices",
    "C57_delayed_links_refuted"
   ],
   "note": "Proved for plain tables and for linked tables whose links are indexed, for expressions whose names are registered and cannot collide with generated ones, and columns whose conversion commutes with the selection (conv_rows: fails for text columns when no row is selected). False of the code for a table with a delayed link that has not been read: the run of the copy raises ValueError."
  },
  {
   "property": "C58",
   "status": "partial",
   "theorems": [
    "C58_added_by_label",
    "C58_raising_changes_nothing",
    "C58_wrong_labels_raise",
    "C58_known_labels_accepted",
    "C58_in_histories",
    "C58_raising_in_histories",
    "C58_empty_subset_refuted"
   ],
   "note": "Proved for every schedule of the parallel loop; a raising call may create the table of zeros. False of the code for an empty subset of the decision units or choices: ValueError."
  },
  {
   "property": "C76",
   "status": "partial",
   "theorems": [
    "C76_nest_in_copy_refuted",
    "C76_scale_in_copy_refuted",
    "C76_new_nodes_isolated_partial"
   ],
   "note": "False of the code: the nodes are shared and belong to the original. Proved: whatever is done to other models and to the nodes they get after the copy (choices, nests under them, scales, further copies) changes nothing of a model."
  },
  {
   "property": "C60",
   "status": "proved",
   "theorems": [
    "C60_lookups_follow_the_keys",
    "C60_lookup_into_an_empty_table_raises"
   ],
   "note": "Every history in which nobody edits keys behind a link's back and rows are only selected in ways the class knows (orderly_run; see C66-C68 for the others)."
  },
  {
   "property": "C61",
   "status": "proved",
   "theorems": [
    "C61_chained_lookups_follow_the_keys"
   ],
   "note": "Same histories as C60; chains of any length, by induction."
  },
  {
   "property": "C69",
   "status": "partial",
   "theorems": [
    "C69_delayed_links_are_accepted_alike",
    "C69_delayed_lookups_equal_precomputed",
    "C69_computing_later_equals_precomputing",
    "C69_delayed_aggregations_raise",
    "C69_delayed_aggregation_refuted",
    "C69_delayed_name_of_key_refuted"
   ],
   "note": "False of the code: aggregations over a delayed link raise TypeError until compute_indexers(), and a delayed link named like its key column cannot be read. Proved: lookups are the same otherwise, and compute_indexers() makes the frames equal."
  },
  {
   "property": "C77",
   "status": "proved",
   "theorems": [
    "C77_reads_do_not_change_reads"
   ],
   "note": "Every history of operations and reads, no assumption on the values."
  },
  {
   "property": "C78",
   "status": "partial",
   "theorems": [
    "C78_reading_pins_the_keys_refuted",
    "C78_reads_of_indexed_links_leave_nothing_partial"
   ],
   "note": "False of the code: the first read stores the indexer of a delayed link. Proved: reads that change no link summary leave nothing behind for any later calls, as long as these do not refresh."
  },
  {
   "property": "C62",
   "status": "proved",
   "theorems": [
    "C62_links_are_classified",
    "C62_stored_positions"
   ],
   "note": "Every reachable state; the stored positions are proved against the keys, also on the fast path."
  },
  {
   "property": "C72",
   "status": "proved",
   "theorems": [
    "C72_accepted_iff",
    "C72_accepted_links_as_documented",
    "C72_rejected_changes_nothing",
    "C72_conflicts_are_rejected",
    "C72_level_mismatch_is_rejected"
   ],
   "note": "Arguments: absent, a string, or a list (of names and level numbers); see C79 for a bare integer."
  },
  {
   "property": "C79",
   "status": "partial",
   "theorems": [
    "C79_integer_level_refuted",
    "C79_error_kinds_refuted",
    "C79_errors_have_reasons",
    "C79_each_reason_refuses"
   ],
   "note": "False of the code: a bare integer raises TypeError; mismatching levels raise AssertionError, an empty list ValueError. Proved: the complete table of reasons and exceptions, in both directions."
  },
  {
   "property": "C63",
   "status": "proved",
   "theorems": [
    "C63_aggregates_over_the_matching_rows"
   ],
   "note": "Orderly histories (as C60), also at the end of a chain of lookups; pandas' reduction of one group is a parameter; the fill value must be storable in the result's type (see C80)."
  },
  {
   "property": "C64",
   "status": "partial",
   "theorems": [
    "C64_missing_keys_refuted",
    "C64_missing_keys_shift_the_groups"
   ],
   "note": "False of the code. Proved: what it computes instead, for every data with a missing target key: all groups are shifted by one."
  },
  {
   "property": "C80",
   "status": "partial",
   "theorems": [
    "C80_count_of_floats_raises",
    "C80_count_refuted"
   ],
   "note": "False of the code: count over any column not of whole numbers raises ValueError, whatever the data. Whole numbers: C63."
  },
  {
   "property": "C81",
   "status": "partial",
   "theorems": [
    "C81_count_of_a_condition_refuted",
    "C81_count_ignores_the_condition"
   ],
   "note": "False of the code. Proved: the result is the number of matching rows, whatever the condition."
  },
  {
   "property": "C65",
   "status": "partial",
   "theorems": [
    "C65_selected_rows_read_alike_partial",
    "C65_selected_rows_aggregate_alike_partial",
    "C65_orderly_selected_rows_read_alike",
    "C65_repeated_selections_read_alike_partial",
    "C65_delayed_links_refuted",
    "C65_after_a_refresh_refuted"
   ],
   "note": "true for links that have their indexer stored, after any history without refresh and after any orderly history; false for links made with precompute=False that were not read yet, and after a refresh that follows a change of keys"
  },
  {
   "property": "C66",
   "status": "partial",
   "theorems": [
    "C66_finalised_frames_read_in_the_original_order",
    "C66_fewer_rows_cannot_be_read",
    "C66_finalised_frames_cannot_aggregate",
    "C66_sorting_refuted"
   ],
   "note": "false: a frame made by sort_values and the like reads its links in the order of the original; proved what is read instead, for every reordering, column selection and path; with another number of rows nothing can be read through a link"
  },
  {
   "property": "C67",
   "status": "partial",
   "theorems": [
    "C67_reindexed_frames_read_in_the_original_order",
    "C67_reindexed_to_another_length_cannot_be_read",
    "C67_reindexing_refuted"
   ],
   "note": "false: rows for new labels read what the original reads at that position (as many rows) or reading raises (another number of rows); proved exactly what is read, for every index and path"
  },
  {
   "property": "C70",
   "status": "proved",
   "theorems": [
    "C70_fills_follow_the_documented_precedence",
    "C70_unmatched_rows_read_the_documented_fill"
   ],
   "note": "Every history of fill settings (per column, per frame, per class, resets), for frames that were not derived from others; see C71 for derived frames and for the class settings of new frames."
  },
  {
   "property": "C71",
   "status": "partial",
   "theorems": [
    "C71_new_frames_ignore_the_class_settings",
    "C71_class_defaults_refuted"
   ],
   "note": "False of the code: frames made after the class settings changed start from the built-in defaults. Proved for every history."
  },
  {
   "property": "C73",
   "status": "partial",
   "theorems": [
    "C73_names_stand_for_columns_first_partial",
    "C73_local_values_of_columns_are_ignored",
    "C73_local_dict_refuted"
   ],
   "note": "False of the code for names that are also columns: the value given in local_dict is ignored. Proved: which value each name stands for, for every expression."
  },
  {
   "property": "C74",
   "status": "partial",
   "theorems": [
    "C74_one_link_always_fails_refuted",
    "C74_function_ignored_refuted",
    "C74_end_to_end_refuted",
    "C74_longer_chains_aggregate_partial"
   ],
   "note": "False of the code: with one link the expression always raises AttributeError, and after the name of a column the function is ignored. Proved: through two attributes or more, the result is the aggregation of the frame."
  },
  {
   "property": "C68",
   "status": "partial",
   "theorems": [
    "C68_edited_keys_refuted",
    "C68_refreshing_a_slice_refuted",
    "C68_after_refresh_exactly",
    "C68_unread_links_become_current_partial"
   ],
   "note": "False of the code: the list of unmatched rows stored by an earlier read is kept, and a slice is given the indexer of the frame it was taken from. Proved for every history: exactly what one lookup reads after a refresh, and that links which have not been read become current."
  },
  {
   "property": "C82",
   "status": "proved",
   "theorems": [
    "C82_utilities_mean_the_texts"
   ],
   "note": "Orderly histories, no cached utilities (see C52/C53); numexpr is the cell-wise evaluator with arbitrary operations; texts without unary minus over a function or power (C33), names in plain form (C36), aggregations after two attributes (C74)."
  },
  {
   "property": "C83",
   "status": "proved",
   "theorems": [
    "C83_stochastic_outputs",
    "C83_first_output",
    "C83_exact_logit"
   ],
   "note": "Any arithmetic; over the real numbers a model without nests gives the logit formula."
  },
  {
   "property": "C84",
   "status": "proved",
   "theorems": [
    "C84_discrete_outputs",
    "C84_returns",
    "C84_exact_choice"
   ],
   "note": "Any generator, schedule and arithmetic; with several draws (binary search) the choice is characterised when the running sums, once they reach the number, keep doing so (C05)."
  },
  {
   "property": "C85",
   "status": "partial",
   "theorems": [
    "C85_logsum_refuted",
    "C85_log_of_the_output_partial",
    "C85_nested_log_of_the_output_partial"
   ],
   "note": "False of the code: the output is the sum of exponentials, never its logarithm; proved that its logarithm has the property, for models without nests and for nested models with scaled utilities."
  },
  {
   "property": "C86",
   "status": "proved",
   "theorems": [
    "C86_bounds_or_nan"
   ],
   "note": "IEEE doubles, any exponential that is never negative and never NaN for a number."
  },
  {
   "property": "C87",
   "status": "proved",
   "theorems": [
    "C87_sum_close_to_one"
   ],
   "note": "IEEE doubles, same exponentials."
  },
  {
   "property": "C88",
   "status": "proved",
   "theorems": [
    "C88_chains_follow_the_keys",
    "C88_utilities_follow_the_keys"
   ],
   "note": "Chains in the meaning of all texts of C82; end to end for a model with one such expression. Columns that are converted cell by cell; aggregations through at least two attributes (C74) and targets without missing keys (C64)."
  },
  {
   "property": "C89",
   "status": "proved",
   "theorems": [
    "C89_run_adds_to_the_cached",
    "C89_given_tables_then_run",
    "C89_in_histories"
   ],
   "note": "The second and third theorem compose C58 (tables by label, every schedule) with C82 (texts); in the third the tables are given in a history, with other calls between them."
  },
  {
   "property": "C90",
   "status": "proved",
   "theorems": [
    "C90_run_the_same",
    "C90_debugging_changes_nothing_else",
    "C90_rows_show_each_text",
    "C90_every_run_recorded"
   ],
   "note": "Decision units distinct. The case in which the run raises because of NaN is C90_rows_show_each_text (any result) with Example C90_recorded_although_nan."
  },
  {
   "property": "C91",
   "status": "partial",
   "theorems": [
    "C91_subset_copy_raises_refuted",
    "C91_false_label_refuted",
    "C91_unknown_label_raises",
    "C91_false_label_records_nothing"
   ],
   "note": "Refuted: copy_subset hands debug_id to a copy without the unit, whose runs all raise KeyError; a label that is false for Python (0) is taken for no label. The last two theorems say exactly what happens."
  },
  {
   "property": "C92",
   "status": "proved",
   "theorems": [
    "C92_nested_bounds",
    "C92_run_bounds"
   ],
   "note": "IEEE doubles; exponentials that are never negative, never NaN for a number and NaN for NaN; any logarithm. The run theorem covers every history whose tree operations add choices (with the parents and names of C12)."
  },
  {
   "property": "C93",
   "status": "proved",
   "theorems": [
    "C93_proportional",
    "C93_selects_in_proportion",
    "C93_scale",
    "C93_computed",
    "C93_worker_rows"
   ],
   "note": "Exact over the reals; computed in IEEE doubles. The worker for one draw (with more draws it fails, C21)."
  },
  {
   "property": "C94",
   "status": "partial",
   "theorems": [
    "C94_no_weight_at_all_refuted",
    "C94_worker_refuted"
   ],
   "note": "Refuted for every length, number and schedule: 0/0 is NaN and the last alternative is returned."
  },
  {
   "property": "C95",
   "status": "proved",
   "theorems": [
    "C95_nested_sum",
    "C95_run_sums"
   ],
   "note": "IEEE doubles; exponentials that are never negative, never NaN for a number, NaN for NaN and 0 at minus infinity; logarithms that are minus infinity at 0; the infeasibility check is on (it always is in runs); the terms have a finite total; n half-units are at most 1/4. The run theorem covers histories whose tree operations add choices."
  },
  {
   "property": "C96",
   "status": "proved",
   "theorems": [
    "C96_choices_follow_the_rows",
    "C96_never_improbable",
    "C96_discrete_returns"
   ],
   "note": "IEEE doubles, exponentials and logarithms as in C95, random numbers that are 0 or at least the smallest normal double (numpy draws no others), check_infeasible on. Histories whose tree operations add choices."
  },
  {
   "property": "C97",
   "status": "proved",
   "theorems": [
    "C97_targets_are_those_of_the_last_link_to",
    "C97_the_summary_lists_the_links",
    "C97_new_links_are_preindexed_on_demand",
    "C97_compute_indexers_leaves_all_preindexed"
   ],
   "note": "the texts on_self and on_other are represented by the labels and the flag they are printed from; the links of every frame are computed from the history in SpecMore.v"
  },
  {
   "property": "C98",
   "status": "partial",
   "theorems": [
    "C98_pivots_of_names_partial",
    "C98_lists_of_names_raise",
    "C98_lists_refuted"
   ],
   "note": "proved for single names and arrays; false for lists (TypeError, whatever the names); tuples (always evaluated as expressions) and other objects are not covered; pandas' pivot_table is a parameter"
  },
  {
   "property": "C99",
   "status": "partial",
   "theorems": [
    "C99_nothing_is_left_changed",
    "C99_unknown_names_raise",
    "C99_the_block_is_not_run_refuted"
   ],
   "note": "settings are restored for all keyword arguments; the block itself is never run, so the first half of the property is false of the code"
  },
  {
   "property": "C100",
   "status": "proved",
   "theorems": [
    "C100_shift_of_all_choices",
    "C100_unscaled_refuted"
   ],
   "note": "scaled utilities: all trees and constants; the unscaled counterexample is a separate theorem"
  },
  {
   "property": "C101",
   "status": "proved",
   "theorems": [
    "C101_own_probability",
    "C101_other_probabilities",
    "C101_any_scales_refuted"
   ],
   "note": "own probability for all positive scales; others under the condition stated in the property, which a counterexample shows to be needed"
  },
  {
   "property": "C102",
   "status": "proved",
   "theorems": [
    "C102_derivative_is_probability",
    "C102_multinomial"
   ],
   "note": "exact arithmetic; derivable_pt_lim of the standard library"
  },
  {
   "property": "C103",
   "status": "proved",
   "theorems": [
    "C103_order_irrelevant"
   ],
   "note": "exact arithmetic (rounded sums depend on the order)"
  },
  {
   "property": "C104",
   "status": "proved",
   "theorems": [
    "C104_disable_is_leave_out",
    "C104_last_child_refuted"
   ],
   "note": "exact arithmetic; the proviso is shown to be needed"
  },
  {
   "property": "C105",
   "status": "proved",
   "theorems": [
    "C105_output_bounds",
    "C105_logsum_bounds",
    "C105_without_nests"
   ],
   "note": "exact arithmetic; the bound on the scales is needed for the upper bound (C105_large_scales)"
  },
  {
   "property": "C106",
   "status": "partial",
   "theorems": [
    "C106_a_failed_run_leaves_no_trace_refuted",
    "C106_refused_runs_change_nothing",
    "C106_failed_run_keeps_a_prefix",
    "C106_next_run_adds_to_the_prefix"
   ],
   "note": "The claim is false of the code: an expression that cannot be evaluated, or NaN utilities, leave the values of the expressions before it in the kept table, and the next run adds to them. Proved instead, for every history: runs refused by validation change nothing; the kept table after any other failure is exactly the start plus a prefix of the expressions; and the next successful run is its own expressions on top of that prefix."
  },
  {
   "property": "C107",
   "status": "partial",
   "theorems": [
    "C107_correcting_the_cause_refuted",
    "C107_never_recovers",
    "B64_nan_absorbs"
   ],
   "note": "The claim is false of the code. Proved instead: once the kept utilities contain a NaN, every run and pre-evaluation on that model raises whatever is done afterwards (including adding tables of utilities), until choices are added at the top. B64_nan_absorbs: the arithmetic hypothesis holds of IEEE doubles."
  },
  {
   "property": "C108",
   "status": "proved",
   "theorems": [
    "C108_same_data_same_utilities",
    "C108_same_data_same_probabilities",
    "C108_same_data_same_choices"
   ],
   "note": "For models without cached utilities, over all pairs of histories and all schedules; every arithmetic. same_data (SpecUnits) compares the values of the symbols the texts use. C108_hypotheses_met: two models of two and three units."
  },
  {
   "property": "C109",
   "status": "partial",
   "theorems": [
    "C109_choice_in_subset_refuted",
    "C108_same_data_same_choices"
   ],
   "note": "The claim is false of the code: the random numbers go by position. For every generator and seed whose first uniform is at most 1/2 and whose second is not, unit h2 gets B in the model of h1, h2 and A in its subset, with the same probabilities. True part (C108): a unit that keeps its position keeps its choices."
  },
  {
   "property": "C110",
   "status": "proved",
   "theorems": [
    "C110_order_of_set_up"
   ],
   "note": "For every model of the world and every way of running it; reordered (SpecOrder) is the closure of exchanging neighbours with unrelated topics. C110_units_after_data: setting units after data is not unrelated."
  },
  {
   "property": "C111",
   "status": "proved",
   "theorems": [
    "C111_last_assignment_counts"
   ],
   "note": "Assignments to other kinds of earlier calls on the symbol are covered by C44-C49."
  },
  {
   "property": "C112",
   "status": "partial",
   "theorems": [
    "C112_every_aggregation_refuted",
    "C112_accepted_aggregations",
    "C112_all_but_quantile"
   ],
   "note": "False of the code: quantile is rejected. Proved instead: exactly the eleven others are accepted, under exactly the stated conditions. nth is not an aggregation to one number per row and not modelled."
  },
  {
   "property": "C113",
   "status": "partial",
   "theorems": [
    "C113_order_matters_refuted",
    "C113_order_of_out_refuted",
    "C113_order_of_expressions"
   ],
   "note": "False of the code in two ways: floating-point addition (10^16 - 10^16 + 1) and expressions that read OUT. True otherwise: in exact arithmetic, for expressions that do not read OUT, every permutation gives the same utilities."
  },
  {
   "property": "C114",
   "status": "partial",
   "theorems": [
    "C114_texts_unchanged",
    "C114_objects_accepted",
    "C114_categories",
    "C114_integers_unchanged",
    "C114_integers_with_missing",
    "C114_subset_of_rows",
    "C114_missing_equals_text_refuted",
    "C114_integer_changed_refuted"
   ],
   "note": "False of the code twice: a missing category counts as the text 'n', 'na' or 'nan' (pandas up to 1.2), and an integer above 2^53 is rounded when another value is missing. Proved: texts are never cut; exactly the columns of ASCII texts are accepted as objects; categories; integers exact up to 2^53. pandas and numpy as described in ConvModel."
  },
  {
   "property": "C115",
   "status": "partial",
   "theorems": [
    "C115_numbers",
    "C115_texts_refuted"
   ],
   "note": "False of the code for texts: float() rejects them. Proved for integers (exactly up to 2^53), floats and booleans."
  },
  {
   "property": "C116",
   "status": "proved",
   "theorems": [
    "C116_constant_everywhere",
    "C116_constant_for_one_choice"
   ],
   "note": "Over the exact extended reals, for runs of two histories whose models have the same choices, data and units and whose second has one more expression text; composed from C82, C83 and the logit formula."
  },
  {
   "property": "C117",
   "status": "partial",
   "theorems": [
    "C117_snapshot_refuted",
    "C117_converted_data_are_a_snapshot_partial",
    "C117_arrays_are_shown_as_they_are_now",
    "C117_tables_show_the_frame_as_it_is_now",
    "C117_copies_show_the_same_data",
    "C117_subsets_have_their_own_data",
    "C117_subsets_have_their_own_tables"
   ],
   "note": "False of the code: numbers and booleans of a numpy dtype and all tables stay shared with the user and with copies, so later in-place writes are seen. Proved: converted data (texts, categoricals, pandas integers) are a snapshot; shared ones always show what the memory contains now; subsets have values of their own. Views and copies of numpy/pandas as assumed in AliasModel."
  },
  {
   "property": "C118",
   "status": "proved",
   "theorems": [
    "C118_more_for_one_choice",
    "C118_scales_up_to_one_refuted"
   ],
   "note": "Over the exact extended reals, for runs of two histories as in C116 with nests of any depth; the condition on scales is needed even for scales up to 1 (second theorem, on the node table of a nest of scale 1 inside a nest of scale 1/2). Composed from C82, the flattening of the tree and C101."
  },
  {
   "property": "C119",
   "status": "proved",
   "theorems": [
    "C119_unit_scales_give_the_logit",
    "C119_same_as_without_nests"
   ],
   "note": "Over the exact extended reals; composed from C82, the flattening of the tree and C16."
  },
  {
   "property": "C120",
   "status": "proved",
   "theorems": [
    "C120_same_odds",
    "C120_one_choice_more"
   ],
   "note": "Over the exact extended reals, for runs of any two histories; composed from C82, C83 and the logit formula (C06)."
  },
  {
   "property": "C121",
   "status": "proved",
   "theorems": [
    "C121_constant_at_every_node",
    "C121_constant_everywhere",
    "C121_any_levels_refuted"
   ],
   "note": "Over the exact extended reals, utilities scaled. The refutation shows (for one call of the kernel) that the condition on the levels is needed. C121_met runs a whole model with two nests and six nodes."
  },
  {
   "property": "C122",
   "status": "proved",
   "theorems": [
    "C122_disabled_is_left_out",
    "C122_order_of_choices"
   ],
   "note": "Over the exact extended reals, for runs of any two histories whose trees have the same depth (at least 2); composed from C82, C26 and C104. The examples run whole models with a disabled fifth node, and with two choices added in the other order. Flat models: C120 and C11."
  }
 ]
}