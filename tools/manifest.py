"""Writes MANIFEST.json.  One entry per property."""
import json, os, re
here = os.path.dirname(os.path.abspath(__file__)); root = os.path.dirname(here)
C = []
def c(pid, status, theorems, note=""):
    C.append({"property": pid, "status": status, "theorems": theorems.split(), "note": note})

c("C01", "proved", "C01_cell C01_cells_partition C01_cell_width C01_draw_above_total C01_any_arithmetic",
  "Exact arithmetic for the cells; C01_any_arithmetic covers rounded sums.")
c("C02", "proved", "C02_sampled_has_positive_probability")
c("C03", "partial", "C03_zero_probability_last_sampled_refuted C03_infeasible_alternative_chosen_refuted C03_only_the_last_partial C03_below_the_rounding_error_partial",
  "REFUTED for the code: rounding makes the computed probabilities sum below 1-2^-53, and the fallback returns the last alternative. Proved parts: only the last alternative can be drawn with probability 0, and for multinomial probabilities of n alternatives not even that one while the random number is at most 1 - 2n * 2^-53.")
c("C04", "proved", "C04_terminates_in_range C04_finds_first_cell")
c("C05", "proved", "C05_samplers_agree")
c("C06", "proved", "C06_logit_formula C06_sum_to_one_and_bounds", "Exact arithmetic.")
c("C07", "proved", "C07_infeasible_iff C07_unchecked C07_flag_irrelevant_otherwise", "Exact arithmetic.")
c("C08", "proved", "C08_shift_invariance", "Exact arithmetic.")
c("C09", "proved", "C09_ratio C09_disable_equals_remove", "Exact arithmetic.")
c("C10", "proved", "C10_own_probability_increases C10_others_do_not_increase", "Exact arithmetic.")
c("C11", "proved", "C11_order_irrelevant", "Exact arithmetic.")
c("C12", "partial", "C12_infinite_utility_refuted C12_overflow_refuted C12_no_nan_partial",
  "REFUTED for the code: +inf utilities, or finite ones whose exponential overflows, give NaN probabilities. Proved part: finite or -inf utilities in exact arithmetic; C86 says exactly which doubles are NaN.")
c("C13", "proved", "C13_nested_logit_equations C13_total C13_solution_unique", "Any arithmetic, including IEEE doubles.")
c("C14", "proved", "C14_sum_to_one", "Exact arithmetic.")
c("C15", "proved", "C15_positive_iff_available C15_below_infeasible_nest C15_error_iff C15_unchecked_all_zero", "Exact arithmetic.")
c("C16", "proved", "C16_collapse_to_multinomial", "Exact arithmetic.")
c("C17", "proved", "C17_top_shift_invariance", "Exact arithmetic.")
c("C18", "proved", "C18_one_level_is_multinomial C18_double")
c("C19", "proved", "C19_multinomial_rows C19_nested_rows C19_nothing_else_written C19_no_deadlock C19_runs_exist", "Every interleaving, any arithmetic; sequentially consistent memory.")
c("C20", "proved", "C20_multinomial_reproducible C20_nested_reproducible C20_multinomial_one_draw C20_nested_one_draw C20_multinomial_many_draws C20_nested_many_draws", "Any generator, any arithmetic, every interleaving.")
c("C21", "partial", "C21_not_reproducible_refuted C21_many_draws_raise_refuted C21_one_draw_in_range_partial", "The claim is false of the code: the random array is filled by unseeded worker threads and n>2 always raises. Proved instead: one-draw calls return valid positions.")
c("C22", "proved", "C22_rejected_before_writing C22_adds_in_every_schedule")
c("C23", "partial", "C23_lost_update_refuted C23_lost_one_refuted C23_single_thread_partial C23_any_schedule C23_every_subset_possible", "The claim is false of the code with two threads (lost update). Proved instead: with a single thread all contributions are added; in every schedule a cell gets the contributions of some, at least one, of the iterations aimed at it, each at most once; and every such set and order can happen.")
c("C24", "proved", "C24_tree_stays_consistent C24_consistent_with_replacement C24_add_choice_effect C24_node_add_choice_effect")
c("C25", "proved", "C25_labels C25_depth")
c("C26", "proved", "C26_flatten_encodes_tree")
c("C27", "proved", "C27_rows_list_elemental_choices_and_sum_to_one", "Exact arithmetic; one row of the table (rows are independent, C19).")
c("C28", "partial", "C28_replacing_a_nest_refuted C28_flatten_broken_refuted C28_replacing_a_childless_choice_partial C28_replacing_any_choice C28_replacing_any_child", "The claim is false of the code: the children of a replaced nest stay in the model. Proved instead: replacing a childless choice; and exactly what replacing any choice leaves.")
c("C29", "partial", "C29_rejected_readd_refuted C29_rejected_dotted_name_refuted C29_rejected_new_name_partial C29_rejected_new_child_partial C29_rejected_existing_name C29_rejected_existing_child", "The claim is false of the code when the full name exists: the old choice is removed before the arguments are checked. Proved instead: for new names; and that for existing names the call is rejected for invalid arguments only and then removes exactly that choice.")
c("C30", "partial", "C30_nested_add_refuted C30_top_level_add_partial C30_top_level_addition_forgets_runs C30_fresh_table_has_current_choices_partial C30_nested_choice_after_a_run_raises C30_readding_refuted C30_readding_moves_the_choice C30_readding_shifts_utilities", "The claim is false of the code for choices added under a node. Proved instead: for top-level additions (after one the model has no utilities from earlier runs and every later state is that of a model never run); that after a run the addition of a new choice under a node makes every later run raise; and that adding an existing choice under its node again keeps the table but moves the choice to the last column, so that later runs start each following choice from the cached utilities of its predecessor (and a counterexample with other utilities).")
c("C31", "proved", "C31_validation_exact")
c("C75", "partial", "C75_generator_refuted C75_add_choices_partial", "The claim is false of the code for one-shot iterators without scales. Proved instead: for re-iterable names.")
c("C32", "partial", "C32_rewriting_preserves_meaning_partial C32_environment_exists C32_rewriting_preserves_meaning_refuted", "False of the code below a unary minus (-df.a is passed on unrewritten). Proved for every expression whose unary-minus operands numexpr can read as they stand.")
c("C33", "partial", "C33_symbols_registered_partial C33_symbols_registered_without_negation C33_all_symbols C33_symbols_registered_refuted", "False of the code: -x does not register x. Proved: exact sets of registered symbols; every other name read is registered.")
c("C34", "proved", "C34_simple_or_chained C34_copy_forgets_groups C34_sum_mixes", "Histories of append/drop/clear. Two further theorems show that copies and sums escape the check.")
c("C35", "partial", "C35_rejected_append_partial C35_rejected_append_refuted", "False of the code: symbols of a rejected expression stay recorded. Proved: expressions and groups are unchanged and unrelated later expressions behave the same.")
c("C36", "partial", "C36_substitution_names_distinct_partial C36_substitution_names_distinct_refuted C36_names_distinct_iff C36_up_to_ten_usages", "False of the code (a used 11 times and a1). Proved: exactly when names clash; never when each symbol is used at most ten times with attributes, nor when no such symbol ends in a digit.")
c("C37", "proved", "C37_filter_split_off C37_one_at C37_stripped_unique")
c("C38", "partial", "C38_flat_literal_partial C38_nested_literal_partial C38_representable_values_exact C38_stated_value_refuted", "The stated value is rounded to float32; exact for representable values.")
c("C39", "partial", "C39_order_of_entries_partial C39_order_of_entries_flat C39_order_of_entries_refuted", "False of the code for A and A._. Proved when no node is concerned by two entries.")
c("C41", "proved", "C41_containers_hold_what_was_appended C41_drop_removes_only_the_group C41_append_changes_only_the_group", "Histories of new/append/clear/drop/copy over any number of containers.")
c("C42", "partial", "C42_no_aliasing_partial C42_no_aliasing_refuted C42_sum_holds_both", "False of the code for + (a group in one operand only is shared). Proved for copies.")
c("C46", "proved", "C46_vector_accepted_iff_aligned C46_vector_stored C46_table_accepted_iff_aligned C46_table_column", "Exact: accepted if and only if aligned (for tables: with links allowed; without, see C49).")
c("C47", "proved", "C47_matrix_aligned_by_label")
c("C48", "partial", "C48_both_axes_refuted C48_both_axes_partial", "False of the code: numpy pairs the two index arrays. Proved: the call raises except when the data have one decision unit, and is then aligned.")
c("C49", "partial", "C49_allow_links_refuted C49_allow_links_inverted", "False of the code: the test is inverted. Proved: exactly the opposite holds.")
c("C40", "proved", "C40_only_the_column C40_filter_succeeds")
c("C43", "proved", "C43_no_reserved_symbol C43_declare")
c("C44", "proved", "C44_units_empty_symbols C44_stays_unassigned")
c("C51", "proved", "C51_nan_raises C51_probabilities_from_numbers", "Any arithmetic; the table left in the model is the one tested.")
c("C59", "proved", "C59_positions_to_labels")
c("C45", "partial", "C45_symbols_assigned C45_failures_partial C45_reserved_word_refuted", "False of the code for a reserved word with attributes (OUT.x validates, then KeyError). Proved: every other symbol of the selected expressions is declared and assigned.")
c("C50", "proved", "C50_utilities_are_sums C50_meanings_exist C50_starts_from_cached tables_obey_frame_laws orderly_frames_are_tables", "For expressions whose symbols cannot collide with generated names (see C36), numexpr being a function of the values of the names.")
c("C52", "partial", "C52_same_probabilities_refuted C52_second_run_adds", "False of the code: the second run adds the utilities again. Proved: what it returns.")
c("C53", "partial", "C53_new_units_refuted C53_no_cache_partial C53_other_shape_raises C53_another_number_of_units_raises C53_as_many_units_start_from_the_old", "False of the code: cached utilities of the old decision units remain. Proved: without cached utilities nothing assigned before matters; otherwise exactly what happens (another number of units raises, as many start from the old cells).")
c("C54", "partial", "C54_same_utilities C54_preval_succeeds_partial C55_shared_symbol_removed_refuted", "Proved: whenever both ways succeed their utilities are equal (exact arithmetic, histories whose choices precede data, names that cannot collide with generated ones); and if the single run succeeds, so do preval and the run after it, without clean-up or for models whose expressions were appended. Missing: with clean-up after copy() the run can raise (refuted theorem).")
c("C55", "partial", "C55_symbol_left_refuted C55_shared_symbol_removed_refuted C55_reserved_word_refuted C55_what_is_cleared C55_ungrouped_symbols_stay C55_nothing_cleared C55_after_copy_partial", "False of the code: appended models keep all symbols, copied models lose symbols other groups need, reserved words raise KeyError. Proved: exactly which symbols are removed, in every history.")
c("C56", "partial", "C56_copy_runs_the_same C56_default_copy_runs_the_same C56_copy_same_utilities C56_isolated C56_isolated_probabilities C56_isolated_discrete C56_hidden_name_refuted", "Proved: in every history, no call on other models (copies included) changes a model or its runs; the copy runs to the same utilities when each expression registers its own names, and whenever both runs succeed. False of the code when a name hidden by a unary minus (C33) is only registered by a dropped group: the run of the copy raises.")
c("C57", "partial", "C57_subset_runs_on_the_rows C57_subset_probabilities C57_linked_tables tables_obey_frame_slices C57_delayed_links_refuted", "Proved for plain tables and for linked tables whose links are indexed, for expressions whose names are registered and cannot collide with generated ones, and columns whose conversion commutes with the selection (conv_rows: fails for text columns when no row is selected). False of the code for a table with a delayed link that has not been read: the run of the copy raises ValueError.")
c("C58", "partial", "C58_added_by_label C58_raising_changes_nothing C58_wrong_labels_raise C58_known_labels_accepted C58_in_histories C58_raising_in_histories C58_empty_subset_refuted", "Proved for every schedule of the parallel loop; a raising call may create the table of zeros. False of the code for an empty subset of the decision units or choices: ValueError.")
c("C76", "partial", "C76_nest_in_copy_refuted C76_scale_in_copy_refuted C76_new_nodes_isolated_partial", "False of the code: the nodes are shared and belong to the original. Proved: whatever is done to other models and to the nodes they get after the copy (choices, nests under them, scales, further copies) changes nothing of a model.")
c("C60", "proved", "C60_lookups_follow_the_keys C60_lookup_into_an_empty_table_raises", "Every history in which nobody edits keys behind a link's back and rows are only selected in ways the class knows (orderly_run; see C66-C68 for the others).")
c("C61", "proved", "C61_chained_lookups_follow_the_keys", "Same histories as C60; chains of any length, by induction.")
c("C69", "partial", "C69_delayed_links_are_accepted_alike C69_delayed_lookups_equal_precomputed C69_computing_later_equals_precomputing C69_delayed_aggregations_raise C69_delayed_aggregation_refuted C69_delayed_name_of_key_refuted", "False of the code: aggregations over a delayed link raise TypeError until compute_indexers(), and a delayed link named like its key column cannot be read. Proved: lookups are the same otherwise, and compute_indexers() makes the frames equal.")
c("C77", "proved", "C77_reads_do_not_change_reads", "Every history of operations and reads, no assumption on the values.")
c("C78", "partial", "C78_reading_pins_the_keys_refuted C78_reads_of_indexed_links_leave_nothing_partial", "False of the code: the first read stores the indexer of a delayed link. Proved: reads that change no link summary leave nothing behind for any later calls, as long as these do not refresh.")
c("C62", "proved", "C62_links_are_classified C62_stored_positions", "Every reachable state; the stored positions are proved against the keys, also on the fast path.")
c("C72", "proved", "C72_accepted_iff C72_accepted_links_as_documented C72_rejected_changes_nothing C72_conflicts_are_rejected C72_level_mismatch_is_rejected", "Arguments: absent, a string, or a list (of names and level numbers); see C79 for a bare integer.")
c("C79", "partial", "C79_integer_level_refuted C79_error_kinds_refuted C79_errors_have_reasons C79_each_reason_refuses", "False of the code: a bare integer raises TypeError; mismatching levels raise AssertionError, an empty list ValueError. Proved: the complete table of reasons and exceptions, in both directions.")
c("C63", "proved", "C63_aggregates_over_the_matching_rows", "Orderly histories (as C60), also at the end of a chain of lookups; pandas' reduction of one group is a parameter; the fill value must be storable in the result's type (see C80).")
c("C64", "partial", "C64_missing_keys_refuted C64_missing_keys_shift_the_groups", "False of the code. Proved: what it computes instead, for every data with a missing target key: all groups are shifted by one.")
c("C80", "partial", "C80_count_of_floats_raises C80_count_refuted", "False of the code: count over any column not of whole numbers raises ValueError, whatever the data. Whole numbers: C63.")
c("C81", "partial", "C81_count_of_a_condition_refuted C81_count_ignores_the_condition", "False of the code. Proved: the result is the number of matching rows, whatever the condition.")
c("C65", "partial", "C65_selected_rows_read_alike_partial C65_selected_rows_aggregate_alike_partial C65_orderly_selected_rows_read_alike C65_repeated_selections_read_alike_partial C65_delayed_links_refuted C65_after_a_refresh_refuted", "true for links that have their indexer stored, after any history without refresh and after any orderly history; false for links made with precompute=False that were not read yet, and after a refresh that follows a change of keys")
c("C66", "partial", "C66_finalised_frames_read_in_the_original_order C66_fewer_rows_cannot_be_read C66_finalised_frames_cannot_aggregate C66_sorting_refuted", "false: a frame made by sort_values and the like reads its links in the order of the original; proved what is read instead, for every reordering, column selection and path; with another number of rows nothing can be read through a link")
c("C67", "partial", "C67_reindexed_frames_read_in_the_original_order C67_reindexed_to_another_length_cannot_be_read C67_reindexing_refuted", "false: rows for new labels read what the original reads at that position (as many rows) or reading raises (another number of rows); proved exactly what is read, for every index and path")
c("C70", "proved", "C70_fills_follow_the_documented_precedence C70_unmatched_rows_read_the_documented_fill", "Every history of fill settings (per column, per frame, per class, resets), for frames that were not derived from others; see C71 for derived frames and for the class settings of new frames.")
c("C71", "partial", "C71_new_frames_ignore_the_class_settings C71_class_defaults_refuted", "False of the code: frames made after the class settings changed start from the built-in defaults. Proved for every history.")
c("C73", "partial", "C73_names_stand_for_columns_first_partial C73_local_values_of_columns_are_ignored C73_local_dict_refuted", "False of the code for names that are also columns: the value given in local_dict is ignored. Proved: which value each name stands for, for every expression.")
c("C74", "partial", "C74_one_link_always_fails_refuted C74_function_ignored_refuted C74_end_to_end_refuted C74_longer_chains_aggregate_partial", "False of the code: with one link the expression always raises AttributeError, and after the name of a column the function is ignored. Proved: through two attributes or more, the result is the aggregation of the frame.")
c("C68", "partial", "C68_edited_keys_refuted C68_refreshing_a_slice_refuted C68_after_refresh_exactly C68_unread_links_become_current_partial", "False of the code: the list of unmatched rows stored by an earlier read is kept, and a slice is given the indexer of the frame it was taken from. Proved for every history: exactly what one lookup reads after a refresh, and that links which have not been read become current.")
c("C82", "proved", "C82_utilities_mean_the_texts", "Orderly histories, no cached utilities (see C52/C53); numexpr is the cell-wise evaluator with arbitrary operations; texts without unary minus over a function or power (C33), names in plain form (C36), aggregations after two attributes (C74).")
c("C83", "proved", "C83_stochastic_outputs C83_first_output C83_exact_logit", "Any arithmetic; over the real numbers a model without nests gives the logit formula.")
c("C84", "proved", "C84_discrete_outputs C84_returns C84_exact_choice", "Any generator, schedule and arithmetic; with several draws (binary search) the choice is characterised when the running sums, once they reach the number, keep doing so (C05).")
c("C85", "partial", "C85_logsum_refuted C85_log_of_the_output_partial C85_nested_log_of_the_output_partial", "False of the code: the output is the sum of exponentials, never its logarithm; proved that its logarithm has the property, for models without nests and for nested models with scaled utilities.")
c("C86", "proved", "C86_bounds_or_nan", "IEEE doubles, any exponential that is never negative and never NaN for a number.")
c("C87", "proved", "C87_sum_close_to_one", "IEEE doubles, same exponentials.")
c("C88", "proved", "C88_chains_follow_the_keys C88_utilities_follow_the_keys", "Chains in the meaning of all texts of C82; end to end for a model with one such expression. Columns that are converted cell by cell; aggregations through at least two attributes (C74) and targets without missing keys (C64).")
c("C89", "proved", "C89_run_adds_to_the_cached C89_given_tables_then_run C89_in_histories", "The second and third theorem compose C58 (tables by label, every schedule) with C82 (texts); in the third the tables are given in a history, with other calls between them.")
c("C90", "proved", "C90_run_the_same C90_debugging_changes_nothing_else C90_rows_show_each_text C90_every_run_recorded", "Decision units distinct. The case in which the run raises because of NaN is C90_rows_show_each_text (any result) with Example C90_recorded_although_nan.")
c("C91", "partial", "C91_subset_copy_raises_refuted C91_false_label_refuted C91_unknown_label_raises C91_false_label_records_nothing", "Refuted: copy_subset hands debug_id to a copy without the unit, whose runs all raise KeyError; a label that is false for Python (0) is taken for no label. The last two theorems say exactly what happens.")
c("C92", "proved", "C92_nested_bounds C92_run_bounds", "IEEE doubles; exponentials that are never negative, never NaN for a number and NaN for NaN; any logarithm. The run theorem covers every history whose tree operations add choices (with the parents and names of C12).")
c("C93", "proved", "C93_proportional C93_selects_in_proportion C93_scale C93_computed C93_worker_rows", "Exact over the reals; computed in IEEE doubles. The worker for one draw (with more draws it fails, C21).")
c("C94", "partial", "C94_no_weight_at_all_refuted C94_worker_refuted", "Refuted for every length, number and schedule: 0/0 is NaN and the last alternative is returned.")
c("C95", "proved", "C95_nested_sum C95_run_sums", "IEEE doubles; exponentials that are never negative, never NaN for a number, NaN for NaN and 0 at minus infinity; logarithms that are minus infinity at 0; the infeasibility check is on (it always is in runs); the terms have a finite total; n half-units are at most 1/4. The run theorem covers histories whose tree operations add choices.")
c("C96", "proved", "C96_choices_follow_the_rows C96_never_improbable C96_discrete_returns", "IEEE doubles, exponentials and logarithms as in C95, random numbers that are 0 or at least the smallest normal double (numpy draws no others), check_infeasible on. Histories whose tree operations add choices.")
c("C97", "proved", "C97_targets_are_those_of_the_last_link_to C97_the_summary_lists_the_links C97_new_links_are_preindexed_on_demand C97_compute_indexers_leaves_all_preindexed", "the texts on_self and on_other are represented by the labels and the flag they are printed from; the links of every frame are computed from the history in SpecMore.v")
c("C98", "partial", "C98_pivots_of_names_partial C98_lists_of_names_raise C98_lists_refuted", "proved for single names and arrays; false for lists (TypeError, whatever the names); tuples (always evaluated as expressions) and other objects are not covered; pandas' pivot_table is a parameter")
c("C99", "partial", "C99_nothing_is_left_changed C99_unknown_names_raise C99_the_block_is_not_run_refuted", "settings are restored for all keyword arguments; the block itself is never run, so the first half of the property is false of the code")
c("C100", "proved", "C100_shift_of_all_choices C100_unscaled_refuted", "scaled utilities: all trees and constants; the unscaled counterexample is a separate theorem")
c("C101", "proved", "C101_own_probability C101_other_probabilities C101_any_scales_refuted", "own probability for all positive scales; others under the condition stated in the property, which a counterexample shows to be needed")
c("C102", "proved", "C102_derivative_is_probability C102_multinomial", "exact arithmetic; derivable_pt_lim of the standard library")
c("C103", "proved", "C103_order_irrelevant", "exact arithmetic (rounded sums depend on the order)")
c("C104", "proved", "C104_disable_is_leave_out C104_last_child_refuted", "exact arithmetic; the proviso is shown to be needed")
c("C105", "proved", "C105_output_bounds C105_logsum_bounds C105_without_nests", "exact arithmetic; the bound on the scales is needed for the upper bound (C105_large_scales)")
c("C106", "partial", "C106_a_failed_run_leaves_no_trace_refuted C106_refused_runs_change_nothing C106_failed_run_keeps_a_prefix C106_next_run_adds_to_the_prefix", "The claim is false of the code: an expression that cannot be evaluated, or NaN utilities, leave the values of the expressions before it in the kept table, and the next run adds to them. Proved instead, for every history: runs refused by validation change nothing; the kept table after any other failure is exactly the start plus a prefix of the expressions; and the next successful run is its own expressions on top of that prefix.")
c("C107", "partial", "C107_correcting_the_cause_refuted C107_never_recovers B64_nan_absorbs", "The claim is false of the code. Proved instead: once the kept utilities contain a NaN, every run and pre-evaluation on that model raises whatever is done afterwards (including adding tables of utilities), until choices are added at the top. B64_nan_absorbs: the arithmetic hypothesis holds of IEEE doubles.")
c("C108", "proved", "C108_same_data_same_utilities C108_same_data_same_probabilities C108_same_data_same_choices", "For models without cached utilities, over all pairs of histories and all schedules; every arithmetic. same_data (SpecUnits) compares the values of the symbols the texts use. C108_hypotheses_met: two models of two and three units.")
c("C109", "partial", "C109_choice_in_subset_refuted C108_same_data_same_choices", "The claim is false of the code: the random numbers go by position. For every generator and seed whose first uniform is at most 1/2 and whose second is not, unit h2 gets B in the model of h1, h2 and A in its subset, with the same probabilities. True part (C108): a unit that keeps its position keeps its choices.")
c("C110", "proved", "C110_order_of_set_up", "For every model of the world and every way of running it; reordered (SpecOrder) is the closure of exchanging neighbours with unrelated topics. C110_units_after_data: setting units after data is not unrelated.")
c("C111", "proved", "C111_last_assignment_counts", "Assignments to other kinds of earlier calls on the symbol are covered by C44-C49.")
c("C112", "partial", "C112_every_aggregation_refuted C112_accepted_aggregations C112_all_but_quantile", "False of the code: quantile is rejected. Proved instead: exactly the eleven others are accepted, under exactly the stated conditions. nth is not an aggregation to one number per row and not modelled.")
c("C113", "partial", "C113_order_matters_refuted C113_order_of_out_refuted C113_order_of_expressions", "False of the code in two ways: floating-point addition (10^16 - 10^16 + 1) and expressions that read OUT. True otherwise: in exact arithmetic, for expressions that do not read OUT, every permutation gives the same utilities.")
c("C114", "partial", "C114_texts_unchanged C114_objects_accepted C114_categories C114_integers_unchanged C114_integers_with_missing C114_subset_of_rows C114_missing_equals_text_refuted C114_integer_changed_refuted", "False of the code twice: a missing category counts as the text 'n', 'na' or 'nan' (pandas up to 1.2), and an integer above 2^53 is rounded when another value is missing. Proved: texts are never cut; exactly the columns of ASCII texts are accepted as objects; categories; integers exact up to 2^53. pandas and numpy as described in ConvModel.")
c("C115", "partial", "C115_numbers C115_texts_refuted", "False of the code for texts: float() rejects them. Proved for integers (exactly up to 2^53), floats and booleans.")
c("C116", "proved", "C116_constant_everywhere C116_constant_for_one_choice", "Over the exact extended reals, for runs of two histories whose models have the same choices, data and units and whose second has one more expression text; composed from C82, C83 and the logit formula.")
c("C117", "partial", "C117_snapshot_refuted C117_converted_data_are_a_snapshot_partial C117_arrays_are_shown_as_they_are_now C117_tables_show_the_frame_as_it_is_now C117_copies_show_the_same_data C117_subsets_have_their_own_data C117_subsets_have_their_own_tables", "False of the code: numbers and booleans of a numpy dtype and all tables stay shared with the user and with copies, so later in-place writes are seen. Proved: converted data (texts, categoricals, pandas integers) are a snapshot; shared ones always show what the memory contains now; subsets have values of their own. Views and copies of numpy/pandas as assumed in AliasModel.")
c("C118", "proved", "C118_more_for_one_choice C118_scales_up_to_one_refuted", "Over the exact extended reals, for runs of two histories as in C116 with nests of any depth; the condition on scales is needed even for scales up to 1 (second theorem, on the node table of a nest of scale 1 inside a nest of scale 1/2). Composed from C82, the flattening of the tree and C101.")
c("C119", "proved", "C119_unit_scales_give_the_logit C119_same_as_without_nests", "Over the exact extended reals; composed from C82, the flattening of the tree and C16.")
c("C120", "proved", "C120_same_odds C120_one_choice_more", "Over the exact extended reals, for runs of any two histories; composed from C82, C83 and the logit formula (C06).")
c("C121", "proved", "C121_constant_at_every_node C121_constant_everywhere C121_any_levels_refuted", "Over the exact extended reals, utilities scaled. The refutation shows (for one call of the kernel) that the condition on the levels is needed. C121_met runs a whole model with two nests and six nodes.")
c("C122", "proved", "C122_disabled_is_left_out C122_order_of_choices", "Over the exact extended reals, for runs of any two histories whose trees have the same depth (at least 2); composed from C82, C26 and C104. The examples run whole models with a disabled fifth node, and with two choices added in the other order. Flat models: C120 and C11.")
#MORE
if __name__ == "__main__":
    json.dump({"claims": C}, open(os.path.join(root, "MANIFEST.json"), "w"), indent=1)
    names = set()
    d = os.path.join(root, "rocq/theories")
    for f in os.listdir(d):
        if f.endswith(".v"):
            names |= set(re.findall(r"^\s*(?:Theorem|Lemma|Corollary)\s+([\w']+)", open(os.path.join(d, f)).read(), re.M))
    ids = {json.loads(l)["id"] for l in open(os.path.join(root, "properties.jsonl"))}
    for e in C:
        assert e["property"] in ids, e
        for t in e["theorems"]:
            assert t in names, t
    print("missing:", sorted(ids - {e["property"] for e in C}))
    from collections import Counter
    print(Counter(e["status"] for e in C))
