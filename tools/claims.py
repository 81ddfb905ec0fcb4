claim("C01", "proved", "C01_unify_sound", "")
claim("C02", "proved", "C02_unify_complete C02_unify_most_general", "")
claim("C03", "proved", "C03_unify_terminates C03_unify_acyclic C03_unify_self", "")
claim("C04", "proved", "C04_clear_undoes_all C04_topslice_restores", "")
claim("C05", "proved", "C05_match_decides C05_match_answers C05_match_bindings C05_match_never_wrong C05_stray_read_refuted",
  "Decision exact when the code's reads of a constant's word as a record header are harmless; C05_stray_read_refuted records the finding that such reads happen.")
claim("C06", "proved", "C06_equal_exact C06_equal_macro_exact C06_equal_answers", "Same proviso for a long string compared with a record.")
claim("C07", "partial", "C07_identical_strings_refuted C07_distinct_strings_refuted C07_eleven_bytes_partial",
  "False of the code (typo 11 for l1, unify.c 1025 and 1029); refuted in both directions, with the fragment on which it holds.")
claim("C08", "partial", "C08_filter_passes_instances_partial C08_hash_overflow_refuted",
  "Holds when the symbol hashes of the specific literal sum below 2^31; false beyond that (int overflow), refuted with a 2148-argument atom.")
claim("C09", "proved", "C09_sort_permutes_and_orders", "")
claim("C10", "partial", "C10_subsumption_exact_partial C10_subsumption_exact_but_for_answers C10_real_subsumption_found C10_answers_refuted C10_subsumption_answers C10_prepared_clause_is_stored",
  "For prepared clauses (fingerprints computed, sorted) whose hash sums fit an int; stray header reads assumed harmless as in C05.  Exact unless one answer is wanted (the default) and the general clause has answer literals; then exact up to the arguments of answer literals, and plain exactness is refuted.")
claim("C11", "partial", "C11_block_filter_passes_subsumers_partial C11_ground_subsumer_refuted C11_counter_255_refuted C11_fact_refuted",
  "False of the code in three ways, each refuted; the partial theorem covers all remaining pairs of rule clauses.")
claim("C12", "proved", "C12_resolution_sound C12_shared_atom_refuted",
  "For first-order parents in which no two opposite literals share one atom record (guaranteed by the tautology test: C17_passed_parent_is_coherent); refuted without that.")
claim("C13", "proved", "C13_factoring_sound C13_shared_atom_refuted",
  "For two literals that are separate atom records; refuted when they share one record.")
claim("C14", "proved", "C14_paramodulation_sound", "For equality used with two arguments.")
claim("C15", "proved", "C15_reflexivity_sound C15_ternary_equality_refuted C15_propositional_atom_refuted",
  "For equality used with two arguments; refuted for three, and a stray read on propositional atoms is recorded.")
claim("C17", "proved", "C17_merging_keeps_models C17_dropped_is_tautology C17_tautology_test_exact C17_tautology_is_valid C17_passed_parent_is_coherent", "")
claim("C20", "proved", "C20_stored_clause_is_a_variant C20_within_limit_succeeds C20_table_clear_again", "")
claim("C16", "proved", "C16_unit_cut_off_sound C16_subsumed_by_unit_follows C16_strong_cut_off_sound C16_double_cut_off_sound C16_processing_of_derived_clause_sound",
  "Hash look-ups are modelled as a scan of the bucket searched (C27 is about buckets).")
claim("C18", "proved", "C18_duplicate_removal_keeps_models", "")
claim("C44", "proved", "C44_simplification_sound C44_rewriting_is_admissible", "")
claim("C41", "proved", "C41_rewriting_keeps_value C41_rewriting_keeps_truth C41_function_symbol_refuted C41_predicate_symbol_refuted", "For signatures where constants with equations are not also function or predicate symbols; refuted otherwise.")
claim("C19", "proved", "C19_reported_proof_is_refutation C19_kept_clauses_follow C19_any_symbols", "For every run of inferences, processing of results and simplifications, whatever the choices made; instance generation and numeric instantiation included; the propositional sub-solver and answer bookkeeping are not part of the model. With rewriting, for inputs where constants with equations are not also function or predicate symbols (see C41).")
claim("C33", "proved", "C33_allocated_object_is_unused C33_held_objects_are_disjoint C33_contents_kept C33_freed_cell_returns C33_allocation_ends", "For every history of area set-ups, allocations, frees, raw chunks and writes into held objects.")
claim("C29", "proved", "C29_integers_roundtrip C29_failure_means_no_memory C29_doubles_roundtrip", "On top of the allocator model of C33: the box keeps its contents over every later history that neither frees nor overwrites it.")
claim("C30", "proved", "C30_type_of_encoded_value C30_encodings_do_not_collide C30_no_value_is_the_error_code C30_immediate_values_roundtrip", "For values in the ranges the API documents (the range checks themselves are compiled out).")
claim("C31", "proved", "C31_day_number_is_exact C31_dates_roundtrip C31_dates_monotone C31_day_numbers_are_dates C31_range C31_year_zero_refuted C31_overlong_month_refuted", "For real calendar dates of years 1 to 9999; the refutations record that the argument check lets year 0 and the 31st of every month through.")
claim("C32", "proved", "C32_time_value_is_exact C32_times_roundtrip C32_times_monotone C32_time_values_are_times C32_sixty_minutes_refuted", "The refutation records that 60 minutes or seconds pass the argument check and come back as another time.")
claim("C38", "proved", "C38_vector_keeps_contents C38_new_vector_is_zero C38_store_is_defined C38_counting_vector_keeps_contents C38_next_free_index C38_push_appends C38_counting_store_is_defined C38_buffer_blocks_are_disjoint", "For indexes up to 2^30.")
claim("C39", "proved", "C39_paths_roundtrip", "")
claim("C40", "partial", "C40_rule_roundtrips C40_positions_roundtrip_partial C40_positions_refuted C40_records_are_distinct", "False of the code for positions 16 to 255: written with 8 bits, read with 4.")
claim("C28", "proved", "C28_pick_is_lightest_and_oldest C28_empty_pick_means_none_left C28_every_pick_follows_the_specification C28_nothing_lost", "Entries already given when their turn comes are dropped by the pick; weights above the limit count as the limit.")
claim("C43", "partial", "C43_blocks_are_disjoint C43_blocks_are_inside C43_allocation_is_defined C43_huge_pool_refuted", "Holds in every history without undefined behaviour; the refutation shows that a pool grown past 2^31 bytes overflows an int.")
claim("C27", "proved", "C27_found_was_stored C27_stored_is_found C27_not_found_was_not_stored C27_lookup_stays_inside C27_bucket_number_is_inside C27_storing_succeeds", "The comparison of constants of different kinds is assumed not to read outside memory (the stray outcome of C05) for completeness only.")
claim("C45", "proved", "C45_unifiable_atoms_are_candidates C45_candidates_were_stored C45_lookup_is_defined C45_lists_keep_everything C45_keys_are_slots C45_storing_succeeds C45_every_atom_has_keys_refuted", "The refutation records that for some atoms the search does not complete: a key is negative and the prover exits.")
claim("C35", "partial", "C35_reader_preference_exclusion C35_reader_preference_kept C35_reader_preference_free_again C35_writer_preference_exclusion C35_writer_preference_kept C35_writer_preference_free_again C35_queued_exclusion_partial C35_queue_sections_exclusive_partial C35_queued_kept C35_queued_free_again_partial C35_queued_exclusion_refuted C35_queued_exclusion_signal_refuted C35_queued_grant_lost_refuted", "Proved in full for both spin locks. False of the queued lock as shipped: late wake-ups and signals are taken as grants; proved for it without those.")
claim("C37", "partial", "C37_order_of_contents_partial C37_antisymmetric_partial C37_equal_means_same_contents_partial C37_transitive_partial C37_antisymmetric_refuted", "For all values except NaN doubles, for which it is false of the code. Texts of strings are parameters; fixpoints are compared by their integer multiple of 1/10000.")
claim("C21", "partial", "C21_sum_exact C21_difference_exact C21_product_exact C21_negation_exact C21_division_truncates C21_remainder_t_exact C21_remainder_ef_partial C21_quotient_t_partial C21_quotient_f_partial C21_integer_comparisons_exact C21_real_operations_rounded C21_not_finite_left C21_real_negation_exact C21_roundings_exact C21_real_comparisons_exact C21_mixed_comparisons_partial C21_always_defined C21_always_defined_unary C21_quotient_e_refuted C21_remainder_e_refuted C21_remainder_f_refuted C21_quotient_t_refuted C21_mixed_lesseq_refuted C21_division_exact_refuted", "Sums, differences, products, negations, truncating division and remainder, and comparisons of integers are exact or left for all 64-bit operands; double operations are correctly rounded. Euclidean and flooring remainders of negative numbers, the Euclidean quotient, quotients from 2^53 on and non-strict mixed comparisons are wrong in the code (refuted).")
claim("C22", "proved", "C22_nnf_keeps_meaning", "For all well-formed formulas, also with n-ary connectives, both signs, all interpretations and environments.")
claim("C23", "partial", "C23_miniscope_keeps_meaning_partial C23_many_arguments_refuted C23_spelling_refuted", "Proved for binary connectives (what the parsers build) when no other name has the spelling of a bound one; both restrictions are needed (refuted otherwise).")
claim("C24", "proved", "C24_skolemization", "For closed formulas in negation normal form with fresh Skolem names: implies the original; every model extends, changing only the new names.")
claim("C25", "proved", "C25_distribution C25_pointwise C25_distribution_ends C25_flatten", "Both strategies: whenever the conversion returns, the result is in clause form, implies the original, and models extend on the new predicates. Without definitions it always returns. Not proved: that it always returns with definitions (it refuses definitions over 1000 variables).")
claim("C26", "proved", "C26_clausification C26_satisfiable_iff C26_accepted", "For every accepted non-atomic formula, free variables read as universal: clauses imply it and every model extends. Atomic inputs are returned unchanged.")
claim("C34", "partial", "C34_held_objects_partial C34_allocation_partial C34_free_partial C34_refuted C34_free_refused_refuted", "Proved for all histories (with growth, splitting, coalescing, user writes and steps of other areas) that never take an exact fit from a mixed-size bucket, or never free an object marked as following a free block; false of the code without that (refuted). Missing: nothing the code satisfies, except requests of 2^36 words and more and segments over 2^40 bytes.")
claim("C42", "partial", "C42_verdict C42_asymmetric C42_swap C42_irreflexive C42_stable_partial C42_stable_bindings_partial C42_transitive_partial C42_subterm_partial C42_context_partial C42_no_descent_partial C42_ground_total C42_stable_refuted", "Asymmetry, irreflexivity and termination of the comparison for all terms and bindings; stability under substitution (and transitivity, subterm, context and no-descent laws) for terms of at most 1000 different variables whose compound parts start with a constant. Stability is false beyond 1000 variables (refuted). Weights are unbounded in the model.")
claim("C36", "partial", "C36_mirror_partial C36_search_partial C36_add_succeeds C36_remove_succeeds C36_remove_absent C36_occupied_partial C36_refuted", "For every key type with a total order and every history of additions, deletions and changes of the indexed field in which no allocation fails: contents, sortedness, balance, the chain of nodes and exact search; every operation succeeds. With a failing allocation the statement is false (refuted). Index templates and the choice of records to index are not modelled; the key of a row does not change while it is in the index.")
claim("C46", "partial", "C46_some_literal_left_partial C46_one_kind_is_orderly C46_maximal_exactly_partial C46_bigger_irreflexive C46_bigger_transitive C46_bigger_stable C46_negative_hyperresolution C46_negative_preferred C46_positive_preferred C46_all_allowed C46_answers_left_alone C46_ordering_refuted C46_comparison_refuted", "Proved for all strategies, clauses and hardness functions when the constants of the clause can be ranked in agreement with the code's comparison (all names, or no names, or any other acyclic mix) and no comparison literal is the only one of its sign; false without either (refuted).")
claim("C47", "partial", "C47_query_partial C47_create_partial C47_fill_partial C47_set C47_delete_partial C47_index C47_index_refused C47_indexes_do_not_matter_partial C47_refuted_gap C47_refuted_create C47_refuted_fill C47_refuted_delete C47_shipped_query_partial C47_shipped_set_refuted C47_shipped_insert_refuted", "The C47_shipped theorems are about the program as compiled (QUICK_REASONER defined), where wg_set_field does nothing and indexes are not kept up: queries are exact as long as records are written before the indexes that concern them are made, and wrong otherwise. The others are about the text without QUICK_REASONER: For every history of successful operations (create, fill, set, delete, create index, drop index) over any total order of field values, in which no created record agrees with a template before the columns concerned are set, a query without the pair '> v' and '< v' returns exactly the wanted records, each once. False without these conditions (four refutations). Not modelled: failing allocations of nodes, hash and multi-column indexes, back links, JSON queries.")
claim("C48", "partial", "C48_answer_is_correct C48_answer_test_is_exact C48_answers_listed_once_partial C48_register_partial C48_enough C48_refuted_answerless_proof C48_refuted_order", "Correctness is proved for every run of the search model (uses Classical_Prop.classic), every list of registrations of clauses is proved to be listed once. False: registering an answerless proof besides another entry reads through NULL; disjunctive answers in another order count as different. Not modelled: printing of answers, the sub-solvers, required_answer_nr set from the input.")
claim("C49", "partial", "C49_reads_back C49_one_word C49_encode_defined C49_encode_fails_when_full C49_free_defined C49_stored_once_refuted C49_free_with_kb_refuted C49_prefix_freed_refuted", "Proved for all histories of encoding and freeing, all allocators that return free places, with or without an attached knowledge base. False: a long extra string in the bucket of its value is stored twice; freeing with a knowledge base attached is a wild access; freeing a value frees its extra string although the caller may hold a word for it (the histories exclude using such a word). Not modelled: C int overflow of lengths, the list of URIs.")
claim("C50", "partial", "C50_complete_partial C50_positions_partial C50_positions_refuted C50_into_positions_refuted C50_tptp_instantiation_refuted C50_stray_refuted", "Complete, ordered and citing exactly the parents for every derivation in text style, and in TPTP style without propositional instantiation, provided the word after an input record does not read as an instantiation tag. Positions are right below 16 except for rewriting into the given clause. The stronger statements are refuted. Not modelled: the text of clauses and terms, JSON punctuation, the list of input names.")
claim("C51", "partial", "C51_role_partial C51_role_refuted", "Right with respect to the clauses the rules were applied to, for query focus strategies other than 2 and 3; refuted when the goals and assumptions that only cut or rewrote are counted.")
claim("C52", "proved", "C52_numeric_instance C52_numeric_exact C52_generated_instance C52_generated_most_general_refuted", "Sound for every stored clause and all bindings the code can use; a numeric instance has exactly the models of the instantiated clause. That a generated instance is the most general one is refuted (not part of the property).")
claim("C53", "proved", "C53_settings C53_run_bounded C53_call_bounded C53_exhaustive C53_candidates C53_boundaries C53_solutions", "Numbers out of floating point arithmetic are a parameter. No repetition over a run is proved while the cache of 4096 entries has not filled up, which cannot happen with a limit of at most 4096 counted probes (the default is 1000).")
claim("C54", "partial", "C54_clauses_read_partial C54_too_many_variables C54_constants_apart C54_roles C54_shared_list_refuted C54_integer_refuted C54_date_refuted C54_included_plain_refuted", "Missing: false of the code for integers from 2^31 on, dates that do not exist, and clauses that share a bracketed list after distribution (all refuted). The scanner and the grammar are not modelled: the theorems start from the pairs the grammar builds.")
claim("C55", "partial", "C55_dump_and_load_partial C55_stopped_writing C55_damage C55_accepted_header C55_reported C55_failed_load C55_five_bytes_refuted C55_success_refuted C55_growing_refuted C55_lock_request_refuted C55_old_file_refuted", "Missing: proved when no other process touches the database while it is written and nothing is lost at the last flush; false of the code otherwise (refuted). Damage of five and more bytes can go unnoticed (refuted). Attaching the segment (shared memory) is not modelled.")
claim("C56", "partial", "C56_from_given_partial C56_into_given_partial C56_attempts_partial C56_ends_partial C56_long_clause_refuted C56_late_literal_refuted C56_order_refuted C56_bad_key_refuted", "Missing: literals after the 256th and places after the 60000th, for which the full statement is false of the code (refuted); early ends of the search (enough answers, time, memory) are not modelled.")
claim("C57", "partial", "C57_equality C57_equality_decides_partial C57_first_rest C57_strings C57_substrat_partial C57_number_tests C57_only_builtin C57_is_list_refuted C57_is_distinct_refuted C57_substrat_refuted C57_substrat_read_refuted C57_substr_constants_refuted C57_nested_list_refuted C57_integer_real_refuted", "Equality, $first, $rest, $strlen, $substr of distinct symbols and the tests of numbers are as documented for all terms. Missing: $is_list, $is_distinct and $substrat, for which the documented behaviour is false of the code (refuted), and stray header reads.")
claim("C58", "partial", "C58_json_partial C58_json_distinct_partial C58_plain_distinct_partial C58_no_overrun_partial C58_operator_refuted C58_backslash_refuted C58_integer_refuted C58_names_refuted C58_prefix_refuted C58_quotes_refuted C58_cut_refuted C58_double_refuted C58_plain_refuted", "For all clauses with names without backslashes and control characters, 32-bit integers and at most 90 quotes in a name: the JSON form is valid, unambiguous JSON of the clause, different clauses have different JSON and plain texts, whatever is already in the buffer. Missing: operators in JSON, long integers and doubles, names made to look like something else, many quotes, for which the statement is false of the code (refuted); the TPTP form.")
claim("C59", "partial", "C59_formula_partial C59_conjecture_partial C59_question_partial C59_names_apart C59_document_partial C59_capital_refuted C59_dash_refuted C59_words_refuted C59_operator_refuted C59_dropped_refuted C59_empty_string_refuted C59_list_refuted C59_integer_refuted", "For all formulas of the documented forms, nested in any way and of any size: an axiom is read with its meaning, a conjecture as its negation, a question as the rule for its answers, and a list of formulas is satisfiable over a domain just when the formulas are. Missing: negated names with capitals or special characters, operator words used as names, empty strings, integers over 32 bits, for which the statement is false of the code (refuted); JSON objects (@context, @logic, maps), list notation (an error), import of files.")
claim("C60", "partial", "C60_once C60_shown C60_ends_partial C60_proof_partial C60_status_partial C60_all_runs_partial C60_default_partial C60_alone_proof C60_alone_none C60_killed_refuted C60_crash_refuted C60_fork_refuted C60_two_refuted C60_extra_refuted C60_array_refuted C60_answers_refuted", "For all strategies, numbers of workers and schedules: each run is started at most once and by the worker whose turn it is, shown results are results; without crashes the program ends and leaves no worker; with LTBSPECIAL a proof a worker comes to is shown with status 0, status 1 means none was shown, and all runs are done before giving up; without workers the runs are done in order up to the first proof. Missing: in the default mode the other workers are killed when one is done (refuted), crashes, failing forks, array runs (refuted).")
claim("C61", "partial", "C61_one_by_one_partial C61_order C61_counter_partial C61_tries C61_ends C61_wrap_refuted C61_range_refuted", "For any number of processes, programs and interleavings: results and fields are those of doing the returned calls at once in the order they returned, each process's calls return in program order, no addition to a counter is lost, a call gives up only after 1002 changes by others, every call returns. Missing: integers near or beyond 2^31 and sums beyond 29 bits (refuted).")
claim("C62", "partial", "C62_exact C62_refutation C62_no_model C62_steps_partial C62_cuts_refuted C62_within C62_growth_refuted C62_file C62_verdict C62_verdict_partial C62_verdict_refuted C62_alone C62_together_partial C62_shared_refuted", "For all clauses and constants: the numbered clauses are satisfiable exactly when the instances are, a proof found by units or by a right solver means the clauses have no model, each history step is right for clauses of at most 98 literals, the file read back holds the clauses and is well-formed, the verdict line is always found. Missing: more atoms than the first size of the vectors, more than 98 removed literals, other lines with the words of the verdict, several searches at once (all refuted).")
claim("C63", "partial", "C63_fair_partial C63_fair_refuted C63_turn C63_exhausted C63_defined C63_sources C63_lightest C63_once_partial C63_once_refuted C63_ratio_refuted C63_class C63_class_moved C63_class_refuted", "For all histories of keeping and choosing clauses, in all strategies and ratios: a kept clause is chosen within 9 (ratio + 1) (clauses kept before in its class + 1) choices; nothing is left out when the search finds nothing to choose. Partial: choices of partial hyperresolvents must be left out of the count (refuted otherwise); a clause may be chosen twice (refuted otherwise); the stated ratios of the classes are refuted.")
claim("C64", "partial", "C64_defined C64_no_dangling_partial C64_shared_refuted C64_set C64_delete C64_parents_partial C64_parents_refuted C64_string_freed C64_free C64_cells C64_cell_refuted C64_compiled_delete_refuted C64_compiled_child_refuted C64_compiled_half_refuted C64_compiled_string_refuted", "For all histories of creating, setting, deleting and freeing, of the code with the bodies of the setters compiled in: nothing refers to freed memory, deletion is refused exactly when there are references, strings are freed exactly with their last use, list cells do not leak. Partial: boxed values must not be stored twice, parents may refer once only (refuted otherwise). As compiled, all of it is refuted.")
claim("C65", "partial", "C65_nothing_left C65_ends_partial C65_smaller_partial C65_normal_form_partial C65_unordered C65_same_result_refuted", "For all sets of kept unit equations, hash functions and terms. Nothing_left needs no bound. Partial: ending is proved for equations of at most 1000 variables (beyond it the order is not stable, C42), and when the constants that occur or are computed by built-in functions come from some finite list.")
claim("C66", "partial", "C66_same_rewriting C66_same_simplification C66_same_cutting C66_rewriting_partial C66_simplified_follows_partial C66_cut_follows_partial C66_parents_there C66_cutters_there C66_cutters_refuted C66_rewriters_refuted", "For all clauses, stores and interpretations. Partial: proved when fewer than 97 cutters (98 for derived clauses) and 9994 rewriters are recorded, the limits beyond which it is refuted; the memory of the history record is there; the double-literal simplification of already kept clauses (simp.c 383-540) is not modelled.")
claim("C67", "partial", "C67_next_partial C67_first_partial C67_scan_partial C67_data_scan_partial C67_refuted", "For all tame histories (those of C34: an object of exactly the wanted size is never taken from a bucket of mixed sizes, or an object marked as following a free block is never freed), any number of subareas, any activity of the other areas. Refuted beyond these. Records that change while the scan runs are covered only as single calls of next in the changed database.")
claim("C68", "proved", "C68_kept C68_nearest C68_complete C68_weak C68_refuted", "For every value of sine, all lists of clauses with numbers and symbol numbers below ten million (beyond: refuted), no attached knowledge base (the code switches the filter off with one). The comparison of a count with count times tolerance is exact instead of in floats (the same below 2^22).")
claim("C69", "partial", "C69_search_partial C69_found_records_match_partial C69_operations_defined C69_integers_refuted C69_prefixes_refuted C69_after_failure_refuted C69_fill_refuted C69_short_records_refuted C69_shipped_refuted", "For every hash function and table size, every history of create, set, delete and create-index, both with the upkeep of indexes and as shipped (there records must be created before the index). Proved for integers within 32 bits and prefixed literals in the last column only (refuted otherwise); completeness needs all operations to have succeeded (refuted otherwise); records are filled as new records only before there is an index (refuted otherwise). Values are equal when their bits are: doubles 0.0 and -0.0 and records with equal contents have different keys. Not modelled: templates, JSON expansion, T-trees in the same table, failing allocations, dropping.")
claim("C70", "partial", "C70_file_partial C70_object_partial C70_logic_partial C70_conjecture_partial C70_question_partial C70_formula C70_empty_string_refuted C70_empty_array_refuted C70_words_refuted C70_collision_refuted C70_graph_order_refuted C70_graph_object_refuted C70_set_refuted C70_conjecture_refuted", "Proved for objects nested to any depth with arrays, @id/@name references, @type, @list, @value, numbers and strings, alone, in a file, with @logic, as a conjecture and as a question. Missing: @context (not modelled), @graph (modelled; refuted in part), truth values as values, objects inside the arrays of a formula, objects that say nothing; in a conjecture, triples with variables (refuted).")
claim("C71", "partial", "C71_lookup_partial C71_additions C71_repeated_refuted C71_order_refuted C71_eight_refuted", "For every hash function and every sequence of additions. Keys added once give their value; additions fail exactly when eight pairs agree in 22 bits. For keys added again the last value is not given (refuted). Memory is assumed not to run out.")
claim("C72", "partial", "C72_pages C72_intersection C72_unique C72_query_partial", "For every hash function, all sets of results and all lists of arguments. Missing: that the searches of an argument give just the documents that meet it (hypothesis of C72_query_partial; the walk from rows to documents is not modelled). Memory is assumed not to run out.")
claim("C73", "partial", "C73_varint C73_crash_partial C73_journal_partial C73_integers_refuted C73_uri_refuted", "For all sequences of operations with any values in 64 bits and every cut of the file. Missing: integers that do not fit 61 bits and URIs, for which it is false; the application of the entries to the database.")
claim("C74", "partial", "C74_replay_partial C74_crash_partial C74_reuse_refuted C74_failed_refuted", "For every hash function, starting database, sequence of operations and every sequence of offsets the allocator may give. Missing: journals in which an offset is given again or a creation failed, for which it is false; stored data is never freed in the model.")
claim("C75", "partial", "C75_journal_partial C75_backups_partial C75_import_refuted", "For all interleavings of starts, stops, dumps, replays and entries logged by any number of processes. Missing: the import of a dump, for which it is false. Opening, writing and renaming files are assumed to succeed; operations do not overlap (write lock).")
claim("C76", "partial", "C76_find C76_delete_partial C76_delete_linked_partial C76_links_stay C76_failed_delete_refuted C76_deep_refuted C76_cycle_refuted", "Finding: for all databases, with cycles and shared records. Deleting: for documents of at most seven levels whose records nothing else refers to. For every database and however a delete ends, the backlinks stay correct and records only disappear or lose references. Missing: that other documents are deleted or left alone, for which it is false. Indexes and the journal are not part of this model (C69, C74).")
claim("C77", "partial", "C77_csv_partial C77_buffer C77_strings C77_types_refuted C77_characters_refuted C77_long_refuted", "For all records with texts that fit the buffer: records, fields and texts come back; strings that begin with neither a digit nor a minus sign are strings again. Missing: types in general, long strings, separator characters, for which it is false; the printing of numbers and dates (given as texts).")
