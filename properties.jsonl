{"id": "C01", "title": "Unification is sound", "statement": "Whenever unification of two terms reports success, the variable bindings it leaves behind, applied exhaustively, turn both terms into the very same term.", "quantifier": "all pairs of terms, of any size and depth, from clauses with disjoint or shared variables, starting from any acyclic set of earlier bindings", "why_tests_cant": "terms are unboundedly deep and bindings are shared through chains of variables; a sample of pairs cannot cover every chain shape", "anchors": ["Reasoner/unify.c:wr_unify_term", "Reasoner/unify.c:wr_unify_term_aux", "Reasoner/unify.h:SETVAR"]}
{"id": "C02", "title": "Unification is complete and most general", "statement": "If two terms have any common instance compatible with the bindings already made, unification reports success, and every such common instance is an instance of the bindings it computes; if it reports failure no common instance exists.", "quantifier": "all pairs of terms and all substitutions", "why_tests_cant": "quantifies over all substitutions, an infinite set for each pair", "anchors": ["Reasoner/unify.c:wr_unify_term_aux"]}
{"id": "C03", "title": "Unification terminates and never builds a cyclic binding", "statement": "Unification terminates on every pair of terms and, starting from acyclic bindings, leaves acyclic bindings (no variable ever becomes bound to a term that contains it, however indirectly).", "quantifier": "all pairs of terms and all acyclic starting bindings", "why_tests_cant": "a non-terminating or cyclic case may need an arbitrarily long chain of bindings", "anchors": ["Reasoner/unify.c:wr_unify_term_aux", "Reasoner/unify.c:wr_occurs_in", "Reasoner/unify.c:wr_varval"]}
{"id": "C04", "title": "Clearing the variable trail undoes everything", "statement": "After any sequence of unification and matching attempts, successful or failed half way, clearing the trail leaves every variable unassigned again; clearing only the top slice restores exactly the bindings present when the slice began.", "quantifier": "all sequences of unify/match/clear operations", "why_tests_cant": "the undo must be right for every prefix at which an attempt can fail", "anchors": ["Reasoner/unify.c:wr_clear_varstack", "Reasoner/unify.c:wr_clear_varstack_topslice", "Reasoner/unify.c:wr_unify_term", "Reasoner/unify.c:wr_match_term"]}
{"id": "C05", "title": "One-sided matching decides instance-of", "statement": "Matching a general term against a specific one reports success exactly when some substitution of the general term's variables produces the specific term, with the bindings giving that substitution; bindings made earlier in the same attempt are respected.", "quantifier": "all term pairs and all substitutions", "why_tests_cant": "quantifies over all substitutions and all term sizes", "anchors": ["Reasoner/unify.c:wr_match_term", "Reasoner/unify.c:wr_match_term_aux"]}
{"id": "C06", "title": "Term equality is exact", "statement": "The reasoner's term equality check, in function and in macro form, answers yes exactly for structurally identical terms when strings are interned.", "quantifier": "all pairs of terms", "why_tests_cant": "deep equality over all shapes, including pairs differing only in the last leaf", "anchors": ["Reasoner/unify.c:wr_equal_term", "Reasoner/unify.c:wr_equal_term_macroaux", "Reasoner/unify.h:WR_EQUAL_TERM"]}
{"id": "C07", "title": "Long-string comparison without interning", "statement": "With the 'strings are not interned' flag, two constants are reported equal exactly when their text, language and type agree.", "quantifier": "all pairs of long strings", "why_tests_cant": "the failing cases need a particular length relation between the two strings", "anchors": ["Reasoner/unify.c:wr_equal_ptr_primitives"]}
{"id": "C08", "title": "The literal fingerprint filter never hides a real match", "statement": "Whenever one literal really is a generalisation of another, the cheap comparison of their precomputed fingerprints (polarity, groundness, size, depth, prefix) lets the pair through.", "quantifier": "all literals whose fingerprints were computed by the prover and all substitutions", "why_tests_cant": "false rejections silently lose proofs and need specific size/depth combinations", "anchors": ["Reasoner/subsume.c:wr_matchable_lit_meta", "Reasoner/clmeta.c:wr_litmeta_to_gint", "Reasoner/clmeta.c:wr_calc_term_meta"]}
{"id": "C09", "title": "Clause literals are sorted without loss", "statement": "Sorting a clause's literals before subsumption permutes (meta, atom) pairs together, loses and invents nothing, and leaves them in the order the subsumption early exit relies on.", "quantifier": "all clauses of any length", "why_tests_cant": "all permutations of all clause lengths", "anchors": ["Reasoner/clmeta.c:wr_sort_cl", "Reasoner/clmeta.c:wr_inssort_cl", "Reasoner/clmeta.c:wr_sort_meta_bigger"]}
{"id": "C10", "title": "Subsumption test is exact", "statement": "The subsumption test says yes exactly when some substitution maps the literals of the general clause injectively into the literals of the special clause with equal polarity; whatever it answers it leaves the variable trail clear.", "quantifier": "all pairs of clauses with correct fingerprints and all substitutions", "why_tests_cant": "exponentially many literal mappings and infinitely many substitutions; backtracking shortcuts are wrong only on rare shapes", "anchors": ["Reasoner/subsume.c:wr_subsume_cl", "Reasoner/subsume.c:wr_subsume_cl_aux"]}
{"id": "C11", "title": "The clause fingerprint filter never hides a real subsumer", "statement": "If a clause really subsumes another, the cheap comparison of the two clauses' fingerprint blocks lets the pair through.", "quantifier": "all pairs of clauses", "why_tests_cant": "needs a clause pair with a particular groundness or size relation", "anchors": ["Reasoner/subsume.c:wr_clmetablock_can_subsume", "Reasoner/clmeta.c:wr_calc_clause_meta"]}
{"id": "C12", "title": "Binary resolution is sound", "statement": "Every clause produced by resolving two clauses on unified complementary literals is true in every model of the two parents.", "quantifier": "all clause pairs, all literal choices, all models", "why_tests_cant": "quantifies over all first-order models", "anchors": ["Reasoner/resolve.c:wr_resolve_binary_all_active", "Reasoner/derive.c:wr_process_resolve_result", "Reasoner/derive.c:wr_process_resolve_result_aux"]}
{"id": "C13", "title": "Factoring is sound", "statement": "Every clause produced by merging two unified literals of one clause is true in every model of the parent.", "quantifier": "all clauses, literal pairs and models", "why_tests_cant": "quantifies over all first-order models", "anchors": ["Reasoner/resolve.c:wr_factor", "Reasoner/derive.c:wr_process_factor_result"]}
{"id": "C14", "title": "Paramodulation is sound", "statement": "Every clause produced by replacing a subterm using an equality literal is true in every model (with equality) of the two parents.", "quantifier": "all clause pairs, all subterm positions, all models with equality", "why_tests_cant": "quantifies over all models and all replacement positions", "anchors": ["Reasoner/derive.c:wr_process_paramodulate_result", "Reasoner/build.c:wr_build_calc_term_replace"]}
{"id": "C15", "title": "Reflexivity resolution is sound", "statement": "Removing a negative equality whose sides have been unified gives a clause true in every model (with equality) of the parent.", "quantifier": "all clauses and models with equality", "why_tests_cant": "quantifies over all models", "anchors": ["Reasoner/resolve.c:wr_resolve_equality_reflexive"]}
{"id": "C16", "title": "Unit cut-off and double cut-off are sound", "statement": "A literal removed from a derived clause because a known unit or two-literal clause contradicts it leaves a clause that is true in every model of the derived clause and the clauses used for cutting.", "quantifier": "all derived clauses, all stores of unit and double clauses, all models", "why_tests_cant": "depends on arbitrary history of stored clauses", "anchors": ["Reasoner/subsume.c:wr_derived_cl_cut_and_subsume", "Reasoner/subsume.c:wr_derived_cl_strong_cut", "Reasoner/subsume.c:wr_atom_doublecut_aux", "Reasoner/derive.c:wr_process_resolve_result_remove_cuts"]}
{"id": "C17", "title": "Tautology and duplicate-literal handling is meaning-preserving", "statement": "A clause dropped as a tautology is true in every model, and merging repeated literals or dropping literals that evaluate to false while building a clause keeps its meaning in every model.", "quantifier": "all literal lists and all models", "why_tests_cant": "quantifies over all models and literal orders", "anchors": ["Reasoner/derive.c:wr_process_resolve_result_aux", "Reasoner/derive.c:wr_tautology_cl"]}
{"id": "C18", "title": "Strong duplicate removal keeps the clause equivalent", "statement": "Removing a literal whose private variables can be matched onto another literal of the same clause gives a clause with exactly the same models.", "quantifier": "all clauses and all models", "why_tests_cant": "chains of removals among up to 40 literals cannot be enumerated", "anchors": ["Reasoner/derive.c:wr_find_strong_duplicates", "Reasoner/derive.c:wr_mark_repeated_vars", "Reasoner/unify.c:wr_nomatch_term_uniquevars"]}
{"id": "C19", "title": "A reported proof is a real refutation", "statement": "If the search reports a proof (empty clause derived), the input clauses together have no model (with equality).", "quantifier": "all input clause sets, all strategies (any choice of inferences), all run lengths", "why_tests_cant": "all runs and all models", "anchors": ["Reasoner/rgenloop.c:wr_genloop", "Reasoner/derive.c:wr_process_resolve_result", "Reasoner/derive.c:wr_process_factor_result", "Reasoner/derive.c:wr_process_paramodulate_result"]}
{"id": "C20", "title": "Derived clauses are renamed apart faithfully", "statement": "Building a derived clause applies the current bindings and renames its variables injectively: the stored clause is a variant of the instantiated one, and the renaming table is clear again afterwards.", "quantifier": "all terms, bindings and variable counts within the documented limit", "why_tests_cant": "depends on every order in which variables are first seen", "anchors": ["Reasoner/build.c:wr_build_calc_term", "Reasoner/derive.c:wr_process_resolve_result_cleanupsubst"]}
{"id": "C21", "title": "Integer arithmetic in terms is exact or left alone", "statement": "Evaluating an arithmetic term on integer constants yields the mathematically correct result, and never a wrapped-around one: on overflow or undefined cases the term is left unevaluated.", "quantifier": "all 64-bit operands and all operators", "why_tests_cant": "2^128 operand pairs", "anchors": ["Reasoner/build.c:wr_compute_from_termptr", "Reasoner/build.c:wr_compute_fun_arith2", "Reasoner/build.c:wr_compute_fun_arith1"]}
{"id": "C22", "title": "Negation normal form keeps the meaning", "statement": "Pushing negations inward and removing implications and equivalences yields a formula true in exactly the same models under the same variable assignment.", "quantifier": "all formulas and all models", "why_tests_cant": "all formula shapes and all models", "anchors": ["Parser/dbclausify.c:wr_clausify_negpush"]}
{"id": "C23", "title": "Quantifier miniscoping keeps the meaning", "statement": "Moving quantifiers inward yields a formula true in exactly the same models.", "quantifier": "all negation-normal formulas and all (non-empty) models", "why_tests_cant": "variable capture errors need particular binder layouts", "anchors": ["Parser/dbclausify.c:wr_clausify_miniscope", "Parser/dbclausify.c:wr_miniscope_freeoccs"]}
{"id": "C24", "title": "Skolemization preserves satisfiability", "statement": "Replacing existential variables by fresh functions of the enclosing universal variables yields a formula that implies the original and has a model whenever the original has one.", "quantifier": "all formulas and all models", "why_tests_cant": "model construction over all interpretations", "anchors": ["Parser/dbclausify.c:wr_clausify_skolemize", "Parser/dbclausify.c:wr_clausify_append_vars", "Parser/dbclausify.c:wr_clausify_replace_vars"]}
{"id": "C25", "title": "Distribution to clauses with definitions preserves satisfiability", "statement": "Turning a quantifier-free formula into a conjunction of clauses, with or without introduced definition predicates, yields something that implies the original and is satisfiable in every model of the original extended by the new predicates.", "quantifier": "all formulas, both strategies, all models", "why_tests_cant": "definitions nest to unbounded depth", "anchors": ["Parser/dbclausify.c:wr_clausify_distribute", "Parser/dbclausify.c:wr_clausify_makedef", "Parser/dbclausify.c:wr_flatten_logclause"]}
{"id": "C26", "title": "Clausification end to end", "statement": "The clause set produced for a formula is satisfiable if and only if the formula is.", "quantifier": "all closed formulas the converter accepts", "why_tests_cant": "all formulas and all models", "anchors": ["Parser/dbclausify.c:wr_clausify_formula"]}
{"id": "C27", "title": "The ground-unit store finds exactly what was stored", "statement": "After any sequence of insertions, looking a literal up in the hash store of unit literals finds an entry exactly when a literal equal to it was inserted.", "quantifier": "all insertion sequences and all hash collisions", "why_tests_cant": "collision patterns are unbounded", "anchors": ["Reasoner/hash.c:wr_push_termhash", "Reasoner/hash.c:wr_find_termhash", "Reasoner/hash.c:wr_lit_hash"]}
{"id": "C28", "title": "Clause picking queues lose nothing and pick the lightest", "statement": "Every clause pushed on a weight-ordered queue is picked exactly once, and each pick returns a clause of minimal weight, oldest first among equals.", "quantifier": "all interleavings of pushes and picks", "why_tests_cant": "unbounded histories of pushes and picks", "anchors": ["Reasoner/clstore.c:wr_push_priorqueue", "Reasoner/clstore.c:wr_pick_priorqueue"]}
{"id": "C29", "title": "Integer values round-trip through the encoding", "statement": "Encoding any 64-bit integer and decoding the result yields the same integer, whether it is stored immediately or boxed.", "quantifier": "all 2^64 integers", "why_tests_cant": "2^64 inputs", "anchors": ["Db/dbdata.c:wg_encode_int", "Db/dbdata.c:wg_decode_int", "Db/dbdata.h"]}
{"id": "C30", "title": "Value encodings never collide across types", "statement": "The type reported for an encoded value is the type it was encoded as, for every kind of immediate and boxed value, and two immediate values of any types have equal encodings only if they are the same value of the same type.", "quantifier": "all encodable values of all types", "why_tests_cant": "2^64 words and all pairs of types", "anchors": ["Db/dbdata.h", "Db/dbdata.c:wg_get_encoded_type"]}
{"id": "C31", "title": "Calendar dates round-trip", "statement": "Converting year/month/day to the day number and back is the identity on all valid dates, is strictly monotone, and every day number in range maps to a valid date.", "quantifier": "all dates of the supported range", "why_tests_cant": "millions of dates, leap rules at centuries", "anchors": ["Db/dbdata.c:wg_ymd_to_date", "Db/dbdata.c:wg_date_to_ymd"]}
{"id": "C32", "title": "Clock times round-trip", "statement": "Converting hour/minute/second/hundredth to the time value and back is the identity on all valid times and is strictly monotone.", "quantifier": "all times", "why_tests_cant": "8.64 million times", "anchors": ["Db/dbdata.c:wg_hms_to_time", "Db/dbdata.c:wg_time_to_hms"]}
{"id": "C33", "title": "Fixed-length allocation never hands out a live cell", "statement": "Allocating and freeing list cells, words and other fixed-length objects never returns a cell that is still in use, and every freed cell becomes available again.", "quantifier": "all sequences of allocations and frees, across area growth", "why_tests_cant": "unbounded histories", "anchors": ["Db/dballoc.c:wg_alloc_fixlen_object", "Db/dballoc.c:wg_free_fixlen_object", "Db/dballoc.c:make_subarea_freelist"]}
{"id": "C34", "title": "Variable-length allocation keeps blocks disjoint", "statement": "Allocating and freeing variable-length objects keeps all live objects disjoint, inside the area, and at least as long as requested, and coalescing never merges a live object.", "quantifier": "all sequences of allocations and frees", "why_tests_cant": "unbounded histories and fragmentation patterns", "anchors": ["Db/dballoc.c:wg_alloc_gints", "Db/dballoc.c:wg_free_object", "Db/dballoc.c:split_free"]}
{"id": "C35", "title": "Reader/writer lock gives mutual exclusion", "statement": "At no point of any interleaving do a writer and another writer, or a writer and a reader, hold the lock together, and a granted lock stays granted until released.", "quantifier": "all numbers of processes and all interleavings of their atomic steps", "why_tests_cant": "unboundedly many schedules", "anchors": ["Db/dblock.c:wg_db_wlock", "Db/dblock.c:wg_db_rlock", "Db/dblock.c:wg_db_wulock", "Db/dblock.c:wg_db_rulock"]}
{"id": "C36", "title": "The T-tree index mirrors the table", "statement": "After any sequence of insertions and deletions an index search finds a row exactly when a row with that key is present, the in-order key sequence is sorted, and node balance is kept.", "quantifier": "all insertion/deletion sequences and all keys", "why_tests_cant": "rotations occur in unboundedly many configurations", "anchors": ["Db/dbindex.c:ttree_add_row", "Db/dbindex.c:ttree_remove_row", "Db/dbindex.c:ttree_find_bounding_node"]}
{"id": "C37", "title": "Value comparison is a total preorder", "statement": "Comparing any two encoded values gives a result that is reflexive, antisymmetric up to equality of contents and transitive, so that sorted indexes over mixed types make sense.", "quantifier": "all triples of values", "why_tests_cant": "all triples", "anchors": ["Db/dbcompare.c:wg_compare"]}
{"id": "C38", "title": "Growable vectors keep their contents", "statement": "Storing into or pushing onto a growable vector keeps all elements stored before, at their positions, whatever growth happens, and the stored element is readable at its index.", "quantifier": "all sequences of stores and pushes", "why_tests_cant": "unbounded histories", "anchors": ["Reasoner/mem.c:wr_vec_store", "Reasoner/mem.c:wr_cvec_store", "Reasoner/mem.c:wr_cvec_push", "Reasoner/mem.c:wr_alloc_from_cvec"]}
{"id": "C39", "title": "Subterm path codes round-trip", "statement": "The packed (literal, position) path used to record where a replacement happened decodes to the pair it was made from.", "quantifier": "all literal numbers and positions in range", "why_tests_cant": "large product domain", "anchors": ["Reasoner/clstore.c:wr_encode_para_termpath", "Reasoner/clstore.c:wr_decode_para_termpath_litnr"]}
{"id": "C40", "title": "Proof step codes round-trip", "statement": "The packed record of a proof step (rule tag, literal positions) decodes to the tag and positions it was made from.", "quantifier": "all tags and positions in range", "why_tests_cant": "large product domain", "anchors": ["Reasoner/history.c:wr_encode_history_resolve", "Reasoner/history.c:wr_get_history_tag"]}
{"id": "C41", "title": "Rewriting replaces equals by equals", "statement": "Simplifying a term with oriented unit equations gives a term with the same value in every model of the equations used.", "quantifier": "all terms, all equation stores and all models", "why_tests_cant": "all models and unbounded rewrite chains", "anchors": ["Reasoner/rewrite.c:wr_rewrite_term"]}
{"id": "C42", "title": "The equation ordering is a strict, substitution-stable order", "statement": "If the ordering calls one side of an equation larger, it never calls the other side larger as well, never calls a term larger than itself, and the verdict is unchanged under every substitution.", "quantifier": "all pairs of terms and all substitutions", "why_tests_cant": "all substitutions", "anchors": ["Reasoner/strat.c:wr_order_eqterms", "Reasoner/strat.c:wr_order_eqterms_lex_order"]}
{"id": "C43", "title": "Memory pool allocations are disjoint", "statement": "Objects allocated from the parser's memory pool never overlap and stay inside the pool across pool growth.", "quantifier": "all allocation sequences", "why_tests_cant": "unbounded histories", "anchors": ["Db/dbmpool.c:wg_alloc_mpool"]}
{"id": "C44", "title": "Simplification replaces a clause by an equivalent one", "statement": "When a selected clause is simplified with the known unit clauses, two-literal clauses, built-in evaluation and rewriting, the clause kept is equivalent to the old one, a clause dropped is true, and a proof is reported only if the clause is false, in every model of the clauses used.", "quantifier": "all clauses, all stores of unit and two-literal clauses, all truth-keeping evaluations, all models", "why_tests_cant": "arbitrary stores and all models", "anchors": ["Reasoner/simp.c:wr_simplify_cl", "Reasoner/simp.c:wr_simplify_doublecut_cl"]}
{"id": "C45", "title": "Every unifiable stored literal is a resolution candidate", "statement": "Whenever the search for resolution partners of a literal completes, every literal stored in the index of active literals that unifies with it is among the candidates tried, and every candidate is a stored literal.", "quantifier": "all sequences of stored literals, all literals looked up, all hash values of strings and doubles", "why_tests_cant": "a wrong key loses proofs only for particular term shapes and hash values", "anchors": ["Reasoner/clstore.c:wr_cl_store_res_terms", "Reasoner/resolve.c:wr_resolve_binary_all_active", "Reasoner/hash.c:wr_atom_calc_prefhashes", "Reasoner/hash.c:wr_clterm_add_hashlist"]}
{"id": "C46", "title": "Literal selection never disables a clause", "statement": "For every strategy, every clause with an ordinary literal (neither an answer nor a comparison of numbers) keeps at least one ordinary literal that resolution may use. Under the ordering strategy the literals kept are exactly those with no bigger literal in the clause, where bigger is a strict order that is kept by every instance of the clause. In a clause with other literals no answer literal may be resolved upon.", "quantifier": "all clauses, all combinations of strategy flags, all hardness values, all placements of constants in memory", "why_tests_cant": "a clause that lost all its literals only shows as a proof that is not found, and whether it happens depends on the addresses of the constants", "anchors": ["Reasoner/strat.c:wr_calc_clause_resolvability", "Reasoner/strat.c:wr_calc_clause_knuthbendix_resolvability", "Reasoner/strat.c:wr_order_atoms_lex_order", "Reasoner/strat.c:wr_order_atoms_const_lex_smaller"]}
{"id": "C47", "title": "Queries return exactly the matching records, whatever indexes exist", "statement": "A query made with a list of conditions and a match record returns, one after the other, exactly the records that meet all conditions and agree with the match record, each exactly once, and then reports the end; a limit cuts this list off. Which indexes exist, also indexes with templates, when they were created, and how records were created, changed and deleted makes no difference.", "quantifier": "all histories of creating, filling, changing and deleting records and of creating and dropping indexes, all conditions, match records and limits, all total orders of field values", "why_tests_cant": "the index chosen, the shape of its tree and the place of the bounds in it depend on the whole history; errors show only for particular node boundaries, equal keys and templates", "anchors": ["Db/dbquery.c:wg_make_query", "Db/dbquery.c:wg_make_query_rc", "Db/dbquery.c:wg_fetch", "Db/dbquery.c:internal_build_query", "Db/dbquery.c:find_ttree_bounds", "Db/dbquery.c:most_restricting_column", "Db/dbindex.c:wg_index_add_rec", "Db/dbindex.c:wg_index_del_rec", "Db/dbindex.c:wg_index_add_field", "Db/dbindex.c:wg_create_multi_index", "Db/dbdata.c:wg_set_field"]}
{"id": "C48", "title": "Reported answers are correct and listed once", "statement": "If the reasoner reports an answer to a question, then in every model of the axioms one of the parts of the answer, with any values for variables left in it, is an instance of the question's variables for which the question holds. Each answer is listed once however often it is derived, the number of answers is the number listed, and the search stops when as many as asked for are listed.", "quantifier": "all inputs, all runs of the search whatever its choices, all models of the axioms, all values of variables, all sequences of registrations", "why_tests_cant": "correctness speaks about all models and all derivations; duplicates and the moving of the answer list depend on the sequence of derivations", "anchors": ["Reasoner/build.c:wr_answer_lit", "Reasoner/derive.c:wr_cl_derived_is_answer", "Reasoner/history.c:wr_register_answer", "Reasoner/history.c:wr_same_answers", "Reasoner/history.c:wr_enough_answers", "Reasoner/history.c:wr_have_answers"]}
{"id": "C49", "title": "Encoded strings read back unchanged and long ones are stored under one word", "statement": "A word returned for a string, URI, XML literal or blob, with its language, type or prefix, reads back as exactly that value (type, bytes, length, extra string) as long as it is not freed, whatever is encoded or freed meanwhile. Two words are equal only if the values are; equal values other than strings of less than 32 chars without language get the same word. Encoding reads only what is there and fails only when there is no space; a word in use can be freed.", "quantifier": "all values, all histories of encoding and freeing, all allocators returning free places, any table size, with or without an attached knowledge base", "why_tests_cant": "collisions of buckets, chain order and sharing of prefixes depend on the whole history and the hash function", "anchors": ["Db/dbdata.c:wg_encode_unistr", "Db/dbdata.c:find_create_longstr", "Db/dbdata.c:wg_decode_unistr_copy", "Db/dbdata.c:wg_decode_unistr_lang", "Db/dbdata.c:free_field_encoffset", "Db/dbdata.c:wg_free_encoded", "Db/dbhash.c:wg_hash_typedstr", "Db/dbhash.c:wg_find_strhash_bucket", "Db/dbhash.c:wg_remove_from_strhash"]}
{"id": "C50", "title": "A printed proof is complete, ordered and cites the actual steps", "statement": "The proof printed for a contradiction or an answer ends; it lists exactly the clauses the final step rests on, each once, numbered 1, 2, ... in order; every line names the rule that was used and cites, by numbers of earlier lines, exactly the clauses the step was made from, with the literal positions and substitutions of the step; the last line is the final step.", "quantifier": "all derivations of any length made by any sequence of inference steps, any clause of them, all printing styles", "why_tests_cant": "sharing and depth of a derivation are unbounded, positions are packed into a few bits, and words past a record depend on the allocator", "anchors": ["Reasoner/history.c:wr_flatten_history", "Reasoner/history.c:wr_flatten_history_addcl", "Reasoner/history.c:wr_strprint_flat_history", "Reasoner/history.c:wr_strprint_one_history", "Reasoner/history.c:wr_build_resolve_history", "Reasoner/history.c:wr_build_para_history", "Reasoner/history.c:wr_get_history_pos1", "Reasoner/derive.c:wr_process_paramodulate_result"]}
{"id": "C51", "title": "The role printed with a clause tells whether goals or assumptions are behind it", "statement": "A derived clause in a printed proof is labelled fromgoal, fromassumption, fromgoalassumption or fromaxiom according to whether a goal, an assumption, both or none of the inputs it was derived from.", "quantifier": "all derivations, all clauses in them", "why_tests_cant": "provenance is a property of the whole ancestry, of any depth, through all rules", "anchors": ["Reasoner/history.c:wr_calc_history_priority2", "Reasoner/history.c:wr_get_history_priority", "Reasoner/history.c:wr_strprint_one_history"]}
{"id": "C52", "title": "Instances added to the search follow from the clause they were made from", "statement": "A clause added by putting numbers for variables of a clause (arithmetic instantiation) or by instantiating one of two clashing clauses with their unifier (instance generation) is true in every model of that clause; the numeric instance says exactly what the clause says with the numbers put in.", "quantifier": "all clauses, all choices of one or two variables and numbers, all pairs of clashing literals, all built-in computations agreeing with the interpretation", "why_tests_cant": "the terms are of any depth and the building step renames, computes and merges on the way, with bindings left over from an earlier step", "anchors": ["Reasoner/arithinst.c:wr_arith_probe", "Reasoner/derive.c:wr_process_instgen_result", "Reasoner/derive.c:wr_process_instgen_result_aux", "Reasoner/resolve.c:wr_resolve_binary_all_active"]}
{"id": "C53", "title": "Numeric instantiation stays within its limits, never repeats itself and misses nothing within them", "statement": "Whatever the strategy sets, the limits in force are in their documented ranges. In a run at most the global number of numeric probes is made; per chosen clause at most the probe limit is tried and the keep limit kept, no probe is made twice, every probe puts listed candidate numbers for the one or two variables of an arithmetic term of the clause which ordinary resolution cannot bind, and numeric instances are not nested deeper than allowed. If no limit is reached, every combination of candidates for every such term has been tried. Candidates are distinct and ordered; bounds of comparisons, their neighbours and solutions of simple equations of the clause are among them.", "quantifier": "all settings, all sequences of chosen clauses with any terms, all hash functions, all outcomes of the probes, all earlier runs in the process", "why_tests_cant": "the limits interact with the state of the cache and counters after arbitrary histories, and missing a combination only shows as a proof not found", "anchors": ["Reasoner/arithinst.c:wr_arithinst_configure", "Reasoner/arithinst.c:wr_generate_arith_instances", "Reasoner/arithinst.c:wr_arith_cache_seen", "Reasoner/arithinst.c:wr_arith_scan_term", "Reasoner/arithinst.c:wr_arith_complete_candidates"]}
{"id": "C54", "title": "Clauses are stored as they are written", "statement": "Reading a list of clauses stores them all, in order, each as it is written: the same literals with the same signs, the same symbols, arguments in the same order and nesting, bracketed lists element by element, and two variables of a clause equal exactly if their names are. A clause with more variables than can be told apart is refused. Constants written differently (names, quoted names, integers, dates, times) are stored as different values. Goals, assumptions and imported axioms are those declared so.", "quantifier": "all clauses of any size, all layouts of the parser's pool, all settings for what counts as a variable", "why_tests_cant": "reading updates the shared pool in place, so a clause may depend on everything read before; a confusion of two constants or variables shows only for particular inputs, and then as a wrong proof", "anchors": ["Parser/dbparse.c:wr_parse_clauselist", "Parser/dbparse.c:wr_parse_clause", "Parser/dbparse.c:wr_parse_atom", "Parser/dbparse.c:wr_parse_term", "Parser/dbparse.c:wr_parse_primitive", "Parser/dbparse.c:wg_inplace_reverselist"]}
{"id": "C55", "title": "A database written to a file is the same when loaded", "statement": "If writing a database to a file reports success, checking the file accepts it, and loading it into any segment with enough room gives the same bytes in use, with all locks free, and leaves the rest of the segment alone. If writing stops at any point, the file left is refused unless it is complete. A file cut short, extended, or changed in its checksum or in up to four neighbouring bytes is refused. A load that fails without reading leaves the segment unchanged.", "quantifier": "all databases of any size and content, all points at which writing stops, all segments to load into, all damages of the kinds named", "why_tests_cant": "detection must hold for every place and value of the damage and every crash point; the round trip for every content and size", "anchors": ["Db/dbdump.c:wg_dump", "Db/dbdump.c:wg_dump_internal", "Db/dbdump.c:wg_check_dump", "Db/dbdump.c:wg_import_dump", "Db/crc1.h:update_crc32", "Db/dblock.c:wg_init_locks"]}
{"id": "C56", "title": "Every paramodulation partner is found, and every inference tried is a genuine one", "statement": "When a clause is given, every equation side of it that may be used is tried on every place in the stored clauses, in its own copy and in the shared knowledge base where the two terms unify, and every stored equation side on every such place in the given clause, unless the strategy excludes the pair or the instance of the equation is ordered the other way. Every inference tried is one of an equation and a non-variable place that unify, in selected literals, with the right other side. The step ends without reading outside records.", "quantifier": "all histories of entered clauses, all terms, all options of the strategy, with and without a shared knowledge base", "why_tests_cant": "completeness of an index must hold for all pairs of terms and all histories; a missed partner shows only as a proof not found", "anchors": ["Reasoner/clstore.c:wr_cl_store_para_terms", "Reasoner/clstore.c:wr_cl_store_para_subterms", "Reasoner/clstore.c:wr_cl_store_eq_arg", "Reasoner/resolve.c:wr_paramodulate_from_all_active", "Reasoner/resolve.c:wr_paramodulate_into_all_active", "Reasoner/resolve.c:wr_paramodulate_into_subterms_all_active"]}
{"id": "C57", "title": "Built-in equality, lists and strings do what the documentation says", "statement": "An equation is evaluated to true only if both sides are equal and to false only if they are different in every interpretation in which different numbers, distinct symbols and lists are different; on such values it is always decided. $first and $rest of a list give its first element and its rest and are left on anything else. $strlen, $substr and $substrat of distinct symbols give the length and tell whether one is in the other (at a position). The tests of types are right for all typed values. No other function is evaluated.", "quantifier": "all terms, all interpretations of the other symbols, all strings, all symbol tables", "why_tests_cant": "ranges over all terms, nested lists and strings; a wrong answer makes proofs unsound only for particular inputs", "anchors": ["Reasoner/build.c:wr_computable_termptr", "Reasoner/build.c:wr_compute_from_termptr", "Reasoner/build.c:wr_compute_fun_equal_terms", "Reasoner/build.c:wr_compute_fun_str", "Reasoner/build.c:wr_compute_fun_list", "Reasoner/build.c:wr_compute_fun_arith1"]}
{"id": "C58", "title": "A printed clause is valid and gives the clause", "statement": "Each clause of a proof is printed, in JSON form, as a valid JSON text (RFC 8259) of the list of its literals with their signs, predicates and arguments. Different clauses are printed as different texts, in JSON form and in plain form. What is printed does not depend on what was printed before, and nothing is written outside the buffer.", "quantifier": "all clauses, all names, numbers and variables, all states of the output buffer", "why_tests_cant": "ranges over all names with any bytes and over all positions in the output buffer at which a text can be cut", "anchors": ["Printer/dbotterprint.c:wr_strprint_clause", "Printer/dbotterprint.c:wr_strprint_term_otter", "Printer/dbotterprint.c:wr_strprint_simpleterm_otter", "Printer/dbotterprint.c:wg_print_dquoted", "Printer/dbotterprint.c:wg_nice_strprint_var", "Reasoner/mem.c:wr_str_guarantee_space"]}
{"id": "C59", "title": "A JSON formula means what it says", "statement": "A formula given in JSON in any nesting of the documented forms is taken as an axiom that is true in exactly the interpretations in which the formula, with its free variables universally quantified, is true; as a conjecture it is negated; as a question its true instances are answers. Different names stay different. A list of formulas is satisfiable just when the formulas are.", "quantifier": "all formulas of the documented forms, of any size and nesting, all names and integers, all interpretations over all non-empty domains", "why_tests_cant": "ranges over all nestings of thirteen forms, which are told apart by looking for operator names at any place, and over all interpretations", "anchors": ["Parser/jsparse.c:wr_process_json_formula", "Parser/jsparse.c:wr_process_json_formula_aux", "Parser/jsparse.c:wr_process_json_term", "Parser/jsparse.c:wr_json_unflatten_logic", "Parser/jsparse.c:wr_json_process_if_then", "Parser/dbparse.c:wr_parse_primitive", "Doc/json_ld_logic.md"]}
{"id": "C60", "title": "Parallel runs: each run once, the program ends, a proof is the result", "statement": "With any number of worker processes, every run of the strategy is done at most once, by one worker; the program ends however the processes are scheduled; if some worker comes to a proof, a proof is shown; if no run has a proof, all runs are done before the program says so; the exit status agrees with what was shown.", "quantifier": "all strategies, all numbers of workers, all schedules of the worker processes and the parent, all outcomes of the runs including errors and signals, all fork failures", "why_tests_cant": "ranges over all interleavings of the processes and all outcomes of the runs; the order in which workers end is up to the operating system", "anchors": ["Reasoner/rmain.c:wg_run_reasoner", "Reasoner/guide.c:wr_parse_guide_section", "Main/gkc.c:main"]}
{"id": "C61", "title": "Atomic field operations act as if done one at a time", "statement": "When several processes read, set, compare-and-set and add to fields at the same time without a write lock, every call behaves as if done at once at one moment between its start and its return; no addition is lost; a call that gives up after many tries did so because others changed the field as often; every call returns.", "quantifier": "all numbers of processes, all sequences of calls of each, all interleavings of their memory accesses, all contents of the fields", "why_tests_cant": "the result depends on the interleaving of single memory accesses of the processes, of which there are unboundedly many", "anchors": ["Db/dbdata.c:wg_update_atomic_field", "Db/dbdata.c:wg_set_atomic_field", "Db/dbdata.c:wg_add_int_atomic_field", "Db/dbdata.c:wg_get_field"]}
{"id": "C62", "title": "Propositional instances report a proof only of contradictory clauses", "statement": "With instance generation on, the clauses given to the propositional solver are satisfiable exactly when the instances of the problem's clauses with one constant for all variables are; the file written for the external solver holds those clauses; a proof reported from unit propagation or from the solver's answer means the problem's clauses have no model; and each propositional step of the proof names the clauses it follows from.", "quantifier": "all lists of clauses, all constants, all answers of the solver, all numbers and schedules of simultaneous searches", "why_tests_cant": "it is about satisfiability of every possible clause list, every text the solver may print, and every interleaving of searches", "anchors": ["Reasoner/prop.c:wr_cl_create_propinst", "Reasoner/prop.c:wr_make_get_propvar", "Reasoner/prop.c:wr_equal_grounded_term", "Reasoner/prop.c:wr_make_prop_file", "Reasoner/prop.c:wr_prop_solve_current"]}
{"id": "C63", "title": "Every kept clause gets its turn as given clause", "statement": "Whatever clauses are derived in the meantime, each clause the search keeps is chosen for inferences within a bounded number of choices; the search stops for want of clauses only when each kept clause was chosen; only kept clauses are chosen, each once, those chosen by weight being the lightest of their class, and the classes by role are served in the stated ratios.", "quantifier": "all strategies and ratios, all sequences of kept clauses with any roles and weights, interleaved in any way with choices", "why_tests_cant": "Fairness is about every infinite sequence of derivations; a test sees one finite run, in which a starved clause looks like one that was not needed.", "anchors": ["Reasoner/clstore.c: wr_create_clpick_queues", "Reasoner/clstore.c: wr_push_cl_clpick_queues", "Reasoner/clstore.c: wr_pick_from_clpick_queues", "Reasoner/clstore.c: wr_pick_from_clpick_queues_aux", "Reasoner/clstore.c: wr_pick_from_hyper_queue", "Reasoner/rgenloop.c: wr_genloop"]}
{"id": "C64", "title": "Nothing refers to a deleted record or a freed string", "statement": "A record can be deleted exactly when no field of any record refers to it; after any history of creating records, setting fields, deleting and freeing, every reference in a field leads to something that exists; a long string is freed exactly when its last use goes, the languages and prefixes of strings counting as uses; the parents of a record are listed, each once; no memory of the lists of parents is lost.", "quantifier": "all histories of creating, setting, deleting and freeing records and values, with all graphs of references including cycles and self-references, both compile-time variants", "why_tests_cant": "A reference left behind is noticed only when the memory is used again; which histories leave one depends on the order of all operations and the shape of the whole graph.", "anchors": ["Db/dbdata.c: wg_delete_record", "Db/dbdata.c: wg_set_field", "Db/dbdata.c: wg_set_new_field", "Db/dbdata.c: free_field_encoffset", "Db/dbdata.c: wg_free_encoded", "Db/dbdata.c: wg_get_first_parent", "Db/dbdata.c: wg_get_next_parent", "Db/dbdata.c: find_create_longstr"]}
{"id": "C65", "title": "Rewriting ends and leaves nothing to rewrite", "statement": "Rewriting a term with the kept unit equations ends, whatever the equations; the result is the term itself or a smaller one; no part of it (but the truth constants) is an instance of the larger side of a kept equation; equations whose sides the order cannot compare are not used.", "quantifier": "all sets of unit equations in the local and the shared store, all hash functions, all orders of the constants, all terms", "why_tests_cant": "Two or three equations can rewrite each other's results in a circle; that no set of equations does so follows only from an order that every step respects. A missed redex in some part of some term is invisible except as a lost proof.", "anchors": ["Reasoner/rewrite.c: wr_rewrite_term", "Reasoner/rewrite.c: wr_rewrite_constant", "Reasoner/clstore.c: wr_cl_store_para_terms", "Reasoner/clstore.c: wr_cl_store_term_rewriter", "Reasoner/build.c: wr_build_calc_term", "Reasoner/strat.c: wr_order_eqterms"]}
{"id": "C66", "title": "The recorded parents justify a clause", "statement": "When a clause is simplified, cut or rewritten, the clauses recorded as used are clauses that are there, and the result follows from the old clause and these alone - whatever else is known; and the recording does not change the result. This fails only when more parents are used than the vectors take.", "quantifier": "all clauses, all stores of unit clauses, two-literal clauses and equations, all interpretations", "why_tests_cant": "A parent missing from a printed proof step is not noticed unless each step of each proof is checked against all interpretations in which the printed parents are true and some other known clause false.", "anchors": ["Reasoner/simp.c: wr_simplify_cl", "Reasoner/subsume.c: wr_derived_cl_cut_and_subsume", "Reasoner/rewrite.c: wr_rewrite_term", "Reasoner/rewrite.c: wr_rewrite_constant", "Reasoner/history.c: wr_build_simplify_history"]}
{"id": "C67", "title": "Scanning the database visits every record exactly once", "statement": "After any history of creating, deleting and filling records, asking for the first record and then for the next one until there is none gives every record of the database exactly once, in ascending order of addresses, and nothing else; the calls for data records leave out exactly those marked as special. From any record that is there the next one is the nearest one at a higher address.", "quantifier": "all histories of allocation, freeing and writing in the record area and of other areas taking space, all records", "why_tests_cant": "The scan reads the allocator's head words block by block: one wrong word anywhere in the history of the area makes it skip or invent records, and the layouts that matter arise only from long histories.", "anchors": ["Db/dbdata.c: wg_get_first_record", "Db/dbdata.c: wg_get_next_record", "Db/dbdata.c: wg_get_first_raw_record", "Db/dbdata.c: wg_get_next_raw_record", "Db/dballoc.c: wg_alloc_gints", "Db/dballoc.c: wg_free_object"]}
{"id": "C68", "title": "The relevance filter keeps the goals and exactly what they reach", "statement": "When a strategy asks for relevance filtering (\"sine\"), the filter ends and the search gets only clauses of the input; every clause it gets is connected to a goal by a chain of clauses in which each is triggered by a symbol of the one before (a rare symbol, or one not much more frequent than the other symbols of the triggered clause), or consists of common symbols only; every goal is kept; nothing nearer to the goals than a kept clause is dropped; and unless the limit on triggered clauses is reached, everything reached by a chain of at most 121 clauses is kept.", "quantifier": "every list of input clauses, every mark of goals, every value of the sine setting, every distribution of symbols", "why_tests_cant": "the selection depends on the counts of all symbols in all clauses and on the order in which the queue is handled; a test fixes one input and cannot show that no relevant clause is ever dropped", "anchors": ["Reasoner/analyze.c: wr_analyze_sine, wr_get_clause_symbols, wr_sine_check_trigger_cl, wr_analyze_clause", "Reasoner/rmain.c: wr_init_active_passive_lists_from_one"]}
{"id": "C69", "title": "A search in a hash index finds exactly the records with the given values", "statement": "After any sequence of creating, filling, changing and deleting records and of creating hash indexes on one or more columns, a search in a hash index for a value per column returns exactly the records that have these values in the columns, each once; in particular no deleted record and no record under values it no longer has. The operations read nothing outside the records.", "quantifier": "every sequence of operations, every set of columns, all values of all types, every hash function and size of the hash table, every placement of records", "why_tests_cant": "whether two keys fall together, share a chain or an entry stays behind depends on the values and the whole history of the table; a test fixes both", "anchors": ["Db/dbhash.c: wg_decode_for_hashing, wg_idxhash_store, wg_idxhash_remove, wg_idxhash_find", "Db/dbindex.c: hash_add_row, hash_remove_row, hash_recurse, create_hash_index, wg_search_hash, wg_index_add_field, wg_index_add_rec, wg_index_del_field, wg_index_del_rec, wg_create_multi_index", "Db/dbdata.c: wg_create_record, wg_set_field, wg_set_new_field, wg_delete_record"]}
{"id": "C70", "title": "A JSON object says exactly the triples written in it", "statement": "A JSON object in an input file is read as the conjunction of one triple (thing, key, value) for every key and value in it, where an array stands for each of its elements, an object inside stands for the thing it describes and says its own triples, @id gives the name of the thing, @type is its type, @list an ordered list; a thing without @id gets a name that no other thing in the file has. With @logic the object also says the formula; with the role conjecture the triples are facts from which the formula is to be proved; as a question the values for which the triples are true are the answers. A file therefore has exactly the models that its triples have.", "quantifier": "every JSON object and every file of objects, nested to any depth, with arrays of any length, and every interpretation", "why_tests_cant": "the conversion goes over nested objects and arrays while a counter makes names; tests see a few shapes, and whether two names meet depends on the whole file", "anchors": ["Parser/jsparse.c: wr_process_json_formula, wr_process_json_formula_struct, wr_json_mkid, wr_json_mkarc, wr_process_json_list, wr_json_add_with_and, wr_json_add_with_negated_or"]}
{"id": "C71", "title": "The growing integer table gives back what was added", "statement": "After any sequence of additions to the growing table of integers, looking up a key gives the value last added for it, and a key that was not added is reported as missing; additions fail only when the table cannot grow, and never touch memory outside the table.", "quantifier": "every sequence of keys and values, every hash function", "why_tests_cant": "splits of buckets and doublings of the directory depend on the bits of all hash values so far, and pointers are shared between directory entries", "anchors": ["Db/dbhash.c: wg_ginthash_init, wg_ginthash_addkey, wg_ginthash_getkey, grow_ginthash, ginthash_splitbucket, add_to_bucket, remove_from_bucket", "Db/dblog.c: add_tran_offset, translate_offset"]}
{"id": "C72", "title": "A document query returns every document that meets all its conditions, once", "statement": "A query over documents with several key/value conditions returns exactly the documents that meet all of them, each once, whichever of the strategies (nested loops or hashing, index or scan of the current results) is used for each condition and however large the intermediate results are; it reports failure only when a set is too large for the tables.", "quantifier": "all lists of conditions, all intermediate results with any repetitions and order, every hash function", "why_tests_cant": "the strategy depends on the sizes, and the probe sequences and page boundaries on the offsets; tests see few combinations", "anchors": ["Db/dbquery.c: wg_make_json_query, intersect_resultset, unique_resultset, append_resultset, fetch_resultset, rewind_resultset", "Db/dbhash.c: wg_dhash_init, wg_dhash_addkey, wg_dhash_haskey, dhash_lookup, dhash_size"]}
{"id": "C73", "title": "The journal is read back as the operations logged, also after a crash", "statement": "After any sequence of operations with logging on, reading the journal gives exactly these operations in order with the values and results they had. If the process dies at any point while writing, reading gives the operations that were written whole, and an error is reported unless the file ends between two operations.", "quantifier": "all sequences of operations, all lengths, offsets, encoded values and strings, every point at which the file is cut off", "why_tests_cant": "the number of bytes of an entry depends on the values, and a crash can cut the file at any byte", "anchors": ["Db/dblog.c: enc_varint, fget_varint, recover_encode, recover_journal, wg_log_create_record, wg_log_delete_record, wg_log_encval, wg_log_encode, wg_log_set_field, wg_log_set_meta", "Db/dbdata.c: wg_encode_int, wg_encode_unistr, wg_encode_uri"]}
{"id": "C74", "title": "Replaying a journal rebuilds the records of the original run", "statement": "Applying a journal to the database it was started from gives a database with the same records, one for one: equal lengths, meta words, immediate values, stored data and references between records, whatever offsets memory is given during the replay. No record or field that does not exist is touched; lack of memory or of room in the translation table is reported.", "quantifier": "all starting databases, all sequences of logged operations, all answers of the allocator during the replay, every hash function", "why_tests_cant": "in a test the replay usually gets the same offsets as the original run, so the translation is hardly used", "anchors": ["Db/dblog.c: recover_journal, recover_encode, add_tran_offset, add_tran_enc, translate_offset, translate_encoded, wg_replay_log", "Db/dbdata.c: wg_create_record, wg_delete_record, wg_set_field"]}
{"id": "C75", "title": "What any process logs is in the journal; backups keep the older journals", "statement": "Once logging is on, everything logged by any process since the journal was last set up is in the journal file after its magic bytes, in the order it was logged, whatever stops, starts, dumps and replays happened and whichever processes had the file open before. When a journal is set up anew, the bytes of the previous one are kept in a backup that was free, or the oldest one if all ten are taken; other backups never change.", "quantifier": "all sequences of operations by any number of processes, all contents, all times of files", "why_tests_cant": "a handle kept by one process across the operations of another goes wrong only for certain interleavings", "anchors": ["Db/dblog.c: wg_start_logging, wg_stop_logging, wg_replay_log, open_journal, backup_journal, check_journal, write_log_buffer", "Db/dbdump.c: wg_dump_internal, wg_import_dump"]}
{"id": "C76", "title": "The document of a record is found; deleting a document deletes its records and nothing else", "statement": "Asking for the document of a record gives a document that contains the record, directly or through at most six levels of records, and gives none only if there is no such document; a record that belongs to one document only gets this one. Deleting a document removes every record of it, changes nothing else and leaves the backlinks in agreement with the fields; a delete that fails changes nothing.", "quantifier": "all databases with correct backlinks, including cycles and shared records; all documents", "why_tests_cant": "the order of the backlinks, cycles and sharing give unboundedly many shapes of databases", "anchors": ["Db/dbschema.c: wg_find_document, find_document_recursive, wg_delete_document, delete_record_recursive", "Db/dbdata.c: wg_set_field, wg_delete_record"]}
{"id": "C77", "title": "A database exported to a CSV file is read back", "statement": "Importing a CSV file that was written by the export gives the same records, with the same fields in the same order, whatever quotes, separators and line ends the strings contain.", "quantifier": "all numbers of records and fields, all strings", "why_tests_cant": "the reader's flags and the lookahead depend on every combination of quotes, separators, line ends and empty fields", "anchors": ["Db/dbutil.c: csv_escaped_str, snprint_value_csv, wg_fprint_record_csv, wg_export_db_csv, fread_csv, wg_import_db_csv, parse_input_type"]}
