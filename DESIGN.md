# Formal model of gkc in Coq: design

## Ground rules

* The code is read as text; nothing is run. Every definition of the model cites the file and lines it models.
* Model files (`*Model.v`) contain definitions only. Specification files (`*Spec.v`) hold the small independent
  vocabulary used in theorem statements. `*Proof.v` files hold lemmas. `Prop*.v` files hold only the property
  theorems (`Theorem ... Proof. exact lemma. Qed.` followed by `Print Assumptions`) and the non-vacuity examples.
* Undefined behaviour of the C code (stray reads, signed overflow) is a distinct outcome in the model.
* Fuel: loops and recursions that are not structural take fuel, return a distinct out-of-fuel outcome, and
  the theorems exclude it or prove that enough fuel always exists.

## Configuration modelled

64-bit `gint`, `config.h` as shipped: `TTREE_CHAINED_NODES`, `TTREE_SINGLE_COMPARE`, `USE_BACKLINKING`,
lock protocol 3 (as configured by `LOCK_PROTO`), `USE_REASONER`, no `USE_TERM_META`, no `DEBUG`.

## Plan per property

| id | modelled | proof method |
|----|----------|--------------|
| C01-C03 | terms as trees over encoded 64-bit words, variable banks as a map from variable word to value, trail as a list; `wr_unify_term(_aux)`, `wr_occurs_in`, `wr_varval` | invariant: bindings acyclic (a rank exists); soundness and generality by induction on fuel, termination by the measure (unbound variables, size) |
| C04 | trail operations | invariant "assigned variables = variables on the trail" over all operation sequences |
| C05 | `wr_match_term(_aux)` | induction on the general term, both directions |
| C06, C07 | `wr_equal_term`, macro form, `wr_equal_ptr_primitives` | induction on terms; C07 expected false of the code, then a refutation with witness |
| C08, C11 | literal and clause fingerprints and their comparison | monotonicity of size/depth/prefix under substitution; C11 expected false, refutation plus the corrected statement |
| C09 | `wr_sort_cl`, `wr_inssort_cl` | permutation + sortedness by induction |
| C10 | `wr_subsume_cl`, `wr_subsume_cl_aux` with its "no backtracking" shortcut | soundness/completeness by induction on the literal list |
| C12-C19 | clause construction from bindings; first-order semantics with equality as a separate spec file | semantic soundness through a substitution lemma; C19 by an invariant over an arbitrary sequence of inference steps |
| C20 | `wr_build_calc_term` with renaming | invariant on the renaming table, injectivity |
| C21 | arithmetic evaluators over explicit 64-bit wrap | `lia` / case analysis |
| C22-C26 | `dbclausify.c` passes over list structures | structural induction over formulas against Tarski semantics; Skolem functions from the standard library's choice axiom (listed in the trusted base) |
| C27 | bucket hash with arbitrary hash function | induction over insertions |
| C28 | `priorqueue` | refinement to a sorted multiset |
| C29, C30, C39, C40 | bit-level encodings on `Z` with 64-bit wrap | bit lemmas |
| C31, C32 | date/time conversion arithmetic | arithmetic / finite sweep lifted by `forallb_forall` |
| C33, C34, C43 | free lists / buckets over an abstract heap of words | invariant over operation sequences |
| C35 | lock word and per-process program counters | inductive invariant over interleavings |
| C36 | T-tree nodes as trees with bounded key arrays | invariant over insert/delete |
| C37 | `wg_compare` on decoded values | order lemmas |
| C38 | vectors as length-prefixed arrays | invariant over operation sequences |
| C41, C42 | `wr_rewrite_term`, `wr_order_eqterms` | semantic invariant; induction on terms |
| C45 | prefix-hash index over hash lists, arbitrary hashes of doubles and long strings | invariant of the chains; unifiable atoms agree on the symbols before the first variable |
| C46 | the marks of all strategies, the loops of the ordering strategy, hardness an oracle | a strict order keeps its maximal elements through the loops; the order is related to the one of C42 by a ranking of the constants |
| C47 | tables with any number of T-tree indexes, with and without templates, and queries with conditions and a match record | invariant over all histories: every index holds exactly the records that belong to it, in order; bounds of a range located in the in-order list; fetching walks that list; refuted for empty gaps, for records that agree with a template too early and for deletion under a template |
| C48 | answer literals in the clauses of SearchModel; the answer list as a vector of words | any model of the clauses that are not questions is changed to let the answer predicate hold of exactly the correct answers; the questions hold in it, so the answer derived does; an invariant over all runs shows that answer literals never change sign; invariant of the vector over all registrations; refuted for proofs without answer and for the order of parts |
| C49 | the heap of string objects and cells, with hash chains and reference counts; the allocators are parameters | an invariant over all histories of encoding and freeing (chains hold each value once, counts bound the uses as extra string, cells have one user); lookup is exact in it; refuted: each long string stored once, freeing with a knowledge base, keeping a prefix alive |
| C50 | the words of a history record with the packed tag, parents and positions; flattening with the list of numbered clauses; one line per clause; words past the end of a record are a parameter | every record is decoded to the step that built it; flattening visits the parents in order; induction on the age of the clause: each new entry has its parents before it; refuted: positions from 16 on, rewriting into the given clause, instantiation in TPTP style, the word after an input record |
| C51 | the same model | the stored role equals the join over the parents at all later times; induction on age against the inputs behind a clause; refuted when a goal only cut or rewrote |
| C52 | building an instance of a clause under bindings: those of a unifier, possibly with renamed variables of the resolvent left in, or numbers for one or two variables; also added to the search of C19 | the session that builds the literals keeps their models under the bindings; most general instances refuted for instance generation |
| C53 | the settings, the scan for arithmetic terms and numbers, the ordered candidate list, the open-addressing cache and the loop, over runs of any number of chosen clauses; what a probe leads to is a parameter (C52 has its logic) | invariant tying cache, counter and the log of probes; the loop tries a list without repetitions; scan covers all visible arithmetic terms |
| C54 | the pool of pairs with pointers, so that sharing and in-place updates are visible; reading as a function on it | a relation between pool and written clause with the pairs used; framing of updates; a tree-level reading shown equal to the pool-level one, and then equal to the meaning |
| C55 | memory and file as lists of bytes with the header fields at their offsets; the file after any number of bytes written; the checksum bit by bit | the checksum is linear and has no kernel on four bytes; field reading and writing as framing lemmas; loading as a composition of such updates |
| C56 | the two hash lists of terms with their path codes, filled clause by clause; the candidates tried for a given clause as a list of inferences | invariant over the history of entered clauses; the numbering of places by the walk equals a count of places; unifiable terms have the same key; unification and ordering theorems for the tests made |
| C57 | the choice of the operation by name, the dispatch, equality of typed values, list and string functions on terms with a symbol table | induction over terms against all interpretations in which numbers, distinct symbols and lists mean what the documentation says; typed values written by terms as an inductive relation |
| C58 | the printer with its buffer, where snprintf cuts and bytes are stored without a test, against the grammar of RFC 8259 | the text is computed without the buffer, and a logic of how much room each step leaves shows that the buffer never matters; the grammar is unambiguous by induction over its derivations; plain texts are read back token by token |
| C59 | the reader of JSON formulas, from the JSON value to the formula given to the clausifier, against the truth of the documented forms | each documented form is related to a small core language with the same truth and variables; the reader gives a representation of the core formula, by induction on the formula, and reads what it has already read to the same formula; the representation has the truth of the core formula under the semantics of C22-C26 |
| C60 | the program as a parent and its workers, with a step relation for every schedule, fork failures and workers ended by signals; what one run comes to is an oracle | invariant over all reachable states (each worker was not stopped before its turn; waited-for workers had a status other than 0; live workers are at most the parent's count); termination by a measure; exit status and shown results from the invariant |
| C61 | processes as lists of calls with a program counter; each read of a shared word and each compare-and-swap one step; any process may make the next step | every call takes effect at the step in which it returns: an invariant over all reachable states shows the log, in order of return, to be a run of the calls done at once (inductive relation in AtSpec); counting invariants for the retries; a measure for termination |
| C62 | the store of atoms as a list of entries with slots, the values and units as maps, the clauses with parents and cutters; text of the file and the search in the answer over characters; processes over two shared files | invariant over all clauses: equal groundings have equal numbers and conversely, each clause is its parent's instance without literals false by earlier units; from it satisfiability both ways, by induction on the place; the file read back by a reader of the format; verdict by decomposition into lines; invariants over all schedules |

The table records the intention; the sections added below as the work proceeds record what was actually
modelled, what was simplified, and what was found.


## Trusted base

* Coq 8.16.1's kernel, and the assumption that the definitions in `*Model.v` describe the C code they cite.
* `Print Assumptions` follows every property theorem. All are "Closed under the global context" except
  `C17_dropped_is_tautology` and `C17_tautology_is_valid`, which use the standard library's
  `Coq.Logic.Classical_Prop.classic` ("p or not p" is what a tautology is), the theorems of PropClaus (C22, C23, C25:
  `classic`; C24, C26: `classic` and `Coq.Logic.ClassicalEpsilon.constructive_indefinite_description`, which gives the
  Skolem functions; the refutations, C25_distribution_ends and C25_flatten are closed), C48_answer_is_correct
  (`classic`: one of the parts of the answer is correct), and the theorems of PropArith about doubles
  (C21_quotient_t_partial, C21_quotient_f_partial, C21_real_operations_rounded, C21_not_finite_left,
  C21_real_negation_exact, C21_real_comparisons_exact, C21_mixed_comparisons_partial, C21_mixed_lesseq_refuted), which
  speak of the standard library's real numbers and rest on its axioms for them:
  `ClassicalDedekindReals.sig_forall_dec`, `ClassicalDedekindReals.sig_not_dec`,
  `FunctionalExtensionality.functional_extensionality_dep` and `Classical_Prop.classic`. Their proofs use Flocq, which
  adds no axiom. (coqchk also lists the opaque fields of the standard library's sealed modules RbaseSymbolsImpl, RinvImpl
  and ssrunder.Under_rel.)
* Nothing is extracted or run; no plugins, no native or VM axioms (`vm_compute` conversions are checked by the kernel).

## What is modelled so far, and what is not

| area | code | model file |
|------|------|-----------|
| unification, occurs check, bindings | unify.c, glb.c 155-161 | UnifyModel |
| matching, equality of terms, long strings | unify.c, dbcompare paths used by it | MatchModel, LongStrModel |
| trail | unify.c, mem.c | TrailModel |
| literal and clause fingerprints, sorting | clmeta.c, derive.c | MetaModel |
| subsumption | subsume.c | SubsumeModel |
| clause building with renaming | build.c 288-453 | BuildModel |
| resolution, factoring, paramodulation, reflexivity, merging, tautology test | derive.c, resolve.c | DeriveModel |
| cut-offs (unit, strong, double) | subsume.c 535-1370 | CutModel |
| strong duplicate removal | derive.c 1337-1525, unify.c 451-526 | DupModel |
| processing of derived clauses, simplification | derive.c 163-220, simp.c | SimpModel |
| rewriting | rewrite.c, build.c | RewriteModel |
| the search as a whole | rgenloop.c 60-560, derive.c, simp.c | SearchModel |
| machine words | C integer semantics (wrapping as compiled by gcc) | Word64 |
| memory segment, fixed-length objects | dballoc.c 313-385, 620-644, 757-905 | AllocModel |
| encoded values | dbdata.h 332-460, dbdata.c 1406-1760, 2887-2925 | EncModel |
| dates and times | dbdata.c 3505-3540 and the callers cited there | DateModel |
| growable vectors | mem.c 177-443 | VecModel |
| proof step codes | history.c 611-717 | HistModel |
| weight-ordered queue | clstore.c 1648-1770 | QueueModel |
| parser memory pool | dbmpool.c 97-225 | PoolModel |
| term hashes, unit-literal stores, hash lists, resolution index | hash.c 250-692, 903-1013, clstore.c 302-408, resolve.c 195-251 | HashModel |
| database level lock (three protocols), futex wait and wake, queue cells | Db/dblock.c 514-1230, 1242-1283, 1383-1428 | LockModel |
| comparison of encoded values | Db/dbcompare.c 51-270, dbcompare.h 40-61 | CmpModel |
| arithmetic evaluation of terms | Reasoner/build.c 55-99, 1070-1104, 1261-1440, 1488-1641 (numbers) | ArithModel |
| conversion of formulas to clauses | Parser/dbclausify.c 85-198, 203-1216, 1404-1614; Parser/dbparse.c 816-881 | ClausModel |
| variable-length allocation | Db/dballoc.c 684-755, 919-1041 (wg_alloc_gints), 1055-1205 (extend_varlen_area, split_free), 1214-1381 (wg_free_object); dballoc.h 222-245 | VarModel |
| the ordering of equations | Reasoner/strat.c 911-1375, 1461-1465 (wr_order_eqterms and its weight, variable, subset and lexicographic parts) | OrdModel |
| the T-tree index | Db/dbindex.c 196-420, 428-752, 763-1030, 1043-1092, 1181-1294, 1371-1401 (rotations, adding and removing a row, the searches) | TtModel |
| choice of literals for resolution | Reasoner/strat.c 324-634, 1487-1932 (wr_calc_clause_resolvability, the ordering of atoms) | SelModel |
| Records as compiled with QUICK_REASONER: creation and setting of fields without upkeep of indexes | Db/dbdata.c 84, 161-171, 654-685, 867-912 | QkModel |
| Instances: instance generation after resolution, and putting numbers for variables | Reasoner/derive.c 395-465, 1528-1644; Reasoner/resolve.c 296-347; Reasoner/arithinst.c 642-649, 781-855 | InstModel |
| Bounded numeric instantiation: settings, scan of a clause, candidates, duplicate cache, the loop over candidates, limits over a run | Reasoner/arithinst.c 1-641, 865-932; Reasoner/arithinst.h; Reasoner/rgenloop.c 363-369 | AgModel |
| Reading of clauses: parser pool of pairs, in-place reversal of bracketed lists, constants, variables, terms, atoms, literals, facts and rules, roles | Parser/dbparse.c 420-640 (which statements are clausified), 1128-1867; Parser/dbparse.h 42-51; Parser/dbclausify.c 905-960 (one case) | RdModel |
| Database files: writing, checksum, checking, loading, lock area after loading | Db/dbdump.c 77-357, Db/crc1.h 28-91, Db/dbmem.c 537-564, Db/dblock.c 1242-1278 | DmpModel |
| Indexes for paramodulation: entering clauses, partners tried for the given clause | Reasoner/clstore.c 516-645, 696-800, resolve.c 474-933, 940-1257, strat.c 206-222, derive.c 2093-2120, rgenloop.c 446, 498-510 | PmModel |
| Printing clauses, as JSON and as plain text, into a growing buffer | Printer/dbotterprint.c 435-1312, Reasoner/mem.c 494-520 | PtModel |
| Reading formulas from JSON arrays, and the symbols stored for names | Parser/jsparse.c 859-910, 1178-1238, 1352-1566, 2069-2788; Parser/dbparse.c 1583-1592, 1647-1867 | JsModel |
| Worker processes, the loop over the runs of the strategy, waiting for the workers, exit status | Reasoner/rmain.c 262-439, 523-571, 723-735, 820-915; Reasoner/guide.c 141-151, 356-427; Main/gkc.c 424-445, 711-729 | FkModel |
| Atomic field operations: read, compare-and-set, set, add, by several processes at once without a write lock | Db/dbdata.c 1056-1213; Db/dbdata.h 336-338, 437-460; Db/dblock.c 422-450 | AtModel |
| Propositional instances: numbering of grounded atoms, removal of literals by units, clauses collected; the DIMACS file, the solver's answer, several searches at once | Reasoner/prop.c 62-276, 338-462, 876-955, 1176-1313; hash.c 322-355, 422-427; glb.c 277, 650-655; glb.h 81, 127-129 | PpModel, DimModel |
| References between records: setting fields, deleting records, the lists of parents, reference counts of long strings with languages and prefixes, freeing of encoded values; with and without QUICK_REASONER | Db/dbdata.c 160-225, 247-331, 458-501, 654-846, 867-985, 1234-1394, 3115-3190 | RefModel |
| Which unit equations rewrite, and their hash buckets | Reasoner/clstore.c 573-597, 637-693; Reasoner/rewrite.c 75-120, 262-295 | NormModel |
| The recording of cutters and rewriters as parents | Reasoner/rewrite.c 158-205, 323-352; Reasoner/simp.c 92-138, 164-346; Reasoner/subsume.c 548, 605-643, 685-723; Reasoner/history.c 124-157, 502-533 | LogModel |
| Going through the records of the database | Db/dbdata.c 332-453; Db/dbdata.h 282-296 | ScanModel |
| The relevance filter: counts of symbols, levels, clauses dropped | Reasoner/analyze.c 59-115, 316-388, 446-470, 504-924, 946-1131; Reasoner/rmain.c 1221-1231, 1353-1368 | SineModel |
| Hash indexes: keys, buckets, creation, upkeep by the record operations, search | Db/dbhash.c 286-585; Db/dbindex.c 1467-1710, 2001-2262, 2615-2982; Db/dbdata.c 161-325, 654-960 | HixModel |
| Growing hash table of integers (translation of offsets in the replay of the journal) | Db/dbhash.c 58-87, 585-860; Db/dblog.c 450-500 | GhModel |
| Sets of results, their intersection and unique rows, the set of integers by double hashing, merging in document queries | Db/dbquery.c 57-90, 1326-1586, 1850-2008; Db/dbhash.c 858-990 | RsModel |
| The bytes of the journal: variable length integers, entries, the loop that reads them | Db/dblog.c 77-104, 268-330, 396-447, 530-684, 1000-1170; the calls in Db/dbdata.c | JnModel |
| The files of the journal: start, stop, backups, stale handles, dump, replay and import | Db/dblog.c 135-265, 778-992; Db/dbdump.c 127-168, 333-356; Db/dballoc.c 457-459 | JfModel |
| Documents: the document of a record, deleting a document | Db/dbschema.c 160-255; fields and backlinks in Db/dbdata.c 247-328, 654-846 | DocModel |
| Export to and import from CSV files | Db/dbutil.c 61-64, 313-412, 571-639, 644-697, 705-895 | CsvModel |
| Applying the journal: translation of offsets and values, the operations on memory | Db/dblog.c 447-527, 600-684; Db/dbdata.c 180-330, 640-860 | RpModel (over GhModel) |
| JSON objects: keys, nested objects and arrays, invented names, @id, @type, @list, @value, @graph, @logic, @role, @question | Parser/jsparse.c 1074-1238, 1572-2066, 2379-2408, 3181-3227 | LdModel (with JsModel for formulas) |
| Choosing the given clause: the four classes with a queue by age and one by weight each, their ratios and turns, the queue of partial hyperresolvents | Reasoner/clstore.c 880-1136, 1149-1440; glb.c 879-881; rgenloop.c 236-243 | PickModel (with QueueModel, VecModel) |
| C63 | the block vector as four records over the vector and queue models of the vectors and of C28, the selection loop step by step, histories of keeping and choosing in any order | invariant relating every queue to the history; a measure (clauses ahead in the class, choices by weight left, turns of the other classes left) that goes down with every choice until the clause is chosen |
| C64 | records, list cells, strings and boxed values as four stores of words, every pointer followed explicitly, freed memory undefined; histories of all operations in any order | invariants over multisets: the chains of cells partition the cells and list the references, string counts equal the occurrences in fields and strings; each primitive moves one element |
| C65 | the kept unit equations oriented by the term order and found by an arbitrary hash, with the rewriting of C41 | induction on the fuel: what is returned was tried against its bucket; the order's relation is well-founded over finitely many constants, every step goes down in it, and everything below a term is in a finite list, so one bound of the fuel serves |
| C66 | rewriting (C41), simplification (C44) and cutting (C16) again, with the vectors of cutters and rewriters and their limits | erasure: the searches with recording do the same as without; the log only grows, so a run is one that uses only the equations of its final log, and the soundness of C41 applies to these; induction over the literals for the cutters |
| C67 | the walk from block to block and from subarea to subarea, on the area of C34; the filter on the meta word | the tiling invariant of C34 extended: every subarea starts and ends with its marker, every block not free, victim or marker is a held object, subareas ascend; induction over the blocks passed |
| C68 | the counts and occurrence lists made by the analysis, the table of constants per strategy, the loop over the symbols with its limits, the drop of clauses without a level | the loop is a breadth-first search: levels in the queue differ by at most one, every handled symbol has triggered all it can; specification by chains of clauses |
| C69 | keys as bytes, hash chains of buckets for any hash function, index creation over existing records, upkeep with early exit on failure, the record operations with and without QUICK_REASONER | the table is a map from keys to sets of rows; invariant: an index holds each record exactly under the key of its columns; keys are parsed back for values without inner prefixes |
| C70 | the conversion of an object to a conjunction of triples, with the counter of invented names, the arrays, lists and nested objects, and the special keys | the specification says which triples an object says, with any fresh names; mutual induction: what is made so far reads as the conjunction of the triples so far; then the meaning of C59 |
| C71 | directory, buckets in a heap with shared pointers, growing and splitting; every access checked; any hash function | invariant: a bucket of level l is pointed to from exactly the indexes that agree in l bits, and holds exactly the added pairs of its class; the loop of splits is bounded by the levels |
| C72 | pages with cursors, both strategies of intersection and uniqueness, open addressing with the table sizes of the code, the loop over the arguments | sets of results are lists read in order; the table holds a set: no slot is emptied, and the probes visit every slot because the sizes are prime (checked in the kernel) |
| C73 | what each operation appends to the journal and the reader as a parser over bytes | round trip of each entry; reading an entry goes the same way when the file is longer, so no proper prefix of an entry is read as one |
| C74 | (end to end with C73: C74_crash_partial) memory as a partial function from offsets to records and data, the same operations in the original run and in the replay, translation through the table of C71, offsets from an arbitrary allocator | invariant: a growing relation between old and new offsets under which live records agree, one for one |
| C75 | files as numbered contents with names, flags and serial number in the header, a handle for each process; any interleaving of operations | invariant: a handle with the current serial number is a handle of the journal; backups are other files |
| C76 | memory of records with fields and chains of backlinks; the two recursions with their depth limits | induction on the depth; loop invariant: the parts handled are gone, the rest is as before |
| C77 | bytes of the file; the writer with its buffer; the reader as a state machine with one byte of lookahead; guessing of types | induction over rows, fields and bytes |
| Built-in equality, list and string functions, tests of types | Reasoner/build.c 978-1260, 1442-1825, build.h 68-115 | BfModel (arithmetic in ArithModel) |
| Histories of clauses: the records built for each inference, roles, flattening and the lines of a printed proof (text and TPTP styles) | Reasoner/history.c 90-720, 774-896, 1261-1560, 1558-2372; Reasoner/derive.c 462-521, 898-1065 (arguments) | PrfModel.v |
| Strings, URIs, XML literals and blobs: encoding, the table of long strings, decoding, freeing, with and without a knowledge base | Db/dbdata.c 1234-1383, 2069-2237, 2720-2762, 2934-3226, 3280-3490; Db/dbhash.c 140-285 | StrModel.v |
| Answers: recognising answer literals and answer clauses, comparing, registering and counting answers | Reasoner/build.c 766-781; Reasoner/derive.c 2055-2085; Reasoner/history.c 2465-2596; Reasoner/glb.c 1024-1025 | AnsModel.v (on SearchModel.v and VecModel.v) |
| Records, indexes on columns (also with templates) and queries: creating, filling, changing and deleting records, creating and dropping T-tree indexes, choice of the index, bounds, fetching, prefetching with a limit | Db/dbquery.c 131-1106; Db/dbindex.c 1772-1820, 2048-2370, 2540-2981; Db/dbdata.c 161-331, 655-960 | QyModel.v (on TtModel.v; fields compared by a given total order; allocation of nodes succeeds, their offsets given; hash indexes, back links, strings, multi-column indexes and JSON queries left out) |

Not modelled: printing except what the table lists, statistics, time and memory limits (an allocation failure only
makes the code stop or drop a clause), strategy selection, the external propositional solver itself (any program in
C62), the history built after its answer (Reasoner/prop.c 1315-), the parsers' lexical level except what the table
lists.

General simplifications, each also stated where it is used: a record's fields are a list (offsets and headers are
modelled only where the code reads past them); encoded words of constants are opaque and compared by value;
hash stores are the list of entries in the bucket searched.

The search (C19) is a transition system in which selection, literal choice, limits and store contents are
arbitrary choices. It assumes of records in memory what the allocation code gives (`stored_ok`: one word denotes one
atom, record atoms are not shared inside a clause, metas are nonzero and determined by the atom, variable numbers
below 4000). The sub-solvers (prop.c, treated in C62; propagate.c, never called; arithinst.c, treated in C52 and C53) are outside it; answer literals are treated in C48.

The allocator and encodings (C29, C30, C33): memory is a map from offsets to words, the segment header a record;
one process; no log, no attached base; a double is one opaque word. `areach` histories contain every operation on
areas but not the variable-length areas, which take raw chunks and write only inside them.

## Findings

Places where the code as written does not satisfy the property in full; each has a `_refuted` theorem or is
described in the file named.

* (a) `wr_match_term_aux` reads the header of a constant as if it were a record (C05); the same in
  `wr_eqmodvars_term_aux` and `wr_nomatch_term_uniquevars`. Modelled as a "stray" outcome.
* (b) `wr_equal_ptr_primitives` compares `11!=l2` where `l1!=l2` is meant (C07).
* (c) a size of 255 is stored as 0 in fingerprints (C08/C11); (d) the ground bit sits in the length word;
  (e) facts have all-zero metablocks; (f) the prefix hash may overflow; (i) one metablock test is almost never true.
* (g), (h) the insertion sort reads index -1 and some hashes are not reset: harmless.
* (j) resolving drops every literal sharing the word of the resolved atom whatever its sign: a clause `p | ~p`
  sharing one atom record gives a wrong proof. The tautology test on given clauses excludes such parents.
* (k) factoring drops both literals when they share one word; (l) an equality with three arguments is treated as
  binary; (m) the equality test is made on propositional atoms; (n) position numbering differs for records whose
  head is a record.
* (o) rewriting with `a = b` also rewrites function and predicate symbols named `a` (C41).
* (p) the branch for reversed equations in `strongly_cut_atom` is dead and has swapped arguments.
* (q) the "ground units" store also takes units with variables: sound, as look-up is by identity.
* (r) `wg_ymd_to_date` accepts year 0 and day 31 of every month; `wg_hms_to_time` accepts 60 minutes or seconds (C31, C32).
* (s) literal positions in proof steps are written with 8 bits and read with a 4-bit mask (C40).
* (t) the size of a memory-pool subarea is an int: past 2^31 bytes the next extension overflows (C43).
* (u) the 32-bit key of an atom can be INT_MIN, whose absolute value is negative: for instance huah(890820) can be
  neither stored nor looked up and the prover exits (C45). The same for symbols whose text hashes to INT_MIN, such as
  wcoggnk, in the paramodulation index.
* (v) queued lock (the shipped protocol): a releasing process calls futex_wake after it has left the queue; the address
  may by then be the recycled cell of another request, whose process takes the wake-up as a grant (two writers at once);
  a signal during the wait is taken as a grant as well; and a waiter that timed out just before it was granted leaves the
  queue without passing the grant on, so the requests behind it sleep although the lock is free (LockModel, C35).
* (w) wg_compare calls a NaN less than any double from both sides, so the order used by the T-tree index is not
  antisymmetric once a NaN is stored (CmpModel, C37).
* (x) $quotient_e takes floor and ceiling the wrong way round (7 by 2 gives 4), $remainder_e and $remainder_f are C's %
  (wrong for negative arguments), and all integer quotients are computed in doubles, so they are wrong from 2^53 on
  (ArithModel, C21).
* (y) $lesseq and $greatereq of an integer and an equal double are both false: equality is only tested on encoded
  values (ArithModel, C21).
* (z) Miniscoping reads only the first two arguments of an "and" or "or" under a quantifier: a third one is lost
  (the parsers only build binary ones; ClausModel, C23_many_arguments_refuted).
* (aa) Free occurrences are found by spelling: a name of another type spelled like a bound variable takes its place in
  the binder, or makes the formula rejected (ClausModel, C23_spelling_refuted). parse_freeoccs also collects variables
  already bound outside; binding them again is harmless (C26).
* (bb) An object of exactly the wanted size taken from a bucket of mixed sizes (dballoc.c 1009-1018) leaves the next
  object's mark "the block before is free". Freeing that object later reads the user's data as the length of a free
  block: a live object can be merged and given out again (VarModel, C34_refuted).
* (cc) wg_free_object (1266) applies getfreeobjectsize to the offset of the block before instead of to its head word, so
  freeing an object that follows a free block is refused with -4 unless the block's offset equals its size: the space
  is never returned (VarModel, C34_free_refused_refuted). This bug hides (bb) in most histories.
* (dd) A request of 2^40 bytes or more makes wg_freebuckets_index return -1, which is used as an index
  (VarModel gives VUB; the theorems assume fewer than 2^36 words).
* (ee) The counted variable lists hold 1000 variables; further ones are left out without a sign (strat.c 1108-1111).
  Two terms sharing 1000 variables are then ordered as if the other variables were not there, and the verdict turns
  round under a substitution (OrdModel, C42_stable_refuted).
* (ff) Constants are ordered by their encoded words (strat.c 1461-1465), so two boxed numbers of equal value count as
  different and one is larger; the model gives equal values equal words, and so does not show this.
* (gg) ttree_add_row moves the smallest row out of a full node before it allocates the new node for it (dbindex.c
  498-562). When the allocation fails the function returns -1, the new row is in the index, and the smallest row of
  the node is in the table but no longer found by the index (TtModel, C36_refuted).
* (hh) The order of constants of the atom ordering is cyclic: two names are ordered by increasing id, any other pair by
  decreasing word (strat.c 1887-1896). In p(b) | p(a) | p("s"), with a, "s", b made in this order, every literal is
  smaller than another one, all three are prohibited, and the clause takes no part in resolution (C46_ordering_refuted).
* (ii) When negative literals are preferred, a negative comparison such as -$less(X,Y) counts as a negative literal
  (strat.c 403-405), so all positive ones are prohibited although the comparison is left for evaluation only
  (C46_comparison_refuted). The same with the signs swapped and for hyperresolution.
* (jj) `find_ttree_bounds` (Db/dbquery.c 604-633) recognises an empty range only if start and
  end are in the same or in neighbouring nodes.  With conditions "> v" and "< v" on a column where
  v fills three nodes the query returns the records greater than v (C47_refuted_gap).
* (kk) Under an index with a template, `wg_create_record` adds a record of nulls that agrees with
  the template twice, once for the indexed column and once for the first fixed one (Db/dbindex.c
  2742-2831); a query returns it twice (C47_refuted_create).
* (ll) `wg_set_new_field` adds a record to an index with a template as soon as the template agrees,
  also when the indexed column is not yet set, and again when that is set; a query returns it twice,
  the first time at the wrong place (C47_refuted_fill).
* (mm) `wg_delete_record` removes a record from an index with a template twice; if another record
  has an equal key the second removal reports an error, and the record stays in the table without
  being in the index (C47_refuted_delete).
* (nn) `most_restricting_column` keeps the offset of the index in an `int` (Db/dbquery.c 131-275): in
  databases above 2 GB it is cut off.  The model does that too; the theorems ask for offsets of index
  headers below 2^31.
* (oo) A proof that ends in the empty clause is registered with the clause NULL.  If an answer or a
  proof was registered before it, or another one comes later (possible when more than one answer is
  asked for), `wr_same_answers` (Reasoner/history.c 2532-2570) reads the type word of the clause
  through NULL (C48_refuted_answerless_proof).
* (pp) `wr_same_answers` compares rule clauses literal by literal in order: `$ans(a)|$ans(b)` and
  `$ans(b)|$ans(a)` are both listed and both counted (C48_refuted_order).  The second store of
  `wr_register_answer` uses the pointer read before the first; this is harmless only because the
  initial length 1000 is even (C48_register_partial proves that the first store never moves the block).
* (qq) Db/dbdata.c 84 defines QUICK_REASONER for the whole file: wg_set_field and everything built on it (wg_set_int_field
  and so on, JSON and CSV import, dbschema.c, wgdb.c) returns 0 and stores nothing (C47_shipped_set_refuted), and records
  created or filled after an index was made are not in the index and are not found by queries that use it
  (C47_shipped_insert_refuted).  Deliberate, says the comment above it, but the API is public.  The theorems of PropQy are
  about the text without the definition, those of PropQk about the program as compiled.
* (rr) Reasoner/subsume.c 54 defines ANS_IGNORE: with one answer wanted (the default) two answer literals of the same
  sign match whatever their arguments, so `p(X) | $ans(a)` subsumes `p(a) | $ans(b)` (C10_answers_refuted).  A clause is
  then dropped though it leads to another answer; only clauses with several literals are concerned.  Dropping clauses
  does not affect soundness, and a really subsumed clause is still found (C10_real_subsumption_found).
* (ss) `find_create_longstr` (Db/dbdata.c 3039-3226) reads the head of the hash chain before it encodes
  the extra string and stores the new object with that head afterwards.  If the extra string (a
  namespace prefix or language of 32 chars or more) is new and falls into the same bucket, it is
  dropped from the chain: it is stored again when it is used next (C49_stored_once_refuted: the
  prefix `http://example.org/vocabulary/v1#` with the name `hhhh`, 25000 buckets), and an error is
  shown when the first copy is freed.  Words handed out to the caller are not affected
  (C49_one_word).
* (tt) `wg_free_encoded` (1234-1262) uses words relative to an attached knowledge base with the base
  address of the local database (C49_free_with_kb_refuted).  Words returned to a caller are not
  counted: freeing a URI frees its long prefix, though the caller may hold a word for it
  (C49_prefix_freed_refuted).
* (uu) `wr_get_history_pos1/pos2` (Reasoner/history.c 711-718) mask 4 bits of positions stored with 8:
  a literal at position 17 is printed as position 1, position 16 as 0 (C50_positions_refuted).
  For rewriting into the given clause derive.c (903, 945, 1024, 1064) passes the two positions in
  the other order, so they are printed exchanged (C50_into_positions_refuted).
* (vv) `wr_strprint_one_history` in TPTP style (2002-2012) looks up the instantiating term of a
  propositional instantiation as a clause and cites line 0 (C50_tptp_instantiation_refuted).
  `wr_flatten_history` reads the tag of an input record past its end (774-800); whether an unrelated
  clause is then listed depends on the allocator (C50_stray_refuted).
* (ww) `wr_calc_history_priority2` (278-353) looks at the main parents only: a clause obtained by
  cutting with a goal unit or rewriting with an assumption is labelled as following from axioms
  (C51_role_refuted).
* (xx) Instance generation (off by default): the counter of renamed variables restarts at 0 (Reasoner/derive.c 2164)
  while bindings to variables renamed for the resolvent (Reasoner/build.c 324-336) stay in place, as resolve.c 317-347 does
  not clear them in between. Two different variables can get one number, so the instance is sound but
  less general than the unifier asks for (C52_generated_most_general_refuted).
* (yy) An integer is read with strtol into a 32-bit int (Parser/dbparse.c 1653, 1690): 4294967297 is stored as 1, so `p(1) & -p(4294967297)` is
  inconsistent for gkc (C54_integer_refuted).
* (zz) wg_inplace_reverselist (dbparse.c 1636) takes bracketed lists apart while they are read. When distribution (dbclausify.c 905-960) has put
  the same literal in two clauses, the second one is stored with the list cut to one element (C54_shared_list_refuted).
* (ab) Dates and times that do not exist are stored as other ones, or all as -1 (C54_date_refuted).
* (ac) A statement of the plain syntax in an included file is not made into clauses (dbparse.c 629-630): `p => q` becomes the fact imp(p,q)
  (C54_included_plain_refuted).
* (ad) The test whether an argument is a variable is inverted (dbparse.c 1256), so the unit clause p(X) is stored as a fact record with a variable.
  Read only, harmless for C54, which covers both kinds of records.
* (ae) `-5` is read as the term not(5), not as a number (Parser/dbotter.y); a unit clause `$false` of a cnf statement becomes the atom $pr($false);
  the head of `?f(a)` is stored as a variable; the empty name is passed on as a NULL pointer; the scanner's buffer of 1024 bytes is filled without a
  check (Parser/dbotter.l). None of these are in the model; the specification of C54 leaves such texts out.
* (af) wg_dump returns 0 although the file is not complete when the last buffer cannot be written: the results of fflush and fclose are not looked at
  (Db/dbdump.c 177-178, C55_success_refuted).
* (ag) wg_dump says it may run during normal use, but reads the size before it has the lock (dbdump.c 88, 115): if the database grows in between,
  it returns 0 and the file is refused later (C55_growing_refuted). The same happens when another process asks for a lock between computing the
  checksum and writing, because the lock queue is part of the image (C55_lock_request_refuted).
* (ah) wg_dump empties the file before it asks for the lock (dbdump.c 106, 115). If the lock is not got, -1 is returned ("db may continue"), and the
  earlier file is lost and the stream is not closed (C55_old_file_refuted).
* (ai) The header written contains pointers of the writing process (local_g, kb_db, infrm_mpool, errmsg: Db/dballoc.h 482-512), and loading puts them
  in the new segment. What later code does with them is not modelled.
* (aj) In a clause of more than 256 literals, the number of a literal with an equation is cut to 8 bits in the index (Reasoner/clstore.c 630, 785-787;
  only subterms are guarded at 710). resolve.c 1183-1203 then takes another literal for the equation: it puts in an argument of that literal and removes
  that literal (C56_long_clause_refuted). This is unsound. Clauses of up to 1000 literals are read.
* (ak) Literals after the 256th, and places with numbers over 60000, are silently left out as targets (clstore.c 710, resolve.c 969; C56_late_literal_refuted).
* (al) The ordering of the instantiated equation is tested when the equation is in the given clause (resolve.c 797-811) and not when it is in the stored
  clause (resolve.c 1164-1177, a TODO): what is tried depends on which clause is given last (C56_order_refuted).
* (am) A symbol whose hash is -2^31, e.g. qdlkhoy, gives a negative key: the program ends when a clause with it is entered (hash.c 357-448,
  clstore.c 774; C56_bad_key_refuted).
* (an) With query_focus and prohibit_unordered_para together no paramodulation is made at all: the order is taken as 3 and then refused
  (clstore.c 570-577, resolve.c 600-634).
* (ao) $is_list, $is_distinct, $is_atom and $is_map are dispatched to the code of $first (Reasoner/build.c 1112-1118): of a non-empty list they give its first
  element instead of true or false, and of anything else nothing (C57_is_list_refuted, C57_is_distinct_refuted). As an atom the result is not a record, while
  the callers (simp.c 189-240, derive.c 1229-1260) go on to use it as one. The code for the documented answers exists (1488-1729) and is not reached.
* (ap) $substrat compares one byte (build.c 1478, memcmp with length 1): "ab" is found in "ac" at 0, and the empty symbol is not found where it is
  (C57_substrat_refuted). With two arguments it reads past the end of the term (1469; C57_substrat_read_refuted).
* (aq) $substr and $substrat also decide ordinary constants by their names (build.c 1452-1462 test the type URI and not the mark of distinct symbols), which
  is unsound once two constants are equal (C57_substr_constants_refuted).
* (ar) 1 = 1.0 is evaluated to false, while 1 is neither less nor greater than 1.0 (C57_integer_real_refuted).
* (as) Comparing a list that has a list as an element with one that has a constant there reads a record header at the constant (unify.c 957-960 through
  build.c 1187; C57_nested_list_refuted).
* (at) Clauses with arithmetic are not valid JSON in JSON proofs: p(1+2) is printed as [["p",[$sum,1,2]]] (Printer/dbotterprint.c 784-799;
  C58_operator_refuted). Neither are names with a backslash at the end or with a newline, which are not escaped (C58_backslash_refuted).
* (au) Integers over 32 bits are printed without their upper half (dbotterprint.c 848-849; C58_integer_refuted). The parser also reads them through an int
  (Parser/dbparse.c 1653, 1690).
* (av) In JSON '-p'(a) is printed like the negation of p(a), the constant '?:X' like a variable, '#:d' like a distinct symbol (C58_names_refuted), and the
  quoted 'a' like a, from which the prover keeps it apart (C58_prefix_refuted). In plain text the variables 1 and 1000 are both X1 (C58_plain_refuted).
* (aw) A name with many quotes is written outside the buffer: room for 100 backslashes is made, the end is tested after the byte is stored
  (dbotterprint.c 1109-1220; C58_quotes_refuted). $difference and $quotient (784-799) and long doubles (only 50 places, 839, 851-852) are cut at the end of the buffer
  (C58_cut_refuted, C58_double_refuted).
* (ax) In JSON ["Bird","a"] and ["-Bird","a"] do not contradict each other: a name beginning with a capital, or with a dash or another special character in it,
  is another symbol when negated with - (Parser/jsparse.c, Parser/dbparse.c 1716-1797; C59_capital_refuted, C59_dash_refuted).
* (ay) The words imp, eqv, all, which the documentation does not reserve, are connectives: ["imp","a","b"] is an implication (C59_words_refuted). An operator name as
  an argument turns an atom into a formula: ["likes","john","or"] is a disjunction (C59_operator_refuted). What follows an equation is dropped: a = b & q is
  read as a = b (C59_dropped_refuted).
* (az) The empty string as a name ends the program (strcmp of NULL; C59_empty_string_refuted); the documented list notation [1,2,3] in a term is an error
  (C59_list_refuted); integers are cut to 32 bits, so p(1) contradicts not p(4294967297) (C59_integer_refuted).
* (ba) In the default mode a worker that is done with its runs and has no proof exits with status 0, which the parent takes for a proof: it kills the other workers and
  the program ends (Main/gkc.c 445, Reasoner/rmain.c 360-374). Runs that would have found a proof are never done (C60_killed_refuted).
* (bb) A worker ended by a signal is not counted: when all workers crash, or the last one does with LTBSPECIAL, the parent calls waitpid in a loop for ever
  (rmain.c 344; C60_crash_refuted). When a fork fails after another succeeded, the runs meant for the missing workers are done by nobody (C60_fork_refuted).
* (bc) Two workers may both print a proof (C60_two_refuted); workers do runs that are not in the strategy when their number is past its end (C60_extra_refuted); a run that
  is an array at place ten or later ends the list of runs (guide.c 400, rmain.c 904; C60_array_refuted); when a search ends with fewer answers than asked for, the answers
  are shown and then "proof not found" is said (rgenloop.c 261, rmain.c 841-904; C60_answers_refuted).
* (bd) wg_add_int_atomic_field keeps the sum in a 32-bit int (Db/dbdata.c 1158, 1175): adding 1 to a field that holds 2^32 returns 0 and leaves 1 (C61_wrap_refuted); and a sum
  of 2^28 is refused with -16 although fields hold integers of 61 bits inline, as fits_smallint shifts the int by 29 bits (C61_range_refuted).
* (be) prop.c keeps the address of a vector over a call that may move it: with as many different atoms as the vectors first have places, wr_make_get_propvar stores the atom in the
  freed vector of groundings (Reasoner/prop.c 269-271) and the caller reads the freed vector of values (103, 125) (C62_growth_refuted).
* (bf) The history of a propositional clause names at most 98 units that removed literals (prop.c 142-145, cut_clvec of 100 places): with 99 literals removed, the clauses named for the
  empty clause can all be true (C62_cuts_refuted).
* (bg) The answer of the external solver is searched by strstr (prop.c 1225-1234): a comment line that contains the words is taken for the verdict (C62_verdict_refuted).
* (bh) All searches use the same two files, as the calls of mktemp are commented out and the names end in a literal XXXXXX (prop.c 1192-1198): of two searches at once, one whose
  clauses can be true is told of a proof (C62_shared_refuted).
* (bi) No clause is ever marked as given: wr_cl_ismarked_given returns 0 and wr_cl_mark_given returns before doing anything (clstore.c 1403, 1439), so a clause chosen by weight is chosen
  again by age (C63_once_refuted).  Nothing is lost by it: no clause is chosen more than twice (C63_once_partial).
* (bj) The counter of choices from a class goes up twice for a choice (clstore.c 1229 and 1319, 1369): the classes of goals with assumptions and of goals get four and three choices in a row,
  not six and four (C63_ratio_refuted).
* (bk) Strategy 3 is to keep the fully negative clauses of the goal in the goal class (clstore.c 1046), but wr_is_negative_cl says no for every clause of more than one literal (1129)
  (C63_class_refuted).
* (bl) Partial hyperresolvents come before everything else, so other clauses can wait without bound (C63_fair_refuted).  Read, not modelled: halfway through the time the loop sets
  pick_given_queue_ratio to 100 (rgenloop.c 204-208), which no queue looks at after it was created (clstore.c 900).
* (bm) As compiled (QUICK_REASONER), wg_set_new_field neither counts references nor links parents, but wg_delete_record and free_field_encoffset rely on both: a record that is referred to is
  deleted and leaves a dangling reference (C64_compiled_delete_refuted), a record that refers to a record can never be deleted (C64_compiled_child_refuted) and the attempt frees its earlier fields
  (C64_compiled_half_refuted), and deleting one of two records with a common long string frees it under the other (C64_compiled_string_refuted).
* (bn) Also with the full bodies: listing the parents of a record goes on for ever when a record refers to it from two fields (C64_parents_refuted: wg_get_next_parent goes by the parent, not by
  the list cell); an encoded short string, double or big integer stored into two fields is freed under the other (C64_shared_refuted: these have no counts, and nothing says so);
  a failed allocation of a list cell is not noticed (dbdata.c 814, 947; C64_cell_refuted).
* (bo) Rewriting is to a term in which nothing can be rewritten, but not to a unique one: the result depends on the order of the equations in the bucket (C65_same_result_refuted).  No more than 9994
  rewriters of one clause are recorded as its parents (rewrite.c 199, 348).
* (bp) The parents printed for a clause do not always justify it: of more than 97 cutters used in simplifying one clause, and of more than 9994 rewriters used for one clause, the rest are used but
  not recorded (C66_cutters_refuted, C66_rewriters_refuted).  The proof found is right; the printed step is not.
* (bq) After the histories of (C34_refuted) a scan of the database misses a record that is there and returns one that was deleted (C67_refuted).
* (br) The tables of levels of the relevance filter have room for ten million clauses: a goal numbered beyond that never gets a level and is dropped (C68_refuted).
* (bs) Keys of hash indexes take integers (and variables) through a 32-bit int: a search for 7 also finds 7 + 2^32 (C69_integers_refuted).
* (bt) The 0 byte after a prefix or datatype in a key is not told from the one between two columns: different rows can have equal keys (C69_prefixes_refuted).
* (bu) wg_index_add_field stops at the first index that cannot take the row (for instance a blob in its other column); the indexes after it lose the record, although they could take it (C69_after_failure_refuted; the operation does report -3).
* (bv) wg_set_new_field adds the row to a multi-column index once per column and takes nothing out, so that the entries made while the other columns were NULL stay (C69_fill_refuted).
* (bw) create_hash_index compares only the first column with the length of a record: it reads past the end of a record without the others (C69_short_records_refuted).
* (bx) wg_idxhash_store does not check whether the list cell could be allocated: on failure it writes over the start of the segment.  Dropping a hash index takes it out of the lists of indexes and then reports failure without freeing it.  Neither is modelled.
* (by) An empty string as a key or as a value in a JSON object is encoded as a NULL and followed (C70_empty_string_refuted).
* (bz) The empty array says a triple with the value $nil, the empty list (C70_empty_array_refuted); "@set" is read as the ordered "@list" (C70_set_refuted).
* (ca) Values and keys that are operators of formulas (and, or, -, =, ...) turn the triple into a formula of its parts (C70_words_refuted).
* (cb) Invented names _:crtd_N are not checked against the names of the file (C70_collision_refuted).
* (cc) Whether the triples of "@graph" carry the name of the graph depends on the order of the keys (C70_graph_order_refuted); a "@graph" that is an object is read as propositions named by its keys and values (C70_graph_object_refuted).
* (cd) In a conjecture with triples, variables in the triples are quantified together with the formula under the negation: the general facts are lost (C70_conjecture_refuted).
* (ce) wr_json_mkarc is called with db where g is expected; the functions it passes this to do not use it.
* (cf) A key added to the growing hash table a second time keeps its first value, until a split reverses the bucket (C71_repeated_refuted, C71_order_refuted). The replay of a journal adds an entry for every created record that lands elsewhere: for an offset used again after a deletion, later entries of the journal are applied to the record of the first use.
* (cg) Eight additions with one key fail, whatever the hash function (C71_eight_refuted): such a journal cannot be replayed.
* (ch) wg_dhash_haskey answers yes for the key 0 on any table that is not full; offsets are never 0, so document queries do not meet it.
* (ci) wg_log_encode reads the integer through `int *`, while wg_encode_int has a 64-bit integer that does not fit 61 bits: no such integer is recovered from the journal. When its low 32 bits are small, nothing but the result is written, and the rest of the journal is misread (C73_integers_refuted).
* (cj) wg_encode_uri (the version for the reasoner) logs the result without the entry, so any URI encoded while logging is on makes the journal unreadable or misread (C73_uri_refuted). The journal is off in the shipped configuration.
* (ck) When an offset is freed and given again while logging, the translation table has two entries for it and the replay may use the older one: a field is set in the wrong record or the replay fails (C74_reuse_refuted).
* (cl) A creation that failed is tried again by the replay; if it succeeds now, a record exists that the original database never had (C74_failed_refuted; the code has a comment in doubt there).
* (cm) wg_import_dump brings back the serial number in the dump; the start that follows raises it to a number that a process may still hold for an older file, so what this process logs goes to a backup and is missing in the journal (C75_import_refuted).
* (cn) wg_dump_internal marks the log as clean and sets up a new journal also when writing the dump failed (dbdump.c 148-163): then neither the dump nor the journal has the operations, only the backup of the journal.
* (co) A failing wg_delete_document leaves the document half deleted: when a part is also referred to from elsewhere, or is below the seventh level, the references on the way are already cleared and earlier parts are gone (C76_failed_delete_refuted, C76_deep_refuted). wg_find_document does not find the document of a record seven or more levels below it (C76_deep_refuted).
* (ct) Deleting a document that refers to itself through another record frees the document while the loop over its fields still runs, and then frees it again (C76_cycle_refuted).
* (cp) wg_create_triple with isparam sets the meta word without logging it (dbschema.c 73-75, other than wg_create_array and wg_create_object): after a replay of the journal the record is an ordinary data record. By reading; not modelled.
* (cq) check_process_chain_clause takes the end of the second atom from the first one (Reasoner/chains.c 77). It only affects a count that is printed with the statistics. By reading; not modelled.
* (cr) CSV files lose types: a quoted "5" is read as an integer and "" as no value (C77_types_refuted). Characters (WG_CHARTYPE) are printed without quotes, so a comma becomes two fields; a record of one empty field is lost (C77_characters_refuted). Strings of more than 4091 bytes (quotes count twice) are cut without an error (C77_long_refuted).
* (cs) fread_csv tests strbuf instead of encdata after the second malloc (dbutil.c 721), and frees it; running out of memory there is a null pointer write later. By reading; not modelled.
