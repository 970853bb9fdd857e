# A machine-checked model of posterior/treecat

## 1. Method

* Tool: Coq 8.16.1 (Rocq before the renaming), its standard library, and Flocq's definition
  of IEEE 754 arithmetic for the float32 properties. Flocq adds no axioms.
* Shallow embedding: every modelled Python function is a total Gallina function
  with the same branches in the same order, and carries a comment citing the
  file and lines in /repo that it models, with every simplification named there.
* Python exceptions (`assert`, `raise`, KeyError, IndexError, ...) are values of
  `result A := Ok a | Raise e`.  Jit-compiled array code is modelled with
  explicitly bounds-checked accesses (numba does not check bounds, so an access
  that would be out of bounds is an error value that theorems exclude).
* Unbounded loops carry fuel; theorems show that the fuel given is sufficient.
* Randomness: programs that draw are trees (`rprog`) whose nodes are the draws
  the code makes, with the weights the code computes. Three readings of
  the same tree: `may_return` (every outcome whatsoever: safety properties),
  `prob`/`expect` (exact distribution: probabilistic properties) and execution with
  explicit uniforms.
* Floating point is idealised: integers are exact unless the storage type
  matters (int8/int16/int32 are modelled where a property depends on it), floats are
  real numbers.  The exceptions are the properties on float32 (C66, C67, C74, C75, C77, C80 to C91), whose models
  round as IEEE 754 does and bound the distance to the real-number algorithm.
* External libraries (numpy primitives, scipy's minimum_spanning_tree, gammaln,
  csv, pickle, gzip, hash-ordering of sets) are modelled by their documented contract, as a function,
  an oracle argument universally quantified in the theorem, or a hypothesis of the theorem.

File layout (`rocq/theories`):

* `Base.v` – result monad, list helpers.  `Spec_*.v` – small specifications
  (graphs, trees, eccentricity, sums over assignments, ...), written without
  reference to the model.
* `M_*.v` – the model, one file per Python module (or per coherent part).
* `L_*.v` – proofs.
* `Properties_*.v` – the property theorems, each closed by `exact`, each with a
  `Print Assumptions`, and with examples showing hypotheses are satisfiable.

A property that the faithful model violates is stated as `..._refuted` with the
witness, next to the strongest true version, which is named `..._partial`.

## 2. Plan per property

| id | model | proof |
|----|-------|-------|
| C01 | find_complete_edge, make_complete_graph on nat | arithmetic, induction on V |
| C02 | make_tree/TreeStructure as sorted edge lists | uniqueness of sorted permutations |
| C03 | find_center_of_tree queue machine | peeling levels = subtree heights from the last vertex |
| C04 | make_propagation_program, BFS with fuel | BFS invariant on trees |
| C05 | sample_tree over bounds-checked arrays | invariant: adjacency arrays represent the tree minus/plus an edge |
| C06 | find_valid_edges | as C05, DFS marks exactly one component |
| C07 | sample_tree as kernel | detailed balance of one edge move; symmetry under relabelling |
| C08 | estimate_tree with MST oracle | shift by constant; cut/exchange not needed given oracle contract; Kruskal as witness of the contract |
| C09 | triangular_to_square | integer square root argument |
| C10 | print_tree stack machine | induction over DFS |
| C11 | order_vertices with an arbitrary iteration order | DFS invariant |
| C12 | sample_from_probs over R | induction over weights |
| C13 | quantize_from_probs2 over R (or Q) | greedy/exchange argument |
| C14 | ragged helpers | induction |
| C15 | config (de)serialisation on strings | decimal printing injective, separators |
| C16, C17 | make_annealing_schedule over Z/Q | invariant on the annealing state |
| C18 | TreeCatTrainer operations | invariant over operation histories |
| C19 | train loop | composition of C05, C16, C18, Permutation oracle |
| C20 | compute_edge_logits | refuted for |added| = V < N; partial otherwise |
| C21 | _par/_seq | permutation-independence of writes to distinct cells |
| C22 | treecat_add_row as rprog | forward filtering backward sampling on trees |
| C23 | logprob, remove_row/add_row | C22 + Gamma recurrence |
| C24 | train_ensemble / parallel_map | oracle RNG seeded first |
| C25 | TreeCatServer.__init__ | algebra on consistent statistics |
| C26, C27 | logprob | belief propagation = sum over assignments |
| C28, C29 | sample | FFBS as C22 |
| C30 | marginals | refuted (sibling evidence); characterisation |
| C31 | median | C13 + C30 |
| C32 | observed_perplexity | refuted: counts ignored, None crashes |
| C33, C34 | latent_perplexity, latent_correlation | entropy bounds (Gibbs' inequality), data processing |
| C35, C36 | EnsembleServer | mixture algebra; conditional sampling refuted |
| C37, C38 | DataServer.logprob / median | refuted (TypeError / AssertionError) |
| C39, C40 | DataServer.sample / feature_density | composition with C41 |
| C41-C43 | import/export/load_data | cell by cell; degenerate ordinals refuted |
| C44 | normalize_string on ASCII | induction over strings |
| C45-C48 | guess_schema/load_schema | list algebra; sources and groups refuted |
| C49 | split_data | permutation oracle |
| C50 | read_param_csv | list algebra |
| C51 | file-system state machine with crash points | refuted; partial for crash-free |
| C52 | server constructors, sample_tree of both servers | C05, C08 composed; means of logits |
| C53 | load_schema | both directions of an iff, loop invariants |
| C54 | DataServer.sample | C29, C36 pushed through export_rows (injective on legal rows) |
| C55 | read_param_csv + split_data | refuted with default options; partition when the size is given |
| C56 | process_eval_task | C26, C31 and the masks of C49 |
| C57 | generate_tree | C05 iterated |
| C58 | generate_fake_model, generate_fake_ensemble | counting invariants |
| C59 | generate_clean_dataset | C25, C28 and C29 for its model |
| C60 | generate_dataset, Table | loop invariants; int8 wrap |
| C61 | generate_clean_dataset, estimate_tree | pair distribution along a path; uniqueness of the maximal tree by exchange |
| C62 | TreeTrainer.train, sample_tree, add_row, remove_row, logprob | full epochs as random programs; tree step by C07 through edge_logits, row steps by C23; both in terms of one joint mass |
| C63 | TreeCatTrainer.logprob | sum over datasets of a pattern by induction on the rows; each row adds the constant N + M/2 by the normalisation C27 of the model after N rows |
| C64 | train, train_task, process_train_task, eval, process_eval_task over a file system with missing, truncated and complete files | invariant over histories: a complete file is the model of the config its name encodes (C15: names are injective); stable insertion sort |
| C65 | train and its epochs as distributions (as C62) | Doeblin: the kernel of one epoch is positive on a finite state space (sample_tree reaches every tree, add_row every class), so it contracts; C62 names the limit |
| C66 | add_row, remove_row, set_edges and sample_from_probs over Flocq's IEEE float32/float64 | interval invariants (powers of two) over the propagation program and over all histories; refuted by computing a run for long ordinals |
| C67 | the server's tables and logprob over Flocq's IEEE float32; sum, power, log and dot of the numerical libraries as oracles with accuracy contracts | interval invariants over the propagation program; refuted for long ordinals by following the underflow through the program of any tree |
| C68 | __main__.train and the composition guess_schema, import_data, train_ensemble, serve_model | from C45, C43, C19, C24 and C39: a guessed schema accepts its own files and its ranges fit; trained models are consistent |
| C69 | plotting.plot_circular, contract_positions, plot_chord; matplotlib is the list of things drawn | from C09 (order_vertices), C38, C39 and planar geometry: neighbours on the circle are at least a chord apart; refutations by computation |
| C70 | plotting.plot_feature_overlap, nx_plot_tree | from C08 and C09; scipy's leaves_list is an oracle |
| C71 | plotting.add_panning_to_svg on a file system, as the list of states it passes through | induction on the lines of the file |
| C72 | format.pd_outer_join; pandas' set_index, join, fillna, sort_index on lists of rows | induction on the tables: each step is, key by key, the product with the next table |
| C73 | plotting.layout_tree; scipy's eigh as an oracle | kernel of the Laplacian is the span of the constant vector iff features are tied; Courant-Fischer from the ordered orthonormal eigensystem |
| C74 | TreeCatServer.sample in float32 (Flocq) | lower and upper bounds of all messages; draws from usable weights as in C66; NaN is absorbing for the refutation |
| C75 | TreeCatServer.marginals in float32 (Flocq) | lower and upper bounds of all messages by distance from the root, sums of rounded quotients; zero and NaN propagate for the refutation |
| C76 | load_schema as in C53 | each check is matched with the branch that makes it; folds raise what their steps raise |
| C77 | TreeCatServer.logprob in float32 (Flocq) beside the same loop in exact arithmetic | relation between the messages of the two loops (equal up to a factor within exp of the error collected so far); lower bounds keep products above the subnormal range; the refuting case is computed by the kernel |
| C78 | sample_tree with its counters; ProfileTimer under any forest of calls | the counted program erases to sample_tree; an invariant of the sweep as in C05; induction on the size of the forest |
| C79 | the commands on the files of C51, with training, serving and cross validation as modelled for C19, C25, C64 | C51 for the file, C60 for the dataset, C19 for the model, C26, C28, C31, C34 for what is served, C64 and C56 for the scores |
| C80 | the float32 tables of C67 and the program of C74, with its draws idealised | the float32 messages agree up to scale with the exact recurrence on themselves; that recurrence is the belief propagation of nearly the right joint weights; every share of nearly proportional weights is nearly right |
| C81 | sample_from_probs32 on all multiples of 2^-53, runs of fprog programs on all lists of them | counting the thresholds below each cumulative sum, whose rounding errors are bounded; then induction over the program and C80 |
| C82 | add_row32 after any history (reachable32), ideal draws and runs on all outputs of the generator | relative error of every message of the inward and outward pass, over the tree; the drift of the table from C83; then the exact conditional of C22 |
| C83 | t_eprobs over any history | invariant: entries stay within two roundings of the count, because a sum rounded above is rounded to the same grid again; powers of two are exact |
| C84 | sample_tree32 line by line in float32; run_prob over all outputs of the generator, averaged over all orders | simulation of the float32 program by the exact one, draw by draw, with a bound on the total variation of each draw; then C05 and C07 |
| C85 | compute_edge_logits and TreeTrainer.sample_tree line by line in float32; gammaln and ndarray.sum as arguments | backward error bound of sums in float32, the invariant of C66 for the counts, then C84 and a perturbation bound of the normalised tree masses |
| C86 | estimate_tree line by line in float32; minimum_spanning_tree as an argument meeting its contract on the rounded weights | error bound of each rounded weight against the logit, then optimality of the routine on the rounded weights |
| C87 | train line by line over the float32 trainer, with draws and permutations as the effects of a small program type | the invariant of C66 and C85 through the schedule and the full epochs, then C86 on the final logits |
| C88 | the float32 run of C87 with every draw weighted by the share of the 2^53 outputs of rand that cause it | C82 for each row and C84 with C85 for each tree move, composed and compared with the exact chain of C65, whose contraction keeps the errors from adding up |
| C89 | logprob of every member in float32, scipy's logsumexp and the subtraction of the logarithm of the ensemble size | C77 for each member; a lower bound on row probabilities; Lipschitz bounds for exp and ln carry the roundings of logsumexp through |
| C90 | the in-place float32 sum and division of the members' arrays, then estimate_tree in float32 | induction over the members for each entry, finite or not; C86 for the tree |
| C91 | float32 weights, numpy's check of the sum of the probabilities, the split of the samples, the members' samples and the shuffle | each weight is near 1/size because a correctly rounded quotient is; a hybrid argument over the draws; C36 for the rows |
| C92 | csv files as headers and rows of strings, pandas' reading of missing values, split(','), pd_outer_join, to_csv | C72; the picks of the join of a join are those of all tables; the join is unique up to the order of its rows |
| C93 | numpy arrays as references to shared memory with a dtype and a writeable flag; Table.__init__ as operations on them | invariant: no writeable array refers to the memory of the table |
| C94 | code with nested with statements, exceptions and assignments of options | induction over the code: the names of the options never change, and setting all options again restores them |
| C95 | files as strings by name; pickle, jsonpickle, gzip and sha1 as functions | case analysis; induction over the history and the list of paths |

## 3. Trusted base

1. Coq 8.16.1's kernel (and `coqchk`, which re-checks the compiled files).
2. The correspondence between /repo and the `M_*.v` files, which is by reading.
   Each definition cites the lines it models.
3. The idealisations of section 1: float32/float64 arithmetic is real
   arithmetic (except in C66, C67, C74, C75, C77 and C80 to C91, where it is IEEE 754 arithmetic, rounding to nearest
   even, as given by Flocq, one rounding per numpy or numba operation); Python integers are `Z` or `nat`; int8 wraps where the code
   stores into int8 (`int8`), other integer types do not overflow.
4. The oracles below, each an argument or hypothesis of the theorems that use it,
   never an axiom.
5. The axioms of Coq's standard library listed per theorem below.  They come from
   the classical real numbers (`ClassicalDedekindReals.sig_not_dec`,
   `sig_forall_dec`), from `FunctionalExtensionality.functional_extensionality_dep`
   and from `Classical_Prop.classic` (used by the real analysis library).  No
   axiom is declared in this development, no kernel check is switched off.

### Oracles

| oracle | stands for | assumed |
|--------|-----------|---------|
| nodes of `rprog` | np.random.choice / uniform / permutation / bernoulli in the code | safety theorems: nothing (every outcome); distribution theorems: the stated weights |
| `ideal` (Spec_Law, C80, C82) | draws from float32 weights | entry i has exactly its share of the weights; C81 and `C82_of_the_generator_partial` do without: `run_prob` counts outputs of the generator |
| `rand_of` (Spec_Law, C81, C82, C84) | np.random.rand() | independent multiples of 2^-53 below 1, all equally likely |
| `mst` | scipy.sparse.csgraph.minimum_spanning_tree | `mst_contract`: a minimal spanning tree over the stored (nonzero) entries when one exists; shown satisfiable (`C08_contract_is_satisfiable`) |
| `iter` | iteration order of Python sets (order_vertices) | a permutation of the set |
| `gammaln`-table | scipy.special.gammaln | values of a function with the recurrence G(x+1) = G(x) + ln x where used (C23) |
| `rng` (M_Ensemble, M_Validate) | the generators reset by set_random_seed | the draws after seeding are a function of the seed (`rng_contract` for split_data: entries in range) |
| `dot` (M_Train32) | np.dot on float32 vectors (BLAS) | `dot_ok`: bounds that hold for any order of summation; satisfied by the sequential sum (`C66_case`); C82 also assumes `dot_accurate` (Spec_TrainLaw): relative error eta when no product underflows; satisfied by the sequential sum (`C82_case`) |
| `numlib` (M_Serving32) | ndarray.sum, `**`, np.log and np.dot on float32 | `lib_ok`: sums within 1/128, powers within a factor of two unless they underflow, logarithms of positive numbers finite and at most 128 in size, -inf at 0, NaN at NaN; satisfied by `lib0` (`C67_case`); C77 also assumes `accurate` (Spec_Accuracy): relative error eta of sums, dot products and powers that do not underflow, absolute error lambda of logarithms; satisfied by `lib0` (`C77_case`); `C74_long_ordinals_refuted` and `C75_deep_trees_refuted` also assume `dot_nan`: a NaN in a vector makes np.dot NaN; the latter also `dot_zero`: np.dot of finite numbers with zeros is zero |
| `log_size` (M_Ensemble32) | np.log of the number of members, cast to float32 | `log_size_ok` (Spec_Ensemble32): finite, at most 128 in size, error at most lambda up to 2^16; satisfied by `log_size0` (`C89_case`) |
| `kahan` (M_EnsSample32) | the compensated float64 sum with which np.random.multinomial checks its probabilities | `kahan_ok` (Spec_EnsSample32): relative error at most 2^-50 on numbers that are not negative; satisfied by the exact sum (`C91_case`) |
| `exp32`, `sum` (M_SampleTree32) | np.exp and ndarray.sum on float32 | `exp_ok` (Spec_Tree32): absolute error eta at and below 0, nonnegative, 1 at 0, 0 at minus infinity, NaN at NaN; `sum_ok`: sums within 1/128 and at least every entry, NaN at NaN; satisfied by `exp0` and `seq_sum` (`C84_case`) |
| `gammaln32`, `sum` (M_Logits32) | scipy.special.gammaln and ndarray.sum on float32 | `gammaln_ok` (Spec_Logits32): finite and within delta of `lg` at the counts of the table plus a prior; `sum_near`: an error of 2^-23 of the sum of the sizes per entry; satisfied by `g0` and `seq_sum` (`C85_case`); `lg` itself is any function, log-gamma being the intended one |
| `mst` (M_EstimateTree32) | scipy's minimum_spanning_tree on float32 weights | `mst_contract` on the real values of the weights; zero and infinite weights are absent edges, as scipy takes them; for graphs that are not connected `mst_forest` (Spec_Run32): edges of the graph, without cycles |
| `us`, `ps` (M_Run32) | np.random.rand and np.random.permutation/shuffle | `generators` (Spec_Run32): a number in [0,1) and a permutation of range(n) each; satisfiable by `C87_generators` |
| `junk` | content of np.empty arrays | nothing: theorems hold for all contents |
| `float_`, csv reader, json | Python's float(), csv.reader rows | csv files are lists of rows of strings; float_ arbitrary |
| file system (M_Cache) | names to contents; a crash truncates the file being written | nothing else crashes; one process at a time |
| `leaves` (M_Plot2) | scipy.cluster.hierarchy.leaves_list of the complete linkage | a permutation of the columns |
| `eigh` (M_Layout) | scipy.linalg.eigh | an orthonormal eigensystem, eigenvalues ascending, without rounding |
| `codecs` (M_Pickle) | pickle, jsonpickle, gzip, sha1 | `codecs_ok` (Spec_Pickle): decoding inverts encoding; sha1 does not collide on the two encodings compared; satisfied by `lib0` (`C95_case`) |
| `na` (M_JoinFiles) | the strings that pandas reads as NaN | the empty string is one |
| `arrange` (M_Join) | the order into which pandas brings joined rows | a permutation |
| `draw`, `asg`, `logits` (M_Generate) | numbers drawn by numpy | shapes and ranges only |

### What `Print Assumptions` lists

* **Closed under the global context (no axioms)**: `C01_edge_numbering_is_a_bijection`, `C02_equal_iff_same_undirected_edges`, `C02_initial_tree_is_the_path`, `C02_make_tree_is_canonical`, `C02_set_edges_checks_length_and_get_edges_returns_canonical_list`, `C03_center_has_minimal_eccentricity`, `C04_default_root_is_a_center`, `C04_operands_fit_int16`, `C04_propagation_program_valid`, `C09_triangular_to_square_unpacks`, `C10_print_tree_is_a_faithful_outline`, `C11_order_vertices_permutes_and_keeps_branches_together`, `C14_counts_are_block_sums`, `C14_counts_wrap_refuted`, `C14_guess_counts_is_the_maximum`, `C14_ragged_index_tiles`, `C14_ragged_mask_follows_owner`, `C15_make_config`, `C15_malformed_strings_are_rejected`, `C15_negative_values_do_not_roundtrip`, `C15_roundtrip`, `C15_serialize_domain`, `C15_serialize_is_injective`, `C16_bad_arguments_rejected`, `C16_schedule_is_legal_and_complete`, `C16_schedule_terminates`, `C17_tree_sampling_cadence`, `C32_default_counts_refuted`, `C41_export_inverts_import`, `C42_numbers_count_as_their_integer`, `C42_other_invalid_values_are_ignored_partial`, `C42_repaired_invalid_values_are_ignored`, `C42_unknown_features_are_ignored_partial`, `C43_csv_loading_is_row_import`, `C44_normalize_string_is_idempotent_and_tidy`, `C44_normalize_string_joins_lower_case_words`, `C45_guessing_succeeds_iff_every_file_has_a_header`, `C46_repaired_source_column`, `C46_source_column_partial`, `C46_source_column_refuted`, `C48_integers_are_read_as_written`, `C49_every_cell_is_held_out_once`, `C49_masks_hold_out_whole_cells`, `C49_other_parts_are_rejected`, `C49_training_and_evaluation_data`, `C50_bad_cells_are_rejected`, `C50_every_config_has_a_model_file`, `C50_model_files_do_not_collide`, `C50_read_param_csv_expands_every_row`, `C50_reserved_names_are_rejected`, `C50_unknown_parameters_are_rejected`, `C51_datasets_partial`, `C51_models_partial`, `C51_other_rates_are_returned_refuted`, `C51_repaired_datasets`, `C51_repaired_models`, `C51_the_name_decides_the_format`, `C51_truncated_files_are_returned_forever_refuted`, `C55_cells_never_held_out`, `C55_folds_are_complete_partial`, `C55_folds_refuted`, `C55_repaired_folds_are_complete`, `C60_generated_cells_are_the_draws`, `C60_no_categories_is_an_error`, `C64_files_are_models_of_their_config`, `C64_training_covers_the_file_in_order`, `C71_add_panning_keeps_the_other_lines`, `C71_add_panning_touches_only_its_target`, `C71_add_panning_twice_is_refused`, `C71_add_panning_wraps_the_drawing`, `C71_crashes_keep_the_drawing_refuted`, `C71_repaired_crashes_keep_the_drawing`, `C72_all_names_are_joined_refuted`, `C72_distinct_keys_are_joined_in_one_row`, `C72_missing_column_raises_KeyError`, `C72_pd_outer_join_is_the_outer_join`, `C72_repaired_join_is_the_outer_join`, `C76_checks_have_one_outcome`, `C92_a_stopped_join_can_be_run_again`, `C92_join_csvs_writes_the_outer_join`, `C92_joining_in_place_refuted`, `C92_joining_in_steps_is_joining_at_once`, `C92_names_with_commas_refuted`, `C93_categorical_data_refuted`, `C93_int8_data_become_read_only`, `C93_repaired_tables_are_read_only`, `C93_tables_are_read_only_partial`, `C93_views_refuted`, `C94_options_leak_from_a_body_that_raises`, `C94_print_options_are_restored_partial`, `C94_print_options_are_restored_refuted`, `C94_repaired_print_options_are_restored`, `C95_cat_prints_the_files_in_order`, `C95_failed_calls_change_nothing_refuted`, `C95_fingerprints_identify_objects`, `C95_other_names_are_refused`, `C95_repaired_calls_save_the_same`, `C95_repaired_failed_calls_change_nothing`, `C95_saved_data_are_read_back`
* **`classic`, `functional_extensionality_dep`, `sig_forall_dec`**: `C08_estimate_tree_maximises_likelihood`, `C25_server_tables_are_positive_normalised_and_consistent`, `C28_ensemble_samples_have_the_requested_counts`, `C28_samples_have_the_requested_counts`, `C30_exact_at_the_root_partial`, `C30_exact_when_all_evidence_is_in_line_partial`, `C30_marginals_are_posteriors_given_evidence_in_line_partial`, `C30_marginals_ignore_evidence_refuted`, `C30_repaired_marginals_are_posteriors`, `C31_median_is_legal_and_optimal`, `C36_ensemble_samples_mix_the_members_conditionals_partial`, `C38_median_is_the_best_guess_partial`, `C38_median_of_a_list_partial`, `C38_median_of_one_row_refuted`, `C38_mode_is_not_implemented`, `C39_imported_datasets_are_served`, `C39_sample_returns_full_legal_rows`, `C39_serve_model_takes_a_model_or_several`, `C40_feature_density_of_an_imported_dataset`, `C52_ensemble_tree_maximises_the_mean_logits`, `C59_clean_categories_are_uniform`, `C59_clean_rows_are_complete`, `C61_correlation_decays_with_distance`, `C61_nearer_features_agree_more`, `C61_the_tree_is_recovered`, `C73_repaired_layout_of_untied_features_raises`, `C74_the_repair_keeps_the_distribution`, `C75_the_repair_keeps_the_marginals`
* **`classic`, `functional_extensionality_dep`, `sig_forall_dec`, `sig_not_dec`**: `C19_train_model_returns_a_valid_model`, `C19_training_ends_in_a_valid_model`, `C20_edge_logits_depend_only_on_subsample_refuted`, `C23_gibbs_updates_leave_posterior_invariant`, `C25_trained_models_are_consistent`, `C26_logprob_does_not_depend_on_the_root`, `C26_logprob_is_the_log_of_the_sum_over_all_classes`, `C26_logprob_rejects_other_shapes`, `C27_complete_rows_have_total_probability_one`, `C27_summing_over_a_feature_leaves_it_unobserved`, `C27_the_empty_row_has_logprob_zero`, `C29_one_sample_is_distributed_as_logprob_says`, `C29_samples_are_independent_and_distributed_as_logprob_says`, `C29_without_evidence`, `C32_counts_are_ignored_refuted`, `C32_draws_entropy_bounds`, `C32_ensemble_observed_perplexity_partial`, `C32_multinomial_entropy_is_exact`, `C32_multinomial_entropy_unsupported`, `C32_observed_perplexity_of_one_draw_partial`, `C32_repaired_observed_perplexity`, `C33_ensemble_latent_perplexity_between_1_and_M`, `C33_latent_perplexity_between_1_and_M`, `C34_ensemble_latent_correlation`, `C34_latent_correlation_is_exact`, `C35_ensemble_logprob_is_normalised`, `C35_ensemble_logprob_is_the_uniform_mixture`, `C36_ensemble_samples_given_evidence_refuted`, `C36_ensemble_samples_without_evidence_partial`, `C36_repaired_ensemble_samples_given_evidence`, `C37_logprob_given_evidence_refuted`, `C37_logprob_without_evidence_partial`, `C37_repaired_logprob_given_evidence`, `C38_repaired_median_is_the_best_guess`, `C52_ensemble_sampled_trees_span`, `C52_sampled_trees_span`, `C54_categorical_samples`, `C54_samples_have_the_models_distribution`, `C54_samples_have_the_probabilities_logprob_reports`, `C56_evaluation_scores`, `C62_epochs_leave_the_posterior_invariant`, `C63_logprob_is_normalised_equally`, `C63_without_data_trees_follow_the_prior`, `C64_after_training_every_config_is_scored`, `C64_eval_reports_every_config`, `C64_scores_are_of_the_configs_own_model`, `C65_training_converges_to_the_posterior`, `C66_categorical_tables_partial`, `C66_draws_take_positive_weights`, `C66_long_ordinals_refuted`, `C66_repaired_training_draws_are_usable`, `C66_training_draws_are_usable_partial`, `C67_categorical_rows_partial`, `C67_few_observations_partial`, `C67_logprob_is_finite_partial`, `C67_long_ordinals_refuted`, `C67_repaired_logprob_is_finite`, `C67_the_repair_keeps_the_value`, `C68_imported_datasets_are_trained_and_served`, `C68_the_workflow_serves_the_files`, `C69_plot_circular_never_raises`, `C69_plot_circular_of_one_feature_refuted`, `C69_plot_circular_shows_the_features_and_the_trees`, `C70_nx_plot_tree_scales_by_perplexity`, `C70_overlaps_are_shown_by_tree`, `C73_latent_correlations_are_correlations`, `C73_repaired_layout_of_one_cluster_raises`, `C74_categorical_evidence_gives_rows_partial`, `C74_few_observations_partial`, `C74_long_ordinals_refuted`, `C74_repaired_sample_draws_are_usable`, `C74_sample_draws_are_usable_partial`, `C74_samples_given_nothing_are_usable`, `C75_deep_trees_refuted`, `C75_few_observations_partial`, `C75_marginals_are_probabilities_partial`, `C75_repaired_marginals_are_probabilities`, `C77_few_observations_partial`, `C77_logprob_is_accurate_partial`, `C77_wide_trees_refuted`, `C79_after_a_killed_write_serve_fails`, `C79_after_a_killed_write_they_fail`, `C79_eval_ignores_the_number_of_categories`, `C79_eval_runs`, `C79_serve_runs`, `C79_train_runs`, `C79_unknown_tools_are_refused`, `C80_samples_follow_the_model_partial`, `C81_one_draw`, `C81_programs`, `C81_samples_of_the_generator_partial`, `C82_of_the_generator_partial`, `C82_training_draws_from_the_conditional_partial`, `C83_exact_for_powers_of_two_partial`, `C83_exact_refuted`, `C83_table_follows_counts_partial`, `C84_the_posterior_is_nearly_invariant_partial`, `C84_tree_moves_follow_the_exact_sampler_partial`, `C85_logits_are_near_the_scores_partial`, `C85_the_posterior_given_the_classes_is_nearly_invariant_partial`, `C85_the_tree_is_resampled_from_the_logits_partial`, `C86_the_float32_tree_is_nearly_the_best`, `C86_without_an_allowed_tree_an_assertion_fails`, `C87_runs_of_the_generators`, `C87_training_ends_in_a_valid_model_partial`, `C88_training_in_float32_approaches_the_posterior_partial`, `C89_ensemble_logprob_in_float32_partial`, `C90_ensemble_tree_in_float32`, `C90_without_a_common_tree_an_assertion_fails`, `C91_members_share_the_samples_equally`, `C91_sampled_rows`, `C91_sampled_trees`
* **`functional_extensionality_dep`, `sig_forall_dec`**: `C12_every_outcome_is_modelled`, `C12_sample_from_probs2_per_row`, `C12_sample_from_probs_is_exact`, `C13_quantize_is_exact_and_optimal`, `C18_accepted_calls_have_their_effect`, `C18_rejected_calls_change_nothing`, `C18_statistics_are_counts_from_scratch`, `C19_construction_succeeds`, `C20_edge_logits_partial`, `C20_repaired_edge_logits_depend_only_on_subsample`, `C21_lookups_in_bounds`, `C21_parallel_equals_sequential`, `C21_trainer_lookups_in_bounds`, `C22_add_row_draws_from_full_conditional`, `C22_with_the_trainers_program`, `C23_every_matrix_is_reachable`, `C31_ensemble_median_is_not_implemented`, `C40_feature_density_is_the_fraction_of_observing_rows`, `C40_feature_density_of_wide_ordinals_refuted`, `C47_repaired_cliques_refuted`, `C59_clean_observations_are_reliable`, `C62_every_tree_and_matrix_is_reachable`, `C63_states_exist`, `C66_the_repair_keeps_the_distribution`, `C73_layout_tree_is_a_spectral_layout_partial`, `C73_layout_tree_returns_a_layout_refuted`, `C73_repaired_layout_of_few_features_raises`, `C78_timers_add_up`, `C78_timers_of_running_functions_are_negative`
* **`functional_extensionality_dep`, `sig_forall_dec`, `sig_not_dec`**: `C05_sample_tree_always_spanning_and_in_bounds`, `C06_candidates_are_the_bridging_pairs`, `C07_sample_tree_leaves_posterior_invariant`, `C24_configs_that_are_refused`, `C24_ensemble_is_deterministic`, `C24_missing_settings_raise`, `C24_train_model_ignores_generator_history`, `C57_generate_tree_spans`, `C58_fake_ensembles_are_consistent`, `C58_fake_models_are_consistent`, `C62_epochs_end_in_a_listed_state`, `C65_sample_tree_reaches_every_tree`, `C68_without_features_it_raises`, `C69_contract_positions_pulls_along_every_edge_refuted`, `C69_contract_positions_pulls_along_two_edges`, `C69_curves_stay_inside_the_circle`, `C69_repaired_contract_positions_pulls_along_every_edge`, `C70_other_methods_are_refused`, `C70_overlaps_are_shown_by_cluster`, `C78_counting_changes_nothing`, `C78_sample_tree_statistics_add_up`
* **`sig_forall_dec`**: `C41_constant_ordinals_refuted`, `C41_wide_ordinals_refuted`, `C42_invalid_values_are_ignored_refuted`, `C43_repeated_columns_refuted`, `C45_guessed_schemas_load`, `C47_groups_are_loaded_refuted`, `C47_prior_without_groups_is_flat_partial`, `C47_repaired_cliques_set_the_prior`, `C47_repaired_groups_set_the_prior`, `C48_loaded_schemas_are_coherent`, `C48_schema_layout_matches_the_files`, `C53_which_schema_files_load`, `C76_what_is_raised_for_schema_files`

### Modelled

| file in /repo/treecat | parts | model |
|------|-------|-------|
| structure.py | everything except `gc`, profiling decorators and the numba compilation | M_Structure, M_SampleTree, M_EstimateTree, M_Profile, in float32 M_SampleTree32 and M_EstimateTree32 |
| util.py | sample_from_probs(2), quantize_from_probs2, ragged helpers, set_random_seed, parallel_map, profiling statistics, np_printoptions | M_Util, M_Rand, M_Array, M_Ensemble, M_Profile, M_Options (with its repair) |
| config.py | everything | M_Config |
| tables.py | Table | M_Training, M_Generate, for sharing and write protection M_Tables, which has its repair too |
| training.py | schedule, TreeTrainer, TreeCatTrainer, train_model, train_ensemble; TreeGaussTrainer and TreeMogTrainer only as far as which exception they raise | M_Schedule, M_Training, M_Parallel, M_Ensemble, M_Float32, M_Train32, M_Logits32, M_Run32; repairs in M_Repaired3 and M_Repaired7 |
| serving.py | everything except file names in serve_model and `mode` beyond its NotImplementedError | M_Serving, M_EnsembleServer, M_DataServer, in float32 M_Serving32, M_Sample32, M_Marg32, M_Ensemble32 and M_EnsSample32; repairs in M_Repaired, M_Repaired2, M_Repaired4, M_Repaired8, M_Repaired9, M_Repaired10 |
| format.py | normalize_string, guess_schema, load_schema, load_data, import_rows, export_rows, import_data, pd_outer_join on one column, read_csv and join_csvs on files of strings; pickle_dump/load as file-system operations, fingerprint, cat | M_Strings, M_Format, M_Cache, M_Pickle (with its repair), M_Join, M_JoinFiles; repairs in M_Groups, M_Repaired3, M_Repaired5 |
| validate.py | split_data, read_param_csv, train_task, process_train_task, train, process_eval_task, eval; the trained model is a function of data and config | M_Validate, M_Workflow; repair in M_Repaired3 |
| generate.py | everything; the dirichlet/poisson/multinomial draws are arguments | M_Cache, M_Generate; repair in M_Repaired4 |
| plotting.py | everything, with eigenvectors from an oracle; matplotlib calls are the list of things drawn, networkx graphs lists of nodes and edges | M_Plot, M_Plot2, M_Layout; repair in M_Repaired5 |
| \_\_main\_\_.py | train; what the commands do together | M_Main |
| profile.py | train, serve, eval, train_files, serve_files, run_with_tool | M_Commands |

### Not modelled

The profilers started by profile.py (taken to run the command once and keep its assertions), the command line parsing of profile.py and `__main__.py`, the series of training.py:206, logging, encodings of csv files, pickling and gzip of contents (oracles in C95),
quoting, ragged rows and repeated columns of the csv files that pandas reads and writes, the numerical code of TreeGaussTrainer,
subprocesses of validate.py (only their effect, train_task), processes of
multiprocessing (parallel_map is a map over tasks in an arbitrary order, each with its own
generators), floating-point rounding outside C66, C67, C74, C75, C77 and C80 to C91, numba's unchecked array accesses (shown not to happen).

## 4. Findings

Violations of properties, each a theorem with a witness or for all inputs:

| id | finding | where |
|----|---------|-------|
| C14 | counts of more than 127 observations of one feature wrap to negative in int8 | util.py:170-190 |
| C15 | a config with a negative value does not survive serialize/deserialize | config.py:30-45 |
| C20 | compute_edge_logits decides whether to subsample by comparing the number of added rows with V instead of N: with V rows added out of N it uses unassigned rows | training.py:584 |
| C30 | marginals: a leaf's evidence does not reach its siblings, so marginals are not the conditional marginals | serving.py:375-433 |
| C32 | observed_perplexity ignores counts, and the documented None raises | serving.py:439-463 |
| C36 | ensemble sampling given evidence does not reweight the members by the evidence | serving.py:554-564 |
| C37 | DataServer.logprob with evidence always raises TypeError | serving.py:715-736 |
| C38 | DataServer.median raises for a dict (AssertionError) and for ensembles (NotImplementedError) | serving.py:756-768 |
| C40, C41 | ordinals with more than 128 values wrap and read back as unobserved; constant ordinals vanish | format.py, serving.py |
| C42 | None, inf and lists as values raise in import_rows instead of being treated as missing | format.py:478-500 |
| C46 | the sources column written by guess_schema accumulates later files | format.py:186-264 |
| C47 | a groups file with any row makes load_schema raise ValueError. With that fixed, a feature that is both a source and a target of a group would give the group's logit to an unrelated pair (find_complete_edge(v, v) is another pair's edge) | format.py:317-340 |
| C51 | cached files: rates equal to one decimal collide; a file truncated by a crash is returned forever | generate.py:61-76, format.py:52-62 |
| C55 | without model_ensemble_size, 4 configs are made but each splits the data in 8 parts: half of the data are never held out | validate.py:64-112 |
| C66 | treecat_add_cell does not rescale its message, so for ordinals with many levels all float32 weights can underflow to 0; then class 0 is taken whatever is drawn | training.py:288-307 |
| C67 | logprob multiplies feature powers into a message without rescaling, so for ordinals with 128 levels the messages underflow to 0 at the first inward step and logprob is NaN or -inf | serving.py:352-366 |
| C69 | contract_positions adds forces with fancy indexing, which keeps only the last of several edges at a vertex; plot_circular of one feature with a contraction raises AssertionError | plotting.py:109-136 |
| C71 | add_panning_to_svg in place empties the file before writing: a crash loses the drawing | plotting.py:286-288 |
| C83 | the float32 table of edge probabilities is updated in place, so adding and removing a row leaves it slightly changed unless the number of classes is a power of two; the drift stays bounded | training.py:365-369, 396-400 |
| C77 | logprob rescales a message by its sum only, so at a feature with many neighbours the entry of one class can underflow to 0 and stay there although later neighbours favour it: the result is finite and wrong | serving.py:360-368 |
| C75 | marginals rescales messages on the inward pass only, so on trees of radius 9 or more with 64-level ordinals messages become 0 and marginals NaN | serving.py:418-424 |
| C74 | sample multiplies feature powers into a message without rescaling, so given ordinals of 128 levels the messages are 0/0 = NaN and class 0 is always drawn | serving.py:279-295 |
| C73 | layout_tree always raises ValueError: it passes eigvals=[1, 2, 3] to scipy.linalg.eigh, which unpacks a first and a last index (recent releases of scipy no longer take eigvals at all). With [1, 3] it would still raise AssertionError for models with one cluster (all correlations 0) and ValueError with less than four features | plotting.py:77 |
| C72 | pd_outer_join: a column whose name ends in _JOIN_ makes a later join raise AssertionError or is lost (its rename has no effect) | format.py:122-132 |
| C93 | Table: np.asarray does not copy int8 data, so that other views still write to the table and the caller's array becomes read-only; categorical_data is never made read-only | tables.py:39-65 |
| C92 | join_csvs rewrites csv_out in place, so that a join into one of its own files, stopped and run again, loses rows without notice; file names with commas cannot be joined | format.py:148-150 |
| C95 | pickle_dump empties the file before it encodes the data, so that a value that cannot be encoded destroys what was saved there; fingerprint leaves a copy of every object in /tmp/v1.json | format.py:54-59, 80-82 |
| C94 | np_printoptions does not restore the print options if the body raises | util.py:68-74 |
| C79 | profile.py eval takes a number of categories and never uses it | profile.py:125-132 |
| C60 | Poisson counts above 127 wrap; num_cats = 0 raises ZeroDivisionError | generate.py:28-58 |

Noted while modelling, without a property: validate.py runs training with `python -O`, so
failed assertions there go unnoticed; categorical values listed twice give a
phantom category; load_data of a file without rows divides by zero in its message;
model_latent_dim > 0 training raises; internalize_table is a TODO;
guess_feature_type's too-many-categories guard is unreachable.

## 5. Testing the theorems

`seeded/LOG.jsonl` has one line for each wrong program tried: the definition
edited, the edit, the claim it breaks, which theorems stopped proving and which
theorems were tightened as a result.
