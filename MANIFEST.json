{
 "claims": [
  {
   "property": "C01",
   "status": "proved",
   "theorems": [
    "C01_edge_numbering_is_a_bijection"
   ],
   "note": "all V"
  },
  {
   "property": "C02",
   "status": "proved",
   "theorems": [
    "C02_make_tree_is_canonical",
    "C02_equal_iff_same_undirected_edges",
    "C02_set_edges_checks_length_and_get_edges_returns_canonical_list",
    "C02_initial_tree_is_the_path"
   ],
   "note": "all edge lists"
  },
  {
   "property": "C03",
   "status": "proved",
   "theorems": [
    "C03_center_has_minimal_eccentricity"
   ],
   "note": "all trees"
  },
  {
   "property": "C04",
   "status": "proved",
   "theorems": [
    "C04_propagation_program_valid",
    "C04_default_root_is_a_center",
    "C04_operands_fit_int16"
   ],
   "note": "all trees and roots"
  },
  {
   "property": "C05",
   "status": "proved",
   "theorems": [
    "C05_sample_tree_always_spanning_and_in_bounds"
   ],
   "note": "all spanning trees, logits (incl. -inf) and random outcomes; for at most one edge the input is returned as is; NaN/+inf logits and int16 wrap-around (V >= 2^15) not modelled"
  },
  {
   "property": "C06",
   "status": "proved",
   "theorems": [
    "C06_candidates_are_the_bridging_pairs"
   ],
   "note": "in every state reachable during a sweep"
  },
  {
   "property": "C07",
   "status": "proved",
   "theorems": [
    "C07_sample_tree_leaves_posterior_invariant"
   ],
   "note": "all V, all logit vectors incl. -inf entries; draws and exp exact"
  },
  {
   "property": "C08",
   "status": "proved",
   "theorems": [
    "C08_estimate_tree_maximises_likelihood"
   ],
   "note": "real logits; relative to the stated contract of scipy's minimum_spanning_tree (mst_contract, shown satisfiable)"
  },
  {
   "property": "C09",
   "status": "proved",
   "theorems": [
    "C09_triangular_to_square_unpacks"
   ],
   "note": "all V >= 1 and all triangles; the float square root is replaced by the exact one"
  },
  {
   "property": "C10",
   "status": "proved",
   "theorems": [
    "C10_print_tree_is_a_faithful_outline"
   ],
   "note": "all trees, roots and names that can be told from indentation; text parsed back"
  },
  {
   "property": "C11",
   "status": "proved",
   "theorems": [
    "C11_order_vertices_permutes_and_keeps_branches_together"
   ],
   "note": "all trees and set iteration orders"
  },
  {
   "property": "C12",
   "status": "proved",
   "theorems": [
    "C12_sample_from_probs_is_exact",
    "C12_every_outcome_is_modelled",
    "C12_sample_from_probs2_per_row"
   ],
   "note": "all weights and draws; exact real arithmetic; degenerate weights covered by C12_every_outcome_is_modelled"
  },
  {
   "property": "C13",
   "status": "proved",
   "theorems": [
    "C13_quantize_is_exact_and_optimal"
   ],
   "note": "all rows, resolutions up to the int8 limit 127; exact real arithmetic"
  },
  {
   "property": "C14",
   "status": "proved",
   "theorems": [
    "C14_ragged_index_tiles",
    "C14_ragged_mask_follows_owner",
    "C14_counts_are_block_sums",
    "C14_guess_counts_is_the_maximum",
    "C14_counts_wrap_refuted"
   ],
   "note": "all widths, masks, tables; counts modulo the int8 storage, with the wrap-around stated"
  },
  {
   "property": "C15",
   "status": "proved",
   "theorems": [
    "C15_serialize_is_injective",
    "C15_serialize_domain",
    "C15_roundtrip",
    "C15_negative_values_do_not_roundtrip",
    "C15_malformed_strings_are_rejected",
    "C15_make_config"
   ],
   "note": "all integer configs; deserialize proved to invert exactly on nonnegative values and to raise on any negative one"
  },
  {
   "property": "C16",
   "status": "proved",
   "theorems": [
    "C16_schedule_terminates",
    "C16_schedule_is_legal_and_complete",
    "C16_bad_arguments_rejected"
   ],
   "note": "Floats idealised as rationals (no rounding). Termination, legality, completeness, epochs=1, and both bounds on the number of additions."
  },
  {
   "property": "C17",
   "status": "proved",
   "theorems": [
    "C17_tree_sampling_cadence"
   ],
   "note": "Floats idealised as rationals (no rounding)."
  },
  {
   "property": "C18",
   "status": "proved",
   "theorems": [
    "C18_statistics_are_counts_from_scratch",
    "C18_rejected_calls_change_nothing",
    "C18_accepted_calls_have_their_effect"
   ],
   "note": "Histories: any sequence of add_row/remove_row/set_edges with existing row ids and edge lists that are spanning trees or of the wrong length."
  },
  {
   "property": "C19",
   "status": "proved",
   "theorems": [
    "C19_training_ends_in_a_valid_model",
    "C19_construction_succeeds",
    "C19_train_model_returns_a_valid_model"
   ],
   "note": "all tables with 1..2^15 multinomial features, all configs with 1..128 clusters, all random outcomes; relative to mst_contract for scipy's routine; schedule arithmetic in rationals, statistics as unbounded integers"
  },
  {
   "property": "C20",
   "status": "partial",
   "theorems": [
    "C20_edge_logits_depend_only_on_subsample_refuted",
    "C20_edge_logits_partial",
    "C20_repaired_edge_logits_depend_only_on_subsample"
   ],
   "note": "Refuted as stated (line 584 compares with V instead of N): C20_edge_logits_depend_only_on_subsample_refuted. The partial theorem covers every state except |added| = V < N; with N in place of V the full claim is proved (C20_repaired_edge_logits_depend_only_on_subsample)"
  },
  {
   "property": "C21",
   "status": "proved",
   "theorems": [
    "C21_parallel_equals_sequential",
    "C21_lookups_in_bounds",
    "C21_trainer_lookups_in_bounds"
   ],
   "note": "Small-step interleaving of all iterations, each with private registers; shared memory is the output array."
  },
  {
   "property": "C22",
   "status": "proved",
   "theorems": [
    "C22_add_row_draws_from_full_conditional",
    "C22_with_the_trainers_program"
   ],
   "note": "Exact real arithmetic; counts nonnegative."
  },
  {
   "property": "C23",
   "status": "proved",
   "theorems": [
    "C23_gibbs_updates_leave_posterior_invariant",
    "C23_every_matrix_is_reachable"
   ],
   "note": "all tables with nonnegative data, all trees, any sequence of rows; log-gamma enters only through its recurrence; exact real arithmetic"
  },
  {
   "property": "C24",
   "status": "proved",
   "theorems": [
    "C24_train_model_ignores_generator_history",
    "C24_ensemble_is_deterministic",
    "C24_configs_that_are_refused",
    "C24_missing_settings_raise"
   ],
   "note": "generators are arbitrary state machines reset by seeding; processes have separate generators; configs are heap objects; an executing worker is not killed"
  },
  {
   "property": "C25",
   "status": "proved",
   "theorems": [
    "C25_trained_models_are_consistent",
    "C25_server_tables_are_positive_normalised_and_consistent"
   ],
   "note": "all consistent models; every model the trainer can return is shown consistent; exact real arithmetic"
  },
  {
   "property": "C26",
   "status": "proved",
   "theorems": [
    "C26_logprob_is_the_log_of_the_sum_over_all_classes",
    "C26_logprob_does_not_depend_on_the_root",
    "C26_logprob_rejects_other_shapes"
   ],
   "note": "all consistent models, roots and rows of counts (any integers); exact real arithmetic"
  },
  {
   "property": "C27",
   "status": "proved",
   "theorems": [
    "C27_complete_rows_have_total_probability_one",
    "C27_the_empty_row_has_logprob_zero",
    "C27_summing_over_a_feature_leaves_it_unobserved"
   ],
   "note": "all consistent models; exact real arithmetic"
  },
  {
   "property": "C28",
   "status": "proved",
   "theorems": [
    "C28_ensemble_samples_have_the_requested_counts",
    "C28_samples_have_the_requested_counts"
   ],
   "note": "All consistent models, counts 0..127 (the dtype), evidence and outcomes, single-model and ensemble servers."
  },
  {
   "property": "C29",
   "status": "proved",
   "theorems": [
    "C29_one_sample_is_distributed_as_logprob_says",
    "C29_without_evidence",
    "C29_samples_are_independent_and_distributed_as_logprob_says"
   ],
   "note": "all consistent models, evidence rows, counts and numbers of rows; draws exact, real arithmetic"
  },
  {
   "property": "C30",
   "status": "partial",
   "theorems": [
    "C30_marginals_ignore_evidence_refuted",
    "C30_marginals_are_posteriors_given_evidence_in_line_partial",
    "C30_exact_when_all_evidence_is_in_line_partial",
    "C30_exact_at_the_root_partial",
    "C30_repaired_marginals_are_posteriors"
   ],
   "note": "Refuted as stated (C30_marginals_ignore_evidence_refuted): messages_out of a parent leaves out the other subtrees. Proved instead, for all models, rows and features: the marginals are the exact posterior predictive given the evidence on ancestors and descendants (tree rooted at its centre); the full claim holds at the root and whenever all evidence is in line. With each child's own contribution divided out of the final message of its parent, the full claim is proved (C30_repaired_marginals_are_posteriors)."
  },
  {
   "property": "C31",
   "status": "proved",
   "theorems": [
    "C31_ensemble_median_is_not_implemented",
    "C31_median_is_legal_and_optimal"
   ],
   "note": "For every consistent model, evidence and counts up to 127. EnsembleServer.median raises NotImplementedError on every input (C31_ensemble_median_is_not_implemented)."
  },
  {
   "property": "C32",
   "status": "partial",
   "theorems": [
    "C32_ensemble_observed_perplexity_partial",
    "C32_counts_are_ignored_refuted",
    "C32_default_counts_refuted",
    "C32_observed_perplexity_of_one_draw_partial",
    "C32_multinomial_entropy_is_exact",
    "C32_multinomial_entropy_unsupported",
    "C32_draws_entropy_bounds",
    "C32_repaired_observed_perplexity"
   ],
   "note": "Refuted as stated: the test on counts is inverted, so counts are ignored and None raises. Proved: what is returned is exp of the entropy of one draw, in [1, width]; multinomial_entropy is exact where it is defined (two categories or one draw). Ensembles: the mean of the members; with the test the right way round the full claim is proved, for what multinomial_entropy supports (C32_repaired_observed_perplexity)"
  },
  {
   "property": "C33",
   "status": "proved",
   "theorems": [
    "C33_ensemble_latent_perplexity_between_1_and_M",
    "C33_latent_perplexity_between_1_and_M"
   ],
   "note": "Single models and ensembles."
  },
  {
   "property": "C34",
   "status": "proved",
   "theorems": [
    "C34_ensemble_latent_correlation",
    "C34_latent_correlation_is_exact"
   ],
   "note": "Exact mutual information of the two classes, symmetric, in [0,1), dominated by the diagonal. Ensembles: the mean of the members."
  },
  {
   "property": "C35",
   "status": "proved",
   "theorems": [
    "C35_ensemble_logprob_is_the_uniform_mixture",
    "C35_ensemble_logprob_is_normalised"
   ],
   "note": "For every ensemble of consistent models over the same features; also normalised over complete rows."
  },
  {
   "property": "C36",
   "status": "partial",
   "theorems": [
    "C36_ensemble_samples_given_evidence_refuted",
    "C36_ensemble_samples_without_evidence_partial",
    "C36_ensemble_samples_mix_the_members_conditionals_partial",
    "C36_repaired_ensemble_samples_given_evidence"
   ],
   "note": "Refuted as stated: given evidence, samples are split evenly among the members whatever the evidence is worth under each (C36_ensemble_samples_given_evidence_refuted). Proved: exact without evidence for every number of rows; with evidence, the exact law is the uniform mixture of the members' conditionals. With members weighed by what the evidence is worth under each, the full claim is proved (C36_repaired_ensemble_samples_given_evidence)."
  },
  {
   "property": "C37",
   "status": "partial",
   "theorems": [
    "C37_logprob_given_evidence_refuted",
    "C37_repaired_logprob_given_evidence",
    "C37_logprob_without_evidence_partial"
   ],
   "note": "refuted as stated: with evidence logprob raises for every served dataset (it adds the evidence dict to an int8 array); without evidence it is the log of the mean of the models' exact row probabilities; with the second term corrected it is the conditional log probability (C37_repaired_logprob_given_evidence)"
  },
  {
   "property": "C38",
   "status": "partial",
   "theorems": [
    "C38_median_of_one_row_refuted",
    "C38_mode_is_not_implemented",
    "C38_median_of_a_list_partial",
    "C38_median_is_the_best_guess_partial",
    "C38_repaired_median_is_the_best_guess"
   ],
   "note": "refuted as stated: a dict raises AssertionError, ensembles raise NotImplementedError; for one model and a list of dicts it returns full legal rows; the returned values are the best guesses given the row (C38_median_is_the_best_guess_partial), and with marginals repaired for ensembles this holds for every server (C38_repaired_median_is_the_best_guess)"
  },
  {
   "property": "C39",
   "status": "proved",
   "theorems": [
    "C39_imported_datasets_are_served",
    "C39_serve_model_takes_a_model_or_several",
    "C39_sample_returns_full_legal_rows"
   ],
   "note": "for csv files without repeated columns, ordinal ranges of 2 to 128 values and evidence that import_rows accepts"
  },
  {
   "property": "C40",
   "status": "proved",
   "theorems": [
    "C40_feature_density_is_the_fraction_of_observing_rows",
    "C40_feature_density_of_an_imported_dataset",
    "C40_feature_density_of_wide_ordinals_refuted"
   ],
   "note": "for tables of nonnegative counts, hence for imported datasets whose ordinal ranges fit int8; a wider range is refuted"
  },
  {
   "property": "C41",
   "status": "proved",
   "theorems": [
    "C41_export_inverts_import",
    "C41_constant_ordinals_refuted",
    "C41_wide_ordinals_refuted"
   ],
   "note": "Every coherent schema whose ordinal ranges have 2 to 128 values. Outside those ranges it is refuted: the value of a constant ordinal is lost, a wide range makes export fail."
  },
  {
   "property": "C42",
   "status": "partial",
   "theorems": [
    "C42_invalid_values_are_ignored_refuted",
    "C42_other_invalid_values_are_ignored_partial",
    "C42_unknown_features_are_ignored_partial",
    "C42_repaired_invalid_values_are_ignored",
    "C42_numbers_count_as_their_integer"
   ],
   "note": "Refuted for None and infinities (ordinal) and lists or dicts (categorical), which raise. Proved for all other values and for every value of an unknown feature; with TypeError and OverflowError caught the full claim is proved (C42_repaired_invalid_values_are_ignored)"
  },
  {
   "property": "C43",
   "status": "proved",
   "theorems": [
    "C43_csv_loading_is_row_import",
    "C43_repeated_columns_refuted"
   ],
   "note": "Every schema and every header without repeated names. With repeated columns two values are recorded for one feature (C43_repeated_columns_refuted)."
  },
  {
   "property": "C44",
   "status": "proved",
   "theorems": [
    "C44_normalize_string_is_idempotent_and_tidy",
    "C44_normalize_string_joins_lower_case_words"
   ],
   "note": "All Latin-1 strings (code points 0..255), also with the exact value."
  },
  {
   "property": "C45",
   "status": "proved",
   "theorems": [
    "C45_guessing_succeeds_iff_every_file_has_a_header",
    "C45_guessed_schemas_load"
   ],
   "note": "Also: guessing succeeds exactly when every file has a header; the columns total, unique, singletons are exact; the too-many-categories guard of guess_feature_type never fires. csv writing and reading back is the identity on rows (trusted)."
  },
  {
   "property": "C46",
   "status": "partial",
   "theorems": [
    "C46_source_column_refuted",
    "C46_source_column_partial",
    "C46_repaired_source_column"
   ],
   "note": "Refuted as stated: once a feature has been seen, every later file is listed. Proved: the column lists the files from the first one with the feature on, and is right when these all have it; with the loop over the columns of the file being read the full claim is proved (C46_repaired_source_column)"
  },
  {
   "property": "C47",
   "status": "partial",
   "theorems": [
    "C47_groups_are_loaded_refuted",
    "C47_prior_without_groups_is_flat_partial",
    "C47_repaired_groups_set_the_prior",
    "C47_repaired_cliques_refuted",
    "C47_repaired_cliques_set_the_prior"
   ],
   "note": "Refuted as stated: every complete row of a groups file raises ValueError (row[:3] unpacked into four names). Proved: without complete rows the prior is 0 everywhere. With row[:4], the full claim is proved for groups without a feature on both sides (C47_repaired_groups_set_the_prior); with one, the logit goes to an unrelated pair (C47_repaired_cliques_refuted); with pairs of a feature with itself skipped, it is proved for every groups file (C47_repaired_cliques_set_the_prior)."
  },
  {
   "property": "C48",
   "status": "proved",
   "theorems": [
    "C48_schema_layout_matches_the_files",
    "C48_integers_are_read_as_written",
    "C48_loaded_schemas_are_coherent"
   ],
   "note": "Every pair of files accepted, also with repeated features."
  },
  {
   "property": "C49",
   "status": "proved",
   "theorems": [
    "C49_every_cell_is_held_out_once",
    "C49_masks_hold_out_whole_cells",
    "C49_other_parts_are_rejected",
    "C49_training_and_evaluation_data"
   ],
   "note": "numpy is an oracle: randint right after seeding is a function of seed, range and shape with entries in range"
  },
  {
   "property": "C50",
   "status": "proved",
   "theorems": [
    "C50_unknown_parameters_are_rejected",
    "C50_read_param_csv_expands_every_row",
    "C50_model_files_do_not_collide",
    "C50_every_config_has_a_model_file",
    "C50_reserved_names_are_rejected",
    "C50_bad_cells_are_rejected"
   ],
   "note": "for nonempty headers of known names; unknown names are shown to be rejected once some row is used and there is at least one part; repeated names take their last column"
  },
  {
   "property": "C51",
   "status": "partial",
   "theorems": [
    "C51_other_rates_are_returned_refuted",
    "C51_truncated_files_are_returned_forever_refuted",
    "C51_datasets_partial",
    "C51_models_partial",
    "C51_repaired_datasets",
    "C51_repaired_models",
    "C51_the_name_decides_the_format"
   ],
   "note": "refuted as stated: rates that agree to one decimal share a file, and a file truncated by a crash is returned by every later call (and makes generate_model_file raise EOFError) until clean. Proved: without crashes and with rates a tenth apart the returned file holds the dataset, or model, asked for; with exact rates in the names and files renamed into place the full claim is proved for every history (C51_repaired_datasets, C51_repaired_models)"
  },
  {
   "property": "C52",
   "status": "proved",
   "theorems": [
    "C52_ensemble_tree_maximises_the_mean_logits",
    "C52_sampled_trees_span",
    "C52_ensemble_sampled_trees_span"
   ],
   "note": "Single servers and ensembles."
  },
  {
   "property": "C53",
   "status": "proved",
   "theorems": [
    "C53_which_schema_files_load"
   ],
   "note": "An iff; closed apart from the axioms of the reals (the prior)."
  },
  {
   "property": "C54",
   "status": "proved",
   "theorems": [
    "C54_samples_have_the_models_distribution",
    "C54_samples_have_the_probabilities_logprob_reports",
    "C54_categorical_samples"
   ],
   "note": "for schemas whose categorical values are listed once; with evidence an ensemble draws from the mean of the conditionals (C36)"
  },
  {
   "property": "C55",
   "status": "partial",
   "theorems": [
    "C55_folds_refuted",
    "C55_cells_never_held_out",
    "C55_folds_are_complete_partial",
    "C55_repaired_folds_are_complete"
   ],
   "note": "refuted when model_ensemble_size is not given: 4 configs are made but each carries the default 8, so half of the parts are never held out; proved when it is given; with the default stored among the options the full claim is proved (C55_repaired_folds_are_complete)"
  },
  {
   "property": "C56",
   "status": "proved",
   "theorems": [
    "C56_evaluation_scores"
   ],
   "note": "real arithmetic; int8 counts at most 127"
  },
  {
   "property": "C57",
   "status": "proved",
   "theorems": [
    "C57_generate_tree_spans"
   ],
   "note": "for any number of columns; the random bits of sample_tree are universally quantified"
  },
  {
   "property": "C58",
   "status": "proved",
   "theorems": [
    "C58_fake_models_are_consistent",
    "C58_fake_ensembles_are_consistent"
   ],
   "note": "for counts that fit in int8; asg and logits are the numbers drawn by numpy"
  },
  {
   "property": "C59",
   "status": "proved",
   "theorems": [
    "C59_clean_rows_are_complete",
    "C59_clean_categories_are_uniform",
    "C59_clean_observations_are_reliable"
   ],
   "note": "the rows are drawn by the server's sample, whose law is C29; num_cats at most 128"
  },
  {
   "property": "C60",
   "status": "proved",
   "theorems": [
    "C60_generated_cells_are_the_draws",
    "C60_no_categories_is_an_error"
   ],
   "note": "numpy's dirichlet, poisson and multinomial draws are universally quantified; num_cats = 0 raises"
  },
  {
   "property": "C61",
   "status": "proved",
   "theorems": [
    "C61_correlation_decays_with_distance",
    "C61_nearer_features_agree_more",
    "C61_the_tree_is_recovered"
   ],
   "note": "for probabilities (infinitely many rows), not for finite samples; scipy's mst satisfies its contract"
  },
  {
   "property": "C62",
   "status": "proved",
   "theorems": [
    "C62_epochs_leave_the_posterior_invariant",
    "C62_epochs_end_in_a_listed_state",
    "C62_every_tree_and_matrix_is_reachable"
   ],
   "note": "exact real arithmetic; log-gamma enters only through its recurrence; the trees are enumerated by any complete list (one is given)"
  },
  {
   "property": "C63",
   "status": "proved",
   "theorems": [
    "C63_logprob_is_normalised_equally",
    "C63_without_data_trees_follow_the_prior",
    "C63_states_exist"
   ],
   "note": "features observed at most once per row; log-gamma only through its recurrence; exact real arithmetic"
  },
  {
   "property": "C64",
   "status": "proved",
   "theorems": [
    "C64_training_covers_the_file_in_order",
    "C64_after_training_every_config_is_scored",
    "C64_scores_are_of_the_configs_own_model",
    "C64_files_are_models_of_their_config",
    "C64_eval_reports_every_config"
   ],
   "note": "a trainer that is a function of training data and config (C24); each task touches one file; tasks in any order; one dataset per models directory for the scores theorem (the general case is a separate theorem)"
  },
  {
   "property": "C65",
   "status": "proved",
   "theorems": [
    "C65_training_converges_to_the_posterior",
    "C65_sample_tree_reaches_every_tree"
   ],
   "note": "exact real arithmetic; log-gamma enters only through its recurrence; logits finite; rho exists but is not computed; scipy's mst satisfies its contract when the tree is estimated"
  },
  {
   "property": "C66",
   "status": "partial",
   "theorems": [
    "C66_draws_take_positive_weights",
    "C66_training_draws_are_usable_partial",
    "C66_categorical_tables_partial",
    "C66_long_ordinals_refuted",
    "C66_repaired_training_draws_are_usable",
    "C66_the_repair_keeps_the_distribution"
   ],
   "note": "IEEE float32/float64 with rounding to nearest even. Proved for at most c observations per feature and N rows with (N+1)c < 2^A, (A+9)c+A <= 69 (for instance c <= 2 and N < 32767); refuted for ordinals with 128 levels, where both weights underflow; once the message is divided by its largest entry after each observation it is proved for any number of levels (N < 65535, (N+1)c < 2^22), and that repair is proved to leave the distribution unchanged in exact arithmetic"
  },
  {
   "property": "C67",
   "status": "partial",
   "theorems": [
    "C67_logprob_is_finite_partial",
    "C67_few_observations_partial",
    "C67_categorical_rows_partial",
    "C67_long_ordinals_refuted",
    "C67_repaired_logprob_is_finite",
    "C67_the_repair_keeps_the_value"
   ],
   "note": "IEEE float32 with rounding to nearest even. Proved for rows with at most c observations per feature, counts < 2^A and category probabilities >= 2^-b with 2(A+3+(b+4)c)+A+11 <= 149 (always for categorical features and fewer than 65536 rows), any number of features; refuted for ordinals with 128 levels, where logprob is NaN or -inf for every model; once the message is normalised after every observation it is proved for any row (counts < 2^16), and that repair is proved to compute the same value in exact arithmetic"
  },
  {
   "property": "C68",
   "status": "proved",
   "theorems": [
    "C68_the_workflow_serves_the_files",
    "C68_without_features_it_raises",
    "C68_imported_datasets_are_trained_and_served"
   ],
   "note": "exact arithmetic; what is pickled or written as csv is read back unchanged; every draw of the generators is a possible one"
  },
  {
   "property": "C69",
   "status": "partial",
   "theorems": [
    "C69_plot_circular_shows_the_features_and_the_trees",
    "C69_curves_stay_inside_the_circle",
    "C69_plot_circular_never_raises",
    "C69_plot_circular_of_one_feature_refuted",
    "C69_contract_positions_pulls_along_two_edges",
    "C69_contract_positions_pulls_along_every_edge_refuted",
    "C69_repaired_contract_positions_pulls_along_every_edge"
   ],
   "note": "refuted for one feature with a nonzero contraction (AssertionError); contract_positions pulls along at most two of the edges of a vertex, not along all; proved otherwise Repaired with np.add.at, contract_positions pulls every vertex along each of its edges and keeps the centre."
  },
  {
   "property": "C70",
   "status": "proved",
   "theorems": [
    "C70_overlaps_are_shown_by_cluster",
    "C70_overlaps_are_shown_by_tree",
    "C70_other_methods_are_refused",
    "C70_nx_plot_tree_scales_by_perplexity"
   ],
   "note": "the order of scipy's leaves_list is assumed to be a permutation; names of features distinct for nx_plot_tree"
  },
  {
   "property": "C71",
   "status": "partial",
   "theorems": [
    "C71_add_panning_wraps_the_drawing",
    "C71_add_panning_keeps_the_other_lines",
    "C71_add_panning_touches_only_its_target",
    "C71_add_panning_twice_is_refused",
    "C71_crashes_keep_the_drawing_refuted",
    "C71_repaired_crashes_keep_the_drawing"
   ],
   "note": "crash safety refuted when the file is rewritten in place: it is emptied first; the other parts proved; with the new text renamed into place crash safety is proved (C71_repaired_crashes_keep_the_drawing)"
  },
  {
   "property": "C72",
   "status": "partial",
   "theorems": [
    "C72_pd_outer_join_is_the_outer_join",
    "C72_distinct_keys_are_joined_in_one_row",
    "C72_missing_column_raises_KeyError",
    "C72_all_names_are_joined_refuted",
    "C72_repaired_join_is_the_outer_join"
   ],
   "note": "refuted for columns whose name ends in _JOIN_ (raises, or a column is lost); proved for all other names; joining on one column; repaired with a suffix longer than any name, it is proved for all tables"
  },
  {
   "property": "C73",
   "status": "partial",
   "theorems": [
    "C73_layout_tree_returns_a_layout_refuted",
    "C73_layout_tree_is_a_spectral_layout_partial",
    "C73_repaired_layout_of_untied_features_raises",
    "C73_repaired_layout_of_few_features_raises",
    "C73_latent_correlations_are_correlations",
    "C73_repaired_layout_of_one_cluster_raises"
   ],
   "note": "refuted: layout_tree raises ValueError on every matrix, since it passes eigvals=[1, 2, 3] to scipy, which unpacks two indices; proved for layout_tree with eigvals=[1, 3], except for models with one cluster, whose correlations are all 0 (raises); exact arithmetic, with eigh an oracle that returns an orthonormal eigensystem"
  },
  {
   "property": "C74",
   "status": "partial",
   "theorems": [
    "C74_sample_draws_are_usable_partial",
    "C74_few_observations_partial",
    "C74_samples_given_nothing_are_usable",
    "C74_categorical_evidence_gives_rows_partial",
    "C74_long_ordinals_refuted",
    "C74_repaired_sample_draws_are_usable",
    "C74_the_repair_keeps_the_distribution"
   ],
   "note": "proved when nothing is given, for categorical data and for few observations per feature (bound in the statement); refuted for ordinals of 128 levels (weights are NaN, class 0 is always taken); proved for any data once messages are rescaled after every observation, which keeps the exact distribution"
  },
  {
   "property": "C75",
   "status": "partial",
   "theorems": [
    "C75_marginals_are_probabilities_partial",
    "C75_few_observations_partial",
    "C75_deep_trees_refuted",
    "C75_repaired_marginals_are_probabilities",
    "C75_the_repair_keeps_the_marginals"
   ],
   "note": "proved for trees and rows within bounds in the statement; refuted for trees in which no vertex is within 8 edges of all others, given 64-level ordinals (some marginals are NaN); proved for all trees and rows once messages are rescaled after every observation and on the outward pass, which leaves the exact marginals unchanged"
  },
  {
   "property": "C76",
   "status": "proved",
   "theorems": [
    "C76_what_is_raised_for_schema_files",
    "C76_checks_have_one_outcome"
   ],
   "note": ""
  },
  {
   "property": "C77",
   "status": "partial",
   "theorems": [
    "C77_logprob_is_accurate_partial",
    "C77_few_observations_partial",
    "C77_wide_trees_refuted"
   ],
   "note": "proved for trees whose degree is bounded in the statement; refuted for a feature with 34 neighbours, where logprob returns a finite number that is wrong by more than 60 nats because the message of one class has underflowed to zero"
  },
  {
   "property": "C78",
   "status": "proved",
   "theorems": [
    "C78_counting_changes_nothing",
    "C78_sample_tree_statistics_add_up",
    "C78_timers_add_up",
    "C78_timers_of_running_functions_are_negative"
   ],
   "note": "statistics taken while a profiled function runs show a negative time for it (C78_timers_of_running_functions_are_negative)"
  },
  {
   "property": "C79",
   "status": "proved",
   "theorems": [
    "C79_train_runs",
    "C79_serve_runs",
    "C79_eval_runs",
    "C79_unknown_tools_are_refused",
    "C79_after_a_killed_write_they_fail",
    "C79_after_a_killed_write_serve_fails",
    "C79_eval_ignores_the_number_of_categories"
   ],
   "note": "eval takes a number of categories and never uses it (C79_eval_ignores_the_number_of_categories); the counts of a generated cell are assumed to be at most 127 together"
  },
  {
   "property": "C80",
   "status": "partial",
   "theorems": [
    "C80_samples_follow_the_model_partial"
   ],
   "note": "for counts below 2^16 and features of bounded degree and observations; beyond, C74 is refuted; draws are taken as exactly proportional to their float32 weights"
  },
  {
   "property": "C81",
   "status": "partial",
   "theorems": [
    "C81_one_draw",
    "C81_programs",
    "C81_samples_of_the_generator_partial"
   ],
   "note": "one draw and any program: proved; sample: under the conditions of C80"
  },
  {
   "property": "C82",
   "status": "partial",
   "theorems": [
    "C82_training_draws_from_the_conditional_partial",
    "C82_of_the_generator_partial"
   ],
   "note": "counts below 2^16 and bounds on observations per feature and on the neighbours of a feature; outside them C66 is refuted"
  },
  {
   "property": "C83",
   "status": "partial",
   "theorems": [
    "C83_table_follows_counts_partial",
    "C83_exact_for_powers_of_two_partial",
    "C83_exact_refuted"
   ],
   "note": "bounded drift and exactness for powers of two within bounds on counts; exactness refuted for three classes"
  },
  {
   "property": "C84",
   "status": "partial",
   "theorems": [
    "C84_tree_moves_follow_the_exact_sampler_partial",
    "C84_the_posterior_is_nearly_invariant_partial"
   ],
   "note": "up to 2^16 pairs of features (362 features)"
  },
  {
   "property": "C85",
   "status": "partial",
   "theorems": [
    "C85_logits_are_near_the_scores_partial",
    "C85_the_tree_is_resampled_from_the_logits_partial",
    "C85_the_posterior_given_the_classes_is_nearly_invariant_partial"
   ],
   "note": "within the bounds of C66; numbers of added rows other than the number of features unless all rows are added (C20); the tree moves up to 2^16 pairs of features"
  },
  {
   "property": "C86",
   "status": "proved",
   "theorems": [
    "C86_the_float32_tree_is_nearly_the_best",
    "C86_without_an_allowed_tree_an_assertion_fails"
   ],
   "note": "the error is (V-1) 2^-20 (B+1) for logits of size up to B"
  },
  {
   "property": "C87",
   "status": "partial",
   "theorems": [
    "C87_training_ends_in_a_valid_model_partial",
    "C87_runs_of_the_generators"
   ],
   "note": "within the bounds of C66, up to 2^16 pairs of features and tree priors that allow some spanning tree"
  },
  {
   "property": "C88",
   "status": "partial",
   "theorems": [
    "C88_training_in_float32_approaches_the_posterior_partial"
   ],
   "note": "within the bounds of C82 on table, classes and features, with finite tree priors"
  },
  {
   "property": "C89",
   "status": "partial",
   "theorems": [
    "C89_ensemble_logprob_in_float32_partial"
   ],
   "note": "within the bounds of C77 on rows, counts and degrees, and up to W members"
  },
  {
   "property": "C90",
   "status": "proved",
   "theorems": [
    "C90_ensemble_tree_in_float32",
    "C90_without_a_common_tree_an_assertion_fails"
   ],
   "note": ""
  },
  {
   "property": "C91",
   "status": "proved",
   "theorems": [
    "C91_members_share_the_samples_equally",
    "C91_sampled_rows",
    "C91_sampled_trees"
   ],
   "note": "members sample with real arithmetic here; their float32 sampling is C74, C80 to C85"
  },
  {
   "property": "C92",
   "status": "proved",
   "theorems": [
    "C92_join_csvs_writes_the_outer_join",
    "C92_joining_in_steps_is_joining_at_once",
    "C92_names_with_commas_refuted",
    "C92_a_stopped_join_can_be_run_again",
    "C92_joining_in_place_refuted"
   ],
   "note": "file names with commas are split and cannot be joined (C92_names_with_commas_refuted); column names as in C72; joining into one of its own files loses rows when it is stopped and run again (C92_joining_in_place_refuted)"
  },
  {
   "property": "C93",
   "status": "partial",
   "theorems": [
    "C93_tables_are_read_only_partial",
    "C93_views_refuted",
    "C93_categorical_data_refuted",
    "C93_int8_data_become_read_only",
    "C93_repaired_tables_are_read_only"
   ],
   "note": "refuted for arrays of the right dtype with another writeable view (np.asarray does not copy) and for categorical data (never made read-only); proved for all other arrays; an int8 array from which a table is made becomes read-only for its owner; with np.array and all flags set the full claim is proved (C93_repaired_tables_are_read_only)"
  },
  {
   "property": "C94",
   "status": "partial",
   "theorems": [
    "C94_print_options_are_restored_partial",
    "C94_print_options_are_restored_refuted",
    "C94_options_leak_from_a_body_that_raises",
    "C94_repaired_print_options_are_restored"
   ],
   "note": "refuted for a body that raises: the options stay changed; proved for bodies that end normally and for rejected arguments; with try/finally the full claim is proved (C94_repaired_print_options_are_restored)"
  },
  {
   "property": "C95",
   "status": "partial",
   "theorems": [
    "C95_saved_data_are_read_back",
    "C95_other_names_are_refused",
    "C95_cat_prints_the_files_in_order",
    "C95_fingerprints_identify_objects",
    "C95_failed_calls_change_nothing_refuted",
    "C95_repaired_failed_calls_change_nothing",
    "C95_repaired_calls_save_the_same"
   ],
   "note": "refuted for calls that raise: the file is emptied before the data are encoded (C95_failed_calls_change_nothing_refuted); everything else proved; with the data encoded first, that part is proved too; crashes during pickle_dump are in C51"
  }
 ]
}