{
 "claims": [
  {
   "property": "C01",
   "status": "proved",
   "theorems": [
    "C01_knn_shapley_exact",
    "C01_knn_shapley_distinct",
    "C01_knn_shapley_efficiency",
    "C01_knn_large_k",
    "C01_knn_large_k_refuted",
    "C01_knn_zero_k"
   ],
   "note": ""
  },
  {
   "property": "C02",
   "status": "proved",
   "theorems": [
    "C02_knn_batching",
    "C02_knn_default_labels",
    "C02_knn_row_locality",
    "C02_knn_label_length",
    "C02_knn_drop_last_refuted"
   ],
   "note": ""
  },
  {
   "property": "C03",
   "status": "proved",
   "theorems": [
    "C03_attribute_is_checkpoint_mean",
    "C03_attribute_relatif",
    "C03_attribute_batching_independent",
    "C03_attribute_drop_last",
    "C03_attribute_type_error",
    "C03_full_loader_history"
   ],
   "note": ""
  },
  {
   "property": "C04",
   "status": "proved",
   "theorems": [
    "C04_self_attribute_single_batch",
    "C04_self_attribute_single_batch_is_diagonal",
    "C04_self_attribute_batch_size_one",
    "C04_self_attribute_several_batches",
    "C04_self_attribute_relatif_always_fails",
    "C04_self_attribute_is_diagonal_refuted"
   ],
   "note": ""
  },
  {
   "property": "C05",
   "status": "proved",
   "theorems": [
    "C05_tracin_value_error_iff",
    "C05_tracin_weighted_sum",
    "C05_tracin_normalized_is_cosine",
    "C05_tracin_batching_independent"
   ],
   "note": ""
  },
  {
   "property": "C06",
   "status": "proved",
   "theorems": [
    "C06_tracin_self_is_squared_norm",
    "C06_tracin_self_is_diagonal",
    "C06_tracin_self_normalized",
    "C06_tracin_self_normalized_vs_diagonal",
    "C06_tracin_self_is_diagonal_refuted"
   ],
   "note": ""
  },
  {
   "property": "C07",
   "status": "proved",
   "theorems": [
    "C07_trak_cache_agrees",
    "C07_trak_score",
    "C07_trak_regularized_total",
    "C07_trak_batching",
    "C07_trak_value_errors",
    "C07_trak_empty_loader",
    "C07_trak_failed_recache_stale",
    "C07_trak_self_diagonal"
   ],
   "note": ""
  },
  {
   "property": "C08",
   "status": "proved",
   "theorems": [
    "C08_datainf_exact",
    "C08_datainf_row_local",
    "C08_datainf_default_regularization",
    "C08_datainf_cache_batches",
    "C08_layer_split",
    "C08_datainf_depends_on_batch_size_refuted",
    "C08_datainf_layer_name_refuted"
   ],
   "note": ""
  },
  {
   "property": "C09",
   "status": "proved",
   "theorems": [
    "C09_hvp_modes_agree",
    "C09_explicit_solves",
    "C09_explicit_damped",
    "C09_ifvp_refuted"
   ],
   "note": ""
  },
  {
   "property": "C10",
   "status": "proved",
   "theorems": [
    "C10_cg_exact_count",
    "C10_cg_optimal",
    "C10_cg_monotone",
    "C10_cg_identity_refuted",
    "C10_cg_rowwise"
   ],
   "note": ""
  },
  {
   "property": "C11",
   "status": "proved",
   "theorems": [
    "C11_lissa_series",
    "C11_lissa_eigen",
    "C11_lissa_unbiased",
    "C11_sample_batch",
    "C11_lissa_full_batch",
    "C11_lissa_no_repeat",
    "C11_at_x_swapped_refuted",
    "C11_check_input_size",
    "C11_default_dims"
   ],
   "note": ""
  },
  {
   "property": "C12",
   "status": "proved",
   "theorems": [
    "C12_arnoldi_basis",
    "C12_arnoldi_relation",
    "C12_arnoldi_ritz",
    "C12_ihvp_galerkin",
    "C12_ihvp_exact_on_krylov",
    "C12_ihvp_exact",
    "C12_small_max_iter",
    "C12_project_inner",
    "C12_project_indefinite_refuted",
    "C12_norm_constant_refuted"
   ],
   "note": ""
  },
  {
   "property": "C13",
   "status": "proved",
   "theorems": [
    "C13_if_sums_batches",
    "C13_if_explicit",
    "C13_if_single_batch",
    "C13_if_equal_batches",
    "C13_if_batch_size_refuted",
    "C13_if_singular_batch"
   ],
   "note": ""
  },
  {
   "property": "C14",
   "status": "proved",
   "theorems": [
    "C14_relatif_denominator_positive",
    "C14_relatif_denominator_value"
   ],
   "note": ""
  },
  {
   "property": "C15",
   "status": "proved",
   "theorems": [
    "C15_covariance_average",
    "C15_lambda_average",
    "C15_batching_irrelevant",
    "C15_sequence_first_refuted",
    "C15_sequence_stale_refuted"
   ],
   "note": ""
  },
  {
   "property": "C16",
   "status": "proved",
   "theorems": [
    "C16_inverts_own_operator",
    "C16_correct_if_transposed",
    "C16_eigenbasis_refuted",
    "C16_layout",
    "C16_bias_misplaced_refuted",
    "C16_checkpoint"
   ],
   "note": ""
  },
  {
   "property": "C17",
   "status": "proved",
   "theorems": [
    "C17_embeddings",
    "C17_chronological",
    "C17_attribute"
   ],
   "note": ""
  },
  {
   "property": "C18",
   "status": "proved",
   "theorems": [
    "C18_attribute_errors",
    "C18_clear",
    "C18_recordings",
    "C18_failed_step_recorded",
    "C18_poisoned_recording",
    "C18_external_refuted",
    "C18_external_emptied",
    "C18_stale_epochs_refuted"
   ],
   "note": ""
  },
  {
   "property": "C19",
   "status": "proved",
   "theorems": [
    "C19_history",
    "C19_bad_width",
    "C19_linear",
    "C19_mask",
    "C19_identity",
    "C19_init"
   ],
   "note": ""
  },
  {
   "property": "C20",
   "status": "proved",
   "theorems": [
    "C20_independent",
    "C20_grass",
    "C20_grass_fits",
    "C20_grass_collapses_refuted",
    "C20_minus_one"
   ],
   "note": ""
  },
  {
   "property": "C21",
   "status": "proved",
   "theorems": [
    "C21_partition",
    "C21_groups",
    "C21_diverges"
   ],
   "note": ""
  },
  {
   "property": "C22",
   "status": "proved",
   "theorems": [
    "C22_flat",
    "C22_dict",
    "C22_refused"
   ],
   "note": ""
  },
  {
   "property": "C23",
   "status": "proved",
   "theorems": [
    "C23_blocks_ensembles",
    "C23_blocks",
    "C23_ensembles_collide_refuted",
    "C23_cuda",
    "C23_sparsifiers",
    "C23_layers_collide_refuted",
    "C23_projector_collides_refuted"
   ],
   "note": ""
  },
  {
   "property": "C24",
   "status": "proved",
   "theorems": [
    "C24_roundtrip",
    "C24_unflatten_exact",
    "C24_layerwise",
    "C24_layerwise_bad",
    "C24_flatten_func",
    "C24_partial"
   ],
   "note": ""
  },
  {
   "property": "C25",
   "status": "proved",
   "theorems": [
    "C25_history",
    "C25_harmless",
    "C25_short_argument",
    "C25_independent_refuted"
   ],
   "note": ""
  },
  {
   "property": "C26",
   "status": "proved",
   "theorems": [
    "C26_get_param",
    "C26_functions",
    "C26_one_selection",
    "C26_other_layers",
    "C26_later_evaluation",
    "C26_bad_index",
    "C26_full_functions",
    "C26_string_layer",
    "C26_layer_map",
    "C26_layer_name",
    "C26_get_param_after_evaluation_refuted",
    "C26_stale_function_refuted",
    "C26_repeated_layer_refuted",
    "C26_failed_load_refuted"
   ],
   "note": ""
  },
  {
   "property": "C27",
   "status": "proved",
   "theorems": [
    "C27_value",
    "C27_bounds",
    "C27_perfect",
    "C27_order_only",
    "C27_affine",
    "C27_local",
    "C27_no_ties",
    "C27_errors",
    "C27_loo_corr",
    "C27_loo_corr_removed_unused",
    "C27_loo_corr_subset_refuted"
   ],
   "note": ""
  },
  {
   "property": "C28",
   "status": "proved",
   "theorems": [
    "C28_value",
    "C28_scores",
    "C28_bounds",
    "C28_roc",
    "C28_degenerate"
   ],
   "note": ""
  },
  {
   "property": "C29",
   "status": "proved",
   "theorems": [
    "C29_first",
    "C29_smallest",
    "C29_test_label",
    "C29_plain_sampler",
    "C29_documented_shape_refuted",
    "C29_tensor_indices_refuted",
    "C29_positions_refuted"
   ],
   "note": ""
  },
  {
   "property": "C30",
   "status": "proved",
   "theorems": [
    "C30_job",
    "C30_accepts",
    "C30_rejects",
    "C30_reproducible",
    "C30_split",
    "C30_sampler_ignored",
    "C30_split_global_generator_refuted"
   ],
   "note": ""
  },
  {
   "property": "C31",
   "status": "proved",
   "theorems": [
    "C31_roundtrip",
    "C31_later_job_unreadable",
    "C31_parallel_unreadable",
    "C31_moved_unreadable",
    "C31_interrupted_job_mixes"
   ],
   "note": ""
  },
  {
   "property": "C32",
   "status": "proved",
   "theorems": [
    "C32_history",
    "C32_full",
    "C32_not_a_position",
    "C32_failed_call",
    "C32_foreign_directory",
    "C32_target_shape"
   ],
   "note": ""
  },
  {
   "property": "C33",
   "status": "proved",
   "theorems": [
    "C33_outcome",
    "C33_flips",
    "C33_input_untouched",
    "C33_tensor_space_refuted",
    "C33_outside_label_enlarges"
   ],
   "note": ""
  },
  {
   "property": "C34",
   "status": "proved",
   "theorems": [
    "C34_effect",
    "C34_leaf",
    "C34_last_call",
    "C34_unmatched_names_ignored",
    "C34_alpha_dropout_missed"
   ],
   "note": ""
  },
  {
   "property": "C35",
   "status": "proved",
   "theorems": [
    "C35_store_outcome",
    "C35_retrieve",
    "C35_round_trip",
    "C35_preconditioner",
    "C35_loader",
    "C35_late_layer_lost"
   ],
   "note": ""
  },
  {
   "property": "C36",
   "status": "proved",
   "theorems": [
    "C36_finish",
    "C36_same_manager",
    "C36_read_anytime",
    "C36_finish_returns",
    "C36_overflow_refuted",
    "C36_empty_batch_hangs",
    "C36_duplicate_first",
    "C36_rewrite_stale",
    "C36_clear_leaves",
    "C36_inflight_invisible"
   ],
   "note": ""
  },
  {
   "property": "C37",
   "status": "proved",
   "theorems": [
    "C37_crash",
    "C37_durable",
    "C37_truncated_blocks",
    "C37_overwrite_refuted",
    "C37_truncated_hides"
   ],
   "note": ""
  },
  {
   "property": "C38",
   "status": "proved",
   "theorems": [
    "C38_saved_partition",
    "C38_fresh_loader",
    "C38_round_trip",
    "C38_crash",
    "C38_same_number_of_batches_stale",
    "C38_reinitialize",
    "C38_fewer_batches_stale",
    "C38_add_batch"
   ],
   "note": ""
  },
  {
   "property": "C39",
   "status": "proved",
   "theorems": [
    "C39_loader",
    "C39_prefetch",
    "C39_name_order"
   ],
   "note": ""
  },
  {
   "property": "C40",
   "status": "proved",
   "theorems": [
    "C40_collate",
    "C40_memory_collate_refuted"
   ],
   "note": ""
  },
  {
   "property": "C41",
   "status": "proved",
   "theorems": [
    "C41_cache_then_reads",
    "C41_attribute_without_cache",
    "C41_batch_size_free",
    "C41_no_test_batch",
    "C41_empty_training_loader",
    "C41_self_before_cache"
   ],
   "note": ""
  },
  {
   "property": "C42",
   "status": "proved",
   "theorems": [
    "C42_history",
    "C42_identity_keeps_first",
    "C42_efim_leftover"
   ],
   "note": ""
  },
  {
   "property": "C43",
   "status": "proved",
   "theorems": [
    "C43_failed_cache_then_attribute",
    "C43_all_zero_gradients_fail",
    "C43_damped_matrix_spd",
    "C43_cache_succeeds"
   ],
   "note": ""
  },
  {
   "property": "C44",
   "status": "proved",
   "theorems": [
    "C44_gradient",
    "C44_compress",
    "C44_identity",
    "C44_mean_loss",
    "C44_sum_loss_refuted",
    "C44_layer",
    "C44_setup",
    "C44_one_param",
    "C44_no_params",
    "C44_logra",
    "C44_factgrass"
   ],
   "note": ""
  },
  {
   "property": "C45",
   "status": "proved",
   "theorems": [
    "C45_history",
    "C45_session",
    "C45_batch_gradient",
    "C45_twice_fails",
    "C45_train",
    "C45_interleaved_refuted",
    "C45_overlap_refuted",
    "C45_disabled",
    "C45_disabled_twice_refuted"
   ],
   "note": ""
  },
  {
   "property": "C46",
   "status": "proved",
   "theorems": [
    "C46_codec",
    "C46_time_shift",
    "C46_tokens_valid",
    "C46_drift",
    "C46_roundtrip",
    "C46_velocity_lost",
    "C46_dense_notes_lost",
    "C46_pedal_counts",
    "C46_no_pedal_no_notes",
    "C46_pedal_keeps",
    "C46_pedal_ends"
   ],
   "note": ""
  },
  {
   "property": "C47",
   "status": "proved",
   "theorems": [
    "C47_windows",
    "C47_coverage",
    "C47_short_files_dropped",
    "C47_plain",
    "C47_accuracy"
   ],
   "note": ""
  },
  {
   "property": "C48",
   "status": "proved",
   "theorems": [
    "C48_terminates",
    "C48_decrease",
    "C48_nan_accepted",
    "C48_smooth"
   ],
   "note": ""
  },
  {
   "property": "C49",
   "status": "proved",
   "theorems": [
    "C49_partition",
    "C49_zero",
    "C49_draw",
    "C49_size_check"
   ],
   "note": ""
  },
  {
   "property": "C50",
   "status": "proved",
   "theorems": [
    "C50_adjust",
    "C50_second_call",
    "C50_split"
   ],
   "note": ""
  },
  {
   "property": "C51",
   "status": "proved",
   "theorems": [
    "C51_reconstruct",
    "C51_kronecker",
    "C51_elementwise",
    "C51_bias_dropped_refuted",
    "C51_layout_refuted"
   ],
   "note": ""
  },
  {
   "property": "C52",
   "status": "proved",
   "theorems": [
    "C52_finetune_fails",
    "C52_finetune",
    "C52_gradient",
    "C52_representer",
    "C52_scores",
    "C52_uncached",
    "C52_column_sums",
    "C52_subset_scale",
    "C52_normalised",
    "C52_history_uncached",
    "C52_history_cached",
    "C52_failed_cache",
    "C52_cache_fails"
   ],
   "note": ""
  },
  {
   "property": "C53",
   "status": "proved",
   "theorems": [
    "C53_unsupported",
    "C53_download",
    "C53_cached",
    "C53_other_settings",
    "C53_stuck",
    "C53_loo_failure",
    "C53_no_metric",
    "C53_paths",
    "C53_redownload_stale_refuted",
    "C53_missing_archive_refuted"
   ],
   "note": ""
  },
  {
   "property": "C54",
   "status": "proved",
   "theorems": [
    "C54_forward",
    "C54_batch",
    "C54_prefix",
    "C54_too_long",
    "C54_bad_token",
    "C54_generate_errors",
    "C54_generate_sampled",
    "C54_beam_one",
    "C54_beam_decode",
    "C54_beam_then_sample",
    "C54_generate_forward",
    "C54_beam_refuted"
   ],
   "note": ""
  },
  {
   "property": "C55",
   "status": "proved",
   "theorems": [
    "C55_per_example",
    "C55_batching",
    "C55_bad_label",
    "C55_imagenet",
    "C55_imagenet_uniform",
    "C55_refuses_models",
    "C55_other_errors",
    "C55_maestro",
    "C55_maestro_batching",
    "C55_maestro_last",
    "C55_eval_model",
    "C55_eval_nan",
    "C55_eval_empty",
    "C55_maestro_refuses_models",
    "C55_wikitext_length",
    "C55_wikitext_mean",
    "C55_wikitext_single",
    "C55_wikitext_refuses_models",
    "C55_imagenet_batching_refuted",
    "C55_eval_batching_refuted"
   ],
   "note": ""
  },
  {
   "property": "C56",
   "status": "proved",
   "theorems": [
    "C56_momentum",
    "C56_plain",
    "C56_bad_seed",
    "C56_self_seeding",
    "C56_wikitext_self_seeding",
    "C56_descent",
    "C56_lds_split",
    "C56_lds_unseeded",
    "C56_loo_unseeded",
    "C56_empty",
    "C56_music_self_seeding",
    "C56_music_bad_seed",
    "C56_music_last",
    "C56_music_no_epochs",
    "C56_music_empty",
    "C56_wikitext_seed_refuted",
    "C56_music_best_refuted"
   ],
   "note": ""
  },
  {
   "property": "C57",
   "status": "proved",
   "theorems": [
    "C57_prepare",
    "C57_encode_unknown",
    "C57_dataset",
    "C57_dataset_partition",
    "C57_dataset_overrun",
    "C57_same_samples",
    "C57_last_block",
    "C57_subset",
    "C57_indices_append",
    "C57_batches",
    "C57_short_subset",
    "C57_tail",
    "C57_epoch",
    "C57_trained",
    "C57_starved",
    "C57_last_block_fatal",
    "C57_saved_always",
    "C57_saved_best",
    "C57_rate",
    "C57_rate_up",
    "C57_rate_down",
    "C57_rate_error",
    "C57_rate_short",
    "C57_driver",
    "C57_driver_partition",
    "C57_driver_errors",
    "C57_driver_data",
    "C57_driver_set",
    "C57_driver_other",
    "C57_completes",
    "C57_driver_lost_refuted"
   ],
   "note": ""
  },
  {
   "property": "C58",
   "status": "proved",
   "theorems": [
    "C58_settings",
    "C58_settings_refused",
    "C58_unknown_ignored",
    "C58_always_projects",
    "C58_grass_n_refused",
    "C58_grass_multiplier",
    "C58_rowwise",
    "C58_split",
    "C58_width",
    "C58_errors",
    "C58_dict",
    "C58_tracin",
    "C58_cosin",
    "C58_tracin_identity",
    "C58_tracin_cpu_types",
    "C58_tracin_default",
    "C58_default_exact_refuted"
   ],
   "note": ""
  },
  {
   "property": "C59",
   "status": "proved",
   "theorems": [
    "C59_usage",
    "C59_usage_unchanged",
    "C59_combinations",
    "C59_lds_run",
    "C59_lds_accepts",
    "C59_lds_reversed",
    "C59_lds_parts",
    "C59_lds_parts_unreadable",
    "C59_loo_parts",
    "C59_loo_default",
    "C59_loo_too_large",
    "C59_lds_too_large",
    "C59_no_start",
    "C59_extra_reserved",
    "C59_ratio"
   ],
   "note": ""
  },
  {
   "property": "C60",
   "status": "proved",
   "theorems": [
    "C60_sum",
    "C60_mean",
    "C60_plain",
    "C60_full",
    "C60_ignored",
    "C60_nonneg",
    "C60_batches",
    "C60_mean_batches",
    "C60_make",
    "C60_class_refused",
    "C60_default_ignore_refused",
    "C60_reduction_refused",
    "C60_width_refused",
    "C60_one_class",
    "C60_one_target",
    "C60_track_errors",
    "C60_schedule",
    "C60_first_step",
    "C60_resume",
    "C60_monotone",
    "C60_peak",
    "C60_negative_step"
   ],
   "note": ""
  },
  {
   "property": "C61",
   "status": "proved",
   "theorems": [
    "C61_forward",
    "C61_inference",
    "C61_last",
    "C61_causal",
    "C61_batch",
    "C61_flash",
    "C61_too_long",
    "C61_bad_token",
    "C61_no_tokens",
    "C61_target_count",
    "C61_bad_target",
    "C61_crop",
    "C61_crop_refused",
    "C61_generate",
    "C61_generated",
    "C61_window",
    "C61_topk_all",
    "C61_generate_errors",
    "C61_num_params",
    "C61_decay",
    "C61_construct"
   ],
   "note": ""
  },
  {
   "property": "C62",
   "status": "proved",
   "theorems": [
    "C62_pool_refines",
    "C62_processes",
    "C62_own_memory",
    "C62_finalised_own",
    "C62_stable_without_store",
    "C62_finish",
    "C62_preconditioners",
    "C62_prec_being_written",
    "C62_prec_race_refuted",
    "C62_view_recycled_refuted"
   ],
   "note": ""
  },
  {
   "property": "C63",
   "status": "proved",
   "theorems": [
    "C63_settings",
    "C63_refused",
    "C63_file_order",
    "C63_internal_names",
    "C63_needs_file",
    "C63_wiki_blocks",
    "C63_wiki_refused"
   ],
   "note": ""
  },
  {
   "property": "C64",
   "status": "proved",
   "theorems": [
    "C64_all_parameters",
    "C64_layers",
    "C64_sweep",
    "C64_fresh_refuted",
    "C64_unloaded_refuted"
   ],
   "note": ""
  },
  {
   "property": "C65",
   "status": "proved",
   "theorems": [
    "C65_reload",
    "C65_current",
    "C65_params",
    "C65_count",
    "C65_network",
    "C65_checkpoint",
    "C65_live",
    "C65_split",
    "C65_tied_refuted",
    "C65_live_refuted",
    "C65_split_refuted"
   ],
   "note": ""
  },
  {
   "property": "C66",
   "status": "proved",
   "theorems": [
    "C66_derivatives",
    "C66_influence",
    "C66_trained",
    "C66_remove",
    "C66_loo",
    "C66_tracin",
    "C66_tracin_run",
    "C66_batches_refuted"
   ],
   "note": ""
  },
  {
   "property": "C67",
   "status": "proved",
   "theorems": [
    "C67_resnet_eval",
    "C67_rows",
    "C67_train",
    "C67_failed_pass",
    "C67_statistics",
    "C67_train_rows_refuted",
    "C67_lr",
    "C67_mlp",
    "C67_mlp_rows",
    "C67_mlp_shapes_refuted"
   ],
   "note": ""
  },
  {
   "property": "C68",
   "status": "proved",
   "theorems": [
    "C68_cg",
    "C68_lissa",
    "C68_arnoldi",
    "C68_arnoldi_batches_refuted"
   ],
   "note": ""
  },
  {
   "property": "C69",
   "status": "proved",
   "theorems": [
    "C69_bounds",
    "C69_monotone",
    "C69_large_k_refuted",
    "C69_order",
    "C69_rigid",
    "C69_scale",
    "C69_shapes"
   ],
   "note": ""
  },
  {
   "property": "C70",
   "status": "proved",
   "theorems": [
    "C70_frozen",
    "C70_models",
    "C70_split",
    "C70_first",
    "C70_status",
    "C70_refused",
    "C70_failed_download_refuted",
    "C70_data_file_refuted",
    "C70_data_file_ignored",
    "C70_mixed_refuted"
   ],
   "note": ""
  }
 ]
}