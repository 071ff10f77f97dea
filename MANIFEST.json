{
 "claims": [
  {
   "property": "C01",
   "status": "proved",
   "theorems": [
    "container_refines_bag",
    "container_never_stuck",
    "container_create_truncation_refuted"
   ],
   "note": "Bag refinement for every history of insert/create/remove/replace/update/reset with at most 2^29 particles added per event (between two resets); create(n) with n above 2^31 is truncated (refuted theorem)."
  },
  {
   "property": "C02",
   "status": "proved",
   "theorems": [
    "container_ids_unique_and_fresh"
   ],
   "note": ""
  },
  {
   "property": "C03",
   "status": "proved",
   "theorems": [
    "container_is_valid_iff_alive",
    "container_stale_copy_across_reset_refuted"
   ],
   "note": "is_valid is exact within one event; a copy kept across reset() can be taken for another particle (refuted theorem)."
  },
  {
   "property": "C04",
   "status": "proved",
   "theorems": [
    "container_iteration_safe",
    "container_front_back"
   ],
   "note": ""
  },
  {
   "property": "C05",
   "status": "partial",
   "theorems": [
    "container_is_empty_partial",
    "container_is_empty_refuted"
   ],
   "note": "is_empty() answers the wrong question when the slot array has holes; proved for the cases where it is right, refuted in general."
  },
  {
   "property": "C06",
   "status": "proved",
   "theorems": [
    "antiparticle_reverses_quantum_numbers",
    "antiparticle_of_accepted_is_accepted"
   ],
   "note": ""
  },
  {
   "property": "C07",
   "status": "proved",
   "theorems": [
    "charge_exact_and_gell_mann_nishijima",
    "nucleus_charge_is_Z"
   ],
   "note": ""
  },
  {
   "property": "C08",
   "status": "proved",
   "theorems": [
    "decimal_roundtrip_int32",
    "decimal_roundtrip_string",
    "decimal_roundtrip_decimal",
    "decimal_injective",
    "from_decimal_is_faithful",
    "from_decimal_eight_digits_refuted",
    "from_decimal_ten_million_refuted"
   ],
   "note": "Round trip for every code built from integers, decimal strings or decimal numbers. Eight-digit inputs can alias and 10^7 overflows (refuted theorems)."
  },
  {
   "property": "C09",
   "status": "proved",
   "theorems": [
    "string_roundtrip_int32",
    "string_roundtrip_string",
    "string_reads_its_number",
    "bad_strings_rejected",
    "strings_never_undefined",
    "string_roundtrip_hex_refuted"
   ],
   "note": "Strings with hexadecimal excitation digits are accepted and not read back (refuted theorem)."
  },
  {
   "property": "C10",
   "status": "proved",
   "theorems": [
    "quark_content_matches_net_numbers",
    "quark_content_is_baryon_or_pair",
    "quark_content_K0L_refuted"
   ],
   "note": "For mesons the heavier flavour must come first; K0_L (130) violates the property (refuted theorem)."
  },
  {
   "property": "C11",
   "status": "proved",
   "theorems": [
    "accepted_codes_are_physical",
    "int_constructor_accepts_exactly_physical",
    "int_and_string_constructors_agree",
    "int_and_string_constructors_agree_refuted",
    "int_constructor_never_undefined",
    "int_constructor_min_refuted"
   ],
   "note": "The constructors disagree outside the stated digit ranges (refuted theorem)."
  },
  {
   "property": "C13",
   "status": "proved",
   "theorems": [
    "uniform_clock_partitions_run",
    "uniform_clock_accepts",
    "uniform_clock_rejects",
    "reported_time_accurate",
    "tiny_step_never_advances_refuted"
   ],
   "note": "Doubles are rounded reals (Flocq). Proved for |times| <= 5e8 fm and steps >= 1 micro-fm. Finding: a positive step <= 4e-7 fm is accepted and the clock never advances."
  },
  {
   "property": "C14",
   "status": "proved",
   "theorems": [
    "tick_exact_or_throws",
    "tick_n_exact_or_throws",
    "next_time_never_wraps",
    "next_time_defined",
    "tick_back_guard_overflows_refuted",
    "next_time_guard_overflows_refuted"
   ],
   "note": "++ and += n (n >= 0) are exact or throw; next_time is exact whenever it returns. Findings: the guards of += (n < 0) and next_time can overflow themselves."
  },
  {
   "property": "C15",
   "status": "partial",
   "theorems": [
    "set_timestep_keeps_time",
    "set_timestep_succeeds",
    "set_timestep_rejects",
    "reset_restarts_at",
    "reset_restarts_near",
    "output_reset_at_multiple_partial",
    "output_reset_one_interval_early_refuted"
   ],
   "note": "The output-clock part is false as stated: starting at 0.57 with interval 0.19 resets one interval early; the partial theorem gives the exact condition under which it holds."
  },
  {
   "property": "C16",
   "status": "proved",
   "theorems": [
    "custom_clock_visits_in_order",
    "custom_clock_fresh",
    "custom_times_after_events",
    "custom_times_lost_in_later_event_refuted"
   ],
   "note": "One event: proved. Finding: times removed for one event stay removed for later events that start earlier."
  },
  {
   "property": "C12",
   "status": "proved",
   "theorems": [
    "find_finds_exactly_declared",
    "duplicate_codes_rejected",
    "distinct_codes_accepted",
    "antiparticle_is_listed",
    "failed_reload_replaces_list_refuted"
   ],
   "note": "Any particle file of at most 65535 types; the tokenised line is the input. Finding: a second load throws but has already replaced the list in use."
  },
  {
   "property": "C17",
   "status": "proved",
   "theorems": [
    "scheduler_serves_in_time_order",
    "draining_sorts",
    "earliest_time_is_next",
    "earliest_time_empty_refuted"
   ],
   "note": "Heap algorithms of libstdc++ modelled step by step; times NaN-free. earliest_time() on an empty scheduler is undefined."
  },
  {
   "property": "C63",
   "status": "proved",
   "theorems": [
    "multiplets_partition_types"
   ],
   "note": ""
  },
  {
   "property": "C18",
   "status": "proved",
   "theorems": [
    "cell_indices_bijective",
    "open_iteration_visits_once",
    "open_grid_offers_close_pairs_once",
    "open_largest_offers_all_pairs_once"
   ],
   "note": "Any grid size and particle distribution; positions exact reals. The offered pairs are those the finder loops pass to check_collision_two_part."
  },
  {
   "property": "C19",
   "status": "proved",
   "theorems": [
    "periodic_iteration_visits_once",
    "periodic_grid_offers_close_images_once"
   ],
   "note": "At least two cells per direction. Exact reals; the distance guaranteed is the requested one less 2^-53 of the box length, because of the downward rescaling of the index factor."
  },
  {
   "property": "C20",
   "status": "proved",
   "theorems": [
    "grid_files_every_particle_once",
    "periodic_box_too_small_rejected",
    "double_grid_files_every_particle_once",
    "short_extent_out_of_bounds_refuted",
    "cell_count_overflows_refuted",
    "largest_strategy_keeps_unformed_refuted"
   ],
   "note": "Proved in exact arithmetic and, for extents of at least one cell length, in IEEE doubles. Findings: out-of-bounds filing when an extent is just below the cell length; int overflow of the cell count; largest strategy keeps unformed particles."
  },
  {
   "property": "C21",
   "status": "proved",
   "theorems": [
    "lattice_constructed_usable",
    "lattice_index_bijective",
    "lattice_cell_center_of_index",
    "lattice_neighbours"
   ],
   "note": "Int overflow and failed asserts are modelled as undefined behaviour and excluded."
  },
  {
   "property": "C22",
   "status": "proved",
   "theorems": [
    "open_box_iteration_exact",
    "periodic_box_iteration_exact",
    "lookup_gives_value_of_containing_cell",
    "periodic_lookup_gives_value_of_containing_cell",
    "periodic_lookup_far_out_of_bounds_refuted",
    "large_cutoff_visits_twice_refuted",
    "nearest_neighbours_outside_undefined_refuted"
   ],
   "note": "Exact reals; within int range (open) or 200 periods (periodic). Findings: negative index beyond 256 periods; repeated nodes for cut-offs above half the lattice; unchecked point in iterate_nearest_neighbors."
  },
  {
   "property": "C23",
   "status": "proved",
   "theorems": [
    "gradient_is_difference_quotient",
    "gradient_refused",
    "gradient_exact_for_linear_fields",
    "four_gradient_is_difference_quotient"
   ],
   "note": "Open and periodic lattices, any value type."
  },
  {
   "property": "C24",
   "status": "partial",
   "theorems": [
    "resize_keeps_usable",
    "resize_cells_out_of_bounds_refuted"
   ],
   "note": "Holds when the number of cells is kept (the only use in the code base); refuted when it is enlarged: the storage is not resized."
  },
  {
   "property": "C64",
   "status": "partial",
   "theorems": [
    "discrete_smearing_weights_sum_to_one",
    "discrete_smearing_border_refuted"
   ],
   "note": "Holds for periodic lattices and inner cells; refuted at the border of an open lattice, where missing neighbours get the central weight."
  },
  {
   "property": "C65",
   "status": "partial",
   "theorems": [
    "triangular_smearing_normalised",
    "triangular_smearing_fractional_range_refuted"
   ],
   "note": "Holds for integer ranges (the default is 2); refuted for a range of 1.5."
  },
  {
   "property": "C25",
   "status": "proved",
   "theorems": [
    "take_returns_value_and_removes_only_it",
    "take_without_value",
    "user_value_never_replaced_by_default",
    "second_take_with_default_refuted",
    "empty_name_lost_by_take_refuted",
    "duplicate_key_taken_twice_refuted"
   ],
   "note": "Any tree with pairwise different, non-empty names in each section. Findings: take(key, default) after the key was taken silently gives the default; taking any key also removes an entry named by the empty text; with a duplicated key the second value shows up on a second take."
  },
  {
   "property": "C26",
   "status": "proved",
   "theorems": [
    "read_previews_take",
    "given_default_only_without_value",
    "given_default_hides_map_refuted",
    "set_then_read",
    "set_after_clear_lost_refuted"
   ],
   "note": "read is a function of the tree in the model; set_value on a cleared configuration is lost."
  },
  {
   "property": "C27",
   "status": "proved",
   "theorems": [
    "merge_precedence",
    "merged_key_wins",
    "merge_empty_document_erases_refuted",
    "merge_into_empty_file_lost_refuted",
    "merge_refused_not_atomic_refuted",
    "merge_over_list_numbers_refuted"
   ],
   "note": "For merged-in maps that do not put a section where the old tree has a non-empty list. Findings: an empty document erases everything; merging into a configuration read from an empty file is lost; a refused merge leaves a half-merged tree; list entries become numbered keys."
  },
  {
   "property": "C28",
   "status": "proved",
   "theorems": [
    "unused_keys_reported",
    "taken_labels_existed",
    "moved_from_is_silent",
    "valueless_key_always_unused_refuted",
    "move_assignment_drops_keys_refuted"
   ],
   "note": "Any sequence of takes with and without defaults."
  },
  {
   "property": "C29",
   "status": "proved",
   "theorems": [
    "extract_moves_section",
    "extract_otherwise",
    "enclose_prefixes",
    "extract_complete_lossless",
    "default_after_extract_refuted"
   ],
   "note": "Finding: keys that left through extract_sub_configuration are not remembered as taken."
  },
  {
   "property": "C30",
   "status": "partial",
   "theorems": [
    "full_validation_is_worst",
    "quick_validation_valid_iff",
    "validation_out_of_bounds_iff",
    "validation_of_plain_modi_refuted",
    "quick_validation_hides_invalid_refuted"
   ],
   "note": "Verdict part proved. The no-out-of-bounds part is false; the theorem gives the exact inputs, e.g. a plain value for the section Modi."
  },
  {
   "property": "C66",
   "status": "proved",
   "theorems": [
    "remove_all_but_keeps_one"
   ],
   "note": ""
  },
  {
   "property": "C67",
   "status": "proved",
   "theorems": [
    "input_keys_sensible"
   ],
   "note": "The key list is a generated copy of input_keys.h; consistency of the entries is decided by computation on that finite list, the lemma apart_spec covers all pairs."
  },
  {
   "property": "C31",
   "status": "proved",
   "theorems": [
    "hash_is_sha256",
    "constants_are_standard",
    "hash_text_faithful"
   ],
   "note": "Every message shorter than 2^61 bytes; the standard (FIPS 180-4) is written out in ShaSpec.v, with the constants characterised as root digits of primes."
  },
  {
   "property": "C32",
   "status": "proved",
   "theorems": [
    "chunking_does_not_matter",
    "finalize_needs_reset"
   ],
   "note": ""
  },
  {
   "property": "C33",
   "status": "proved",
   "theorems": [
    "output_file_complete",
    "full_disk_output_complete_refuted",
    "unopened_output_file_refuted"
   ],
   "note": "Crash = any prefix of the events. Assumes the system accepts the writes; without that the claim is false (findings)."
  },
  {
   "property": "C34",
   "status": "proved",
   "theorems": [
    "lock_exclusive",
    "lock_removed_only_by_holder",
    "lock_granted_iff_free",
    "lock_of_dead_process_is_never_granted",
    "copied_lock_refuted"
   ],
   "note": "Any number of objects and processes, any interleaving and crashes; copies of lock objects excluded (the implicit copy constructor breaks the claim)."
  },
  {
   "property": "C35",
   "status": "proved",
   "theorems": [
    "cache_is_sound",
    "cache_run_is_complete",
    "cache_after_lock_removal_refuted",
    "cache_after_full_disk_refuted",
    "tabulation_paths_distinct_refuted",
    "config_hash_of_concatenation",
    "config_hash_distinguishes_refuted"
   ],
   "note": "Transition system with any number of runs and crashes. Side conditions that are really needed are shown by the refuted theorems: nobody removes a stale lock, no failed writes."
  },
  {
   "property": "C48",
   "status": "proved",
   "theorems": [
    "tabulation_exact_at_grid_points",
    "tabulation_linear_between_grid_points",
    "tabulation_outside_range",
    "tabulation_step_is_nearest",
    "tabulation_needs_two_intervals",
    "tabulation_file_round_trip",
    "tabulation_file_other_hash",
    "empty_tabulation_lookup_refuted",
    "truncated_file_detected_refuted"
   ],
   "note": "Look-ups over exact reals; file format on bit patterns."
  },
  {
   "property": "C68",
   "status": "partial",
   "theorems": [
    "pair_table_is_right_partial",
    "pair_table_order_refuted"
   ],
   "note": "False for (rho, h1) in this order: the rho-rho table is used. Proved when the second partner is Delta or rho."
  },
  {
   "property": "C36",
   "status": "proved",
   "theorems": [
    "totals_are_sums",
    "totals_order_independent",
    "totals_grouping_independent",
    "totals_additive",
    "momentum_total_error",
    "momentum_order_refuted",
    "report_deviations_empty_iff",
    "report_deviations_names",
    "tolerance_not_transitive_refuted"
   ],
   "note": "Integer numbers exactly (while no partial sum leaves int); momenta up to the proved rounding bound, exact order independence of the double sum is refuted."
  },
  {
   "property": "C37",
   "status": "proved",
   "theorems": [
    "perform_replaces_participants",
    "perform_invalidates_others",
    "performed_action_conserves",
    "violation_is_reported"
   ],
   "note": "Over every container history. Wall crossings and fluidization without removal keep other pending actions valid by design."
  },
  {
   "property": "C38",
   "status": "proved",
   "theorems": [
    "event_loop_conserves",
    "event_loop_balance",
    "performed_actions_conserve_or_are_exempt"
   ],
   "note": "Every schedule, one ensemble, any finders and final states; all six integer numbers."
  },
  {
   "property": "C39",
   "status": "proved",
   "theorems": [
    "event_loop_time_order",
    "events_happen_at_their_time",
    "time_step_within_limits",
    "outputs_at_output_times"
   ],
   "note": "Times are any totally ordered set of doubles (modelled as integers); hypotheses on the finders are the ones of the property (no action in the past), and on the clocks the ones proved in ClockProps."
  },
  {
   "property": "C69",
   "status": "proved",
   "theorems": [
    "state_interacts_at_most_once"
   ],
   "note": ""
  },
  {
   "property": "C70",
   "status": "proved",
   "theorems": [
    "event_loop_never_undefined"
   ],
   "note": "Except that the int totals of QuantumNumbers may overflow; non-termination (infinitely many actions) is not excluded."
  },
  {
   "property": "C71",
   "status": "partial",
   "theorems": [
    "evolution_resumes_exactly_but_for_outputs",
    "split_evolution_same_outputs_refuted"
   ],
   "note": "False for outputs: every call advances the output clock once more, so one output time is skipped. Proved: everything else is resumed exactly."
  },
  {
   "property": "C40",
   "status": "partial",
   "theorems": [
    "numeric_cast_int_exact",
    "numeric_cast_from_double_exact",
    "numeric_cast_to_double_exact",
    "numeric_cast_small_int_to_double",
    "numeric_cast_out_of_range_throws_refuted",
    "numeric_cast_large_int_to_double_throws_refuted"
   ],
   "note": "Between integral types: proved. From a double whose truncation does not fit, and for integers near 2^64 to double, the conversion is undefined instead of throwing (refuted); otherwise proved. NaN not modelled."
  },
  {
   "property": "C41",
   "status": "partial",
   "theorems": [
    "periodic_wrap",
    "periodic_wrap_rounded",
    "periodic_wrap_inside_refuted"
   ],
   "note": "Exact arithmetic: proved. Doubles: result in [0, length], and length itself is reached (refuted)."
  },
  {
   "property": "C42",
   "status": "proved",
   "theorems": [
    "average_is_mean",
    "dedup_avg_is_mean_of_runs",
    "dedup_avg_fails_iff",
    "dedup_avg_removes_duplicates"
   ],
   "note": "Exact arithmetic."
  },
  {
   "property": "C43",
   "status": "proved",
   "theorems": [
    "choose_channel_succeeds",
    "choose_channel_interval",
    "total_weight_is_accumulated",
    "add_process_keeps_channels",
    "choose_channel_empty_refuted"
   ],
   "note": "Success: for any (rounded) addition; intervals: exact arithmetic. An empty channel list aborts."
  },
  {
   "property": "C44",
   "status": "proved",
   "theorems": [
    "boost_preserves_product",
    "boost_inverse",
    "boost_to_rest_frame"
   ],
   "note": "Exact arithmetic."
  },
  {
   "property": "C45",
   "status": "partial",
   "theorems": [
    "rotate_preserves_inner",
    "rotate_can_be_undone",
    "rotate_around_axis",
    "rotate_z_axis_to_direction",
    "rotate_z_axis_to_direction_refuted"
   ],
   "note": "rotate_z_axis_to is wrong for directions whose transverse components are below 1e-6 (refuted); otherwise proved. Exact arithmetic."
  },
  {
   "property": "C46",
   "status": "partial",
   "theorems": [
    "pCM_is_two_body_momentum",
    "pCM_zero_below_threshold_refuted",
    "fixed_target_s",
    "two_beams_s_Etot",
    "two_beams_s_Ekin_partial",
    "two_beams_s_Ekin_refuted",
    "two_beams_s_plab_partial",
    "two_beams_s_plab_refuted",
    "plab_of_s_of_plab",
    "s_of_plab_of_s",
    "center_of_velocity_gives_s",
    "fixed_target_velocity_gives_s",
    "t_range_is_exact"
   ],
   "note": "s_from_Ekin and s_from_plab for two beams are wrong for different masses / for any masses (refuted); the rest is proved. Exact arithmetic."
  },
  {
   "property": "C72",
   "status": "proved",
   "theorems": [
    "set_phi_spec",
    "set_costheta_spec",
    "direction_is_unit",
    "add_to_theta_moves_along_meridian",
    "add_to_theta_rejects",
    "add_to_theta_there_and_back"
   ],
   "note": "Exact arithmetic."
  },
  {
   "property": "C73",
   "status": "partial",
   "theorems": [
    "less_is_componentwise",
    "greater_is_componentwise",
    "less_equal_componentwise_partial",
    "less_equal_componentwise_refuted"
   ],
   "note": "<= and >= are defined as negations of > and < and are not componentwise (refuted)."
  },
  {
   "property": "C53",
   "status": "partial",
   "theorems": [
    "wall_crossing_none",
    "wall_crossing_first",
    "wall_crossing_slow",
    "wall_crossing_slow_refuted"
   ],
   "note": "Proved for coordinates faster than 1e-6, any number of coordinates; slower ones are ignored and can leave the box by at most 1e-6 times the time (refuted in general). Exact arithmetic."
  },
  {
   "property": "C54",
   "status": "partial",
   "theorems": [
    "hypersurface_crossing_exact",
    "hypersurface_frozen_fermi_refuted",
    "hypersurface_early_start_refuted"
   ],
   "note": "Proved for steps starting at t >= 0 and particles moving with their own velocity. Refuted with frozen Fermi motion (position computed with the wrong velocity) and for steps starting before t = 0. Exact arithmetic."
  },
  {
   "property": "C55",
   "status": "proved",
   "theorems": [
    "propagation_is_straight",
    "propagation_composes",
    "backpropagation_is_straight",
    "back_and_forth"
   ],
   "note": "Exact arithmetic."
  },
  {
   "property": "C74",
   "status": "partial",
   "theorems": [
    "hubble_rate_partial",
    "hubble_rate_exponential",
    "hubble_rate_refuted",
    "expansion_step"
   ],
   "note": "The mode Exponential uses b*t instead of b/2 (refuted)."
  },
  {
   "property": "C75",
   "status": "proved",
   "theorems": [
    "interaction_point_in_box",
    "interaction_point_is_mean"
   ],
   "note": "Exact arithmetic; particles inside the box at the time of the interaction."
  },
  {
   "property": "C76",
   "status": "proved",
   "theorems": [
    "two_body_final_state",
    "many_body_final_state",
    "boosted_final_state",
    "many_body_below_threshold"
   ],
   "note": "Exact arithmetic; the rejection loop is not modelled (the theorem holds for every set of draws)."
  },
  {
   "property": "C77",
   "status": "proved",
   "theorems": [
    "scaling_factor_grows",
    "formation_is_inherited"
   ],
   "note": "Exact arithmetic."
  },
  {
   "property": "C78",
   "status": "partial",
   "theorems": [
    "unpolarized_spin_orthogonal_partial",
    "unpolarized_spin_orthogonal_refuted"
   ],
   "note": "The length is right; orthogonality is false because the boost has the wrong sign (refuted, with the sign that would work)."
  },
  {
   "property": "C79",
   "status": "partial",
   "theorems": [
    "beam_energy_partial",
    "beam_energy_two_totals_refuted",
    "beam_energy_two_kinetic_refuted",
    "beam_energy_two_momenta_refuted",
    "beam_energy_below_mass_refuted",
    "one_energy_input_needed"
   ],
   "note": "Proved for fixed-target inputs, Sqrtsnn and the total of two beam energies; refuted for the three two-beam inputs and for total energies below the mass, which are accepted."
  },
  {
   "property": "C80",
   "status": "proved",
   "theorems": [
    "frame_velocities",
    "nuclei_touch_at_zero",
    "zero_kinetic_energy_refuted"
   ],
   "note": "For positive kinetic energy; zero kinetic energy is accepted and leads to a division by zero (refuted)."
  },
  {
   "property": "C47",
   "status": "partial",
   "theorems": [
    "duplicates_rejected",
    "interpolation_exact_partial",
    "interpolation_reproduces_partial",
    "interpolation_between_partial",
    "interpolation_one_point_refuted",
    "interpolation_no_point",
    "interpolation_rounding_refuted",
    "trilinear_corners",
    "trilinear_between",
    "trilinear_exact",
    "spline_checks",
    "spline_constant_outside"
   ],
   "note": "Proved for at least two points in exact arithmetic; a single point leads to an out-of-bounds access and rounding can lose the tabulated value (both refuted)."
  },
  {
   "property": "C49",
   "status": "partial",
   "theorems": [
    "chunked_writing",
    "chunks_respect_limit",
    "variant_names_the_quantities",
    "collisions_file_decodes",
    "particles_file_decodes",
    "ic_file_decodes_partial",
    "ic_file_refuted"
   ],
   "note": "The initial-conditions file can be decoded but lacks the documented event and ensemble numbers (refuted)."
  },
  {
   "property": "C50",
   "status": "proved",
   "theorems": [
    "quantities_accepted",
    "quantities_rejected",
    "ascii_columns"
   ],
   "note": "Text columns: for any number-to-text conversion that gives no blank and no empty text."
  },
  {
   "property": "C51",
   "status": "partial",
   "theorems": [
    "trim_exact",
    "stripped_unique",
    "line_parser_exact_partial",
    "line_parser_empty_refuted",
    "line_parser_empty_only"
   ],
   "note": "Everything but the claim that no returned line is empty: a line with only a carriage return is returned as empty text (refuted)."
  },
  {
   "property": "C52",
   "status": "partial",
   "theorems": [
    "split_exact",
    "fields_unique",
    "join_exact",
    "split_join_partial",
    "split_join_only",
    "join_split_partial",
    "split_join_refuted"
   ],
   "note": "Exact conditions for both round trips; both fail for a trailing empty field or leading empty fields (refuted)."
  },
  {
   "property": "C81",
   "status": "partial",
   "theorems": [
    "padding_exact",
    "padding_too_wide_refuted"
   ],
   "note": "A text wider than the width throws length_error instead of being returned unchanged (refuted)."
  },
  {
   "property": "C82",
   "status": "partial",
   "theorems": [
    "remove_substr_spec",
    "remove_empty_refuted",
    "isoclean_exact_partial",
    "isoclean_refuted"
   ],
   "note": "Non-empty patterns; an empty pattern never ends (refuted); isoclean also changes names whose marks appear only after other removals (refuted)."
  },
  {
   "property": "C56",
   "status": "proved",
   "theorems": [
    "diquark_round_trip",
    "diquark_round_trip_back",
    "string_ends_carry_the_quarks",
    "excess_exact",
    "replace_spec"
   ],
   "note": ""
  },
  {
   "property": "C57",
   "status": "partial",
   "theorems": [
    "resonance_carries_the_flavour",
    "resonance_closest_partial",
    "closest_resonance_refuted"
   ],
   "note": "The result always fits the string; it is the closest one if no candidate lies above the mass; refuted in general because the remembered difference has lost its absolute value."
  },
  {
   "property": "C83",
   "status": "proved",
   "theorems": [
    "restored_flavour"
   ],
   "note": ""
  },
  {
   "property": "C84",
   "status": "proved",
   "theorems": [
    "annihilation_keeps_flavour"
   ],
   "note": ""
  },
  {
   "property": "C85",
   "status": "partial",
   "theorems": [
    "composed_string_is_singlet",
    "singlet_record_has_strings",
    "record_is_partitioned_into_singlets",
    "self_singlet_gluon_refuted"
   ],
   "note": "Records without junctions; a gluon whose colour equals its own anticolour makes the tracing throw (refuted)."
  },
  {
   "property": "C86",
   "status": "partial",
   "theorems": [
    "mesonic_string_has_two_leading_hadrons",
    "baryonic_string_factors_partial",
    "leading_pair_refuted"
   ],
   "note": "Proved for mesonic strings; in baryonic strings only one orientation is tried, so a baryon at the far end gets 1/3 and the near end nothing (refuted)."
  },
  {
   "property": "C87",
   "status": "proved",
   "theorems": [
    "final_two_share_the_string"
   ],
   "note": ""
  },
  {
   "property": "C88",
   "status": "proved",
   "theorems": [
    "shift_keeps_shell_and_transverse",
    "shift_boosts_the_event"
   ],
   "note": ""
  },
  {
   "property": "C89",
   "status": "partial",
   "theorems": [
    "rescaling_restores_energy",
    "rescaling_never_ends_refuted"
   ],
   "note": "If the loop ends the result is right; it never ends when the partons together are heavier than the initial energy (refuted)."
  },
  {
   "property": "C58",
   "status": "partial",
   "theorems": [
    "density_between_entries_partial",
    "density_order_free",
    "pauli_interpolation_refuted"
   ],
   "note": "The result lies between neighbouring table entries and does not depend on the particle order; the two interpolation weights are swapped, so it is not the linear interpolation (refuted)."
  },
  {
   "property": "C59",
   "status": "partial",
   "theorems": [
    "psort_selects",
    "psort_zero_refuted"
   ],
   "note": "For k >= 1; for k = 0 the code reads outside the array (refuted)."
  },
  {
   "property": "C60",
   "status": "partial",
   "theorems": [
    "single_file_delivered",
    "numbered_files_delivered",
    "tail_is_no_event",
    "long_tail_counts_as_event",
    "short_tail_lost_refuted",
    "blank_tail_event_refuted"
   ],
   "note": "Proved for files made of complete events with leading comment and end line, possibly followed by at most four lines or an unterminated comment; up to four lines without comment are taken as no event, and more than four blank lines as an event (refuted)."
  },
  {
   "property": "C61",
   "status": "partial",
   "theorems": [
    "accepted_two_body_conserves",
    "accepted_three_states_conserve",
    "renormalized_sum",
    "s_wave_rejected_refuted",
    "third_daughter_spin_refuted",
    "zero_ratios_refuted"
   ],
   "note": "Accepted two-body modes and three-body modes of states conserve angular momentum; allowed s-waves are rejected, the third multiplet's spin is not used, and zero ratios become NaN (refuted)."
  },
  {
   "property": "C62",
   "status": "proved",
   "theorems": [
    "sampled_difference",
    "sampled_pair_exists"
   ],
   "note": ""
  },
  {
   "property": "C90",
   "status": "partial",
   "theorems": [
    "bessel_weights_exact",
    "bessel_ratio_refuted",
    "negative_multiplicity_refuted"
   ],
   "note": "The weights are exact; the continued fraction is not converged for large arguments and the Gaussian branch can return negative multiplicities (refuted)."
  },
  {
   "property": "C91",
   "status": "partial",
   "theorems": [
    "add_mode_adds_weight",
    "accepted_section",
    "antiparticle_modes",
    "multiplet_charge_refuted"
   ],
   "note": "Modes given by multiplets are not checked for charge conservation (refuted)."
  },
  {
   "property": "C92",
   "status": "partial",
   "theorems": [
    "geometric_time_is_closest",
    "collision_time_of_propagation",
    "soft_particles_meet_refuted"
   ],
   "note": "Proved if the energies times the velocity difference are large enough; soft light particles get no collision time although they meet (refuted)."
  },
  {
   "property": "C93",
   "status": "partial",
   "theorems": [
    "transverse_distance_is_closest",
    "covariant_distance_is_closest",
    "transverse_distance_invariant",
    "covariant_equal_momenta_refuted",
    "frozen_fermi_distance_refuted"
   ],
   "note": "The covariant formula returns the wrong distance, and different ones in different frames, for equal three-momenta and different masses, and with frozen Fermi motion the distance is not that of the trajectories (refuted); pairs with almost no relative momentum are excluded."
  },
  {
   "property": "C94",
   "status": "proved",
   "theorems": [
    "covariant_times_are_closest",
    "covariant_time_symmetric"
   ],
   "note": ""
  },
  {
   "property": "C95",
   "status": "partial",
   "theorems": [
    "geometric_decision",
    "stochastic_decision",
    "multi_decision",
    "relative_velocity_is_moller",
    "decision_symmetric",
    "above_maximum_dropped_refuted",
    "stochastic_zero_cross_section_refuted"
   ],
   "note": "The quick rejection is harmless only below the maximal cross section, and a random draw of exactly 0 lets a pair without cross section collide (refuted). The cross section itself is an argument."
  },
  {
   "property": "C96",
   "status": "proved",
   "theorems": [
    "cell_checks_every_tuple_once",
    "cell_pair_once",
    "neighbors_check_every_pair_once",
    "surrounding_check_every_pair_once"
   ],
   "note": ""
  },
  {
   "property": "C97",
   "status": "partial",
   "theorems": [
    "blatt_weisskopf_increasing",
    "blatt_weisskopf_at_zero",
    "blatt_weisskopf_limit",
    "blatt_weisskopf_small",
    "blatt_weisskopf_two_three",
    "post_ff_normalised",
    "post_ff_shape",
    "stable_width_shape",
    "unstable_width_at_pole",
    "in_width_matches",
    "dilepton_width_at_pole_refuted",
    "dilepton_width_partial",
    "total_width_at_pole",
    "total_width_nonneg"
   ],
   "note": "Dilepton modes do not have the given width at the pole mass (refuted); the tabulated phase-space integrals of unstable daughters are arguments; Dalitz widths are not modelled."
  },
  {
   "property": "C98",
   "status": "proved",
   "theorems": [
    "survival_of_one_step",
    "decay_law",
    "no_decay"
   ],
   "note": "Exact reals, no potentials."
  },
  {
   "property": "C99",
   "status": "proved",
   "theorems": [
    "channel_frequencies",
    "action_channels"
   ],
   "note": ""
  },
  {
   "property": "C100",
   "status": "partial",
   "theorems": [
    "final_decays_complete",
    "final_decays_keep",
    "final_decays_conserve",
    "final_decays_end",
    "final_decay_succeeds",
    "final_decays_abort_refuted"
   ],
   "note": "A particle without an open mode aborts the run (refuted); it does not happen if every particle has one. The loop ends if some measure of the particles goes down in every decay."
  },
  {
   "property": "C101",
   "status": "partial",
   "theorems": [
    "tensor_of_particles",
    "weighted_particle",
    "index_symmetric",
    "index_rejects",
    "boosted_tensor",
    "landau_frame_is_rest_frame",
    "eigenvalue_sign",
    "landau_frame_unique",
    "landau_frame_partial",
    "landau_frame_refuted"
   ],
   "note": "Above Lorentz factors of about 707 the threshold 1e-6 on the eigenvector's square makes (1,0,0,0) the result (refuted). The eigenpairs computed by Eigen are an argument; exact reals."
  },
  {
   "property": "C102",
   "status": "partial",
   "theorems": [
    "shining_weight",
    "shining_independent_of_steps",
    "final_weight_is_branching_fraction",
    "ever_counts_once",
    "everything_shines_once",
    "shining_of_unformed_refuted",
    "unforced_shines_twice_refuted"
   ],
   "note": "While a hadron forms, the weights depend on the steps, and without forced decays resonances at the end shine twice (refuted)."
  },
  {
   "property": "C103",
   "status": "proved",
   "theorems": [
    "dalitz_kinematics",
    "dalitz_refuses"
   ],
   "note": "Exact reals; the branching factor is not modelled."
  },
  {
   "property": "C104",
   "status": "partial",
   "theorems": [
    "centring",
    "rotating",
    "arranged",
    "fermi_motion",
    "boosted_nucleon",
    "boosted_nucleus_momentum",
    "prepared_nucleus",
    "filled",
    "boost_adds_beam_momentum_refuted",
    "negative_number_refuted"
   ],
   "note": "A negative number of nucleons makes filling run on (refuted). The boost is the Lorentz transformation and not, as the comment says, beam momentum plus gamma times Fermi momentum (refuted). Exact reals."
  },
  {
   "property": "C105",
   "status": "partial",
   "theorems": [
    "woods_saxon_is_sampled",
    "sampled_radius",
    "sampled_radius_is_finite_refuted",
    "hard_sphere_is_uniform"
   ],
   "note": "A draw of exactly 0 gives an infinite radius (refuted). Probabilities are lengths and iterated Riemann integrals over the draws; exact reals; deformed nuclei are not covered."
  },
  {
   "property": "C106",
   "status": "partial",
   "theorems": [
    "lines_in_turn",
    "accepted_nucleus",
    "nuclei_in_turn",
    "last_line_without_newline_refuted",
    "incomplete_last_nucleus_refuted"
   ],
   "note": "A last line without newline is dropped, and an incomplete last nucleus is completed with nucleons of the first one (refuted). Parsing of a line is an argument."
  },
  {
   "property": "C107",
   "status": "partial",
   "theorems": [
    "multi_reactions",
    "multi_order",
    "multi_conserves",
    "multi_total",
    "multi_final_state",
    "four_body_phase_space",
    "five_pions_without_protons_refuted"
   ],
   "note": "Looking for the annihilation of five pions dereferences the proton type before checking that it exists (refuted). Phase-space integrals and cross sections in the weights are not modelled except the four-body parametrisation; exact reals."
  },
  {
   "property": "C108",
   "status": "partial",
   "theorems": [
    "cell_choice",
    "sort_choice",
    "mode_sampling_conserves",
    "bf_conserves",
    "light_hadrons",
    "renormalized_total",
    "cell_choice_zero_refuted",
    "bf_negative_pair_refuted",
    "renormalize_heavy_refuted"
   ],
   "note": "A draw of exactly 0 reads cell -1; a negative Bessel multiplicity breaks conservation in BF sampling; particles heavier than the required mass give too much energy without a message (refuted). Exact reals; termination of the rejection loops is not claimed; the energy check of the microcanonical option only rejects and is left out."
  },
  {
   "property": "C109",
   "status": "partial",
   "theorems": [
    "thermalization_time",
    "once_per_period",
    "removed_particles",
    "first_time_skipped_refuted"
   ],
   "note": "A step beginning exactly at the start time is skipped, and with it the first period (refuted). Exact reals."
  },
  {
   "property": "C110",
   "status": "partial",
   "theorems": [
    "meson_baryon_conserves",
    "meson_baryon_never_throws",
    "formation_conserves",
    "deuteron_breakup_conserves",
    "triton_breakup_conserves",
    "nuclear_excitation_conserves_partial",
    "nucleon_nucleon_conserves",
    "absorption_conserves",
    "nucleon_antinucleon_conserves",
    "unphysical_breakup_refuted",
    "nuclear_excitation_strangeness_refuted"
   ],
   "note": "Nucleon + triton -> nucleon + hypertriton is offered when both nuclei are known (refuted); a nucleus with more protons and Lambdas than its mass number loses a Lambda (refuted). String excitation, rare pion channels and photons are not covered. Parametrised values are opaque reals."
  },
  {
   "property": "C111",
   "status": "partial",
   "theorems": [
    "meson_baryon_symmetric",
    "order_irrelevant",
    "sigma_channels_isospin",
    "elastic_symmetric",
    "elastic_defined",
    "totals_conj",
    "high_energy_conj_refuted",
    "string_mirror_refuted"
   ],
   "note": "The high-energy total of pi- antiproton differs from that of pi+ proton, and the kaon offset of the string transition is used for K+ p but not for its mirror K0 n (refuted). Exact reals."
  },
  {
   "property": "C112",
   "status": "partial",
   "theorems": [
    "strangeness_exchange_balance",
    "kaon_delta_balance_partial",
    "charge_exchange_reversible",
    "nucleon_resonance_balance",
    "kaon_delta_cutoff_refuted"
   ],
   "note": "Above the cutoff energy kaon-nucleon to kaon-Delta is switched off but its inverse is not (refuted). Exact reals; channels below 1e-6 are dropped in each direction separately."
  },
  {
   "property": "C113",
   "status": "partial",
   "theorems": [
    "string_excitation_total",
    "transit_monotone",
    "string_probability_range",
    "collision_total",
    "collision_weights_nonneg",
    "pack_injective",
    "string_excitation_refuted",
    "transition_width_refuted"
   ],
   "note": "Vanishing single-diffractive cross sections or an empty transition region give 0/0 (refuted). Exact reals; the parametrised parts are arguments."
  },
  {
   "property": "C114",
   "status": "partial",
   "theorems": [
    "total_isospins_exact",
    "common_isospins_exact",
    "range_no_end",
    "isospin_factor_value",
    "isospin_factor_reversible",
    "isospin_factors_add_up",
    "three_body_isospin",
    "hash_injective",
    "coefficient_history",
    "table_accurate",
    "table_complete",
    "calculate_exact",
    "coefficients_correct",
    "incomplete_multiplet_loop_refuted"
   ],
   "note": "Species of a multiplet that is incomplete in the particles file make the loop over total isospins endless (refuted). Table literals are exact decimals; the arithmetic of calculated coefficients is over the reals, with the library's 3j symbol taken as exact, and covers pairs of isospins up to 3."
  },
  {
   "property": "C115",
   "status": "partial",
   "theorems": [
    "fluidization_exact",
    "fluidization_harmless",
    "fluid_lattice_current",
    "opening_step_refuted"
   ],
   "note": "In the step in which the time window opens the finder acts before min_time and uses a lattice of the previous event (refuted). Exact reals; the lattice's densities are arguments."
  },
  {
   "property": "C116",
   "status": "partial",
   "theorems": [
    "end_of_event",
    "end_of_event_conserves",
    "stale_skipped",
    "resonance_counted_twice_refuted",
    "moved_forward_refuted",
    "weight_lost_refuted"
   ],
   "note": "Proved without forced decays; with them and no core a resonance is counted together with its daughters (refuted, using the queue model). A copy can be later than the end, and loses its perturbative weight (refuted). Exact reals."
  },
  {
   "property": "C117",
   "status": "partial",
   "theorems": [
    "event_block",
    "max_events_exact",
    "counting_configured",
    "run_blocks",
    "run_completes",
    "seeds_enterable",
    "every_seed_possible",
    "event_reproduced",
    "maximum_exceeded_refuted",
    "no_collider_all_empty_refuted",
    "warning_overflow_refuted"
   ],
   "note": "Whole events are run, so the maximum of ensembles can be exceeded; outside the collider modus all ensembles count as empty; the final warning can overflow an int (refuted). What happens in an event is taken as a function of its seed, i.e. no state is assumed to leak between events. Division in binary64 (Flocq)."
  },
  {
   "property": "C118",
   "status": "partial",
   "theorems": [
    "species_created",
    "box_conditions",
    "sphere_uniform",
    "sphere_conditions",
    "sphere_jets",
    "flow_field",
    "sphere_flow",
    "box_jet_centre_refuted",
    "thermal_quantum_refuted",
    "flow_total_refuted",
    "unit_flow_refuted",
    "centre_flow_refuted",
    "jet_reference_refuted"
   ],
   "note": "With radial flow the total momentum is minus the sum of the momenta drawn instead of zero; the maximal accepted flow velocity throws; the jet of a box is in its corner; quantum statistics with thermal multiplicities dereferences the end of a map; a reference to the first jet is used after the array may have moved (refuted). Exact reals; spin vectors are not modelled."
  },
  {
   "property": "C119",
   "status": "partial",
   "theorems": [
    "hot_sampler",
    "cold_sampler",
    "ES_sampler",
    "peak_is_maximum",
    "mass_sampler",
    "IC_sampler",
    "occupation",
    "quantum_maximum",
    "maximum_exists",
    "quantum_sampler",
    "breit_wigner_shape",
    "cauchy_integral",
    "nonrelativistic_width",
    "heavy_refuted",
    "massive_envelope_refuted"
   ],
   "note": "One round of each rejection loop. IC_1M and IC_2M are covered for massless particles; for massive ones the envelope is not a bound (refuted); IC_Massive takes the root of a negative number for masses above 50 T (refuted). Bose statistics with a positive chemical potential is not covered; the numerical root search is not modelled (an exact root is assumed). Exact reals."
  },
  {
   "property": "C120",
   "status": "partial",
   "theorems": [
    "number_printed",
    "text_fits",
    "printed",
    "small_buffer_refuted"
   ],
   "note": "The conversion %g of the C library is modelled from the C standard on exact rationals. The last sentence is false for negative numbers with a three-digit exponent (refuted): the assertion fails, or with NDEBUG the exponent loses a digit."
  },
  {
   "property": "C121",
   "status": "partial",
   "theorems": [
    "oscar_readable",
    "oscar_written",
    "documented_end_refuted",
    "dilepton_header_refuted",
    "empty_lists_refuted"
   ],
   "note": "The reader follows the text that is written; the documentation of the event-end line has another keyword and the opposite answer, and the header of OSCAR1999 dilepton and photon files announces other block lines (refuted). Empty lists at start and end cannot be told apart in OSCAR1999 (refuted). Writing needs numbers that fit the buffers (C120). printf conversions are modelled from the C standard; failing writes are not modelled."
  },
  {
   "property": "C122",
   "status": "partial",
   "theorems": [
    "current_value",
    "derivatives_of_the_current",
    "continuity_equation",
    "gradient_and_curl",
    "covariance",
    "antimatter",
    "superposition",
    "rest_density",
    "rest_density_derivative_correct",
    "mixture_derivative_refuted",
    "smearing_normalised",
    "lattice_agrees"
   ],
   "note": "Points exactly at the cut-off distance are excluded from the derivatives. The derivative of the rest-frame density is right for matter or antimatter alone and wrong in a mixture (refuted). The integral over space is proved for a particle at rest. Exact reals; the error function is any function with the right derivative."
  },
  {
   "property": "C123",
   "status": "partial",
   "theorems": [
    "static_force",
    "skyrme_odd",
    "skyrme_force_derivative",
    "symmetry_force_derivative",
    "vdf_chain_rule",
    "mesons_free",
    "light_quark_fraction",
    "antibaryon_opposite",
    "skyrme_conjugation",
    "momentum_part_is_integral",
    "energy_equation",
    "energy_search",
    "energy_correct",
    "update_momenta_correct",
    "mass_kept",
    "order_irrelevant",
    "coulomb_gradient",
    "fields_sum",
    "magnetic_curl",
    "vdf_force_total",
    "vdf_terms_read",
    "gradient_is_difference",
    "gradient_exact",
    "gradient_unknown",
    "skyrme_antimatter_refuted",
    "symmetry_undefined_refuted",
    "vdf_antimatter_refuted",
    "quark_fraction_refuted",
    "antibaryon_symmetry_refuted",
    "momentum_antimatter_refuted",
    "coulomb_needs_lattice_refuted",
    "coulomb_law_refuted",
    "charged_mesons_refuted"
   ],
   "note": "The Skyrme, VDF and momentum-dependent forces have the wrong sign in antimatter; the symmetry potential is undefined for some accepted parameters; the symmetry force on antibaryons is the same as on baryons; the Coulomb force is 4 pi times too strong (charge in Heaviside-Lorentz units, field in Gaussian units); charged mesons do not feel it (all refuted). The static statement is for matter at rest; the root search is an argument with a specification. Exact reals."
  },
  {
   "property": "C124",
   "status": "partial",
   "theorems": [
    "harmonics_orthonormal",
    "other_harmonics",
    "deformed_shape",
    "deformed_sampler",
    "undeformed",
    "automatic_table",
    "random_orientation",
    "random_turn",
    "orientation_read",
    "regular_tetrahedron",
    "clusters_in_turn",
    "clusters_are_alphas",
    "only_oxygen",
    "fixed_impact",
    "impact_range",
    "quadratic_law",
    "uniform_law",
    "custom_law",
    "custom_refused",
    "deformed_tail_refuted",
    "cluster_index_refuted",
    "negative_impact_refuted",
    "flat_maximum_refuted",
    "range_beyond_values_refuted",
    "single_value_refuted"
   ],
   "note": "The deformed density is cut at radius/diffusiveness + radius*diffusiveness; the cluster index overflows after 2^31 nucleons; a negative impact parameter changes sign; a custom spectrum with a flat maximum aborts; a range beyond the values extrapolates; a single value reads past the end (all refuted). Exact reals."
  },
  {
   "property": "C125",
   "status": "partial",
   "theorems": [
    "scattering_conserves",
    "transfer_is_the_drawn_one",
    "exponential_law",
    "mirrored_law",
    "power_law",
    "mirrored_power_law",
    "nucleon_elastic_law",
    "delta_law",
    "resonance_law",
    "otherwise_isotropic",
    "transfer_in_range",
    "equivalent_momentum_only_at_one",
    "elastic_final_state",
    "resonance_final_state",
    "resonance_needs_one",
    "inelastic_final_state",
    "many_final_state",
    "many_unstable_refused",
    "other_processes_refused",
    "string_kept",
    "string_fallback",
    "string_final_state",
    "unparametrised_weights",
    "parametrised_weights",
    "pseudoresonance_fills_gap",
    "scatterings_added_once",
    "process_chosen_by_share",
    "process_always_chosen",
    "pseudoresonance_found",
    "pseudoresonance_not_missed",
    "offsets",
    "equivalent_momentum_refuted",
    "threshold_terminates_refuted",
    "last_try_counts_refuted",
    "resonance_inherits_spin_refuted",
    "resonance_spin_orthogonal_refuted",
    "reported_total_refuted",
    "cugnon_slopes",
    "slope_continuous_refuted",
    "cutoffs",
    "elastic_spin_length",
    "elastic_spin_orthogonal_refuted"
   ],
   "note": "The s used for pairs that are not nucleons does not give back their momentum; at the threshold the exponential generator never accepts; the ten-thousandth try of a string is thrown away; the spin transfer to a Sigma* is never executed and the spin of a moving resonance and that after elastic scattering are not orthogonal to the momentum; the pn slope jumps; the reported total weight is the one before rescaling (all refuted). Without potentials; exponents within 1/1000 of -1 are only bounded; what Pythia returns is an argument with the assumption that it has the collision energy at rest. Exact reals."
  },
  {
   "property": "C126",
   "status": "partial",
   "theorems": [
    "photon_form_factors",
    "photon_angle",
    "form_factors_at_one",
    "omega_form_factor",
    "photon_without_cross_section",
    "photon_reactions",
    "photon_order",
    "photon_needs_two",
    "possible_photon",
    "photon_final_state",
    "photon_transfer_partial",
    "photon_transfer_refuted",
    "photon_weight_bounds",
    "photon_yield",
    "photon_yield_one",
    "photon_weight_invariant_refuted",
    "dipole_range",
    "form_factor_at_most_one_refuted",
    "brems_reactions",
    "brems_final_pions",
    "brems_share",
    "three_body",
    "brems_final_state",
    "one_process_only",
    "brems_momentum_is_k_refuted",
    "brems_flat_yield",
    "brems_yield_refuted",
    "brems_no_room",
    "brems_opposite_yield_refuted"
   ],
   "note": "The direction of the photon is not turned to the collision axis, so the momentum transfer is the drawn one only along z. The form factor is taken at the photon energy in the computational frame and can exceed 1. Bremsstrahlung photons have k - k^2/(2 sqrt s) instead of k, the geometric mean of two weights is biased, and for pi+ pi- only the cross section of the chosen final state enters. The formulas and tables of the cross sections are parameters."
  },
  {
   "property": "C127",
   "status": "partial",
   "theorems": [
    "final_particles_of_history",
    "vertex_of_each_interaction",
    "record_is_causal",
    "nuclei_at_interaction_point",
    "vertices_conserve_momentum",
    "final_state_record",
    "dangling_particles",
    "refused_events",
    "events_are_independent",
    "ion_code",
    "neutron_code_refuted",
    "final_marks_initial_refuted",
    "final_has_no_end_refuted",
    "final_momentum_refuted",
    "record_mass_refuted"
   ],
   "note": "Proved for all histories in which actions use existing particles. Refuted parts: a neutron beam gets an ion code; without colliding nuclei the final-state record marks initial particles as final and a full record has final particles entering a vertex; momenta changed by potentials after the last interaction are not recorded; the mass written is the pole mass. The HepMC3 library is modelled from its documented behaviour."
  },
  {
   "property": "C128",
   "status": "partial",
   "theorems": [
    "list_is_one_entry",
    "long_list_entries",
    "every_particle_written_refuted",
    "event_in_tree",
    "final_only_in_tree",
    "autosave",
    "collision_entry",
    "initial_conditions_entry",
    "initial_conditions_impact_refuted",
    "block_number_of_ensembles_refuted"
   ],
   "note": "Refuted parts: of a list longer than the buffer every (size+1)-th particle is lost, for every buffer size (the exact set is proved); initial-conditions entries carry the impact parameter of the previous event; block numbers differ between ensembles. ROOT itself is modelled by what TTree::Fill copies."
  },
  {
   "property": "C129",
   "status": "partial",
   "theorems": [
    "ic_file",
    "ic_accepts",
    "ic_same_time_partial",
    "ic_one_ensemble",
    "ic_only_appends",
    "ic_late_particle",
    "ic_same_time_refuted",
    "ic_events_independent_refuted",
    "ic_spectators_ignored_refuted"
   ],
   "note": "The accepted runs are characterised exactly. Earlier proper times are accepted by any amount because no absolute value is taken; the reference is kept from one event to the next and may come from a spectator (refuted). The line of a late particle is already in the file when the run stops. Exact reals with an explicit NaN."
  }
 ]
}