# Formal model of smash-transport/smash in Rocq

Source: `/repo` at the pinned commit (read as text, never built). Model and
proofs: `rocq/theories`, logical name `Verif`, Coq 8.16.1.

## 1. Conventions

* Files come in groups `<Area>Model.v` (definitions that mirror the C++
  functions, each with a `file:lines` citation), `<Area>Spec.v` (small
  independent specification, when one is needed), `<Area>Proofs.v` (lemmas) and
  `<Area>Props.v` (property theorems only, each closed by `exact`, with an
  `Example` that meets its hypotheses and `Print Assumptions`).
* Outcomes: `Base.v` has `res A := Ok a | Throw e | UB u`. A C++ `throw` is
  `Throw`; undefined behaviour (out-of-bounds access, signed overflow,
  dereferencing `end()`) is the separate outcome `UB`, so that "no UB" is a
  provable statement and UB can never be confused with a value.
* Fixed-width integers are `Z` with explicit wrap (`unsigned`) or overflow check
  (`signed`).
* `double` quantities are modelled in one of two ways, stated per module:
  as real numbers `R` (exact arithmetic; rounding not modelled) or as opaque
  64-bit words (codecs, copies).
* Where the code violates the property, the theorem is stated as
  `..._refuted : exists ...` with a concrete witness evaluated by the kernel,
  next to the strongest positive theorem that does hold (`..._partial` if it
  covers only part of the property).

## 2. Trusted base

* Coq's kernel (checked again by `coqchk`), the statements in `*Props.v`, the
  definitions in `*Spec.v` and `*Model.v`.
* Axioms: see section 4, which lists the output of `Print Assumptions`.
* The correspondence of the model with the C++ text is by reading; every
  definition cites the lines it models and lists its simplifications.
* Not modelled: the C++ compiler, standard library internals (`std::vector`,
  `std::map`, iostreams: modelled by their contracts), GSL, Pythia, ROOT, HepMC,
  yaml-cpp (the parsed tree is modelled, not the parser), floating-point rounding
  (except where stated), physics formulas of cross sections and form factors.

## 3. Plan per property

| id | modelled | proof |
|----|----------|-------|
| C01 | `Particles` with slot array, hole stack, `id_max_`, capacity | simulation to a finite map id -> data, invariant by induction over operation sequences |
| C02 | same | invariant: ids in slots pairwise distinct and <= id_max; strict growth by induction |
| C03 | same, with copies (slot, id, id_process) taken at any time | invariant relating copies to history |
| C04 | iterators skipping holes | iteration = filter of live slots; no UB |
| C05 | same | refuted by a witness history; positive theorem for the direction that holds |
| C06-C11 | `PdgCode` bit-field as digit record and packed 32-bit word; constructors, getters | case analysis over digit ranges, algebra in Z; round trips by arithmetic on digits |
| C12 | sorted list + `lower_bound` | correctness of binary search for a strict total order |
| C13-C16 | `Clock`, `UniformClock` on int64 micro-units, `CustomClock` | Z arithmetic, induction over ticks |
| C17 | `Actions` with a concrete array binary heap (push_heap/pop_heap/make_heap as in libstdc++) | heap invariant by induction, multiset preservation |
| C18-C20 | grid loops over cell indices, periodic shifts, construction | counting the visits of each pair via list membership/NoDup; real floor arithmetic for placement |
| C21-C24 | `RectangularLattice` index arithmetic and iteration loops | Z arithmetic; loops as lists; linear fields over R |
| C25-C30 | YAML tree of maps/sequences/scalars, key paths | structural induction over trees |
| C31-C32 | `sha256.cc` byte/word level, against an independent FIPS 180-4 spec | refinement, induction over chunks |
| C33 | state machine file system with crash points | invariant over all traces |
| C34-C35 | interleaving machine: processes x file system | inductive invariant over all interleavings |
| C36-C39 | quantum numbers, action, event loop as transition system over the container model | invariants by induction over the loop |
| C40 | integer types as ranges, casts as wraps | Z modular arithmetic |
| C41 | coordinates over R | case analysis |
| C42-C43 | lists over R | induction |
| C44-C46 | vectors, boosts, rotations, kinematics over R | ring/field/nra with explicit lemmas |
| C47-C48 | interpolation over R, codec over bytes | induction / parser round trip |
| C49-C50 | byte-level writer and an independent decoder | round trip by induction |
| C51-C52 | strings as lists of characters | induction |
| C53-C55 | one-particle geometry over R | real algebra |
| C56 | integer codes of quarks/diquarks, lists | arithmetic + induction |
| C57-C59 | loops over lists/arrays; refutations where the code is wrong | induction, witnesses |
| C60 | list-modus splitting of lines | induction over lines, witness for the end-of-file rule |
| C61-C62 | loop over modes, integer algebra | induction |
| C63 | multiplets built from the type list | induction over the list, binary search |
| C64-C65 | smearing weights and node loops over R | sums over index ranges |
| C66-C67 | YAML trees; the list of all keys as data | structural induction; evaluation over the whole list |
| C68 | cache of pair integrals keyed by name | map lookup, witness for the order dependence |
| C69-C71 | event loop over container, scheduler and clocks | invariants over all schedules; refutation of resumption |
| C72-C73 | angles and four-vector comparison over R | trigonometric identities, witnesses |
| C74-C80 | propagation, final states, formation, spin, beams over R | real algebra, witnesses for wrong formulas |
| C81-C82 | byte strings with UTF-8 length | induction over strings |
| C83-C86 | flavour arrays, parton records, hadron lists | measure for termination, counting invariants |
| C87-C89 | lightcone kinematics over R | square-root algebra; contraction is not claimed, a diverging witness is |
| C90 | weight recursion, continued fraction over R | induction; bounds on the truncated fraction |
| C91 | mode lists, multiplet combinations | induction over lines, permutations |
| C92-C94 | world lines over R, boosts of VecModel | completing squares in the centre-of-mass frame, invariance of the Minkowski product |
| C95 | decision function with cross section and draws as arguments | case analysis, bounds on the scaling factors |
| C96 | nested loops over particle lists with a state | candidate lists, duplicate-freeness by prefixes |
| C97 | complex recursion of the Blatt-Weisskopf function, width formulas over R | the denominator is a polynomial with positive coefficients, by induction over L; monotonicity of p/m |
| C98 | one step of the decay finder with its draw | logarithm inequalities, induction over the steps |
| C99 | loop over channel weights | prefix sums |
| C100 | passes over the particle list with draws as oracle | induction over passes, decreasing measure |
| C101 | ten stored components, boost matrix, selection among given eigenpairs | trace and sign of the quadratic form; orthogonality of eigenvectors |
| C102 | weights of one step and of the final loop | induction over steps; permutation argument over passes |
| C103 | kinematics of the three products over R | two-body momentum, inverse boost |
| C104 | particle lists with positions and momenta over R | induction over lists; rotation invariance; algebra of the boost |
| C105 | one round of the rejection loop as a function of its draws | iterated Riemann integrals (standard library), antiderivatives, derivative of the distribution function |
| C106 | stream as line number and eof flag | induction over the lines read, arithmetic modulo the file length |
| C107 | species as PDG words, channels as outgoing lists with weight factor | multiset reasoning (permutations, counts) against a table of reactions; Lorentz boosts; Bernstein form of the parametrisation |
| C108 | sampling loops over lists of draws (None: the draws are used up), species as quantum numbers with yields, binomial draws as an oracle | loop invariants; sums over classes; Lipschitz bound for the bisection; Lorentz boosts |
| C109 | the time test and the selection of particles | integer part and order reasoning |
| C110 | the nested switches as tables over PDG words, the other channel functions as they are | computation over the tables; quantum numbers of classes of words by case analysis |
| C111 | the same tables, two maps on species | permutation check of the tables by computation, lifted to all environments |
| C112 | the same tables and the cross section formulas | table of inverse entries by computation; field arithmetic |
| C113 | the splitting formulas, the transition function, the list of weights | real arithmetic, monotonicity of the sine |
| C114 | range iterator as a walk with fuel, the table as printed in the source, the memo map | parity arithmetic; sums over duplicate-free lists; invariant of the map over call histories; Racah formula in rationals checked by computation |
| C115 | the finder's tests, the action's final state and check, growth of the lattice | case analysis against a specification of "due"; induction over time steps |
| C116 | the loop over final actions with an arbitrary order of the queue | effect of a list of removals and additions by induction; three passes; counterexample with the heap order of the queue model |
| C117 | the loop over events as a recursive function that collects the calls every output gets; seed arithmetic | invariant over the loop; projection of the trace on an output; rounding error of one division |
| C118 | creation, draws, recentring, flow and jets as functions of the draws | sums over lists by induction; boosts of vectors; concrete configurations for the refutations |
| C119 | densities and one round of each loop as functions of the uniform numbers | probabilities as iterated Riemann integrals over the unit cube; substitution; mean value theorem and convexity of exp for the maxima |
| C120 | %g as exact integer arithmetic on the 64-bit image: decimal exponent, half-even rounding, stripping of zeros, fixed or exponent form | an independent decimal reader is run on the text symbolically; error bound of the rounding; length by cases of the form |
| C121 | the constructor, the four calls and create_oscar_output as functions to bytes; printf conversions exact; an independent reader of lines and words | the written text is a list of lines, one block per reported item; the reader is run on it by induction over the items; contents by cases | 
| C122 | current_eckart, the smearing factor, lattice nodes as functions on real vectors | closed form of the sums; derivatives by the chain rule; boosts preserve rest-frame distances; reverse Cauchy-Schwarz for the density |
| C123 | potentials, forces, the energy search and update_momenta as functions on real vectors; lattices and the root solver are arguments | derivatives by the chain rule; an explicit antiderivative for the Fermi sphere; induction over the loops with an independent per-particle specification |
| C124 | spherical harmonics, the deformed density and its sampling, cluster placement, Euler angles, the impact parameter configuration and sampling as functions on reals; random draws are arguments | iterated integrals of polynomials; substitution of the cube root; continuity of the interpolating polygon and rejection sampling; counting modulo four |
| C125 | random::expo and power, the momentum transfer, all branches of generate_final_state, channel weights and pseudoresonances as functions on reals; random draws, CrossSections and Pythia are arguments | conservation from the boost lemmas; the laws by explicit antiderivatives and thresholds in the draws; induction over tries and channels |
| C126 | the reaction tables with packed PDG codes, the momenta of hadron and photon and of the three-body state, form factors, weights and the choice of the final state as functions; cross section formulas and tables, random draws are arguments | case analysis over the tables with injectivity of the packing; boost lemmas; substitution and explicit antiderivatives; numeric bounds of exp for the form factor |
| C127 | the event record as a list of particles with status, production and end vertex, the list of vertices and the map from identifiers; all callbacks of the HepMC output as functions on it | invariant relating the map and the final-status particles to the existing ones, by induction over the incoming and outgoing particles and over histories |
| C128 | the ROOT output object as a state with arrays of fixed length, counters and trees; particle lists and passed-on event data are arbitrary | invariant of the loop over the particles, exact positions of lost ones by arithmetic modulo the buffer size, induction over output times |
| C129 | the IC output as a state of reference proper time and file lines; every call returns the state and its outcome, so that the file after a failure can be seen | induction over call sequences, exact characterisation of the accepted ones |

Properties that cannot be expressed: none of the listed ones; statements about
floating-point rounding are replaced by statements over exact reals and this is
said at each theorem.

## 4. Axioms

Output of `Print Assumptions` for the theorems named in MANIFEST.json, grouped by
the axioms listed. All of them are axioms of Coq's standard library (Reals and
classical logic); the project adds none.

**Closed under the global context (no axioms)** (216 theorems)

`container_refines_bag`, `container_never_stuck`, `container_create_truncation_refuted`, `container_ids_unique_and_fresh`, `container_is_valid_iff_alive`, `container_stale_copy_across_reset_refuted`, `container_iteration_safe`, `container_front_back`, `container_is_empty_partial`, `container_is_empty_refuted`, `antiparticle_reverses_quantum_numbers`, `antiparticle_of_accepted_is_accepted`, `charge_exact_and_gell_mann_nishijima`, `nucleus_charge_is_Z`, `decimal_roundtrip_int32`, `decimal_roundtrip_string`, `decimal_roundtrip_decimal`, `decimal_injective`, `from_decimal_is_faithful`, `from_decimal_eight_digits_refuted`, `from_decimal_ten_million_refuted`, `string_roundtrip_int32`, `string_roundtrip_string`, `string_reads_its_number`, `bad_strings_rejected`, `strings_never_undefined`, `string_roundtrip_hex_refuted`, `quark_content_matches_net_numbers`, `quark_content_is_baryon_or_pair`, `quark_content_K0L_refuted`, `accepted_codes_are_physical`, `int_constructor_accepts_exactly_physical`, `int_and_string_constructors_agree`, `int_and_string_constructors_agree_refuted`, `int_constructor_never_undefined`, `int_constructor_min_refuted`, `tick_exact_or_throws`, `tick_n_exact_or_throws`, `tick_back_guard_overflows_refuted`, `find_finds_exactly_declared`, `duplicate_codes_rejected`, `distinct_codes_accepted`, `antiparticle_is_listed`, `failed_reload_replaces_list_refuted`, `scheduler_serves_in_time_order`, `draining_sorts`, `earliest_time_is_next`, `earliest_time_empty_refuted`, `multiplets_partition_types`, `cell_indices_bijective`, `open_iteration_visits_once`, `periodic_iteration_visits_once`, `lattice_index_bijective`, `lattice_neighbours`, `resize_keeps_usable`, `take_returns_value_and_removes_only_it`, `take_without_value`, `user_value_never_replaced_by_default`, `second_take_with_default_refuted`, `empty_name_lost_by_take_refuted`, `duplicate_key_taken_twice_refuted`, `read_previews_take`, `given_default_only_without_value`, `given_default_hides_map_refuted`, `set_then_read`, `set_after_clear_lost_refuted`, `merge_precedence`, `merged_key_wins`, `merge_empty_document_erases_refuted`, `merge_into_empty_file_lost_refuted`, `merge_refused_not_atomic_refuted`, `merge_over_list_numbers_refuted`, `unused_keys_reported`, `taken_labels_existed`, `moved_from_is_silent`, `valueless_key_always_unused_refuted`, `move_assignment_drops_keys_refuted`, `extract_moves_section`, `extract_otherwise`, `enclose_prefixes`, `extract_complete_lossless`, `default_after_extract_refuted`, `full_validation_is_worst`, `quick_validation_valid_iff`, `validation_out_of_bounds_iff`, `validation_of_plain_modi_refuted`, `quick_validation_hides_invalid_refuted`, `remove_all_but_keeps_one`, `input_keys_sensible`, `hash_is_sha256`, `constants_are_standard`, `hash_text_faithful`, `chunking_does_not_matter`, `finalize_needs_reset`, `output_file_complete`, `full_disk_output_complete_refuted`, `unopened_output_file_refuted`, `lock_exclusive`, `lock_removed_only_by_holder`, `lock_granted_iff_free`, `lock_of_dead_process_is_never_granted`, `copied_lock_refuted`, `cache_is_sound`, `cache_run_is_complete`, `cache_after_lock_removal_refuted`, `cache_after_full_disk_refuted`, `tabulation_paths_distinct_refuted`, `config_hash_of_concatenation`, `config_hash_distinguishes_refuted`, `tabulation_file_round_trip`, `tabulation_file_other_hash`, `truncated_file_detected_refuted`, `pair_table_is_right_partial`, `pair_table_order_refuted`, `numeric_cast_int_exact`, `interpolation_no_point`, `chunked_writing`, `chunks_respect_limit`, `variant_names_the_quantities`, `collisions_file_decodes`, `particles_file_decodes`, `ic_file_decodes_partial`, `ic_file_refuted`, `quantities_accepted`, `quantities_rejected`, `ascii_columns`, `trim_exact`, `stripped_unique`, `line_parser_exact_partial`, `line_parser_empty_refuted`, `line_parser_empty_only`, `split_exact`, `fields_unique`, `join_exact`, `split_join_partial`, `split_join_only`, `join_split_partial`, `split_join_refuted`, `padding_exact`, `padding_too_wide_refuted`, `remove_substr_spec`, `remove_empty_refuted`, `isoclean_exact_partial`, `isoclean_refuted`, `diquark_round_trip`, `diquark_round_trip_back`, `string_ends_carry_the_quarks`, `excess_exact`, `replace_spec`, `restored_flavour`, `annihilation_keeps_flavour`, `composed_string_is_singlet`, `singlet_record_has_strings`, `record_is_partitioned_into_singlets`, `self_singlet_gluon_refuted`, `psort_selects`, `psort_zero_refuted`, `single_file_delivered`, `numbered_files_delivered`, `tail_is_no_event`, `long_tail_counts_as_event`, `short_tail_lost_refuted`, `blank_tail_event_refuted`, `accepted_two_body_conserves`, `accepted_three_states_conserve`, `s_wave_rejected_refuted`, `third_daughter_spin_refuted`, `cell_checks_every_tuple_once`, `cell_pair_once`, `neighbors_check_every_pair_once`, `surrounding_check_every_pair_once`, `index_rejects`, `lines_in_turn`, `accepted_nucleus`, `nuclei_in_turn`, `last_line_without_newline_refuted`, `incomplete_last_nucleus_refuted`, `multi_reactions`, `multi_order`, `multi_conserves`, `multi_total`, `five_pions_without_protons_refuted`, `deuteron_breakup_conserves`, `triton_breakup_conserves`, `nuclear_excitation_conserves_partial`, `pack_injective`, `total_isospins_exact`, `common_isospins_exact`, `range_no_end`, `hash_injective`, `incomplete_multiplet_loop_refuted`, `fluidization_harmless`, `event_block`, `run_blocks`, `run_completes`, `seeds_enterable`, `every_seed_possible`, `event_reproduced`, `no_collider_all_empty_refuted`, `species_created`, `small_buffer_refuted`, `documented_end_refuted`, `dilepton_header_refuted`, `empty_lists_refuted`, `photon_reactions`, `photon_order`, `photon_needs_two`, `brems_reactions`, `ion_code`, `neutron_code_refuted`, `list_is_one_entry`, `long_list_entries`, `every_particle_written_refuted`, `autosave`, `collision_entry`, `initial_conditions_entry`

**`ClassicalDedekindReals.sig_forall_dec`** (16 theorems)

`resize_cells_out_of_bounds_refuted`, `antiparticle_modes`, `index_symmetric`, `negative_number_refuted`, `light_hadrons`, `unphysical_breakup_refuted`, `nuclear_excitation_strangeness_refuted`, `three_body_isospin`, `jet_reference_refuted`, `orientation_read`, `clusters_in_turn`, `clusters_are_alphas`, `cluster_index_refuted`, `event_in_tree`, `final_only_in_tree`, `block_number_of_ensembles_refuted`

**`ClassicalDedekindReals.sig_forall_dec`, `FunctionalExtensionality.functional_extensionality_dep`** (187 theorems)

`custom_clock_visits_in_order`, `custom_clock_fresh`, `custom_times_after_events`, `custom_times_lost_in_later_event_refuted`, `open_grid_offers_close_pairs_once`, `open_largest_offers_all_pairs_once`, `periodic_grid_offers_close_images_once`, `grid_files_every_particle_once`, `periodic_box_too_small_rejected`, `cell_count_overflows_refuted`, `largest_strategy_keeps_unformed_refuted`, `lattice_constructed_usable`, `lattice_cell_center_of_index`, `open_box_iteration_exact`, `periodic_box_iteration_exact`, `lookup_gives_value_of_containing_cell`, `periodic_lookup_gives_value_of_containing_cell`, `periodic_lookup_far_out_of_bounds_refuted`, `large_cutoff_visits_twice_refuted`, `nearest_neighbours_outside_undefined_refuted`, `gradient_is_difference_quotient`, `gradient_refused`, `gradient_exact_for_linear_fields`, `four_gradient_is_difference_quotient`, `discrete_smearing_weights_sum_to_one`, `discrete_smearing_border_refuted`, `triangular_smearing_normalised`, `triangular_smearing_fractional_range_refuted`, `tabulation_exact_at_grid_points`, `tabulation_linear_between_grid_points`, `tabulation_outside_range`, `tabulation_step_is_nearest`, `tabulation_needs_two_intervals`, `empty_tabulation_lookup_refuted`, `periodic_wrap`, `average_is_mean`, `dedup_avg_is_mean_of_runs`, `dedup_avg_fails_iff`, `dedup_avg_removes_duplicates`, `choose_channel_succeeds`, `choose_channel_interval`, `total_weight_is_accumulated`, `add_process_keeps_channels`, `choose_channel_empty_refuted`, `set_costheta_spec`, `less_is_componentwise`, `greater_is_componentwise`, `less_equal_componentwise_partial`, `less_equal_componentwise_refuted`, `wall_crossing_none`, `wall_crossing_first`, `wall_crossing_slow`, `wall_crossing_slow_refuted`, `propagation_is_straight`, `propagation_composes`, `backpropagation_is_straight`, `back_and_forth`, `interaction_point_in_box`, `interaction_point_is_mean`, `formation_is_inherited`, `duplicates_rejected`, `interpolation_exact_partial`, `interpolation_reproduces_partial`, `interpolation_between_partial`, `interpolation_one_point_refuted`, `trilinear_corners`, `trilinear_between`, `trilinear_exact`, `spline_checks`, `spline_constant_outside`, `resonance_carries_the_flavour`, `resonance_closest_partial`, `closest_resonance_refuted`, `mesonic_string_has_two_leading_hadrons`, `baryonic_string_factors_partial`, `leading_pair_refuted`, `renormalized_sum`, `zero_ratios_refuted`, `bessel_weights_exact`, `add_mode_adds_weight`, `accepted_section`, `multiplet_charge_refuted`, `geometric_time_is_closest`, `collision_time_of_propagation`, `soft_particles_meet_refuted`, `covariant_time_symmetric`, `blatt_weisskopf_increasing`, `blatt_weisskopf_at_zero`, `blatt_weisskopf_limit`, `blatt_weisskopf_small`, `blatt_weisskopf_two_three`, `post_ff_normalised`, `post_ff_shape`, `unstable_width_at_pole`, `total_width_at_pole`, `total_width_nonneg`, `channel_frequencies`, `tensor_of_particles`, `weighted_particle`, `landau_frame_is_rest_frame`, `eigenvalue_sign`, `landau_frame_unique`, `centring`, `filled`, `cell_choice`, `sort_choice`, `mode_sampling_conserves`, `bf_conserves`, `cell_choice_zero_refuted`, `bf_negative_pair_refuted`, `thermalization_time`, `once_per_period`, `removed_particles`, `first_time_skipped_refuted`, `meson_baryon_conserves`, `meson_baryon_never_throws`, `formation_conserves`, `nucleon_antinucleon_conserves`, `meson_baryon_symmetric`, `sigma_channels_isospin`, `elastic_symmetric`, `elastic_defined`, `high_energy_conj_refuted`, `strangeness_exchange_balance`, `kaon_delta_balance_partial`, `charge_exchange_reversible`, `kaon_delta_cutoff_refuted`, `collision_total`, `collision_weights_nonneg`, `isospin_factor_value`, `isospin_factor_reversible`, `isospin_factors_add_up`, `fluidization_exact`, `fluid_lattice_current`, `opening_step_refuted`, `end_of_event`, `end_of_event_conserves`, `stale_skipped`, `resonance_counted_twice_refuted`, `moved_forward_refuted`, `weight_lost_refuted`, `number_printed`, `text_fits`, `printed`, `oscar_readable`, `oscar_written`, `light_quark_fraction`, `vdf_terms_read`, `quark_fraction_refuted`, `automatic_table`, `only_oxygen`, `impact_range`, `uniform_law`, `custom_refused`, `flat_maximum_refuted`, `range_beyond_values_refuted`, `single_value_refuted`, `unparametrised_weights`, `parametrised_weights`, `pseudoresonance_fills_gap`, `scatterings_added_once`, `process_chosen_by_share`, `process_always_chosen`, `pseudoresonance_found`, `pseudoresonance_not_missed`, `offsets`, `reported_total_refuted`, `cutoffs`, `photon_angle`, `possible_photon`, `dipole_range`, `brems_final_pions`, `brems_share`, `final_particles_of_history`, `vertex_of_each_interaction`, `record_is_causal`, `nuclei_at_interaction_point`, `vertices_conserve_momentum`, `final_state_record`, `dangling_particles`, `refused_events`, `events_are_independent`, `final_marks_initial_refuted`, `final_has_no_end_refuted`, `final_momentum_refuted`, `record_mass_refuted`, `initial_conditions_impact_refuted`

**`ClassicalDedekindReals.sig_forall_dec`, `ClassicalDedekindReals.sig_not_dec`, `FunctionalExtensionality.functional_extensionality_dep`** (146 theorems)

`boost_preserves_product`, `boost_inverse`, `boost_to_rest_frame`, `rotate_preserves_inner`, `rotate_can_be_undone`, `rotate_around_axis`, `pCM_is_two_body_momentum`, `pCM_zero_below_threshold_refuted`, `fixed_target_s`, `two_beams_s_Etot`, `two_beams_s_Ekin_partial`, `two_beams_s_Ekin_refuted`, `two_beams_s_plab_partial`, `two_beams_s_plab_refuted`, `plab_of_s_of_plab`, `s_of_plab_of_s`, `center_of_velocity_gives_s`, `fixed_target_velocity_gives_s`, `t_range_is_exact`, `set_phi_spec`, `direction_is_unit`, `hypersurface_crossing_exact`, `hypersurface_frozen_fermi_refuted`, `hypersurface_early_start_refuted`, `expansion_step`, `two_body_final_state`, `many_body_final_state`, `boosted_final_state`, `many_body_below_threshold`, `unpolarized_spin_orthogonal_partial`, `unpolarized_spin_orthogonal_refuted`, `beam_energy_partial`, `beam_energy_two_totals_refuted`, `beam_energy_two_kinetic_refuted`, `beam_energy_two_momenta_refuted`, `beam_energy_below_mass_refuted`, `one_energy_input_needed`, `frame_velocities`, `nuclei_touch_at_zero`, `zero_kinetic_energy_refuted`, `final_two_share_the_string`, `rescaling_restores_energy`, `rescaling_never_ends_refuted`, `density_between_entries_partial`, `density_order_free`, `pauli_interpolation_refuted`, `bessel_ratio_refuted`, `transverse_distance_is_closest`, `covariant_distance_is_closest`, `transverse_distance_invariant`, `covariant_equal_momenta_refuted`, `frozen_fermi_distance_refuted`, `covariant_times_are_closest`, `relative_velocity_is_moller`, `stable_width_shape`, `in_width_matches`, `dilepton_width_at_pole_refuted`, `dilepton_width_partial`, `action_channels`, `final_decays_complete`, `final_decays_keep`, `final_decays_conserve`, `final_decays_end`, `final_decay_succeeds`, `boosted_tensor`, `landau_frame_partial`, `landau_frame_refuted`, `final_weight_is_branching_fraction`, `ever_counts_once`, `everything_shines_once`, `unforced_shines_twice_refuted`, `dalitz_kinematics`, `dalitz_refuses`, `rotating`, `arranged`, `boosted_nucleon`, `boosted_nucleus_momentum`, `boost_adds_beam_momentum_refuted`, `multi_final_state`, `renormalized_total`, `renormalize_heavy_refuted`, `order_irrelevant`, `totals_conj`, `string_mirror_refuted`, `transit_monotone`, `string_probability_range`, `string_excitation_refuted`, `transition_width_refuted`, `coefficient_history`, `table_accurate`, `table_complete`, `calculate_exact`, `coefficients_correct`, `box_conditions`, `sphere_jets`, `box_jet_centre_refuted`, `occupation`, `breit_wigner_shape`, `nonrelativistic_width`, `heavy_refuted`, `massive_envelope_refuted`, `current_value`, `derivatives_of_the_current`, `continuity_equation`, `gradient_and_curl`, `covariance`, `antimatter`, `superposition`, `rest_density`, `rest_density_derivative_correct`, `mixture_derivative_refuted`, `lattice_agrees`, `energy_search`, `mass_kept`, `coulomb_gradient`, `fields_sum`, `magnetic_curl`, `gradient_is_difference`, `gradient_exact`, `gradient_unknown`, `other_harmonics`, `deformed_shape`, `undeformed`, `regular_tetrahedron`, `fixed_impact`, `quadratic_law`, `negative_impact_refuted`, `equivalent_momentum_only_at_one`, `equivalent_momentum_refuted`, `photon_final_state`, `photon_transfer_partial`, `photon_transfer_refuted`, `three_body`, `brems_final_state`, `brems_momentum_is_k_refuted`, `brems_flat_yield`, `brems_no_room`, `ic_file`, `ic_accepts`, `ic_same_time_partial`, `ic_one_ensemble`, `ic_only_appends`, `ic_late_particle`, `ic_same_time_refuted`, `ic_events_independent_refuted`, `ic_spectators_ignored_refuted`

**`ClassicalDedekindReals.sig_forall_dec`, `ClassicalDedekindReals.sig_not_dec`, `Classical_Prop.classic`, `FunctionalExtensionality.functional_extensionality_dep`** (178 theorems)

`uniform_clock_partitions_run`, `uniform_clock_accepts`, `uniform_clock_rejects`, `reported_time_accurate`, `tiny_step_never_advances_refuted`, `next_time_never_wraps`, `next_time_defined`, `next_time_guard_overflows_refuted`, `set_timestep_keeps_time`, `set_timestep_succeeds`, `set_timestep_rejects`, `reset_restarts_at`, `reset_restarts_near`, `output_reset_at_multiple_partial`, `output_reset_one_interval_early_refuted`, `double_grid_files_every_particle_once`, `short_extent_out_of_bounds_refuted`, `totals_are_sums`, `totals_order_independent`, `totals_grouping_independent`, `totals_additive`, `momentum_total_error`, `momentum_order_refuted`, `report_deviations_empty_iff`, `report_deviations_names`, `tolerance_not_transitive_refuted`, `perform_replaces_participants`, `perform_invalidates_others`, `performed_action_conserves`, `violation_is_reported`, `event_loop_conserves`, `event_loop_balance`, `performed_actions_conserve_or_are_exempt`, `event_loop_time_order`, `events_happen_at_their_time`, `time_step_within_limits`, `outputs_at_output_times`, `state_interacts_at_most_once`, `event_loop_never_undefined`, `evolution_resumes_exactly_but_for_outputs`, `split_evolution_same_outputs_refuted`, `numeric_cast_from_double_exact`, `numeric_cast_to_double_exact`, `numeric_cast_small_int_to_double`, `numeric_cast_out_of_range_throws_refuted`, `numeric_cast_large_int_to_double_throws_refuted`, `periodic_wrap_rounded`, `periodic_wrap_inside_refuted`, `rotate_z_axis_to_direction`, `rotate_z_axis_to_direction_refuted`, `add_to_theta_moves_along_meridian`, `add_to_theta_rejects`, `add_to_theta_there_and_back`, `hubble_rate_partial`, `hubble_rate_exponential`, `hubble_rate_refuted`, `scaling_factor_grows`, `interpolation_rounding_refuted`, `shift_keeps_shell_and_transverse`, `shift_boosts_the_event`, `sampled_difference`, `sampled_pair_exists`, `negative_multiplicity_refuted`, `geometric_decision`, `stochastic_decision`, `multi_decision`, `decision_symmetric`, `above_maximum_dropped_refuted`, `stochastic_zero_cross_section_refuted`, `survival_of_one_step`, `decay_law`, `no_decay`, `final_decays_abort_refuted`, `shining_weight`, `shining_independent_of_steps`, `shining_of_unformed_refuted`, `fermi_motion`, `prepared_nucleus`, `woods_saxon_is_sampled`, `sampled_radius`, `sampled_radius_is_finite_refuted`, `hard_sphere_is_uniform`, `four_body_phase_space`, `nucleon_nucleon_conserves`, `absorption_conserves`, `nucleon_resonance_balance`, `string_excitation_total`, `max_events_exact`, `counting_configured`, `maximum_exceeded_refuted`, `warning_overflow_refuted`, `sphere_uniform`, `sphere_conditions`, `flow_field`, `sphere_flow`, `thermal_quantum_refuted`, `flow_total_refuted`, `unit_flow_refuted`, `centre_flow_refuted`, `hot_sampler`, `cold_sampler`, `ES_sampler`, `peak_is_maximum`, `mass_sampler`, `IC_sampler`, `quantum_maximum`, `maximum_exists`, `quantum_sampler`, `cauchy_integral`, `smearing_normalised`, `static_force`, `skyrme_odd`, `skyrme_force_derivative`, `symmetry_force_derivative`, `vdf_chain_rule`, `mesons_free`, `antibaryon_opposite`, `skyrme_conjugation`, `momentum_part_is_integral`, `energy_equation`, `energy_correct`, `update_momenta_correct`, `vdf_force_total`, `skyrme_antimatter_refuted`, `symmetry_undefined_refuted`, `vdf_antimatter_refuted`, `antibaryon_symmetry_refuted`, `momentum_antimatter_refuted`, `coulomb_needs_lattice_refuted`, `coulomb_law_refuted`, `charged_mesons_refuted`, `harmonics_orthonormal`, `deformed_sampler`, `random_orientation`, `random_turn`, `custom_law`, `deformed_tail_refuted`, `scattering_conserves`, `transfer_is_the_drawn_one`, `exponential_law`, `mirrored_law`, `power_law`, `mirrored_power_law`, `nucleon_elastic_law`, `delta_law`, `resonance_law`, `otherwise_isotropic`, `transfer_in_range`, `elastic_final_state`, `resonance_final_state`, `resonance_needs_one`, `inelastic_final_state`, `many_final_state`, `many_unstable_refused`, `other_processes_refused`, `string_kept`, `string_fallback`, `string_final_state`, `threshold_terminates_refuted`, `last_try_counts_refuted`, `resonance_inherits_spin_refuted`, `resonance_spin_orthogonal_refuted`, `cugnon_slopes`, `slope_continuous_refuted`, `elastic_spin_length`, `elastic_spin_orthogonal_refuted`, `form_factors_at_one`, `omega_form_factor`, `photon_without_cross_section`, `photon_form_factors`, `photon_weight_bounds`, `photon_yield`, `photon_yield_one`, `photon_weight_invariant_refuted`, `form_factor_at_most_one_refuted`, `one_process_only`, `brems_yield_refuted`, `brems_opposite_yield_refuted`

* `ClassicalDedekindReals.sig_not_dec`: decidability of negated propositions (construction of the reals)
* `ClassicalDedekindReals.sig_forall_dec`: decidability of Pi-0-1 propositions (construction of the reals)
* `FunctionalExtensionality.functional_extensionality_dep`: functional extensionality
* `Classical_Prop.classic`: excluded middle

## 5. What is modelled

The header of every file; the citation of each definition gives the exact lines.

* `Base.v`: Shared vocabulary of the model: outcomes of C++ code, fixed-width integers, small list utilities. No property is stated here.
* `ParticlesModel.v`: Model of the particle container. /repo/src/include/smash/particles.h and /repo/src/particles.cc
* `ParticlesSpec.v`: Abstract specification of the particle container: a bag of particles, each with an id; ids are handed out consecutively. Nothing here mentions slots, holes or capacities.
* `ParticlesProofs.v`: Proofs about the particle container model.
* `ParticlesHistory.v`: Invariants over all histories of the particle container.
* `ParticlesProps.v`: Property theorems about the particle container (C01-C05).
* `PdgModel.v`: Model of PdgCode: /repo/src/include/smash/pdgcode.h, /repo/src/pdgcode.cc. A PdgCode is its 32-bit word (union member dump_, pdgcode.h:914-996, little-endian bit-field layout).
* `PdgSpec.v`: Independent vocabulary for the PDG-code properties: the Monte-Carlo numbering scheme as a user knows it, with no reference to the 32-bit packing.
* `PdgProofs.v`: lemmas for the files that import it
* `PdgParse.v`: lemmas for the files that import it
* `PdgStrings.v`: lemmas for the files that import it
* `PdgMore.v`: lemmas for the files that import it
* `PdgProps.v`: Properties C06-C11 of PdgCode. [accepted w] means that some constructor or reader of PdgCode returned the code [w] (PdgMore.v); [view]/[nview] are the digits its accessors report (PdgParse.v); the vocabulary of the statements is in PdgSpec.v.
* `Flt.v`: IEEE binary64 arithmetic as rounded real arithmetic (Flocq): a double is a real number, every operation rounds its exact result to nearest-even in the format FLT(-1074, 53). Overflow to infinity and NaN are not represented; a module that uses these definitions says so and keeps its values in range.
* `ClockModel.v`: Model of /repo/src/include/smash/clock.h. Doubles are rounded reals (Flt.v); NaN and infinities are not represented. int64 arithmetic is checked: overflow is UB.
* `ClockProofs.v`: Proofs about the clocks: rounding round trip, ticks, resets, custom times.
* `ClockSpec.v`: Vocabulary for the clock properties.
* `ClockMore.v`: Further clock proofs: user-level ranges, resets, concrete doubles.
* `ClockProps.v`: C13-C16: the clocks.
* `Search.v`: std::lower_bound / std::upper_bound as the binary search the standard library performs, over positions 0..n-1 and a predicate "keep going right".
* `TypesModel.v`: Model of the particle-type list (/repo/src/particletype.cc:30-362) and the isospin multiplets (/repo/src/isoparticletype.cc:39-182). Strings are byte lists; masses and widths are opaque numbers; a line of particles.txt is already split into its whitespace-separated words, the numeric ones read.
* `TypesProofs.v`: Proofs about the particle-type list and the multiplets.
* `TypesProps.v`: C12 (and C63): the particle-type list and the isospin multiplets.
* `ActionsModel.v`: Model of the action scheduler /repo/src/include/smash/actions.h, with the heap algorithms of libstdc++ (bits/stl_heap.h: __push_heap, __adjust_heap, __make_heap, __pop_heap). An action is an identity and a time of execution; times are integers standing for any totally ordered, NaN-free set of doubles.
* `ActionsProofs.v`: The scheduler's array is always a heap containing exactly the pending actions.
* `ActionsProps.v`: C17: the action scheduler.
* `GridModel.v`: Model of src/grid.cc and src/include/smash/grid.h: the cell grid that feeds the collision finders, and of the two pair loops of src/scatteractionsfinder.cc that consume its callbacks.
* `GridProofs.v`: The calls made by iterate_cells, open and periodic.
* `GridPeriodic.v`: Membership and multiplicity of the calls of the periodic iterate_cells.
* `GridBuild.v`: Construction of the grid: number of cells, index factors, filing of particles.
* `GridOffers.v`: From cells to the pairs offered to the collision finder.
* `GridPlace.v`: Placement of particles: in range, adjacent when close.
* `GridSpec.v`: Vocabulary of the grid properties, independent of the grid code.
* `GridFinal.v`: Assembling the grid theorems.
* `GridMore.v`: When the constructor succeeds (exact), what doubles can do to it, concrete runs.
* `GridProps.v`: C18-C20: the cell grid offers every close pair to the collision finder exactly once.
* `LatticeModel.v`: Model of src/include/smash/lattice.h: the rectangular lattice for thermodynamic quantities, and of the weights update_lattice_with_list_of_particles (src/include/smash/density.h) hands to its cells. Coordinates and lengths are exact reals (the double rounding of the bounds is not modelled); indices are C++ ints, with overflow and out-of-range accesses as undefined behaviour. Asserts count as undefined behaviour when they fail.
* `LatticeSpec.v`: Vocabulary of the lattice properties, independent of the lattice code.
* `LatticeProofs.v`: Lemmas about the lattice model.
* `LatticeMore.v`: Lemmas about iteration, lookup, gradients and smearing weights.
* `LatticeGrad.v`: Gradients on the lattice, and sums of smearing weights.
* `LatticeProps.v`: C21-C24, C64, C65: the rectangular lattice.
* `ConfigModel.v`: Model of class Configuration (src/configuration.cc, src/include/smash/configuration.h) and of the parts of class Key (src/include/smash/key.h) it uses. Simplifications, for the whole file. - A YAML node is a finite tree: no anchors/aliases, so no two places of a tree share memory. Map keys are scalars (a YAML key that is itself a map or a list is not represented). Undefined entries that yaml-cpp leaves behind after a failed lookup are invisible through its interface and are not represented. - yaml-cpp itself is not part of /repo. Its operations are modelled after the 0.6-0.8 sources: [operator\[\]] and [remove] act on the first entry with the key; subscripting a scalar throws; subscripting a list turns it into a map with keys 0, 1, ...; iterating over a list and asking for [first.Scalar()] throws; the handle of an empty document, and a handle after [reset()], own no node, and copies of such a handle share nothing with it. - YAML parsing and writing, conversion of a node to a C++ type and messages are not modelled; a key brings its conversion functions along.
* `ConfigSpec.v`: Vocabulary for the statements about configurations: which keys a tree contains.
* `ConfigProofs.v`: Lemmas about trees, lookup, removal and pruning.
* `ConfigTake.v`: Lemmas about modification of a subtree, take and histories of takes.
* `ConfigMerge.v`: Lemmas about merging and setting.
* `ConfigKeys.v`: The list of all input keys, InputKeys::list (src/include/smash/input_keys.h:6077-6377), with the labels, the number of versions and the value type of the declaration of each key (line given behind each entry). Default values and validators are not listed.
* `ConfigValid.v`: Lemmas about validation.
* `ConfigProps.v`: Properties C25-C30, C66, C67: the configuration object.
* `ShaModel.v`: Model of src/sha256.cc and src/include/smash/sha256.h. Bytes and machine words are integers; sizes and positions are natural numbers, which is faithful because size_t cannot overflow here (all sizes are lengths of real buffers). A uint32_t sum is reduced once, when it is stored, instead of after every addition; this is the same number. (W\[i\] is computed in 64 bits in the source, since macro R uses an unsigned long mask, and cut when stored.)
* `ShaSpec.v`: SHA-256 as defined by FIPS 180-4, for messages that are a whole number of bytes. Section numbers refer to the standard.
* `ShaProofs.v`: Lemmas for ShaProps.v: macros, compression, buffering.
* `ShaProps.v`: SHA-256: properties C31 and C32.
* `Bytes.v`: Little-endian memory images of fixed-width words: what [ostream::write] / [fwrite] of an object of n bytes puts into a file on the platforms SMASH supports (x86-64, arm64: both little-endian), and what reading it back yields.
* `TabModel.v`: Model of the one-dimensional lookup tables: src/tabulation.cc and src/include/smash/tabulation.h. Doubles: the numerical part (constructor, look-ups) is over the real numbers, i.e. rounding, overflow and NaN are not modelled; the file part treats a double as its 64-bit pattern.
* `TabProps.v`: C48: tabulations reproduce the tabulated function and survive a file round trip.
* `FilesModel.v`: Model of what SMASH does with files that several runs may share or that may be cut short: lock files (src/filelock.cc), renamed output files (src/file.cc) and the cache of resonance integrals (src/isoparticletype.cc). Processes interleave arbitrarily and can die between any two steps.
* `LockProps.v`: C34: at most one process holds a file lock. C33: an output file with its final name is complete.
* `CacheProps.v`: C35: cached integrals are never taken from a half-written or foreign file. C68: the integral used for a pair of resonances is that pair's.
* `QnModel.v`: Model of /repo/src/include/smash/quantumnumbers.h and /repo/src/quantumnumbers.cc, with the comparison of /repo/src/fourvector.cc:30-35 and /repo/src/include/smash/numerics.h:58-77, 99-104. Doubles are rounded reals (Flt.v; no NaN or infinity), [int] additions are checked.
* `QnProps.v`: C36: quantum-number bookkeeping.
* `EventModel.v`: Model of actions and of the event loop: /repo/src/action.cc (is_valid, update_incoming, perform, check_conservation) and /repo/src/include/smash/experiment.h (perform_action, run_time_evolution_timestepless, run_time_evolution), on top of the particle container (ParticlesModel.v), the scheduler (ActionsModel.v) and the quantum numbers (QnModel.v). Simplifications. One ensemble. Times are integers standing for any totally ordered, NaN-free set of doubles. What the finders find, which final state an action draws, whether it is Pauli blocked, how a position is advanced and how potentials and expansion change momenta are arbitrary functions (record [env]); since their argument is the whole world including its log, which grows with every event, this covers every random choice. Thermalization, fluidization lattices, dileptons, photons, densities, counters used only for messages, and adding or removing particles at the start of run_time_evolution are left out.
* `EventProofs.v`: Lemmas for the event loop: handles, performing, propagating.
* `PerformProps.v`: C37: performing an action.
* `EventSpec.v`: What is required of the physics (finders, final states, propagation) and what the event log of a run must look like; used in the statements of EventProps.v.
* `EventLoop.v`: Invariants of the event loop.
* `EventProps.v`: C38, C39, C69, C70: properties of the event loop.
* `NumModel.v`: Model of small numeric helpers: /repo/src/include/smash/numeric_cast.h, algorithms.h (enforce_periodic_boundaries), average.h, and the choice of a channel (action.h:141-148, 157-168, 415-435; processbranch.h:236-243).
* `NumProps.v`: C40 (numeric_cast), C41 (periodic boundaries), C42 (averages), C43 (channel choice).
* `VecModel.v`: Model of three- and four-vectors, directions and kinematics: /repo/src/include/smash/threevector.h, fourvector.h, angles.h, kinematics.h, /repo/src/fourvector.cc. Doubles are exact real numbers here (no rounding, no NaN).
* `VecProps.v`: C44 (boosts), C45 (rotations), C46 (kinematics), C72 (directions), C73 (comparisons). Exact real arithmetic.
* `KinProps.v`: C46 (kinematics), C72 (directions), C73 (comparison of four-vectors). Exact real arithmetic.
* `MotionModel.v`: Model of particle motion and of the kinematics of final states: /repo/src/propagation.cc, wallcrossingaction.cc, hypersurfacecrossingfinder.cc, action.cc:66-445, particledata.cc:88-160, collidermodus.cc:100-240, 520-560, 625-655. Doubles are exact real numbers.
* `MotionProps.v`: Properties of particle motion (C53, C54, C55, C74).
* `HyperProps.v`: Crossing of the hypersurface of constant proper time (C54).
* `FinalProps.v`: Interaction points, final-state kinematics, formation, spin (C75-C78).
* `ColliderProps.v`: Beam energies, frames and start positions of a collision (C79, C80).
* `TextModel.v`: Text handling: src/stringfunctions.cc and src/inputfunctions.cc. A [std::string] is the list of its bytes (0..255). Not modelled: memory exhaustion, logging.
* `TextSpec.v`: Vocabulary of the claims about text, independent of how the functions are written.
* `TextProps.v`: Claims about split, join, trim, line_parser, padding and removal of substrings.
* `TextMore.v`: Claims about padding of UTF-8 text and removal of substrings.
* `InterpModel.v`: Interpolation: src/include/smash/interpolation.h and src/interpolation.cc. Numbers are reals (exact arithmetic); the template is used with T = double only. GSL's cubic spline is a parameter [spline].
* `InterpProps.v`: Claims about interpolation (C47).
* `OutModel.v`: Particle output: src/include/smash/outputformatter.h, src/binaryoutput.cc, src/include/smash/binaryoutput.h. A particle is given by the values its accessors return: integers as they are, doubles by their 64-bit memory image. Files are byte sequences (little-endian machine); a failing fwrite is not modelled.
* `OutSpec.v`: The documented binary format (doxypage_output_binary, binaryoutput.cc:47-200) as a reader, and the documented table of quantities (oscaroutput.cc:695-822).
* `OutProps.v`: Claims about the output of particles (C49, C50).
* `StringModel.v`: Flavour bookkeeping of string processes: src/stringprocess.cc. Flavours and parton codes are small C++ ints, written as Z (no value exceeds a few thousand). Every random draw is an argument; [random::uniform_int(0, n - 1)] is [draw mod n] for an arbitrary draw, so that every value in the range occurs. PYTHIA's event record is the list of its entries without the zeroth one, each given by its PDG code; masses, momenta and colours are left out here (see StringColor.v, StringKin.v). Logging is left out.
* `StringSpec.v`: What the flavour bookkeeping of strings is measured against: the quark content of a parton, read off the PDG numbering scheme.
* `StringProps.v`: Claims about the flavour bookkeeping of strings (C56).
* `StringExcess.v`: The flavour conversion in hard string processes: what every step keeps, and that the loop ends (C56).
* `StringRestore.v`: The restoration of the hadrons' flavours in hard string processes ends and gives back exactly the flavours of the two hadrons (C56).
* `StringAnnihilate.v`: Baryon-antibaryon annihilation keeps every net flavour (C56).
* `StringColor.v`: Identifying colour-singlet strings among the partons of a hard process: src/stringprocess.cc, compose_string_parton and the loop that calls it. An entry of PYTHIA's event record is its position in the original record together with its colour and anticolour index (0: none); the zeroth entry is left out. Momenta are left out: the momentum of a string is the sum over its entries. Records with junctions are not modelled (compose_string_junction).
* `StringPick.v`: Choice of a resonance for a low-mass string and of the leading hadrons: src/stringprocess.cc. Masses are exact reals; the particle list is an argument.
* `StringLead.v`: Cross section scaling factors of the leading hadrons of a string: src/stringprocess.cc 3182-3261 and 157-171. Factors are exact reals.
* `StringKin.v`: Kinematics of string fragmentation: src/stringprocess.cc, src/include/smash/stringprocess.h. Doubles are exact reals.
* `PsortProps.v`: Partial sort of the LOWESS smoother: src/include/smash/lowess.h:97-131. Values are only compared; every finite double is an integer multiple of 2^-1074, so an integer stands for a double (NaN is not modelled). Indices are size_t.
* `BesselProps.v`: Bessel sampler: src/random.cc:32-97, src/include/smash/random.h:429-432. Reals are exact; random draws are arguments.
* `PauliProps.v`: Phase-space density of the Pauli blocker: src/pauliblocking.cc:46-91. Doubles are exact reals; the ensembles are one list of particles.
* `ListFileProps.v`: Reading of external event lists: src/listmodus.cc:345-425 (next_event_, file_has_events_). A file is its text; a read position is the part of the text that follows it.
* `DecayProps.v`: Decay modes read from the decay file: src/decaymodes.cc. Particle types are their PDG words (charge and spin of a type are those of the code, particletype.cc:129-137); weights are real numbers; Clebsch-Gordan factors are an argument.
* `CollideModel.v`: When two or more particles are taken to collide: src/include/smash/scatteractionsfinder.h, src/scatteractionsfinder.cc, src/scatteraction.cc. Doubles are exact reals. Random draws are arguments. The total cross section of a pair is an argument (crosssections.cc is not modelled); creating an action object is reduced to returning the time until it happens.
* `CollideProps.v`: C92 (geometric collision time), C93 (transverse distance), C94 (covariant times), C95 (collision decision), C96 (every pair and tuple is checked once). Exact real arithmetic.
* `CollideFind.v`: C95 (which pairs collide), C96 (every pair and tuple is checked once). Exact real arithmetic.
* `WidthModel.v`: Decay widths: src/include/smash/formfactors.h, src/decaytype.cc, src/particletype.cc. Doubles are exact reals. The tabulated phase-space integrals of decays with unstable daughters are arguments; the three-body dilepton (Dalitz) widths, which are numerical integrals as well, are not modelled.
* `WidthProps.v`: C97: the mass dependence of decay widths. Exact real arithmetic.
* `DecayFindModel.v`: Finding and choosing decays: src/decayactionsfinder.cc, src/decayaction.cc, src/particletype.cc, src/include/smash/action.h, src/include/smash/experiment.h. Doubles are exact reals, random draws are arguments (a draw is a number in (0, 1] for random::canonical_nonzero and in [0, 1) for random::uniform). No potentials: the energy available to a decay is the mass of the particle (pot_pointer == nullptr, no UB and UI3 lattices).
* `DecayFindProps.v`: C98 (decay law), C99 (choice of the channel), C100 (decays at the end of the event). Exact real arithmetic, no potentials.
* `TensorModel.v`: The energy-momentum tensor: src/include/smash/energymomentumtensor.h, src/energymomentumtensor.cc. Exact reals. The eigenvalues and eigenvectors computed by Eigen are an argument.
* `TensorProps.v`: C101: the energy-momentum tensor and the Landau frame. Exact real arithmetic.
* `DileptonModel.v`: Dilepton production by shining: src/decayactionsfinderdilepton.cc, src/decayactiondilepton.cc, src/include/smash/experiment.h. Doubles are exact reals, random draws are arguments. No potentials and no core particles (is_core is an argument where it occurs).
* `DileptonProps.v`: C102: dilepton shining weights. C103: kinematics of Dalitz decays. Exact real arithmetic.
* `NucleusModel.v`: Preparing a nucleus: src/nucleus.cc, src/include/smash/nucleus.h, src/customnucleus.cc. Doubles are exact reals, random draws are arguments (canonical() in [0, 1)).
* `NucleusProps.v`: Properties of the preparation of a nucleus (C104).
* `WoodsSaxon.v`: The radial distribution of the sampled nucleons (C105).
* `NucleusFile.v`: Reading nuclei from a file (C106).
* `MultiModel.v`: Model of reactions of three, four or five particles: /repo/src/scatteractionmulti.cc, /repo/src/include/smash/scatteractionmulti.h. Particles are represented by their PDG words where only the species matters. [known w] says whether ParticleType::try_find finds the species in the particle list. The weights (probabilities) are represented by the factor multiplying the phase space and cross-section parts: symmetry factor times outgoing over incoming spin degeneracy, kept as numerator and denominator.
* `MultiProps.v`: Reactions of three, four and five particles (C107).
* `ThermModel.v`: Model of forced thermalization: /repo/src/grandcan_thermalizer.cc, /repo/src/include/smash/grandcan_thermalizer.h. Reals are exact; the densities given by the equation of state are arguments (non-negative numbers), and so are all random draws. The equation of state itself (hadgas_eos.cc) and the thermal momentum distribution are not modelled.
* `ThermProps.v`: Forced thermalization (C108, C109).
* `XsModel.v`: Model of the binary reaction channels: /repo/src/crosssections.cc, /repo/src/include/smash/crosssections.h, /repo/src/parametrizations.cc (isospin ratios). Species are represented by their PDG words; doubles are real numbers. The fitted parametrisations are opaque: [par] lists their names and an environment gives the value of each at the energy of the collision. ParticleType::find is assumed to find the species named in the tables (it throws otherwise). The channel tables npi_table, nk_table, deltak_table and ypi_table below are the nested switch statements of the source flattened to association lists; a pair which has no case gives no channel.
* `XsProps.v`: C110-C113: binary reaction channels.
* `XsSym.v`: C111: symmetries of the binary reaction channels.
* `XsBal.v`: C112, C113: detailed balance and totals of the binary reaction channels.
* `CgModel.v`: Isospin coupling: the range of total isospins of a reaction, the squared isospin factors of 2->1, 3->1 and 2->2 reactions, and the table of Clebsch-Gordan coefficients with its memoisation. Simplifications of this module: doubles are reals except in the table, whose literals are kept exactly as the decimal numbers in the source; the Wigner 3j symbol of the GNU scientific library is an argument.
* `CgProps.v`: C114: isospin coupling. The specification - which total isospins two species can couple to, and what a Clebsch-Gordan coefficient is - comes first and does not mention the model.
* `CgTable.v`: C114, second half: three-body isospin states, the table of coefficients, and its memoisation.
* `FluidModel.v`: Dynamic fluidization: which particles become part of the fluid ("core"), when, from which density, and what happens to core and corona particles at the end of an event. Simplifications of this module: doubles are reals; the energy density at a particle's place (tensor lattice and Landau frame, see TensorModel) is an argument; spin and names are left out.
* `FluidProps.v`: C115 (finding of fluidizations) and C116 (the end of an event with a fluid).
* `FluidEnd.v`: C116: the end of an event with a fluid.
* `RunModel.v`: The loop over events (experiment.h: Experiment::run and what it calls): counting events and non-empty ensembles, the blocks every output sees, and the chain of random seeds (random.h, random.cc). What happens inside an event is an argument: the labels of the incoming particles of the performed actions and the number of intermediate outputs.
* `RunProps.v`: C117: the loop over events.
* `InitModel.v`: Model of the initial conditions of the box and of the sphere: BoxModus::initial_conditions, /repo/src/boxmodus.cc:107-228, and SphereModus::initial_conditions, /repo/src/spheremodus.cc:153-314. Doubles are exact reals. Random draws are arguments: per particle, the mass drawn from its thermal distribution, the radial momentum returned by the sampler of distributions.cc, the direction, and the numbers the position is made from. Spin vectors are not modelled except for the reference through which they are set (end of the file); logging is not modelled.
* `InitProps.v`: Properties of the initial conditions of the box and of the sphere (C118).
* `DistModel.v`: Model of the distributions and the momentum samplers: /repo/src/distributions.cc, and the sampling loop of /repo/src/quantumsampling.cc:252-283. Doubles are exact reals. Every sampler but sample_momenta_IC_ES is a loop that draws until a candidate is accepted; the model gives one round of the loop: the accepted momentum, or None if another round is needed. Random draws are arguments; a number from random::uniform(a, b) is a + (b - a) u.
* `DistProps.v`: Properties of the distributions and the momentum samplers (C119).
* `DistMore.v`: More on the momentum samplers: rejection below an envelope, quantum statistics, line shapes (C119).
* `PrintfModel.v`: Model of the conversion of numbers to text: ToASCII, /repo/src/include/smash/outputformatter.h:31-99, with the conversion %g of the C library (ISO C, 7.21.6.1) worked out exactly on the value of the double: correctly rounded decimal digits, trailing zeros removed. Integers go through std::to_string ([PdgModel.to_string]).
* `PrintfProps.v`: Numbers in text output (C120): what is printed can be read back as a decimal number and is close to the value. Specification: [read_decimal] reads a numeral (sign, digits, optional fraction, optional exponent) as an integer times a power of ten, as strtod and every reader of the files does.
* `OscarModel.v`: Text output in the OSCAR formats: /repo/src/oscaroutput.cc, with the conversions of /repo/src/include/smash/outputformatter.h ([PrintfModel], [OutModel]). The file is the sequence of bytes handed to fprintf; failing writes and flushing are not modelled.
* `OscarSpec.v`: A reader of OSCAR files, written from the documentation (doxypage_output_oscar, oscaroutput.cc:36-83, and the pages on particles and collisions, 281-860): a file is lines, a line is words; after the header, every output block has a line that says how many particle lines follow. Also what each call of the simulation must leave in the file.
* `OscarText.v`: Words and lines of the texts that are printed (lemmas for C121).
* `OscarProps.v`: OSCAR files (C121): the reader of [OscarSpec] recovers what the simulation reported.
* `DensModel.v`: Model of the densities on which potentials and thermodynamic output are built: /repo/src/density.cc and /repo/src/include/smash/density.h. Doubles are exact real numbers.
* `DensSpec.v`: Specification of densities (C122): smeared currents, their derivatives and what an observer in another frame sees.
* `DensProofs.v`: Proofs about densities (C122).
* `DensProps.v`: Densities: values, derivatives, continuity, Lorentz covariance (C122).
* `DensMore.v`: Densities: antimatter, rest-frame density, normalisation, lattice (C122).
* `PotModel.v`: Model of the mean-field potentials and of the change of momenta by their forces: /repo/src/potentials.cc, /repo/src/include/smash/potentials.h, update_momenta in /repo/src/propagation.cc and the Coulomb part of update_potentials in /repo/src/include/smash/experiment.h. Doubles are exact real numbers; [None] stands for a value that is not a finite number (std::pow of a negative number or a division by zero).
* `PotProps.v`: Potentials and forces (C123): forces are minus the gradient of the potential, sign under charge conjugation.
* `PotForce.v`: The force on a baryon in matter at rest is minus the gradient of its potential energy (C123); what the potential is proportional to.
* `PotMom.v`: The momentum-dependent potential (C123): the closed form is the documented integral over the Fermi sphere; the energy solves the dispersion relation in the local rest frame; the search for it ends.
* `PotMove.v`: One step of the momenta in the potentials (C123): each particle is pushed by its own force for the time step, keeps its mass, place and identity, and nothing that was found for one particle acts on another; the Coulomb fields.
* `GeomModel.v`: Shapes and orientations of nuclei and the impact parameter: /repo/src/deformednucleus.cc, /repo/src/alphaclusterednucleus.cc, /repo/src/nucleus.cc (orientation), /repo/src/collidermodus.cc (impact parameter). Doubles are exact real numbers, random draws are arguments.
* `GeomShape.v`: Properties of the shapes and orientations of nuclei (C124).
* `GeomNucleus.v`: Properties of deformed and clustered nuclei and of their orientation (C124).
* `GeomImpact.v`: Properties of the impact parameter (C124).
* `PotGrad.v`: More on the mean-field potentials (C123): the VDF terms, the VDF force in the whole computation of the forces, and the gradient of the single-particle energy.
* `ScatModel.v`: Two-particle scatterings: src/scatteraction.cc (all of it except the transverse distances, which are in CollideModel.v), and random::expo, random::power of src/include/smash/random.h. Doubles are exact reals; random draws and what Pythia returns are arguments. Without potentials: total_momentum_of_outgoing_particles (action.cc:160-188) is then the sum of the incoming momenta.
* `ScatProps.v`: Angular distributions of two-particle scatterings (C125).
* `ScatAngle.v`: Kinematics and angular distributions of two-particle scatterings (C125).
* `ScatTransfer.v`: The momentum transfer of two-particle scatterings: range and distribution (C125).
* `ScatFinal.v`: Final states of two-particle scatterings (C125).
* `ScatAction.v`: The weights of the processes of a two-particle scattering (C125).
* `PhotonModel.v`: Direct photons from binary collisions: src/scatteractionphoton.cc, src/bremsstrahlungaction.cc. Doubles are exact reals, random draws are arguments. The tables and formulas of the cross sections themselves (crosssectionsphoton.cc, the BREMS_ tables and their interpolation) are parameters. Without potentials the total momentum of the outgoing particles is that of the incoming ones. Spins are left out (they are set by assign_unpolarized_spin_vector_to_outgoing_particles, see MotionModel.v).
* `PhotonProps.v`: Properties of the reactions that produce direct photons.
* `PhotonKin.v`: Momenta of direct photons.
* `PhotonBrems.v`: Bremsstrahlung of two pions: momenta.
* `PhotonWeight.v`: Weights of direct photons.
* `PhotonForm.v`: Form factors of direct photons.
* `HepmcModel.v`: The HepMC event record: src/hepmcinterface.cc, src/hepmcoutput.cc. Doubles are exact reals. What the HepMC3 library does with particles and vertices is modelled from its documented behaviour: a particle has at most one vertex it comes from and at most one it goes to, and adding it to another vertex moves it. Run information, heavy-ion header, dummy cross section and the formatting of the written event are left out.
* `HepmcBase.v`: Lemmas about the event record: changing and appending particles, selecting by status and vertex.
* `HepmcHistory.v`: What one event adds up to in the record, for every history of interactions.
* `HepmcProps.v`: C127: what the HepMC event record says about an event.
* `HepmcMore.v`: C127, continued: conservation at the vertices, records of the final state only, errors, ion codes.
* `RootModel.v`: The ROOT output: src/rootoutput.cc. A particle is whatever the branches read of it (type [A]); the parts of EventInfo that are only passed on (time, energies, modus length, test particles) are a value of type [I]. What TTree::Fill stores is a copy of the branch variables and of the first npart elements of the arrays. File handling, logging and the ROOT library are left out.
* `RootProps.v`: C128: what the ROOT trees contain.
* `IcModel.v`: The initial-conditions output for vHLLE: src/icoutput.cc. The formatted line of a particle is a value of type [A]; the three header lines written by the constructor (icoutput.cc:102-114), which do not depend on the run, are left out. Real numbers stand for double; the one NaN that can occur, the proper time of a particle outside the light cone, is [None].
* `IcProps.v`: C129: the initial-conditions output lists the removed particles that have interacted, on one hypersurface.
* `PhotonMore.v`: C126, continued: the photon angle is always usable, the form factors at 1 GeV, and processes without cross section.

## 6. What is not modelled

* External libraries: GSL, Pythia, ROOT, HepMC3, Rivet, Cuba, yaml-cpp parser. Where the
  code calls them the result is an argument of the model.
* Physics parametrisations: values of cross sections, widths, form factors, spectral
  functions, equation-of-state tables. They enter as arbitrary functions (two-body
  widths and their form factors excepted, see WidthModel.v).
* Random numbers: every draw is an argument, assumed uniform where a distribution is stated
  (tabulated weights, decay law, channel choice, Woods-Saxon radii); the generator is not
  modelled.
* Floating-point rounding, except in modules that say so (Flt.v and its users); NaN and
  infinities are outcomes or excluded by hypotheses.
* Text output formats other than the ones in OutModel.v, PrintfModel.v and OscarModel.v, logging, the command line, OpenMP
  (the code is single-threaded), memory exhaustion.

## 7. Findings

Places where the code does not satisfy the property as a user would state it. Each has
a theorem with a concrete witness; the comment above the theorem explains it.

* `container_stale_copy_across_reset_refuted` (ParticlesProps.v): C03, limit: across a reset, a stale copy can be taken for a new particle.
* `container_is_empty_refuted` (ParticlesProps.v): ... the other one does not: after removing three particles in the order middle, last, first, the container holds nothing, but is_empty() is false and front()/back()/time() dereference a non-existing particle.
* `container_create_truncation_refuted` (ParticlesProps.v): C01, limit: the size_t argument of create() is truncated to 32 bits when the array is enlarged, so 2^32 particles are written past the end.
* `from_decimal_eight_digits_refuted` (PdgProps.v): ... but not every eight-digit number does: the two spin digits are added, so 80000211 is accepted and becomes 219; and exactly 10^7 overflows an int.
* `from_decimal_ten_million_refuted` (PdgProps.v)
* `string_roundtrip_hex_refuted` (PdgProps.v): The reader also takes hexadecimal excitation digits, and then the written number is another one: "a0211" is accepted, written as 100211 and read back as a different particle.
* `quark_content_K0L_refuted` (PdgProps.v): For K0_L = 130 (lighter flavour first) the two interfaces disagree.
* `int_and_string_constructors_agree_refuted` (PdgProps.v): ... but not otherwise: the string reader lets excitation digits A-F through, and the 32-bit constructor silently drops bits 28-30.
* `int_constructor_min_refuted` (PdgProps.v)
* `tiny_step_never_advances_refuted` (ClockProps.v): Finding: the constructor accepts a positive step below half a micro-fm, and such a clock never advances, however often it is ticked.
* `tick_back_guard_overflows_refuted` (ClockProps.v): Finding: with a negative n the guard itself overflows.
* `next_time_guard_overflows_refuted` (ClockProps.v): Finding: the overflow guard of next_time can itself overflow (product), and does not look at the reset time (sum). The first clock is UniformClock(0, 2^42 fm, 1 fm) up to rounding of the step, ticked twice.
* `output_reset_one_interval_early_refuted` (ClockProps.v): Finding: a run starting at 0.57 fm with output interval 0.19 fm (0.57 = 3 * 0.19) resets the output clock to 0.38 fm, one interval early, because 0.57/0.19 rounds to 2.9999999999999996 (clock.h:325).
* `custom_times_lost_in_later_event_refuted` (ClockProps.v): Finding: so a second event starting earlier than the first misses output times.
* `failed_reload_replaces_list_refuted` (TypesProps.v): Finding: loading a second time is reported as an error, but the list that was in use has been replaced by then (particletype.cc:205, 329): lookups now answer from the rejected file.
* `earliest_time_empty_refuted` (ActionsProps.v)
* `short_extent_out_of_bounds_refuted` (GridProps.v): Finding: if the extent in one direction is just below the cell length, rounding can give one cell in that direction but cell coordinate 1 for the outermost particle, which is then filed outside the array.
* `cell_count_overflows_refuted` (GridProps.v): Finding: without the cell-number limit (stochastic criterion) a few distant particles make the number of cells overflow int.
* `largest_strategy_keeps_unformed_refuted` (GridProps.v): Finding: the largest-cell strategy ignores include_unformed_particles = false.
* `periodic_lookup_far_out_of_bounds_refuted` (LatticeProps.v): Finding: more than 256 periods below the origin the index becomes negative.
* `large_cutoff_visits_twice_refuted` (LatticeProps.v): Finding: with a cut-off larger than half the lattice, nodes are visited repeatedly.
* `nearest_neighbours_outside_undefined_refuted` (LatticeProps.v): Finding: iterate_nearest_neighbors does not check that the point is inside.
* `resize_cells_out_of_bounds_refuted` (LatticeProps.v): Finding: changing the number of cells does not change the storage, so cells the resized lattice claims to have lie outside it.
* `discrete_smearing_border_refuted` (LatticeProps.v): Finding: at the border of an open lattice the missing neighbours count as the centre, so each adds the central weight; in the corner cell the default weights (1/3 and 1/9) add up to 5/3.
* `triangular_smearing_fractional_range_refuted` (LatticeProps.v): Finding: for a non-integer range the weights do not integrate to one.
* `second_take_with_default_refuted` (ConfigProps.v): Finding: a take with a caller-given default silently returns the default when the key was taken before (no TakeSameKeyTwice).
* `empty_name_lost_by_take_refuted` (ConfigProps.v): Finding: any take also deletes an entry whose name is the empty text, anywhere.
* `duplicate_key_taken_twice_refuted` (ConfigProps.v): Finding: with a duplicated key the first value is taken, the second stays.
* `given_default_hides_map_refuted` (ConfigProps.v): Finding: for a key whose value is a map, the forms with a given default never look at the map in the file.
* `set_after_clear_lost_refuted` (ConfigProps.v): Finding: after clear(), and on the configuration returned for a missing section, setting a value has no effect.
* `merge_empty_document_erases_refuted` (ConfigProps.v): Finding: merging a document without content (empty text, or only comments) erases the whole configuration, silently.
* `merge_into_empty_file_lost_refuted` (ConfigProps.v): Finding: merging into a configuration read from an empty file (or cleared) is lost.
* `merge_refused_not_atomic_refuted` (ConfigProps.v): Finding: a refused merge leaves the part merged before the refusal.
* `merge_over_list_numbers_refuted` (ConfigProps.v): Finding: merging a section over a list keeps the list entries as keys 0, 1, ...
* `valueless_key_always_unused_refuted` (ConfigProps.v): Finding: a key without value ("Key:") cannot be taken; the default is returned and destruction reports the key as unused.
* `move_assignment_drops_keys_refuted` (ConfigProps.v): Finding: move assignment drops the keys the target still had, silently.
* `default_after_extract_refuted` (ConfigProps.v): Finding: a key of an extracted section, asked from the remaining object, gives the default instead of an error: what left through extract is not remembered as taken.
* `validation_of_plain_modi_refuted` (ConfigProps.v): Finding: a file with a plain value for the section Modi makes validation read out of bounds.
* `quick_validation_hides_invalid_refuted` (ConfigProps.v): Finding: quick validation stops at the first problem and may say Deprecated although another key is invalid.
* `empty_tabulation_lookup_refuted` (TabProps.v): Finding: a default-constructed (empty) tabulation is a legal object, but a look-up in it reads outside the vector.
* `truncated_file_detected_refuted` (TabProps.v): Finding: the state of the stream is never looked at. If the file was cut off anywhere after the size field (disk full, crashed writer), reading it with the right hash succeeds and the missing values silently become 0.
* `copied_lock_refuted` (LockProps.v): Finding: FileLock has an implicit copy constructor, and a copy of an object that holds the lock removes the file when it is destroyed: two objects hold the lock.
* `full_disk_output_complete_refuted` (LockProps.v): Finding: results of fwrite and fclose are ignored, so on a full disk an incomplete file gets the final name.
* `unopened_output_file_refuted` (LockProps.v): Finding: a RenamingFilePtr whose file cannot be opened (missing directory, no permission) cannot even be destroyed without undefined behaviour.
* `cache_after_lock_removal_refuted` (CacheProps.v)
* `cache_after_full_disk_refuted` (CacheProps.v): A full disk while a run stores an integral has the same effect on all later runs, without any crash or deleted lock.
* `tabulation_paths_distinct_refuted` (CacheProps.v): The replacement of ' in file names is not injective.
* `config_hash_distinguishes_refuted` (CacheProps.v)
* `pair_table_order_refuted` (CacheProps.v): Finding: for (ρ, h₁) in this order - the order in which the particles come in decides, crosssections.cc:2773 - the table of ρρ is used.
* `momentum_order_refuted` (QnProps.v)
* `tolerance_not_transitive_refuted` (QnProps.v)
* `split_evolution_same_outputs_refuted` (EventProps.v)
* `numeric_cast_out_of_range_throws_refuted` (NumProps.v): ... but a value out of range is converted first, which is undefined.
* `numeric_cast_large_int_to_double_throws_refuted` (NumProps.v)
* `periodic_wrap_inside_refuted` (NumProps.v): ... which is outside: a coordinate just below 0 is put onto the upper wall.
* `choose_channel_empty_refuted` (NumProps.v): With no channel at all (total weight 0) the program aborts.
* `rotate_z_axis_to_direction_refuted` (VecProps.v): Not for every vector: for a short r along y the z axis is mapped onto the x axis.
* `pCM_zero_below_threshold_refuted` (KinProps.v): Below the threshold it is 0 only down to the difference of the masses; below that the function gives a momentum for a state that does not exist.
* `two_beams_s_Ekin_refuted` (KinProps.v): ... and wrong otherwise: the target mass is added to the kinetic energy of the projectile.
* `two_beams_s_plab_refuted` (KinProps.v): ... and not in general: momenta are passed on as masses.
* `less_equal_componentwise_refuted` (KinProps.v)
* `hubble_rate_refuted` (MotionProps.v)
* `wall_crossing_slow_refuted` (MotionProps.v)
* `hypersurface_frozen_fermi_refuted` (HyperProps.v): With frozen Fermi motion the crossing is looked for along the beam, but the position is computed with the particle's own velocity: it is not on the hypersurface.
* `hypersurface_early_start_refuted` (HyperProps.v): A step that starts long before t = 0 and ends after the crossing misses it.
* `unpolarized_spin_orthogonal_refuted` (FinalProps.v)
* `beam_energy_two_totals_refuted` (ColliderProps.v): Total energies of two beams: the nucleon-pair energy is computed as if they were kinetic.
* `beam_energy_two_kinetic_refuted` (ColliderProps.v): Kinetic energies of two beams: wrong for nuclei of different mass (a carbon nucleus hit by a proton, both at rest, is enough).
* `beam_energy_two_momenta_refuted` (ColliderProps.v)
* `beam_energy_below_mass_refuted` (ColliderProps.v): An energy below the mass is accepted: no momenta have it.
* `zero_kinetic_energy_refuted` (ColliderProps.v): Kinetic energy 0 is accepted, but then the projectile has no velocity and the start time (a division by it) does not exist.
* `split_join_refuted` (TextProps.v): C52 as stated is false at the ends of the list.
* `line_parser_empty_refuted` (TextProps.v): C51, last part, is false: a line that consists of a carriage return only (an empty line of a file with Windows line ends) is returned with an empty text. The loader of decay modes asserts the contrary (decaymodes.cc:228).
* `padding_too_wide_refuted` (TextMore.v): C81 is false for text that is wider than the width asked for: instead of returning it unchanged the three functions throw std::length_error.
* `remove_empty_refuted` (TextMore.v): ... but removing the empty string never ends.
* `isoclean_refuted` (TextMore.v): For bytes that are not UTF-8 a superscript can be left over.
* `interpolation_one_point_refuted` (InterpProps.v): A single point is accepted, but evaluating it reads outside the (empty) list of lines.
* `interpolation_rounding_refuted` (InterpProps.v): In double arithmetic the data need not be reproduced: through (1, 1) and (2, 2^60) the interpolation gives 0 instead of 1 at x = 1.
* `ic_file_refuted` (OutProps.v): The initial-conditions output writes 'p' blocks without event and ensemble number: read by the documented format, a file with one removed particle is not readable.
* `self_singlet_gluon_refuted` (StringColor.v): a gluon whose colour is its own anticolour cannot be placed
* `closest_resonance_refuted` (StringPick.v)
* `leading_pair_refuted` (StringLead.v): C86 is refuted for baryonic strings: if the proton is at the far end of the string, both ends are given to it, it is left with 1/3 and the pion at the near end with nothing.
* `rescaling_never_ends_refuted` (StringKin.v): C89 is refuted as a statement about termination: if the partons together are heavier than the initial energy, the loop never ends.
* `psort_zero_refuted` (PsortProps.v): C59 is refuted for k = 0, which the smoother asks for with two points: the index j wraps below zero and the array is read out of bounds.
* `negative_multiplicity_refuted` (BesselProps.v): C90 is refuted in part: a Gaussian draw below -1/2 makes a multiplicity negative.
* `bessel_ratio_refuted` (BesselProps.v): C90 is refuted for the Gaussian method: with 200 terms the continued fraction is far from its limit when the mean is large; for two Poisson means of 500000 (a = 10^6) the ratio is below 0.03 although it must lie above 0.99, and with it the mean multiplicity.
* `pauli_interpolation_refuted` (PauliProps.v): C58 is refuted: the weights of the two entries are swapped. One particle at the position itself gives the second entry of the table instead of the first.
* `short_tail_lost_refuted` (ListFileProps.v): C60: particles after the last event line that are at most four are never delivered: a file whose event lacks the leading comment is taken as empty.
* `blank_tail_event_refuted` (ListFileProps.v): C60: more than four blank lines at the end of a file are delivered as an event without particles.
* `s_wave_rejected_refuted` (DecayProps.v): C61: the smallest L is too large when the spin of the mother lies inside the range of the channel spins: a spin-3/2 resonance decaying to a spin-3/2 and a spin-1 particle.
* `third_daughter_spin_refuted` (DecayProps.v): C61: for three multiplets the spin of the third daughter is not looked at: a scalar mother and two scalar daughters with a vector in the middle pass with L = 2.
* `zero_ratios_refuted` (DecayProps.v): C61: branching ratios that add up to zero are not rejected; they become NaN.
* `multiplet_charge_refuted` (DecayProps.v)
* `soft_particles_meet_refuted` (CollideProps.v): If they hardly move relative to each other, -1 is returned; with "hardly" measured by the product of the energies and the velocity difference, this also happens to soft, light particles: two photons of 10 MeV that fly at each other head on and meet after 1 fm get no collision time.
* `covariant_equal_momenta_refuted` (CollideProps.v): The covariant formula tests the difference of the momenta in the computational frame, not whether the two move relative to each other: a massless particle right behind a particle of mass 4 GeV with the same three-momentum catches up with it (the closest distance is 0) but 1 fm^2 is returned. In a frame that moves sideways or along, the result for the same pair is different.
* `above_maximum_dropped_refuted` (CollideFind.v): With a cross section above the configured maximum a pair can overlap and yet be dropped.
* `stochastic_zero_cross_section_refuted` (CollideFind.v): The draw may be 0, so that a pair without any cross section is taken to collide.
* `frozen_fermi_distance_refuted` (CollideFind.v): The distance, however, is that of trajectories with the particles' own momenta: two nucleons that the beams carry through the same point at the collision time are taken to pass at a distance of 2 fm.
* `dilepton_width_at_pole_refuted` (WidthProps.v): The width of a decay into a lepton pair is not the one given at the pole mass: for muons (mass 0.1, mother 0.5) 1 GeV becomes less than 0.991 GeV. (The width from the literature used here is normalised for massless leptons.)
* `final_decays_abort_refuted` (DecayFindProps.v): Without an open mode the final decays abort the program: unlike the search during the evolution, the one at the end does not check that the total width is positive. A Delta with mass 1 GeV, below its threshold of 1.076 GeV (a list of particles read from a file may contain one), is left alone during the evolution and brings the program down at the end of the event.
* `landau_frame_refuted` (TensorProps.v)
* `shining_of_unformed_refuted` (DileptonProps.v)
* `unforced_shines_twice_refuted` (DileptonProps.v): Without forced decays at the end a resonance left over shines twice: once in the single pass of the loop and again when the particles left at the end shine.
* `boost_adds_beam_momentum_refuted` (NucleusProps.v): The comment in the code announces p' = p_beam + gamma p_F. A particle with Fermi momentum gets more.
* `negative_number_refuted` (NucleusProps.v): A negative number of nucleons of a species is accepted and never stops adding particles.
* `sampled_radius_is_finite_refuted` (WoodsSaxon.v): The draws can be 0: then the nucleon is accepted at an infinite radius.
* `last_line_without_newline_refuted` (NucleusFile.v): Without a newline after the last line the file is read as if its last line were missing (unless it is the only one): the line is read, but the end of the file met while doing so makes the first line take its place.
* `incomplete_last_nucleus_refuted` (NucleusFile.v): If the number of lines is not a multiple of the mass number, the file is accepted all the same, and nucleons of two nuclei of the file are put together.
* `five_pions_without_protons_refuted` (MultiProps.v): Five pions may annihilate with a particle list without protons: the code means to check that the proton type exists (`if (type_p && type_n)`), but dereferences it before.
* `cell_choice_zero_refuted` (ThermProps.v): A uniform draw between 0 and the sum may be 0; then index -1 is used. The same happens for every draw when no species of the wanted kind is present: the sum is then 0.
* `bf_negative_pair_refuted` (ThermProps.v): Without the requirement on the number drawn: a Bessel pair with a negative entry (negative_multiplicity_refuted) leaves fewer particles than asked for, and the totals are wrong.
* `renormalize_heavy_refuted` (ThermProps.v): When the sampled particles are heavier than the required invariant mass - nothing in the sampling prevents it - the energy returned exceeds the required one, whatever the momenta; the loop ends without a message.
* `first_time_skipped_refuted` (ThermProps.v): A step beginning exactly at the start time is skipped; the thermalization of the first period does then not take place, when the next step begins a whole step later.
* `unphysical_breakup_refuted` (XsProps.v): Nothing rejects a code of a nucleus with more protons and Lambdas than its mass number (here A = 3, Z = 2, L = 2): the number of neutrons is negative, only the first three of the four components are produced, and a Lambda is lost.
* `nuclear_excitation_strangeness_refuted` (XsProps.v): With nuclei of equal charge and mass number in the particle list the third conservation law fails: nucleon + triton -> nucleon + hypertriton is offered, although the code only means excitations of the same nucleus; the corresponding function for the cross section asserts the deuteron and d' in debug builds only.
* `high_energy_conj_refuted` (XsSym.v): The high-energy total is not invariant: pi+ p and pi- n use the pi+ p fit, their conjugates pi- pbar and pi+ nbar fall through to the pi- p fit.
* `string_mirror_refuted` (XsSym.v): The transition to strings is not mirror symmetric: the energy offset for kaons is used for K+ p and K0 p, the mirror images K0 n and K+ n have the ordinary one.
* `kaon_delta_cutoff_refuted` (XsBal.v): Above the cutoff only the inverse reaction K Delta -> K N is left: detailed balance is broken whatever the value of the cutoff.
* `string_excitation_refuted` (XsBal.v): Without single diffraction the split divides by zero: the weights are not numbers.
* `transition_width_refuted` (XsBal.v): Equal ends of the transition region are not excluded: exactly on them the probability is the quotient 0/0.
* `incomplete_multiplet_loop_refuted` (CgProps.v): The isospin of a species is taken from the number of states its multiplet has in the particles file. A file that lists only three of the four Delta states - which nothing rejects - gives Delta+ the isospin 1, and the loop over the total isospins of Delta+ p then steps over its end value and never ends (int overflow after 2^30 iterations).
* `opening_step_refuted` (FluidProps.v): The step in which the window opens: the finder already acts - even before min_time - but the lattice is only filled if the step STARTS within the window. In every event but the first it then still holds the densities of the end of the previous event.
* `resonance_counted_twice_refuted` (FluidEnd.v): With decays forced at the end (the default) and no core, a resonance of the corona is found twice: to decay, and to be moved back. The added copy comes first in time; the decay and the removal are simultaneous, and the queue may hand out the decay first - it does for this event of one stable particle and one resonance: then both the daughters and the copy of their mother are in the final state.
* `moved_forward_refuted` (FluidEnd.v): A particle whose last interaction is less than 0.01 fm ago is moved to a time AFTER the end of the event.
* `weight_lost_refuted` (FluidEnd.v): The copy does not carry the perturbative weight of heavy-flavour particles over.
* `maximum_exceeded_refuted` (RunProps.v): "Maximum number of ensembles run" can be exceeded: whole events are run.
* `no_collider_all_empty_refuted` (RunProps.v): Without a collider every ensemble counts as empty, whatever happens in it.
* `warning_overflow_refuted` (RunProps.v): Close to the end of the int range the final warning multiplies two ints that do not fit.
* `box_jet_centre_refuted` (InitProps.v): The jet is announced for the centre of the box but is placed in its corner.
* `thermal_quantum_refuted` (InitProps.v): Thermal multiplicities cannot be combined with the quantum distributions, although the configuration accepts it: the table of chemical potentials is built from the configured multiplicities, which are empty then, and the lookup dereferences the end of the table.
* `flow_total_refuted` (InitProps.v): "Make total 3-momentum in sphere 0": with radial flow two pions with momentum 1/2 GeV along the first axis end with total momentum -1 GeV.
* `unit_flow_refuted` (InitProps.v): The largest radial velocity that is accepted, 1, stops the run with an exception as soon as a particle has a momentum and the velocity does not depend on the radius.
* `centre_flow_refuted` (InitProps.v): A particle placed exactly at the centre, which the generator allows, has no radial direction: with radial flow its momentum is undefined.
* `jet_reference_refuted` (InitProps.v): With spin interactions on, the second jet can make the array of particles move while a reference to the first one is still used: 98 particles already there are enough.
* `heavy_refuted` (DistMore.v): A particle heavier than fifty times the temperature has no admissible range of momenta: the square root of a negative number makes every momentum undefined.
* `massive_envelope_refuted` (DistMore.v): For massive particles the envelope of the first of these distributions can be negative (whatever the ratio of the Bessel functions, if only the average energy exceeds the mass) while the density is positive elsewhere: with mass 5T it is not an upper bound.
* `small_buffer_refuted` (PrintfProps.v): The buffers are one character too small for a negative number with a three-digit exponent: the assertion fails, and without assertions the last digit of the exponent is lost (-1.23457e-100 would appear as -1.23457e-10).
* `documented_end_refuted` (OscarProps.v): The documented line at the end of an event says "empty yes_or_no" with "no" if projectile and target interacted (oscaroutput.cc:417-432); the line that is written has another keyword, and "yes" in that case.
* `dilepton_header_refuted` (OscarProps.v): The header of an OSCAR1999 file of dileptons (and of photons) announces blocks "nin nout event_number ensemble_number", but its blocks are "nin nout density tot_weight part_weight proc_type".
* `empty_lists_refuted` (OscarProps.v): In OSCAR1999 an empty list at the start and an empty list at the end are the same line, which is also the first line of an event with initial conditions.
* `mixture_derivative_refuted` (DensMore.v): In a mixture of matter and antimatter the density is not the length of the net current, and the derivative that is used is another number: matter at rest, 3, and antimatter moving, -(5/4, 0, 0, 3/4) (length 1), so the density is 3 - 1 = 2. If only the matter becomes denser, with derivative 1, the density has derivative 1; the code finds 7/8.
* `skyrme_antimatter_refuted` (PotProps.v): In antimatter the force has the opposite sign: the derivative of an odd function is even, but the code multiplies it by the sign of the density. An antibaryon in antimatter is pushed where a baryon in matter is pulled, although both have the same potential energy.
* `symmetry_undefined_refuted` (PotProps.v): If the dependence on the baryon density is switched on the symmetry potential is not a number at every point without baryons and everywhere in antimatter.
* `vdf_antimatter_refuted` (PotProps.v): In antimatter the two ways to compute the force differ, and the field itself has the wrong sign: it does not change when particles and antiparticles are exchanged, although the baryon number on which it acts does.
* `quark_fraction_refuted` (PotForce.v): The same is not true for hypernuclei and charmed baryons: the hypertriton (9 quarks, 8 of them light) feels 2 instead of 8/3 times the potential, a charmed baryon with two light quarks the whole potential.
* `antibaryon_symmetry_refuted` (PotForce.v): In the symmetry potential it has the same energy: isospin and baryon number both change their sign. An antineutron in neutron matter is repelled like a neutron.
* `momentum_antimatter_refuted` (PotMom.v): The momentum-dependent potential does not know antimatter: the current enters through its length, and at rest with no other sign. The energy of a particle is the same in antimatter and matter at rest, but the force is multiplied by the baryon number, so that antibaryons in antimatter are pushed where baryons in matter are pulled.
* `coulomb_needs_lattice_refuted` (PotMove.v): With the Coulomb potential on and no lattice for its fields, the null pointer is used for the first particle made of baryons.
* `coulomb_law_refuted` (PotMove.v)
* `charged_mesons_refuted` (PotMove.v): Charged mesons and leptons do not feel the fields they make.
* `deformed_tail_refuted` (GeomNucleus.v): The largest radius that is sampled is radius / diffusiveness + radius * diffusiveness, whatever the deformation is: with a radius of 2 fm and a diffusiveness of 1 fm no nucleon is placed farther than 4 fm from the centre although the density there is at least a tenth of that at saturation.
* `cluster_index_refuted` (GeomNucleus.v): The index of the next cluster is an int that is incremented for every nucleon and never reset: a run in which one nucleus receives 2^31 nucleons (2^27 events without test particles) overflows it.
* `negative_impact_refuted` (GeomImpact.v): A negative value is accepted and changes its sign.
* `flat_maximum_refuted` (GeomImpact.v): When two neighbouring values share the largest yield, every draw between them has the probability 1 and fails the assertion that the probability is less than 1: a flat spectrum aborts in every event.
* `range_beyond_values_refuted` (GeomImpact.v): A range beyond the given values extrapolates the yields; with yields that rise to the end the assertion fails there.
* `single_value_refuted` (GeomImpact.v): A single value is accepted, and the first event reads past the end of the interpolation.
* `equivalent_momentum_refuted` (ScatTransfer.v): The comment in the code: for other pairs s is chosen such that two nucleons have the original centre-of-mass momentum. It is not: the code takes 4 sqrt(p^2 + m^2) instead of 4 (p^2 + m^2).
* `threshold_terminates_refuted` (ScatTransfer.v): Every collision ends: not so at the threshold, where the range of t is a single point; no number is accepted there, whatever is drawn.
* `slope_continuous_refuted` (ScatTransfer.v): The parametrised slope does not jump: not so at 0.6 GeV for proton and neutron.
* `last_try_counts_refuted` (ScatFinal.v): The process that succeeds is kept, as long as one of the 10000 tries succeeds: not so, the outcome of the last one is thrown away.
* `resonance_inherits_spin_refuted` (ScatFinal.v): A Sigma* formed from a Lambda and a pion carries the spin of the Lambda (comment in the code): not so, the spins of the incoming particles have no influence on it.
* `resonance_spin_orthogonal_refuted` (ScatFinal.v): The spin of a resonance is orthogonal to its momentum: not so if it moves, the spin is set in its rest frame and not boosted.
* `elastic_spin_orthogonal_refuted` (ScatFinal.v): The spin stays orthogonal to the momentum in elastic scattering: not so, it is boosted again with the new momentum.
* `reported_total_refuted` (ScatAction.v): Finding: the total weight written to the output is the cross section of the collision: not so with a parametrised total, it is the sum of the processes before they were rescaled, while the partial weights are those after.
* `photon_transfer_refuted` (PhotonBrems.v): The t of the final state is not the one drawn when the collision is along x instead of z: two particles of mass 4 and momenta +-3 along x, a hadron of mass 6. The smallest t is drawn; the momentum transfer is far from it.
* `brems_momentum_is_k_refuted` (PhotonBrems.v): The photon does not have the momentum k that was drawn (and for which the differential cross section is looked up): the pion pair is given the energy that is left as its mass, so the photon has k - k^2 / (2 sqrt(s)).
* `brems_yield_refuted` (PhotonWeight.v): ... but in general they do not, because the geometric mean of the two estimates is used: for a cross section that is flat in theta and rises with the square of k - k_min, both integrating to sigma, the mean total weight is sqrt(3)/2 of the ratio.
* `brems_opposite_yield_refuted` (PhotonWeight.v): A pi+ pi- pair has two final states. One of them is chosen with its share of the cross section, and the weight is then made from the cross section of this one alone: on average (s1^2 + s2^2) / (s1 + s2), less than the sum s1 + s2.
* `form_factor_at_most_one_refuted` (PhotonForm.v): so the form factor is above 1 for photons of high energy, although it describes a suppression
* `photon_weight_invariant_refuted` (PhotonForm.v): The weight of a photon depends on the frame: in two frames that differ by a boost along z, with the same random numbers, the same cross sections and the same masses, the photon has different weights. The form factor is evaluated at the energy the photon has in the frame of the computation.
* `neutron_code_refuted` (HepmcMore.v): A single neutron does not get its own code: the test is for one charge and no nucleon (hepmcinterface.cc:266), so a neutron beam is recorded as a nucleus of one neutron, 1000000010.
* `final_marks_initial_refuted` (HepmcMore.v): In modi without colliding nuclei a record of the final state marks the initial particles as final too (hepmcinterface.cc:114): a reader who selects final particles gets both.
* `final_has_no_end_refuted` (HepmcMore.v): In the same modi a full record has final particles that enter a vertex: the initial particles that never interact enter the interaction point.
* `final_momentum_refuted` (HepmcMore.v): The full record does not see what happens to a particle between interactions: with potentials the momentum of a final particle is the one of its last interaction, not the one it has.
* `record_mass_refuted` (HepmcMore.v): The mass written with a particle is the pole mass of its species, so that of a resonance is not the one its momentum has.
* `every_particle_written_refuted` (RootProps.v): No list with more particles than the buffer holds is written completely: the particle that finds the buffer full is not stored after the buffer is emptied (rootoutput.cc:510-526), contrary to rootoutput.h:145-148.
* `initial_conditions_impact_refuted` (RootProps.v): The initial conditions of an event carry the impact parameter of the event before it: it is set at the end of an event only (rootoutput.cc:450).
* `block_number_of_ensembles_refuted` (RootProps.v): With several ensembles the number of an output block differs between the ensembles for the same time: one counter serves them all and every ensemble's start sets it to zero.
* `ic_same_time_refuted` (IcProps.v): C129: the proper times of the listed particles need not agree: one that is earlier by any amount is accepted, because the difference is compared with 1e-6 without taking its absolute value.
* `ic_events_independent_refuted` (IcProps.v): C129: an event is not judged by itself: two events, each accepted alone, are refused one after the other, because the reference proper time of the first event is kept.
* `ic_spectators_ignored_refuted` (IcProps.v): C129: a spectator, which is not listed, still sets the reference: without it the run is accepted, with it refused.

Observations from reading the code that are not stated as theorems:

* `find_excess` indexes its arrays by flavour and would be out of bounds for top quarks.
* `compose_string_junction` has no bound on its search loop.
* `ToASCII::as_double` uses a 13-byte buffer, too small for a negative number with a
  three-digit exponent under `%g`.
* The decay file may start with a mode line; then the pointer to the mother is null when its
  spin is asked for.
* `experiment.h`: `beam_momentum_` is only appended to, never cleared between events.
* `IsoParticleType::anti_multiplet` compares a state's name with a multiplet's name.
* `dynamicfluidfinder.cc`: the counters of particles and energy in the core are never reset
  between events.
* A `FreeforallAction` has no incoming particles; with density output its interaction point is
  an average over none of them (0/0, action.cc:79).
* The formation time chosen by the finder for a corona copy is overwritten when the action is
  performed.
