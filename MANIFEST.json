{
 "claims": [
  {
   "property": "C01",
   "status": "proved",
   "theorems": [
    "C01_split_loop_tiles",
    "C01_split_loop_unique_owner",
    "C01_split_loop_within",
    "C01_split_loop_balanced"
   ],
   "note": ""
  },
  {
   "property": "C02",
   "status": "proved",
   "theorems": [
    "C02_multidef_total",
    "C02_multidef_monotone",
    "C02_multidef_balanced",
    "C02_multidef_zero_refuted"
   ],
   "note": "proved for 1<=N<=size; N=0 passes the code's check and divides by zero (refuted boundary)."
  },
  {
   "property": "C03",
   "status": "proved",
   "theorems": [
    "C03_seed_iff_same_group",
    "C03_full_group_size"
   ],
   "note": ""
  },
  {
   "property": "C04",
   "status": "proved",
   "theorems": [
    "C04_make_counts_spec",
    "C04_hop_update_is_recount"
   ],
   "note": ""
  },
  {
   "property": "C05",
   "status": "proved",
   "theorems": [
    "C05_spin_hop_update_is_recount"
   ],
   "note": ""
  },
  {
   "property": "C06",
   "status": "proved",
   "theorems": [
    "C06_exchange_update_is_recount"
   ],
   "note": ""
  },
  {
   "property": "C07",
   "status": "proved",
   "theorems": [
    "C07_cells_fill_exactly"
   ],
   "note": ""
  },
  {
   "property": "C08",
   "status": "proved",
   "theorems": [
    "C08_wave_function_scaled",
    "C08_ratios_unchanged",
    "C08_shifted_factors_centred"
   ],
   "note": ""
  },
  {
   "property": "C09",
   "status": "proved",
   "theorems": [
    "C09_fixed_factor_unchanged",
    "C09_shift_flags_exact",
    "C09_fixed_gutzwiller_stops_all",
    "C09_fixed_family_unchanged"
   ],
   "note": ""
  },
  {
   "property": "C10",
   "status": "proved",
   "theorems": [
    "C10_amplitudes_rescaled",
    "C10_transformation_weights_rescaled"
   ],
   "note": ""
  },
  {
   "property": "C11",
   "status": "partial",
   "theorems": [
    "C11_tables_consistent",
    "C11_tables_consistent_fsz",
    "C11_no_undefined",
    "C11_no_undefined_fsz",
    "C11_sz_conserved_path3_refuted"
   ],
   "note": "Consistency of the tables in all runs; conservation of the spin numbers in all runs except 2Sz given with NExUpdatePath=3, where the code violates it (refuted theorem with a run)."
  },
  {
   "property": "C12",
   "status": "proved",
   "theorems": [
    "C12_rejected_step",
    "C12_rejected_step_fsz",
    "C12_revert_hop",
    "C12_revert_exchange",
    "C12_revert_hop_fsz"
   ],
   "note": ""
  },
  {
   "property": "C13",
   "status": "proved",
   "theorems": [
    "C13_local_spins_single",
    "C13_local_spins_single_fsz",
    "C13_initial_sample"
   ],
   "note": ""
  },
  {
   "property": "C14",
   "status": "proved",
   "theorems": [
    "C14_counters_current",
    "C14_counters_current_fsz"
   ],
   "note": ""
  },
  {
   "property": "C15",
   "status": "proved",
   "theorems": [
    "C15_exchange_exists",
    "C15_exchange_legal",
    "C15_exchange_exists_fsz",
    "C15_exchange_legal_fsz"
   ],
   "note": ""
  },
  {
   "property": "C16",
   "status": "proved",
   "theorems": [
    "C16_slots",
    "C16_slots_fsz"
   ],
   "note": ""
  },
  {
   "property": "C17",
   "status": "partial",
   "theorems": [
    "C17_lockstep",
    "C17_lockstep_fsz",
    "C17_as_single",
    "C17_as_single_fsz",
    "C17_singular_refuted"
   ],
   "note": "Lockstep proved for all groups; equality with a single process proved when no projection is singular where matrices are recomputed; without this the claim is false (refuted theorem with a run)."
  },
  {
   "property": "C18",
   "status": "partial",
   "theorems": [
    "C18_from_scratch",
    "C18_hop",
    "C18_move_partial",
    "C18_flip_refuted",
    "C18_hop_is_recomputation"
   ],
   "note": "Proved for all moves except a spin flip on one site with visible weights per site and spin, where the code is wrong (refuted theorem)."
  },
  {
   "property": "C19",
   "status": "proved",
   "theorems": [
    "C19_antisymmetric",
    "C19_values",
    "C19_green1"
   ],
   "note": "For projected pair wave functions with correlation factors and optional machine factor that does not vanish; real arithmetic; sampled configuration with non-zero amplitude."
  },
  {
   "property": "C20",
   "status": "proved",
   "theorems": [
    "C20_commutator",
    "C20_green2"
   ],
   "note": "As C19, for every coincidence of the four spin-orbitals."
  },
  {
   "property": "C21",
   "status": "partial",
   "theorems": [
    "C21_reduction_partial",
    "C21_short",
    "C21_kernel_refuted"
   ],
   "note": "Reduction and restoring proved for strings of every length, with the routine for the Pfaffian of the moved configuration as a hypothesis (not needed for one and two bilinears); the routine in the code is wrong for three bilinears (refuted theorem)."
  },
  {
   "property": "C22",
   "status": "proved",
   "theorems": [
    "C22_one_electron_update",
    "C22_any_sequence",
    "C22_from_scratch",
    "C22_recompute_agrees",
    "C22_singular_projection_refuted"
   ],
   "note": "proved for every sequence of accepted moves through configurations without vanishing Pfaffians, as quantified; a projection whose Pfaffian vanishes while the total does not is accepted by the code and divides by zero (refuted boundary)."
  },
  {
   "property": "C23",
   "status": "proved",
   "theorems": [
    "C23_two_electron_update",
    "C23_any_sequence"
   ],
   "note": ""
  },
  {
   "property": "C24",
   "status": "proved",
   "theorems": [
    "C24_one_electron_pfaffian",
    "C24_two_electron_pfaffian"
   ],
   "note": ""
  },
  {
   "property": "C25",
   "status": "proved",
   "theorems": [
    "C25_elements",
    "C25_skew"
   ],
   "note": ""
  },
  {
   "property": "C26",
   "status": "proved",
   "theorems": [
    "C26_slater_derivative",
    "C26_other_slots"
   ],
   "note": ""
  },
  {
   "property": "C27",
   "status": "proved",
   "theorems": [
    "C27_numbering",
    "C27_weights",
    "C27_amplitude",
    "C27_legendre"
   ],
   "note": ""
  },
  {
   "property": "C28",
   "status": "proved",
   "theorems": [
    "C28_integer_tables_tile",
    "C28_double_tables_tile",
    "C28_walker_tile",
    "C28_projection_tile",
    "C28_sr_tile",
    "C28_green_tile",
    "C28_lanczos_tile",
    "C28_cg_tile",
    "C28_backflow_refuted"
   ],
   "note": "proved for all sizes without backflow, as quantified; with backflow the allocation is too small (refuted theorem)."
  },
  {
   "property": "C29",
   "status": "partial",
   "theorems": [
    "C29_pointers_tile",
    "C29_input_tile",
    "C29_output_same_places",
    "C29_init_file_same_places",
    "C29_flags_same_places_partial",
    "C29_flags_same_places_refuted"
   ],
   "note": ""
  },
  {
   "property": "C30",
   "status": "partial",
   "theorems": [
    "C30_careful_blocks_safe",
    "C30_callers_fit",
    "C30_callers_safe",
    "C30_calHCACA2_refuted",
    "C30_pfMN_child_refuted"
   ],
   "note": ""
  },
  {
   "property": "C31",
   "status": "proved",
   "theorems": [
    "C31_chunks_tile",
    "C31_allreduce_complete",
    "C31_bcast_complete",
    "C31_chunks_overflow_refuted"
   ],
   "note": "proved for all lengths up to INT_MAX-2^20+1; above that the int addition overflows (refuted boundary)."
  },
  {
   "property": "C32",
   "status": "proved",
   "theorems": [
    "C32_averages_over_all_samples",
    "C32_observables_over_all_samples"
   ],
   "note": ""
  },
  {
   "property": "C33",
   "status": "partial",
   "theorems": [
    "C33_store_equals_direct_partial",
    "C33_second_process_refuted",
    "C33_skipped_sample_refuted"
   ],
   "note": "Proved for a process whose samples start at 0 with none skipped; for the other processes and for skipped samples the claim is false (two refuted theorems)."
  },
  {
   "property": "C34",
   "status": "proved",
   "theorems": [
    "C34_selection_partition",
    "C34_update_selected_only"
   ],
   "note": ""
  },
  {
   "property": "C35",
   "status": "proved",
   "theorems": [
    "C35_assembled_is_covariance",
    "C35_covariance_matrix_psd",
    "C35_diagonal"
   ],
   "note": ""
  },
  {
   "property": "C36",
   "status": "partial",
   "theorems": [
    "C36_operator_is_covariance_partial",
    "C36_group_of_two_refuted"
   ],
   "note": "Proved for groups of one process with no skipped samples and weight 1 (the code's weight); for a group of two processes the claim is false (refuted theorem)."
  },
  {
   "property": "C37",
   "status": "partial",
   "theorems": [
    "C37_single_file",
    "C37_family_files",
    "C37_one_step_refuted",
    "C37_few_steps_refuted"
   ],
   "note": "Proved for at least two averaged steps, not more than steps taken, for the single file and for the files of the families; with one averaged step, or more averaged steps than steps, the claim is false (refuted theorems). Backflow parameters are not written by the code and not covered."
  },
  {
   "property": "C38",
   "status": "proved",
   "theorems": [
    "C38_last_steps_recorded",
    "C38_mean_and_deviation"
   ],
   "note": ""
  },
  {
   "property": "C39",
   "status": "partial",
   "theorems": [
    "C39_minimum",
    "C39_minimum_real",
    "C39_reported_partial",
    "C39_degenerate_refuted",
    "C39_real_failure_refuted"
   ],
   "note": "Whenever a mixing is reported it is the global minimiser and the energy and variance belong to it (both modes); reported whenever there are two different stationary energies and the norm passes the code's threshold. When the quadratic equation degenerates the code divides by zero although a minimum exists, and the real version ignores the failure return (refuted boundaries)."
  },
  {
   "property": "C40",
   "status": "partial",
   "theorems": [
    "C40_numbering",
    "C40_direct",
    "C40_repeated_refuted"
   ],
   "note": "Both readers of the request files. With exchange-type two-body operators the claim holds for all files with sites and spins in range, duplicates included; without them and in Lanczos mode it holds for files without repeated lines, and a repeated line makes the reader write beyond the table (refuted theorem)."
  },
  {
   "property": "C41",
   "status": "proved",
   "theorems": [
    "C41_accepted",
    "C41_names",
    "C41_ends",
    "C41_missing_name_refuted",
    "C41_blank_line_refuted",
    "C41_long_line_refuted"
   ],
   "note": "Proved for all files whose lines fit into the 256-byte buffer: accepted only with known keywords used once; exact acceptance for files of comments, empty lines and pairs. Missing file names, blank lines, words of 200 characters and longer lines are mishandled (refuted boundaries)."
  },
  {
   "property": "C42",
   "status": "proved",
   "theorems": [
    "C42_initial_state",
    "C42_recurrence",
    "C42_versions_agree",
    "C42_reals",
    "C42_not_stuck"
   ],
   "note": ""
  },
  {
   "property": "C43",
   "status": "proved",
   "theorems": [
    "C43_hopping_in_range",
    "C43_proposals_in_range_fsz",
    "C43_draws_in_range",
    "C43_spin_in_range"
   ],
   "note": ""
  },
  {
   "property": "C44",
   "status": "partial",
   "theorems": [
    "C44_completes_iff_feasible",
    "C44_completes_iff_feasible_fsz",
    "C44_accepted_but_endless_refuted"
   ],
   "note": "Completion is proved equivalent to the existence of a configuration; the reader accepts inputs without one (refuted theorem)."
  },
  {
   "property": "C45",
   "status": "partial",
   "theorems": [
    "C45_flags_partial",
    "C45_imaginary_refuted",
    "C45_parallel_refuted",
    "C45_order_refuted",
    "C45_trans_refuted"
   ],
   "note": "Real parts: every parameter has the flag of its line; imaginary parts only in families declared complex. False otherwise: unset imaginary flags, parallel orbitals, line order, OptTrans (refuted theorems)."
  },
  {
   "property": "C46",
   "status": "proved",
   "theorems": [
    "C46_dh2_iterations_disjoint",
    "C46_dh4_iterations_disjoint"
   ],
   "note": ""
  },
  {
   "property": "C47",
   "status": "proved",
   "theorems": [
    "C47_processes_agree",
    "C47_idempotent"
   ],
   "note": ""
  },
  {
   "property": "C48",
   "status": "proved",
   "theorems": [
    "C48_residual_exact",
    "C48_converges",
    "C48_parameter_change_solves"
   ],
   "note": ""
  },
  {
   "property": "C49",
   "status": "proved",
   "theorems": [
    "C49_block_cyclic_bijection",
    "C49_distributed_entries",
    "C49_gather_restores"
   ],
   "note": ""
  },
  {
   "property": "C50",
   "status": "partial",
   "theorems": [
    "C50_parallel_update_partial",
    "C50_both_components_refuted"
   ],
   "note": "Proved when no parameter has both components selected; otherwise a schedule loses an update (refuted theorem)."
  },
  {
   "property": "C51",
   "status": "partial",
   "theorems": [
    "C51_values_partial",
    "C51_slots_refuted"
   ],
   "note": ""
  },
  {
   "property": "C52",
   "status": "partial",
   "theorems": [
    "C52_ratio",
    "C52_log_ratio",
    "C52_weight",
    "C52_same_branch_refuted"
   ],
   "note": "Values proved for all thread counts and block sizes under the static schedule; the threads can meet different worksharing loops, which OpenMP does not allow (refuted theorem)."
  },
  {
   "property": "C53",
   "status": "partial",
   "theorems": [
    "C53_derivatives_partial",
    "C53_no_bias_refuted"
   ],
   "note": "Proved for machines whose neuron families have bias and coupling tables; without a bias table the code adds to a wrong slot (refuted theorem)."
  },
  {
   "property": "C54",
   "status": "partial",
   "theorems": [
    "C54_one_body_real",
    "C54_two_body_real",
    "C54_one_body_conjugate_partial",
    "C54_two_body_partial",
    "C54_one_body_refuted",
    "C54_two_body_refuted"
   ],
   "note": "Proved in real mode. In complex mode the one-body values are the complex conjugates, and the two-body values are wrong when the local energy is complex (refuted with samples)."
  },
  {
   "property": "C55",
   "status": "partial",
   "theorems": [
    "C55_applied",
    "C55_rejected_partial",
    "C55_ignored_refuted",
    "C55_missing_lines_refuted",
    "C55_other_refuted"
   ],
   "note": "Files that fit are applied exactly; a wrong number in a header stops the run if no other input file follows; otherwise, and for missing lines, odd numbers of parallel orbitals and files cut short, the claim is false (refuted theorems)."
  },
  {
   "property": "C56",
   "status": "partial",
   "theorems": [
    "C56_general_antisymmetric",
    "C56_both_antisymmetric",
    "C56_general_values",
    "C56_both_values",
    "C56_sites",
    "C56_site_pairs",
    "C56_repeated_refuted",
    "C56_parameter_refuted",
    "C56_outside_refuted",
    "C56_jastrow_refuted"
   ],
   "note": "Antisymmetry for all files and values for files without repeated pairs proved; repeated pairs, unknown parameters, unknown spins and asymmetric Jastrow tables are accepted or written outside (refuted theorems)."
  },
  {
   "property": "C57",
   "status": "partial",
   "theorems": [
    "C57_numbers_partial",
    "C57_word_refuted"
   ],
   "note": "Files of numbers are read to the end; a word among the flags loops forever (refuted theorem)."
  },
  {
   "property": "C58",
   "status": "proved",
   "theorems": [
    "C58_groups_differ",
    "C58_group_same"
   ],
   "note": ""
  },
  {
   "property": "C59",
   "status": "partial",
   "theorems": [
    "C59_energy",
    "C59_diagonal",
    "C59_double_occupation",
    "C59_anticommutation",
    "C59_spins_ignored",
    "C59_spin_flip_refuted"
   ],
   "note": "Proved for definition files whose bilinears keep the spin (one- and two-body terms of all seven kinds, with correlation factors and machine). For lines that change spins the program uses the annihilators' spins for the creators; a line of the manual's own example gets a wrong value (refuted theorem)."
  },
  {
   "property": "C60",
   "status": "partial",
   "theorems": [
    "C60_hopping",
    "C60_square_partial",
    "C60_cisajs_partial",
    "C60_machine_refuted"
   ],
   "note": "Complete for Hamiltonians of number operators and hopping (C60_hopping, machine allowed). With two-body terms C60_square_partial assumes no machine and a correct low-rank Pfaffian routine (see C21); C60_machine_refuted shows the machine case reads uninitialised counters."
  },
  {
   "property": "C61",
   "status": "proved",
   "theorems": [
    "C61_elements",
    "C61_skew",
    "C61_one_electron_ratio",
    "C61_two_electron_ratio",
    "C61_any_sequence",
    "C61_from_scratch"
   ],
   "note": ""
  },
  {
   "property": "C62",
   "status": "proved",
   "theorems": [
    "C62_overlap",
    "C62_derivatives",
    "C62_other_slots"
   ],
   "note": ""
  },
  {
   "property": "C63",
   "status": "proved",
   "theorems": [
    "C63_antisymmetric",
    "C63_commutator",
    "C63_one",
    "C63_one_flip",
    "C63_two",
    "C63_two_flip"
   ],
   "note": ""
  },
  {
   "property": "C64",
   "status": "partial",
   "theorems": [
    "C64_energy",
    "C64_diagonal",
    "C64_twice_sz",
    "C64_sz_refuted"
   ],
   "note": "Energy and diagonal part proved for all spins and schedules. The value printed as S^z is exactly twice S^z (C64_twice_sz), so that clause is refuted."
  },
  {
   "property": "C65",
   "status": "partial",
   "theorems": [
    "C65_measured",
    "C65_spins_ignored",
    "C65_flip_refuted",
    "C65_fsz_partial",
    "C65_race_refuted"
   ],
   "note": "Fixed spins: proved for requests that keep spins in every interleaving; other rows measure a different operator (refuted). General spins: proved for all requests when iterations of different threads do not overlap; with overlap the shared variables t, u, v give wrong values (refuted)."
  },
  {
   "property": "C66",
   "status": "partial",
   "theorems": [
    "C66_system",
    "C66_same_system",
    "C66_imaginary_parts_kept",
    "C66_same_choice_refuted",
    "C66_cg_partial",
    "C66_cg_choice_partial",
    "C66_cg_update",
    "C66_store_partial"
   ],
   "note": "System, imaginary parts and update proved for all divisions of the samples. Conjugate gradients and stored derivatives under the conditions of C36/C33 (one process per group, no skipped sample, weight 1), outside which the complex code is refuted too. Equal choice of parameters in real and complex runs is refuted."
  },
  {
   "property": "C67",
   "status": "proved",
   "theorems": [
    "C67_weight",
    "C67_weight_fsz",
    "C67_decision",
    "C67_decision_fsz",
    "C67_share"
   ],
   "note": ""
  },
  {
   "property": "C68",
   "status": "partial",
   "theorems": [
    "C68_balance",
    "C68_balance_fsz",
    "C68_near_balance",
    "C68_near_balance_fsz",
    "C68_stationary",
    "C68_stationary_fsz",
    "C68_near_stationary",
    "C68_near_stationary_fsz",
    "C68_balance_refuted"
   ],
   "note": "Detailed balance and stationarity proved for all inputs and streams: exactly when the number of sites divides 2^32, within an explicit bound otherwise. The exact statement without that condition is refuted on three sites."
  },
  {
   "property": "C69",
   "status": "partial",
   "theorems": [
    "C69_selected",
    "C69_green1",
    "C69_green2",
    "C69_energy",
    "C69_weight",
    "C69_update",
    "C69_update_two",
    "C69_table_skew",
    "C69_shadow",
    "C69_machine_refuted",
    "C69_momentum_refuted",
    "C69_hopping_refuted"
   ],
   "note": "Proved for all wave functions with real parameters and no machine; for any other the values are proved to be those of its real part without machine, so machines, complex momentum weights and complex hopping amplitudes are refuted."
  },
  {
   "property": "C70",
   "status": "proved",
   "theorems": [
    "C70_pfaffian",
    "C70_inverse",
    "C70_singular",
    "C70_frame",
    "C70_tables"
   ],
   "note": "Proved for the routines of src/ltl2inv and the call sequence of matrix.c in exact arithmetic; the tridiagonal factorisation (PFAPACK) and the triangular inversion (LAPACK), which are not part of the repository, enter by their documented contracts."
  },
  {
   "property": "C71",
   "status": "partial",
   "theorems": [
    "C71_updates",
    "C71_sampling",
    "C71_singular",
    "C71_ratio",
    "C71_sign_refuted",
    "C71_split_refuted",
    "C71_block1_refuted"
   ],
   "note": "Proved for the updaters and the sampler's calls, external factorisations by contract. Refuted: that the delivered number is the Pfaffian itself (sign for even numbers of electrons per spin), that the projections may be split over processes, and that block size 1 works with exchanges."
  },
  {
   "property": "C72",
   "status": "partial",
   "theorems": [
    "C72_hamiltonian",
    "C72_hermitian",
    "C72_state",
    "C72_lowest",
    "C72_fixed_point",
    "C72_energy",
    "C72_converged",
    "C72_initial",
    "C72_same_site_refuted"
   ],
   "note": "Proved for every pass and for the whole loop, the eigenvalue routine by contract. Refuted: that rows of CoulombInter and Hund naming one site twice enter the mean field completely."
  },
  {
   "property": "C73",
   "status": "partial",
   "theorems": [
    "C73_determinant",
    "C73_average",
    "C73_general",
    "C73_parallel",
    "C73_antiparallel",
    "C73_gap",
    "C73_gap_refuted",
    "C73_signs_refuted"
   ],
   "note": "Proved for all three kinds of orbital files when both programs read the same signs. Refuted: that signs survive with periodic boundaries; that the gap is defined when all levels are occupied."
  },
  {
   "property": "C74",
   "status": "partial",
   "theorems": [
    "C74_hamiltonian",
    "C74_same",
    "C74_judged",
    "C74_requests",
    "C74_extra_row_refuted",
    "C74_spin_refuted",
    "C74_short_line_refuted",
    "C74_zero_count_refuted",
    "C74_pointer_refuted",
    "C74_allocation_refuted",
    "C74_locspin_refuted"
   ],
   "note": "Proved for files with complete lines and at most as many rows as announced. Refuted: that surplus rows are rejected, that spins are checked, that short lines mean the same to both programs, that rows are read when the header announces none, that all row pointers read exist, that an empty table is allocated within bounds, that every site is named."
  },
  {
   "property": "C75",
   "status": "partial",
   "theorems": [
    "C75_derivatives",
    "C75_self_adjoint",
    "C75_energy",
    "C75_gradient",
    "C75_gradient_flat",
    "C75_flat",
    "C75_downhill",
    "C75_zero_parameter_refuted",
    "C75_machine_offset_refuted"
   ],
   "note": "Proved for fixed spins and exact averages. Refuted: that the force is the gradient for parameters that move zeros of the wave function, and that the program for general orbitals stores derivatives at the places of their parameters when there is a machine."
  },
  {
   "property": "C76",
   "status": "partial",
   "theorems": [
    "C76_wave",
    "C76_overlap",
    "C76_probability",
    "C76_means",
    "C76_density",
    "C76_joint",
    "C76_file",
    "C76_complete",
    "C76_default",
    "C76_no_sign_refuted",
    "C76_site_refuted",
    "C76_repeated_refuted",
    "C76_number_refuted"
   ],
   "note": "Proved for fixed spins. Refuted: that the reader notices missing signs, sites outside the lattice, repeated lines, or a number of transformations smaller than NMPTrans."
  },
  {
   "property": "C77",
   "status": "proved",
   "theorems": [
    "C77_local",
    "C77_files",
    "C77_local_energy",
    "C77_energies",
    "C77_derivatives",
    "C77_expectation"
   ],
   "note": "Proved for fixed spins; general spins are C78."
  },
  {
   "property": "C78",
   "status": "proved",
   "theorems": [
    "C78_wave",
    "C78_probability",
    "C78_local",
    "C78_files",
    "C78_local_energy",
    "C78_energies",
    "C78_derivatives",
    "C78_expectation"
   ],
   "note": "Proved for general spins, without a machine (the program does not evaluate it with general orbitals)."
  },
  {
   "property": "C79",
   "status": "partial",
   "theorems": [
    "C79_file",
    "C79_determined",
    "C79_missing_refuted",
    "C79_outside_refuted",
    "C79_twice_refuted"
   ],
   "note": "Files are stored as written. Refuted: missing lines, repeated lines and images outside the lattice are accepted. Where the flags are written is C29 and C45."
  },
  {
   "property": "C80",
   "status": "partial",
   "theorems": [
    "C80_accepts",
    "C80_accepted",
    "C80_lanczos_refuted",
    "C80_odd_refuted",
    "C80_spin_refuted",
    "C80_block",
    "C80_first_spin",
    "C80_first_spin_refuted"
   ],
   "note": "Consistent settings are accepted and keep the number of electrons; accepted ones have the listed properties. Refuted: Lanczos with general orbitals, odd numbers of electrons and impossible total spins can pass; the latter start from a wrong total spin. With possible spins the first configuration has the requested one."
  }
 ]
}