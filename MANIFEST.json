{
 "claims": [
  {
   "property": "C01",
   "status": "proved",
   "theorems": [
    "C01_step_within_interval",
    "C01_step_returns",
    "C01_gsl_stepper"
   ],
   "note": "Controlled stepper as an oracle under an explicit contract (met by the model of the GSL stepper)."
  },
  {
   "property": "C02",
   "status": "proved",
   "theorems": [
    "C02_tiny_step_memory"
   ],
   "note": ""
  },
  {
   "property": "C03",
   "status": "proved",
   "theorems": [
    "C03_advance_exact",
    "C03_engine_advance_exact"
   ],
   "note": "Real-number times; for double precision see C55."
  },
  {
   "property": "C04",
   "status": "partial",
   "theorems": [
    "C04_backward_refuted",
    "C04_backward_partial"
   ],
   "note": "REFUTED: a fresh engine never moves backward; a repeated tiny backward step moves forward. Holds for a single reversal directly after a forward step."
  },
  {
   "property": "C05",
   "status": "partial",
   "theorems": [
    "C05_tolerances_refuted",
    "C05_tolerances_partial"
   ],
   "note": "REFUTED: the two tolerances are exchanged on the way to the stepper (GSL: both sides in this repository; Boost: given the argument order of make_controlled)."
  },
  {
   "property": "C06",
   "status": "partial",
   "theorems": [
    "C06_error_control_refuted",
    "C06_error_control_partial"
   ],
   "note": "REFUTED for the GSL stepper (return status of hadjust ignored). Holds for steppers which themselves reject."
  },
  {
   "property": "C07",
   "status": "proved",
   "theorems": [
    "C07_streaming_schedule",
    "C07_every_dc_th_step"
   ],
   "note": "End time 0 is special-cased by the code (stream once, do not run) and excluded."
  },
  {
   "property": "C08",
   "status": "proved",
   "theorems": [
    "C08_ends_exactly",
    "C08_returns",
    "C08_nothing_beyond"
   ],
   "note": "Real-number times; the contract on advance is C03, on a step C01."
  },
  {
   "property": "C09",
   "status": "proved",
   "theorems": [
    "C09_final_state_saved_once"
   ],
   "note": ""
  },
  {
   "property": "C10",
   "status": "proved",
   "theorems": [
    "C10_resume_equals_not_stopping"
   ],
   "note": "Data lines compared (the resumed file carries an additional comment). The trajectory is abstract with a bisimulation as the hypothesis that the saved state determines the future."
  },
  {
   "property": "C11",
   "status": "proved",
   "theorems": [
    "C11_records_recovered",
    "C11_last_record_wins",
    "C11_text_archive_not_recovered"
   ],
   "note": "Archives as byte strings which do not begin with a decimal digit (Boost binary archives begin with byte 22); the third theorem shows the framing is ambiguous otherwise. Compression taken as transparent."
  },
  {
   "property": "C12",
   "status": "proved",
   "theorems": [
    "C12_mismatch_refused",
    "C12_match_accepted",
    "C12_array_only",
    "C12_mismatch_in_file"
   ],
   "note": "The protocol version is not compared by the code; array-only records carry no rank or type to be checked."
  },
  {
   "property": "C13",
   "status": "proved",
   "theorems": [
    "C13_stops_at_first_settled",
    "C13_switched_off"
   ],
   "note": "Exact real arithmetic. The very first record is never taken into account."
  },
  {
   "property": "C14",
   "status": "proved",
   "theorems": [
    "C14_multi_index_iteration"
   ],
   "note": ""
  },
  {
   "property": "C15",
   "status": "proved",
   "theorems": [
    "C15_slices_partition"
   ],
   "note": "Arrays and views as index maps; blitz strides/transposeSelf modelled by their index semantics."
  },
  {
   "property": "C16",
   "status": "proved",
   "theorems": [
    "C16_slices_action"
   ],
   "note": "Operators as arbitrary matrices over any commutative ring with involution."
  },
  {
   "property": "C17",
   "status": "proved",
   "theorems": [
    "C17_apply_is_matrix"
   ],
   "note": "For every rank, dimensions, offsets; scalars in any commutative ring with involution."
  },
  {
   "property": "C18",
   "status": "proved",
   "theorems": [
    "C18_dagger_is_adjoint"
   ],
   "note": ""
  },
  {
   "property": "C19",
   "status": "proved",
   "theorems": [
    "C19_direct_product_is_tensor"
   ],
   "note": "Product taken when the two operators are at the same time (else the model raises TimeMismatch)."
  },
  {
   "property": "C20",
   "status": "partial",
   "theorems": [
    "C20_vector_space",
    "C20_frequency_mismatch_refuted",
    "C20_frequency_mismatch_partial"
   ],
   "note": "Vector-space part and offset mismatches proved in full (an offset of 0, i.e. a purely diagonal operator, is compatible with any). REFUTED as stated for frequencies: the comparison is all(to!=from), so operators whose frequencies coincide in one place are added silently."
  },
  {
   "property": "C21",
   "status": "proved",
   "theorems": [
    "C21_propagate"
   ],
   "note": ""
  },
  {
   "property": "C22",
   "status": "partial",
   "theorems": [
    "C22_propagate_product_refuted",
    "C22_propagate_product_partial"
   ],
   "note": "REFUTED as stated: frequencies are lost when multiplying with an operator having a main diagonal without frequencies. Holds when both or neither carry frequencies."
  },
  {
   "property": "C23",
   "status": "proved",
   "theorems": [
    "C23_each_once",
    "C23_nothing_else",
    "C23_lookups_inverse",
    "C23_refused"
   ],
   "note": "Numbers of combinations exact (long double in the code)."
  },
  {
   "property": "C24",
   "status": "partial",
   "theorems": [
    "C24_last_occurrence_wins",
    "C24_unparsable_aborts_refuted",
    "C24_refused_partial",
    "C24_switch_forms_agree",
    "C24_switch_has_both_forms"
   ],
   "note": "Values of any type with extraction reading word by word as hypothesis (met by the case of numbers). REFUTED in a corner: what is left of an unparsable value word may itself begin with the prefix and is then taken for a parameter (--n 5--m 7); otherwise proved."
  },
  {
   "property": "C25",
   "status": "proved",
   "theorems": [
    "C25_every_text_has_lines",
    "C25_lines_marked",
    "C25_line_recovered",
    "C25_text_recovered"
   ],
   "note": ""
  },
  {
   "property": "C26",
   "status": "proved",
   "theorems": [
    "C26_hermitian_conjugation",
    "C26_two_real_part"
   ],
   "note": ""
  },
  {
   "property": "C27",
   "status": "proved",
   "theorems": [
    "C27_deflate_faithful"
   ],
   "note": "Labels represented by what they say instead of by their text."
  },
  {
   "property": "C28",
   "status": "proved",
   "theorems": [
    "C28_partial_trace"
   ],
   "note": "For a nonempty set of kept subsystems."
  },
  {
   "property": "C29",
   "status": "partial",
   "theorems": [
    "C29_trace_refuted",
    "C29_elements_partial",
    "C29_trace_partial"
   ],
   "note": "REFUTED for the trace: that of a state vector is its norm instead of the square of the norm; they agree for unit (and null) vectors only. Elements, expectation values and purity agree."
  },
  {
   "property": "C30",
   "status": "proved",
   "theorems": [
    "C30_partial_transpose"
   ],
   "note": ""
  },
  {
   "property": "C31",
   "status": "proved",
   "theorems": [
    "C31_norm"
   ],
   "note": "System, ODE stepper and random engine are parameters; hypotheses: the stepper moves time forward, neither it nor the exact part annihilates the state, reported rates are truthful."
  },
  {
   "property": "C32",
   "status": "proved",
   "theorems": [
    "C32_limited",
    "C32_finite"
   ],
   "note": "The step is described from its last attempt on. Finiteness needs rates bounded on normalised states and ODE steps which return."
  },
  {
   "property": "C33",
   "status": "proved",
   "theorems": [
    "C33_which",
    "C33_measure"
   ],
   "note": "A random number exactly on the boundary of two intervals makes no jump (measure zero)."
  },
  {
   "property": "C34",
   "status": "partial",
   "theorems": [
    "C34_step_back_refuted",
    "C34_step_back_partial"
   ],
   "note": "REFUTED as stated: with exact propagation the reference time is left at the end of the rejected step, so the repeated step propagates by a wrong interval. Everything else is restored; without exact propagation the property holds."
  },
  {
   "property": "C35",
   "status": "proved",
   "theorems": [
    "C35_log"
   ],
   "note": "Overshoots already counted by the constructor are included in the count."
  },
  {
   "property": "C36",
   "status": "partial",
   "theorems": [
    "C36_save_load_refuted",
    "C36_exact_partial",
    "C36_no_exact_partial",
    "C36_master"
   ],
   "note": "REFUTED for MCWF with explicitly time-dependent Hamiltonians without exact part: loading sets the reference time to the current time. Holds with exact part, for Hamiltonians not depending on the reference time, and for Master trajectories."
  },
  {
   "property": "C37",
   "status": "proved",
   "theorems": [
    "C37_exact"
   ],
   "note": ""
  },
  {
   "property": "C38",
   "status": "proved",
   "theorems": [
    "C38_lindblad"
   ],
   "note": "The system acts as matrices on state vectors (hypothesis); superoperators given by the system are assumed to add J rho J^dagger, the fallback is proved to do so for Hermitian rho."
  },
  {
   "property": "C39",
   "status": "proved",
   "theorems": [
    "C39_unit_trace"
   ],
   "note": "The real part of the trace of what the ODE step delivers must not vanish; the propagator is an isometry (systems with a non-unitary one are refused by the constructor)."
  },
  {
   "property": "C40",
   "status": "partial",
   "theorems": [
    "C40_master_refuted",
    "C40_reload_refuted",
    "C40_mcwf_partial"
   ],
   "note": "REFUTED for Master trajectories from the second step on, and for MCWF after loading: the reference time is moved to the current time. Holds for fresh MCWF trajectories."
  },
  {
   "property": "C41",
   "status": "partial",
   "theorems": [
    "C41_exact_propagator_refuted",
    "C41_exact_propagator_partial",
    "C41_two_time_partial"
   ],
   "note": "REFUTED as stated: a new object caches the zero interval with an uninitialised diagonal, so a first call asking for a zero interval multiplies with memory contents. Proved for every history once any call asked for a nonzero interval (modes, spins, particles; and any two-time propagator)."
  },
  {
   "property": "C42",
   "status": "proved",
   "theorems": [
    "C42_ensemble_average",
    "C42_nested_ensembles"
   ],
   "note": "Real arithmetic instead of double."
  },
  {
   "property": "C43",
   "status": "partial",
   "theorems": [
    "C43_refuted",
    "C43_lost_refuted",
    "C43_jump_partial",
    "C43_super_partial",
    "C43_rates",
    "C43_master_partial"
   ],
   "note": "REFUTED as stated: if the second free has no Liouvillean part, the number of jumps of the first is subtracted twice and the jumps of the interaction are lost. Proved for all other combinations; the order of the rates and everything else without restriction."
  },
  {
   "property": "C44",
   "status": "proved",
   "theorems": [
    "C44_jump",
    "C44_super",
    "C44_rates",
    "C44_belong",
    "C144_constituents"
   ],
   "note": ""
  },
  {
   "property": "C45",
   "status": "proved",
   "theorems": [
    "C45_averages",
    "C45_averages_binary",
    "C45_process",
    "C45_process_binary",
    "C45_stream",
    "C45_stream_binary",
    "C45_key",
    "C45_key_binary",
    "C45_key_rates",
    "C45_key_rates_binary",
    "C144_constituents"
   ],
   "note": ""
  },
  {
   "property": "C46",
   "status": "partial",
   "theorems": [
    "C46_superoperator_partial",
    "C46_loss_rate_partial",
    "C46_absorption_rate_partial",
    "C46_absorption_rate_refuted",
    "C46_no_exact_rate_refuted"
   ],
   "note": "REFUTED as stated: at finite temperature the absorption rate counts the highest level, which the truncated jump cannot raise (exact difference proved); PumpedLossyModeIP_NoExact returns the photon number without 2 kappa. Jumps, superoperators and loss rate proved for all states and cutoffs."
  },
  {
   "property": "C47",
   "status": "partial",
   "theorems": [
    "C47_trace",
    "C47_mode_partial",
    "C47_mode_highest_level_refuted",
    "C47_alternative_partial",
    "C47_alternative_refuted",
    "C47_qbit",
    "C47_two_level",
    "C47_multilevel",
    "C47_homodyne_partial",
    "C47_spin_half_partial",
    "C47_spin_refuted",
    "C47_spin_tilted_refuted"
   ],
   "note": "REFUTED as stated: for spins larger than 1/2 (every size) or tilted ones, for PumpedLossyModeAlternative at finite temperature, and on the highest level of truncated modes at finite temperature. Proved for modes in every picture below the highest level, qbits with phase noise, two-level atom, multi-level systems with any decays and diffusion, homodyned modes, spins 1/2 along z."
  },
  {
   "property": "C48",
   "status": "partial",
   "theorems": [
    "C48_uniform_partial",
    "C48_jumps_partial",
    "C48_refuted"
   ],
   "note": "REFUTED for non-uniform coefficients (the superoperator uses the first only); proved for uniform ones, every dimension."
  },
  {
   "property": "C49",
   "status": "proved",
   "theorems": [
    "C49_composition",
    "C49_refused",
    "C49_mode_function",
    "C49_unique"
   ],
   "note": "Matrix elements as integrals over [-pi,pi] of plane waves, on the momentum grid of the particle, every wave number including those larger than the grid; both pictures. Real arithmetic instead of double."
  },
  {
   "property": "C50",
   "status": "partial",
   "theorems": [
    "C50_pictures_partial",
    "C50_qbit",
    "C50_kerr_interaction_picture_refuted",
    "C50_kerr_schroedinger_refuted",
    "C50_kerr_alternative_refuted"
   ],
   "note": "REFUTED as stated for Kerr terms: the interaction-picture Hamiltonian lacks the transformation, the resonant Schroedinger one drops the Kerr term, the undriven interaction-picture one drops the alternative Kerr term. Proved for all other parameters and for qbits without restriction."
  },
  {
   "property": "C51",
   "status": "proved",
   "theorems": [
    "C51_interactions_hermitian"
   ],
   "note": ""
  },
  {
   "property": "C52",
   "status": "partial",
   "theorems": [
    "C52_two_modes_refuted",
    "C52_two_modes_partial",
    "C52_real_phase_partial"
   ],
   "note": "REFUTED as stated: the relative phase enters the two code paths with opposite signs. What each path is, is proved; at the phases 0 and pi they are one formula."
  },
  {
   "property": "C53",
   "status": "partial",
   "theorems": [
    "C53_unary_constructor_partial",
    "C53_unary_constructor_refuted"
   ],
   "note": "Holds for offset <= dimension; a purely diagonal operator constructed with larger offset silently gets the wrong dimension."
  },
  {
   "property": "C54",
   "status": "partial",
   "theorems": [
    "C54_propagate_sum_partial",
    "C54_propagate_sum_refuted"
   ],
   "note": "REFUTED as stated: a frequency-less operator starts to rotate when added to one with frequencies. Holds for equal frequencies and times."
  },
  {
   "property": "C55",
   "status": "proved",
   "theorems": [
    "C55_advance_double"
   ],
   "note": "binary64 with gradual underflow, without overflow (Flocq)."
  },
  {
   "property": "C56",
   "status": "proved",
   "theorems": [
    "C56_ode_log"
   ],
   "note": ""
  },
  {
   "property": "C57",
   "status": "partial",
   "theorems": [
    "C57_returned_array_refuted",
    "C57_returned_array_partial"
   ],
   "note": "REFUTED in time-step mode: the record of the final instant is streamed but not returned. Holds in the two modes with intervals."
  },
  {
   "property": "C58",
   "status": "proved",
   "theorems": [
    "C58_direct_products"
   ],
   "note": ""
  },
  {
   "property": "C59",
   "status": "proved",
   "theorems": [
    "C59_renorm"
   ],
   "note": ""
  },
  {
   "property": "C60",
   "status": "proved",
   "theorems": [
    "C60_spin",
    "C60_multilevel",
    "C60_two_level",
    "C60_phase_noise",
    "C60_homodyne"
   ],
   "note": "Real arithmetic instead of double."
  },
  {
   "property": "C61",
   "status": "partial",
   "theorems": [
    "C61_partial",
    "C61_refuted"
   ],
   "note": "REFUTED as stated: only the damping part of the shifted jumps is added to the Hamiltonian, the compensating Hermitian part is missing, so the detection drives the mode. Exactly which drive remains is proved for all parameters."
  },
  {
   "property": "C62",
   "status": "proved",
   "theorems": [
    "C62_spin_hamiltonian",
    "C62_spin_pictures"
   ],
   "note": ""
  },
  {
   "property": "C63",
   "status": "proved",
   "theorems": [
    "C63_hamiltonian",
    "C63_hamiltonian_binary",
    "C63_propagator",
    "C63_propagator_binary",
    "C63_isometric",
    "C63_applicable",
    "C63_applicable_binary",
    "C63_master",
    "C144_constituents"
   ],
   "note": "The master equation of binary systems is under C43."
  },
  {
   "property": "C64",
   "status": "partial",
   "theorems": [
    "C64_refuted",
    "C64_frees_partial",
    "C64_binary"
   ],
   "note": "REFUTED as stated: Composite considers the frees only. Proved for BinarySystem, and that it is the maximum over the frees for Composite."
  },
  {
   "property": "C65",
   "status": "proved",
   "theorems": [
    "C65_fill",
    "C65_check",
    "C65_construction",
    "C65_characteristics"
   ],
   "note": "Frees are compared by pointer, represented by numbers."
  },
  {
   "property": "C66",
   "status": "proved",
   "theorems": [
    "C66_pumped",
    "C66_free",
    "C66_determined"
   ],
   "note": "Real arithmetic instead of double."
  },
  {
   "property": "C67",
   "status": "proved",
   "theorems": [
    "C67_along_cavity",
    "C67_not_pumped",
    "C67_effective_coupling",
    "C67_matrices",
    "C67_generator_unique"
   ],
   "note": "Constituents in the Schroedinger picture (pictures are C68). States without momenta within the cavity wave number of the edges of the grid, for the path of different wave numbers (see C69_edges_refuted)."
  },
  {
   "property": "C68",
   "status": "partial",
   "theorems": [
    "C68_mixed_pictures_refuted",
    "C68_coupled_modes_refuted",
    "C68_dispersive_refuted",
    "C68_jaynes_cummings_partial",
    "C68_coupled_modes_partial",
    "C68_general_dicke_partial",
    "C68_orthogonal_partial",
    "C68_along_partial",
    "C68_not_pumped_partial"
   ],
   "note": "REFUTED as stated: products with operators without frequencies (number operators, identities, operators of constituents in the Schroedinger picture) lose the frequencies and do not rotate. Proved where all constituents are in the same picture and no such operator takes part."
  },
  {
   "property": "C69",
   "status": "partial",
   "theorems": [
    "C69_general_dicke_refuted",
    "C69_edges_refuted",
    "C69_jaynes_cummings_partial",
    "C69_coupled_modes_partial",
    "C69_general_dicke_partial",
    "C69_orthogonal_partial",
    "C69_along_partial",
    "C69_along_equal_partial",
    "C69_not_pumped_partial",
    "C69_two_modes_partial"
   ],
   "note": "REFUTED as stated: GeneralDicke with complex couplings is not Hermitian, nor is the path of different wave numbers at the edges of the momentum grid. Proved for the others, in the cases covered by C68."
  },
  {
   "property": "C70",
   "status": "partial",
   "theorems": [
    "C70_recreation_refused",
    "C70_new_parameter",
    "C70_new_title",
    "C70_refused_switch_refuted",
    "C70_new_switch_partial"
   ],
   "note": "REFUTED as stated in one corner: a switch s is refused if the name no_s is taken, but stays declared. Proved otherwise."
  },
  {
   "property": "C71",
   "status": "proved",
   "theorems": [
    "C71_matrix",
    "C71_round_trip",
    "C71_matrix_hamiltonian",
    "C71_mode",
    "C71_interaction",
    "C71_interaction_later"
   ],
   "note": "The Hamiltonian is any stateful function, linear in the state. Concrete instances: matrix Hamiltonian, mode, interactions."
  },
  {
   "property": "C72",
   "status": "proved",
   "theorems": [
    "C72_hamiltonians",
    "C72_jumps"
   ],
   "note": "Real arithmetic instead of double."
  },
  {
   "property": "C73",
   "status": "partial",
   "theorems": [
    "C73_mode",
    "C73_quadratures",
    "C73_cutoff",
    "C73_no_exact",
    "C73_qbit",
    "C73_spin_refuted",
    "C73_spin_partial"
   ],
   "note": "REFUTED as stated: the column <sz^2> of spins holds the variance of sz. All other columns of all elements are proved. Real arithmetic instead of double."
  },
  {
   "property": "C74",
   "status": "proved",
   "theorems": [
    "C74_modes",
    "C74_qbit_mode"
   ],
   "note": "sigma=|0><1|, sigmaZ=(|1><1|-|0><0|)/2. Real arithmetic instead of double."
  },
  {
   "property": "C75",
   "status": "partial",
   "theorems": [
    "C75_negativity_refuted",
    "C75_negativity_partial"
   ],
   "note": "REFUTED as stated: blitz resize does not keep the contents, so the averages are lost before processing. The processing itself is proved right."
  },
  {
   "property": "C76",
   "status": "proved",
   "theorems": [
    "C76_collecting",
    "C76_processing"
   ],
   "note": "Members have to give as many averages as they have labels (otherwise the library throws)."
  },
  {
   "property": "C77",
   "status": "proved",
   "theorems": [
    "C77_solution",
    "C77_unique"
   ],
   "note": "Eigen's solver of two linear equations is any function solving them whenever the determinant does not vanish. Real arithmetic instead of double."
  },
  {
   "property": "C78",
   "status": "proved",
   "theorems": [
    "C78_fock",
    "C78_coherent",
    "C78_photonNumber",
    "C78_init",
    "C78_qbit"
   ],
   "note": "Real arithmetic instead of double. Beyond 170 levels the amplitudes are those of the Stirling formula: modelled, but nothing is claimed about them."
  },
  {
   "property": "C79",
   "status": "proved",
   "theorems": [
    "C79_vector",
    "C79_refused",
    "C79_unitary",
    "C79_axis",
    "C79_sequence",
    "C79_mixed"
   ],
   "note": "The FFT library (gsl_fft_complex_radix2) is modelled by the sum it documents. Real arithmetic instead of double. A size of 0 is accepted by the model and transforms nothing."
  },
  {
   "property": "C80",
   "status": "proved",
   "theorems": [
    "C80_mixed",
    "C80_pure"
   ],
   "note": "Real arithmetic instead of double."
  },
  {
   "property": "C81",
   "status": "proved",
   "theorems": [
    "C81_packet"
   ],
   "note": "Real arithmetic instead of double."
  },
  {
   "property": "C82",
   "status": "partial",
   "theorems": [
    "C82_eigenstates_partial",
    "C82_packet_partial",
    "C82_ground_partial",
    "C82_default_refuted"
   ],
   "note": "REFUTED as stated: with no width given, hoState uses the width of the Gaussian packet (1/sqrt 2 times the characteristic length) as characteristic length, so state number 0 is too narrow. With the length given the eigenstates are proved right, and so is the default packet. At least one of the samples must not vanish for normalising."
  },
  {
   "property": "C83",
   "status": "proved",
   "theorems": [
    "C83_members",
    "C83_streams",
    "C83_after",
    "C83_split"
   ],
   "note": "The random engine is any function of seed and stream. State vectors are addresses into a store; every write of a step goes to the address of its psi_."
  },
  {
   "property": "C84",
   "status": "partial",
   "theorems": [
    "C84_noise_refuted",
    "C84_closed_partial"
   ],
   "note": "REFUTED as stated: the parameter noise is not used by anything. Only systems without Liouvillean are free of jumps."
  },
  {
   "property": "C85",
   "status": "proved",
   "theorems": [
    "C85_columns",
    "C85_titles"
   ],
   "note": "The measures themselves are any functions here (C28, C30 for partial trace and transposition). Elements must give as many averages as they have labels, also after processing."
  },
  {
   "property": "C86",
   "status": "partial",
   "theorems": [
    "C86_resumed_refuted",
    "C86_resumed_untouched",
    "C86_fresh_partial"
   ],
   "note": "REFUTED as stated: reading a state file makes the trajectory refer to a new array, so the state of the caller remains the initial one. Without state file it is proved to be the evolved one."
  },
  {
   "property": "C87",
   "status": "partial",
   "theorems": [
    "C87_half_partial",
    "C87_family",
    "C87_density_refuted"
   ],
   "note": "REFUTED as stated: wignerFunction is half of the density in the documented quadratures (the prefactor is that of quadratures larger by sqrt 2). Apart from the factor it is proved equal to the unique solution of the correspondence rules, for all Hermitian operators of dimension up to 171; above, factorials overflow. atan2 is any function giving the polar angle. Real arithmetic instead of double."
  },
  {
   "property": "C88",
   "status": "proved",
   "theorems": [
    "C88_overlap",
    "C88_range"
   ],
   "note": "Up to 170 levels, above which the amplitudes are those of the Stirling formula (C78). Density operators as mixtures of normalised pure states. Real arithmetic instead of double."
  },
  {
   "property": "C89",
   "status": "proved",
   "theorems": [
    "C89_scan",
    "C89_endless"
   ],
   "note": "Real arithmetic instead of double: the accumulation of rounding errors in x+=step is not modelled."
  },
  {
   "property": "C90",
   "status": "proved",
   "theorems": [
    "C90_product",
    "C90_dagger"
   ],
   "note": "The product of two Sigmas is not modelled: the type it is declared to return does not fit, unless the two right levels are the same (Sigma.h:130-135). Levels have to be inside the dimensions, the code does not check."
  },
  {
   "property": "C91",
   "status": "proved",
   "theorems": [
    "C91_generator",
    "C91_norm",
    "C91_refused"
   ],
   "note": "Modes in interaction picture with a Kerr term are excepted, as in C68. The exception is thrown by the first coupling, so that with none there is none. Real arithmetic instead of double."
  },
  {
   "property": "C92",
   "status": "partial",
   "theorems": [
    "C92_phase_refuted",
    "C92_since_propagation_partial",
    "C92_equal_detunings_partial",
    "C92_single_drive"
   ],
   "note": "REFUTED as stated, for every mode with two different drives: the phase of the second drive is counted from the last exact propagation (t-t0), which trajectories make in every step, so that it starts again in every step. Proved with t-t0 in place of t, and with equal detunings. (The equation of the script PumpedLossyMode_Evolved.cc has the sum of the detunings instead of the difference; scripts are not modelled.) Without Kerr term, for which see C50. Real arithmetic instead of double."
  },
  {
   "property": "C93",
   "status": "proved",
   "theorems": [
    "C93_negativity",
    "C93_separable",
    "C93_complement"
   ],
   "note": "The eigenvalue solvers of Eigen are parameters: the theorems assume that on the matrix in question they return the eigenvalues belonging to some complete orthonormal set of eigenvectors; that the result does not depend on which is proved. Real arithmetic instead of double."
  },
  {
   "property": "C94",
   "status": "proved",
   "theorems": [
    "C94_entropy",
    "C94_mutual_information",
    "C94_uncorrelated",
    "C94_pure"
   ],
   "note": "The eigenvalue solvers of Eigen are parameters: the theorems assume that on the matrix in question they return the eigenvalues belonging to some complete orthonormal set of eigenvectors; that the result does not depend on which is proved. Real arithmetic instead of double."
  },
  {
   "property": "C95",
   "status": "proved",
   "theorems": [
    "C95_bounds",
    "C95_complement",
    "C95_unentangled"
   ],
   "note": "Real arithmetic instead of double."
  },
  {
   "property": "C96",
   "status": "partial",
   "theorems": [
    "C96_noisy_qbit_refuted",
    "C96_kerr_refuted",
    "C96_spin_refuted",
    "C96_jaynes_cummings_spin_refuted",
    "C96_multi_level_refuted",
    "C96_mode_partial",
    "C96_qbit_partial",
    "C96_matrix_partial",
    "C96_jaynes_cummings_partial",
    "C96_coupled_modes_partial",
    "C96_rotation_partial"
   ],
   "note": "REFUTED as stated: the list of the driven qbit with phase noise in the unitary interaction picture lacks the drive; Kerr terms are in no list; the frequencies of spins, of the Jaynes-Cummings interaction with a spin and of the multi-level Jaynes-Cummings interaction lack multipliers growing as the matrix elements do. Proved for modes without Kerr terms (in one case with a factor sqrt 2), qbits otherwise, matrix Hamiltonians, Jaynes-Cummings with qbit, coupled modes. Particles, HomodynedMode, MultiLevel not modelled."
  },
  {
   "property": "C97",
   "status": "partial",
   "theorems": [
    "C97_choice",
    "C97_accepted_iff_unitary",
    "C97_modes",
    "C97_necessary",
    "C97_phase_noise_refuted",
    "C97_phase_noise_partial"
   ],
   "note": "REFUTED as stated: there is no Schroedinger picture for qbits with phase noise, the interaction picture is used instead, so the system is refused. Everything else proved."
  },
  {
   "property": "C98",
   "status": "proved",
   "theorems": [
    "C98_picture",
    "C98_method",
    "C98_mode_function"
   ],
   "note": "Streams are texts; words end at white space."
  },
  {
   "property": "C99",
   "status": "proved",
   "theorems": [
    "C99_columns",
    "C99_columns_simulated",
    "C99_least_width"
   ],
   "note": "The rounding to decimal digits is that of the C++ library; its format (%g) is modelled. Non-negative precision."
  },
  {
   "property": "C100",
   "status": "partial",
   "theorems": [
    "C100_values_partial",
    "C100_only_values_partial",
    "C100_references",
    "C100_slices",
    "C100_swap_refuted"
   ],
   "note": "REFUTED as stated: the move constructors leave the argument sharing the data, and the moving assignments copy elements, so that std::swap leaves the value of the second in both objects, always. Everything else proved. Arrays of different shapes in assignments and arithmetic are undefined, as blitz checks shapes in debug mode only."
  },
  {
   "property": "C101",
   "status": "partial",
   "theorems": [
    "C101_value",
    "C101_whole",
    "C101_refuted",
    "C101_modes_refuted",
    "C101_partial"
   ],
   "note": "REFUTED as stated: expvalue conjugates the wrong factor, so it returns the expectation value of the transposed operator (minus the right value for sigma_y; <a> for the creation operator). Proved to be exactly that in general, and right for symmetric operators or real amplitudes."
  },
  {
   "property": "C102",
   "status": "proved",
   "theorems": [
    "C102_value",
    "C102_whole"
   ],
   "note": "numpy broadcasting not modelled (shapes have to agree)."
  },
  {
   "property": "C103",
   "status": "proved",
   "theorems": [
    "C103_action"
   ],
   "note": "einsum with implicit output modelled generally."
  },
  {
   "property": "C104",
   "status": "proved",
   "theorems": [
    "C104_sum",
    "C104_normalised"
   ],
   "note": "Real arithmetic."
  },
  {
   "property": "C105",
   "status": "proved",
   "theorems": [
    "C105_value",
    "C105_same",
    "C105_back"
   ],
   "note": "numpy.fft is the discrete Fourier transform, in real arithmetic."
  },
  {
   "property": "C106",
   "status": "proved",
   "theorems": [
    "C106_packet"
   ],
   "note": "Real arithmetic."
  },
  {
   "property": "C107",
   "status": "partial",
   "theorems": [
    "C107_value",
    "C107_refuted",
    "C107_partial"
   ],
   "note": "REFUTED as stated: the recursion is done in an array of reals, so the imaginary part is lost; the result is the coherent state of Re(alpha), with the wrong norm. Right for real alpha."
  },
  {
   "property": "C108",
   "status": "partial",
   "theorems": [
    "C108_fock_partial",
    "C108_momentum_partial",
    "C108_refuted"
   ],
   "note": "REFUTED as stated: negative subscripts count from the end in Python, so momenta below the grid silently give another momentum. Right for those on the grid; those above it, and those far below are refused."
  },
  {
   "property": "C109",
   "status": "proved",
   "theorems": [
    "C109_start",
    "C109_rate",
    "C109_operators"
   ],
   "note": "Real arithmetic; the accuracy of the integration is not part of this."
  },
  {
   "property": "C110",
   "status": "partial",
   "theorems": [
    "C110_value",
    "C110_refuted",
    "C110_partial"
   ],
   "note": "REFUTED as stated: the script has exp(i t (deltaOther+delta)), while the second drive of the mode is exp(i t (delta-deltaOther)). Right with no second drive, or with deltaOther=0."
  },
  {
   "property": "C111",
   "status": "partial",
   "theorems": [
    "C111_refuted",
    "C111_mode_partial",
    "C111_atom",
    "C111_alone"
   ],
   "note": "REFUTED as stated: the mode is driven by conj(g)<sigma>, the script has g<sigma>. Right for real g; the other equation, and that of the atom alone, are right up to terms proportional to the excitation."
  },
  {
   "property": "C112",
   "status": "proved",
   "theorems": [
    "C112_transform",
    "C112_every",
    "C112_back"
   ],
   "note": "Real arithmetic; subsystems given explicitly."
  },
  {
   "property": "C113",
   "status": "partial",
   "theorems": [
    "C113_refuted",
    "C113_columns_partial",
    "C113_header"
   ],
   "note": "REFUTED as stated: with a single line of numbers (e.g. a run of zero length) loadtxt returns a one-dimensional array, so that swapaxes raises an exception. Right with at least two lines and two columns; the header is right always."
  },
  {
   "property": "C114",
   "status": "partial",
   "theorems": [
    "C114_refuted",
    "C114_partial"
   ],
   "note": "REFUTED as stated: a single jump gives a one-dimensional array, so that the documented way of indexing fails; the file of a resumed trajectory cannot be read, as the commentary on continuing is taken for a jump. Right with at least two jumps in a file of one run."
  },
  {
   "property": "C115",
   "status": "partial",
   "theorems": [
    "C115_trajectories",
    "C115_back_partial",
    "C115_start_partial",
    "C115_real_refuted",
    "C115_strides_refuted",
    "C115_other_refuted"
   ],
   "note": "REFUTED as stated: write labels arrays of real numbers as complex ones, so that reading them raises an exception; it ignores strides, so that of a transposed array the elements are written in the original order; of arrays of other types an empty file is written without an error. Right for contiguous complex arrays; reading the files of trajectories is right. The initial time in the file is not taken over by trajectories. Archives are any encoding satisfying the laws in PyStateSpec.v."
  },
  {
   "property": "C116",
   "status": "partial",
   "theorems": [
    "C116_averages_partial",
    "C116_histogram_partial",
    "C116_refuted"
   ],
   "note": "REFUTED as stated in corners: with nBins=nJumpsPerBin=0 the program divides by zero; with nBins>0 and no jumps the fractions are 0/0. Proved in all other cases; real arithmetic; the density accumulator of boost is modelled from its source."
  },
  {
   "property": "C117",
   "status": "partial",
   "theorems": [
    "C117_read_partial",
    "C117_failure_partial",
    "C117_round_trip_partial",
    "C117_mode_function_refuted"
   ],
   "note": "REFUTED as stated: the input operator of the kind of mode functions takes the comma after it, so that a mode function which was written cannot be read. Right if the input operator of the elements stops at delimiters: then the texts read are exactly the spellings, and what was written is read back."
  },
  {
   "property": "C118",
   "status": "partial",
   "theorems": [
    "C118_modes_partial",
    "C118_damping_partial",
    "C118_ladder_partial",
    "C118_number_refuted",
    "C118_correlations_partial",
    "C118_interaction_partial",
    "C118_interaction_refuted",
    "C118_norm_refuted"
   ],
   "note": "REFUTED as stated: the column of the number operator is twice its mean (the jump rate with kappa=1 is displayed), and the interaction supplies H instead of H/i, so that it is not unitary. Right: the modes in both pictures with their jumps, the columns of the ladder operator, and the correlations; the interaction agrees between the pictures. The rate of absorption is as in C46 (highest level)."
  },
  {
   "property": "C119",
   "status": "proved",
   "theorems": [
    "C119_nearest",
    "C119_failure",
    "C119_runmodes",
    "C119_files"
   ],
   "note": "the chain of imports is a relation on the file as written; the look-up of the model rewrites the configuration as the code does"
  },
  {
   "property": "C120",
   "status": "partial",
   "theorems": [
    "C120_full_partial",
    "C120_outcome_refuted",
    "C120_other_refuted",
    "C120_unreadable",
    "C120_one_line_refuted",
    "C120_one_state_refuted"
   ],
   "note": "REFUTED as stated: with verify=outcome the method is called without its arguments, so the test never succeeds; with any other value but full everything succeeds; and by broadcasting a trajectory of one line agrees with one of several lines (whose times are close). Right for the full verification of trajectories of at least two lines and columns, and state files which both have one or both several states."
  },
  {
   "property": "C121",
   "status": "partial",
   "theorems": [
    "C121_plain_partial",
    "C121_message_refuted"
   ],
   "note": "REFUTED as stated: the message, a str, is searched in bytes, which is a TypeError, so that a test expecting a message never succeeds. Right without a message."
  },
  {
   "property": "C122",
   "status": "partial",
   "theorems": [
    "C122_trajectories_partial",
    "C122_function_partial",
    "C122_uncovered",
    "C122_missed_refuted",
    "C122_runmodes_partial",
    "C122_runmodes_refuted"
   ],
   "note": "REFUTED as stated: the adaptive quadrature stops when orders 1 and 2 agree, so that data which differ arbitrarily at one time are accepted; and the documented key of the run modes is ignored, it has to end in _local. Right for differences which are linear in time, and for the key with _local."
  },
  {
   "property": "C123",
   "status": "partial",
   "theorems": [
    "C123_temperature_partial",
    "C123_temperature_refuted",
    "C123_bloch_partial"
   ],
   "note": "REFUTED as stated: the number of photons is fixed to 4 in the normalisation, so at any other temperature the thermal state itself is refused. Right for 4 photons; the columns made of the Bloch vector are right."
  },
  {
   "property": "C124",
   "status": "partial",
   "theorems": [
    "C124_along_partial",
    "C124_orthogonal_partial",
    "C124_orthogonal_refuted",
    "C124_picture_refuted",
    "C124_signs",
    "C124_messages"
   ],
   "note": "REFUTED as stated: ParticleOrthogonalToCavity couples a g(x), not a^dagger g(x), so that with a running-wave pump the recoil has the wrong direction; and in the interaction picture the light shift of standing waves is wrong (as in C68). Right in the Schroedinger picture for the particle moving along the cavity, and orthogonally to it with a standing-wave pump."
  },
  {
   "property": "C125",
   "status": "partial",
   "theorems": [
    "C125_ring_partial",
    "C125_evolved_partial",
    "C125_wave_number_refuted",
    "C125_signs"
   ],
   "note": "REFUTED as stated: Ring_Evolved does not look at the wave numbers of the modes, they are taken to be 1. Right for wave number 1. Ring.cc is right in all pictures for waves running in opposite directions, otherwise proved in the Schroedinger picture."
  },
  {
   "property": "C126",
   "status": "partial",
   "theorems": [
    "C126_mean",
    "C126_resumed_partial",
    "C126_saved_last",
    "C126_lost",
    "C126_resumed_refuted"
   ],
   "note": "REFUTED as stated: run saves the state before it streams, so that if the last instant of a session was saved by its period, the sample of this instant is missing from the averages in the state file and from those of the resumed trajectory. Right for sessions which end by saving, in particular if no period is given or it does not divide the number of intervals; and for a trajectory which is not interrupted."
  },
  {
   "property": "C127",
   "status": "partial",
   "theorems": [
    "C127_weight",
    "C127_complete",
    "C127_sum_partial",
    "C127_sum_refuted",
    "C127_key_partial",
    "C127_key_refuted"
   ],
   "note": "REFUTED as stated: the column called sum of overlaps is the sum of the overlaps displayed for orthonormal states only, and without states the key announces a column which is not streamed. The column is the weight in the span for all independent sets, LAPACK being supposed to invert the matrix of overlaps."
  },
  {
   "property": "C128",
   "status": "partial",
   "theorems": [
    "C128_coherent_partial",
    "C128_tolerant_partial",
    "C128_order_partial",
    "C128_equality_refuted"
   ],
   "note": "REFUTED as stated: equality with tolerance is not transitive (1, 1+2t, 1+4t), so that it is not an equivalence, and the numbers are no keys of ordered containers. Trichotomy, the derived operators, the tolerance and the transitivity of < hold, in real arithmetic."
  },
  {
   "property": "C129",
   "status": "partial",
   "theorems": [
    "C129_system_partial",
    "C129_recoil_refuted",
    "C129_signs",
    "C129_exchange",
    "C129_initial",
    "C129_fermions_refuted",
    "C129_momenta"
   ],
   "note": "REFUTED as stated: the script gives the same object for both particles, so that the recoil frequency of the second is ignored; and fermions in the same state leave nothing to be normalised. Right in the Schroedinger picture for particles with the same parameters."
  },
  {
   "property": "C130",
   "status": "proved",
   "theorems": [
    "C130_refused",
    "C130_steps",
    "C130_intervals",
    "C130_until"
   ],
   "note": "the dispatcher together with the run it chooses (RunModel.v)"
  },
  {
   "property": "C131",
   "status": "proved",
   "theorems": [
    "C131_matrix",
    "C131_replaces",
    "C131_diagonals"
   ],
   "note": "the printed statements as a syntax tree, executed by a small interpreter; equal to the general code of TriModel.v and to multiplication with the matrix"
  },
  {
   "property": "C132",
   "status": "partial",
   "theorems": [
    "C132_tensor_partial",
    "C132_storage_refuted",
    "C132_in_place_refuted",
    "C132_compose",
    "C132_transform"
   ],
   "note": "REFUTED as stated: with an odd number of factors, more than one, the array given for the result is made to refer to other storage, and the storage given keeps what was there before the last factor; and a single factor cannot be applied in place. What the array refers to is right in all other cases."
  },
  {
   "property": "C133",
   "status": "partial",
   "theorems": [
    "C133_norm_partial",
    "C133_product",
    "C133_stale_refuted"
   ],
   "note": "REFUTED as stated: the dual vector is not updated by copying and by vector-space operations, after a multiplication by c the norm is sqrt(c) times the old one. Right after an explicit update."
  },
  {
   "property": "C134",
   "status": "partial",
   "theorems": [
    "C134_single_partial",
    "C134_resumed_refuted",
    "C134_master_partial",
    "C134_master_resumed_refuted",
    "C134_master_vector_refuted",
    "C134_ensemble",
    "C134_matrix_script_refuted"
   ],
   "note": "REFUTED as stated: reading a state file makes the array of the trajectory refer to new memory, so that after a resumed run the object given keeps its initial value, and QbitMode_Matrix displays the averages of the initial state at all times; and a state vector evolved with the Master equation is not changed. Right for fresh runs."
  },
  {
   "property": "C135",
   "status": "partial",
   "theorems": [
    "C135_generator_partial",
    "C135_picture_refuted",
    "C135_motion"
   ],
   "note": "REFUTED as stated: in the interaction pictures, the default, the frequency of the oscillator is lost in the product of the operators n and x (as in C68), so that the coupling is a wrong one for all parameters with a frequency. Right in the Schroedinger picture."
  },
  {
   "property": "C136",
   "status": "partial",
   "theorems": [
    "C136_couplings_partial",
    "C136_decay_refuted",
    "C136_rates",
    "C136_each_rate",
    "C136_detuning_refuted"
   ],
   "note": "REFUTED as stated: the Clebsch-Gordan amplitudes, not their squares, multiply the decay rates, so that P1/2 decays too fast into both multiplets with wrong branching ratios; and the detuning of the laser never enters the energies of the levels. The couplings and the cavity are right."
  },
  {
   "property": "C137",
   "status": "partial",
   "theorems": [
    "C137_generator_partial",
    "C137_energy",
    "C137_states_refuted"
   ],
   "note": "REFUTED as stated: the call calculating the eigenvectors is commented out, so that the states projected upon are the rows of the Hamiltonian, and all of them, the number asked for is not looked at; temperature, Kerr terms and the orientation of the spin are not mapped to imaginary time. Otherwise the generator is right and the energy never increases."
  },
  {
   "property": "C138",
   "status": "partial",
   "theorems": [
    "C138_round_trip",
    "C138_assigned",
    "C138_refused_partial",
    "C138_refused_refuted"
   ],
   "note": "REFUTED as stated: in release builds the separators are not checked, any characters are taken for them, so that [0 -1] is read as (0,1). Correct vectors are read right in all builds, and wrong separators are refused in debug builds."
  },
  {
   "property": "C139",
   "status": "partial",
   "theorems": [
    "C139_dictionary",
    "C139_copy_refuted",
    "C139_collection",
    "C139_times",
    "C139_subsystem",
    "C139_views_refuted"
   ],
   "note": "REFUTED as stated: slices and results of arithmetic have no titles, slices in time keep all of the times, the trajectories keep the old values when the collection is changed in place, and an ordered dictionary cannot be copied. New collections and their subsystems are as stated, and so is the ordered dictionary."
  },
  {
   "property": "C140",
   "status": "proved",
   "theorems": [
    "C140_atom",
    "C140_trapped",
    "C140_pumping",
    "C140_cavity_made",
    "C140_cavity",
    "C140_initial"
   ],
   "note": "Without phase diffusion (gamma_parallel of 0). Raman.cc and CavityRaman.cc with the model of the multi-level elements; the trapped states are characterised, not only shown to be there."
  },
  {
   "property": "C141",
   "status": "partial",
   "theorems": [
    "C141_own_states_partial",
    "C141_copies_refuted",
    "C141_resumed",
    "C141_fill_partial",
    "C141_fill_refuted"
   ],
   "note": "REFUTED as stated: copies of a GSL engine share its state, and fill constructs the distribution anew, so that distributions with memory lose what they keep between parts. Engines other than copies of GSL ones have states of their own, saved engines are resumed, and distributions without memory fill in parts."
  },
  {
   "property": "C142",
   "status": "partial",
   "theorems": [
    "C142_values_partial",
    "C142_untouched",
    "C142_throw_refuted",
    "C142_assign_refuted"
   ],
   "note": "REFUTED as stated: when += throws because of the frequencies the diagonals have already been added, and assigning an operator to one with other shapes of diagonals (e.g. without off-diagonals) is undefined. Otherwise every program with operators in memory does the same as with values, exceptions included."
  },
  {
   "property": "C143",
   "status": "partial",
   "theorems": [
    "C143_row_major_partial",
    "C143_checked",
    "C143_transposed_refuted",
    "C143_gaps_refuted",
    "C143_size_refuted"
   ],
   "note": "REFUTED as stated: the layout of the array is not checked in the first step, nor ever in release builds, so that the equations of motion see the elements of a transposed array at other places, and those in the gaps of an array are changed; in release builds arrays of another size are not refused. For arrays stored row by row all holds."
  },
  {
   "property": "C144",
   "status": "proved",
   "theorems": [
    "C144_hamiltonian",
    "C144_propagator",
    "C144_master",
    "C144_jump",
    "C144_rates",
    "C144_averages",
    "C144_columns",
    "C144_constituents"
   ],
   "note": "Upon CompositeModel.v. The Hamiltonian: the constituents having one are taken into themselves by the renaming; the propagator: those having one do not share subsystems, as frees; the operators of constituents are functions of the object, so that one object at several places has the same."
  },
  {
   "property": "C145",
   "status": "partial",
   "theorems": [
    "C145_dimensions_partial",
    "C145_made",
    "C145_refused",
    "C145_rearranged",
    "C145_slices",
    "C145_bounds",
    "C145_element",
    "C145_joined",
    "C145_release_refuted"
   ],
   "note": "REFUTED as stated: in release builds the extents for bras are not compared with those for kets, so that an array with other extents is accepted. In debug builds, and in release builds for arrays with equal halves, the dimensions agree with the array after every program."
  }
 ]
}