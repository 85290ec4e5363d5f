{
 "claims": [
  {
   "property": "C01",
   "status": "proved",
   "theorems": [
    "C01_tracking_terminates",
    "C01_tracking_terminates_float32"
   ],
   "note": "Loop modelled with fuel; with exact and with float32 comparisons. Float64 additions are exact in the model."
  },
  {
   "property": "C02",
   "status": "proved",
   "theorems": [
    "C02_bunch_pushed_over_whole_element",
    "C02_unsynchronised_long_step_refuted"
   ],
   "note": "Exact comparisons; the refuted theorem shows the first-step-fits condition is needed without synchronised outputs."
  },
  {
   "property": "C03",
   "status": "proved",
   "theorems": [
    "C03_pushes_tile_the_interval",
    "C03_own_steps_have_requested_length"
   ],
   "note": ""
  },
  {
   "property": "C04",
   "status": "proved",
   "theorems": [
    "C04_output_times",
    "C05_outputs_are_synchronous"
   ],
   "note": ""
  },
  {
   "property": "C05",
   "status": "proved",
   "theorems": [
    "C05_outputs_are_synchronous",
    "C05_one_output_list_per_bunch"
   ],
   "note": ""
  },
  {
   "property": "C06",
   "status": "proved",
   "theorems": [
    "C06_events_in_order",
    "C06_log_explains_state",
    "C06_start_of_the_log"
   ],
   "note": ""
  },
  {
   "property": "C07",
   "status": "proved",
   "theorems": [
    "C07_field_update_times"
   ],
   "note": ""
  },
  {
   "property": "C08",
   "status": "proved",
   "theorems": [
    "C08_even_updates",
    "C08_readjusting_changes_nothing",
    "C08_not_forced_untouched"
   ],
   "note": ""
  },
  {
   "property": "C09",
   "status": "proved",
   "theorems": [
    "C09_rounded_arrival",
    "C09_rounded_order",
    "C09_rounded_outputs",
    "C09_float32_monotone",
    "C09_float32_arrival_error",
    "C09_exact_arrival_refuted",
    "C09_rounding_is_binary32"
   ],
   "note": "Binary32 rounding defined and proved monotone; exact arrival is false (witness)."
  },
  {
   "property": "C10",
   "status": "partial",
   "theorems": [
    "C10_zero_outputs",
    "C10_zero_outputs_accepted_refuted"
   ],
   "note": "False of the code: n_out=0 raises AttributeError before any push."
  },
  {
   "property": "C11",
   "status": "proved",
   "theorems": [
    "C11_wrong_number_of_steps",
    "C11_one_step_for_all",
    "C11_single_bunch_is_a_list",
    "C11_every_bunch_its_own_step",
    "C11_shape_of_the_result",
    "C11_track_returns"
   ],
   "note": "a list holding one bunch is unwrapped as well"
  },
  {
   "property": "C12",
   "status": "proved",
   "theorems": [
    "C12_beamline_visits_in_order",
    "C12_beamline_concatenation",
    "C12_nested_beamline",
    "C12_number_of_entries"
   ],
   "note": "elements are arbitrary stateful objects; with several bunches the per-element lists are concatenated, not merged per bunch"
  },
  {
   "property": "C13",
   "status": "proved",
   "theorems": [
    "C13_times_along_a_beamline",
    "C13_iterations_without_gaps",
    "C13_written_iteration",
    "C13_duplicate_names_rejected",
    "C13_duplicate_names_when_tracking"
   ],
   "note": "beamlines of field elements; exact time comparisons"
  },
  {
   "property": "C14",
   "status": "proved",
   "theorems": [
    "C14_propagation_distance",
    "C14_unknown_pusher",
    "C14_free_before_injection",
    "C14_fields_after_injection",
    "C14_increase_prop_distance",
    "C14_empty_bunch_with_injection",
    "C14_no_memory_in_scratch_arrays",
    "C14_rk4_and_boris"
   ],
   "note": ""
  },
  {
   "property": "C15",
   "status": "partial",
   "theorems": [
    "C15_copy_of_a_valid_bunch",
    "C15_copy_is_independent",
    "C15_all_attributes_refuted"
   ],
   "note": "independence and faithfulness proved; tags, t_flight and z_injection are refuted to be copied"
  },
  {
   "property": "C16",
   "status": "proved",
   "theorems": [
    "C16_bunch_matrix_round_trip",
    "C16_phase_space_rows",
    "C16_set_phase_space",
    "C16_matrix_contents",
    "C16_alternative_matrix_written_back",
    "C16_alternative_round_trip_refuted",
    "C16_alternative_round_trip_without_spread"
   ],
   "note": "includes the refutation for the alternative matrix, which the statement announces"
  },
  {
   "property": "C17",
   "status": "proved",
   "theorems": [
    "C17_reading_and_assigning_charge",
    "C17_reading_charge"
   ],
   "note": ""
  },
  {
   "property": "C18",
   "status": "proved",
   "theorems": [
    "C18_reposition",
    "C18_no_charge"
   ],
   "note": ""
  },
  {
   "property": "C19",
   "status": "proved",
   "theorems": [
    "C19_boris_magnetic_fields_do_no_work"
   ],
   "note": "any number of pushes of any lengths"
  },
  {
   "property": "C20",
   "status": "proved",
   "theorems": [
    "C20_boris_free_push",
    "C20_boris_free_steps_add_up"
   ],
   "note": ""
  },
  {
   "property": "C21",
   "status": "proved",
   "theorems": [
    "C21_boris_time_reversal",
    "C21_boris_injective"
   ],
   "note": ""
  },
  {
   "property": "C22",
   "status": "proved",
   "theorems": [
    "C22_boris_electric_kick"
   ],
   "note": ""
  },
  {
   "property": "C23",
   "status": "proved",
   "theorems": [
    "C23_rk4_is_the_classical_method",
    "C23_rk4_free_drift"
   ],
   "note": ""
  },
  {
   "property": "C24",
   "status": "proved",
   "theorems": [
    "C24_boris_particles_independent",
    "C24_rk4_particles_independent"
   ],
   "note": "selections, concatenations and permutations"
  },
  {
   "property": "C25",
   "status": "partial",
   "theorems": [
    "C25_superposition",
    "C25_order_and_old_contents_do_not_matter",
    "C25_quadrupole_adds",
    "C25_azimuthal_field_adds",
    "C25_any_field_first",
    "C25_blowout_fields_refuted"
   ],
   "note": "proved for fields that add to the arrays and for one arbitrary analytical field listed first; the claim for arbitrary field lists is refuted because the blowout wakefields assign"
  },
  {
   "property": "C26",
   "status": "proved",
   "theorems": [
    "C26_gathering_adds",
    "C26_outside",
    "C26_inside",
    "C26_grid_point",
    "C26_exact",
    "C26_between",
    "C26_continuous",
    "C26_towards_axis",
    "C26_on_axis_refuted",
    "C26_scalar"
   ],
   "note": "the claim that transverse fields vanish on axis holds in the limit (C26_towards_axis, C26_continuous); for a particle exactly on axis the call fails (C26_on_axis_refuted)"
  },
  {
   "property": "C27",
   "status": "proved",
   "theorems": [
    "C27_regrid",
    "C27_exact",
    "C27_same_grid"
   ],
   "note": ""
  },
  {
   "property": "C28",
   "status": "proved",
   "theorems": [
    "C28_beam",
    "C28_plasma"
   ],
   "note": ""
  },
  {
   "property": "C29",
   "status": "partial",
   "theorems": [
    "C29_in_bounds",
    "C29_plasma_in_bounds",
    "C29_outside",
    "C29_guards_partial",
    "C29_plasma_guards_partial",
    "C29_linear_refuted",
    "C29_cubic_refuted"
   ],
   "note": "in bounds always; guard cells clean on guarded_grid; refuted otherwise (linear: nz<=nr; cubic: nr=2)"
  },
  {
   "property": "C30",
   "status": "proved",
   "theorems": [
    "C30_order",
    "C30_plasma_order",
    "C30_append",
    "C30_scaling"
   ],
   "note": ""
  },
  {
   "property": "C31",
   "status": "partial",
   "theorems": [
    "C31_longitudinal",
    "C31_radial",
    "C31_plasma_longitudinal",
    "C31_plasma_radial",
    "C31_linear_refuted"
   ],
   "note": "longitudinal moment proved where the radial test does not interfere (linear) or a cell away from the ends (cubic); C31_linear_refuted shows the finding"
  },
  {
   "property": "C32",
   "status": "partial",
   "theorems": [
    "C32_rows_partial",
    "C32_last_row",
    "C32_equal_tail",
    "C32_refuted",
    "C32_small_refuted"
   ],
   "note": "All rows but the last are proved; the full claim is refuted (C32_refuted, C32_small_refuted) and the equation that replaces the last row is proved."
  },
  {
   "property": "C33",
   "status": "partial",
   "theorems": [
    "C33_scheme",
    "C33_output",
    "C33_params",
    "C33_same_params",
    "C33_rejected",
    "C33_grid_change_refuted",
    "C33_evolve_early",
    "C33_init_early",
    "C33_init_once",
    "C33_init_values",
    "C33_init_ahead"
   ],
   "note": "History theorem for the choice of scheme, initialisation, re-setting; the claim that the grid cannot be changed is refuted."
  },
  {
   "property": "C34",
   "status": "partial",
   "theorems": [
    "C34_sum",
    "C34_mismatch",
    "C34_polarisation_refuted"
   ],
   "note": "Polarisation of the sum is refuted; the rest is proved."
  },
  {
   "property": "C35",
   "status": "proved",
   "theorems": [
    "C35_levels",
    "C35_substeps"
   ],
   "note": ""
  },
  {
   "property": "C36",
   "status": "proved",
   "theorems": [
    "C36_length",
    "C36_first",
    "C36_multiples",
    "C36_small_jumps",
    "C36_smooth",
    "C36_angle"
   ],
   "note": ""
  },
  {
   "property": "C37",
   "status": "proved",
   "theorems": [
    "C37_identity",
    "C37_compose",
    "C37_determinant",
    "C37_track",
    "C37_particles"
   ],
   "note": "Any bending angle and quadrupole strength, including zero."
  },
  {
   "property": "C38",
   "status": "partial",
   "theorems": [
    "C38_outputs",
    "C38_csr",
    "C38_end",
    "C38_none",
    "C38_initial_refuted",
    "C38_independent",
    "C38_defined",
    "C38_kinds"
   ],
   "note": "Proved for all outputs; with the initial copy and no number of outputs the bunch does not advance (C38_initial_refuted)."
  },
  {
   "property": "C39",
   "status": "partial",
   "theorems": [
    "C39_history_partial",
    "C39_kept_energy",
    "C39_refuted",
    "C39_plasma_refuted"
   ],
   "note": "False in general: transfer-map elements keep the energy of the first bunch (C39_refuted), plasma elements continue the clock of the previous run (C39_plasma_refuted). Proved for transfer-map elements with a given reference energy without CSR."
  },
  {
   "property": "C40",
   "status": "proved",
   "theorems": [
    "C40_downramp",
    "C40_decay_length",
    "C40_shape",
    "C40_flat",
    "C40_mirror",
    "C40_custom",
    "C40_unknown_name",
    "C40_documented_name_refuted",
    "C40_missing",
    "C40_ramp_type_refuted"
   ],
   "note": "Findings: the documented name 'inverse square' is rejected, unknown ramp types give a down-ramp."
  },
  {
   "property": "C41",
   "status": "proved",
   "theorems": [
    "C41_supported",
    "C41_fields",
    "C41_ramp",
    "C41_lens_alone",
    "C41_lens_wakefields",
    "C41_lens_no_density",
    "C41_quadrupole",
    "C41_linear_dt",
    "C41_linear_dt_infinite",
    "C41_stage_dt",
    "C41_stage_dt_monotone",
    "C41_stage_dt_refuted"
   ],
   "note": "Finding: the automatic step misses density peaks between the 100 samples (C41_stage_dt_refuted)."
  },
  {
   "property": "C42",
   "status": "partial",
   "theorems": [
    "C42_column",
    "C42_slices",
    "C42_positive",
    "C42_at_rest_refuted"
   ],
   "note": "Proved for all electrons below max_gamma, with positive densities. Refuted part: electrons that are put at rest keep psi and a^2, so they are not on the mass shell (C42_at_rest_refuted)."
  },
  {
   "property": "C43",
   "status": "proved",
   "theorems": [
    "C43_ab5",
    "C43_rk4",
    "C43_symmetric",
    "C43_nonneg",
    "C43_slices",
    "C43_path"
   ],
   "note": "The rk4 pusher: each step is the reflected step of electrons on both sides; the ab5 pusher: whole histories."
  },
  {
   "property": "C44",
   "status": "proved",
   "theorems": [
    "C44_ab5",
    "C44_rk4"
   ],
   "note": "Real arithmetic."
  },
  {
   "property": "C45",
   "status": "proved",
   "theorems": [
    "C45_grid",
    "C45_other_slices",
    "C45_guards",
    "C45_storage",
    "C45_gauss",
    "C45_continuous",
    "C45_outside",
    "C45_particles",
    "C45_bounds"
   ],
   "note": "Real arithmetic; radii positive; at the particles distinct radii. Finding: on the grid the potential vanishes at max(r_N, r_max), at the particles at max(r_N + dr_p/2, r_max)."
  },
  {
   "property": "C46",
   "status": "proved",
   "theorems": [
    "C46_field",
    "C46_unique",
    "C46_quiet",
    "C46_terminates",
    "C46_edge_terminates",
    "C46_edge",
    "C46_bounded",
    "C46_precision",
    "C46_edge_precision"
   ],
   "note": "Real arithmetic for the values (termination and bound: any rounding). Distinct positive radii, positive charges, 1+psi > 0. Findings: the last middle point is r_N + dr_p/4, that of psi r_N + dr_p/2; calculate_ai_bi_from_edge is never called."
  },
  {
   "property": "C47",
   "status": "proved",
   "theorems": [
    "C47_column",
    "C47_extent",
    "C47_neutral",
    "C47_neutral_refuted",
    "C47_quiet"
   ],
   "note": "Uniform column neutral; with a parabolic profile charge is missing (C47_neutral_refuted)."
  },
  {
   "property": "C48",
   "status": "proved",
   "theorems": [
    "C48_field",
    "C48_total",
    "C48_order",
    "C48_linear",
    "C48_rotation"
   ],
   "note": "Outside means two cells from every particle. The charge of cell j within its centre is taken as half (first cell: a quarter)."
  },
  {
   "property": "C49",
   "status": "partial",
   "theorems": [
    "C49_steps",
    "C49_outputs",
    "C49_rounding_refuted",
    "C49_table",
    "C49_points",
    "C49_arc",
    "C49_ranges",
    "C49_clear_partial",
    "C49_clear_refuted"
   ],
   "note": "Exact arithmetic: proved. In binary64 a step can be lost (C49_rounding_refuted); clearing does not forget the step sizes (C49_clear_refuted)."
  },
  {
   "property": "C50",
   "status": "proved",
   "theorems": [
    "C50_twiss",
    "C50_size",
    "C50_matched",
    "C50_number",
    "C50_counts",
    "C50_when"
   ],
   "note": "The magnitude is that of q_tot; the sign is that of q_species, whatever the sign of q_tot."
  },
  {
   "property": "C51",
   "status": "proved",
   "theorems": [
    "C51_same",
    "C51_inverse",
    "C51_sizes"
   ],
   "note": "Real arithmetic."
  },
  {
   "property": "C52",
   "status": "proved",
   "theorems": [
    "C52_round_trip",
    "C52_backward",
    "C52_back",
    "C52_coordinates",
    "C52_mean"
   ],
   "note": "For pz >= 0; for pz < 0 the sign is lost (C52_backward)."
  },
  {
   "property": "C53",
   "status": "proved",
   "theorems": [
    "C53_compose",
    "C53_inverse",
    "C53_lengths",
    "C53_direction"
   ],
   "note": ""
  },
  {
   "property": "C54",
   "status": "proved",
   "theorems": [
    "C54_one",
    "C54_others",
    "C54_read",
    "C54_fails",
    "C54_other_format",
    "C54_centred",
    "C54_positions",
    "C54_round_trip",
    "C54_centred_bunch",
    "C54_distance_refuted"
   ],
   "note": "For a library that returns what it stored. Extra: the distance travelled is lost in a round trip (C54_distance_refuted)."
  },
  {
   "property": "C55",
   "status": "proved",
   "theorems": [
    "C55_quadrupole_force",
    "C55_positive_gradient_focuses_electrons_in_x",
    "C55_plasma_lens_field"
   ],
   "note": ""
  },
  {
   "property": "C56",
   "status": "proved",
   "theorems": [
    "C56_ion_column",
    "C56_custom_blowout",
    "C56_simple_blowout"
   ],
   "note": ""
  },
  {
   "property": "C57",
   "status": "proved",
   "theorems": [
    "C57_boris_is_the_centred_lorentz_force"
   ],
   "note": ""
  },
  {
   "property": "C58",
   "status": "partial",
   "theorems": [
    "C58_scratch_arrays_follow_the_bunch_refuted",
    "C14_no_memory_in_scratch_arrays"
   ],
   "note": "holds for pushes (fits is preserved, C14_no_memory_in_scratch_arrays); refuted after a change of the particle number"
  },
  {
   "property": "C59",
   "status": "proved",
   "theorems": [
    "C59_openpmd_data"
   ],
   "note": ""
  },
  {
   "property": "C60",
   "status": "partial",
   "theorems": [
    "C60_automatic_names_are_distinct",
    "C60_given_names_are_kept",
    "C60_all_names_distinct_refuted",
    "C60_new_bunch"
   ],
   "note": "automatic names distinct; refuted against user-chosen names"
  },
  {
   "property": "C61",
   "status": "proved",
   "theorems": [
    "C61_bunches_on_the_same_arrays_move_together",
    "C61_caller_arrays_unchanged_refuted"
   ],
   "note": "the contrary expectation is refuted by C61_caller_arrays_unchanged_refuted"
  },
  {
   "property": "C62",
   "status": "partial",
   "theorems": [
    "C62_sources_inside",
    "C62_sources_of_present_position_refuted"
   ],
   "note": "refuted for particles beyond the last radial point"
  },
  {
   "property": "C63",
   "status": "partial",
   "theorems": [
    "C63_linear",
    "C63_cubic_partial",
    "C63_cubic_edge_refuted"
   ],
   "note": "cubic: last two cells off by pi dr^2/960, proved as C63_cubic_edge_refuted"
  },
  {
   "property": "C64",
   "status": "proved",
   "theorems": [
    "C64_beam",
    "C64_plasma"
   ],
   "note": ""
  },
  {
   "property": "C65",
   "status": "partial",
   "theorems": [
    "C65_beam",
    "C65_plasma_refuted"
   ],
   "note": "proved for beams; C65_plasma_refuted for the plasma"
  },
  {
   "property": "C66",
   "status": "partial",
   "theorems": [
    "C66_centered_partial",
    "C66_first_partial",
    "C66_phase"
   ],
   "note": "All nodes but those at the outermost radius (consequence of C32)."
  },
  {
   "property": "C67",
   "status": "proved",
   "theorems": [
    "C67_laguerre",
    "C67_gaussian",
    "C67_peak",
    "C67_modes",
    "C67_flattened",
    "C67_flattened_modes",
    "C67_flattened_0"
   ],
   "note": ""
  },
  {
   "property": "C68",
   "status": "proved",
   "theorems": [
    "C68_bounds",
    "C68_decreasing",
    "C68_vacuum",
    "C68_dispersion"
   ],
   "note": ""
  },
  {
   "property": "C69",
   "status": "proved",
   "theorems": [
    "C69_causality"
   ],
   "note": ""
  },
  {
   "property": "C70",
   "status": "partial",
   "theorems": [
    "C70_hamilton",
    "C70_initial",
    "C70_equations_partial",
    "C70_compose",
    "C70_combined_error",
    "C70_sextupole_error",
    "C70_combined_refuted",
    "C70_resonant_refuted",
    "C70_sextupole_dipole_refuted"
   ],
   "note": "Full for elements without bending and for plain dipoles; for combined-function dipoles the exact scope and the counterexamples are proved (C70_*_refuted, C70_combined_error)."
  },
  {
   "property": "C71",
   "status": "proved",
   "theorems": [
    "C71_equations",
    "C71_symplectic"
   ],
   "note": ""
  },
  {
   "property": "C72",
   "status": "proved",
   "theorems": [
    "C72_distance",
    "C72_start",
    "C72_long_range",
    "C72_short_range",
    "C72_kernel",
    "C72_interpolation"
   ],
   "note": ""
  },
  {
   "property": "C73",
   "status": "proved",
   "theorems": [
    "C73_straight",
    "C73_defined",
    "C73_energy_only",
    "C73_charge",
    "C73_histogram",
    "C73_range",
    "C73_smoothing",
    "C73_value",
    "C73_between"
   ],
   "note": ""
  },
  {
   "property": "C74",
   "status": "proved",
   "theorems": [
    "C74_trajectory",
    "C74_reference_particle",
    "C74_coordinates",
    "C74_split",
    "C74_drift"
   ],
   "note": ""
  },
  {
   "property": "C75",
   "status": "partial",
   "theorems": [
    "C75_backward",
    "C75_refuted"
   ],
   "note": "False (C75_refuted); C75_backward states what happens."
  },
  {
   "property": "C76",
   "status": "proved",
   "theorems": [
    "C76_created",
    "C76_synchronous",
    "C76_laser_density",
    "C76_last_update",
    "C76_rounding_refuted"
   ],
   "note": "For elements not used before, in exact arithmetic; rounding counterexample C76_rounding_refuted."
  },
  {
   "property": "C77",
   "status": "partial",
   "theorems": [
    "C77_longitudinal",
    "C77_longitudinal_refuted"
   ],
   "note": "Holds for uniform profiles or while no electron is beyond the edge; otherwise false (C77_longitudinal_refuted)."
  },
  {
   "property": "C78",
   "status": "proved",
   "theorems": [
    "C78_causal"
   ],
   "note": "E_z one slice further behind, because of the central difference."
  },
  {
   "property": "C79",
   "status": "partial",
   "theorems": [
    "C79_undriven_refuted"
   ],
   "note": "Refuted: C79_undriven_refuted gives valid arguments with a nonzero magnetic field in the first slice."
  },
  {
   "property": "C80",
   "status": "proved",
   "theorems": [
    "C80_total",
    "C80_pusher",
    "C80_shape",
    "C80_points"
   ],
   "note": "Divisions by zero (coinciding radii, electrons on axis) are not modelled."
  },
  {
   "property": "C81",
   "status": "proved",
   "theorems": [
    "C81_fields",
    "C81_panofsky_wenzel",
    "C81_gradient",
    "C81_intensity",
    "C81_sources"
   ],
   "note": "Real arithmetic."
  },
  {
   "property": "C82",
   "status": "proved",
   "theorems": [
    "C82_column",
    "C82_electrons",
    "C82_slice",
    "C82_start",
    "C82_rings"
   ],
   "note": "For electrons at distinct radii off the axis, as at the start (C82_rings); coinciding radii divide by zero in the code."
  },
  {
   "property": "C83",
   "status": "proved",
   "theorems": [
    "C83_particles",
    "C83_twiss",
    "C83_length",
    "C83_matched",
    "C83_gradient",
    "C83_unmatched",
    "C83_stays"
   ],
   "note": "Real arithmetic; normal and truncated normal numbers are standard ones, scaled and shifted."
  },
  {
   "property": "C84",
   "status": "proved",
   "theorems": [
    "C84_list",
    "C84_lengths",
    "C84_keys",
    "C84_fails",
    "C84_list_done"
   ],
   "note": "Functions of aptools are parameters."
  },
  {
   "property": "C85",
   "status": "proved",
   "theorems": [
    "C85_solution",
    "C85_unique",
    "C85_method",
    "C85_plasma_frequency",
    "C85_particles",
    "C85_local",
    "C85_drivers",
    "C85_phase",
    "C85_polarization"
   ],
   "note": "Real arithmetic; densities and B where 1 + psi is not zero."
  },
  {
   "property": "C86",
   "status": "proved",
   "theorems": [
    "C86_quiet"
   ],
   "note": "Real arithmetic."
  },
  {
   "property": "C87",
   "status": "proved",
   "theorems": [
    "C87_causal"
   ],
   "note": "Real arithmetic; densities and B where 1 + psi is not zero."
  },
  {
   "property": "C88",
   "status": "partial",
   "theorems": [
    "C88_panofsky_wenzel",
    "C88_laser_only",
    "C88_own_field",
    "C88_no_bunch_fields_refuted",
    "C88_uniform_current",
    "C88_axis_refuted"
   ],
   "note": "Panofsky-Wenzel holds; without beam_wakefields density, susceptibility, E_z and E_r - cB do not depend on the bunches, but B and E_r do (C88_no_bunch_fields_refuted). The current in the first ring is doubled (C88_axis_refuted)."
  },
  {
   "property": "C89",
   "status": "proved",
   "theorems": [
    "C89_points",
    "C89_shape",
    "C89_returns"
   ],
   "note": "Real arithmetic; 1 + psi = 0 would be inf in numpy, not an error."
  },
  {
   "property": "C90",
   "status": "proved",
   "theorems": [
    "C90_updates",
    "C90_memoryless",
    "C90_steady_qs",
    "C90_steady_fluid",
    "C90_total_qs",
    "C90_total_fluid"
   ],
   "note": "Real arithmetic. Solver, envelope function and regridding are arbitrary functions in C90_updates and C90_memoryless."
  },
  {
   "property": "C91",
   "status": "proved",
   "theorems": [
    "C91_polarization",
    "C91_phase",
    "C91_no_laser",
    "C91_size",
    "C91_coefficient",
    "C91_no_driver"
   ],
   "note": "Real arithmetic. Broadcasting of envelopes with one row or column is not modelled."
  },
  {
   "property": "C92",
   "status": "partial",
   "theorems": [
    "C92_meshes",
    "C92_felt",
    "C92_last_wins",
    "C92_envelope_units_refuted"
   ],
   "note": "All values, coordinates and attributes as stated, except that the dimensionless envelope is given the units of a vector potential (C92_envelope_units_refuted); of two wakefields the fields of the last remain (C92_last_wins). HDF5 itself is not modelled."
  },
  {
   "property": "C93",
   "status": "proved",
   "theorems": [
    "C93_species",
    "C93_same_name",
    "C93_units",
    "C93_weighting"
   ],
   "note": "Real arithmetic; HDF5 itself is not modelled. C93_units and C93_weighting state the attributes."
  },
  {
   "property": "C94",
   "status": "proved",
   "theorems": [
    "C94_any_schedule",
    "C94_terminates",
    "C94_loops_own",
    "C94_boris",
    "C94_rk4",
    "C94_executions",
    "C94_beyond",
    "C94_grid",
    "C94_gather_field",
    "C94_shared_cell"
   ],
   "note": "Real arithmetic (the order of floating-point operations within an iteration is fixed by the code, but calculate_k is compiled with fastmath). Single reads and writes of entries are atomic and sequentially consistent; as the loops have no data race, weaker memory models give the same. Fields compiled by users are assumed to touch only entry i, as all fields of the library. Deposition: C94_shared_cell is about a loop of the same shape."
  },
  {
   "property": "C95",
   "status": "proved",
   "theorems": [
    "C95_beginning",
    "C95_first_exception",
    "C95_undisturbed",
    "C95_session",
    "C95_threads_restored_refuted"
   ],
   "note": "All as stated. The stronger expectation that the number of threads survives an exception is refuted (C95_threads_restored_refuted). The progress bar and the bytes of a file being written when the exception occurs are not modelled."
  },
  {
   "property": "C96",
   "status": "proved",
   "theorems": [
    "C96_exact",
    "C96_ticks",
    "C96_output_count",
    "C96_update_count",
    "C96_arrival",
    "C96_terminates",
    "C96_clear_test",
    "C96_last_output_refuted",
    "C96_rounding_is_binary64",
    "C96_rounding_to_nearest"
   ],
   "note": "All as stated. The unconditional claim that no output is lost is refuted (C96_last_output_refuted). Overflow and not-a-number are not modelled; the pushes themselves are arbitrary functions."
  },
  {
   "property": "C97",
   "status": "proved",
   "theorems": [
    "C97_tracked_together_as_alone",
    "C97_other_bunches_do_not_matter"
   ],
   "note": "any rounding of compared times"
  },
  {
   "property": "C98",
   "status": "proved",
   "theorems": [
    "C98_outputs_do_not_perturb",
    "C98_synchronised_outputs_refuted"
   ],
   "note": "the second theorem shows that the restriction to unsynchronised outputs is needed"
  },
  {
   "property": "C99",
   "status": "proved",
   "theorems": [
    "C99_tracking_keeps_particles_and_weights",
    "C99_whole_simulations"
   ],
   "note": "exact arithmetic; bunches do not share arrays"
  },
  {
   "property": "C100",
   "status": "proved",
   "theorems": [
    "C100_empty_element_is_free_flight"
   ],
   "note": "exact arithmetic; bunches do not share arrays"
  },
  {
   "property": "C101",
   "status": "proved",
   "theorems": [
    "C101_magnets_keep_the_energy"
   ],
   "note": "exact arithmetic; bunches do not share arrays"
  },
  {
   "property": "C102",
   "status": "proved",
   "theorems": [
    "C102_no_effect",
    "C102_positions",
    "C102_advances_to_the_end",
    "C102_hidden",
    "C102_left_open",
    "C102_text"
   ],
   "note": "tqdm itself is not modelled: a bar is its position and whether it is closed"
  },
  {
   "property": "C103",
   "status": "proved",
   "theorems": [
    "C103_values",
    "C103_smooth_edges",
    "C103_edge_factor",
    "C103_filter",
    "C103_moves_with_the_grid",
    "C103_constructor"
   ],
   "note": "what lasy computes at a point of its grid and scipy's filter are parameters"
  },
  {
   "property": "C104",
   "status": "proved",
   "theorems": [
    "C104_latest_settings",
    "C104_fixed_on_entry",
    "C104_emptied",
    "C104_after_reset_refuted"
   ],
   "note": "the last theorem shows why the calculator must not have been cleared: step sizes are then those of an element tracked before the reset"
  },
  {
   "property": "C105",
   "status": "partial",
   "theorems": [
    "C105_saved",
    "C105_round_trip",
    "C105_new_h5py_refuted",
    "C105_missing",
    "C105_bunch",
    "C105_species_refuted",
    "C105_analysis_is_a_dict"
   ],
   "note": "reading works with h5py before 3.0 only: Dataset.value was removed, so with a newer version (setup.cfg sets no limit) every non-empty file raises AttributeError (C105_new_h5py_refuted)"
  },
  {
   "property": "C106",
   "status": "proved",
   "theorems": [
    "C106_turned_run",
    "C106_rotations",
    "C106_axisymmetric_fields",
    "C106_quadrupole_refuted",
    "C106_automatic_steps"
   ],
   "note": "exact arithmetic; the quadrupole is excluded by the statement (C106_quadrupole_refuted shows why)"
  },
  {
   "property": "C107",
   "status": "proved",
   "theorems": [
    "C107_same_distribution_same_run",
    "C107_reordering",
    "C107_splitting",
    "C107_automatic_steps"
   ],
   "note": "exact arithmetic: with floats sums depend on the order"
  },
  {
   "property": "C108",
   "status": "proved",
   "theorems": [
    "C108_superposition",
    "C108_push",
    "C108_push_raises",
    "C108_update",
    "C108_adjusted",
    "C108_adjusted_run",
    "C108_analytical_only"
   ],
   "note": "an exception is recorded in the state instead of ending the run: see Model_Sim.v"
  },
  {
   "property": "C109",
   "status": "proved",
   "theorems": [
    "C109_test_bunch",
    "C109_any_test_bunch"
   ],
   "note": "exact arithmetic in the fields; for runs in which no field update raises"
  },
  {
   "property": "C110",
   "status": "proved",
   "theorems": [
    "C110_causality",
    "C110_bunch_ahead",
    "C110_bunch_behind"
   ],
   "note": "exact arithmetic; statements about bunches and fields hold as far as no calculation of either run raises; five cells are an upper bound"
  },
  {
   "property": "C111",
   "status": "proved",
   "theorems": [
    "C111_mode",
    "C111_gaussian",
    "C111_modes",
    "C111_flattened",
    "C111_duration"
   ],
   "note": "exact arithmetic; up to constants, energy is the integral of |a|^2 r dr"
  },
  {
   "property": "C112",
   "status": "proved",
   "theorems": [
    "C112_sum",
    "C112_single",
    "C112_flattened"
   ],
   "note": "exact arithmetic"
  },
  {
   "property": "C113",
   "status": "proved",
   "theorems": [
    "C113_order",
    "C113_divided"
   ],
   "note": "exact arithmetic for fields and particles; times compared with any rounding; for divisions: fixed steps and no injection positions (automatic steps and injection depend on the bunch as a whole)"
  },
  {
   "property": "C114",
   "status": "proved",
   "theorems": [
    "C114_analytical_elements",
    "C114_analytical_elements_float32",
    "C114_conditions"
   ],
   "note": ""
  },
  {
   "property": "C115",
   "status": "proved",
   "theorems": [
    "C115_pushes",
    "C115_tracking_is_stepping",
    "C115_number_of_outputs",
    "C115_divided_element",
    "C115_time_dependent_refuted"
   ],
   "note": "exact arithmetic and comparisons; C115_time_dependent_refuted shows that the restriction to fields constant in time is needed"
  },
  {
   "property": "C116",
   "status": "proved",
   "theorems": [
    "C116_tracking_converges",
    "C116_second_order",
    "C116_rk4_fourth_order",
    "C116_motion_is_unique",
    "C116_element_fields_are_regular"
   ],
   "note": "exact arithmetic and comparisons; first order in the step for fields that vary at a bounded rate, second order for smooth fields with both pushers, fourth order with RK4"
  },
  {
   "property": "C117",
   "status": "proved",
   "theorems": [
    "C117_boris_preserves_volume",
    "C117_tracking_preserves_volume",
    "C117_element_fields_are_differentiable",
    "C117_rk4_changes_volume"
   ],
   "note": "exact arithmetic; fields given as functions of position and time (not of the distribution of the particles); whole runs with a fixed step and no delayed injection (an automatic step depends on the particles)"
  },
  {
   "property": "C118",
   "status": "proved",
   "theorems": [
    "C118_alone",
    "C118_lists",
    "C118_external_fields",
    "C118_documented_example_refuted",
    "C118_library_fields",
    "C118_no_fields",
    "C118_linear_lists"
   ],
   "note": "exact arithmetic; component functions that treat each particle separately, as in the library and its documentation"
  },
  {
   "property": "C119",
   "status": "proved",
   "theorems": [
    "C119_momentum_gain",
    "C119_circle",
    "C119_exact_motion",
    "C119_phase"
   ],
   "note": "exact arithmetic and comparisons; bunches without delayed injection"
  },
  {
   "property": "C120",
   "status": "proved",
   "theorems": [
    "C120_angular_momentum",
    "C120_plane",
    "C120_axis",
    "C120_rk4_changes_it"
   ],
   "note": "exact arithmetic of fields and particles; any rounding of the clocks; runs that raise are covered up to the exception (a particle exactly on the axis of a wakefield on a grid raises ZeroDivisionError)"
  },
  {
   "property": "C121",
   "status": "proved",
   "theorems": [
    "C121_speed_limit",
    "C121_slippage"
   ],
   "note": "exact arithmetic and clocks; runs with push_bunches_before_diags (the default)"
  },
  {
   "property": "C122",
   "status": "proved",
   "theorems": [
    "C122_gain_limit",
    "C122_gain_limit_rk4",
    "C122_limit_is_attained",
    "C122_ion_column"
   ],
   "note": "exact arithmetic and clocks; external fields (no wakefields on a grid); runs with push_bunches_before_diags (the default)"
  }
 ]
}