{
 "claims": [
  {
   "property": "C01",
   "status": "proved",
   "theorems": [
    "C01_total_time",
    "C01_times_increase"
   ],
   "note": "for any fuel; times strictly increase for positive steps"
  },
  {
   "property": "C02",
   "status": "proved",
   "theorems": [
    "C02_fixed_steps",
    "C02_terminates",
    "C02_nonpositive_step"
   ],
   "note": "record times, number of passes, termination bound, and non-termination for a non-positive step"
  },
  {
   "property": "C03",
   "status": "proved",
   "theorems": [
    "C03_bounds"
   ],
   "note": ""
  },
  {
   "property": "C04",
   "status": "proved",
   "theorems": [
    "C04_increasing",
    "C04_increasing_exact",
    "C04_small_creep"
   ],
   "note": ""
  },
  {
   "property": "C05",
   "status": "proved",
   "theorems": [
    "C05_gaps",
    "C05_merge_hull"
   ],
   "note": ""
  },
  {
   "property": "C06",
   "status": "proved",
   "theorems": [
    "C06_aligned"
   ],
   "note": ""
  },
  {
   "property": "C07",
   "status": "proved",
   "theorems": [
    "C07_nonnegative",
    "C07_negative_not_accepted",
    "C07_error"
   ],
   "note": ""
  },
  {
   "property": "C08",
   "status": "proved",
   "theorems": [
    "C08_split_default",
    "C08_split_given",
    "C08_boundary_bins"
   ],
   "note": ""
  },
  {
   "property": "C09",
   "status": "proved",
   "theorems": [
    "C09_conservation",
    "C09_reports"
   ],
   "note": "every step of every run from every reachable state"
  },
  {
   "property": "C10",
   "status": "proved",
   "theorems": [
    "C10_limits"
   ],
   "note": "every pass of every run from every reachable state; positivity, limits and maximality"
  },
  {
   "property": "C11",
   "status": "proved",
   "theorems": [
    "C11_no_bad_bins"
   ],
   "note": "rate reuse with subgroups is outside the statement: group 0 lower edges are nudged by 1e-10 when groups are re-gridded, and with reuse the nudges may accumulate"
  },
  {
   "property": "C12",
   "status": "proved",
   "theorems": [
    "C12_no_negative_density",
    "C12_absolute_escape",
    "C12_large_density_change"
   ],
   "note": "plus two runs in which the error is raised when the conditions on absolute rates or max_density_change are dropped"
  },
  {
   "property": "C13",
   "status": "proved",
   "theorems": [
    "C13_reuse_in_time"
   ],
   "note": "all passes, all bins; position equation for runs without subgroups"
  },
  {
   "property": "C14",
   "status": "proved",
   "theorems": [
    "C14_fresh_rates"
   ],
   "note": ""
  },
  {
   "property": "C15",
   "status": "proved",
   "theorems": [
    "C15_no_nan_reported",
    "C15_no_nan_used"
   ],
   "note": ""
  },
  {
   "property": "C16",
   "status": "partial",
   "theorems": [
    "C16_callback_partial",
    "C16_callback_equal_partial",
    "C16_callback_refuted"
   ],
   "note": "false as stated: the callback gets relative and absolute rates exchanged (C16_callback_refuted); everything else agrees (C16_callback_partial), so the records are equal exactly when the two dictionaries are (C16_callback_equal_partial)"
  },
  {
   "property": "C17",
   "status": "partial",
   "theorems": [
    "C17_heun_partial",
    "C17_heun_refuted",
    "C17_heun_groups_partial"
   ],
   "note": "proved for one group (C17_heun_partial); with subgroups the edges, injections and starting state are right (C17_heun_groups_partial) but the particles carried are those of the predicted split, so the property is false (C17_heun_refuted)"
  },
  {
   "property": "C18",
   "status": "proved",
   "theorems": [
    "C18_accepts",
    "C18_rejects",
    "C18_stored",
    "C18_functions",
    "C18_valid"
   ],
   "note": "constructor checks: accepted exactly under the conditions of record `accepted`, what is stored, errors for the rest"
  },
  {
   "property": "C19",
   "status": "proved",
   "theorems": [
    "C19_group_sum",
    "C19_no_groups",
    "C19_total",
    "C19_unlisted",
    "C19_edges"
   ],
   "note": ""
  },
  {
   "property": "C20",
   "status": "proved",
   "theorems": [
    "C20_default",
    "C20_empty_range"
   ],
   "note": "default grid; the statement records the degenerate range"
  },
  {
   "property": "C21",
   "status": "proved",
   "theorems": [
    "C21_arrays",
    "C21_subgroups",
    "C21_dictionaries",
    "C21_meaning"
   ],
   "note": ""
  },
  {
   "property": "C22",
   "status": "proved",
   "theorems": [
    "C22_agreement",
    "C22_outside",
    "C22_empty",
    "C22_zero_inside",
    "C22_boundary_inside"
   ],
   "note": "agreement at non-zero densities, zero outside the support, EmptyDistribution; the two exceptions named in the statement are shown by concrete runs (C22_zero_inside, C22_boundary_inside). Needs numpy_exact (10**log10 x = x, Pchip through its nodes)"
  },
  {
   "property": "C23",
   "status": "proved",
   "theorems": [
    "C23_loop",
    "C23_restart",
    "C23_restart_positive"
   ],
   "note": "loop splitting for any configuration; restart at the level of the API for fixed steps without rate reuse"
  },
  {
   "property": "C24",
   "status": "proved",
   "theorems": [
    "C24_remove_empty"
   ],
   "note": ""
  },
  {
   "property": "C25",
   "status": "proved",
   "theorems": [
    "C25_nothing_acts"
   ],
   "note": "hypotheses in the record inert: positive increasing grid inside the bounds, gaps above the merge threshold, split summing to one"
  },
  {
   "property": "C26",
   "status": "proved",
   "theorems": [
    "C26_groups"
   ],
   "note": ""
  },
  {
   "property": "C27",
   "status": "proved",
   "theorems": [
    "C27_failing",
    "C27_well_formed",
    "C27_untouched"
   ],
   "note": ""
  },
  {
   "property": "C28",
   "status": "proved",
   "theorems": [
    "C28_support",
    "C28_positive",
    "C28_array"
   ],
   "note": "All five analytic classes, exact real arithmetic, positive Lorentz factors."
  },
  {
   "property": "C29",
   "status": "proved",
   "theorems": [
    "C29_analytic",
    "C29_interpolated",
    "C29_array",
    "C29_empty_has_none"
   ],
   "note": "Coquelicot derivative inside the range and off the break; also InterpolatedDistribution given that derivative() is the derivative of the interpolator."
  },
  {
   "property": "C30",
   "status": "proved",
   "theorems": [
    "C30_total_density",
    "C30_total_energy_density",
    "C30_total_energy",
    "C30_succeeds",
    "C30_missing_limits"
   ],
   "note": "Exact endpoints of np.logspace (no rounding); np.trapz; also success for every proper range and the UnboundLocalError without limits."
  },
  {
   "property": "C31",
   "status": "proved",
   "theorems": [
    "C31_value",
    "C31_division_by_zero"
   ],
   "note": "Value when the range contains 1; division by zero (inf/nan, NonFinite in the model) otherwise."
  },
  {
   "property": "C32",
   "status": "proved",
   "theorems": [
    "C32_linear",
    "C32_loglog"
   ],
   "note": "trapz for every factor; trapz_loglog for positive factors without clipping."
  },
  {
   "property": "C33",
   "status": "proved",
   "theorems": [
    "C33_one_call",
    "C33_interior",
    "C33_drift"
   ],
   "note": "One call: ends only, below 1e-10; over a sequence of calls the default grid drifts beyond every bound."
  },
  {
   "property": "C34",
   "status": "proved",
   "theorems": [
    "C34_continuous",
    "C34_values",
    "C34_equal_indices"
   ],
   "note": ""
  },
  {
   "property": "C35",
   "status": "proved",
   "theorems": [
    "C35_reproduces",
    "C35_outside",
    "C35_nonnegative",
    "C35_inner_zero",
    "C35_rejects"
   ],
   "note": "Interpolator is a parameter that passes through its nodes."
  },
  {
   "property": "C36",
   "status": "proved",
   "theorems": [
    "C36_set_delta_D",
    "C36_mu_s_inverse",
    "C36_theta_s_range"
   ],
   "note": "Angles in degrees; Gamma > 1 and d_D in the reachable range. Outside it mu_s exceeds 1 and theta_s is nan (C36_case_nan)."
  },
  {
   "property": "C37",
   "status": "proved",
   "theorems": [
    "C37_updates",
    "C37_stale_distance",
    "C37_stale_flux"
   ],
   "note": "By induction over arbitrary sequences of assignments and set_delta_D calls; C37_stale_distance and C37_stale_flux give the consequences of the stale d_L."
  },
  {
   "property": "C38",
   "status": "proved",
   "theorems": [
    "C38_ratio",
    "C38_nonneg",
    "C38_t_var"
   ],
   "note": "P_jet and k_eq with and without protons."
  },
  {
   "property": "C39",
   "status": "proved",
   "theorems": [
    "C39_nonneg",
    "C39_proton_nonneg",
    "C39_object",
    "C39_linear_in_k",
    "C39_additive"
   ],
   "note": "Function level with any caller grid (spacing hypothesis so the in-place correction keeps it increasing) and object level."
  },
  {
   "property": "C40",
   "status": "proved",
   "theorems": [
    "C40_factor_range",
    "C40_factor_decreasing",
    "C40_factor_from_1",
    "C40_attenuates",
    "C40_tau_nonneg",
    "C40_inverted_unattenuated"
   ],
   "note": "The factor is in (0,1] for every real tau because taus below 1e-3, including negative ones, give 1; tau >= 0 shown for index >= -2, below -2 the SED is unattenuated."
  },
  {
   "property": "C41",
   "status": "proved",
   "theorems": [
    "C41_ssc_luminosity",
    "C41_ssc_no_distance",
    "C41_ec_luminosity",
    "C41_ec_no_distance",
    "C41_proton_luminosity",
    "C41_proton_no_distance",
    "C41_synch_luminosity",
    "C41_synch_no_distance",
    "C41_beaming"
   ],
   "note": "Synchrotron, SSC and external Compton; beaming for synchrotron."
  },
  {
   "property": "C42",
   "status": "proved",
   "theorems": [
    "C42_peak",
    "C42_empty",
    "C42_synch_applies"
   ],
   "note": "For any process's sed_flux; ValueError on an empty grid."
  },
  {
   "property": "C43",
   "status": "proved",
   "theorems": [
    "C43_mass_exchange",
    "C43_equal_masses",
    "C43_scaling",
    "C43_object"
   ],
   "note": "Exact equality of the two code paths under exchange of the masses."
  },
  {
   "property": "C44",
   "status": "proved",
   "theorems": [
    "C44_synchrotron_loss",
    "C44_klein_nishina",
    "C44_ssc_loss",
    "C44_time_evolution_losses"
   ],
   "note": "Klein-Nishina factor for every argument, including the jump at 1e4; the losses of the evolution as GammaFns, with the spectrum seen by the SSC losses abstract."
  },
  {
   "property": "C45",
   "status": "proved",
   "theorems": [
    "C45_kernel",
    "C45_forward"
   ],
   "note": "Equivalence with the kinematic bound, lower bound 1 and epsilon_s < gamma; forward scattering separately."
  },
  {
   "property": "C46",
   "status": "proved",
   "theorems": [
    "C46_kernel",
    "C46_edge"
   ],
   "note": "Exact support in epsilon_s and positivity; clipped logarithm taken into account."
  },
  {
   "property": "C47",
   "status": "proved",
   "theorems": [
    "C47_nonneg",
    "C47_quadratic",
    "C47_empty",
    "C47_object"
   ],
   "note": "Non-negativity for both integrators, with and without self-absorption; quadratic scaling with trapz."
  },
  {
   "property": "C48",
   "status": "proved",
   "theorems": [
    "C48_nonneg",
    "C48_linear_in_electrons",
    "C48_linear_in_target",
    "C48_disk_accretion",
    "C48_torus_point_source",
    "C48_shell_point_source",
    "C48_head_on",
    "C48_dispatch",
    "C48_no_distance"
   ],
   "note": "Object level, for every target; the disk luminosity also sets the photon energies, so for the disk the dependence is on L_disk/eta only. A shell or torus of zero size is the point source; a point source seen head-on contributes nothing."
  },
  {
   "property": "C49",
   "status": "proved",
   "theorems": [
    "C49_range",
    "C49_symmetric",
    "C49_scalar_product",
    "C49_unit"
   ],
   "note": ""
  },
  {
   "property": "C50",
   "status": "proved",
   "theorems": [
    "C50_shell_distance",
    "C50_ring_distance",
    "C50_ring_mu_s_distance",
    "C50_shell_mu_s_distance",
    "C50_mu_star",
    "C50_ring_direction",
    "C50_shell_direction",
    "C50_on_axis"
   ],
   "note": "Against Euclidean points; np.arctan2 of signed zeros not distinguished."
  },
  {
   "property": "C51",
   "status": "proved",
   "theorems": [
    "C51_cmb",
    "C51_point_source",
    "C51_torus",
    "C51_torus_point_source",
    "C51_disk",
    "C51_blr_outside",
    "C51_blr_inside"
   ],
   "note": "Disk rays carry sigma T^4/(c mu); BLR exact outside the shell, strictly too small inside (sign of the direction lost)."
  },
  {
   "property": "C52",
   "status": "proved",
   "theorems": [
    "C52_mu_grid",
    "C52_units",
    "C52_argument_kinds",
    "C52_type_error"
   ],
   "note": "Grid, radii, phi_disk, units and argument kinds."
  },
  {
   "property": "C53",
   "status": "proved",
   "theorems": [
    "C53_disk_spectrum",
    "C53_disk_luminosity",
    "C53_disk_mu_s",
    "C53_disk_edge_on",
    "C53_torus",
    "C53_torus_radius"
   ],
   "note": "Disk luminosity on the code's grid, independence of mu_s (0/0 seen edge-on), torus."
  },
  {
   "property": "C54",
   "status": "proved",
   "theorems": [
    "C54_cross_section",
    "C54_formula"
   ],
   "note": "Zero below threshold, at threshold 0, non-negative (positive) above; formula of the code unfolded to the textbook one."
  },
  {
   "property": "C55",
   "status": "proved",
   "theorems": [
    "C55_nonneg",
    "C55_absorption",
    "C55_point_source_behind",
    "C55_homogeneous",
    "C55_blr_moved_onto_shell"
   ],
   "note": "Every supported target and geometry; the 0/0 of absorption_homogeneous and the shift of a blob placed on the line shell are theorems too."
  },
  {
   "property": "C56",
   "status": "proved",
   "theorems": [
    "C56_supported",
    "C56_silent",
    "C56_init",
    "C56_stored"
   ],
   "note": "Supported combinations give an opacity; off-axis disk and CMB silently give none."
  },
  {
   "property": "C57",
   "status": "proved",
   "theorems": [
    "C57_weighted_mean",
    "C57_within_table",
    "C57_nodes",
    "C57_outside",
    "C57_constructor",
    "C57_frequencies",
    "C57_repeated_row"
   ],
   "note": "Linear RegularGridInterpolator modelled; weighted mean, nodes, NaN outside, constructor, repeated row of Franceschini 2008."
  },
  {
   "property": "C58",
   "status": "proved",
   "theorems": [
    "C58_trapz_linear",
    "C58_trapz_monotone",
    "C58_trapz_affine",
    "C58_loglog_nonnegative",
    "C58_loglog_power_law",
    "C58_loglog_homogeneous",
    "C58_additive",
    "C58_loglog_negative",
    "C58_loglog_not_odd",
    "C58_clip_range"
   ],
   "note": "Exactness in the sense of Coquelicot's is_RInt; values within the clipping range of float64."
  },
  {
   "property": "C59",
   "status": "proved",
   "theorems": [
    "C59_exact",
    "C59_isclose",
    "C59_inexact",
    "C59_error"
   ],
   "note": "C59_exact and C59_inexact; C59_error bounds the error inside the np.isclose window for 1 <= gamma_min and ln gamma_max <= 1000."
  },
  {
   "property": "C60",
   "status": "proved",
   "theorems": [
    "C60_shapes",
    "C60_broadcast",
    "C60_elements"
   ],
   "note": "Row-major reshape and numpy broadcasting rules modelled."
  },
  {
   "property": "C61",
   "status": "proved",
   "theorems": [
    "C61_nu_to_epsilon_prime",
    "C61_linear_increasing",
    "C61_inverse",
    "C61_equivalency",
    "C61_R_g_and_B"
   ],
   "note": "Any positive physical constants."
  },
  {
   "property": "C62",
   "status": "proved",
   "theorems": [
    "C62_grid",
    "C62_equivalent_units",
    "C62_nonneg",
    "C62_linear",
    "C62_differential",
    "C62_mean_energy",
    "C62_reversed",
    "C62_synchrotron"
   ],
   "note": "Grid, unit equivalence, sign, linearity, differential flux, mean photon energy and reversed limits; applied to synchrotron."
  },
  {
   "property": "C63",
   "status": "proved",
   "theorems": [
    "C63_larmor",
    "C63_ballistic",
    "C63_synch",
    "C63_SSC",
    "C63_EC_DT",
    "C63_breaks",
    "C63_consistency",
    "C63_no_photons"
   ],
   "note": "Each maximum energy solves its balance equation; breaks likewise; relations between them; no photons gives an error."
  },
  {
   "property": "C64",
   "status": "proved",
   "theorems": [
    "C64_parameters",
    "C64_sherpa",
    "C64_gammapy",
    "C64_initial",
    "C64_empty"
   ],
   "note": "Both wrappers' unscaling gives the class with its named parameters; initial values give back the distribution; the EmptyDistribution exception is proved."
  },
  {
   "property": "C65",
   "status": "proved",
   "theorems": [
    "C65_ssc",
    "C65_ec",
    "C65_sherpa_none",
    "C65_order",
    "C65_reversed_list",
    "C65_norm",
    "C65_backend"
   ],
   "note": "SSC and the three EC lists, errors included; sherpa returns None exactly for the other lists; order of targets and norm do not matter for gammapy; backend choice."
  },
  {
   "property": "C66",
   "status": "proved",
   "theorems": [
    "C66_groups",
    "C66_sherpa_listed",
    "C66_sherpa_none",
    "C66_sherpa_first_unlisted",
    "C66_sherpa_inherits",
    "C66_gammapy",
    "C66_sherpa_any"
   ],
   "note": "Grouping, listed and no-dictionary cases, the sherpa failure modes for unlisted instruments (C66_sherpa_any: any number of instruments), gammapy quadrature. gammapy's energy mask is not modelled."
  },
  {
   "property": "C67",
   "status": "proved",
   "theorems": [
    "C67_blob",
    "C67_protons",
    "C67_blr",
    "C67_ssdisk",
    "C67_ebl",
    "C67_ebl_accepts",
    "C67_mass",
    "C67_mass_builders",
    "C67_interpolated",
    "C67_absorption"
   ],
   "note": "Each constructor accepts exactly the stated inputs and raises the stated exception otherwise."
  },
  {
   "property": "C68",
   "status": "proved",
   "theorems": [
    "C68_constant_rates",
    "C68_closed_form"
   ],
   "note": "Euler and Heun"
  },
  {
   "property": "C69",
   "status": "proved",
   "theorems": [
    "C69_slopes",
    "C69_normalisation"
   ],
   "note": ""
  },
  {
   "property": "C70",
   "status": "proved",
   "theorems": [
    "C70_totals",
    "C70_roundtrip"
   ],
   "note": ""
  },
  {
   "property": "C71",
   "status": "proved",
   "theorems": [
    "C71_threshold",
    "C71_linear",
    "C71_absorption_power"
   ],
   "note": "Threshold and linearity for point source, BLR and torus."
  },
  {
   "property": "C72",
   "status": "proved",
   "theorems": [
    "C72_ssc",
    "C72_ssc_objects",
    "C72_ec"
   ],
   "note": "SSC and EC, both backends; hypotheses say that the objects' own SEDs are defined."
  },
  {
   "property": "C73",
   "status": "proved",
   "theorems": [
    "C73_when_inserted"
   ],
   "note": "framing and insertion conditions for every step from a reachable state"
  },
  {
   "property": "C74",
   "status": "proved",
   "theorems": [
    "C74_superposition"
   ],
   "note": "for the default integrator trapz; the grids of the code are part of the statement"
  },
  {
   "property": "C75",
   "status": "proved",
   "theorems": [
    "C75_cmb",
    "C75_point_source",
    "C75_torus",
    "C75_blr",
    "C75_disk"
   ],
   "note": "no blob: all five targets; with a blob: point source, disk, torus, BLR outside the shell (C51_blr_inside shows the BLR exception inside)"
  },
  {
   "property": "C76",
   "status": "proved",
   "theorems": [
    "C76_point_source",
    "C76_torus_on_axis",
    "C76_torus_off_axis",
    "C76_blr_on_axis",
    "C76_blr_off_axis",
    "C76_disk",
    "C76_disk_below",
    "C76_disk_absorbs",
    "C76_blob",
    "C76_point_source_fixed_angle"
   ],
   "note": "default integrator trapz; path and grids of the code are part of the statement; the disk exception is part of the statement (C76_disk, C76_disk_below, C76_disk_absorbs); the static formula of the point source at a fixed angle is the integral along the axis (C76_point_source_fixed_angle)"
  },
  {
   "property": "C77",
   "status": "proved",
   "theorems": [
    "C77_ssc",
    "C77_energy_density"
   ],
   "note": "default integrator trapz; grids of the code are part of the statement"
  },
  {
   "property": "C78",
   "status": "proved",
   "theorems": [
    "C78_synchrotron",
    "C78_proton",
    "C78_self_absorption",
    "C78_escape",
    "C78_delta"
   ],
   "note": "default integrator trapz; grids of the code are part of the statement; R(x) is the published approximation"
  },
  {
   "property": "C79",
   "status": "proved",
   "theorems": [
    "C79_disk_methods",
    "C79_cmb",
    "C79_torus",
    "C79_sublimation",
    "C79_disk_temperature",
    "C79_disk_photons",
    "C79_eddington",
    "C79_critical_field"
   ],
   "note": "numerical comparisons with the CODATA 2018 constants"
  },
  {
   "property": "C80",
   "status": "proved",
   "theorems": [
    "C80_lines",
    "C80_other_lines",
    "C80_complete",
    "C80_line_energy"
   ],
   "note": "CODATA 2018 constants; levels of the other lines from the tables of atomic spectra (Spec_Thermal.v, reference data)"
  },
  {
   "property": "C81",
   "status": "proved",
   "theorems": [
    "C81_groups",
    "C81_total",
    "C81_accepts"
   ],
   "note": "C81_groups: every Euler step from every reached state; C81_total: conservation of the total when the subgroups move alike; C81_accepts: sufficient conditions for the subgroups to be put together"
  },
  {
   "property": "C82",
   "status": "proved",
   "theorems": [
    "C82_step",
    "C82_distribution",
    "C82_origin"
   ],
   "note": "C82_step: one group; with subgroups the same conclusions (through, settled) stand in C81_groups and C17_heun_groups_partial; C82_distribution: blob.n_e; C82_origin: each single bin"
  },
  {
   "property": "C83",
   "status": "proved",
   "theorems": [
    "C83_steps",
    "C83_terminates"
   ],
   "note": "C83_steps: each pass; C83_terminates: whole runs. The exception values: the model's OutOfFuel never comes out with that many passes unless a user function itself raises it"
  },
  {
   "property": "C84",
   "status": "proved",
   "theorems": [
    "C84_region",
    "C84_targets",
    "C84_start",
    "C84_spectral",
    "C84_names",
    "C84_sherpa",
    "C84_sherpa_models",
    "C84_gammapy"
   ],
   "note": "C84_region, C84_targets: tables in natural quantities; C84_start; C84_spectral: equivalence, for distributions other than EmptyDistribution; C84_names; C84_sherpa, C84_sherpa_models, C84_gammapy: conversions. What sherpa and gammapy do with the numbers is not modelled"
  },
  {
   "property": "C85",
   "status": "proved",
   "theorems": [
    "C85_power",
    "C85_luminosity"
   ],
   "note": "C85_power: integral of the temperature profile; C85_luminosity: in terms of the constructor's arguments"
  },
  {
   "property": "C86",
   "status": "proved",
   "theorems": [
    "C86_particle",
    "C86_electrons",
    "C86_protons"
   ],
   "note": "C86_particle: one particle; C86_electrons: SED against the loss rate; C86_protons; the integral of the emission function is enclosed by sums over cells evaluated with exact rational arithmetic in the kernel"
  },
  {
   "property": "C87",
   "status": "partial",
   "theorems": [
    "C87_synchrotron",
    "C87_thomson",
    "C87_ssc_partial",
    "C87_ssc_drop",
    "C87_ssc_refuted"
   ],
   "note": "C87_synchrotron and C87_thomson hold in full. The claim for the Klein-Nishina corrected rate is false (C87_ssc_refuted, blob with electrons from 10 to 1e7): the two branches of f_KN do not meet, so the rate jumps down at every gamma = 1e4/(4 e), e a photon energy of the grid with positive flux (C87_ssc_drop). Between such Lorentz factors it holds (C87_ssc_partial)"
  },
  {
   "property": "C88",
   "status": "proved",
   "theorems": [
    "C88_angle",
    "C88_total",
    "C88_solid_angle",
    "C88_thomson",
    "C88_energy",
    "C88_photons",
    "C88_power"
   ],
   "note": "C88_angle, C88_total, C88_solid_angle, C88_thomson, C88_energy: the kernel; C88_photons, C88_power: the SEDs of all five targets, through C74"
  },
  {
   "property": "C89",
   "status": "proved",
   "theorems": [
    "C89_average",
    "C89_left_out",
    "C89_photons",
    "C89_energy",
    "C89_ssc"
   ],
   "note": "C89_average and C89_left_out: the two kernels; C89_photons and C89_energy: cross section and scattered energy of one electron; C89_ssc: the SED of the blob (band_flux is the integral of F/nu). Integrals are Riemann integrals of the model's own kernel."
  },
  {
   "property": "C90",
   "status": "proved",
   "theorems": [
    "C90_volume",
    "C90_contents",
    "C90_protons",
    "C90_jet",
    "C90_integrals",
    "C90_power_laws",
    "C90_photons"
   ],
   "note": "Volume by integrating cross sections; sampled totals bracketed by the integrals through a cell by cell comparison; the photon energy density through C86 and C77."
  },
  {
   "property": "C91",
   "status": "proved",
   "theorems": [
    "C91_recursion",
    "C91_cooling",
    "C91_converges"
   ],
   "note": "C91_recursion is for arbitrary rate functions of the Lorentz factor; its side condition (bins keep positive width, points their order, densities their sign) is discharged for synchrotron_loss in C91_cooling. Exact real arithmetic; strictly increasing log10 assumed for C91_cooling."
  },
  {
   "property": "C92",
   "status": "proved",
   "theorems": [
    "C92_balance_point",
    "C92_drawn_to_balance"
   ],
   "note": "Exact real arithmetic, strictly increasing log10, no subgroups, bounds or merging."
  },
  {
   "property": "C94",
   "status": "proved",
   "theorems": [
    "C94_accepts",
    "C94_agreement",
    "C94_ranges",
    "C94_lengths",
    "C94_columns",
    "C94_single_row",
    "C94_total_energy"
   ],
   "note": "np.loadtxt, np.allclose and broadcasting modelled as documented; infinities excluded."
  },
  {
   "property": "C93",
   "status": "proved",
   "theorems": [
    "C93_fresh_directory",
    "C93_refused",
    "C93_parts",
    "C93_place"
   ],
   "note": "File system as a map from absolute paths to nodes; no links, permissions or '..'; removal of the working directory itself is excluded by hypothesis."
  },
  {
   "property": "C95",
   "status": "proved",
   "theorems": [
    "C95_shell_value",
    "C95_blr",
    "C95_blr_accuracy",
    "C95_blr_far",
    "C95_blr_deep",
    "C95_blr_near",
    "C95_blr_boosted",
    "C95_torus",
    "C95_torus_boosted"
   ],
   "note": "closed form of the exact shell integral; two-sided bound for the 50-point sum cell by cell; limits far outside, deep inside and near the shell; boosted bounds"
  },
  {
   "property": "C96",
   "status": "partial",
   "theorems": [
    "C96_power",
    "C96_far",
    "C96_refinement_partial",
    "C96_underestimate",
    "C96_density_refuted"
   ],
   "note": "Refuted as stated (C96_density_refuted: less than 0.3 of the exact density at every distance beyond 10 R_out, disk of 6 to 1000 R_g); C96_underestimate quantifies the loss for all disks; C96_refinement_partial: the same sum with n points tends to the exact density. Missing, because false: closeness of the 100-point value."
  },
  {
   "property": "C97",
   "status": "proved",
   "theorems": [
    "C97_distributions",
    "C97_contents",
    "C97_energy_density",
    "C97_synchrotron",
    "C97_proton",
    "C97_protons"
   ],
   "note": "C97_distributions: continuity of every class; C97_contents, C97_protons: numbers and energies; C97_energy_density: u_ph_synch; C97_synchrotron, C97_proton: SEDs with np.trapz or trapz_loglog; C97_case: tutorial blob at 10 GHz meets all hypotheses, including those for trapz_loglog"
  },
  {
   "property": "C98",
   "status": "proved",
   "theorems": [
    "C98_self_absorption",
    "C98_ssc",
    "C98_ssc_absorbed",
    "C98_ec"
   ],
   "note": "trapezoidal sums over logarithmic grids tend to the Riemann integral of every integrable function (Riemann.v); the 200 frequencies and the angular grids of the code stay"
  },
  {
   "property": "C99",
   "status": "partial",
   "theorems": [
    "C99_at_call",
    "C99_kept_partial",
    "C99_kept_times",
    "C99_kept_refuted"
   ],
   "note": "Refuted for total_time (C99_kept_refuted: a run of 5 s in steps of 2 s hands out 2, 4, 5 s, which read 5, 5, 5 s afterwards; C99_kept_times: the same in every run). C99_kept_partial: every other field stays. Missing, because false: total_time. The in-place += of a scalar Quantity is numpy's, part of the trusted base."
  },
  {
   "property": "C100",
   "status": "proved",
   "theorems": [
    "C100_model",
    "C100_fixed",
    "C100_passes",
    "C100_any",
    "C100_extra_pass",
    "C100_beyond",
    "C100_never_ends"
   ],
   "note": "C100_model ties the clock with exact numbers to evaluate(); C100_fixed, C100_passes and C100_any are for binary64; C100_extra_pass, C100_beyond and C100_never_ends are the three recorded exceptions. Rounding is modelled for the elapsed time only; overflow is left out."
  },
  {
   "property": "C101",
   "status": "proved",
   "theorems": [
    "C101_along",
    "C101_converges",
    "C101_kinetic",
    "C101_cooling"
   ],
   "note": "The kinetic equation is stated as a partial differential equation (solves_kinetic); C101_along derives the equation along tracks. Exact real arithmetic; strictly increasing log10 assumed. The tracks and n are assumed to exist up to T. C101_cooling has the explicit solution."
  },
  {
   "property": "C102",
   "status": "proved",
   "theorems": [
    "C102_units",
    "C102_density"
   ],
   "note": "Simulation through every stage of evaluate. Real arithmetic. max_injection_per_interval is an absolute density in the code, so it must be scaled with k. The theorem also justifies modelling the quantities as numbers in one system of units."
  },
  {
   "property": "C103",
   "status": "proved",
   "theorems": [
    "C103_torus_on_axis",
    "C103_torus_off_axis",
    "C103_blr_on_axis",
    "C103_blr_off_axis"
   ],
   "note": "Uniform continuity of the integrand on the product of the three ranges (the cross section is continuous at the threshold) and a Riemann sum argument for product grids. Real arithmetic. Inside the shell the integrand is unbounded on the path and no convergence is claimed; the disk and the point source use fixed grids for part of the integral."
  },
  {
   "property": "C104",
   "status": "proved",
   "theorems": [
    "C104_external_compton"
   ],
   "note": "C104_external_compton: for every tolerance there is an N such that with at least N Lorentz factors, N cosines and N azimuths sed_flux succeeds and is within the tolerance of whole_field (Spec_Surface.v) applied to scattered_integral (Props_Refine2.v, used in C98). JumpGrid.v: trapezia of a function with two jumps whose positions depend on the other variables converge uniformly, and the integral is uniformly continuous; BeamGrid.v: the beams of a target are such a family; TensorGrid.v: product grids. The disk integral is changed from the cosines of the code to radii. C104_case instantiates it for a torus and for a disk. For the trapezoidal integrator; rounding is not modelled."
  },
  {
   "property": "C105",
   "status": "proved",
   "theorems": [
    "C105_model",
    "C105_integral",
    "C105_repeated",
    "C105_size"
   ],
   "note": "Rounding.v models each floating point operation of np.trapz, with rounding to the nearest double (Clock.v; no overflow), and its sum as any tree of additions over any permutation of the terms. C105_model: without rounding this is trapz of MathUtils.v. C105_integral: error of one integral; C105_repeated: of a repeated one; C105_size turns roundings into a relative error. The integrand's own rounding errors enter as j; products below 2^-1000 other than zero are excluded. C105_case is an example."
  },
  {
   "property": "C106",
   "status": "proved",
   "theorems": [
    "C106_model",
    "C106_exact_run",
    "C106_conserved",
    "C106_fermi",
    "C106_step",
    "C106_still"
   ],
   "note": "Rounding.v has the floating point operations of update_bin_ub, to_erg, recalc_gamma_bins_and_density and fermi_acceleration for one bin. C106_model and C106_exact_run: without rounding these are the functions of the model, and evaluate with fermi_acceleration returns fermi_run for every bin. C106_conserved, C106_step, C106_still: one pass; C106_fermi: a run. C106_case: an example. Merging and splitting of bins, and rounding in the other energy change functions, are not included; changes enter C106_step as given numbers."
  },
  {
   "property": "C107",
   "status": "proved",
   "theorems": [
    "C107_model",
    "C107_accuracy",
    "C107_aligned",
    "C107_lost",
    "C107_range_needed"
   ],
   "note": "RoundBlob.v has the floating point operations of Beta, set_delta_D and mu_s. C107_model: without rounding these are the functions of Blob.v. C107_accuracy, C107_aligned, C107_lost, C107_range_needed: the four claims. C107_case: an example. np.power(Gamma, 2) is taken as the correctly rounded square, np.cos(0) as one; the rounding of np.cos at other angles is not included (the cosine is the given number)."
  },
  {
   "property": "C108",
   "status": "proved",
   "theorems": [
    "C108_cross_section",
    "C108_torus",
    "C108_blr",
    "C108_range_needed"
   ],
   "note": "C108_torus and C108_blr: tau against the integral of the absorption rate (whole_ring, whole_shell, absorbed of Spec_Opacity.v and Spec_Beams.v) from first_step (0 on the axis, 10^-5 r off it) to any L >= 10^5 r, and the bound of what the first step leaves out. C108_cross_section: the cross section. C108_range_needed: the torus too far from the path. Builds on C103 and on C54. C108_torus_case, C108_blr_case and C108_range_case are examples."
  },
  {
   "property": "C109",
   "status": "proved",
   "theorems": [
    "C109_model",
    "C109_accuracy",
    "C109_uniform",
    "C109_threshold_needed"
   ],
   "note": "RoundSSA.v is the function with a rounding after each operation; C109_model: with the identity as rounding it is the model of C40. C109_accuracy: the error bound below and above the threshold. C109_uniform: one number for every opacity. C109_threshold_needed: the expression without the threshold. exact_factor is written out in the theorem file. C109_case and C109_threshold_case are examples."
  },
  {
   "property": "C110",
   "status": "partial",
   "theorems": [
    "C110_refinement",
    "C110_disk_spectrum_partial",
    "C110_disk_spectrum_refuted",
    "C110_sed_flux_refuted"
   ],
   "note": "C110_disk_spectrum_refuted: the full statement fails for extended disks (evaluate_multi_T_bb_sed); C110_sed_flux_refuted: the same for the normalised SED of the object. C110_disk_spectrum_partial: the bound that does hold; C110_refinement: convergence with more radii. annulus and disk_temperature are the specification. C110_case is a disk that meets the hypotheses. Missing: a relative bound, which is false."
  },
  {
   "property": "C111",
   "status": "proved",
   "theorems": [
    "C111_model",
    "C111_relative",
    "C111_digits",
    "C111_uniform",
    "C111_vanishes"
   ],
   "note": "C111_model identifies the rounded model with sigma of Absorption.v when nothing is rounded; C111_uniform bounds the absolute error for all s, C111_relative and C111_digits the relative one; C111_vanishes shows the exact zero far above the threshold.  Overflow is not modelled (no operation of sigma can overflow for s >= 1 and sigma_T of the order of 1)."
  },
  {
   "property": "C112",
   "status": "proved",
   "theorems": [
    "C112_model",
    "C112_cell",
    "C112_away",
    "C112_sum"
   ],
   "note": "C112_model identifies the rounded model with trapz_loglog of MathUtils.v when nothing is rounded; C112_cell, C112_away and C112_sum bound the error against the exact integrals (exact_cell: Riemann integral of the power law through the two points).  The clipping of the logarithm does not act on arguments between 2^-200 and 2^401.  Overflow is not modelled."
  },
  {
   "property": "C113",
   "status": "proved",
   "theorems": [
    "C113_model",
    "C113_kernel",
    "C113_beyond"
   ],
   "note": "C113_model identifies the rounded model with isotropic_kernel of Kernels.v when nothing is rounded; C113_kernel bounds the error against exact_kernel; C113_beyond is the region epsilon_s >= gamma.  The clipping of the logarithm does not act on q >= 2^-140.  Overflow is not modelled."
  },
  {
   "property": "C114",
   "status": "partial",
   "theorems": [
    "C114_model",
    "C114_number_refuted",
    "C114_default_grid_refuted",
    "C114_opacity_refuted",
    "C114_distance",
    "C114_accuracy_partial"
   ],
   "note": "The claim for all directions is false: C114_number_refuted (shell of 2^57 cm) and C114_default_grid_refuted (default grid of mu, shell of 1e17 cm, blob at a third of it), np.power correctly rounded; C114_opacity_refuted carries the nan through the integrals of tau_blr, whatever the rest of the integrand.  C114_distance is the claim on the distance in full; C114_accuracy_partial the claim on the cosine away from the right angle; C114_model identifies the rounded model with Geometry.v when nothing is rounded.  In external Compton scattering (read from the code, not modelled) compton_kernel sets a nan direction to 0, because gamma >= gamma_min is false.  Overflow is not modelled."
  },
  {
   "property": "C115",
   "status": "partial",
   "theorems": [
    "C115_model",
    "C115_comoving_refuted",
    "C115_rest",
    "C115_comoving_partial"
   ],
   "note": "The claim that u(r, blob) is a number for every r is false: C115_comoving_refuted (np.power correctly rounded, for every Beta and Gamma).  C115_rest is the claim without a blob in full, C115_comoving_partial the claim with a blob away from right angles, C115_model identifies the rounded model with blr_u of Targets.v when nothing is rounded.  Overflow and the rounding of the prefactor are not part of the bound."
  },
  {
   "property": "C116",
   "status": "partial",
   "theorems": [
    "C116_model",
    "C116_far_refuted",
    "C116_phi_partial"
   ],
   "note": "The claim at every height is false: C116_far_refuted, for all heights from 2^27 inner radii on.  C116_phi_partial is the error bound for 1/(1 - mu^2) <= 10^9; C116_model identifies the rounded model with ssdisk_u and evaluate_phi_disk_mu of Targets.v when nothing is rounded.  The rounding of the sum over the grid is C105."
  },
  {
   "property": "C117",
   "status": "partial",
   "theorems": [
    "C117_model",
    "C117_inside",
    "C117_ssa_refuted",
    "C117_ssa_partial",
    "C117_ssa_sed"
   ],
   "note": "The claim about the integrand is false for PowerLaw, BrokenPowerLaw and ExpCutoffBrokenPowerLaw, which test the range before any correction: C117_ssa_refuted (gamma_min the double two above 10^2.5, every gamma_max, size, normalisation and indices above -2).  C117_inside is the claim about evaluate and C117_ssa_sed the one about the opacity of sed_flux, in full (negative at every point for the four distributions with power laws); C117_ssa_partial is the claim about the integrand when the first point is not below gamma_min; C117_model identifies the rounded grid and correction with np_logspace and correct_bounds when nothing is rounded.  The values at the points are not rounded."
  },
  {
   "property": "C118",
   "status": "partial",
   "theorems": [
    "C118_model",
    "C118_bounds_refuted",
    "C118_bounds_partial"
   ],
   "note": "False in double precision: C118_bounds_refuted (a bin at gamma_bounds[0] = 19 is below it after one pass; the bin that _add_boundary_bins puts at the upper bound 7 is above the limit after one pass; both are removed with their particles).  C118_bounds_partial: with a margin of two roundings per pass (and three for the limit) the bin is kept in every pass, within 2 j roundings of its place after j of them.  C118_model: without rounding the test is in_bounds of TimeEvolution.v and a bin at rest does not move (C25 is the exact claim for whole runs)."
  },
  {
   "property": "C119",
   "status": "partial",
   "theorems": [
    "C119_model",
    "C119_below",
    "C119_kernel_partial",
    "C119_spread",
    "C119_number_refuted"
   ],
   "note": "That it is always a number is false: C119_number_refuted (gamma = epsilon_s = 2^40, epsilon = 2^20, 1 - cos(psi) = 1: the threshold rounds to epsilon_s, the test passes although gamma is below the threshold, y = 0 and the result is nan instead of 0).  C119_kernel_partial: for y >= 10^-9 a number, 0 or accurate to 6e-14 / y, the choice between the two being right beyond eight roundings of the threshold.  C119_below: 0 below the threshold, whatever y.  C119_spread: beyond the threshold 1/y <= 1 + 2 epsilon_bar, so that the hypothesis holds whenever epsilon_bar is below 4e8.  C119_model: without rounding it is compton_kernel of Kernels.v, and the formula where it does not vanish."
  },
  {
   "property": "C120",
   "status": "partial",
   "theorems": [
    "C120_model",
    "C120_transparent",
    "C120_range_refuted",
    "C120_accuracy_partial"
   ],
   "note": "False for small opacities, where unlike tau_to_attenuation (C109) the function has no threshold: C120_range_refuted (at tau = 3 2^-55 the factor is 4/3, at 2^-55 it is 0).  C120_transparent: for every 0 < tau <= 2^-55 the correctly rounded exponential is 1 and the factor exactly 0, an emitter that is hardly absorbed disappears from the spectrum, while the exact factor is between 1 - tau and 1.  C120_accuracy_partial: the accuracy for tau >= 2^-40.  C120_model: without rounding it is absorption_homogeneous of Absorption.v (C55 is the exact claim)."
  },
  {
   "property": "C121",
   "status": "proved",
   "theorems": [
    "C121_model",
    "C121_accuracy"
   ],
   "note": "RoundSynch.v is R with a rounding after each operation and literal.  C121_model: with the identity as rounding it is R_func of Synchrotron.v.  C121_accuracy: the bound against the fit, which is written out in the theorem file.  Beyond x = 500 the exponential approaches underflow and nothing is claimed."
  },
  {
   "property": "C122",
   "status": "proved",
   "theorems": [
    "C122_model",
    "C122_radii",
    "C122_edge",
    "C122_number"
   ],
   "note": "C122_model: without rounding the grid is linspace and the temperature evaluate_T of Targets.v.  C122_radii: all radii of the grid are at least R_in and the first is R_in.  C122_edge: the factor.  C122_number: the temperature is a number at every radius of the grid.  The conversion of the result to K by astropy is not modelled."
  }
 ]
}