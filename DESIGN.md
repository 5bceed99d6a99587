# Formal model of agnpy — design

Source: `/repo` (cosimoNigro/agnpy at the pinned commit), read as text, never run.
Model and proofs: Coq 8.16.1 under `rocq/theories`. Properties: `properties.jsonl`.
Status per property: `MANIFEST.json`. Mutation log: `seeded/LOG.jsonl`. Its `failed` lists the theorems whose proofs broke and those that depend on a lemma whose proof broke (`lemmas_failed`), following the uses of names through the imports; checking stopped at the first theorem of the property aimed at. A broken proof shows that the script no longer goes through; that the claim itself became false is argued in `claim`, not checked. Fourteen entries have `survived: null` and no theorems: their edits did not typecheck (nine in the model itself, five in statements about it, because a section variable was no longer used), so they tested nothing; an earlier version of the log counted them as kills. The five were repeated in a well-typed form (ids ending in `b`), the nine were not. Entries with only the message "In environment" were screened by the position of the error, not rerun.

## 1. What a theorem here means

A theorem is about the Gallina model, which is a branch by branch transcription of the Python
functions; each model definition cites the `/repo` file and lines it transcribes and says what was
simplified. The tie to the code is that reading, nothing else.

### Modelling conventions

* **Numbers.** Python floats / numpy arrays / astropy quantities become Coq reals `R` and lists of
  `R`, in CGS units. Rounding is modelled in `Clock.v` (elapsed time), `Rounding.v` (np.trapz, move of a bin), `RoundBlob.v` (Doppler factor, viewing angle), `RoundSSA.v` (self absorption factor), `RoundSigma.v` (pair production cross section), `RoundKernel.v` (isotropic Compton kernel), `RoundGeometry.v` (distance and direction from a shell), `RoundBLR.v` (energy density of a broad line), `RoundDisk.v` (disk seen from above), `RoundGrid.v` (grid of Lorentz factors and the correction of its ends), `RoundBound.v` (test against gamma_bounds), `RoundCompton.v` (angle dependent Compton kernel), `RoundSlab.v` (attenuation of a homogeneous emitter), `RoundSynch.v` (synchrotron function), `RoundTemp.v` (temperature of the disk) and `RoundLog.v` (trapz_loglog; np.exp, np.log and np.power are oracles accurate to 2^-52) and nowhere else; overflow and underflow are not modelled. Arrays have a floating dtype, as annotated in the code (`NDArray[np.floating]`): integer arrays given as `initial_gamma_array` or `subgroups_initial_density` would be truncated by later in-place updates and are out of scope. Where the Python value can
  be `inf` or `nan` in a way a later branch can observe, this is explicit: `option R` (`None` =
  +inf for times, `None` = NaN for rates), an error value, or a guard. Coq's `x/0 = 0` is never
  relied on: a theorem whose code divides by something states the guard, or the model has an explicit
  branch for the zero divisor.
* **log10 in the time evolution** is an oracle `lg : R -> R` assumed only weakly increasing, so that
  two different floats collapsing to the same `log10` (a case the code handles on purpose) is in scope.
  Where exact round trips are needed `lg` is additionally assumed to be inverted by `10**`.
* **Exceptions** are values: `res A := Ok a | Err exn`.
* **Loops** are recursion on fuel; fuel exhaustion is a distinct outcome which the theorems exclude or
  for which a termination theorem is given.
* **Mutation of `blob.n_e`** is state threaded through the step function, also when an exception is
  raised.
* **User functions** (energy change, injection) are arbitrary functions of the blob's current
  distribution and of the `FnParams` they receive; they may raise. They are assumed pure and NaN free.
* **External algorithms** are section variables / record fields with a stated contract and a concrete
  instance: `np.argsort` (any sorting permutation), scipy interpolators (only: pass through their
  nodes when a theorem says so), astropy `Distance` and `BlackBody` (arbitrary / non-negative functions),
  FITS tables (arbitrary arrays).
* **Physical constants** are a record of reals with positivity assumptions; an instance with the CODATA
  values is provided, so the assumptions are satisfiable.
* **Multi-dimensional trapz with broadcasting** is modelled point-wise: nested one-dimensional `trapz`
  over lists, in the code's order of integration.

### Trusted base

1. Coq's kernel (8.16.1).
2. The axioms that `Print Assumptions` prints below each property theorem. Only standard-library axioms
   occur: `ClassicalDedekindReals.sig_forall_dec` (F), `ClassicalDedekindReals.sig_not_dec` (N), both part
   of the definition of the real numbers, `FunctionalExtensionality.functional_extensionality_dep` (E) and
   `Classical_Prop.classic` (C), which come with the theory of limits and derivatives. The list per theorem
   is in section 4.
3. The transcription itself (comments in the model files), and the conventions above. For C99: that `+=` on a
   scalar Quantity changes the object in place.
4. The contracts of the external algorithms, which are hypotheses or record fields of the theorems that
   need them: `numpy_ok` and `numpy_exact` (`Spec_TE.v`: argsort sorts, log10 is increasing, or is exact;
   `NumpyInst.v` proves that an instance exists), `through_nodes` (an interpolator passes through its nodes),
   `dist` (astropy's `Distance(z)`: any function that may raise), the contents of the EBL table and of the
   flux point files (any arrays).

### What is modelled, and what is not

| /repo file | model | left out |
|---|---|---|
| `time_evolution/time_evolution.py`, `_time_evolution_utils.py`, `types.py` | `TimeEvolution.v`, `TEUtils.v`; `Records.v` (the results as objects, the elapsed time updated in place), `Clock.v` (the elapsed time in double precision) | logging; units (one consistent system) |
| `utils/math.py`, `conversion.py`, `geometry.py` | `MathUtils.v`, `Conversion.v`, `Geometry.v` | unit bookkeeping of astropy |
| `spectra/spectra.py` | `Spectra.v` | `plot`, `__str__` |
| `emission_regions/blob.py` | `Blob.v` | `__str__`, `plot_*`; the n_e / n_p type check is in `Props_Validation.v` |
| `synchrotron/synchrotron.py`, `proton_synchrotron.py` | `Synchrotron.v` | |
| `compton/kernels.py`, `synchrotron_self_compton.py`, `external_compton.py` | `Kernels.v`, `SSC.v`, `ExternalCompton.v` | |
| energy losses used with the time evolution | `Losses.v` | |
| `targets/targets.py` | `Targets.v`, `DiskMethods.v` | `__str__`, `print_lines_list` |
| `absorption/targets_absorption.py`, `ebl_absorption.py` | `Absorption.v`, `EBL.v` | reading of the FITS files |
| `radiative_process/core.py` | `RadProc.v` | |
| `constraints/spectral_constraints.py` | `Constraints.v` | |
| `fit/core.py`, `models.py`, `gammapy_wrapper.py`, `sherpa_wrapper.py` | `Fit.v`, `FitParameters.v` | sherpa / gammapy themselves: parameter limits and links, units, energy masks, minimisers |
| `fit/data.py` | `FitData.v` | file parsing (the table is the list of its rows) |
| `utils/validation_utils.py`, `to_total_energy_gev_sqr` | `Utils.v` | file system as a map from absolute paths to file/directory (no links, permissions, `..`, removal of the working directory); `np.loadtxt`, `np.allclose` and broadcasting as documented; `make_comparison_plot` not modelled |
| `utils/plot.py`, `data/`, notebooks | none | plotting |

Not modelled anywhere: IEEE rounding (except that of the elapsed time in `Clock.v`, of np.trapz and the move of a bin in `Rounding.v`, of the Doppler factor and viewing angle in `RoundBlob.v`, of the self absorption factor in `RoundSSA.v`, of the pair production cross section in `RoundSigma.v`, of the isotropic Compton kernel in `RoundKernel.v`, of x_re_shell and mu_star_shell in `RoundGeometry.v`, of SphericalShellBLR.u in `RoundBLR.v`, of SSDisk.u in `RoundDisk.v`, of the Lorentz factor grid and the correction of its ends in `RoundGrid.v`, of the test against gamma_bounds in `RoundBound.v`, of the angle dependent Compton kernel in `RoundCompton.v`, of the attenuation of a homogeneous emitter in `RoundSlab.v`, of the synchrotron function in `RoundSynch.v`, of the temperature of the disk in `RoundTemp.v` and of trapz_loglog in `RoundLog.v`), overflow and underflow; astropy unit conversion errors (quantities are
numbers in CGS and dimensionally right); logging; plotting.

## 2. Files

| files | contents |
|---|---|
| `Base.v` | results / exceptions, boolean comparisons on R, list primitives |
| model files (table above) | definitions only, each with the lines of `/repo` it transcribes |
| `NumpyInst.v` | instance of the numpy contract |
| `Spec_*.v` | the vocabulary the theorems are stated in, independent of the model's helpers: `Spec_TE`, `Spec_Init`, `Spec_Groups`, `Spec_Bins`, `Spec_Finish` (time evolution), `Spec_Math`, `Spec_Spectra`, `Spec_Blob`, `Spec_Rad`, `Spec_Geom`, `Spec_Beams` (photon fields as superpositions of beams), `Spec_Emission` (single particle emission), `Spec_Thermal` (black body, Bohr), `Spec_Fit` |
| `*Facts*.v`, `TE*.v`, `Calculus.v` | lemmas and long proofs; `TEExamples*.v`, `TEBounded.v`: concrete runs |
| `Props_*.v` | the property theorems (`Cnn_...`), `Print Assumptions` after each, and `Example`s with concrete cases that meet the hypotheses |

## 3. Plan per property

| id | what is modelled | how it is proved |
|---|---|---|
| C01 | `evaluate` loop as fuel recursion with a trace of callbacks | invariant on (elapsed, trace), by induction on fuel |
| C02 | same loop, fixed step | induction; closed form of elapsed after k steps; converse: elapsed never grows if s <= 0 |
| C03 | removal, boundary insertion | step invariant (membership characterisation), lifted to traces |
| C04 | argsort, dedup, merge, removal, insertion | sortedness preserved by each stage; geometric mean lies in the hull of its group |
| C05 | `_remove_too_close_bins` | gap lemma for runs; refuted for the pair next to an inserted boundary bin |
| C06 | whole step | length invariant |
| C07 | `_apply_time_eval`, merging | non-negativity invariant |
| C08 | split update, remap | column-sum invariant |
| C09 | `recalc_energy_bins_and_density_increase`, `_apply_time_eval` | field algebra per bin |
| C10 | `_calc_max_time_per_bin` | min over list characterisation; both directions |
| C11, C13 | stale-rate loop | existential per-bin history invariant (energy at last recalculation, time used, time left) |
| C12 | same | consequence of the same invariant; `_refuted` witnesses |
| C14, C15 | `recalc_new_rates`, `remap` | step lemma: masked or fresh |
| C16 | both constructions of the record | expected false: `_refuted` witness, plus the exact relation |
| C17 | Heun branch | single group equality; subgroups `_refuted` |
| C18 | constructor | decision procedure vs declarative validity predicate |
| C19 | `sum_change_rates` | list algebra |
| C20 | `logspace` default grid | monotonicity of `Rpower` |
| C21, C24, C26 | index functions, polymorphic | list induction |
| C22 | `update_distribution`, merge, insertion | node exactness of interpolation |
| C23, C25, C27 | loop | induction on fuel / step case analysis |
| C28-C34 | analytic spectra | `Rpower`/`exp` facts, Coquelicot `is_derive`; call sequences as folds over the shared array |
| C35 | InterpolatedDistribution | node exactness |
| C36-C38 | Blob as a record of attributes with update operations | field/sqrt/trig algebra; induction over update lists |
| C39-C44 | synchrotron formulae | list induction for trapz; real analysis for the attenuation factor and Klein-Nishina factor |
| C45, C46 | kernels | quadratic inequality; mean value argument for F_c |
| C47, C48 | nested integrals | linearity/positivity of nested trapz |
| C49, C50 | geometry | trig and sqrt algebra, nsatz/field |
| C51-C53 | targets | field algebra; trapz linearity |
| C54-C57 | absorption, EBL | derivative argument for the cross section; positivity of nested trapz; convexity of bilinear interpolation |
| C58-C61 | math utilities | list induction; Coquelicot `RInt` |
| C62, C63 | flux integrals, constraints | list/field algebra |
| C64-C66 | fit wrappers | case analysis per class; list induction over tables |
| C67 | constructors | case analysis |
| C68 | runs with constant rates | induction over the steps: every bin moves with the exact characteristic |
| C69, C70 | distributions and blob: remaining identities | field algebra |
| C71 | opacities: monotone / threshold behaviour | positivity and monotonicity of nested sums |
| C72 | fit models against the radiative processes | equality of two code paths |
| C73 | boundary bins | step invariant |
| C74, C75 | external Compton and target densities | both are sums over the same beams of photons (`Spec_Beams.v`) |
| C76 | opacities | absorption by the same beams; the disk differs by the cosine of the beam, which is part of the statement |
| C77, C78 | SSC, synchrotron, self absorption | from the emission of one particle (`Spec_Emission.v`); chord integral with Coquelicot `RInt` |
| C79, C80 | thermal targets, lines | textbook relations with the CODATA constants; bounds of pi from the standard library |
| C81 | step with subgroups | relational specification of moving and putting together (`Spec_Groups.v`), forward and backward |
| C82 | sorting, uniting, cutting, completing of the moved bins | refinement of every stage to a relation between lists of points (`Spec_Bins.v`) |
| C83 | automatic steps: termination | invariant on the times left (each 0 or at least tau), measure total - elapsed; bounds on user functions in `Spec_Finish.v` |
| C84 | start values, limits, names of the fit parameters | case analysis over classes and target lists; logarithms removed through monotonicity of 10^x |
| C85 | total power of the disk | antiderivative (Coquelicot `is_RInt_derive`) |
| C86 | synchrotron power against energy loss | lower and upper sums over 220 cells, monotone emission function, Taylor bounds of exp, rational arithmetic by `vm_compute` |
| C87 | growth of the loss rates with gamma | monotone branches of gamma^2 f_KN, summed over the grid; gap between the branches at 1e4; witness blob |
| C88 | Compton kernel against Klein-Nishina | antiderivative in closed form; change of variable to the scattering angle; the field of a target as a finite sum of beams with non-negative weights, integrated term by term |
| C89 | SSC kernel and energy balance | antiderivative in the collision angle; substitution q, bounds from the Thomson kernel, superposition over the grids |
| C90 | volume, content and power of a blob | exact integral of cross sections; induction over the cells of the logarithmic grid with a slope bound; C86 for the synchrotron photons |
| C91 | Time evolution with rates that depend on the Lorentz factor | TEMove: symbolic execution of initial_values/step/loop for lists of rate functions; Cooling: inverse Lorentz factor grows by K t per step up to second/third order, density times gamma^2 changes by a power of the gamma ratio; induction over the steps |
| C92 | Acceleration against synchrotron losses | order-preserving step map with the balance point as fixed point; contraction factor of the Euler and Heun map in closed form; induction over the steps |
| C93 | clean_and_make_dir | invariant of file systems (whatever exists lies in a directory); induction over the path for mkdir -p; string lemma for joined paths |
| C94 | check_deviation, extract_columns_sample_file, to_total_energy_gev_sqr | induction over the mask; triangle inequality; trapezia under a change of variable |
| C95 | BLR and torus densities against exact integrals | exact integral by antiderivative; each trapezium bounded by the integral over its cell; boost factor bounds |
| C96 | disk density against the exact integral | change of variable, convergence of the trapezium rule for continuous functions, telescoping bound of the 100-point sum |
| C97 | Finer sampling converges to the integral over the particles | uniform continuity, mesh of the logarithmic grid, cell estimates for both rules |
| C98 | Compton and self absorbed SEDs converge | Riemann sums of tagged partitions; supports of the cross sections; corrections of the array ends vanish with the mesh |
| C99 | Results kept by a callback stay what they were | run with a memory of Quantity objects, simulation of TimeEvolution.v |
| C100 | The clock of a run in floating point arithmetic | induction over the passes with Flocq's rounding lemmas (Sterbenz, relative error, successor); integer computation of the concrete runs |
| C101 | Runs tend to the solution of the kinetic equation | discrete Gronwall for positions and densities, uniform continuity, comparison of linear equations, C91_recursion |
| C102 | Runs do not depend on the units or the number of electrons | simulation of every stage under a change of scale |
| C103 | Opacities converge under refinement of the grids | uniform continuity on products, trapezia over product grids |
| C104 | the external Compton SED converges when all grids are refined | uniform convergence of trapezia of functions with moving jumps; product grids; change of variable |
| C105 | rounding error of the trapezoidal rule | symmetric relative distance closed under the operations; induction over summation trees |
| C106 | rounding error of a time evolution | error analysis of the difference quotient with Flocq; induction over the passes |
| C107 | Doppler factor and viewing angle in double precision | error analysis with Flocq, exact subtraction, explicit doubles |
| C108 | the opacities cover the whole line of sight | threshold of pair production beyond the path, limits of the quadratures |
| C109 | the self absorption factor in double precision | forward error analysis operation by operation, Flocq |
| C110 | the spectrum of the disk as an integral over its radii (false for extended disks) | bounded variation of the integrand, Wien tail of unsampled radii |
| C111 | pair production cross section in double precision | Flocq error bounds, Lipschitz bound of the Breit-Wheeler function |
| C112 | trapz_loglog in double precision | relative error calculus over Flocq, area as a function of the slope |
| C113 | isotropic Compton kernel in double precision | relative error calculus over Flocq, Lipschitz bound in ln q, agreement of the limits |
| C114 | direction from a shell in double precision | relative error calculus over Flocq; witness computed with exact roundings |
| C115 | energy density of a broad line in double precision | relative error calculus over Flocq; witness computed with exact roundings |
| C116 | disk seen from far above in double precision | relative error calculus over Flocq; absorption of (R/r)^2 by 1 |
| C117 | ends of the Lorentz factor grid in double precision | relative error calculus over Flocq; rational bounds of 10^2.5 |
| C118 | a bin at rest at the bounds in double precision | exact rational evaluation of the roundings (Flocq); relative error calculus over the passes |
| C119 | the angle dependent Compton kernel in double precision | relative error calculus (products, inverse, square root), absolute errors for the sum; exact evaluation of the roundings for the counterexample |
| C120 | attenuation of a homogeneous emitter in double precision | exact evaluation of the roundings between bounds of exp; relative error calculus |
| C121 | the synchrotron function in double precision | relative error calculus (products, sums of positive terms, square root, exponents) |
| C122 | the temperature of the disk in double precision | monotonicity of rounding on the grid; relative error calculus for the square root |

Properties that turn out false of the faithful model are kept with their full statement, get a
`_refuted` theorem with a witness, and a `_partial` theorem under the extra hypothesis.

## 4. Assumptions per theorem

F, N, E, C as in section 1; generated from `Print Assumptions`.

<!-- assumptions -->
* **none (closed under the global context)** (17): `C21_arrays`, `C21_dictionaries`, `C21_meaning`, `C29_empty_has_none`, `C56_init`, `C56_stored`, `C60_shapes`, `C60_broadcast`, `C60_elements`, `C65_backend`, `C66_groups`, `C67_mass`, `C67_absorption`, `C93_fresh_directory`, `C93_refused`, `C93_parts`, `C93_place`.
* **F** (5): `C19_unlisted`, `C19_edges`, `C21_subgroups`, `C94_columns`, `C94_single_row`.
* **F, E** (61): `C07_negative_not_accepted`, `C07_error`, `C18_accepts`, `C18_rejects`, `C18_stored`, `C18_functions`, `C18_valid`, `C19_group_sum`, `C19_no_groups`, `C19_total`, `C20_default`, `C20_empty_range`, `C24_remove_empty`, `C33_one_call`, `C33_interior`, `C38_t_var`, `C42_peak`, `C42_empty`, `C52_units`, `C52_argument_kinds`, `C52_type_error`, `C57_weighted_mean`, `C57_within_table`, `C57_nodes`, `C57_frequencies`, `C58_trapz_linear`, `C58_trapz_monotone`, `C59_isclose`, `C61_nu_to_epsilon_prime`, `C61_linear_increasing`, `C61_inverse`, `C61_equivalency`, `C61_R_g_and_B`, `C62_equivalent_units`, `C62_differential`, `C63_larmor`, `C63_ballistic`, `C66_sherpa_listed`, `C66_sherpa_none`, `C66_sherpa_first_unlisted`, `C66_sherpa_inherits`, `C66_sherpa_any`, `C67_blob`, `C67_blr`, `C67_ssdisk`, `C68_closed_form`, `C79_cmb`, `C80_other_lines`, `C80_complete`, `C80_line_energy`, `C84_sherpa`, `C94_accepts`, `C94_agreement`, `C94_ranges`, `C94_lengths`, `C101_along`, `C102_density`, `C105_model`, `C105_size`, `C106_model`, `C118_model`.
* **F, N, E** (39): `C36_mu_s_inverse`, `C37_stale_distance`, `C43_scaling`, `C44_synchrotron_loss`, `C45_kernel`, `C45_forward`, `C49_range`, `C49_symmetric`, `C49_scalar_product`, `C49_unit`, `C50_shell_distance`, `C50_ring_distance`, `C50_ring_mu_s_distance`, `C50_shell_mu_s_distance`, `C50_mu_star`, `C51_point_source`, `C51_torus`, `C51_blr_outside`, `C51_blr_inside`, `C53_torus`, `C57_constructor`, `C57_repeated_row`, `C63_synch`, `C63_EC_DT`, `C63_consistency`, `C66_gammapy`, `C67_ebl`, `C67_ebl_accepts`, `C87_synchrotron`, `C88_angle`, `C92_balance_point`, `C95_torus`, `C95_torus_boosted`, `C107_model`, `C109_model`, `C114_model`, `C115_model`, `C119_model`, `C119_spread`.
* **F, E, C** (1): `C57_outside`.
* **F, N, E, C** (370): `C01_total_time`, `C01_times_increase`, `C02_fixed_steps`, `C02_terminates`, `C02_nonpositive_step`, `C03_bounds`, `C04_increasing`, `C04_increasing_exact`, `C04_small_creep`, `C05_gaps`, `C05_merge_hull`, `C06_aligned`, `C07_nonnegative`, `C08_split_default`, `C08_split_given`, `C08_boundary_bins`, `C09_conservation`, `C09_reports`, `C10_limits`, `C11_no_bad_bins`, `C12_no_negative_density`, `C12_absolute_escape`, `C12_large_density_change`, `C13_reuse_in_time`, `C14_fresh_rates`, `C15_no_nan_reported`, `C15_no_nan_used`, `C16_callback_partial`, `C16_callback_equal_partial`, `C16_callback_refuted`, `C17_heun_partial`, `C17_heun_refuted`, `C17_heun_groups_partial`, `C22_agreement`, `C22_outside`, `C22_empty`, `C22_zero_inside`, `C22_boundary_inside`, `C23_loop`, `C23_restart`, `C23_restart_positive`, `C25_nothing_acts`, `C26_groups`, `C27_failing`, `C27_well_formed`, `C27_untouched`, `C28_support`, `C28_positive`, `C28_array`, `C29_analytic`, `C29_interpolated`, `C29_array`, `C30_total_density`, `C30_total_energy_density`, `C30_total_energy`, `C30_succeeds`, `C30_missing_limits`, `C31_value`, `C31_division_by_zero`, `C32_linear`, `C32_loglog`, `C33_drift`, `C34_continuous`, `C34_values`, `C34_equal_indices`, `C35_reproduces`, `C35_outside`, `C35_nonnegative`, `C35_inner_zero`, `C35_rejects`, `C36_set_delta_D`, `C36_theta_s_range`, `C37_updates`, `C37_stale_flux`, `C38_ratio`, `C38_nonneg`, `C39_nonneg`, `C39_proton_nonneg`, `C39_object`, `C39_linear_in_k`, `C39_additive`, `C40_factor_range`, `C40_factor_decreasing`, `C40_factor_from_1`, `C40_attenuates`, `C40_tau_nonneg`, `C40_inverted_unattenuated`, `C41_ssc_luminosity`, `C41_ssc_no_distance`, `C41_ec_luminosity`, `C41_ec_no_distance`, `C41_proton_luminosity`, `C41_proton_no_distance`, `C41_synch_luminosity`, `C41_synch_no_distance`, `C41_beaming`, `C42_synch_applies`, `C43_mass_exchange`, `C43_equal_masses`, `C43_object`, `C44_klein_nishina`, `C44_ssc_loss`, `C44_time_evolution_losses`, `C46_kernel`, `C46_edge`, `C47_nonneg`, `C47_quadratic`, `C47_empty`, `C47_object`, `C48_nonneg`, `C48_linear_in_electrons`, `C48_linear_in_target`, `C48_disk_accretion`, `C48_torus_point_source`, `C48_shell_point_source`, `C48_head_on`, `C48_dispatch`, `C48_no_distance`, `C50_ring_direction`, `C50_shell_direction`, `C50_on_axis`, `C51_cmb`, `C51_torus_point_source`, `C51_disk`, `C52_mu_grid`, `C53_disk_spectrum`, `C53_disk_luminosity`, `C53_disk_mu_s`, `C53_disk_edge_on`, `C53_torus_radius`, `C54_cross_section`, `C54_formula`, `C55_nonneg`, `C55_absorption`, `C55_point_source_behind`, `C55_homogeneous`, `C55_blr_moved_onto_shell`, `C56_supported`, `C56_silent`, `C58_trapz_affine`, `C58_loglog_nonnegative`, `C58_loglog_power_law`, `C58_loglog_homogeneous`, `C58_additive`, `C58_loglog_negative`, `C58_loglog_not_odd`, `C58_clip_range`, `C59_exact`, `C59_inexact`, `C59_error`, `C62_grid`, `C62_nonneg`, `C62_linear`, `C62_mean_energy`, `C62_reversed`, `C62_synchrotron`, `C63_SSC`, `C63_breaks`, `C63_no_photons`, `C64_parameters`, `C64_sherpa`, `C64_gammapy`, `C64_initial`, `C64_empty`, `C65_ssc`, `C65_ec`, `C65_sherpa_none`, `C65_order`, `C65_reversed_list`, `C65_norm`, `C67_protons`, `C67_mass_builders`, `C67_interpolated`, `C68_constant_rates`, `C69_slopes`, `C69_normalisation`, `C70_totals`, `C70_roundtrip`, `C71_threshold`, `C71_linear`, `C71_absorption_power`, `C72_ssc`, `C72_ssc_objects`, `C72_ec`, `C73_when_inserted`, `C74_superposition`, `C75_cmb`, `C75_point_source`, `C75_torus`, `C75_blr`, `C75_disk`, `C76_point_source`, `C76_torus_on_axis`, `C76_torus_off_axis`, `C76_blr_on_axis`, `C76_blr_off_axis`, `C76_disk`, `C76_disk_below`, `C76_disk_absorbs`, `C76_blob`, `C76_point_source_fixed_angle`, `C77_ssc`, `C77_energy_density`, `C78_synchrotron`, `C78_proton`, `C78_self_absorption`, `C78_escape`, `C78_delta`, `C79_disk_methods`, `C79_torus`, `C79_sublimation`, `C79_disk_temperature`, `C79_disk_photons`, `C79_eddington`, `C79_critical_field`, `C80_lines`, `C81_groups`, `C81_total`, `C81_accepts`, `C82_step`, `C82_distribution`, `C82_origin`, `C83_steps`, `C83_terminates`, `C84_region`, `C84_targets`, `C84_start`, `C84_spectral`, `C84_names`, `C84_sherpa_models`, `C84_gammapy`, `C85_power`, `C85_luminosity`, `C86_particle`, `C86_electrons`, `C86_protons`, `C87_thomson`, `C87_ssc_partial`, `C87_ssc_drop`, `C87_ssc_refuted`, `C88_total`, `C88_solid_angle`, `C88_thomson`, `C88_energy`, `C88_photons`, `C88_power`, `C89_average`, `C89_left_out`, `C89_photons`, `C89_energy`, `C89_ssc`, `C90_volume`, `C90_contents`, `C90_protons`, `C90_jet`, `C90_integrals`, `C90_power_laws`, `C90_photons`, `C91_recursion`, `C91_cooling`, `C91_converges`, `C92_drawn_to_balance`, `C94_total_energy`, `C95_shell_value`, `C95_blr`, `C95_blr_accuracy`, `C95_blr_far`, `C95_blr_deep`, `C95_blr_near`, `C95_blr_boosted`, `C96_power`, `C96_far`, `C96_refinement_partial`, `C96_underestimate`, `C96_density_refuted`, `C97_distributions`, `C97_contents`, `C97_energy_density`, `C97_synchrotron`, `C97_proton`, `C97_protons`, `C98_self_absorption`, `C98_ssc`, `C98_ssc_absorbed`, `C98_ec`, `C99_at_call`, `C99_kept_partial`, `C99_kept_times`, `C99_kept_refuted`, `C100_model`, `C100_fixed`, `C100_passes`, `C100_any`, `C100_extra_pass`, `C100_beyond`, `C100_never_ends`, `C101_converges`, `C101_kinetic`, `C101_cooling`, `C102_units`, `C103_torus_on_axis`, `C103_torus_off_axis`, `C103_blr_on_axis`, `C103_blr_off_axis`, `C104_external_compton`, `C105_integral`, `C105_repeated`, `C106_exact_run`, `C106_conserved`, `C106_fermi`, `C106_step`, `C106_still`, `C107_accuracy`, `C107_aligned`, `C107_lost`, `C107_range_needed`, `C108_cross_section`, `C108_torus`, `C108_blr`, `C108_range_needed`, `C109_accuracy`, `C109_uniform`, `C109_threshold_needed`, `C110_refinement`, `C110_disk_spectrum_partial`, `C110_disk_spectrum_refuted`, `C110_sed_flux_refuted`, `C111_model`, `C111_relative`, `C111_digits`, `C111_uniform`, `C111_vanishes`, `C112_model`, `C112_cell`, `C112_away`, `C112_sum`, `C113_model`, `C113_kernel`, `C113_beyond`, `C114_number_refuted`, `C114_default_grid_refuted`, `C114_opacity_refuted`, `C114_distance`, `C114_accuracy_partial`, `C115_comoving_refuted`, `C115_rest`, `C115_comoving_partial`, `C116_model`, `C116_far_refuted`, `C116_phi_partial`, `C117_model`, `C117_inside`, `C117_ssa_refuted`, `C117_ssa_partial`, `C117_ssa_sed`, `C118_bounds_refuted`, `C118_bounds_partial`, `C119_below`, `C119_kernel_partial`, `C119_number_refuted`, `C120_model`, `C120_transparent`, `C120_range_refuted`, `C120_accuracy_partial`, `C121_model`, `C121_accuracy`, `C122_model`, `C122_radii`, `C122_edge`, `C122_number`.
<!-- end assumptions -->
