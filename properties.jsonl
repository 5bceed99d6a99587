{"id": "C01", "title": "Simulated time adds up to the requested total", "statement": "Whenever TimeEvolution.evaluate returns, the total_time of the result is exactly the requested total time if that is positive (and 0 with no step taken otherwise); the total_time values handed to the callback are strictly increasing, never exceed the requested total, and the last one equals it.", "quantifier": "every blob, every set of user rate functions, every step policy (fixed, auto, auto with stale rates), every total time, every number of loop iterations", "why_tests_cant": "the number and length of steps depends on the data; a test sees a handful of step histories, the claim is about every history including the clipped last step", "anchors": ["agnpy/time_evolution/time_evolution.py:TimeEvolution.evaluate"]}
{"id": "C02", "title": "A fixed step duration gives the expected number of steps and always terminates", "statement": "With a fixed step duration s > 0 and total time T > 0, evaluate performs at most ceil(T/s) steps; if nothing raises, it performs exactly the smallest n with n*s >= T, every step except the last lasts exactly s, and the last lasts T-(n-1)*s. With a zero or negative step duration, which the constructor accepts, the loop never finishes.", "quantifier": "all T, s, blobs and rate functions", "why_tests_cant": "termination for all inputs cannot be observed by running finitely many inputs", "anchors": ["agnpy/time_evolution/time_evolution.py:TimeEvolution.evaluate", "agnpy/time_evolution/time_evolution.py:TimeEvolution.__init__"]}
{"id": "C03", "title": "Gammas stay inside gamma_bounds", "statement": "If gamma_bounds=(lo,hi) is given, then after every step (hence in every callback record and in the final result of a run with at least one step) every gamma g satisfies lo <= g and g*(1+1e-4) <= hi, whatever the rates do.", "quantifier": "all bounds, grids, rate functions, step policies, methods, and all numbers of steps", "why_tests_cant": "rates are arbitrary user functions; bins are moved, merged, removed and inserted in data dependent order", "anchors": ["agnpy/time_evolution/time_evolution.py:_remove_gamma_beyond_bounds", "agnpy/time_evolution/time_evolution.py:_add_boundary_bins", "agnpy/time_evolution/time_evolution.py:_apply_time_changes"]}
{"id": "C04", "title": "Gammas are strictly increasing", "statement": "After every step the gamma array is strictly increasing, provided max_bin_creep_from_bounds exceeds the log10 width of one bin (it is 0.1 by default). For a smaller creep value the guarantee fails: a duplicate or out of order boundary bin can be inserted.", "quantifier": "all executions with any rates (including rates that make bins overtake each other or collapse under log10)", "why_tests_cant": "needs the sort/dedup/merge/insert pipeline to be right for every permutation and every pattern of coinciding bins", "anchors": ["agnpy/time_evolution/_time_evolution_utils.py:sort_and_merge_duplicates", "agnpy/time_evolution/time_evolution.py:_sort_and_merge_bins", "agnpy/time_evolution/time_evolution.py:_add_boundary_bins"]}
{"id": "C05", "title": "Close bins are merged", "statement": "After every step without gamma_bounds, any two neighbouring gammas except the first pair and the last pair are at least merge_bins_closer_than apart in log10; with gamma_bounds the same holds except for the two first and two last pairs. Merging never moves a point outside the interval spanned by the bins it replaces.", "quantifier": "all patterns of close bins, all thresholds, all executions", "why_tests_cant": "patterns of runs of close bins grow exponentially with the number of bins", "anchors": ["agnpy/time_evolution/time_evolution.py:_remove_too_close_bins", "agnpy/time_evolution/_time_evolution_utils.py:group_duplicates", "agnpy/time_evolution/_time_evolution_utils.py:merge_points"]}
{"id": "C06", "title": "Arrays stay aligned", "statement": "In every callback record and result, gamma, density, each row of density_subgroups, and every rate array have the same length, the number of subgroup rows never changes and the rate dictionaries keep exactly the keys of the functions supplied by the user (in a callback record the relative and the absolute injection dictionaries stand in each other's place, see C16).", "quantifier": "all executions", "why_tests_cant": "alignment must survive arbitrary interleavings of merges, removals and insertions", "anchors": ["agnpy/time_evolution/time_evolution.py:TimeEvolution.evaluate", "agnpy/time_evolution/_time_evolution_utils.py:remap", "agnpy/time_evolution/_time_evolution_utils.py:remap_subgroups_density", "agnpy/time_evolution/_time_evolution_utils.py:recalc_new_rates"]}
{"id": "C07", "title": "Densities never become negative", "statement": "If the initial distribution is non-negative, every density ever reported (callback, result, and blob.n_e evaluated anywhere) is >= 0; a step that would make any subgroup negative raises ValueError instead.", "quantifier": "all executions, rates and subgroup layouts", "why_tests_cant": "escape rates are arbitrary; the claim is an invariant over all histories", "anchors": ["agnpy/time_evolution/time_evolution.py:_apply_time_eval", "agnpy/time_evolution/_time_evolution_utils.py:merge_points"]}
{"id": "C08", "title": "Subgroup fractions stay a partition", "statement": "If the initial split has entries in [0,1] (the default split has), then in every record each column of density_subgroups lies in [0,1] and sums to one (exactly in real arithmetic if the initial split does; otherwise a column's deviation is never larger than the largest deviation of the initial split, at most 1.1e-5). Newly inserted boundary bins belong entirely to the first subgroup.", "quantifier": "all executions with subgroups", "why_tests_cant": "invariant over histories with merging, insertion and division by a possibly zero total", "anchors": ["agnpy/time_evolution/time_evolution.py:_apply_time_eval", "agnpy/time_evolution/_time_evolution_utils.py:remap_subgroups_density", "agnpy/time_evolution/time_evolution.py:__init__"]}
{"id": "C09", "title": "Particle number is conserved bin by bin", "statement": "In one Euler step with a single group, before merging, the number of particles in each bin, density times bin width, changes only by the injection: n'*w' = n*w + (n*rel + abs)*dt*w', and the bin edges move by rate*dt. In particular without energy change n' = n + (n*rel+abs)*dt.", "quantifier": "all bins, rates, step lengths for which the step does not raise", "why_tests_cant": "an exact algebraic law over all real inputs", "anchors": ["agnpy/time_evolution/_time_evolution_utils.py:recalc_energy_bins_and_density_increase", "agnpy/time_evolution/time_evolution.py:_apply_time_eval"]}
{"id": "C10", "title": "Automatic steps respect all the per-interval limits and are the longest such steps", "statement": "With step_duration='auto' (not reusing rates), in each step, for every bin edge and subgroup, and with the rates at the start of the step: |energy change| <= max_energy_change*energy, the density factor due to compression lies in [1/(1+m), 1+m] with m = max_density_change, at most half of the particles escape by relative rates, and |absolute injection| <= max_injection; and unless the step is the clipped last one, at least one of these limits is attained, so no longer step would do.", "quantifier": "all states, rates, thresholds", "why_tests_cant": "the step is a minimum over all bins, groups and four criteria with sign dependent branches", "anchors": ["agnpy/time_evolution/time_evolution.py:_calc_max_time_per_bin", "docs/time_evolution.rst"]}
{"id": "C11", "title": "Automatic stepping never raises the negative-gamma or negative-width error", "statement": "With step_duration='auto', Euler, max_energy_change < 1 and max_density_change > 0, without rate reuse, or with rate reuse when there are no subgroups, no step ever raises 'Negative gamma obtained' or the bin-width error, and never collapses a bin to zero width (unless a user function itself raises such an error).", "quantifier": "all executions, all user rates", "why_tests_cant": "with reuse of stale rates the bound must hold across an unbounded number of steps since the last recalculation", "anchors": ["agnpy/time_evolution/time_evolution.py:_calc_max_time_per_bin", "agnpy/time_evolution/_time_evolution_utils.py:recalc_energy_bins_and_density_increase"]}
{"id": "C12", "title": "Automatic stepping never raises 'Negative density obtained'", "statement": "With step_duration='auto', Euler, a non-negative initial distribution, an initial split with entries in [0,1], max_energy_change < 1, non-negative absolute injection rates and max_density_change <= 1 (without rate reuse, or with rate reuse when there are no subgroups), no step raises 'Negative density obtained' (unless a user function itself raises it). With absolute escape (negative absolute rates) or larger thresholds the automatic step does not protect against it.", "quantifier": "all executions; existential for the failing configurations", "why_tests_cant": "interaction of four independent limits", "anchors": ["agnpy/time_evolution/time_evolution.py:_calc_max_time_per_bin", "agnpy/time_evolution/time_evolution.py:_apply_time_eval"]}
{"id": "C13", "title": "Reused rates are never used beyond the time they were computed for", "statement": "With optimize_recalculating_slow_rates, from the moment the rates of a bin are computed until they are recomputed, the total time stepped is at most the maximal interval computed for that bin from those rates; the accumulated energy change of the bin stays within max_energy_change of its energy at that moment.", "quantifier": "all executions, any number of steps between recalculations, under sorting, merging, removal and insertion of bins", "why_tests_cant": "history property: the bookkeeping array is permuted and edited at each step", "anchors": ["agnpy/time_evolution/time_evolution.py:TimeEvolution.evaluate"]}
{"id": "C14", "title": "Without rate reuse the reported rates are the rates of the reported state", "statement": "If rates are not reused, the rates in the result are exactly the user functions evaluated on the reported gamma, densities and subgroup split, with blob.n_e being the distribution in place at return.", "quantifier": "all executions", "why_tests_cant": "must hold after any history of merges and insertions", "anchors": ["agnpy/time_evolution/_time_evolution_utils.py:recalc_new_rates", "agnpy/time_evolution/time_evolution.py:TimeEvolution.evaluate"]}
{"id": "C15", "title": "No undefined rates", "statement": "The placeholder NaN rates given to newly inserted bins never reach a computation, a callback or the result: they are always recalculated first.", "quantifier": "all executions including stale-rate mode", "why_tests_cant": "depends on the time bookkeeping of inserted bins in every history", "anchors": ["agnpy/time_evolution/_time_evolution_utils.py:remap", "agnpy/time_evolution/_time_evolution_utils.py:recalc_new_rates", "agnpy/time_evolution/time_evolution.py:TimeEvolution.evaluate"]}
{"id": "C16", "title": "Callback and result have the same layout", "statement": "The record passed to distribution_change_callback after the last step equals the record returned by evaluate, field by field.", "quantifier": "all executions with at least one step", "why_tests_cant": "needs both injection kinds present with different values; universally quantified", "anchors": ["agnpy/time_evolution/time_evolution.py:TimeEvolution.evaluate", "agnpy/time_evolution/types.py:TimeEvaluationResult"]}
{"id": "C17", "title": "Heun's method is Heun's method", "statement": "With method='heun' each step moves bin edges by dt times the average of the energy change rate at the start and at the Euler-predicted state, starting from the state before the step, and injections are applied once to the state before the step.", "quantifier": "all states and rates, with and without subgroups", "why_tests_cant": "the corrector must start from the old state for every subgroup split", "anchors": ["agnpy/time_evolution/time_evolution.py:_apply_time_changes"]}
{"id": "C18", "title": "Constructor accepts exactly the valid configurations", "statement": "TimeEvolution(...) raises ValueError exactly when one of the documented conditions is violated (step_duration kind, duplicate function keys, grid outside the bounds, grid not strictly increasing, rate reuse with a fixed step, unknown method, Heun with rate reuse, subgroup naming an unknown function, initial split not summing to one or not matching the grid), and otherwise stores the defaults described.", "quantifier": "all argument combinations", "why_tests_cant": "the space of argument combinations is a product of ten choices times arbitrary arrays", "anchors": ["agnpy/time_evolution/time_evolution.py:TimeEvolution.__init__"]}
{"id": "C19", "title": "Grouping of rates adds up", "statement": "Per subgroup the applied rate is the sum of the rates of the functions listed in it; if every function is listed exactly once, the sum over subgroups equals the sum over all functions. Functions listed in no subgroup have no effect.", "quantifier": "all dictionaries and subgroup lists", "why_tests_cant": "all list layouts incl. repeated names and empty groups", "anchors": ["agnpy/time_evolution/_time_evolution_utils.py:sum_change_rates"]}
{"id": "C20", "title": "Default grid is inside the allowed range", "statement": "Without initial_gamma_array the initial gammas run from max(n_e.gamma_min, lo) to min(n_e.gamma_max, hi), are strictly increasing and have blob.gamma_e_size points, if that range is not empty; if it is empty the constructor nevertheless accepts a decreasing grid.", "quantifier": "all blobs and bounds", "why_tests_cant": "real-valued quantification", "anchors": ["agnpy/time_evolution/time_evolution.py:TimeEvolution.__init__"]}
{"id": "C21", "title": "Index bookkeeping composes", "statement": "Composing two re-index maps and applying the result equals applying them one after the other, with -1 meaning 'new element' at every level, for arrays, subgroup tables and dictionaries.", "quantifier": "all maps and arrays of any length", "why_tests_cant": "all permutations/insertions of all lengths", "anchors": ["agnpy/time_evolution/_time_evolution_utils.py:combine_mapping", "agnpy/time_evolution/_time_evolution_utils.py:remap", "agnpy/time_evolution/_time_evolution_utils.py:remap_subgroups_density"]}
{"id": "C22", "title": "blob.n_e agrees with the returned table", "statement": "After an evaluation with at least one step, blob.n_e evaluated at a returned gamma gives the returned density wherever that density is not zero; outside the support of blob.n_e the returned density is zero; if no returned density is zero, blob.n_e(gamma) is exactly the returned array (no nudging). Where the returned density is zero the agreement can fail: at an interior bin of zero density and at a boundary bin inserted within the support blob.n_e is positive. If blob.n_e is an EmptyDistribution all returned densities are zero, and its gamma_min/gamma_max are arrays rather than numbers.", "quantifier": "all executions", "why_tests_cant": "depends on merge/removal/insert history", "anchors": ["agnpy/time_evolution/_time_evolution_utils.py:update_distribution", "agnpy/time_evolution/_time_evolution_utils.py:merge_points", "agnpy/spectra/spectra.py:InterpolatedDistribution"]}
{"id": "C23", "title": "A run can be split at a checkpoint", "statement": "Stopping the loop after k passes and going on from the state and blob.n_e reached there gives the same records and result as one go. Without rate reuse and with a fixed step h this holds at the level of the API: evaluating for k*h, then building a new TimeEvolution on the same blob with the returned gammas as initial grid and the returned subgroup table as initial split, and evaluating it for T2, gives the same records (times counted from the second start), result, exceptions and blob.n_e as one evaluation for k*h + T2, provided blob.n_e reproduces the returned densities (it does when none is zero).", "quantifier": "all k, states, functions", "why_tests_cant": "equality of unboundedly long executions", "anchors": ["agnpy/time_evolution/time_evolution.py:TimeEvolution.evaluate"]}
{"id": "C24", "title": "remove_empty_densities keeps exactly the non-empty bins", "statement": "remove_empty_densities returns exactly the bins with density > 0, in order, with all arrays filtered consistently, and is idempotent.", "quantifier": "all results", "why_tests_cant": "all masks of all lengths", "anchors": ["agnpy/time_evolution/_time_evolution_utils.py:remove_empty_densities"]}
{"id": "C25", "title": "Nothing changes when nothing acts", "statement": "If all rate functions return zero, then for any total time and step policy evaluate returns the initial gammas and densities unchanged (grid inside the bounds, points not closer than the merge threshold).", "quantifier": "all grids, densities, times, step policies", "why_tests_cant": "fixed point over unbounded number of steps", "anchors": ["agnpy/time_evolution/time_evolution.py:TimeEvolution.evaluate"]}
{"id": "C26", "title": "Duplicate grouping is a partition into runs", "statement": "Given the sorted indices of points equal (or too close) to their predecessor, the groups built for merging are exactly the maximal runs of coinciding neighbours: disjoint, contiguous, each of length >= 2, each starting with an index that is not itself a duplicate; merging leaves exactly the non-duplicate positions.", "quantifier": "all index lists", "why_tests_cant": "exponentially many patterns", "anchors": ["agnpy/time_evolution/_time_evolution_utils.py:group_duplicates", "agnpy/time_evolution/_time_evolution_utils.py:merge_points"]}
{"id": "C27", "title": "A failing step leaves a well defined blob", "statement": "If evaluate raises at any step, blob.n_e is the distribution installed by the last completed update (or the original one), never a half built one; the step that raised before its update leaves blob.n_e untouched.", "quantifier": "all failure points in all executions", "why_tests_cant": "crash points are unbounded in number", "anchors": ["agnpy/time_evolution/time_evolution.py:_apply_time_changes", "agnpy/time_evolution/_time_evolution_utils.py:update_distribution"]}
{"id": "C28", "title": "Analytic distributions vanish outside and are non-negative inside their range", "statement": "For PowerLaw, BrokenPowerLaw, LogParabola, ExpCutoffPowerLaw and ExpCutoffBrokenPowerLaw the density is exactly 0 for gamma outside [gamma_min, gamma_max], and inside it is > 0 when k > 0.", "quantifier": "all real parameters and gammas", "why_tests_cant": "real quantification", "anchors": ["agnpy/spectra/spectra.py:PowerLaw.evaluate", "agnpy/spectra/spectra.py:BrokenPowerLaw.evaluate", "agnpy/spectra/spectra.py:LogParabola.evaluate", "agnpy/spectra/spectra.py:ExpCutoffPowerLaw.evaluate", "agnpy/spectra/spectra.py:ExpCutoffBrokenPowerLaw.evaluate"]}
{"id": "C29", "title": "SSA integrand is gamma^2 d/dgamma (n/gamma^2)", "statement": "For every analytic distribution, at each gamma strictly inside its range (and off the break for the broken ones), SSA_integrand equals gamma^2 times the derivative of n(gamma)/gamma^2.", "quantifier": "all real parameters and gammas", "why_tests_cant": "a calculus identity; numerical differentiation only samples it", "anchors": ["agnpy/spectra/spectra.py:evaluate_SSA_integrand (each class)"]}
{"id": "C30", "title": "Normalisation constructors hit their target", "statement": "from_total_density, from_total_energy_density and from_total_energy produce a distribution whose own numerical integral (same integrator and grid) of n, of mc^2*gamma*n, resp. V*mc^2*gamma*n equals the requested value.", "quantifier": "all distributions whose shape integral is non-zero, all target values", "why_tests_cant": "all parameters", "anchors": ["agnpy/spectra/spectra.py:ParticleDistribution.from_total_density", "agnpy/spectra/spectra.py:from_total_energy_density", "agnpy/spectra/spectra.py:from_total_energy"]}
{"id": "C31", "title": "from_density_at_gamma_1 sets the density at gamma=1", "statement": "from_density_at_gamma_1(n, ...) yields a distribution with density n at gamma=1 when the range contains 1; when the range excludes 1 (as with the default gamma_min=10) it divides by zero.", "quantifier": "all parameters", "why_tests_cant": "all parameters", "anchors": ["agnpy/spectra/spectra.py:from_density_at_gamma_1"]}
{"id": "C32", "title": "Distributions are linear in their normalisation", "statement": "Scaling k (or norm) by a factor scales density, SSA integrand and integrals by that factor for each class, for np.trapz; and for positive factors also for trapz_loglog.", "quantifier": "all parameters", "why_tests_cant": "all real factors", "anchors": ["agnpy/spectra/spectra.py:evaluate", "agnpy/spectra/spectra.py:integral", "agnpy/utils/math.py:trapz_loglog"]}
{"id": "C33", "title": "Evaluating a distribution does not change the caller's array beyond rounding", "statement": "evaluate changes at most the first and the last element of the gamma array given, only when they lie outside the range by a relative amount below 1e-10, moving them onto the range end; but over many calls with different ranges the shared default integration grid can drift without bound (each call below 1e-10).", "quantifier": "all arrays, all sequences of calls", "why_tests_cant": "history property over call sequences on shared module state", "anchors": ["agnpy/spectra/spectra.py:_correct_array_boundary_values", "agnpy/utils/math.py:gamma_e_to_integrate"]}
{"id": "C34", "title": "Broken power laws are continuous at the break and equal k there", "statement": "At gamma = gamma_b BrokenPowerLaw equals k and is continuous; ExpCutoffBrokenPowerLaw equals k*exp(-gamma_b/gamma_c) and is continuous; LogParabola equals k at gamma_0; with equal indices the broken law is a single power law.", "quantifier": "all parameters", "why_tests_cant": "limit statement over reals", "anchors": ["agnpy/spectra/spectra.py:BrokenPowerLaw.evaluate", "agnpy/spectra/spectra.py:ExpCutoffBrokenPowerLaw.evaluate", "agnpy/spectra/spectra.py:LogParabola.evaluate"]}
{"id": "C35", "title": "Interpolated distribution reproduces its table", "statement": "InterpolatedDistribution reproduces norm*n at every tabulated gamma with positive density, is 0 outside the range of the non-zero points and >= 0 for norm >= 0; tabulated zero densities between two non-zero ones are not reproduced (the value there is > 0 for norm > 0).", "quantifier": "all tables (strictly increasing gammas), any interpolator passing through its nodes", "why_tests_cant": "all tables", "anchors": ["agnpy/spectra/spectra.py:InterpolatedDistribution"]}
{"id": "C36", "title": "set_delta_D and mu_s/theta_s are inverse", "statement": "After set_delta_D(Gamma, theta_s) the derived mu_s and theta_s return cos(theta_s) and theta_s; conversely a Blob built from delta_D, Gamma has 1/(Gamma(1-Beta mu_s)) = delta_D.", "quantifier": "all Gamma > 1, all angles in [0, pi]", "why_tests_cant": "real identity", "anchors": ["agnpy/emission_regions/blob.py:Blob.set_delta_D", "agnpy/emission_regions/blob.py:Blob.mu_s", "agnpy/emission_regions/blob.py:Blob.theta_s"]}
{"id": "C37", "title": "Derived blob quantities follow their definitions after any updates", "statement": "After any sequence of attribute assignments, V_b, t_var, Beta, mu_s, U_B, u_e, W_e, N_e_tot, k_eq, P_jet are functions of the current attribute values; d_L however keeps the value computed from the redshift at construction.", "quantifier": "all sequences of attribute updates", "why_tests_cant": "history property", "anchors": ["agnpy/emission_regions/blob.py:Blob"]}
{"id": "C38", "title": "Equipartition and jet power are consistent", "statement": "k_eq = P_jet_ke/P_jet_B = u_e/U_B (plus protons if present); P_jet_ke + P_jet_B >= 0; t_var and R_b satisfy R_b = c t_var delta_D/(1+z), the relation used by the fit wrappers.", "quantifier": "all blobs", "why_tests_cant": "real identity", "anchors": ["agnpy/emission_regions/blob.py:k_eq", "agnpy/emission_regions/blob.py:P_jet_ke", "agnpy/emission_regions/blob.py:P_jet_B", "agnpy/emission_regions/blob.py:t_var"]}
{"id": "C39", "title": "Synchrotron SED is non-negative and linear in the electron density", "statement": "Without self-absorption, for a non-negative distribution the SED flux is >= 0 at each frequency, scales linearly with k and is additive in the distribution (np.trapz).", "quantifier": "all parameters, grids and frequencies", "why_tests_cant": "real quantification over functions", "anchors": ["agnpy/synchrotron/synchrotron.py:evaluate_sed_flux", "agnpy/synchrotron/proton_synchrotron.py:evaluate_sed_flux"]}
{"id": "C40", "title": "Self-absorption only attenuates", "statement": "The attenuation factor lies in (0,1] for every tau >= 0 and decreases from 1; hence the SED with ssa=True never exceeds the one without, and is non-negative, whenever tau >= 0, which holds if the SSA integrand is non-positive (index p >= -2).", "quantifier": "all tau, all parameters", "why_tests_cant": "inequality over reals with removable singularity and a cut at 1e-3", "anchors": ["agnpy/synchrotron/synchrotron.py:tau_to_attenuation", "agnpy/synchrotron/synchrotron.py:evaluate_tau_ssa"]}
{"id": "C41", "title": "Luminosity and flux are consistent and beaming factors are right", "statement": "sed_luminosity = 4 pi d_L^2 sed_flux for every process, and without self absorption does not depend on d_L; at fixed comoving frequency the synchrotron flux scales as delta_D^4 / d_L^2.", "quantifier": "all parameters", "why_tests_cant": "real identity", "anchors": ["agnpy/synchrotron/synchrotron.py:sed_luminosity", "agnpy/compton/synchrotron_self_compton.py:sed_luminosity", "agnpy/compton/external_compton.py:sed_luminosity"]}
{"id": "C42", "title": "sed_peak_flux and sed_peak_nu agree", "statement": "On any frequency grid, sed_peak_nu is the first grid frequency at which the SED equals sed_peak_flux, which is the maximum on the grid.", "quantifier": "all grids", "why_tests_cant": "all arrays", "anchors": ["agnpy/synchrotron/synchrotron.py:sed_peak_flux", "agnpy/compton/synchrotron_self_compton.py:sed_peak_nu"]}
{"id": "C43", "title": "Proton synchrotron is electron synchrotron with the mass exchanged", "statement": "For identical inputs and with m_p replaced by m_e the proton SED formula gives the electron SED without self-absorption; peak frequency and photon energies scale as expected with mass.", "quantifier": "all parameters", "why_tests_cant": "real identity", "anchors": ["agnpy/synchrotron/proton_synchrotron.py:ProtonSynchrotron", "agnpy/synchrotron/synchrotron.py:Synchrotron"]}
{"id": "C44", "title": "Energy loss rates are those of the formulae and are non-negative", "statement": "Synchrotron loss (4/3) sigma_T c U_B gamma^2; the SSC loss with Klein-Nishina correction is between 0 and the loss without correction computed from the same photon spectrum; correction factor in (0,1] and decreasing in gamma; loss functions handed to TimeEvolution are their negatives, Fermi acceleration is E/t_acc.", "quantifier": "all gamma, blobs", "why_tests_cant": "piecewise formula over reals", "anchors": ["agnpy/synchrotron/synchrotron.py:electron_energy_loss_rate", "agnpy/compton/synchrotron_self_compton.py:electron_energy_loss_rate", "agnpy/time_evolution/time_evolution.py:synchrotron_loss"]}
{"id": "C45", "title": "Angle-dependent Compton kernel is kinematically correct and non-negative", "statement": "compton_kernel is non-zero exactly for gamma >= gamma_min, which is equivalent to the kinematic bound epsilon_s <= 2 gamma ebar/(1+2 ebar); where non-zero it is >= 1; there epsilon_s < gamma.", "quantifier": "all positive energies and all angles", "why_tests_cant": "inequality with square roots over reals", "anchors": ["agnpy/compton/kernels.py:compton_kernel", "agnpy/compton/kernels.py:get_gamma_min"]}
{"id": "C46", "title": "Isotropic Compton kernel is non-negative with the right support", "statement": "isotropic_kernel is >= 0 everywhere, zero unless 1/(4 gamma^2) <= q <= 1, and F_c vanishes at q = 1.", "quantifier": "all gamma, epsilon, epsilon_s", "why_tests_cant": "transcendental inequality", "anchors": ["agnpy/compton/kernels.py:F_c", "agnpy/compton/kernels.py:isotropic_kernel"]}
{"id": "C47", "title": "SSC SED is non-negative and quadratic in the density", "statement": "Without self-absorption the SSC SED scales with the square of the electron normalisation (trapz), is >= 0, and vanishes for an empty distribution.", "quantifier": "all parameters, grids", "why_tests_cant": "real quantification", "anchors": ["agnpy/compton/synchrotron_self_compton.py:evaluate_sed_flux"]}
{"id": "C48", "title": "External Compton SEDs are non-negative, linear, and consistent between targets", "statement": "For each target the EC SED is >= 0, linear in the electron normalisation and, at fixed photon energies, in the target luminosity (for the disk, whose luminosity also sets the photon energies, the SED depends on L_disk and eta only through L_disk/eta); a dust torus or BLR shell of zero radius coincides with the point source behind the jet; a point source seen head-on contributes nothing; sed_flux picks the formula of the target class and yields nothing for unsupported targets; a missing distance r is a TypeError.", "quantifier": "all parameters", "why_tests_cant": "real identity over integrals", "anchors": ["agnpy/compton/external_compton.py:evaluate_sed_flux_*", "agnpy/compton/external_compton.py:sed_flux"]}
{"id": "C49", "title": "cos_psi is a cosine", "statement": "For |mu|,|mu_s| <= 1, cos_psi lies in [-1,1], is symmetric in mu and mu_s, and is the scalar product of the two unit vectors.", "quantifier": "all angles", "why_tests_cant": "real inequality", "anchors": ["agnpy/utils/geometry.py:cos_psi"]}
{"id": "C50", "title": "Geometry helpers are Euclidean distances and direction cosines", "statement": "x_re_shell, x_re_ring, x_re_ring_mu_s, x_re_shell_mu_s are the Euclidean distances between photon and reprocessing point; mu_star and mu are direction cosines in [-1,1]; with mu_s = 1 the general formulae reduce to the on-axis ones; phi is the azimuth of the direction.", "quantifier": "all geometries with non-zero distance", "why_tests_cant": "real identity", "anchors": ["agnpy/utils/geometry.py:x_re_shell", "agnpy/utils/geometry.py:mu_star_shell", "agnpy/utils/geometry.py:x_re_ring_mu_s", "agnpy/utils/geometry.py:phi_mu_re_ring", "agnpy/utils/geometry.py:x_re_shell_mu_s", "agnpy/utils/geometry.py:phi_mu_re_shell"]}
{"id": "C51", "title": "Energy densities transform consistently to the blob frame", "statement": "The comoving energy density of each target equals the Lorentz transformed one: for a ray at angle mu the factor is Gamma^2(1-Beta mu)^2 (disk formula equals this; point source equals mu = 1; a torus of radius 0 is a point source); CMB factor is Gamma^2(1+Beta^2/3), the average over directions. For the BLR inside the shell the direction sign is lost.", "quantifier": "all Gamma, geometry", "why_tests_cant": "real identity", "anchors": ["agnpy/targets/targets.py:CMB.u", "agnpy/targets/targets.py:PointSourceBehindJet.u", "agnpy/targets/targets.py:SSDisk.u", "agnpy/targets/targets.py:SphericalShellBLR.u", "agnpy/targets/targets.py:RingDustTorus.u"]}
{"id": "C52", "title": "Disk geometry round trips", "statement": "The mu grid of SSDisk is increasing, within (0,1), corresponds to radii within [R_in,R_out], phi_disk is in [0,1) on it; specifying radii in gravitational radii or in cm gives the same disk; wrong argument kinds raise TypeError.", "quantifier": "all disks and heights", "why_tests_cant": "real identity", "anchors": ["agnpy/targets/targets.py:SSDisk.__init__", "agnpy/targets/targets.py:evaluate_mu_from_r_tilde", "agnpy/targets/targets.py:evaluate_phi_disk_mu"]}
{"id": "C53", "title": "Normalised thermal SEDs have the stated luminosity", "statement": "The normalised disk SED integrates, on the code's grid and counting both sides, to L_disk; consequently it does not depend on mu_s; up to that one factor it is, at each frequency, the sum over the radii of Planck spectra at the temperature that radiates the flux of the radius; the torus SED is L_dt/(4 pi R^2 sigma T^4) times Planck's law over the solid angle and independent of R_dt.", "quantifier": "all parameters", "why_tests_cant": "real identity", "anchors": ["agnpy/targets/targets.py:evaluate_multi_T_bb_norm_sed", "agnpy/targets/targets.py:evaluate_bb_norm_sed"]}
{"id": "C54", "title": "Pair production cross section", "statement": "sigma(s) is 0 for s < 1, at threshold 0, and >= 0 for every s >= 1 (in exact arithmetic).", "quantifier": "all s", "why_tests_cant": "transcendental inequality", "anchors": ["agnpy/absorption/targets_absorption.py:sigma"]}
{"id": "C55", "title": "Opacities are non-negative and absorption factors lie in (0,1]", "statement": "tau >= 0 for every target and geometry (integration path ordered), so absorption = exp(-tau) is in (0,1]; for a point source exactly behind (mu_s = 1) tau = 0; absorption_homogeneous is in (0,1] for tau > 0 but undefined (0/0) at tau = 0, in particular for the point source on axis.", "quantifier": "all parameters", "why_tests_cant": "real quantification", "anchors": ["agnpy/absorption/targets_absorption.py:Absorption.tau", "agnpy/absorption/targets_absorption.py:absorption", "agnpy/absorption/targets_absorption.py:absorption_homogeneous"]}
{"id": "C56", "title": "Absorption dispatch covers every target", "statement": "tau(nu) returns an opacity for each supported combination of target and mu_s; combinations without an implementation (disk off axis, CMB) silently give no value.", "quantifier": "all targets and mu_s", "why_tests_cant": "finite but with real mu_s", "anchors": ["agnpy/absorption/targets_absorption.py:Absorption.tau", "agnpy/absorption/targets_absorption.py:Absorption.__init__"]}
{"id": "C57", "title": "EBL absorption stays within the table", "statement": "The EBL absorption is a weighted mean of the four surrounding table values: between their min and max (so in [0,1] if the table is), exact at table nodes, and undefined (NaN) outside the table range.", "quantifier": "all tables, frequencies, redshifts", "why_tests_cant": "all tables", "anchors": ["agnpy/absorption/ebl_absorption.py:EBL.absorption", "agnpy/absorption/ebl_absorption.py:interpolate_absorption_table"]}
{"id": "C58", "title": "trapz and trapz_loglog", "statement": "np.trapz is linear, monotone and exact for straight lines; trapz_loglog is non-negative for non-negative data on positive increasing grids, exact for power laws A*x^s on any increasing grid (unless 0 < |s+1| <= 1e-10), homogeneous for positive factors (clipping aside); both are additive over adjacent intervals; but trapz_loglog is not odd: for negative integrands (as in the SSA opacity) it silently uses a left Riemann sum.", "quantifier": "all grids, data", "why_tests_cant": "real quantification", "anchors": ["agnpy/utils/math.py:trapz_loglog"]}
{"id": "C59", "title": "power_law_integral is the integral", "statement": "power_law_integral equals the definite integral of k*gamma^-p for p = 1 and for every p not within np.isclose of 1 (|p-1| > 1e-8+1e-5); within isclose but p != 1 the value is wrong for every range 1 <= gamma_min < gamma_max. There the relative error is at most 1.02e-5 ln(gamma_max).", "quantifier": "all parameters", "why_tests_cant": "calculus identity", "anchors": ["agnpy/utils/math.py:power_law_integral"]}
{"id": "C60", "title": "axes_reshaper shapes broadcast to the product grid", "statement": "For n arrays of sizes s_0..s_{n-1}, the reshaped arrays have dimension n, size s_i on axis i and 1 elsewhere, broadcast together to shape (s_0,...,s_{n-1}), and element (i_0..i_{n-1}) of the i-th is the original element i_i.", "quantifier": "any number of arrays", "why_tests_cant": "all n", "anchors": ["agnpy/utils/math.py:axes_reshaper"]}
{"id": "C61", "title": "Frequency conversions", "statement": "nu_to_epsilon_prime is linear and strictly increasing in nu, equals h nu (1+z)/(delta_D m c^2), its inverse is epsilon -> epsilon delta_D m c^2/(h(1+z)); R_g units and B conversions are as defined.", "quantifier": "all values", "why_tests_cant": "real identity", "anchors": ["agnpy/utils/conversion.py:nu_to_epsilon_prime", "agnpy/utils/conversion.py:to_R_g_units"]}
{"id": "C62", "title": "Flux integrals", "statement": "The frequency grid of energy_flux_integral/flux_integral starts at nu_min, ends at nu_max and is strictly increasing; both integrals are non-negative for non-negative SEDs and linear in the SED; diff_energy_flux*E^2 = SED.", "quantifier": "all grids", "why_tests_cant": "real quantification", "anchors": ["agnpy/radiative_process/core.py:RadiativeProcess"]}
{"id": "C63", "title": "Spectral constraints solve their balance equations", "statement": "The Larmor, ballistic, synchrotron, SSC and EC limited maximum Lorentz factors and cooling breaks satisfy the equations balancing acceleration/dynamical time against loss time that define them.", "quantifier": "all blobs", "why_tests_cant": "real identity", "anchors": ["agnpy/constraints/spectral_constraints.py"]}
{"id": "C64", "title": "Fit parameters map back onto evaluate's arguments", "statement": "For every distribution class except EmptyDistribution the list of fit parameters, unscaled by either wrapper (10** of the log10 ones), reproduces exactly the argument list of evaluate in order, and the initial values reproduce the distribution the wrapper was built with. For EmptyDistribution, which has no normalisation, the gammapy wrapper evaluates it while the sherpa wrapper raises TypeError.", "quantifier": "all classes and parameter values", "why_tests_cant": "permutation errors show only for specific classes/values", "anchors": ["agnpy/fit/core.py:get_spectral_parameters_from_n_e", "agnpy/fit/sherpa_wrapper.py:_scale_spectral_parameters", "agnpy/fit/gammapy_wrapper.py:_sort_spectral_parameters"]}
{"id": "C65", "title": "gammapy and sherpa wrappers compute the same model", "statement": "For the same parameters and targets list the two backends give the same SED (divided by E^2 in the gammapy case); for the list ['dt','blr'] the sherpa wrapper gives no value while gammapy evaluates it; gammapy's norm parameter has no effect.", "quantifier": "all parameters, target lists", "why_tests_cant": "all lists", "anchors": ["agnpy/fit/gammapy_wrapper.py:evaluate", "agnpy/fit/sherpa_wrapper.py:calc", "agnpy/fit/models.py"]}
{"id": "C66", "title": "Flux point systematics", "statement": "When loading flux points each instrument listed in systematics_dict gets its own relative systematic error and the others none. (sherpa loader: an unlisted instrument gets the error array of the last listed one before it in alphabetical order, and the call fails if there is none or if the lengths do not add up.)", "quantifier": "all tables and dictionaries", "why_tests_cant": "all tables", "anchors": ["agnpy/fit/data.py:load_sherpa_flux_points", "agnpy/fit/data.py:load_gammapy_flux_points"]}
{"id": "C67", "title": "Constructors validate their inputs", "statement": "Blob rejects a non-positive delta_D; proton quantities raise AttributeError when n_p is absent; SphericalShellBLR rejects unknown lines; SSDisk rejects mixed units; EBL rejects unknown models; ParticleDistribution rejects masses other than m_e, m_p; Absorption without r is accepted only for a Blob target.", "quantifier": "all inputs", "why_tests_cant": "all inputs", "anchors": ["agnpy/emission_regions/blob.py", "agnpy/targets/targets.py", "agnpy/absorption/ebl_absorption.py", "agnpy/spectra/spectra.py", "agnpy/absorption/targets_absorption.py"]}
{"id": "C68", "title": "Constant rates give the closed-form evolution", "statement": "With a fixed step t, no subgroups, bounds or merging, and functions returning constants (energy rate a, relative rate r, absolute rate q), evaluate after k steps (total time k*t) returns exactly the gammas g + a*k*t/mec2 and the densities obtained from the initial ones by k times v := v + (v*r+q)*t, i.e. v + k*q*t for r = 0 and (v+q/r)(1+r*t)^k - q/r otherwise, for Euler and Heun alike, and reports every intermediate state of that sequence.", "quantifier": "all grids, initial distributions, rates, step lengths and numbers of steps for which the drifted gammas stay positive and the densities non-negative", "why_tests_cant": "a test fixes one grid and one number of steps; the closed form has to hold after any number of steps", "anchors": ["agnpy/time_evolution/time_evolution.py: TimeEvolution.evaluate", "agnpy/time_evolution/_time_evolution_utils.py: recalc_gamma_bins_and_density"]}
{"id": "C69", "title": "Documented spectral indices and normalisations", "statement": "For each analytic class the logarithmic slope d ln n/d ln gamma inside the range is the documented one: -p (power law), -p1 below and -p2 above the break, -(p + 2 q log10(gamma/gamma_0)) (log parabola), with an additional -gamma/gamma_c for the exponential cutoffs; and the value is k at gamma=1, at the break, at gamma_0, times exp(-gamma/gamma_c) for the cutoff classes.", "quantifier": "all parameters (positive scales), all gamma strictly inside the range and off the break", "why_tests_cant": "Tests compare a few sampled points with reference values; the slope law holds for every gamma and every parameter.", "anchors": ["agnpy/spectra/spectra.py:272-277", "agnpy/spectra/spectra.py:366-374", "agnpy/spectra/spectra.py:470-479", "agnpy/spectra/spectra.py:569-576", "agnpy/spectra/spectra.py:673-681"]}
{"id": "C70", "title": "Normalising to a total and reading the total back agree", "statement": "A distribution built with from_total_density, from_total_energy_density or from_total_energy (with volume V_b) and put in a Blob with the default 200-point grid gives back exactly the requested n_e_tot, u_e or W_e: the Blob's totals and the distribution's own integrate use the same grid and rule.", "quantifier": "all shapes, ranges, requested totals and blobs", "why_tests_cant": "The agreement of two separately coded integrations has to hold for every shape, range and volume; tests try single values to a tolerance.", "anchors": ["agnpy/emission_regions/blob.py", "agnpy/spectra/spectra.py"]}
{"id": "C71", "title": "Opacity: pair threshold and proportionality to the target", "statement": "On the monochromatic targets (point source, BLR line, torus) gamma rays whose energy is below the pair threshold at every interaction angle, eps_1 * eps_0 < 1, are not absorbed: tau = 0 exactly. tau is proportional to the luminosity of the target: multiplying L_0 (or L_disk, or xi) by a factor multiplies tau by that factor and raises the absorption factor to that power.", "quantifier": "all targets of the three kinds, geometries, frequencies and scale factors", "why_tests_cant": "Tests compare the opacity with a reference curve at fixed parameters; the threshold and the scaling are statements about all frequencies, geometries and luminosities.", "anchors": ["agnpy/absorption/targets_absorption.py"]}
{"id": "C72", "title": "A fit model loaded from objects computes what the objects compute", "statement": "After set_emission_region_parameters_from_blob (and set_targets_parameters_from_targets), the fit model, in either backend, evaluates synchrotron and SSC with exactly the blob's redshift, distance, Doppler factor, field, radius (recovered from t_var) and electrons; its EC part equals the SED of ExternalCompton for the same blob with gamma_size 300 and the same targets, and its thermal parts equal the sed_flux of the disk and torus, provided the targets share the disk luminosity. On the blob's own grid the synchrotron and SSC parts equal those of the Synchrotron and SynchrotronSelfCompton objects.", "quantifier": "all blobs, distributions, targets, energies", "why_tests_cant": "needs every class, blob and target combination; a single wrong assignment changes a value in a range tests do not visit", "anchors": ["agnpy/fit/gammapy_wrapper.py:set_emission_region_parameters_from_blob", "agnpy/fit/sherpa_wrapper.py:set_targets_parameters_from_targets", "agnpy/fit/sherpa_wrapper.py:_evaluate_sed_ec_blr_dt_scenario"]}
{"id": "C73", "title": "Boundary bins are inserted exactly when needed", "statement": "With gamma_bounds (lo, hi), Euler method and no subgroups: after every step all surviving gammas lie between lo and hi/(1+1e-4), and a bin is inserted at lo exactly when the first surviving gamma is at least max_bin_creep_from_bounds (in log10) above lo and the total energy rate of the first bin before the step was positive; a bin is inserted at hi/(1+1e-4) exactly when the last surviving gamma is at least that far below hi and the total energy rate of the last bin before the step was negative. Nothing else is inserted.", "quantifier": "all states reachable in any run, all rate functions, bounds and creep values", "why_tests_cant": "the decision depends on the whole history of merging, removal and insertion; tests look at a few runs", "anchors": ["agnpy/time_evolution/time_evolution.py:_add_boundary_bins", "agnpy/time_evolution/time_evolution.py:_remove_gamma_beyond_bounds"]}
{"id": "C74", "title": "External Compton is the superposition of the scattering of the target's beams", "statement": "ExternalCompton.sed_flux(nu) equals, for every target kind, the sum over the beams of the target's photon field (isotropic black body field, the point source, elements of the disk, of the BLR shell, of the torus ring) of the SED of one beam scattered towards the observer: eps_s^2 delta_D^3/(4 pi d_L^2) times the sum over the electrons, n_e(gamma/delta_D) in the blob's volume, of c (u/eps)(1 - cos psi) times the Compton cross section in the head-on approximation; psi is the angle between the beam and the observer at viewing angle arccos(mu_s). An emitting element of luminosity dL at distance x sends u = dL/(4 pi c x^2).", "quantifier": "all blobs, distributions, the five targets, distances r > 0 off the BLR shell, grid sizes, frequencies > 0, default integrator", "why_tests_cant": "The tests compare SEDs with digitised reference curves within large tolerances; a wrong factor or a geometry error that compensates there is not seen; the identity needs all parameters.", "anchors": ["agnpy/compton/external_compton.py", "agnpy/utils/geometry.py", "agnpy/compton/kernels.py"]}
{"id": "C75", "title": "The photon field that is scattered has the energy density that the target reports", "statement": "The beams of C74 add up to target.u(r) for every target, and, each multiplied with (Gamma (1 - beta cos theta))^2 where theta is the angle between the beam and the jet, to target.u(r, blob) for the point source, the disk, the torus and, outside the shell, the BLR. So the u and sed_flux methods describe the same field.", "quantifier": "all targets, all r > 0 off the BLR shell, all blobs", "why_tests_cant": "Two code paths with independent prefactors; tests compare each with a reference at a few points only.", "anchors": ["agnpy/targets/targets.py", "agnpy/compton/external_compton.py"]}
{"id": "C76", "title": "Opacities are the absorption by the same photon fields", "statement": "Absorption.tau(nu) equals the integral along the line of sight of the sum over the beams of the target's photon field (the beams of C74 and C75) of (1 - cos psi) u/(eps m_e c^2) sigma_gg(s), with s = eps_1 eps (1 - cos psi)/2, eps_1 = h nu (1+z)/(m_e c^2) and psi the angle between beam and gamma ray: for the point source (viewing angle > 0), the torus and the BLR (mu_s = 1 and mu_s < 1); for the synchrotron photons of the blob it is 2 R_b times the integral over their number density of sigma_gg(eps eps_1/2). Exception: for the disk every beam is weighted with the cosine mu of its angle to the jet axis, so tau is at most the absorption by the field that SSDisk.u and ExternalCompton use and strictly less whenever it is positive, which happens for some frequency.", "quantifier": "all targets, all mu_s in the branch, all path and grid sizes, all frequencies > 0", "why_tests_cant": "The tests compare with digitised curves within tens of percent; equality of the field with the one that is scattered holds over all parameters or not at all.", "anchors": ["agnpy/absorption/targets_absorption.py", "agnpy/targets/targets.py"]}
{"id": "C77", "title": "Synchrotron self Compton from single scatterings", "statement": "SynchrotronSelfCompton.sed_flux(nu), with or without self absorption, equals delta_D^4/(4 pi d_L^2) times eps_s^2 m_e c^2 times the integral over the synchrotron photons of (number density) c times the integral over the electrons of Jones' cross section per unit scattered energy; the photons have the density of a sphere of radius R_b that emits the comoving luminosity of Synchrotron.sed_flux, with the mean residence time 3 R_b/(4 c). Blob.u_ph_synch is the energy density of the same sphere when it radiates the total power 4/3 sigma_T c U_B gamma^2 of its electrons.", "quantifier": "all blobs (positive attributes, gamma_max <= 2^510 so that the clipped logarithm is the logarithm), all distributions, all frequencies, default integrator", "why_tests_cant": "Tests compare with curves of other codes within about 10-30%; a wrong factor of a few percent or a factor that depends on a parameter that the test keeps fixed is not seen.", "anchors": ["agnpy/compton/synchrotron_self_compton.py", "agnpy/compton/kernels.py", "agnpy/emission_regions/blob.py"]}
{"id": "C78", "title": "Synchrotron emission and self absorption from single particles", "statement": "Synchrotron.sed_flux(nu) (ssa=False) is delta_D^4/(4 pi d_L^2) nu' times the sum over the electrons of the power per unit frequency sqrt(3) e^3 B/(m c^2) R(nu'/nu_c), nu_c = 3 e B gamma^2/(4 pi m c), nu' = nu (1+z)/delta_D; ProtonSynchrotron the same with the protons. With ssa=True the SED is multiplied with the fraction of photons that escapes a homogeneous sphere of diameter 2 R_b (an integral over its chords; 1 below optical depth 1e-3, an error below 4e-4), with the absorption coefficient -1/(8 pi m_e nu'^2) times the integral of gamma^2 d(n/gamma^2)/dgamma times the power. sed_flux_delta_approx is the emission of the total power 4/3 sigma_T c U_B gamma^2 at the frequency gamma^2 m_e c^2 (B/B_cr)/h.", "quantifier": "all blobs, distributions with 0 < gamma_min <= gamma_max, all frequencies > 0, default integrator", "why_tests_cant": "The tests allow tens of percent against digitised curves; prefactors and the conversion from photon energies to frequencies must be exact for all parameters.", "anchors": ["agnpy/synchrotron/synchrotron.py", "agnpy/synchrotron/proton_synchrotron.py"]}
{"id": "C79", "title": "Thermal targets: temperatures, photon energies, luminosities", "statement": "CMB and RingDustTorus photons have the energy 2.7 k T/(m_e c^2), with T = 2.72548 K (1+z) for the CMB, and the CMB energy density is that of black body radiation at T (constants within 1e-5). SSDisk.T satisfies sigma T^4 = flux of one face of the Shakura-Sunyaev disk, the same flux as in C75; SSDisk.phi_disk is its inner boundary factor, and epsilon_mu and phi_disk_mu are epsilon and phi_disk at the radius seen under arccos(mu) from the height r. SSDisk.epsilon is the mean thermal energy 2.7 k T at the temperature without the inner boundary factor (within 0.5%). L_Edd is the Eddington luminosity (within 1/300), L_disk = l_Edd L_Edd = eta m_dot c^2. The torus radius is the one given, or 3.5e18 cm sqrt(L_disk/1e45) (T/1000 K)^-2.6. B_cr is m_e^2 c^3/(e hbar) within 1e-5.", "quantifier": "all redshifts, masses, luminosities, efficiencies, radii, temperatures; CODATA constants for the numerical comparisons", "why_tests_cant": "Tests evaluate a few values with tolerance; the relations hold as identities over all parameters.", "anchors": ["agnpy/targets/targets.py", "agnpy/synchrotron/synchrotron.py"]}
{"id": "C80", "title": "Wavelengths of the emission lines", "statement": "The wavelengths of the lines of one-electron ions in lines_dictionary agree with Bohr's formula with reduced mass within 5e-5, those of the other lines with the differences of the tabulated atomic levels within 1e-3, there are no further lines, and SphericalShellBLR.epsilon_line is h c/(lambda m_e c^2) for every line.", "quantifier": "all lines of the dictionary; all constants for the energy", "why_tests_cant": "No test compares the table with physics.", "anchors": ["agnpy/targets/targets.py"]}
{"id": "C81", "title": "A step with subgroups", "statement": "In one Euler step with any subgroups every subgroup moves on bins of its own at the sum of the rates of its own functions, keeping its particles bin by bin apart from its own injections; the subgroups are then put on the bins of the first one (taken as they are if they moved alike or are empty, interpolated between their non-zero points otherwise), densities add up and the new split is each subgroup's share, unchanged in empty bins. If all subgroups change energy alike, the total obeys the law of a single group with the injections of all subgroups. Subgroups that moved differently can be put together if each of them is empty or has two or more non-zero points in ascending order: the step does not raise for them.", "quantifier": "all reached states, subgroup lists, rates and step lengths for which the step does not raise", "why_tests_cant": "an exact law for any number of subgroups on differently moving bins", "anchors": ["agnpy/time_evolution/time_evolution.py:_apply_time_eval", "agnpy/time_evolution/_time_evolution_utils.py:recalc_gamma_bins_and_density", "agnpy/time_evolution/_time_evolution_utils.py:sum_change_rates"]}
{"id": "C82", "title": "What becomes of the moved bins", "statement": "After a step has moved and refilled the bins, they are put in ascending order together with their own densities and subgroup shares; points with the same Lorentz factor, and then points closer than the merge threshold, are united at their geometric mean with the density of the blob's new distribution there and the shares of the first of them; points outside gamma_bounds are dropped; an empty point (density 0, all in the first subgroup) is added at a bound exactly if the distance to it is at least the tolerated creep and the particles move away from it. blob.n_e passes through the non-zero points of the moved table. Every point of the new state is therefore a moved one, or stands for several moved ones between which it lies, or is a new empty one at a bound.", "quantifier": "all reached states, configurations and rates for which the step does not raise", "why_tests_cant": "for any number of bins, any order in which they end up and any coincidences between them", "anchors": ["agnpy/time_evolution/time_evolution.py:_apply_time_eval", "agnpy/time_evolution/time_evolution.py:_sort_and_merge_bins", "agnpy/time_evolution/time_evolution.py:_remove_gamma_beyond_bounds", "agnpy/time_evolution/time_evolution.py:_add_boundary_bins", "agnpy/time_evolution/_time_evolution_utils.py:sort_and_merge_duplicates", "agnpy/time_evolution/time_evolution.py:_remove_too_close_bins", "agnpy/time_evolution/_time_evolution_utils.py:update_distribution"]}
{"id": "C83", "title": "Runs with automatic steps come to an end", "statement": "With step_duration=\"auto\", let every energy change function change energies at the allowed Lorentz factors (initial grid, or within gamma_bounds) by at most a fraction `rate` per unit time, and the edges of a bin relative to each other by at most that fraction of its width; let no function let more than `rate` escape or inject more than `amount` per unit time; let at most k functions act on one subgroup. If the limits max_energy_change_per_interval, max_density_change_per_interval, max_injection_per_interval allow a time tau under k such functions, then every pass of the loop but the last takes at least tau, with and without optimize_recalculating_slow_rates. So evaluate() returns (or raises) after at most ceil(total_time/tau) passes, and calls distribution_change_callback at most that often.", "quantifier": "all configurations, initial distributions, user functions with such bounds, and all states reached", "why_tests_cant": "termination over all functions and distributions; with reuse of rates the remaining times of the bins could shrink at every pass (a Zeno run) unless used-up bins are recomputed", "anchors": ["agnpy/time_evolution/time_evolution.py:evaluate", "agnpy/time_evolution/time_evolution.py:_calc_max_time_per_bin", "agnpy/time_evolution/_time_evolution_utils.py:recalc_new_rates"]}
{"id": "C84", "title": "The parameters a fit starts from", "statement": "The models for sherpa and gammapy start with these quantities: z, delta_D, B, t_var (and mu_s, r), the disk's, and the BLR's and torus' exactly if they are among the targets, each with the documented start, range and freezing, some of them through their decimal logarithm; all start inside their limits. The parameters of the electron distribution are inside their limits exactly if its normalisation, indices and Lorentz factors are in the ranges 1e-15 to 1e15 cm-3, 1 to 5, 100 to 1e6, gamma_min 1 to 1e4, gamma_max 1e4 to 1e8 (curvature 0.001 to 1, norm 0.001 to 1000). No two parameters of a model share a name. The conversions to sherpa and gammapy parameters keep name, value, limits and freezing; sherpa's hard limit is never below the limit for any parameter of the models (in general: unless the limit is beyond 1e50).", "quantifier": "all distributions, all lists of targets", "why_tests_cant": "for every distribution and every list of targets; the range statement is an equivalence", "anchors": ["agnpy/fit/core.py:Parameter", "agnpy/fit/core.py:get_spectral_parameters_from_n_e", "agnpy/fit/core.py:make_emission_region_parameters_dict", "agnpy/fit/core.py:make_targets_parameters_dict", "agnpy/fit/gammapy_wrapper.py:SynchrotronSelfComptonSpectralModel", "agnpy/fit/sherpa_wrapper.py:ExternalComptonRegriddableModel1D"]}
{"id": "C85", "title": "The disk radiates the luminosity it is given", "statement": "The black body flux sigma T(R)^4 of SSDisk's temperature profile, integrated over both faces from R_in to R_out, is G M m_dot / (2 R_in) times 1 - 3x + 2x^(3/2), x = R_in/R_out. In terms of the constructor's arguments this is L_disk * R_g / (2 eta R_in) times the same factor; with eta R_in = R_g / 2 (e.g. eta = 1/12, R_in = 6 R_g) it is L_disk except for at most the fraction 3 R_in / R_out that lies outside the outer edge.", "quantifier": "all masses, luminosities, efficiencies and radii", "why_tests_cant": "exact integral over all radii for all disks", "anchors": ["agnpy/targets/targets.py:SSDisk", "agnpy/targets/targets.py:evaluate_T"]}
{"id": "C86", "title": "The synchrotron SED contains the energy the particles lose", "statement": "Integrated over frequency, the synchrotron power of a single particle is at most 1.005 times its energy loss rate 4/3 sigma_T c U_B gamma^2 (times (m_e/m_p)^2 for protons) whatever the band, and at least 0.995 times it if the band reaches from 1e-6 to 11 times the critical frequency. Hence the flux of Synchrotron.sed_flux (without self absorption, trapezoidal rule) in any band, i.e. the integral of the SED over d nu / nu, is at most 1.005 times delta_D^4/(4 pi d_L^2) times the electrons of the blob summed with Synchrotron.electron_energy_loss_rate, and at least 0.995 times that if the band covers the emission of all electrons; the same for ProtonSynchrotron.", "quantifier": "all magnetic fields, Lorentz factors, blobs, non-negative particle distributions and bands; CODATA constants", "why_tests_cant": "relates two separately coded formulas through an integral over all frequencies, for all blobs", "anchors": ["agnpy/synchrotron/synchrotron.py:R", "agnpy/synchrotron/synchrotron.py:single_particle_synch_power", "agnpy/synchrotron/synchrotron.py:sed_flux", "agnpy/synchrotron/synchrotron.py:electron_energy_loss_rate", "agnpy/synchrotron/proton_synchrotron.py:sed_flux"]}
{"id": "C87", "title": "An electron of higher Lorentz factor loses energy faster", "statement": "Synchrotron.electron_energy_loss_rate and SynchrotronSelfCompton.electron_energy_loss_rate_thomson increase strictly with gamma. SynchrotronSelfCompton.electron_energy_loss_rate (Klein-Nishina corrected) does not decrease with gamma.", "quantifier": "all blobs, electron distributions and pairs of Lorentz factors", "why_tests_cant": "monotonicity over all pairs of Lorentz factors; the drop at 4 gamma epsilon = 1e4 is a jump at isolated points that sampled tests miss", "anchors": ["agnpy/synchrotron/synchrotron.py:electron_energy_loss_rate", "agnpy/compton/synchrotron_self_compton.py:electron_energy_loss_rate", "agnpy/compton/synchrotron_self_compton.py:electron_energy_loss_rate_thomson"]}
{"id": "C88", "title": "External Compton scattering follows the Klein-Nishina cross section", "statement": "compton_kernel at the scattered energy gamma e' (1 - cos theta) is the Klein-Nishina bracket e/e' + e'/e - sin^2 theta for the scattering angle theta in the rest frame of the electron. With the prefactor of the SEDs it integrates over all scattered energies to the total Klein-Nishina cross section, which is at most sigma_T and at least sigma_T (1 - 2e); weighted with the scattered energy it gives at most the Thomson value sigma_T gamma e and at least that times 1 - 21/5 e. Hence the number of photons in ExternalCompton.sed_flux (any target, trapezoidal rule, all frequencies) is the number of collisions of the electrons with the photons of the target with the Klein-Nishina cross section, and its energy is at most what the electrons lose in the Thomson limit.", "quantifier": "all electron and photon energies, angles, targets, blobs and positions", "why_tests_cant": "integrals over all scattered energies, for all targets and electron distributions", "anchors": ["agnpy/compton/kernels.py:compton_kernel", "agnpy/compton/kernels.py:get_gamma_min", "agnpy/compton/external_compton.py:sed_flux"]}
{"id": "C89", "title": "The SSC kernel is the average of the external Compton kernel over an isotropic photon field, and the SSC SED carries at most the Thomson losses", "statement": "For an electron of Lorentz factor gamma and photons of energy epsilon, `isotropic_kernel(gamma, epsilon, epsilon_s)` equals one quarter of the integral over the cosine of the collision angle, from -1 to 1, of `compton_kernel(gamma, epsilon_s, epsilon, mu_s = 1, mu, phi)`, for all scattered energies with q >= 1/(4 gamma^2). Below that limit the isotropic kernel is zero although the average is positive. The cross section that belongs to `isotropic_kernel`, integrated over the scattered energy, lies between sigma_T (1 - 8/3 gamma epsilon - 3/(4 gamma^2)) and sigma_T. The scattered energy lies between the Thomson value 4/3 sigma_T gamma^2 epsilon times (1 - 63/10 gamma epsilon - 1/(3 gamma^4)) and that value. As a result, the flux of `SynchrotronSelfCompton.sed_flux` integrated over all frequencies lies between the Thomson losses, corrected by that factor for each electron and photon, and the Thomson losses 4/3 sigma_T c u gamma^2 of all the electrons in the blob, where u is the energy density of the photons of `Synchrotron.sed_flux`, with and without self absorption.", "quantifier": "All Lorentz factors from 1 to 2^510, photon energies, scattered energies, blobs, electron distributions with non-negative density, grids, redshifts, Doppler factors, with and without SSA.", "why_tests_cant": "The tests compare the SSC SED with digitised curves at some percent. They never compare the two kernels, and the energy balance is an integral over all frequencies, for every electron distribution.", "anchors": ["agnpy/compton/kernels.py", "agnpy/compton/synchrotron_self_compton.py", "agnpy/synchrotron/synchrotron.py"]}
{"id": "C90", "title": "Volume, content and power of a blob are the integrals they stand for", "statement": "V_b is the volume of a ball of radius R_b; N_e(gamma), n_e_tot, N_e_tot, u_e and W_e are V_b, m_e c^2 and the density summed over the blob's own grid of Lorentz factors (the same for protons with m_p, AttributeError for all of them without protons); for a density whose logarithmic slope is at most s they lie within the factor (gamma_max/gamma_min)^((s+k)/(N-1)) of the exact integrals, k = 0 for numbers, 1 for energies, 2 for u_ph_synch; P_jet_B and P_jet_ke are the energy carried by two opposite flows of cross section pi R_b^2 with speed beta c, bulk Lorentz factor Gamma and comoving energy density B^2/(8 pi), respectively (W_e + W_p)/V_b; u_ph_synch_diff of the synchrotron SED, integrated over the photon energy, is u_ph_synch up to half a percent, and never more than that above it.", "quantifier": "all blobs, all densities with a bounded logarithmic slope (all power laws and broken power laws among them), all grid sizes, all frequency bands", "why_tests_cant": "a statement about exact integrals for every distribution; tests compare single blobs with a stored number", "anchors": ["agnpy/emission_regions/blob.py:Blob.V_b", "agnpy/emission_regions/blob.py:Blob.n_e_tot", "agnpy/emission_regions/blob.py:Blob.W_e", "agnpy/emission_regions/blob.py:Blob.P_jet_ke", "agnpy/emission_regions/blob.py:Blob.P_jet_B", "agnpy/emission_regions/blob.py:Blob.u_ph_synch", "agnpy/emission_regions/blob.py:Blob.u_ph_synch_diff"]}
{"id": "C91", "title": "Time evolution with rates that depend on the Lorentz factor follows the equation it stands for", "statement": "A TimeEvolution run with a fixed step and any number of energy-change, relative and absolute injection functions of the Lorentz factor (no subgroups, bounds or merging) computes, grid point by grid point, the Euler or Heun recursion: both edges of the narrow bin above each point move with the summed rate, the particles between them are conserved, injection acts with the rates at the old place; and every callback gets these values. With synchrotron_loss as the only function, after time T in steps t the Lorentz factors agree with the solution g/(1+K g T) of dg/dt = -K g^2 (K = 4/3 sigma_T c U_B / m_e c^2) to relative accuracy K g t (Euler, never above it) or (K g t)^2/2 up to a factor 1/(1 - (K g t)^2/2) (Heun, never below it), so they converge to it as the number of steps grows; the densities agree with n (g/g')^2 up to factors (g/g')^(3(K g t + 1e-4)) resp. between (g/g')^(-3 (K g t)^2) and (g/g')^(3e-4), the 1e-4 being the width of the bins, whose effect does not vanish with the step.", "quantifier": "all step lengths with K g t <= 1/4, all numbers of steps, all grids, all initial distributions, both methods, all magnetic fields; all rate functions (for the recursion)", "why_tests_cant": "A test runs a few step lengths for one grid; accuracy for every step length and grid, the order of the methods and the limit of infinitely many steps are statements about all runs.", "anchors": ["agnpy/time_evolution/time_evolution.py:213-279", "agnpy/time_evolution/time_evolution.py:326-393", "agnpy/time_evolution/_time_evolution_utils.py:27-155", "agnpy/time_evolution/time_evolution.py:17-21"]}
{"id": "C92", "title": "Fermi acceleration against synchrotron losses draws all particles to the balance point", "statement": "fermi_acceleration(t_acc) and synchrotron_loss cancel at exactly one Lorentz factor, e = 1/(K t_acc); below it the particles gain, above it they lose energy. A run with these two functions, a fixed step t <= t_acc/4 and K g t <= 1/4 on the grid completes, and every grid point moves monotonically towards e without ever passing it; its distance from e after j steps is at most (1 - 3/4 K t min(g, e))^j times the initial one. This holds for the Euler and the Heun method and for every reported time.", "quantifier": "all grids, fields, acceleration times, steps within the limits, numbers of steps, initial distributions, both methods", "why_tests_cant": "No overshoot and geometric approach are claims about every step of every run; a test sees single runs.", "anchors": ["agnpy/time_evolution/time_evolution.py:17-39", "agnpy/time_evolution/time_evolution.py:213-279", "agnpy/time_evolution/time_evolution.py:326-393"]}
{"id": "C94", "title": "Checks against reference values accept exactly the agreeing arrays", "statement": "check_deviation on arrays of one length answers True exactly if every pair whose x lies in the closed range has |a - b| <= rtol |b| (for b != 0: |a/b - 1| <= rtol; for b = 0: a = 0; NaN never agrees); agreement chains with tolerance r + s + r s, is symmetric only up to r/(1-r), is inherited by smaller ranges and larger tolerances, and holds for every range without points. Arrays of other lengths: IndexError with a range, broadcasting or ValueError without. extract_columns_sample_file returns the first two columns row by row and raises IndexError for a table of a single row or column. to_total_energy_gev_sqr is E^2 dN/dE of the blob's electrons: divided by E and integrated over E it is W_e.", "quantifier": "all arrays (NaN included), ranges, tolerances, tables, blobs", "why_tests_cant": "the function is the test oracle of the package; that it accepts exactly the agreeing arrays is a statement about all arrays", "anchors": ["agnpy/utils/validation_utils.py:51-72", "agnpy/time_evolution/_time_evolution_utils.py:251-256"]}
{"id": "C93", "title": "clean_and_make_dir leaves an empty directory in the right place and touches nothing else", "statement": "With nothing in the way clean_and_make_dir(main, sub) leaves an empty directory at the target, creates the directories leading to it, and changes nothing outside; whatever was below the target is gone. If a file stands at the target (FileExistsError) or on the way to it (NotADirectoryError), or an argument has the wrong type (TypeError), the file system is unchanged. The target is sub below main, relative to the working directory, with two exceptions a user must know: a PosixPath main with an absolute sub names sub itself (a directory elsewhere is erased), and main == '' puts sub below the root.", "quantifier": "all file systems, working directories, strings and paths without '..'", "why_tests_cant": "absence of side effects on every other path of every file system is not observable by running the function on a few directories", "anchors": ["agnpy/utils/validation_utils.py:19-48"]}
{"id": "C95", "title": "Energy density of the broad line region and the torus against the exact integral and a point source", "statement": "Off the shell, SphericalShellBLR.u(r) lies between the exact density of the shell, xi L/(8 pi c r R) ln((r+R)/|r-R|), and (q+1/q)/2 times it, q = 1 + 4 r R/(49 (r-R)^2): within 1.4 per cent for r >= 2R or r <= R/2, but above it by any factor close to the shell. Outside it approaches the density of a point source of the same luminosity, deep inside the uniform density xi L/(4 pi c R^2). RingDustTorus.u(r) is the point-source density over 1 + (R/r)^2. In the frame of the blob the point-source value is a lower bound for the BLR, and both targets approach it only for r much larger than Gamma R: the ratio is at most 1.014 (1 + 2 (Gamma R/r)^2)^2/(1-(R/r)^2) for the BLR and lies between (1 + beta Gamma^2 s/(2(1+s)))^2/(1+s) and (1 + Gamma^2 s)^2/(1+s), s = (R/r)^2, for the torus.", "quantifier": "all targets, heights, blobs", "why_tests_cant": "compares a quadrature with an integral, and gives rates, for all radii and heights", "anchors": ["agnpy/targets/targets.py:SphericalShellBLR.u", "agnpy/targets/targets.py:RingDustTorus.u", "agnpy/targets/targets.py:PointSourceBehindJet.u"]}
{"id": "C96", "title": "Energy density of the disk", "statement": "SSDisk.u(r) is the density of the photons emitted by the two faces of the disk, int 2 F(R) 2 pi R dR/(4 pi c (r^2+R^2)). True of the limit of infinitely many points in mu; the exact density lies between those of a point source of the emitted power at distances sqrt(r^2+R_out^2) and sqrt(r^2+R_in^2), the power being L_disk R_g/(2 eta R_in) (1 - 3x + 2x^1.5), x = R_in/R_out (L_disk for eta = 1/12, R_in = 6 R_g, R_out large). The 100 points used, equidistant in mu, do not resolve the inner disk: for r >= R_out >= 100 R_in the value returned is at most 45 (1+(R_out/r)^2)^3 R_in/R_out times the exact density, e.g. less than 30 per cent for 6 and 1000 gravitational radii.", "quantifier": "all disks, heights", "why_tests_cant": "the repository has no test of SSDisk.u; the error depends on R_in/R_out and on the distance, and the exact value is an integral", "anchors": ["agnpy/targets/targets.py:SSDisk.u", "agnpy/targets/targets.py:SSDisk.evaluate_mu_from_r_tilde"]}
{"id": "C97", "title": "Finer sampling converges to the integral over the particles", "statement": "Let the electron (or proton) distribution be one of the library's analytical classes, or an InterpolatedDistribution whose interpolator is continuous. As Blob.set_gamma_size increases the number of Lorentz factors without bound, Blob.n_e_tot, N_e_tot, u_e and W_e (n_p_tot and u_p for protons) converge to the integrals of n(gamma) and gamma m c^2 n(gamma) between gamma_min and gamma_max, Blob.u_ph_synch converges to the density of a sphere radiating the integral of the classical synchrotron power, and at every frequency Synchrotron.sed_flux without self absorption and ProtonSynchrotron.sed_flux converge to the SED of the integral of the power emitted by single particles. This holds with np.trapz and, as long as the integrand stays within the range of normal floating point numbers, with trapz_loglog.", "quantifier": "all blobs with positive attributes, all distributions of the listed classes with 0 < gamma_min < gamma_max, all frequencies, both integrators, in the limit of the grid size; arithmetic without rounding", "why_tests_cant": "A test compares a few grid sizes with each other or with a reference file at some tolerance; it cannot show that the error vanishes for every distribution and frequency, nor that the limit is the integral and not a biased value (the jump at the bounds, the kink of broken power laws and the switch of trapz_loglog at slope -1 each could leave a residue).", "anchors": ["agnpy/emission_regions/blob.py:139-164", "agnpy/emission_regions/blob.py:233-307", "agnpy/emission_regions/blob.py:356-389", "agnpy/synchrotron/synchrotron.py:132-245", "agnpy/synchrotron/proton_synchrotron.py:70-168", "agnpy/utils/math.py:55-119", "agnpy/spectra/spectra.py:232-869"]}
{"id": "C98", "title": "Compton and self absorbed SEDs converge under finer sampling of the electrons", "statement": "When gamma_e_size grows, (a) ExternalCompton.sed_flux(nu) converges, for each of the five targets, to the sum over the beams of the target of the integral of the Compton cross section over the electrons with gamma delta_D between 10 and 1e9 (the grid of the external frame: electrons outside do not scatter); (b) SynchrotronSelfCompton.sed_flux(nu) converges to the sum over its 200 synchrotron frequencies with integrals over the electrons in place of both sums (emission and Jones' cross section); (c) with ssa=True Synchrotron.sed_flux and SynchrotronSelfCompton.sed_flux converge to the values with the exact optical depth, unless an optical depth is exactly 1e-3, where tau_to_attenuation jumps.", "quantifier": "all blobs with distributions continuous between their bounds (for ssa the five analytical shapes, also across the break), all targets, distances, frequencies > 0, integrator trapz", "why_tests_cant": "tests compare one or two resolutions with a tolerance; convergence is a statement about all resolutions, for cross sections that jump at the kinematic limits", "anchors": ["agnpy/compton/external_compton.py", "agnpy/compton/synchrotron_self_compton.py", "agnpy/synchrotron/synchrotron.py", "agnpy/emission_regions/blob.py"]}
{"id": "C99", "title": "Results kept by a callback stay what they were", "statement": "A TimeEvaluationResult that distribution_change_callback stores (e.g. results.append(result)) still reads, after TimeEvolution.evaluate has returned, what it read when the callback got it. True of gamma, density, density_subgroups and the three dictionaries of rates. False of total_time: evaluate() updates one Quantity in place, so after the run every kept result reads the whole duration, whenever it was made. At the time of the call, and for the result returned, total_time is right, and no object that existed before the run is changed.", "quantifier": "all configurations, initial distributions, numbers of passes, memories", "why_tests_cant": "A test of the callback looks at the values when it is called, or only at the returned result; that no kept result ever changes later is a statement about all later writes to shared objects.", "anchors": ["agnpy/time_evolution/time_evolution.py:228", "agnpy/time_evolution/time_evolution.py:270", "agnpy/time_evolution/time_evolution.py:272", "agnpy/time_evolution/time_evolution.py:279", "agnpy/time_evolution/types.py:17"]}
{"id": "C100", "title": "The clock of a run in floating point arithmetic", "statement": "With IEEE double arithmetic for the elapsed time, a run with a fixed step duration s reports non-decreasing total times that never exceed total_duration T, and when it ends its last total time is exactly T. If T is at most n steps and n is at most 2^26, the run ends after at most n + 1 passes (not always n: one second in steps of 0.1 s takes eleven) and its times strictly increase; conversely a run of N passes covers at most N steps up to a relative error (1 + 2^-53)^N. With automatic steps the last time may exceed T, but by no more than the distance to the next double. A fixed step below half a unit in the last place of the elapsed time makes the run endless.", "quantifier": "all double total durations and step durations, all numbers of passes, all sequences of positive proposed steps", "why_tests_cant": "Rounding depends on every pair of durations; a test sees a handful of them, and the overshoot and the endless run need special values.", "anchors": ["agnpy/time_evolution/time_evolution.py:213-279"]}
{"id": "C101", "title": "With shorter and shorter steps a run tends to the solution of the kinetic equation", "statement": "For a TimeEvolution run with a fixed step T/k (no subgroups, bounds or merging, Euler or Heun) and user functions of the Lorentz factor - energy-change rates with sum E continuously differentiable, relative injection rates with sum r continuous, absolute injection rates with sum q continuous and not negative - the kinetic equation dn/dt + d(n E/mc2)/dg = n r + q is what the run approximates: for every tolerance there is a number of steps from which on evaluate succeeds and every result it reports, to the callbacks and at the end, has Lorentz factors within the tolerance of the solutions of dg/dt = E(g)/mc2 at that time, and densities within the tolerance of n at these Lorentz factors, up to the factor exp(+-D) due to the relative bin width 1e-4, where D is the accumulated difference between the slope of E/mc2 over such a bin and its derivative. For synchrotron_loss with escape time tau and injection q this gives the explicit solution: cooled initial particles and those injected since, thinned by escape, up to factors (g/g')^(+-1e-4).", "quantifier": "all numbers and choices of rate functions with the stated smoothness, all grids, all initial distributions for which at least two grid points hold or receive particles, both methods, all total times for which the solution exists, all tolerances", "why_tests_cant": "A statement about the limit of infinitely many runs with arbitrary user functions; a test compares one run with one known solution at some tolerance.", "anchors": ["agnpy/time_evolution/time_evolution.py:213-279", "agnpy/time_evolution/time_evolution.py:326-393", "agnpy/time_evolution/_time_evolution_utils.py:130-156"]}
{"id": "C102", "title": "A time evolution does not depend on the units it is told in, nor on how many electrons there are", "statement": "Take any TimeEvolution configuration (fixed or automatic steps, Euler or Heun, any bounds, merging, subgroups, rate reuse and thresholds) and tell it in other units of time, energy and density: total time and step multiplied by a, energy-change rates by e/a, relative rates by 1/a, absolute rates by k/a, the electron rest energy by e, max_injection_per_interval by k, the blob's distribution by k; the user's functions may use the blob and their parameters and may raise. Then evaluate takes the same steps: it calls the callback as often, with the same Lorentz factors and subgroup fractions, times multiplied by a, densities by k and rates as above; it returns such a result or raises the same exception; and it leaves the blob with k times the electrons at every Lorentz factor. In particular k times the electrons and k times the injection give k times the electrons at any time, if the other rates do not depend on the density.", "quantifier": "all configurations, user functions, initial distributions, numbers of steps and positive factors a, e, k (for k different from 1: exact logarithms and an interpolator that moves up with its values)", "why_tests_cant": "Quantifies over all configurations and user functions and over all factors; a dimensionally wrong threshold or a forgotten conversion in one branch shows only for the configurations that reach it.", "anchors": ["agnpy/time_evolution/time_evolution.py", "agnpy/time_evolution/_time_evolution_utils.py"]}
{"id": "C103", "title": "Opacities of the dust torus and of the broad line region converge when the grids are refined", "statement": "For a blob at distance r from the black hole, Absorption.tau on a RingDustTorus, and on a SphericalShellBLR with r outside the shell (beyond the margin in which the code moves path points), tends to the exact double (torus) or triple (broad line region) integral when set_mu, set_phi and set_l refine the grids, jointly and in any proportion: for every tolerance there is a size from which on all sizes give a value, not nan, within the tolerance. The integral runs over the whole emitting ring or sphere and over the photon path: from r to 10^5 r along the axis for mu_s = 1, from 10^-5 r to 10^5 r along the line of sight for 0 <= mu_s < 1, each element contributing (1 - cos psi) times its photon density times the pair production cross section.", "quantifier": "all targets, distances, redshifts, viewing angles with 0 <= mu_s <= 1, frequencies and tolerances, all sizes of the grids above a threshold", "why_tests_cant": "A statement about a limit over three independent grid sizes; a finite number of comparisons cannot show that finer grids keep approaching the same value, nor for all targets and viewing angles.", "anchors": ["agnpy/absorption/targets_absorption.py", "agnpy/utils/geometry.py"]}
{"id": "C104", "title": "The external Compton SED converges when all its grids are refined", "statement": "ExternalCompton.sed_flux at a frequency, with the trapezoidal integrator, for a CMB, point source, Shakura-Sunyaev disk, BLR or dust torus target, tends to a definite value when gamma_e_size of the blob and the sizes passed to set_mu and set_phi all grow, in whatever order. The value is the integral over the emitting surface (over the sky for the CMB, over radius and azimuth for the disk) of the SED scattered out of each beam by the electrons with 10 <= gamma <= 1e9, with the head-on Compton cross section, whose kinematic threshold moves with the beam. So the default sizes are a matter of precision only.", "quantifier": "for every blob with a distribution continuous between its bounds, every target of these five kinds with valid parameters, every height, frequency and tolerance, and every combination of the three grid sizes above some N", "why_tests_cant": "A test compares a few grid sizes and sees values that differ little; it cannot show that the values converge, and to what: the integrand jumps at a threshold that moves across the grid of Lorentz factors from one direction to the next.", "anchors": ["agnpy/compton/external_compton.py", "agnpy/compton/kernels.py", "agnpy/emission_regions/blob.py"]}
{"id": "C105", "title": "Rounding error of the trapezoidal rule", "statement": "np.trapz in double precision, the default integrator of every SED and opacity, returns for non-negative values on an ascending grid of n points a double that differs from the exact trapezoidal sum by at most n + 2 roundings (relative error about (n + 2) 1.2e-16), in whatever order numpy adds the terms; values that already carry j roundings add j. A double integral over n cosines and m azimuths is within n + m + 4 roundings. So with the default sizes the quadratures lose no visible precision, whatever the range of the integrand.", "quantifier": "for every array of doubles and ascending grid (no underflow in the products), every order and bracketing of the sum, and every pair of grids for a repeated integral", "why_tests_cant": "Tests compare with a relative tolerance on a few spectra; the order of the additions depends on numpy, the array layout and the processor, and cancellations or underflow can be confined to particular inputs.", "anchors": ["agnpy/compton/external_compton.py", "agnpy/synchrotron/synchrotron.py", "agnpy/utils/math.py"]}
{"id": "C106", "title": "Rounding error of a time evolution", "statement": "The move of a bin multiplies the density by the ratio of two differences of nearly equal numbers (the bin is 1e-4 of its energy wide). In double precision the density after a pass is still within 1.4e-11 of the exact one, and the Lorentz factor within 5e-16; the particles between the two edges are conserved to four roundings whatever the changes; a bin with no energy change keeps its density to the last digit. A run of fermi_acceleration with n passes ends with densities within 1.2e-11 n, and Lorentz factors within 6e-16 n, of gamma (1 + dt/t_acc)^n and n_e / (1 + dt/t_acc)^n.", "quantifier": "for every Lorentz factor from 1 on, density, mass energy, step and acceleration time (no underflow), up to 1e9 passes; for the single pass, all energy changes that leave at least half the edges' energy and half the width", "why_tests_cant": "The loss of four to five digits in the widths is systematic but its size depends on the particular doubles; a test on a few bins sees some errors and cannot bound those of other bins or longer runs.", "anchors": ["agnpy/time_evolution/_time_evolution_utils.py", "agnpy/time_evolution/time_evolution.py"]}
{"id": "C107", "title": "Doppler factor and viewing angle in double precision", "statement": "set_delta_D(Gamma, theta_s) stores, in double precision, a Doppler factor whose relative error is at most 5e-16 Gamma^2 (the subtraction 1 - beta cos theta loses digits as Gamma grows). For a blob on the line of sight, theta_s read back after set_delta_D(Gamma, 0 deg) is exactly zero for every Gamma from 2.1 to 2^25. From Gamma = 2^28 on the speed rounds to one and the Doppler factor on the line of sight is a division by zero. The lower end of the range is needed: at Gamma = 33/32 the cosine read back exceeds one, and theta_s is nan.", "quantifier": "for every double Gamma from 2 to 1e6 and every cosine of the viewing angle (accuracy); for every double Gamma from 2.1 to 2^25 (alignment); for every Gamma from 2^28 to 2^500 (loss)", "why_tests_cant": "Whether the round trip through Gamma, beta and delta_D is exact depends on five successive roundings of the particular double; tests on a few Gammas (10, 20) see exact zeros or errors in the last digit and settle neither the other doubles nor the growth of the error.", "anchors": ["agnpy/emission_regions/blob.py"]}
{"id": "C108", "title": "The opacities cover the whole line of sight", "statement": "The opacity of a torus or of a broad line region that tau returns is, up to a discretisation error that any tolerance can bound, the opacity along the whole line of sight from the blob to the observer, although the code stops the integration at 10^5 r: beyond, the collisions are so grazing that no pair can be produced. On the jet axis nothing is left out; for a misaligned source only the first 10^-5 r next to the blob is, and its opacity is bounded. The pair production cross section is at most 3/4 of the Thomson cross section. The radius must stay in range: a torus at 10^9 r is beyond the end of the path, and the opacity is then underestimated more than tenfold.", "quantifier": "for every torus and every BLR with the blob outside the shell, every distance r with R < 99999 r, viewing cosine in [0, 1], frequency with eps_1 eps (r + R)^2 <= 4 (99999 r - R)^2 (for the BLR eps_1 eps <= 10^9), every end L >= 10^5 r of the line of sight, every tolerance and every grid size above a threshold", "why_tests_cant": "The reference opacities used in tests were computed with the same cut of the path, and no test can take the end of the line of sight to infinity or let the grids grow without bound.", "anchors": ["agnpy/absorption/targets_absorption.py"]}
{"id": "C109", "title": "The self absorption factor in double precision", "statement": "tau_to_attenuation evaluates a difference of nearly equal numbers for small opacities, and returns exactly 1 below an opacity of 10^-3. In IEEE double precision the value it returns is within four parts in ten thousand of the exact homogeneous-sphere factor for every opacity, and within three parts in a million above the threshold, where the relative error is at most 2^-53 (19/tau^3 + 31/tau^2 + 16/tau + 6). The threshold cannot be dropped: at tau = 2^-60 the same expression, with an exponential that is accurate to one unit in the last place, gives more than 10^30 instead of nearly 1.", "quantifier": "for every opacity 0 < tau <= 2^400 and every implementation of np.exp and of np.power(., 2) that is accurate to 2^-52 relative (the exponential may underflow)", "why_tests_cant": "A test samples some opacities with one exponential; the error grows as tau^-3 toward the threshold, and the claim is about every opacity and every accurate implementation of the elementary functions.", "anchors": ["agnpy/synchrotron/synchrotron.py"]}
{"id": "C110", "title": "The spectrum of the disk is the integral over its radii", "statement": "The SED of SSDisk is, at every frequency, the integral over the radii of the disk of Planck spectra at the temperature that radiates the flux of the radius. It is not: evaluate_multi_T_bb_sed takes 100 equidistant radii, and if R_out is 199 R_in or more the second of them is beyond 3 R_in, so the hottest part of the disk, around 49/36 R_in, is left out and the SED falls below any fraction of the true one at high frequencies, whatever its normalisation. What holds: the difference is at most a 99th of three times the SED of an area 2 pi R_out (R_out - R_in) at the hottest temperature, and with n radii instead of 100 the error decreases as 1/n.", "quantifier": "for every mass, accretion rate, radii, redshift, distance, viewing angle and frequency (the refutation for every R_out >= 199 R_in, every fraction and all frequencies above a threshold)", "why_tests_cant": "A test evaluates a few disks at a few frequencies; the claim concerns all disks and all frequencies, and the size of the outer radius decides whether it is true.", "anchors": ["agnpy/targets/targets.py"]}
{"id": "C111", "title": "The pair production cross section in double precision", "statement": "Computed in double precision, `sigma(s)` differs from the Breit-Wheeler cross section by at most 2e-8 sigma_T for every s (it is 0 below the threshold s = 1, and rounding the velocity near 0 or near 1 does no more harm than that).  For 1 < s <= 2^48 the relative error is at most 1100 * 2^-53 * s^2 / (s - 1), hence at most 2e-8 for s between 1.001 and 1e5.  For s >= 2^55 the computed value is exactly 0 although the exact one is positive.", "quantifier": "Every s, every sigma_T >= 2^-200, every np.power and np.log accurate to one unit in the last place.", "why_tests_cant": "A test looks at chosen values of s; the loss of accuracy depends on how close s is to the threshold and on how far above it is, and the claim bounds it for all of them and for any numpy build.", "anchors": ["agnpy/absorption/targets_absorption.py:34-42", "agnpy/utils/math.py:49-52"]}
{"id": "C112", "title": "Integration in log-log space in double precision", "statement": "Computed in double precision, `trapz_loglog(y, x)` differs from the exact sum of the power law integrals through neighbouring points by at most 6e-6 (1 + 1/lam) of its value, where lam is the smallest ln(x[i+1]/x[i]).  The error of one interval is at most 5e-6 (1 + 1/ln(x1/x0)) of its value, including slopes close to -1, where y/(m+1) (x1 (x1/x0)^m - x0) is a small difference divided by a small number and where the code changes over to x0 y0 ln(x1/x0) at |m+1| = 1e-10; away from it (|m+1| >= 0.01) at most 3e-11 (1 + 1/ln(x1/x0)).  Intervals with y = 0 at an end count as 0.", "quantifier": "Every table with increasing x, x and y (where not zero) between 2^-200 and 2^200, ln(x[i+1]/x[i]) >= 1/1000, up to 10^9 points; every order and bracketing of the final sum; every np.log and np.power accurate to one unit in the last place.", "why_tests_cant": "The worst loss of accuracy sits at slopes within 1e-9 of -1 and depends on how the differences happen to round; a test samples a few tables, the claim bounds the error for all of them.", "anchors": ["agnpy/utils/math.py:49-119"]}
{"id": "C113", "title": "The isotropic Compton kernel in double precision", "statement": "Computed in double precision, `isotropic_kernel(gamma, epsilon, epsilon_s)` differs from Jones' formula between the kinematic limits (2q ln q + (1+2q)(1-q) + (Gq)^2/(2(1+Gq)) (1-q) with G = 4 gamma epsilon and q = epsilon_s/(G (gamma - epsilon_s)), zero outside 1/(4 gamma^2) <= q <= 1) by at most 9e-15 (1 + G)^2, although 1 - epsilon_s/gamma cancels near epsilon_s = gamma and the comparison q <= 1 may be decided differently.  Only within (20 + 4 epsilon/gamma) 2^-53 (relative) of the lower limit, where the kernel jumps, can the value be the one from the other side.  For epsilon_s >= gamma the value is exactly 0, whatever the roundings.", "quantifier": "All 1 <= gamma <= 2^60, epsilon >= 2^-150 with 4 gamma epsilon <= 2^40, 2^-200 <= epsilon_s <= 2^200; every logarithm and np.power(., 2) accurate to one unit in the last place.", "why_tests_cant": "The cancellation is worst where epsilon_s is within a few parts in 10^13 of gamma, and the upper limit q = 1 is hit only by particular triples; a test compares a few smooth spectra.", "anchors": ["agnpy/compton/kernels.py:9-33"]}
{"id": "C114", "title": "The direction of photons from a spherical shell in double precision", "statement": "Computed in double precision, `x_re_shell(mu, R_re, r)` is a number within 3.2 * 2^-53 K of the distance (relative) and `mu_star_shell(mu, R_re, r)` is a number with the sign of the cosine c = (r - mu R_re)/x and a square within 20 * 2^-53 K of c^2, where K = (R_re + r)^2/x^2 measures how close the blob is to the shell element.  For the cosine this fails at directions close to a right angle (c^2 < 20 * 2^-53 K): there 1 - addend may round to a negative number, of which the square root is nan.  It happens for a shell of 2^57 cm (1.4e17 cm), a blob at half its radius and mu = 1/2, and with the default grid of mu (np.linspace(-1, 1, 100), point 66) for a shell of 1e17 cm and a blob at a third of its radius; the opacity `tau_blr` of that line is then nan at every frequency.", "quantifier": "All -1 <= mu <= 1, R_re and r between 2^-100 and 2^100, K <= 10^9; every np.power(., 2) accurate to one unit in the last place.", "why_tests_cant": "Whether 1 - addend comes out negative depends on the last bit of a dozen roundings at one particular direction; tests use a few heights, none of them a simple fraction of the radius.", "anchors": ["agnpy/utils/geometry.py:15-50", "agnpy/absorption/targets_absorption.py:341-342", "agnpy/compton/external_compton.py:469-470", "agnpy/utils/math.py:8", "agnpy/absorption/targets_absorption.py:333-349"]}
{"id": "C115", "title": "The energy density of a broad line in double precision", "statement": "Computed in double precision, the integral of `SphericalShellBLR.u(r)` over the grid of n cosines is within j + n + 2 roundings (2^-53 each) of the exact trapezoidal sum, whatever the order of summation, where j is 6 (R_line + r)^2/d^2 at the smallest distance d between the blob and a point of the grid.  With a blob, `u(r, blob)` is a number when no direction of the grid is closer to a right angle than c^2 = 14 * 2^-53 (R_line + r)^2/d^2.  Otherwise it may be nan for every blob: e.g. a line with R_line = 1e17 cm at r = 5/7 of its radius, where the square root of a negative rounding error is taken at the point mu = 5/7 of np.linspace(-1, 1).", "quantifier": "All R_line and r between 2^-100 and 2^100 with (R_line + r)^2/d^2 <= 10^9, all grids in [-1, 1], all orders of summation, all blobs, every np.power(., 2) accurate to one unit in the last place.", "why_tests_cant": "Whether the radicand comes out negative depends on the last bit of several roundings at one direction of the grid and one height; tests compare u at a few heights away from these.", "anchors": ["agnpy/targets/targets.py:516-543"]}
{"id": "C116", "title": "The disk seen from far above in double precision", "statement": "Computed in double precision, the radius that `SSDisk.evaluate_phi_disk_mu(mu, R_in_tilde, r_tilde)` recovers from the cosine mu is within 3.8 * 2^-53/(1 - mu^2) (relative) and the factor phi it returns within 6 * 2^-53/(1 - mu^2) of the exact value; 1/(1 - mu^2) is 1 + (r/R)^2, so the precision degrades with the square of the height.  From r = 2^27 R_in (1.3e8 R_in) on, the cosine of the inner edge is exactly 1.0, the recovered radius 0, and `SSDisk.u(r)` is no number (minus infinity or nan), for every disk, with and without blob, although the exact density is a number.", "quantifier": "All mu with 1/(1 - mu^2) <= 10^9, r_tilde between 2^-100 and 2^100, radii not inside R_in; for the last claim all R_in > 0 and r >= 2^27 R_in; every np.power accurate to one unit in the last place, with np.power(1, -2) = 1.", "why_tests_cant": "The loss of digits depends on the height over the whole range of r; tests compare u at a few heights with tolerances of percents.", "anchors": ["agnpy/targets/targets.py:290-305", "agnpy/targets/targets.py:429-466"]}
{"id": "C117", "title": "Ends of the Lorentz factor grid in double precision", "statement": "`blob.gamma_e` is np.logspace(np.log10(gamma_min), np.log10(gamma_max), n): in double precision its ends miss gamma_min and gamma_max by some units in the last place, on either side.  After the correction made inside the particle distributions' `evaluate`, every point of the grid lies in [gamma_min, gamma_max], so no point is counted as empty; the self-absorption opacity of `Synchrotron.sed_flux`, computed from the array corrected in place, loses no point either.  The self-absorption integrand called by itself (`n_e.SSA_integrand(blob.gamma_e)`, `Synchrotron.evaluate_tau_ssa(..., gamma=blob.gamma_e)`) should likewise never be 0 at the first point of the grid of its own distribution.", "quantifier": "All gamma_min >= 1, gamma_max between 2 gamma_min and 10^15, all sizes from 2 to 10^6; every np.log10 and 10**y accurate to one unit in the last place; for the integrand all five parametric distributions with all parameters.", "why_tests_cant": "Whether an end falls inside or outside depends on the last bits of gamma_min: tests use a few values, many of them powers of ten, for which the round trip is exact.", "anchors": ["agnpy/emission_regions/blob.py:139-168", "agnpy/spectra/spectra.py:209-225", "agnpy/spectra/spectra.py:283-290", "agnpy/spectra/spectra.py:388-396", "agnpy/spectra/spectra.py:696-710", "agnpy/synchrotron/synchrotron.py:102-129"]}
{"id": "C118", "title": "A bin at rest at the bounds, in double precision", "statement": "A bin whose energy no function changes stays where it is: in particular a bin that starts at gamma_bounds[0], which the constructor of TimeEvolution accepts, or that `evaluate` itself puts at the upper bound, is not removed as lying beyond the bounds.", "quantifier": "All gamma_bounds, Lorentz factors of at least 1 and numbers of passes (up to 2^51); every rest energy of the particle (2^-200 at least), for the counterexamples the double of the CODATA electron.", "why_tests_cant": "A pass multiplies by m_e c^2 and divides by it again: the result is off by the last bit for about one Lorentz factor in ten (19, 38, 43, ... downwards), which no choice of sample values settles; the loss of one bin of hundreds is within the tolerances of the tests.", "anchors": ["agnpy/time_evolution/time_evolution.py:395-439", "agnpy/time_evolution/_time_evolution_utils.py:116-155"]}
{"id": "C119", "title": "The angle dependent Compton kernel in double precision", "statement": "compton_kernel (with get_gamma_min) evaluated in double precision is a number for all Lorentz factors and photon energies; it is 0 below the minimum Lorentz factor and the formula of Dermer and Menon above it, to a relative accuracy of 6e-14 times 1/y, y = 1 - epsilon_s/gamma, where 1/y is at most 1 + 2 epsilon_bar; the test gamma >= gamma_min is decided as without rounding except within eight roundings of the threshold.", "quantifier": "All gamma in [1, 2^60], epsilon and epsilon_s in [2^-100, 2^60], 1 - cos(psi) in [2^-60, 2], and every function for np.power(., 2) of accuracy 2^-52; the accuracy for y of at least 10^-9.", "why_tests_cant": "Deep in the Klein-Nishina regime y = 1 - epsilon_s/gamma loses digits in proportion to 1/y, and the threshold computed in double precision can coincide with epsilon_s, where y is 0; tests compare a few smooth spectra at the per cent level and never come near the threshold.", "anchors": ["agnpy/compton/kernels.py:36-68"]}
{"id": "C120", "title": "Attenuation of a homogeneous emitter in double precision", "statement": "Absorption.absorption_homogeneous, (1 - exp(-tau)) / tau, evaluated in double precision is in (0, 1] for tau > 0 and tends to 1 for small opacities, with a relative accuracy of 2^-53 (2/tau + 3).", "quantifier": "All opacities in [2^-40, 2^400] and every exponential accurate to one unit in the last place for the accuracy; the correctly rounded exponential and all opacities up to 2^-55 for the failure.", "why_tests_cant": "The cancellation acts only on opacities below about 1e-10; the test of the function repeats the same expression, so that it shares its cancellation.", "anchors": ["agnpy/absorption/targets_absorption.py:738-747"]}
{"id": "C121", "title": "The synchrotron function R(x) in double precision", "statement": "synchrotron.R(x) evaluated in double precision has a relative accuracy of 2e-13, from the power law far below the critical frequency to the exponential cutoff: no operation cancels, and the rounding of the exponents 1/3, 2/3 and 4/3 is amplified by the logarithm of x only.", "quantifier": "All x in [2^-300, 500]; every np.exp (which may underflow) and every np.power accurate to 2^-52 relative.", "why_tests_cant": "The reference curves agree at the per cent level over a few decades in x; the statement is about all x and every admissible implementation of the library functions.", "anchors": ["agnpy/synchrotron/synchrotron.py:16-24"]}
{"id": "C122", "title": "The temperature of the disk is a number in double precision", "statement": "At every radius at which evaluate_multi_T_bb_sed evaluates the disk, the temperature computed in double precision is a number: no radius of np.linspace(R_in, R_out) falls below R_in, so that 1 - sqrt(R_in/R) is never negative (its fourth root would be nan, and with it the whole SED); the factor is exactly 0 at the inner radius, at most 1, and within 2^-51 of the exact one.", "quantifier": "All R_in and R_out that are doubles with R_in <= R_out, all numbers of radii, masses, accretion rates and constants of positive value (radii of at least 1 in their unit), and every implementation of np.power(R, 3) that is at least 1 for R >= 1.", "why_tests_cant": "Whether a grid point falls below its end by the last bit depends on the digits of both ends (it does happen with np.logspace, C117); tests use one or two disks.", "anchors": ["agnpy/targets/targets.py:326-330", "agnpy/targets/targets.py:387-389"]}
