(** Model of /repo/agnpy/compton/synchrotron_self_compton.py.  The
    three-dimensional integrand is integrated point by point: over gamma for
    each epsilon, then over epsilon, for each scattered frequency. *)
From Verif Require Import Base TEUtils NumpyInst MathUtils Conversion Spectra Blob Synchrotron Kernels.

Section SSC.
Variable P : phys.

(** SynchrotronSelfCompton.__init__, L32-35 *)
Record ssc := { sc_blob : blob; sc_ssa : bool; sc_integ : integrator_t }.

(** electron_energy_loss_rate_thomson, L37-41 *)
Definition ssc_loss_rate_thomson (s : ssc) (g : R) : R := 4 / 3 * c_sigmaT P * c_c P * u_ph_synch P (sc_blob s) * g ^ 2.

(** Klein-Nishina factor, L66 *)
Definition f_KN (b : R) : R := if Rltb b (10 ^ 4) then 1 / npow (1 + b) 1.5 else 9 / (2 * b ^ 2) * (clog b - 11 / 6).

(** electron_energy_loss_rate, L43-71, for an array of Lorentz factors.
    [grid] is the module array gamma_e_to_integrate as earlier calls left it;
    self.ssa, self.integrator and blob.gamma_e are not used. *)
Definition ssc_loss_rate (s : ssc) (grid gammas : list R) : res (list R * list R) :=
  let b := sc_blob s in
  let epsilon := map (fun n => nu_to_epsilon_prime P n (redshift b) (delta_D b) Electron) nu_to_integrate in
  let! r := evaluate_sed_flux P nu_to_integrate (redshift b) (d_L b) (delta_D b) (B_field b) (R_b b) (n_e b) false trapz grid in
  let '(grid', sed) := r in
  let u_epsilon := u_ph_synch_diff P b epsilon sed in
  Ok (grid', map (fun g =>
    let F_KN := trapz (map2 (fun e u => f_KN (4 * g * e) * u) epsilon u_epsilon) epsilon in
    4 / 3 * c_sigmaT P * c_c P * F_KN * g ^ 2) gammas).

(** evaluate_sed_flux, L73-158.  gamma is corrected in place by the synchrotron
    evaluation and again by n_e.evaluate, L146. *)
Definition ssc_evaluate_sed_flux (nu : list R) (z dl dd b rb : R) (s : spectrum) (ssa : bool) (integ : integrator_t) (gamma : list R)
    : res (list R * list R) :=
  let epsilon := map (fun n => nu_to_epsilon_prime P n z dd Electron) nu_to_integrate in
  let! r := evaluate_sed_flux P nu_to_integrate z dl dd b rb s ssa integ gamma in
  let '(g1, sed_synch) := r in
  let u_synch := map2 (evaluate_u_ph_synch_diff P rb dl dd) epsilon sed_synch in
  let V := 4 / 3 * PI * rb ^ 3 in
  let '(g2, dens) := evaluate s g1 in
  Ok (g2, map (fun n =>
    let epsilon_s := nu_to_epsilon_prime P n z dd Electron in
    let integral_gamma := map2 (fun e u =>
        integ (map2 (fun v g => u / e ^ 2 * (V * v) / g ^ 2 * isotropic_kernel g e epsilon_s) dens g2) g2) epsilon u_synch in
    let integral_epsilon := integ integral_gamma epsilon in
    let emissivity := 3 / 4 * c_c P * c_sigmaT P * epsilon_s ^ 2 * integral_epsilon in
    dd ^ 4 / (4 * PI * dl ^ 2) * emissivity) nu).

(** sed_flux, L160-175; sed_luminosity, L177-182 *)
Definition ssc_sed_flux (s : ssc) (nu : list R) : res (list R) :=
  let b := sc_blob s in
  let! r := ssc_evaluate_sed_flux nu (redshift b) (d_L b) (delta_D b) (B_field b) (R_b b) (n_e b) (sc_ssa s) (sc_integ s) (gamma_e b) in
  Ok (snd r).
(** synchrotron_self_compton.py L177-182 *)
Definition ssc_sed_luminosity (s : ssc) (nu : list R) : res (list R) :=
  let! f := ssc_sed_flux s nu in Ok (to_luminosity (d_L (sc_blob s)) f).
End SSC.
