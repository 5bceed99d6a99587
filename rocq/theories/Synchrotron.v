(** Model of /repo/agnpy/synchrotron/synchrotron.py and proton_synchrotron.py.
    Arrays over frequencies are lists; the two-dimensional integrand is
    integrated over the Lorentz factors separately for each frequency.  x**y is
    [npow], right for positive bases only: magnetic field, frequencies and
    Lorentz factors are positive in the theorems. *)
From Verif Require Import Base TEUtils NumpyInst MathUtils Conversion Spectra Blob.

(** B_cr, synchrotron.py L13 *)
Definition B_cr : R := 4.414e13.

(** R(x), synchrotron.py L16-24 *)
Definition R_func (x : R) : R :=
  let term_1_num := 1.808 * npow x (1 / 3) in
  let term_1_denom := sqrt (1 + 3.4 * npow x (2 / 3)) in
  let term_2_num := 1 + 2.21 * npow x (2 / 3) + 0.347 * npow x (4 / 3) in
  let term_2_denom := 1 + 1.353 * npow x (2 / 3) + 0.217 * npow x (4 / 3) in
  term_1_num / term_1_denom * term_2_num / term_2_denom * exp (- x).

(** tau_to_attenuation, L64-68 (np.where evaluates both sides; the one not
    taken may be nan) *)
Definition tau_to_attenuation (tau : R) : R :=
  let u := 1 / 2 + exp (- tau) / tau - (1 - exp (- tau)) / tau ^ 2 in
  if Rltb tau (1 / 10 ^ 3) then 1 else 3 * u / tau.

(** epsilon_B, L50-52 *)
Definition epsilon_B (b : R) : R := b / B_cr.

Section Synchrotron.
Variable P : phys.

(** nu_synch_peak, L27-32 *)
Definition nu_synch_peak (b g m : R) : R := c_e P * B_to_cgs b / (2 * PI * m * c_c P) * g ^ 2.
(** calc_x, L35-47 *)
Definition calc_x (b eps g m : R) : R := 4 * PI * eps * m ^ 2 * c_c P ^ 3 / (3 * c_e P * b * c_h P * g ^ 2).
(** single_particle_synch_power, L55-61 *)
Definition single_particle_synch_power (b eps g m : R) : R :=
  sqrt 3 * c_e P ^ 3 * b / c_h P * R_func (calc_x b eps g m).

(** evaluate_tau_ssa, L101-129; returns gamma as the call leaves it and the
    optical depth at each frequency *)
Definition tau_prefactor (eps : R) : R := - 1 / (8 * PI * c_me P * eps ^ 2) * (lambda_c P Electron / c_c P) ^ 3.
(** synchrotron.py L102-129 *)
Definition evaluate_tau_ssa (nu : list R) (z dd b rb : R) (s : spectrum) (integ : integrator_t) (gamma : list R) : res (list R * list R) :=
  let! gv := evaluate_SSA_integrand s gamma in
  let '(g, ssa) := gv in
  Ok (g, map (fun n =>
    let eps := nu_to_epsilon_prime P n z dd Electron in
    let integral := integ (map2 (fun v x => v * single_particle_synch_power (B_to_cgs b) eps x (c_me P)) ssa g) g in
    2 * (tau_prefactor eps * integral) * rb) nu).

(** evaluate_sed_flux, L131-211; n_e.evaluate corrects gamma in place through
    the reshaped view, L186-188, before it is used again.  Returns gamma as the
    call leaves it and the SED. *)
Definition evaluate_sed_flux (nu : list R) (z dl dd b rb : R) (s : spectrum) (ssa : bool) (integ : integrator_t) (gamma : list R)
    : res (list R * list R) :=
  let V := 4 / 3 * PI * rb ^ 3 in
  let '(g, dens) := evaluate s gamma in
  let sed := map (fun n =>
    let eps := nu_to_epsilon_prime P n z dd Electron in
    let emissivity := integ (map2 (fun v x => V * v * single_particle_synch_power (B_to_cgs b) eps x (c_me P)) dens g) g in
    dd ^ 4 / (4 * PI * dl ^ 2) * eps * emissivity) nu in
  if ssa then
    let! gt := evaluate_tau_ssa nu z dd b rb s integ g in
    Ok (fst gt, map2 (fun f t => f * tau_to_attenuation t) sed (snd gt))
  else Ok (g, sed).

(** evaluate_sed_flux_delta_approx, L213-227, for a frequency array *)
Definition evaluate_sed_flux_delta_approx (nu : list R) (z dl dd b rb : R) (s : spectrum) : list R :=
  let U := B_to_cgs b ^ 2 / (8 * PI) in
  let V := 4 / 3 * PI * rb ^ 3 in
  let gs := map (fun n => sqrt (nu_to_epsilon_prime P n z dd Electron / epsilon_B b)) nu in
  let '(gs', dens) := evaluate s gs in
  map2 (fun g n => dd ^ 4 * c_c P * c_sigmaT P * U / (6 * PI * dl ^ 2) * g ^ 3 * (V * n)) gs' dens.

(** Synchrotron.__init__, L88-91: blob, ssa, integrator *)
Record synchrotron := { sy_blob : blob; sy_ssa : bool; sy_integ : integrator_t }.

(** electron_energy_loss_rate, L93-99 *)
Definition synch_loss_rate (s : synchrotron) (g : R) : R :=
  4 / 3 * c_sigmaT P * c_c P * (B_cgs (sy_blob s) ^ 2 / (8 * PI)) * g ^ 2.

(** sed_flux, L229-244: blob.gamma_e is a fresh array, the corrected copy is dropped *)
Definition synch_sed_flux (s : synchrotron) (nu : list R) : res (list R) :=
  let b := sy_blob s in
  let! r := evaluate_sed_flux nu (redshift b) (d_L b) (delta_D b) (B_field b) (R_b b) (n_e b) (sy_ssa s) (sy_integ s) (gamma_e b) in
  Ok (snd r).
(** sed_flux_delta_approx, L246-258 *)
Definition synch_sed_flux_delta (s : synchrotron) (nu : list R) : list R :=
  let b := sy_blob s in
  evaluate_sed_flux_delta_approx nu (redshift b) (d_L b) (delta_D b) (B_field b) (R_b b) (n_e b).
(** sed_luminosity, L260-265 *)
Definition to_luminosity (dl : R) (flux : list R) : list R := map (Rmult (4 * PI * dl ^ 2)) flux.
(** synchrotron.py L260-265 *)
Definition synch_sed_luminosity (s : synchrotron) (nu : list R) : res (list R) :=
  let! f := synch_sed_flux s nu in Ok (to_luminosity (d_L (sy_blob s)) f).

(** ndarray.max() and argmax() (first maximum); both raise on empty arrays *)
(** ndarray.max, synchrotron.py L270 *)
Definition np_max (l : list R) : res R :=
  match l with [] => Err (ValueError "zero-size array to reduction operation maximum which has no identity") | _ => Ok (list_max l) end.
(** the search of np.argmax (synchrotron.py L276) after the elements before position i *)
Fixpoint argmax_from (best : R) (ibest i : nat) (l : list R) : nat :=
  match l with
  | [] => ibest
  | x :: l' => if Rltb best x then argmax_from x i (S i) l' else argmax_from best ibest (S i) l'
  end.
(** np.argmax, synchrotron.py L276 *)
Definition np_argmax (l : list R) : res nat :=
  match l with
  | [] => Err (ValueError "attempt to get argmax of an empty sequence")
  | x :: l' => Ok (argmax_from x 0 1 l')
  end.
(** nu[idx] *)
(** nu[idx], synchrotron.py L277 *)
Definition nu_at (nu : list R) (i : nat) : res R := match nth_error nu i with Some x => Ok x | None => Err IndexError end.
(** sed_peak_flux and sed_peak_nu: synchrotron.py L267-277,
    proton_synchrotron.py L177-187, synchrotron_self_compton.py L184-193,
    external_compton.py; the same code for every process, [flux] its sed_flux *)
Definition sed_peak_flux (flux : list R -> res (list R)) (nu : list R) : res R := let! f := flux nu in np_max f.
(** synchrotron.py L272-277, proton_synchrotron.py L182-187, synchrotron_self_compton.py
    L189-194 *)
Definition sed_peak_nu (flux : list R -> res (list R)) (nu : list R) : res R :=
  let! f := flux nu in let! i := np_argmax f in nu_at nu i.

(** ProtonSynchrotron.evaluate_sed_flux, proton_synchrotron.py L69-151 *)
Definition proton_evaluate_sed_flux (nu : list R) (z dl dd b rb : R) (s : spectrum) (integ : integrator_t) (gamma : list R) : list R * list R :=
  let V := 4 / 3 * PI * rb ^ 3 in
  let '(g, dens) := evaluate s gamma in
  (g, map (fun n =>
    let eps := nu_to_epsilon_prime P n z dd Proton in
    let emissivity := integ (map2 (fun v x => V * v * single_particle_synch_power (B_to_cgs b) eps x (c_mp P)) dens g) g in
    dd ^ 4 / (4 * PI * dl ^ 2) * eps * emissivity) nu).
(** ProtonSynchrotron.sed_flux, L153-168: self.blob.n_p raises AttributeError
    without protons; sed_luminosity, L170-175 *)
Definition proton_sed_flux (b : blob) (integ : integrator_t) (nu : list R) : res (list R) :=
  let! s := n_p b in
  let! g := gamma_p b in
  Ok (snd (proton_evaluate_sed_flux nu (redshift b) (d_L b) (delta_D b) (B_field b) (R_b b) s integ g)).
(** proton_synchrotron.py L170-175 *)
Definition proton_sed_luminosity (b : blob) (integ : integrator_t) (nu : list R) : res (list R) :=
  let! f := proton_sed_flux b integ nu in Ok (to_luminosity (d_L b) f).
End Synchrotron.
