(** Model of /repo/agnpy/compton/external_compton.py.  The integrations over the
    axes of the broadcast array are done point by point: over gamma for each
    (mu, phi, epsilon_s), then over mu, then over phi.  n_e is evaluated on the
    temporary array gamma / delta_D, so the in-place correction of its ends
    does not reach [gamma]. *)
From Verif Require Import Base TEUtils NumpyInst MathUtils Conversion Spectra Blob Synchrotron Geometry Kernels Targets.

Section EC.
Variable P : phys.

(** nu_to_epsilon_prime(nu, z): delta_D = 1 by default (conversion.py L30) *)
Definition eps_s (nu z : R) : R := nu_to_epsilon_prime P nu z 1 Electron.
(** N_e = V_b * n_e.evaluate(_gamma / delta_D, *args), e.g. L129 *)
Definition N_e_ext (s : spectrum) (dd rb : R) (gamma : list R) : list R :=
  map (fun v => 4 / 3 * PI * rb ^ 3 * v) (snd (evaluate s (map (fun g => g / dd) gamma))).
(** integrator(w * N_e / gamma^2 * kernel, gamma, axis=0) for one weight w and one kernel *)
(** external_compton.py L130, L229, L358, L473, L588 *)
Definition gamma_integral (integ : integrator_t) (gamma Ne : list R) (w : R) (kernel : R -> R) : R :=
  integ (map2 (fun n g => w * n / g ^ 2 * kernel g) Ne gamma) gamma.

(** evaluate_sed_flux_iso_mono, L64-142 *)
Definition ec_iso_mono (nu : list R) (z dl dd mu_s rb epsilon_0 u_0 : R) (s : spectrum) (integ : integrator_t) (gamma mu phi : list R) : list R :=
  let Ne := N_e_ext s dd rb gamma in
  map (fun n =>
    let es := eps_s n z in
    let integral_gamma p m := gamma_integral integ gamma Ne 1 (fun g => compton_kernel g es epsilon_0 mu_s m p) in
    let integral_mu p := trapz (map (integral_gamma p) mu) mu in
    let integral_phi := trapz (map integral_mu phi) phi in
    (3 * c_c P * c_sigmaT P * u_0 * es ^ 2 * dd ^ 3) / (2 ^ 7 * PI ^ 2 * dl ^ 2 * epsilon_0 ^ 2) * integral_phi) nu.

(** evaluate_sed_flux_ps_behind_jet, L164-240 *)
Definition ec_ps (nu : list R) (z dl dd mu_s rb epsilon_0 L_0 r : R) (s : spectrum) (integ : integrator_t) (gamma : list R) : list R :=
  let Ne := N_e_ext s dd rb gamma in
  map (fun n =>
    let es := eps_s n z in
    let integral := gamma_integral integ gamma Ne 1 (fun g => compton_kernel g es epsilon_0 mu_s 1 0) in
    (3 * c_sigmaT P * L_0 * es ^ 2 * dd ^ 3) / (2 ^ 7 * PI ^ 2 * dl ^ 2 * r ^ 2 * epsilon_0 ^ 2) * integral) nu.

(** evaluate_sed_flux_ss_disk, L262-373 *)
Definition ec_ss_disk (nu : list R) (z dl dd mu_s rb M_BH L_disk eta R_in R_out r : R) (s : spectrum) (integ : integrator_t) (gamma : list R)
    (mu_size : nat) (phi : list R) : list R :=
  let r_tilde := to_R_g_units P r M_BH in
  let R_in_tilde := to_R_g_units P R_in M_BH in
  let R_out_tilde := to_R_g_units P R_out M_BH in
  let m_dot := L_disk / (eta * c_c P ^ 2) in
  let mu := evaluate_mu_from_r_tilde R_in_tilde R_out_tilde r_tilde mu_size in
  let Ne := N_e_ext s dd rb gamma in
  map (fun n =>
    let es := eps_s n z in
    let integral_gamma p m :=
      let epsilon := evaluate_epsilon_mu L_disk M_BH eta m r_tilde in
      gamma_integral integ gamma Ne (evaluate_phi_disk_mu m R_in_tilde r_tilde / epsilon ^ 2 / m / npow (/ m ^ 2 - 1) (3 / 2))
        (fun g => compton_kernel g es epsilon mu_s m p) in
    let integral_mu p := trapz (map (integral_gamma p) mu) mu in
    let integral_phi := trapz (map integral_mu phi) phi in
    (9 * c_sigmaT P * c_G P * M_BH * m_dot * es ^ 2 * dd ^ 3) / (2 ^ 9 * PI ^ 3 * dl ^ 2 * r ^ 3) * integral_phi) nu.

(** evaluate_sed_flux_blr, L399-490 *)
Definition ec_blr (nu : list R) (z dl dd mu_s rb L_disk xi epsilon_line R_line r : R) (s : spectrum) (integ : integrator_t) (gamma mu phi : list R) : list R :=
  let Ne := N_e_ext s dd rb gamma in
  map (fun n =>
    let es := eps_s n z in
    let integral_gamma p m :=
      gamma_integral integ gamma Ne (1 / x_re_shell m R_line r ^ 2) (fun g => compton_kernel g es epsilon_line mu_s (mu_star_shell m R_line r) p) in
    let integral_mu p := trapz (map (integral_gamma p) mu) mu in
    let integral_phi := trapz (map integral_mu phi) phi in
    (3 * c_sigmaT P * xi * L_disk * es ^ 2 * dd ^ 3) / (2 ^ 9 * PI ^ 3 * dl ^ 2 * epsilon_line ^ 2) * integral_phi) nu.

(** evaluate_sed_flux_dt, L515-600 *)
Definition ec_dt (nu : list R) (z dl dd mu_s rb L_disk xi epsilon_dt R_dt r : R) (s : spectrum) (integ : integrator_t) (gamma phi : list R) : list R :=
  let Ne := N_e_ext s dd rb gamma in
  let x_re := x_re_ring R_dt r in
  let mu := r / x_re in
  map (fun n =>
    let es := eps_s n z in
    let integral_gamma p := gamma_integral integ gamma Ne 1 (fun g => compton_kernel g es epsilon_dt mu_s mu p) in
    let integral_phi := trapz (map integral_gamma phi) phi in
    (3 * c_sigmaT P * xi * L_disk * es ^ 2 * dd ^ 3) / (2 ^ 8 * PI ^ 3 * dl ^ 2 * x_re ^ 2 * epsilon_dt ^ 2) * integral_phi) nu.

(** ExternalCompton.__init__, L40-46; the arrays self.mu, self.phi are given by
    their sizes (set_mu, L48-57, set_phi, L59-61).  r = None is modelled as an
    absent value: using it raises TypeError. *)
Record ec := { ec_blob : blob; ec_target : target; ec_r : option R; ec_integ : integrator_t; ec_mu_size : nat; ec_phi_size : nat }.
(** external_compton.py L40-62 *)
Definition ec_init (b : blob) (t : target) (r : option R) (integ : integrator_t) : res ec :=
  match t, r with
  | TDisk _, None => Err (TypeError "unsupported operand type(s) for /: 'NoneType' and 'Quantity'")
  | _, _ => Ok {| ec_blob := b; ec_target := t; ec_r := r; ec_integ := integ; ec_mu_size := 100; ec_phi_size := 50 |}
  end.
(** set_mu, external_compton.py L48-57, for targets other than SSDisk *)
Definition ec_mu (e : ec) : list R := linspace (-1) 1 (ec_mu_size e).
(** set_phi, external_compton.py L59-61 *)
Definition ec_phi (e : ec) : list R := linspace 0 (2 * PI) (ec_phi_size e).
(** self.r as used in external_compton.py L242-260, L375-397, L492-513, L602-621 *)
Definition the_r (e : ec) : res R := match ec_r e with Some r => Ok r | None => Err (TypeError "r is None") end.

(** sed_flux, L623-634, with the methods sed_flux_cmb (L144-162),
    sed_flux_ps_behind_jet (L242-260), sed_flux_ss_disk (L375-397),
    sed_flux_blr (L492-513), sed_flux_dt (L602-621).  [None]: the if chain falls
    through and the method returns None. *)
Definition ec_sed_flux (e : ec) (nu : list R) : res (option (list R)) :=
  let b := ec_blob e in
  let gamma := gamma_e_external_frame b in
  match ec_target e with
  | TCMB t =>
      let! ms := mu_s b in
      Ok (Some (ec_iso_mono nu (redshift b) (d_L b) (delta_D b) ms (R_b b) (cmb_epsilon_0 t) (cmb_u_0 t) (n_e b) (ec_integ e) gamma (ec_mu e) (ec_phi e)))
  | TPointSource t =>
      let! ms := mu_s b in let! r := the_r e in
      Ok (Some (ec_ps nu (redshift b) (d_L b) (delta_D b) ms (R_b b) (ps_epsilon_0 t) (ps_L_0 t) r (n_e b) (ec_integ e) gamma))
  | TDisk t =>
      let! ms := mu_s b in let! r := the_r e in
      Ok (Some (ec_ss_disk nu (redshift b) (d_L b) (delta_D b) ms (R_b b) (sd_M_BH t) (sd_L_disk t) (sd_eta t) (sd_R_in t) (sd_R_out t) r (n_e b)
                  (ec_integ e) gamma (ec_mu_size e) (ec_phi e)))
  | TBLR t =>
      let! ms := mu_s b in let! r := the_r e in
      Ok (Some (ec_blr nu (redshift b) (d_L b) (delta_D b) ms (R_b b) (blr_L_disk t) (blr_xi t) (blr_epsilon t) (blr_R_line t) r (n_e b)
                  (ec_integ e) gamma (ec_mu e) (ec_phi e)))
  | TDustTorus t =>
      let! ms := mu_s b in let! r := the_r e in
      Ok (Some (ec_dt nu (redshift b) (d_L b) (delta_D b) ms (R_b b) (dt_L_disk t) (dt_xi t) (dt_epsilon t) (dt_R t) r (n_e b)
                  (ec_integ e) gamma (ec_phi e)))
  | TBlob _ | TOther => Ok None
  end.
(** sed_luminosity, L636-640: multiplying None raises TypeError *)
Definition ec_sed_luminosity (e : ec) (nu : list R) : res (list R) :=
  let! f := ec_sed_flux e nu in
  match f with
  | Some f => Ok (to_luminosity (d_L (ec_blob e)) f)
  | None => Err (TypeError "unsupported operand type(s) for *: 'Quantity' and 'NoneType'")
  end.
End EC.
