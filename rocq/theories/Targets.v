(** Model of /repo/agnpy/targets/targets.py (cgs numbers).  The cosmological
    distance astropy.coordinates.Distance(z=z) is an argument.  For arrays r and
    nu the code computes each element independently; the model gives the value
    at one element.  __str__ methods and print_lines_list are not modelled. *)
From Verif Require Import Base TEUtils NumpyInst MathUtils Conversion Spectra Blob Geometry.
From Coq Require Import String.
Open Scope string_scope.
Open Scope R_scope.

(** lines_dictionary, L22-148: line and wavelength in Angstrom (the radius and
    luminosity ratios are not used by the code) *)
Definition lines_dictionary : list (string * R) :=
  [("Lyepsilon", 937.80); ("Lydelta", 949.74); ("CIII", 977.02); ("NIII", 990.69); ("Lybeta", 1025.72); ("OVI", 1033.83); ("ArI", 1066.66);
   ("Lyalpha", 1215.67); ("OI", 1304.35); ("SiII", 1306.82); ("SiIV", 1396.76); ("OIV]", 1402.06); ("CIV", 1549.06); ("NIV", 1718.55);
   ("AlII", 1721.89); ("CIII]", 1908.73); ("[NeIV]", 2423.83); ("MgII", 2798.75); ("Hdelta", 4102.89); ("Hgamma", 4341.68); ("HeII", 4687.02);
   ("Hbeta", 4862.68); ("[ClIII]", 5539.43); ("HeI", 5877.29); ("Halpha", 6564.61)].
(** lines_dictionary[line], targets.py L492 *)
Fixpoint lookup_line (l : string) (d : list (string * R)) : option R :=
  match d with [] => None | (k, x) :: d' => if String.eqb k l then Some x else lookup_line l d' end.

(** nu_to_integrate, L151 *)
Definition disk_nu_to_integrate : list R := np_logspace 3 21 100.
(** M_sun of astropy.constants, in g *)
Definition M_sun : R := 1.988409870698051e33.

Section Targets.
Variable P : phys.

(** CMB, L154-183 *)
Record cmb := { cmb_u_0 : R; cmb_epsilon_0 : R }.
(** CMB.__init__, targets.py L164-169 *)
Definition cmb_init (z : R) : cmb :=
  let a := 7.5657 * 1e-15 in
  let T := 2.72548 in
  {| cmb_u_0 := a * T ^ 4 * (1 + z) ^ 4; cmb_epsilon_0 := 2.7 * c_kB P * T / mec2_erg P * (1 + z) |}.
(** CMB.u, targets.py L171-183 *)
Definition cmb_u (t : cmb) (b : option blob) : res R :=
  match b with
  | Some b => let! beta := Beta b in Ok (cmb_u_0 t * Gamma b ^ 2 * (1 + beta ^ 2 / 3))
  | None => Ok (cmb_u_0 t)
  end.

(** PointSourceBehindJet, L186-218 *)
Record point_source := { ps_L_0 : R; ps_epsilon_0 : R }.
(** PointSourceBehindJet.u, targets.py L202-218 *)
Definition ps_u (t : point_source) (r : R) (b : option blob) : res R :=
  let! u_0 := div_res (ps_L_0 t) (4 * PI * c_c P * r ^ 2) in
  match b with
  | Some b => let! beta := Beta b in Ok (u_0 / (Gamma b ^ 2 * (1 + beta) ^ 2))
  | None => Ok u_0
  end.

(** SSDisk, L221-466.  A radius argument is a plain number or a Quantity (in cm). *)
Inductive radius_arg := Plain (x : R) | Quantity (x : R).
(** the attributes of SSDisk, targets.py L240-275 *)
Record ssdisk := {
  sd_M_BH : R; sd_L_disk : R; sd_eta : R; sd_R_in : R; sd_R_out : R;
  sd_R_in_tilde : R; sd_R_out_tilde : R;
  sd_L_Edd : R; sd_l_Edd : R; sd_m_dot : R; sd_R_g : R
}.
(** __init__, L240-275 (M_8 only enters L_Edd; the array R_tilde, L275, is not used elsewhere) *)
Definition ssdisk_init (M_BH L_disk eta : R) (R_in R_out : radius_arg) (R_g_units : bool) : res ssdisk :=
  let M_8 := M_BH / (1e8 * M_sun) in
  let L_Edd := 1.26 * 1e46 * M_8 in
  let l_Edd := L_disk / L_Edd in
  let m_dot := L_disk / (eta * c_c P ^ 2) in
  let rg := c_G P * M_BH / c_c P ^ 2 in
  let mk ri ro rit rot := {| sd_M_BH := M_BH; sd_L_disk := L_disk; sd_eta := eta; sd_R_in := ri; sd_R_out := ro;
      sd_R_in_tilde := rit; sd_R_out_tilde := rot; sd_L_Edd := L_Edd; sd_l_Edd := l_Edd; sd_m_dot := m_dot; sd_R_g := rg |} in
  if R_g_units then
    match R_in, R_out with
    | Plain a, Plain b => Ok (mk (a * rg) (b * rg) a b)
    | _, _ => Err (TypeError "R_in / R_out passed with units, int / float expected")
    end
  else
    match R_in, R_out with
    | Quantity a, Quantity b => Ok (mk a b (a / rg) (b / rg))
    | _, _ => Err (TypeError "R_in / R_out passed without units")
    end.

(** evaluate_mu_from_r_tilde, L290-296 *)
Definition evaluate_mu_from_r_tilde (R_in_tilde R_out_tilde r_tilde : R) (size : nat) : list R :=
  let mu_min := 1 / sqrt (1 + (R_out_tilde / r_tilde) ^ 2) in
  let mu_max := 1 / sqrt (1 + (R_in_tilde / r_tilde) ^ 2) in
  linspace mu_min mu_max size.
(** evaluate_phi_disk_mu, L299-305 *)
Definition evaluate_phi_disk_mu (mu R_in_tilde r_tilde : R) : R :=
  let R_tilde := r_tilde * sqrt (/ mu ^ 2 - 1) in
  1 - sqrt (R_in_tilde / R_tilde).
(** phi_disk, L344-345 *)
Definition phi_disk (d : ssdisk) (R_tilde : R) : R := 1 - sqrt (sd_R_in_tilde d / R_tilde).
(** evaluate_epsilon, L308-315; evaluate_epsilon_mu, L318-323 *)
Definition evaluate_epsilon (L_disk M_BH eta R_tilde : R) : R :=
  let M_8 := M_BH / (1e8 * M_sun) in
  let L_Edd := 1.26 * 1e46 * M_8 in
  let l_Edd := L_disk / L_Edd in
  let xi := npow (l_Edd / (M_8 * eta)) (1 / 4) in
  2.7 * 1e-4 * xi * npow R_tilde (- (3) / 4).
(** targets.py L318-323 *)
Definition evaluate_epsilon_mu (L_disk M_BH eta mu r_tilde : R) : R :=
  let R_tilde := r_tilde * sqrt (/ mu ^ 2 - 1) in
  evaluate_epsilon L_disk M_BH eta R_tilde.
(** evaluate_T, L326-330: np.power(val, 1/4), 0 for val = 0 *)
Definition evaluate_T (r M_BH m_dot R_in : R) : R :=
  let phi := 1 - sqrt (R_in / r) in
  let val := (3 * c_G P * M_BH * m_dot * phi) / (8 * PI * r ^ 3 * c_sigmaSB P) in
  if Reqb val 0 then 0 else npow val (1 / 4).

(** astropy's BlackBody().evaluate(nu, T, scale=1): Planck's law; at T = 0 the
    exponential overflows and the value is 0.  (It raises ValueError for
    negative T; the theorems use T >= 0 and nu > 0.) *)
Definition black_body (nu T : R) : R :=
  if Reqb T 0 then 0 else 2 * c_h P * nu ^ 3 / (c_c P ^ 2 * (exp (c_h P * nu / (c_kB P * T)) - 1)).

(** evaluate_multi_T_bb_sed, L351-393, at one frequency *)
Definition evaluate_multi_T_bb_sed (nu z M_BH m_dot R_in R_out d_L mu_s : R) : R :=
  let nu_prime := nu * (1 + z) in
  let Rs := linspace R_in R_out 100 in
  let integrand := map (fun r => r / d_L ^ 2 * black_body nu_prime (evaluate_T r M_BH m_dot R_in)) Rs in
  let F_nu := 2 * PI * trapz integrand Rs in
  mu_s * (nu * F_nu).
(** evaluate_multi_T_bb_norm_sed, L396-417 *)
Definition evaluate_multi_T_bb_norm_sed (nu : list R) (z L_disk M_BH m_dot R_in R_out d_L mu_s : R) : res (list R) :=
  let F_nu_norm := map (fun n => evaluate_multi_T_bb_sed n z M_BH m_dot R_in R_out d_L mu_s / n) disk_nu_to_integrate in
  let A := 4 * PI * d_L ^ 2 in
  let L := 2 * (trapz F_nu_norm disk_nu_to_integrate * A) in
  let! norm := div_res L_disk L in
  Ok (map (fun n => norm * evaluate_multi_T_bb_sed n z M_BH m_dot R_in R_out d_L mu_s) nu).
(** sed_flux, L419-427 *)
Definition ssdisk_sed_flux (d : ssdisk) (nu : list R) (z dl mu_s : R) : res (list R) :=
  evaluate_multi_T_bb_norm_sed nu z (sd_L_disk d) (sd_M_BH d) (sd_m_dot d) (sd_R_in d) (sd_R_out d) dl mu_s.
(** u, L429-466, at one height r (default size of the mu grid: 100) *)
Definition ssdisk_u (d : ssdisk) (r : R) (b : option blob) : res R :=
  let r_tilde := r / sd_R_g d in
  let mu := evaluate_mu_from_r_tilde (sd_R_in_tilde d) (sd_R_out_tilde d) r_tilde 100 in
  let prefactor := 3 * sd_l_Edd d * sd_L_Edd d * sd_R_g d / (8 * PI * c_c P * sd_eta d * r ^ 3) in
  let integrand m := 1 / m * npow (/ m ^ 2 - 1) (- (3) / 2) * evaluate_phi_disk_mu m (sd_R_in_tilde d) r_tilde in
  match b with
  | Some b =>
      let! beta := Beta b in
      let factor m :=
        let mu_prime := (m - beta) / (1 - beta * m) in
        1 / (Gamma b ^ 6 * (1 - beta * m) ^ 2 * (1 + beta * mu_prime) ^ 4) in
      Ok (prefactor * trapz (map (fun m => integrand m * factor m) mu) mu)
  | None => Ok (prefactor * trapz (map integrand mu) mu)
  end.

(** SphericalShellBLR, L469-543 *)
Record blr := { blr_L_disk : R; blr_xi : R; blr_line : string; blr_lambda : R; blr_epsilon : R; blr_R_line : R }.
(** __init__, L485-498: u.spectral() turns the wavelength into h c / lambda *)
Definition blr_init (L_disk xi : R) (line : string) (R_line : R) : res blr :=
  match lookup_line line lines_dictionary with
  | None => Err NameError
  | Some lam => Ok {| blr_L_disk := L_disk; blr_xi := xi; blr_line := line; blr_lambda := lam;
                      blr_epsilon := c_h P * c_c P / (lam * 1e-8) / mec2_erg P; blr_R_line := R_line |}
  end.
(** u, L516-543, at one height; np.linspace(-1, 1) has 50 points *)
Definition blr_u (t : blr) (r : R) (b : option blob) : res R :=
  let mu := linspace (-1) 1 50 in
  let x2 m := r ^ 2 + blr_R_line t ^ 2 - 2 * r * blr_R_line t * m in
  let prefactor := blr_xi t * blr_L_disk t / (8 * PI * c_c P) in
  match b with
  | Some b =>
      let! beta := Beta b in
      let factor m :=
        let mu_star := sqrt (1 - blr_R_line t ^ 2 / x2 m * (1 - m ^ 2)) in
        Gamma b ^ 2 * (1 - beta * mu_star) ^ 2 in
      Ok (prefactor * trapz (map (fun m => 1 / x2 m * factor m) mu) mu)
  | None => Ok (prefactor * trapz (map (fun m => 1 / x2 m) mu) mu)
  end.

(** RingDustTorus, L546-638 *)
Record dust_torus := { dt_L_disk : R; dt_xi : R; dt_T : R; dt_epsilon : R; dt_R : R }.
(** RingDustTorus.__init__, targets.py L564-582 *)
Definition dt_init (L_disk xi T : R) (R_dt : option R) : dust_torus :=
  let Theta := c_kB P * T / mec2_erg P in
  {| dt_L_disk := L_disk; dt_xi := xi; dt_T := T; dt_epsilon := 2.7 * Theta;
     dt_R := match R_dt with
             | Some r => r
             | None => 3.5 * 1e18 * sqrt (L_disk / 1e45) * npow (T / 1e3) (- (2.6))
             end |}.
(** evaluate_bb_sed, L594-601 *)
Definition evaluate_bb_sed (nu z T R_dt d_L : R) : R :=
  let nu_prime := nu * (1 + z) in
  let prefactor := PI * (R_dt / d_L) ^ 2 in
  prefactor * nu * black_body nu_prime T.
(** evaluate_bb_norm_sed, L603-611 *)
Definition evaluate_bb_norm_sed (nu z L_dt T R_dt d_L : R) : R :=
  let L_tot := 4 * PI * R_dt ^ 2 * c_sigmaSB P * T ^ 4 in
  L_dt / L_tot * evaluate_bb_sed nu z T R_dt d_L.
(** sed_flux, L613-618 *)
Definition dt_sed_flux (t : dust_torus) (nu : list R) (z dl : R) : list R :=
  map (fun n => evaluate_bb_norm_sed n z (dt_xi t * dt_L_disk t) (dt_T t) (dt_R t) dl) nu.
(** u, L620-638 *)
Definition dt_u (t : dust_torus) (r : R) (b : option blob) : res R :=
  let x2 := dt_R t ^ 2 + r ^ 2 in
  let x := sqrt x2 in
  let! integral := div_res (dt_xi t * dt_L_disk t) (4 * PI * c_c P * x2) in
  match b with
  | Some b => let! beta := Beta b in Ok (integral * (Gamma b * (1 - beta * (r / x))) ^ 2)
  | None => Ok integral
  end.

(** the target object of ExternalCompton and Absorption *)
(** the classes distinguished in external_compton.py L623-634 and targets_absorption.py L696-730
    *)
Inductive target :=
| TCMB (t : cmb) | TPointSource (t : point_source) | TDisk (t : ssdisk) | TBLR (t : blr) | TDustTorus (t : dust_torus)
| TBlob (b : blob) | TOther.
End Targets.
