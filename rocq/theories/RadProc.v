(** Model of /repo/agnpy/radiative_process/core.py, the base class of the
    radiative processes, over an arbitrary sed_flux method. *)
From Verif Require Import Base TEUtils NumpyInst MathUtils Conversion Spectra.

(** 1 eV in erg (astropy.units) *)
Definition eV_erg : R := 1.602176634e-12.

(** an argument that astropy's spectral() equivalency turns into a frequency:
    a frequency in Hz, a photon energy in erg, a wavelength in cm *)
Inductive spectral_qty := InHz (nu : R) | InErg (e : R) | InCm (l : R).

Section RadProc.
Variable P : phys.
(** self.sed_flux(nu): values in erg cm-2 s-1, or an exception *)
Variable sed_flux : list R -> res (list R).

(** .to(u.Hz, equivalencies=u.spectral()) (non-zero wavelengths) *)
(** radiative_process/core.py L6-12 *)
Definition to_Hz (q : spectral_qty) : R :=
  match q with InHz nu => nu | InErg e => e / c_h P | InCm l => c_c P / l end.
(** nu.to("eV", equivalencies=u.spectral()) *)
(** radiative_process/core.py L23, L57 *)
Definition to_eV (nu : R) : R := c_h P * nu / eV_erg.

(** _nu_logspace, L6-12 (a single point if nu_points = 1) *)
Definition nu_logspace (nu_min nu_max : spectral_qty) (nu_points : nat) : list R :=
  np_logspace (log10 (to_Hz nu_min)) (log10 (to_Hz nu_max)) nu_points.

(** diff_energy_flux, L21-26, in eV-1 cm-2 s-1 (positive frequencies) *)
Definition diff_energy_flux (nu : list R) : res (list R) :=
  let energy := map to_eV nu in
  let! nuF_nu := sed_flux nu in
  Ok (map2 (fun f e => f / eV_erg / e ^ 2) nuF_nu energy).

(** energy_flux_integral, L28-42, in erg cm-2 s-1; nu_points defaults to 50 *)
Definition energy_flux_integral (nu_min nu_max : spectral_qty) (nu_points : nat) : res R :=
  let nu := nu_logspace nu_min nu_max nu_points in
  let! sed := sed_flux nu in
  Ok (trapz (map2 Rdiv sed nu) nu).

(** flux_integral, L44-59, in cm-2 s-1 *)
Definition flux_integral (nu_min nu_max : spectral_qty) (nu_points : nat) : res R :=
  let nu := nu_logspace nu_min nu_max nu_points in
  let energy := map to_eV nu in
  let! dphidE := diff_energy_flux nu in
  Ok (trapz dphidE energy).
End RadProc.
