(** Vocabulary of the statements about the thermal targets and the emission
    lines: textbook relations between constants.  No code of /repo is modelled
    here. *)
From Verif Require Import Base Conversion.
From Coq Require Import String List.
Import ListNotations.
Open Scope R_scope.

(** x equals y up to the relative error tol *)
Definition within (tol x y : R) : Prop := Rabs (x - y) <= tol * Rabs y.
(** brightness of a black body of temperature T (Planck), without emission at T = 0 *)
Definition planck (P : phys) (nu T : R) : R :=
  if Reqb T 0 then 0 else 2 * c_h P * nu ^ 3 / c_c P ^ 2 / (exp (c_h P * nu / (c_kB P * T)) - 1).
(** energy density of black body radiation *)
Definition black_body_density (P : phys) (T : R) : R := 4 * c_sigmaSB P / c_c P * T ^ 4.
(** mean energy of its photons in units of m_e c^2, with the mean 2.7 k T *)
Definition thermal_energy (P : phys) (T : R) : R := 2.7 * (c_kB P * T) / (c_me P * c_c P ^ 2).
(** Eddington luminosity of the mass M *)
Definition eddington (P : phys) (M : R) : R := 4 * PI * c_G P * M * c_mp P * c_c P / c_sigmaT P.
(** critical magnetic field: its cyclotron quantum is m_e c^2 *)
Definition critical_field (P : phys) : R := c_me P ^ 2 * c_c P ^ 3 / (c_e P * (c_h P / (2 * PI))).
(** wavelength, in Angstrom, of the transition from level m to level n of an
    ion of one electron: charge z, mass of the nucleus A m_p (Bohr) *)
Definition bohr_wavelength (P : phys) (z A n m : R) : R :=
  let reduced := c_me P / (1 + c_me P / (A * c_mp P)) in
  let rydberg := 2 * PI ^ 2 * reduced * c_e P ^ 4 / (c_h P ^ 3 * c_c P) in
  1e8 / (rydberg * z ^ 2 * (1 / n ^ 2 - 1 / m ^ 2)).
(** the lines of hydrogen and ionised helium: name, charge, mass number, levels *)
Definition one_electron_lines : list (string * (R * R * R * R)) :=
  [("Lyalpha", (1, 1, 1, 2)); ("Lybeta", (1, 1, 1, 3)); ("Lydelta", (1, 1, 1, 5)); ("Lyepsilon", (1, 1, 1, 6));
   ("Halpha", (1, 1, 2, 3)); ("Hbeta", (1, 1, 2, 4)); ("Hgamma", (1, 1, 2, 5)); ("Hdelta", (1, 1, 2, 6)); ("HeII", (2, 4, 3, 4))]%string.
(** the other lines: name, upper and lower level (cm^-1) of the transition as in
    the tables of atomic spectra; the centre of a multiplet where the table of
    the code names only the multiplet *)
Definition levels_of_lines : list (string * (R * R)) :=
  [("CIII", (102352.0, 0)); ("NIII", (101027.9, 116.3)); ("OVI", (96730.0, 0)); ("ArI", (93750.6, 0)); ("OI", (76795.0, 158.3));
   ("SiII", (76665.4, 143.6)); ("SiIV", (71594.9, 0)); ("OIV]", (71755.5, 385.9)); ("CIV", (64555.8, 0)); ("NIV", (188882.5, 130693.9));
   ("AlII", (95550.5, 37453.9)); ("CIII]", (52390.8, 0)); ("[NeIV]", (41257.0, 0)); ("MgII", (35730.4, 0)); ("[ClIII]", (18053.0, 0));
   ("HeI", (186101.5, 169086.8))]%string.
