(** Vocabulary of the statements that give the synchrotron and the synchrotron
    self Compton SEDs from the emission of single particles.  No code of /repo
    is modelled here; the attributes of the blob and the density of its
    particles, [density], are taken from the model. *)
From Verif Require Import Base TEUtils NumpyInst MathUtils Conversion Spectra Blob Spec_Beams.
From Coq Require Import List.
Import ListNotations.
Open Scope list_scope.
Open Scope R_scope.

(** a blob with physically meaningful attributes and particle distribution s *)
Record emitter_ok (b : blob) (s : spectrum) : Prop := {
  em_z : 0 < 1 + redshift b; em_dl : 0 < d_L b; em_dd : 0 < delta_D b; em_B : 0 < B_field b; em_R : 0 < R_b b;
  em_min : 0 < gamma_min s; em_max : gamma_min s <= gamma_max s
}.
(** frequency in the frame of the blob, and photon energy in units of m_e c^2 *)
Definition comoving (b : blob) (nu : R) : R := nu * (1 + redshift b) / delta_D b.
Definition comoving_energy (P : phys) (b : blob) (nu : R) : R := c_h P * comoving b nu / (c_me P * c_c P ^ 2).
(** SED of a blob that radiates nu L_nu = [lum] in its frame *)
Definition received (b : blob) (lum : R) : R := delta_D b ^ 4 * lum / (4 * PI * d_L b ^ 2).
(** number of particles per unit Lorentz factor in the whole blob *)
Definition population (b : blob) (s : spectrum) (g : R) : R := 4 / 3 * PI * R_b b ^ 3 * density s g.
(** the n Lorentz factors from gmin to gmax, evenly spaced in the logarithm *)
Definition log_grid (gmin gmax : R) (n : nat) : list R := np_logspace (log10 gmin) (log10 gmax) n.

(** ** synchrotron radiation *)
(** The function of Aharonian, Kelner, Prosekin (2010), eq. D7, for isotropic
    pitch angles; y is the cube root of x *)
Definition synch_shape (x : R) : R :=
  let y := Rpower x (1 / 3) in
  1.808 * y / sqrt (1 + 3.4 * y ^ 2) * ((1 + 2.21 * y ^ 2 + 0.347 * y ^ 4) / (1 + 1.353 * y ^ 2 + 0.217 * y ^ 4)) * exp (- x).
(** power per unit frequency at frequency nu of a particle of mass m and
    Lorentz factor g in the field B (gaussian units) *)
Definition synch_power (P : phys) (m B g nu : R) : R :=
  let nu_c := 3 * c_e P * B * g ^ 2 / (4 * PI * m * c_c P) in
  sqrt 3 * c_e P ^ 3 * B / (m * c_c P ^ 2) * synch_shape (nu / nu_c).
(** total power of an electron: the classical 4/3 sigma_T c U_B gamma^2 *)
Definition total_power (P : phys) (B g : R) : R := 4 / 3 * c_sigmaT P * c_c P * (B ^ 2 / (8 * PI)) * g ^ 2.
(** Self absorption coefficient at frequency nu: [slopes] lists Lorentz
    factors and the values of gamma^2 d(n / gamma^2)/dgamma there *)
Definition absorption_coefficient (P : phys) (B nu : R) (slopes : list (R * R)) : R :=
  - trapezia (map (fun gs => (fst gs, snd gs * synch_power P (c_me P) B (fst gs) nu)) slopes) / (8 * PI * c_me P * nu ^ 2).

(** ** inverse Compton scattering on an isotropic photon field *)
(** cross section of Jones (1968) per unit scattered energy es, for photons of
    energy eps and an electron of Lorentz factor g *)
Definition jones_cross_section (P : phys) (g eps es : R) : R :=
  let q := es / (4 * g * eps * (g - es)) in
  let G := 4 * g * eps in
  if Rlt_dec es g then if Rle_dec (1 / (4 * g ^ 2)) q then if Rle_dec q 1
  then 3 * c_sigmaT P / (4 * eps * g ^ 2) * (2 * q * ln q + (1 + 2 * q) * (1 - q) + (G * q) ^ 2 / (1 + G * q) * (1 - q) / 2)
  else 0 else 0 else 0.
