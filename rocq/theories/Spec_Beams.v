(** Vocabulary of the statements that compare the external Compton SEDs, the
    opacities and the energy densities of the targets: a photon field is a
    superposition of parallel beams.  No code of /repo is modelled here; the
    records of the targets (their attributes), the uniform grid [linspace] and
    the pair production cross section [sigma] are taken from the model. *)
From Verif Require Import Base TEUtils NumpyInst MathUtils Conversion Spectra Blob Synchrotron Geometry Targets Absorption Spec_Geom.
From Coq Require Import List.
Import ListNotations.
Open Scope list_scope.
Open Scope R_scope.

(** sum of the trapezia under the points (x, y) *)
Fixpoint trapezia (l : list (R * R)) : R :=
  match l with
  | (x0, y0) :: l' => match l' with (x1, y1) :: _ => (x1 - x0) * (y0 + y1) / 2 + trapezia l' | [] => 0 end
  | [] => 0
  end.
(** the function f integrated over the grid xs *)
Definition over (xs : list R) (f : R -> R) : R := trapezia (map (fun x => (x, f x)) xs).

(** a beam of photons: energy density (erg / cm3), energy of one photon in
    units of m_e c^2, unit vector along which it travels *)
Record beam := { b_u : R; b_eps : R; b_dir : point }.
Definition times (k : R) (v : point) : point := {| px := k * px v; py := k * py v; pz := k * pz v |}.
(** the direction towards the observer, in the plane y = 0 *)
Definition observer (mu_s : R) : point := spherical 1 mu_s 0.
(** what an isotropic emitter of luminosity [lum] at point q sends through point p *)
Definition shine (P : phys) (lum eps : R) (q p : point) : beam :=
  {| b_u := lum / (4 * PI * c_c P * dist p q ^ 2); b_eps := eps; b_dir := times (/ dist p q) (minus p q) |}.

(** flux of one face of the Shakura-Sunyaev disk at radius R_ *)
Definition disk_flux (P : phys) (M m_dot R_in R_ : R) : R := 3 * c_G P * M * m_dot / (8 * PI * R_ ^ 3) * (1 - sqrt (R_in / R_)).
(** energy of the photons of the disk at radius R_ *)
Definition disk_photon (P : phys) (M L eta R_ : R) : R :=
  let M_8 := M / (1e8 * M_sun) in
  let edd := L / (1.26e46 * M_8) in
  2.7e-4 * Rpower (edd / (M_8 * eta)) (1 / 4) * Rpower (R_ * c_c P ^ 2 / (c_G P * M)) (- (3 / 4)).

(** The photon field of a target at the point p of the jet axis, or of the line
    of sight: the sum over its beams of F.  [azimuth] is the azimuth of the
    emitting element for the angle phi of the grid. *)
Definition ring_field (P : phys) (lum eps R_ : R) (azimuth : R -> R) (nphi : nat) (p : point) (F : beam -> R) : R :=
  over (linspace 0 (2 * PI) nphi) (fun phi => F (shine P (lum / (2 * PI)) eps (spherical R_ 0 (azimuth phi)) p)).
Definition shell_field (P : phys) (lum eps R_ : R) (azimuth : R -> R) (nmu nphi : nat) (p : point) (F : beam -> R) : R :=
  over (linspace 0 (2 * PI) nphi) (fun phi => over (linspace (-1) 1 nmu) (fun mu => F (shine P (lum / (4 * PI)) eps (spherical R_ mu (azimuth phi)) p))).
Definition isotropic_field (u eps : R) (nmu nphi : nat) (F : beam -> R) : R :=
  over (linspace 0 (2 * PI) nphi) (fun phi => over (linspace (-1) 1 nmu) (fun mu => F {| b_u := u / (4 * PI); b_eps := eps; b_dir := spherical 1 mu phi |})).
(** an element dA of the disk radiates the flux of both faces, 2 disk_flux dA,
    isotropically; seen from height r it lies at cosine mu, radius R = r
    tan(arccos mu), distance r / mu, and dA = R dR dphi = r^2 / mu^3 dmu dphi *)
Definition disk_field (P : phys) (M L m_dot eta R_in R_out r : R) (nmu nphi : nat) (F : beam -> R) : R :=
  over (linspace 0 (2 * PI) nphi) (fun phi =>
    over (linspace (r / sqrt (r ^ 2 + R_out ^ 2)) (r / sqrt (r ^ 2 + R_in ^ 2)) nmu) (fun mu =>
      let R_ := r * tan (acos mu) in
      F {| b_u := 2 * disk_flux P M m_dot R_in R_ * (r ^ 2 / mu ^ 3) / (4 * PI * c_c P * (r / mu) ^ 2);
           b_eps := disk_photon P M L eta R_; b_dir := spherical 1 mu phi |})).
(** the field of a target on the jet axis at height r; the azimuth of the
    photons is phi, that of the element they come from is opposite *)
Definition axis_field (P : phys) (t : target) (r : R) (nmu nphi : nat) (F : beam -> R) : R :=
  let p := on_sight_line r 0 1 in
  match t with
  | TCMB t => isotropic_field (cmb_u_0 t) (cmb_epsilon_0 t) nmu nphi F
  | TPointSource t => F (shine P (ps_L_0 t) (ps_epsilon_0 t) (spherical 0 0 0) p)
  | TDisk t => disk_field P (sd_M_BH t) (sd_L_disk t) (sd_L_disk t / (sd_eta t * c_c P ^ 2)) (sd_eta t) (sd_R_in t) (sd_R_out t) r nmu nphi F
  | TBLR t => shell_field P (blr_xi t * blr_L_disk t) (blr_epsilon t) (blr_R_line t) (fun phi => phi + PI) nmu nphi p F
  | TDustTorus t => ring_field P (dt_xi t * dt_L_disk t) (dt_epsilon t) (dt_R t) (fun phi => phi + PI) nphi p F
  | TBlob _ | TOther => 0
  end.

(** Compton scattering of a photon of energy eps by an electron of Lorentz
    factor g at angle arccos c, in the head-on approximation: cross section per
    unit scattered energy es (Dermer & Menon 2009) *)
Definition compton_cross_section (P : phys) (g es eps c : R) : R :=
  let ebar := g * eps * (1 - c) in
  let y := 1 - es / g in
  if Rle_dec es (2 * g * ebar / (1 + 2 * ebar))
  then 3 / 8 * c_sigmaT P / (g * ebar) * (y + 1 / y - 2 * es / (g * ebar * y) + (es / (g * ebar * y)) ^ 2)
  else 0.
(** SED of the photons scattered out of one beam into the direction of the
    observer: [electrons] lists Lorentz factors in the frame of the galaxy and
    the number of electrons per unit Lorentz factor *)
Definition scattered_sed (P : phys) (dl dd mu_s es : R) (electrons : list (R * R)) (b : beam) : R :=
  let c := dot (b_dir b) (observer mu_s) in
  es ^ 2 * dd ^ 3 / (4 * PI * dl ^ 2) *
  trapezia (map (fun gN => (fst gN, snd gN * (c_c P * (b_u b / b_eps b) * (1 - c)) * compton_cross_section P (fst gN) es (b_eps b) c)) electrons).

(** Pair production on one beam: opacity per unit length for a gamma ray of
    energy e1 travelling towards the observer (docs/absorption.rst) *)
Definition absorbed (P : phys) (mu_s e1 : R) (b : beam) : R :=
  let c := dot (b_dir b) (observer mu_s) in
  (1 - c) * (b_u b / (b_eps b * (c_me P * c_c P ^ 2))) * sigma P (e1 * b_eps b * (1 - c) / 2).
(** the rings of the disk seen from height l, in the radius instead of the cosine: dA = R dR dphi *)
Definition disk_rings (P : phys) (M L m_dot eta R_in R_out : R) (nR nphi : nat) (l : R) (F : beam -> R) : R :=
  over (linspace 0 (2 * PI) nphi) (fun phi => over (linspace R_in R_out nR) (fun R_ =>
    F {| b_u := 2 * disk_flux P M m_dot R_in R_ * R_ / (4 * PI * c_c P * (l ^ 2 + R_ ^ 2));
         b_eps := disk_photon P M L eta R_; b_dir := spherical 1 (l / sqrt (l ^ 2 + R_ ^ 2)) phi |})).
(** energy per unit photon energy and unit volume of a sphere of radius rb that
    emits the luminosity [lum] per unit photon energy, with the mean residence
    time 3 rb / (4 c) of a photon *)
Definition sphere_density (P : phys) (rb lum : R) : R := lum * (3 / 4 * (rb / c_c P)) / (4 / 3 * PI * rb ^ 3).
