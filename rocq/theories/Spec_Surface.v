(** Vocabulary of C104: the photon fields of the targets on the jet axis as
    integrals over the emitting surfaces (or over the sky) instead of the sums
    over grids of Spec_Beams.  No code of /repo is modelled here; the records of
    the targets (their attributes) are taken from the model. *)
From Verif Require Import Base Conversion Geometry Targets Spec_Geom Spec_Beams Spec_Opacity.
From Coquelicot Require Import Coquelicot.
Open Scope R_scope.

(** photons of energy density u / (4 pi) per unit solid angle from the whole sky *)
Definition whole_sky (u eps : R) (F : beam -> R) : R :=
  RInt (fun phi => RInt (fun mu => F {| b_u := u / (4 * PI); b_eps := eps; b_dir := spherical 1 mu phi |}) (-1) 1) 0 (2 * PI).
(** the disk seen from height l: the element R dR dphi at radius R radiates the
    flux of both faces isotropically, from distance sqrt(l^2 + R^2) *)
Definition whole_disk (P : phys) (M L m_dot eta R_in R_out l : R) (F : beam -> R) : R :=
  RInt (fun phi => RInt (fun R_ =>
    F {| b_u := 2 * disk_flux P M m_dot R_in R_ * R_ / (4 * PI * c_c P * (l ^ 2 + R_ ^ 2));
         b_eps := disk_photon P M L eta R_; b_dir := spherical 1 (l / sqrt (l ^ 2 + R_ ^ 2)) phi |}) R_in R_out) 0 (2 * PI).
(** the field of a target on the jet axis at height r *)
Definition whole_field (P : phys) (t : target) (r : R) (F : beam -> R) : R :=
  let p := on_sight_line r 0 1 in
  match t with
  | TCMB t => whole_sky (cmb_u_0 t) (cmb_epsilon_0 t) F
  | TPointSource t => F (shine P (ps_L_0 t) (ps_epsilon_0 t) (spherical 0 0 0) p)
  | TDisk t => whole_disk P (sd_M_BH t) (sd_L_disk t) (sd_L_disk t / (sd_eta t * c_c P ^ 2)) (sd_eta t) (sd_R_in t) (sd_R_out t) r F
  | TBLR t => whole_shell P (blr_xi t * blr_L_disk t) (blr_epsilon t) (blr_R_line t) p F
  | TDustTorus t => whole_ring P (dt_xi t * dt_L_disk t) (dt_epsilon t) (dt_R t) p F
  | TBlob _ | TOther => 0
  end.
