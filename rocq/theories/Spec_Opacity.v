(** Vocabulary of C103: the photon field of an emitting ring or sphere at a
    point, as an integral over the emitting surface instead of a sum over the
    grid of the implementation.  No code of /repo is modelled here. *)
From Verif Require Import Base Conversion Geometry Spec_Geom Spec_Beams.
From Coquelicot Require Import Coquelicot.
Open Scope R_scope.

(** a ring of radius R_ in the plane of the disk, luminosity lum / (2 pi) per unit azimuth *)
Definition whole_ring (P : phys) (lum eps R_ : R) (p : point) (F : beam -> R) : R :=
  RInt (fun phi => F (shine P (lum / (2 * PI)) eps (spherical R_ 0 phi) p)) 0 (2 * PI).
(** a sphere of radius R_ around the black hole, luminosity lum / (4 pi) per unit solid angle *)
Definition whole_shell (P : phys) (lum eps R_ : R) (p : point) (F : beam -> R) : R :=
  RInt (fun phi => RInt (fun mu => F (shine P (lum / (4 * PI)) eps (spherical R_ mu phi) p)) (-1) 1) 0 (2 * PI).
(** energy, in units of m_e c^2, of a gamma ray observed at frequency n, where it meets the target photons *)
Definition gamma_ray (P : phys) (z n : R) : R := c_h P * n * (1 + z) / (c_me P * c_c P ^ 2).
