(** Specifications for C95 and C96: exact energy densities of extended targets. *)
From Verif Require Import Base Conversion Spec_Geom.
From Coquelicot Require Import Coquelicot.
Open Scope R_scope.

(** A shell of radius [R_] and luminosity [lum], seen from the point of the jet
    axis at height r: the elements at polar cosine mu, a fraction dmu / 2 of the
    shell, lie at one distance. *)
Definition shell_density (P : phys) (lum R_ r : R) : R :=
  RInt (fun mu => lum * (1 / 2) / (4 * PI * c_c P * dist (on_sight_line r 0 1) (spherical R_ mu 0) ^ 2)) (-1) 1.
(** a source of luminosity [lum] at the origin *)
Definition source_density (P : phys) (lum r : R) : R := lum / (4 * PI * c_c P * r ^ 2).
(** A disk whose two faces radiate [flux R] each at radius R, isotropically, seen
    from height r: rings of area 2 pi R dR at distance sqrt(r^2 + R^2). *)
Definition rings_density (P : phys) (flux : R -> R) (R_in R_out r : R) : R :=
  RInt (fun R_ => 2 * flux R_ * (2 * PI * R_) / (4 * PI * c_c P * (r ^ 2 + R_ ^ 2))) R_in R_out.
