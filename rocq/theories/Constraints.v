(** Model of /repo/agnpy/constraints/spectral_constraints.py; the constraints
    are those of one blob. *)
From Verif Require Import Base TEUtils NumpyInst MathUtils Conversion Spectra Blob Geometry Targets.

Section Constraints.
Variable P : phys.

(** np.sqrt(x / y): inf or nan for y = 0, nan for a negative ratio *)
Definition sqrt_ratio (x y : R) : res R := let! q := div_res x y in sqrt_res q.

(** gamma_max_larmor, L22-39 *)
Definition gamma_max_larmor (b : blob) : R := R_b b * c_e P * B_cgs b / mec2_erg P.
(** gamma_max_ballistic, L41-55 *)
Definition gamma_max_ballistic (b : blob) : R := xi b * gamma_max_larmor b.
(** gamma_max_synch, L57-70 *)
Definition gamma_max_synch (b : blob) : res R := sqrt_ratio (6 * PI * xi b * c_e P) (c_sigmaT P * B_cgs b).
(** gamma_max_SSC, L72-90 *)
Definition gamma_max_SSC (b : blob) : res R := sqrt_ratio (3 * xi b * c_e P * B_cgs b) (4 * c_sigmaT P * u_ph_synch P b).
(** gamma_max_EC_DT, L92-102; r defaults to 0 cm *)
Definition gamma_max_EC_DT (b : blob) (dt : dust_torus) (r : option R) : res R :=
  let! u := dt_u P dt (match r with Some r => r | None => 0 end) (Some b) in
  sqrt_ratio (3 * xi b * c_e P * B_cgs b) (4 * c_sigmaT P * u).
(** gamma_break_synch, L104-126 *)
Definition gamma_break_synch (b : blob) : res R := div_res (6 * PI * mec2_erg P) (c_sigmaT P * B_cgs b ^ 2 * R_b b).
(** gamma_break_SSC, L128-144 *)
Definition gamma_break_SSC (b : blob) : res R := div_res (3 * mec2_erg P) (4 * c_sigmaT P * u_ph_synch P b * R_b b).
(** gamma_break_EC_DT, L146-157 *)
Definition gamma_break_EC_DT (b : blob) (dt : dust_torus) (r : option R) : res R :=
  let! u := dt_u P dt (match r with Some r => r | None => 0 end) (Some b) in
  div_res (3 * mec2_erg P) (4 * c_sigmaT P * u * R_b b).
End Constraints.
