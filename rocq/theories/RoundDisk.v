(** Floating point arithmetic of the disk seen from a height above it:
    /repo/agnpy/targets/targets.py L290-305 and L429-466 (SSDisk.u).

    Targets.v computes with exact real numbers; here every operation is
    followed by a rounding [rnd].  np.power with exponents 2, -2 and -3/2 are
    the arguments [fsq], [fm2] and [f32].  [None] stands for nan or infinity.
    With [rnd x = x] and exact powers these are the functions of Targets.v
    (theorem C116_model). *)
From Verif Require Import Base RoundGeometry.

Section Rounded.
Variable rnd fsq fm2 f32 : R -> R.
(** mu_min and mu_max of evaluate_mu_from_r_tilde, targets.py L294-295 *)
Definition disk_cosine (R_tilde r_tilde : R) : R := rnd (1 / rnd (sqrt (rnd (1 + fsq (rnd (R_tilde / r_tilde)))))).
(** np.power(mu, -2) - 1, L304 and L453 *)
Definition disk_tangent2 (mu : R) : R := rnd (fm2 mu - 1).
(** R_tilde in evaluate_phi_disk_mu, L304 *)
Definition disk_radius (mu r_tilde : R) : option R :=
  match root rnd (disk_tangent2 mu) with None => None | Some t => Some (rnd (r_tilde * t)) end.
(** evaluate_phi_disk_mu, L299-305 *)
Definition disk_phi (mu R_in_tilde r_tilde : R) : option R :=
  match disk_radius mu r_tilde with
  | None => None
  | Some x => if Reqb x 0 then None else
      match root rnd (rnd (R_in_tilde / x)) with None => None | Some q => Some (rnd (1 - q)) end
  end.
(** the integrand of u, L450-455 and, with a blob, L456-463; [boost]: the factor
    integrand_prefactor (not spelled out) *)
Definition disk_integrand (boost : option (R -> R)) (R_in_tilde r_tilde mu : R) : option R :=
  match disk_phi mu R_in_tilde r_tilde with
  | None => None
  | Some p =>
      let v := rnd (rnd (rnd (1 / mu) * f32 (disk_tangent2 mu)) * p) in
      match boost with None => Some v | Some f => Some (rnd (v * f mu)) end
  end.
(** u, L429-466, at one height; [pre]: the prefactor (L443-449), [mu]: the grid of L442 *)
Definition disk_density (pre : R) (boost : option (R -> R)) (R_in_tilde r_tilde : R) (mu : list R) : option R :=
  match nan_trapz rnd (map (disk_integrand boost R_in_tilde r_tilde) mu) mu with
  | None => None
  | Some s => Some (rnd (pre * s))
  end.
End Rounded.
