(** Floating point arithmetic of the temperature of the disk:
    /repo/agnpy/targets/targets.py L326-330 and the radii of L387 (np.linspace).

    Targets.v computes with exact real numbers; here every operation is followed
    by a rounding [rnd]; np.power(R, 3) and np.power(., 1 / 4) are the arguments
    [fcube] and [froot].  The quantities are in one system of units: the factor
    with which astropy converts the result to K is left out.  With [rnd x = x]
    and the exact functions these are linspace and evaluate_T (C122_model). *)
From Verif Require Import Base TEUtils NumpyInst MathUtils RoundGrid.

Section Rounded.
Variable rnd fcube froot : R -> R.
(** R = np.linspace(R_in, R_out, 100), targets.py L387; numpy's linspace is
    grid_exponent of RoundGrid.v *)
Definition disk_radii (R_in R_out : R) (n : nat) : list R := map (grid_exponent rnd R_in R_out n) (seq 0 n).
(** phi, targets.py L328 *)
Definition edge_factor (r R_in : R) : R := rnd (1 - rnd (sqrt (rnd (R_in / r)))).
(** the denominator of val, targets.py L329 *)
Definition temp_denominator (r sigma_sb : R) : R := rnd (rnd (rnd (8 * rnd PI) * fcube r) * sigma_sb).
(** evaluate_T, targets.py L326-330; None is nan (root of a negative number) or inf *)
Definition disk_temp (grav sigma_sb r M m_dot R_in : R) : option R :=
  let phi := edge_factor r R_in in
  let den := temp_denominator r sigma_sb in
  let val := rnd (rnd (rnd (rnd (rnd (3 * grav) * M) * m_dot) * phi) / den) in
  if Reqb den 0 || Rltb val 0 then None else Some (froot val).
End Rounded.
