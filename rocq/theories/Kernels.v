(** Model of /repo/agnpy/compton/kernels.py *)
From Verif Require Import Base MathUtils Geometry.

(** F_c, kernels.py L9-14 (log is the clipped logarithm of utils/math.py) *)
Definition F_c (q gamma_e : R) : R :=
  let term_1 := 2 * q * clog q in
  let term_2 := (1 + 2 * q) * (1 - q) in
  let term_3 := 1 / 2 * (gamma_e * q) ^ 2 / (1 + gamma_e * q) * (1 - q) in
  term_1 + term_2 + term_3.

(** isotropic_kernel, L17-33.  For epsilon_s = gamma (or epsilon = 0) the code
    divides by zero, q is inf (or nan) and the mask is false. *)
Definition isotropic_kernel (gamma epsilon epsilon_s : R) : R :=
  let gamma_e := 4 * gamma * epsilon in
  let d := gamma_e * (1 - epsilon_s / gamma) in
  if Reqb d 0 then 0 else
  let q := (epsilon_s / gamma) / d in
  let q_min := 1 / (4 * gamma ^ 2) in
  if Rleb q_min q && Rleb q 1 then F_c q gamma_e else 0.

(** get_gamma_min, L36-40; None is +inf (1 - cos_psi = 0: division by zero) *)
Definition get_gamma_min (epsilon_s epsilon mu_s mu phi : R) : option R :=
  let d := epsilon * epsilon_s * (1 - cos_psi mu_s mu phi) in
  if Reqb d 0 then None
  else
    let sqrt_term := sqrt (1 + 2 / d) in
    Some (epsilon_s / 2 * (1 + sqrt_term)).

(** compton_kernel, L43-68 (np.where also evaluates the side that is not taken) *)
Definition compton_kernel (gamma epsilon_s epsilon mu_s mu phi : R) : R :=
  let epsilon_bar := gamma * epsilon * (1 - cos_psi mu_s mu phi) in
  let y := 1 - epsilon_s / gamma in
  let y_1 := - (2 * epsilon_s) / (gamma * epsilon_bar * y) in
  let y_2 := epsilon_s ^ 2 / (gamma * epsilon_bar * y) ^ 2 in
  match get_gamma_min epsilon_s epsilon mu_s mu phi with
  | None => 0
  | Some gmin => if Rleb gmin gamma then y + 1 / y + y_1 + y_2 else 0
  end.
