(** Model of /repo/agnpy/utils/geometry.py.  np.sqrt of a negative number and
    division by a zero distance are nan in Python; the theorems assume cosines
    in [-1, 1] and non-zero distances. *)
From Verif Require Import Base.

(** cos_psi, L5-12 *)
Definition cos_psi (mu_s mu phi : R) : R :=
  let term_1 := mu * mu_s in
  let term_2 := sqrt (1 - mu ^ 2) * sqrt (1 - mu_s ^ 2) in
  let term_3 := cos phi in
  term_1 + term_2 * term_3.

(** x_re_shell, L15-28 *)
Definition x_re_shell (mu R_re r : R) : R := sqrt (R_re ^ 2 + r ^ 2 - 2 * r * R_re * mu).

(** mu_star_shell, L31-50 *)
Definition mu_star_shell (mu R_re r : R) : R :=
  let addend := (R_re / x_re_shell mu R_re r) ^ 2 * (1 - mu ^ 2) in
  let mu_star := sqrt (1 - addend) in
  let mu_sign := ((if Rltb (mu * R_re) r then 1 else 0) - 1 / 2) * 2 in
  mu_star * mu_sign.

(** x_re_ring, L53-55 *)
Definition x_re_ring (R_re r : R) : R := sqrt (R_re ^ 2 + r ^ 2).

(** x_re_ring_mu_s, L58-84 *)
Definition x_re_ring_mu_s (R_re r phi_re u mu_s : R) : R :=
  let sin_theta_s := sqrt (1 - mu_s * mu_s) in
  let x2 := u * u + R_re * R_re + r * r - 2 * u * R_re * sin_theta_s * cos phi_re + 2 * r * u * mu_s in
  sqrt x2.

(** np.arctan2(y, x) for finite arguments (the sign of a zero is not modelled) *)
Definition atan2 (y x : R) : R :=
  if Rltb 0 x then atan (y / x)
  else if Rltb x 0 then (if Rleb 0 y then atan (y / x) + PI else atan (y / x) - PI)
  else if Rltb 0 y then PI / 2 else if Rltb y 0 then - (PI / 2) else 0.

(** phi_mu_re_ring, L87-114 *)
Definition phi_mu_re_ring (R_re r phi_re u mu_s : R) : R * R :=
  let sin_theta_s := sqrt (1 - mu_s * mu_s) in
  let dx := u * sin_theta_s - R_re * cos phi_re in
  let dy := 0 - R_re * sin phi_re in
  let dz := r + u * mu_s in
  let phi := atan2 dy dx in
  let x := x_re_ring_mu_s R_re r phi_re u mu_s in
  let mu := dz / x in
  (phi, mu).

(** x_re_shell_mu_s, L117-149 *)
Definition x_re_shell_mu_s (R_re r phi_re mu_re u mu_s : R) : R :=
  let sin_re := sqrt (1 - mu_re * mu_re) in
  let sin_s := sqrt (1 - mu_s * mu_s) in
  let x2 := R_re * R_re + u * u + r * r - 2 * R_re * u * sin_re * cos phi_re * sin_s
            - 2 * R_re * mu_re * (r + u * mu_s) + 2 * r * u * mu_s in
  sqrt x2.

(** phi_mu_re_shell, L152-183 *)
Definition phi_mu_re_shell (R_re r phi_re mu_re u mu_s : R) : R * R :=
  let sin_theta_s := sqrt (1 - mu_s * mu_s) in
  let sin_re := sqrt (1 - mu_re * mu_re) in
  let dx := u * sin_theta_s - R_re * sin_re * cos phi_re in
  let dy := - R_re * sin_re * sin phi_re in
  let dz := r + u * mu_s - R_re * mu_re in
  let phi := atan2 dy dx in
  let x := x_re_shell_mu_s R_re r phi_re mu_re u mu_s in
  let mu := dz / x in
  (phi, mu).
