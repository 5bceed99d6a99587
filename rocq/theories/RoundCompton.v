(** Floating point arithmetic of the angle dependent Compton kernel:
    /repo/agnpy/compton/kernels.py L36-68.

    Kernels.v computes with exact real numbers; here every operation is followed
    by a rounding [rnd].  np.power(., 2) is the argument [fsq]: numpy does not
    promise that it is correctly rounded.  The double 1 - cos_psi(mu_s, mu, phi)
    (L39, L61) is given as [d].  With [rnd x = x] this is compton_kernel of
    Kernels.v (theorem C119_model). *)
From Verif Require Import Base.

Section Rounded.
Variable rnd fsq : R -> R.
(** get_gamma_min, kernels.py L36-40; None is +inf (division by zero) *)
Definition least_gamma (es e d : R) : option R :=
  let t := rnd (rnd (e * es) * d) in
  if Reqb t 0 then None
  else Some (rnd (rnd (es / 2) * rnd (1 + rnd (sqrt (rnd (1 + rnd (2 / t))))))).
(** epsilon_bar, kernels.py L61 *)
Definition angle_ebar (g e d : R) : R := rnd (rnd (g * e) * d).
(** y, kernels.py L62 *)
Definition angle_y (g es : R) : R := rnd (1 - rnd (es / g)).
(** the sum, kernels.py L63-67; None is not a finite number: a denominator
    vanishes (nan, from inf - inf, when y is 0; inf when only the square is) *)
Definition angle_sum (g es e d : R) : option R :=
  let y := angle_y g es in
  let t := rnd (rnd (g * angle_ebar g e d) * y) in
  if Reqb t 0 || Reqb (fsq t) 0 then None
  else
    let y_1 := rnd (- rnd (2 * es) / t) in
    let y_2 := rnd (fsq es / fsq t) in
    Some (rnd (rnd (rnd (y + rnd (1 / y)) + y_1) + y_2)).
(** compton_kernel, kernels.py L66-68 *)
Definition angle_kernel (g es e d : R) : option R :=
  match least_gamma es e d with
  | None => Some 0
  | Some gmin => if Rleb gmin g then angle_sum g es e d else Some 0
  end.
End Rounded.
