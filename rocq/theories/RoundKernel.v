(** Floating point arithmetic of the isotropic Compton kernel:
    /repo/agnpy/compton/kernels.py L9-33.

    Kernels.v computes with exact real numbers; here every operation is followed
    by a rounding [rnd].  The clipped logarithm of math.py L49-52 and
    np.power(., 2) are the arguments [flog] and [fsq]: numpy does not promise
    that they are correctly rounded.  With [rnd x = x] and the exact functions
    this is isotropic_kernel of Kernels.v (theorem C113_model). *)
From Verif Require Import Base MathUtils.

Section Rounded.
Variable rnd flog fsq : R -> R.
(** F_c, kernels.py L9-14 *)
Definition kernel_sum (q gamma_e : R) : R :=
  let term_1 := rnd (rnd (2 * q) * flog q) in
  let term_2 := rnd (rnd (1 + rnd (2 * q)) * rnd (1 - q)) in
  let term_3 := rnd (rnd (rnd (1 / 2 * fsq (rnd (gamma_e * q))) / rnd (1 + rnd (gamma_e * q))) * rnd (1 - q)) in
  rnd (rnd (term_1 + term_2) + term_3).
(** isotropic_kernel, L17-33; a zero divisor gives inf or nan, for which the
    mask is false *)
Definition rounded_kernel (gamma epsilon epsilon_s : R) : R :=
  let gamma_e := rnd (rnd (4 * gamma) * epsilon) in
  let x := rnd (epsilon_s / gamma) in
  let d := rnd (gamma_e * rnd (1 - x)) in
  if Reqb d 0 then 0 else
  let q := rnd (x / d) in
  let q_min := rnd (1 / rnd (4 * fsq gamma)) in
  if Rleb q_min q && Rleb q 1 then kernel_sum q gamma_e else 0.
End Rounded.
