(** Floating point arithmetic of the Doppler factor and of the viewing angle:
    /repo/agnpy/emission_regions/blob.py L104-112 and L124-137.

    Blob.v computes with exact real numbers; here every operation is followed by
    a rounding [rnd].  With [rnd x = x] these are Beta, mu_s and set_delta_D of
    Blob.v (theorem C107_model).  np.power(x, 2) is taken as the
    correctly rounded square.  The cosine of
    the viewing angle, L136, is the argument [mu] (np.cos(0) is 1). *)
From Verif Require Import Base.

Section Rounded.
Variable rnd : R -> R.
(** Beta, blob.py L104-107 *)
Definition speed (g : R) : R := rnd (sqrt (rnd (1 - rnd (1 / rnd (g * g))))).
(** the denominator Gamma * (1 - Beta * mu_s) of L137 *)
Definition approach (g mu : R) : R := rnd (g * rnd (1 - rnd (speed g * mu))).
(** set_delta_D, blob.py L137 *)
Definition doppler_factor (g mu : R) : R := rnd (1 / approach g mu).
(** mu_s, blob.py L109-112 *)
Definition cosine (g d : R) : R := rnd (rnd (1 - rnd (1 / rnd (g * d))) / speed g).
End Rounded.
