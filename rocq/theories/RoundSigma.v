(** Floating point arithmetic of the pair production cross section:
    /repo/agnpy/absorption/targets_absorption.py L34-42.

    Absorption.v computes with exact real numbers; here every operation is
    followed by a rounding [rnd].  np.power(., 2), np.power(., 4) and the
    clipped logarithm of math.py L49-52 are the arguments [fsq], [fqu] and
    [flog]: numpy does not promise that they are correctly rounded.  np.sqrt is.
    With [rnd x = x] and the exact functions this is sigma of Absorption.v
    (theorem C111_model). *)
From Verif Require Import Base MathUtils.

Section Rounded.
Variable rnd fsq fqu flog : R -> R.
(** beta_cm, targets_absorption.py L36 *)
Definition cm_speed (s : R) : R := rnd (sqrt (rnd (1 - rnd (1 / s)))).
(** log((1 + beta_cm) / (1 - beta_cm)), L38: for beta_cm = 1 the quotient is inf
    and is clipped to the largest double *)
Definition log_ratio (b : R) : R :=
  if Reqb (rnd (1 - b)) 0 then flog fmax else flog (rnd (rnd (1 + b) / rnd (1 - b))).
(** sigma, L37-40 ([sT]: the double sigma_T) *)
Definition cross_at (sT b : R) : R :=
  let prefactor := rnd (rnd (3 / 16 * sT) * rnd (1 - fsq b)) in
  let term1 := rnd (rnd (3 - fqu b) * log_ratio b) in
  let term2 := rnd (rnd (- (2) * b) * rnd (2 - fsq b)) in
  rnd (prefactor * rnd (term1 + term2)).
(** sigma, L34-42: the entries with s < 1 are set to 0 afterwards *)
Definition cross (sT s : R) : R := if Rltb s 1 then 0 else cross_at sT (cm_speed s).
End Rounded.
