(** Floating point arithmetic of the synchrotron function R(x):
    /repo/agnpy/synchrotron/synchrotron.py L16-24.

    Synchrotron.v computes with exact real numbers; here every operation and
    every literal is followed by a rounding [rnd].  np.exp and np.power are the
    arguments [fexp] and [fpow]: numpy does not promise that they are correctly
    rounded.  With [rnd x = x] and the exact functions this is R_func of
    Synchrotron.v (theorem C121_model). *)
From Verif Require Import Base.

Section Rounded.
Variable rnd fexp : R -> R.
Variable fpow : R -> R -> R.
(** 1 + a * np.power(x, 2 / 3) + b * np.power(x, 4 / 3), synchrotron.py L22-23 *)
Definition rounded_poly (a b x : R) : R :=
  rnd (rnd (1 + rnd (rnd a * fpow x (rnd (2 / 3)))) + rnd (rnd b * fpow x (rnd (4 / 3)))).
(** R, synchrotron.py L16-24 *)
Definition rounded_R (x : R) : R :=
  let term_1_num := rnd (rnd (1808 / 1000) * fpow x (rnd (1 / 3))) in
  let term_1_denom := rnd (sqrt (rnd (1 + rnd (rnd (34 / 10) * fpow x (rnd (2 / 3)))))) in
  let term_2_num := rounded_poly (221 / 100) (347 / 1000) x in
  let term_2_denom := rounded_poly (1353 / 1000) (217 / 1000) x in
  rnd (rnd (rnd (rnd (term_1_num / term_1_denom) * term_2_num) / term_2_denom) * fexp (- x)).
End Rounded.
