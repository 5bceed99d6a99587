(** Floating point arithmetic of the self absorption factor:
    /repo/agnpy/synchrotron/synchrotron.py L64-68.

    Synchrotron.v computes with exact real numbers; here every operation is
    followed by a rounding [rnd].  np.exp and np.power(., 2) are the arguments
    [fexp] and [fsq]: numpy does not promise that they are correctly rounded.
    With [rnd x = x], [fexp = exp] and the exact square this is
    tau_to_attenuation of Synchrotron.v (theorem C109_model). *)
From Verif Require Import Base.

Section Rounded.
Variable rnd fexp fsq : R -> R.
(** 3 * u / tau, synchrotron.py L67-68, without the choice of np.where *)
Definition slab (tau : R) : R :=
  let u := rnd (rnd (1 / 2 + rnd (fexp (- tau) / tau)) - rnd (rnd (1 - fexp (- tau)) / fsq tau)) in
  rnd (rnd (3 * u) / tau).
(** tau_to_attenuation, synchrotron.py L64-68; the literal 1e-3 is the double next to it *)
Definition attenuated (tau : R) : R := if Rltb tau (rnd (1 / 10 ^ 3)) then 1 else slab tau.
End Rounded.
