(** Floating point arithmetic of the attenuation of a homogeneous emitter:
    /repo/agnpy/absorption/targets_absorption.py L738-747.

    Absorption.v computes with exact real numbers; here every operation is
    followed by a rounding [rnd].  np.exp is the argument [fexp]: numpy does not
    promise that it is correctly rounded.  The opacity is given.  With
    [rnd x = x] and [fexp = exp] this is what absorption_homogeneous of
    Absorption.v does with every opacity (theorem C120_model). *)
From Verif Require Import Base.

Section Rounded.
Variable rnd fexp : R -> R.
(** (1 - np.exp(-t)) / t, targets_absorption.py L747; None is nan, the 0 / 0 of t = 0 *)
Definition averaged (t : R) : option R :=
  if Reqb t 0 then None else Some (rnd (rnd (1 - fexp (- t)) / t)).
End Rounded.
