(** Floating point arithmetic of trapz_loglog: /repo/agnpy/utils/math.py L55-119.

    MathUtils.v computes with exact real numbers; here every operation is
    followed by a rounding [rnd].  The clipped logarithm (L49-52) and np.power
    are the arguments [flog] and [fpow]: numpy does not promise that they are
    correctly rounded.  With [rnd x = x] and the exact functions this is
    trapz_loglog of MathUtils.v (theorem C112_model).  np.add.reduce (L119) adds
    the terms in an order that depends on the size, the axis and the processor:
    see [summed] of Rounding.v. *)
From Verif Require Import Base MathUtils.

Section Rounded.
Variable rnd flog : R -> R.
Variable fpow : R -> R -> R.
(** the slope, math.py L99 *)
Definition log_slope (y0 y1 x0 x1 : R) : R := rnd (rnd (flog y0 - flog y1) / rnd (flog x0 - flog x1)).
(** one interval, math.py L98-117; the literal 1e-10 is the double next to it *)
Definition log_cell (y0 y1 x0 x1 : R) : R :=
  if Reqb y0 0 || Reqb y1 0 || Reqb x0 x1 then 0
  else
    let m := log_slope y0 y1 x0 x1 in
    if Rltb (rnd (1 / 10 ^ 10)) (Rabs (rnd (m + 1)))
    then rnd (rnd (y0 / rnd (m + 1)) * rnd (rnd (x1 * fpow (rnd (x1 / x0)) m) - x0))
    else rnd (rnd (x0 * y0) * flog (rnd (x1 / x0))).
(** vals, math.py L101-117, along one axis *)
Fixpoint loglog_terms (y x : list R) : list R :=
  match y, x with
  | y0 :: y', x0 :: x' =>
      match y', x' with
      | y1 :: _, x1 :: _ => log_cell y0 y1 x0 x1 :: loglog_terms y' x'
      | _, _ => []
      end
  | _, _ => []
  end.
End Rounded.
