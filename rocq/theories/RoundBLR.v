(** Floating point arithmetic of the energy density of a broad line:
    /repo/agnpy/targets/targets.py L516-543 (SphericalShellBLR.u).

    Targets.v computes with exact real numbers; here every operation is
    followed by a rounding [rnd].  np.power(., 2) is the argument [fsq]: numpy
    does not promise that it is correctly rounded.  [None] stands for nan or
    infinity.  With [rnd x = x] and the exact square this is the function of
    Targets.v (theorem C115_model). *)
From Verif Require Import Base RoundGeometry.

Section Rounded.
Variable rnd fsq : R -> R.
(** _x2, targets.py L531 *)
Definition line_square (mu R_line r : R) : R :=
  rnd (rnd (fsq r + fsq R_line) - rnd (rnd (rnd (2 * r) * R_line) * mu)).
(** integrand, L533 *)
Definition line_rest (mu R_line r : R) : R := rnd (1 / line_square mu R_line r).
(** the argument of np.sqrt, L536 *)
Definition line_radicand (mu R_line r : R) : R :=
  rnd (1 - rnd (rnd (fsq R_line / line_square mu R_line r) * rnd (1 - fsq mu))).
(** integrand_prefactor, L535-540; [blob]: Beta and Gamma *)
Definition line_boost (blob : R * R) (mu R_line r : R) : option R :=
  match root rnd (line_radicand mu R_line r) with
  | None => None
  | Some c => Some (rnd (fsq (snd blob) * fsq (rnd (1 - rnd (fst blob * c)))))
  end.
(** the integrand, L533-541; division by zero at the element of the shell itself *)
Definition line_integrand (blob : option (R * R)) (R_line r mu : R) : option R :=
  if Reqb (line_square mu R_line r) 0 then None else
  match blob with
  | None => Some (line_rest mu R_line r)
  | Some b => match line_boost b mu R_line r with None => None | Some f => Some (rnd (line_rest mu R_line r * f)) end
  end.
(** u, L516-543, at one height; [pre]: the double prefactor (L532), [mu]: the grid of L528 *)
Definition line_density (pre : R) (blob : option (R * R)) (R_line r : R) (mu : list R) : option R :=
  match nan_trapz rnd (map (line_integrand blob R_line r) mu) mu with
  | None => None
  | Some s => Some (rnd (pre * s))
  end.
End Rounded.
