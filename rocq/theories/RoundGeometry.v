(** Floating point arithmetic of the direction of a photon from a shell:
    /repo/agnpy/utils/geometry.py L15-50.

    Geometry.v computes with exact real numbers; here every operation is
    followed by a rounding [rnd].  np.power(., 2) is the argument [fsq]: numpy
    does not promise that it is correctly rounded.  np.sqrt is correctly
    rounded.  [None] stands for nan: the square root of a negative number or
    a zero distance.  With [rnd x = x] and the exact square these are the
    functions of Geometry.v (theorem C114_model). *)
From Verif Require Import Base.

Section Rounded.
Variable rnd fsq : R -> R.
(** np.sqrt *)
Definition root (v : R) : option R := if Rltb v 0 then None else Some (rnd (sqrt v)).
(** the argument of np.sqrt in x_re_shell, geometry.py L28 *)
Definition shell_square (mu R_re r : R) : R :=
  rnd (rnd (fsq R_re + fsq r) - rnd (rnd (rnd (2 * r) * R_re) * mu)).
(** x_re_shell, geometry.py L15-28 *)
Definition shell_distance (mu R_re r : R) : option R := root (shell_square mu R_re r).
(** 1 - addend, geometry.py L45-46, [x]: the distance *)
Definition shell_radicand (mu R_re x : R) : R :=
  rnd (1 - rnd (fsq (rnd (R_re / x)) * rnd (1 - fsq mu))).
(** mu_star_shell, geometry.py L31-50; mu_sign is 1.0 or -1.0 *)
Definition shell_cosine (mu R_re r : R) : option R :=
  match shell_distance mu R_re r with
  | None => None
  | Some x =>
      if Reqb x 0 then None else
      match root (shell_radicand mu R_re x) with
      | None => None
      | Some c => Some (rnd (c * (if Rltb (rnd (mu * R_re)) r then 1 else - (1))))
      end
  end.

(** np.trapz on an array with nan ([None]): a sum or product with nan is nan.
    Called in targets_absorption.py L347-349; the order of the sum is of no
    importance here *)
Fixpoint nan_trapz (y : list (option R)) (x : list R) : option R :=
  match y, x with
  | y0 :: y', x0 :: x' =>
      match y', x' with
      | y1 :: _, x1 :: _ =>
          match y0, y1, nan_trapz y' x' with
          | Some a, Some b, Some t => Some (rnd (rnd (rnd (rnd (x1 - x0) * rnd (b + a)) / 2) + t))
          | _, _, _ => None
          end
      | _, _ => Some 0
      end
  | _, _ => Some 0
  end.
(** the integral of evaluate_tau_blr, targets_absorption.py L340-349.  [rest]: the
    integrand as a function of mu_star, x and phi (L343-345, not spelled out: the
    theorem holds whatever it is); it is nan when one of the first two is, for
    sigma (L34-42) sets only values with s < 1 to 0, which is false of nan *)
Definition nan_tau_blr (rest : R -> R -> R -> option R) (R_line : R) (mu phi l : list R) : option R :=
  let integrand li p m :=
    match shell_cosine m R_line li, shell_distance m R_line li with Some c, Some x => rest c x p | _, _ => None end in
  let integral_mu li p := nan_trapz (map (integrand li p) mu) mu in
  let integral_phi li := nan_trapz (map (integral_mu li) phi) phi in
  nan_trapz (map integral_phi l) l.
End Rounded.
