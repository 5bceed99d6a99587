(** Floating point arithmetic of the Lorentz factor grids:
    /repo/agnpy/emission_regions/blob.py L139-168 (np.logspace between gamma_min
    and gamma_max; the same call in spectra.py L73 and L89-92) and the correction
    of its ends, /repo/agnpy/spectra/spectra.py L209-225.

    Blob.v and Spectra.v compute with exact real numbers; here every addition,
    subtraction, multiplication and division is followed by a rounding [rnd], and
    np.log10 and 10**y are the arguments [flog] and [fpow]: numpy does not
    promise that they are correctly rounded.  With [rnd x = x] and the exact
    functions these are np_logspace and correct_bounds (theorem C117_model).
    The values at the points are those of Spectra.v: not rounded. *)
From Verif Require Import Base TEUtils NumpyInst MathUtils.

Section Rounded.
Variable rnd flog fpow : R -> R.
(** np.linspace(a, b, n) inside np.logspace, blob.py L143 and L158: arange(n) * step + start,
    and the last element put equal to b *)
Definition grid_exponent (a b : R) (n i : nat) : R :=
  if Nat.eqb (S i) n && Nat.ltb 1 n then b else rnd (rnd (INR i * rnd (rnd (b - a) / INR (n - 1))) + a).
(** np.logspace(np.log10(lo), np.log10(hi), n), blob.py L143-145, L158-162, spectra.py L73, L92 *)
Definition grid_points (lo hi : R) (n : nat) : list R := map (fun i => fpow (grid_exponent (flog lo) (flog hi) n i)) (seq 0 n).
(** spectra.py L220-222 *)
Definition nudge_first (gmin : R) (l : list R) : list R :=
  match l with
  | [] => []
  | a :: l' => if Rltb a gmin && Rltb (rnd (rnd (gmin - a) / a)) (rnd (1 / 10 ^ 10)) then gmin :: l' else l
  end.
(** spectra.py L223-225 *)
Definition nudge_last (gmax : R) (l : list R) : list R :=
  match rev l with
  | [] => []
  | a :: l' => if Rltb gmax a && Rltb (rnd (rnd (a - gmax) / gmax)) (rnd (1 / 10 ^ 10)) then rev (gmax :: l') else l
  end.
(** _correct_array_boundary_values, spectra.py L209-225 *)
Definition nudged (gmin gmax : R) (l : list R) : list R := nudge_last gmax (nudge_first gmin l).
End Rounded.
