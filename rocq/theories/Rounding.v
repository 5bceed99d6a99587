(** Floating point arithmetic in np.trapz and in the move of a bin:
    /repo/agnpy/time_evolution/_time_evolution_utils.py L20-24, L116-117, L130-155
    and time_evolution.py L35-39.

    The other model files compute with exact real numbers.  Here every single
    addition, subtraction, multiplication and division of these functions is
    followed by a rounding [rnd]; [binary64] of Clock.v is the rounding of a
    double (overflow left out).  With [rnd x = x] these are the functions of
    MathUtils.v and TEUtils.v (theorems C105_model and C106_model). *)
From Coq Require Import Permutation.
From Verif Require Import Base TEUtils.

Section Rounded.
Variable rnd : R -> R.

(** numpy trapz, called e.g. in external_compton.py L131-132 and as the default
    integrator of synchrotron.py L111: (d * (y[1:] + y[:-1]) / 2.0) with d = np.diff(x) *)
Fixpoint trapz_terms (y x : list R) : list R :=
  match y, x with
  | y0 :: y', x0 :: x' =>
      match y', x' with
      | y1 :: _, x1 :: _ => rnd (rnd (rnd (x1 - x0) * rnd (y1 + y0)) / 2) :: trapz_terms y' x'
      | _, _ => []
      end
  | _, _ => []
  end.
(** .sum(axis) of the terms: numpy adds two partial sums at a time; which terms
    are put together depends on the size, the axis and the processor, so any
    order and any bracketing is allowed *)
Inductive summed : list R -> R -> Prop :=
  | sum_none : summed [] 0
  | sum_one x : summed [x] x
  | sum_more l l1 l2 a b : Permutation l (l1 ++ l2) -> summed l1 a -> summed l2 b -> summed l (rnd (a + b)).

(** update_bin_ub, _time_evolution_utils.py L20-24, for one bin *)
Definition upper_edge (g : R) : R := rnd (g * rnd (1 + rnd bin_size_factor)).
(** to_erg, L116-117, one edge ([m]: the double mec2) *)
Definition energy (m g : R) : R := rnd (g * m).
(** recalc_gamma_bins_and_density, L130-155, for one bin with edges [l], [u],
    energy changes [al], [au] and density [d] *)
Definition moved_bin (m l u al au d : R) : (R * R) * R :=
  let el := energy m l in
  let eu := energy m u in
  let w := rnd (eu - el) in
  let el' := rnd (el + al) in
  let eu' := rnd (eu + au) in
  let w' := rnd (eu' - el') in
  let increase := rnd (w / w') in
  ((rnd (el' / m), rnd (eu' / m)), rnd (d * increase)).
(** fermi_acceleration, time_evolution.py L35-39 ([acc] in s), times the step, L331 *)
Definition fermi_change (m acc dt g : R) : R := rnd (rnd (energy m g / acc) * dt).
(** a pass of evaluate with fermi_acceleration alone, for one bin: time_evolution.py L233,
    L252-253, L263-265 *)
Definition fermi_pass (m acc dt : R) (s : R * R) : R * R :=
  let (g, d) := s in
  let u := upper_edge g in
  let r := moved_bin m g u (fermi_change m acc dt g) (fermi_change m acc dt u) d in
  (fst (fst r), snd r).
(** the passes of evaluate, time_evolution.py L232-270 *)
Fixpoint fermi_run (m acc dt : R) (n : nat) (s : R * R) : R * R :=
  match n with O => s | S n' => fermi_run m acc dt n' (fermi_pass m acc dt s) end.
End Rounded.
