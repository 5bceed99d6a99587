(** Floating point arithmetic at the bounds of a time evolution: the test of
    /repo/agnpy/time_evolution/time_evolution.py L431-434 and the upper boundary
    bin of L412, for bins whose energy does not change.

    TimeEvolution.v computes with exact real numbers; here every operation is
    followed by a rounding [rnd].  The move of a bin is [moved_bin] of
    Rounding.v; with [rnd x = x] the test is [in_bounds] of TimeEvolution.v
    (theorem C118_model). *)
From Verif Require Import Base TEUtils Rounding.

Section Rounded.
Variable rnd : R -> R.
(** gamma_bounds[1] / (1 + bin_size_factor), time_evolution.py L412 and L434 *)
Definition top_gamma (hi : R) : R := rnd (hi / rnd (1 + rnd bin_size_factor)).
(** the test of _remove_gamma_beyond_bounds, time_evolution.py L434, for one bin *)
Definition kept_bin (lo hi g : R) : bool := Rleb lo g && Rleb g (top_gamma hi).
(** the lower edge of a bin after a pass in which no function changes its energy:
    _time_evolution_utils.py L116-117, L130-133 *)
Definition rest_pass (m g : R) : R := fst (fst (moved_bin rnd m g (upper_edge rnd g) 0 0 0)).
(** [n] such passes: time_evolution.py L232-270 *)
Fixpoint rest_run (m : R) (n : nat) (g : R) : R := match n with O => g | S n' => rest_run m n' (rest_pass m g) end.
End Rounded.
