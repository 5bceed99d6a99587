(** Model of the clock of TimeEvolution.evaluate in floating point arithmetic,
    /repo/agnpy/time_evolution/time_evolution.py L228, L232, L236-250, L270.

    TimeEvolution.v works with exact real numbers.  Here the two operations on
    the elapsed time, `total - elapsed` (L249-250) and `elapsed += step` (L270),
    are followed by a rounding [rnd].  The step that a pass would like to take
    (the fixed step duration, or the minimum of the per-bin times, L236-248) is
    the number [proposed i] of an arbitrary sequence.  Times are in seconds (a
    step duration in another unit is converted once). *)
From Verif Require Import Base.
From Flocq Require Import Core.

(** IEEE double precision, round to nearest, ties to even (overflow left out) *)
(** the arithmetic of the floats in time_evolution.py L228-270 *)
Definition binary64 (x : R) : R := round radix2 (FLT_exp (-1074) 53) ZnearestE x.
(** the numbers that a double can have *)
(** the values a float can have (IEEE 754; no code of its own) *)
Definition is_double (x : R) : Prop := generic_format radix2 (FLT_exp (-1074) 53) x.

Section Clock.
Variable rnd : R -> R.
Variable total : R.
Variable proposed : nat -> R.

(** L249-250 *)
Definition step_time (i : nat) (t : R) : R :=
  let left := rnd (total - t) in if Rltb left (proposed i) then left else proposed i.
(** L270 *)
Definition tick (i : nat) (t : R) : R := rnd (t + step_time i t).
(** L232: the elapsed times after each pass, and whether the loop has come to its end *)
Fixpoint ticks (fuel i : nat) (t : R) : list R * bool :=
  if Rltb t total then
    match fuel with
    | O => ([], false)
    | S fuel' => let t' := tick i t in let (ts, e) := ticks fuel' (S i) t' in (t' :: ts, e)
    end
  else ([], true).
End Clock.
(** the elapsed times of a run from L228 on *)
Definition clock (rnd : R -> R) (total : R) (proposed : nat -> R) (fuel : nat) : list R * bool := ticks rnd total proposed fuel 0 0.
