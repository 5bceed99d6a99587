(** Specification of runs with automatic steps that come to an end (C83). *)
From Verif Require Import Base TEUtils TimeEvolution Spec_TE.

(** Lorentz factors at which bins may start: those of the initial grid, and all
    that gamma_bounds allow *)
Definition allowed (c : cfg) (g : R) : Prop :=
  In g (g0 c) \/ match bounds c with None => True | Some (lo, hi) => lo <= g /\ g * (1 + 1 / 10000) <= hi end.
(** Rates given by the user: wherever bins may start, no function changes an
    energy by more than the fraction [rate] per unit time, nor the energies at
    the edges of a bin apart by more than that fraction of its width; no
    function lets more than [rate] escape, or injects more than [amount] per
    unit time. *)
Record gentle (c : cfg) (rate amount : R) : Prop := {
  ge_energy : forall kf d l u v rl ru, In kf (en_fns c) -> called_en (snd kf) d l u v rl ru -> allowed c l -> 0 < l -> u = l * (1 + 1 / 10000) ->
    Rabs rl <= rate * (l * mec2 c) /\ Rabs ru <= rate * (u * mec2 c) /\ Rabs (ru - rl) <= rate * ((u - l) * mec2 c);
  ge_escape : forall kf d g v r, In kf (rel_fns c) -> called (snd kf) d g v r -> - r <= rate;
  ge_inject : forall kf d g v r, In kf (abs_fns c) -> called (snd kf) d g v r -> Rabs r <= amount
}.
(** [k] bounds the number of functions that act on one subgroup *)
Definition at_most (c : cfg) (k : nat) : Prop :=
  match subgroups c with
  | None => (length (en_fns c) <= k /\ length (rel_fns c) <= k /\ length (abs_fns c) <= k)%nat
  | Some gs => forall names, In names gs -> (length names <= k)%nat
  end.
(** a time that the limits of the automatic steps allow under such rates *)
Definition allows (c : cfg) (k : nat) (rate amount tau : R) : Prop :=
  INR k * rate * tau <= maxE c /\ INR k * rate * tau <= maxD c / (1 + maxD c) /\ INR k * rate * tau <= 1 / 2 /\ INR k * amount * tau <= maxI c.
