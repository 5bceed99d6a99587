(** Vocabulary of C102: the same run told in other units.  One old unit of time
    is [ut] new ones, one old unit of energy [ue] new ones, one old electron per
    volume [ud] new ones.  Nothing here is used by the model. *)
From Verif Require Import Base TEUtils TimeEvolution NumpyInst.

Record units := { ut : R; ue : R; ud : R }.
Definition proper (x : units) : Prop := 0 < ut x /\ 0 < ue x /\ 0 < ud x.

(** an array of numbers, each multiplied by [k] *)
Definition times (k : R) (l : list R) : list R := map (fun v => k * v) l.

(** A distribution with [k] times the electrons at every gamma. *)
Definition populated_by (k : R) (d : dist) : dist :=
  match d with
  | DOrig f lo hi => DOrig (fun g => k * f g) lo hi
  | DInterp xs ns => DInterp xs (times k ns)
  | DEmpty lo hi => DEmpty lo hi
  end.

(** A distribution that can be told in other units: an interpolated one is
    given by positive densities at two points or more. *)
Definition tellable (d : dist) : Prop :=
  match d with
  | DInterp xs ns => (2 <= length xs <= length ns)%nat /\ forall v, In v ns -> 0 < v
  | _ => True
  end.

(** [f'] is the function [f] with its answers in units [k] times smaller: it is
    given the same electrons, [ud] times as many per new volume. *)
Definition tells (x : units) (k : R) (f f' : GammaFn) : Prop :=
  forall d p, tellable d ->
    f' (populated_by (ud x) d)
       {| fp_gamma := fp_gamma p; fp_densities := times (ud x) (fp_densities p); fp_subgroups := fp_subgroups p |}
    = rmap (times k) (f d p).
Definition all_tell (x : units) (k : R) (fns fns' : list (string * GammaFn)) : Prop :=
  Forall2 (fun kf kf' => fst kf' = fst kf /\ tells x k (snd kf) (snd kf')) fns fns'.

(** The configuration [c'] is [c] told in the new units.  Lorentz factors,
    fractions, names and the relative thresholds are pure numbers; the
    threshold on the absolute injection is a density. *)
Record told (x : units) (c c' : cfg) : Prop := {
  t_total : total c' = ut x * total c;
  t_step : stepd c' = match stepd c with Fixed s => Fixed (ut x * s) | Auto => Auto end;
  t_en : all_tell x (ue x / ut x) (en_fns c) (en_fns c');
  t_rel : all_tell x (1 / ut x) (rel_fns c) (rel_fns c');
  t_abs : all_tell x (ud x / ut x) (abs_fns c) (abs_fns c');
  t_g0 : g0 c' = g0 c;
  t_bounds : bounds c' = bounds c;
  t_creep : creep c' = creep c;
  t_merge : merge_thr c' = merge_thr c;
  t_maxE : maxE c' = maxE c;
  t_maxD : maxD c' = maxD c;
  t_maxI : maxI c' = ud x * maxI c;
  t_opt : optimize c' = optimize c;
  t_method : method c' = method c;
  t_subgroups : subgroups c' = subgroups c;
  t_subinit : subinit c' = subinit c;
  t_mec2 : mec2 c' = ue x * mec2 c
}.

(** rates multiplied by [k] (NaN stays NaN) *)
Definition rates_times (k : R) (r : rates R) : rates R :=
  map (fun kv => (fst kv, map (option_map (fun v => k * v)) (snd kv))) r.

(** a reported result told in the new units; [cb]: as the callback gets it,
    with the two injection dictionaries exchanged *)
Definition retold (x : units) (cb : bool) (r : result) : result :=
  {| r_time := ut x * r_time r; r_gamma := r_gamma r; r_dens := times (ud x) (r_dens r); r_subs := r_subs r;
     r_en := rates_times (ue x / ut x) (r_en r);
     r_rel := rates_times (if cb then ud x / ut x else 1 / ut x) (r_rel r);
     r_abs := rates_times (if cb then 1 / ut x else ud x / ut x) (r_abs r) |}.

(** What is needed of the primitives when the number of electrons changes:
    exact logarithms and powers of ten, and an interpolator that moves up when
    all its values move up by the same amount (scipy's Pchip does). *)
Definition interp_lifts (np : numpy) : Prop :=
  forall xs ys h g, (2 <= length xs <= length ys)%nat -> interp np xs (map (fun y => y + h) ys) g = interp np xs ys g + h.
Definition scales_densities (np : numpy) (k : R) : Prop := k = 1 \/ (numpy_exact np /\ interp_lifts np).
