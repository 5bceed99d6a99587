(** Specifications for C91: runs whose rates are functions of the Lorentz factor. *)
From Verif Require Import Base TEUtils TimeEvolution.

(** a rate function of the user: values for each Lorentz factor it is given, no
    matter what the blob is *)
Definition rate_fn (e : R -> R) : GammaFn := fun _ p => Ok (map e (fp_gamma p)).
Definition named : Type := (string * (R -> R))%type.
(** sum of the rates at [g] *)
Definition total_rate (l : list named) (g : R) : R := Rsum (map (fun kf => snd kf g) l).
(** no subgroups, no bounds, no merging, a fixed step [t] *)
Definition rates_cfg (T t : R) (ens rels abss : list named) (m : R) (gs : list R) (me : method_t) : cfg :=
  let fns := map (fun kf : named => (fst kf, rate_fn (snd kf))) in
  {| total := T; stepd := Fixed t; en_fns := fns ens; rel_fns := fns rels; abs_fns := fns abss;
     g0 := gs; bounds := None; creep := 0; merge_thr := None;
     maxE := 1; maxD := 1; maxI := 1; optimize := false; method := me; subgroups := None; subinit := None; mec2 := m |}.

(** Where one step of length [u] takes the Lorentz factor [x], for the energy
    rate [E] (erg/s) and electron rest energy [m]: one evaluation of the rate
    (Euler), or the mean of the rates at both ends (Heun). *)
Definition moved (me : method_t) (E : R -> R) (m u x : R) : R :=
  let y := x + E x * u / m in
  match me with Euler => y | Heun => x + (E x + E y) / 2 * u / m end.
(** A grid point (Lorentz factor, density) after one step: the particles between
    g and g(1+1/10000) stay between the moved edges, then injection and escape
    act with the rates at the old place. *)
Definition after_step (me : method_t) (E r q : R -> R) (m u : R) (p : R * R) : R * R :=
  let '(g, v) := p in
  let g' := moved me E m u g in
  let top' := moved me E m u (g * (1 + 1 / 10000)) in
  (g', v * ((g * (1 + 1 / 10000) - g) / (top' - g')) + (v * r g + q g) * u).
(** the same after [i] steps *)
Definition after_steps (i : nat) (me : method_t) (E r q : R -> R) (m u : R) : R * R -> R * R :=
  Nat.iter i (after_step me E r q m u).

(** none of the points holds particles, or at least two do *)
Definition populated (n : list R) : Prop :=
  (forall v, In v n -> v = 0) \/ (2 <= length (filter (fun v => negb (Reqb v 0)) n))%nat.
(** the step takes these points to a legitimate grid: bins keep a positive
    width, points their order, densities their sign *)
Definition legitimate (np : numpy) (me : method_t) (E r q : R -> R) (m u : R) (pts : list (R * R)) : Prop :=
  let pts' := map (after_step me E r q m u) pts in
  (forall g v, In (g, v) pts -> 0 < moved me E m u g < moved me E m u (g * (1 + 1 / 10000))) /\
  (forall i g g', nth_error (map fst pts') i = Some g -> nth_error (map fst pts') (S i) = Some g' -> lg np g < lg np g') /\
  (forall g v, In (g, v) pts' -> 0 <= v) /\ populated (map snd pts').

(** only energy changes act *)
Definition energy_cfg (T t : R) (fns : list (string * GammaFn)) (m : R) (gs : list R) (me : method_t) : cfg :=
  {| total := T; stepd := Fixed t; en_fns := fns; rel_fns := []; abs_fns := [];
     g0 := gs; bounds := None; creep := 0; merge_thr := None;
     maxE := 1; maxD := 1; maxI := 1; optimize := false; method := me; subgroups := None; subinit := None; mec2 := m |}.

(** The solution of dg/dt = - K g^2 starting at [g], after the time [T]. *)
Definition cooled (K T g : R) : R := g / (1 + K * g * T).
(** Lorentz factor [g'] and density [v'] obtained with steps of length [t] for
    the particles that had [g] and [v].  The exact density is v (g/g')^2, since
    the solution maps an interval dg to (g'/g)^2 dg. *)
Definition near_cooled (me : method_t) (K T t g v g' v' : R) : Prop :=
  let z := K * g * t in let s := g / g' in
  match me with
  | Euler => cooled K T g * (1 - z) <= g' <= cooled K T g /\
             v * s ^ 2 <= v' <= v * s ^ 2 * Rpower s (3 * (z + 1 / 10000))
  | Heun => cooled K T g <= g' <= cooled K T g / (1 - z ^ 2 / 2) /\
             v * s ^ 2 * Rpower s (- (3 * z ^ 2)) <= v' <= v * s ^ 2 * Rpower s (3 * (1 / 10000))
  end.

(** C92: [x'] lies between [x] and [e], and at most [c] times as far from [e] as [x] *)
Definition drawn_to (e c x x' : R) : Prop :=
  (x <= e -> x <= x' <= e) /\ (e <= x -> e <= x' <= x) /\ Rabs (x' - e) <= c * Rabs (x - e).
