(** Specifications for C101: the kinetic equation that a run approximates. *)
From Coquelicot Require Import Coquelicot.
From Verif Require Import Base TEUtils TimeEvolution Spec_Move.
Open Scope R_scope.

(** The kinetic equation for the density n(s, g) of particles with Lorentz
    factor g at the time s, gaining energy at the rate E(g) (erg/s; rest energy
    m), with relative injection rate r(g) and absolute injection rate q(g):
      dn/ds + d(n E/m)/dg = n r + q .
    [ns], [ng] are the partial derivatives of n, [E'] the derivative of E. *)
Definition solves_kinetic (E E' r q : R -> R) (m T : R) (n : R -> R -> R) : Prop :=
  forall s g, 0 <= s <= T -> 0 < g -> exists ns ng, differentiable_pt_lim n s g ns ng /\
    ns + (ng * E g + n s g * E' g) / m = n s g * r g + q g.
(** The Lorentz factor of a particle that starts with g. *)
Definition track (E : R -> R) (m T g : R) (G : R -> R) : Prop :=
  G 0 = g /\ forall s, 0 <= s <= T -> 0 < G s /\ is_derive G s (E (G s) / m).
(** The density along a track: what the kinetic equation says of N(s) = n(s, G(s)). *)
Definition along (E E' r q : R -> R) (m T : R) (G : R -> R) (v : R) (N : R -> R) : Prop :=
  N 0 = v /\ forall s, 0 <= s <= T -> is_derive N s (N s * (r (G s) - E' (G s) / m) + q (G s)).
(** The slope of E over a bin of relative width 1/10000 differs from its
    derivative, along the track, by no more than m times the derivative of D. *)
Definition width_effect (E E' : R -> R) (m T : R) (G D : R -> R) : Prop :=
  D 0 = 0 /\ forall s, 0 <= s <= T -> exists d, is_derive D s d /\
    Rabs ((E (G s * (1 + 1 / 10000)) - E (G s)) / (G s / 10000) - E' (G s)) <= m * d.
(** At least two grid points hold particles, or two are there and all receive some. *)
Definition fed (q : R -> R) (ns : list R) : Prop :=
  (2 <= length (filter (fun v => negb (Reqb v 0)) ns))%nat \/ ((2 <= length ns)%nat /\ forall g, 0 < g -> 0 < q g).

(** One energy function (say synchrotron losses), escape within the time [tau],
    injection of q(g) particles per second; fixed step [t]. *)
Definition escape_cfg (T t : R) (fn : string * GammaFn) (tau : R) (q : R -> R) (m : R) (gs : list R) (me : method_t) : cfg :=
  {| total := T; stepd := Fixed t; en_fns := [fn]; rel_fns := [("escape"%string, rate_fn (fun _ => - / tau))]; abs_fns := [("injection"%string, rate_fn q)];
     g0 := gs; bounds := None; creep := 0; merge_thr := None;
     maxE := 1; maxD := 1; maxI := 1; optimize := false; method := me; subgroups := None; subinit := None; mec2 := m |}.
(** The density at the time s of the particles that started with g and density
    v, for dg/ds = - K g^2: the initial ones and those injected since, each
    compressed by (g/g')^2 and thinned by escape. *)
Definition cooled_density (K tau : R) (q : R -> R) (s g v : R) : R :=
  let c u := g / cooled K u g in
  v * c s ^ 2 * exp (- s / tau) + RInt (fun u => q (cooled K u g) * (c s / c u) ^ 2 * exp (- (s - u) / tau)) 0 s.
