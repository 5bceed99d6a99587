(** Vocabulary in which the properties of the time evolution (C01-C27) are
    stated.  Nothing here is used by the model. *)
From Verif Require Import Base TEUtils TimeEvolution.

(** A configuration as TimeEvolution.__init__ leaves it (see C18_valid): a
    positive rest energy, an initial subgroup table (if given) with at least
    one row and one entry per gamma in each row, rate reuse only with automatic
    steps and the Euler method. *)
Record valid (c : cfg) : Prop := {
  v_mec : 0 < mec2 c;
  v_split : forall rows, subinit c = Some rows -> rows <> [] /\ forall r, In r rows -> length r = length (g0 c);
  v_auto : optimize c = true -> stepd c = Auto;
  v_euler : optimize c = true -> method c = Euler
}.

(** Gammas are positive: the initial grid and the lower bound. *)
Definition positive_grid (c : cfg) : Prop :=
  (forall g, In g (g0 c) -> 0 < g) /\ (forall lo hi, bounds c = Some (lo, hi) -> 0 < lo).

(** A positive step: fixed, or automatic with positive thresholds. *)
Definition positive_steps (c : cfg) : Prop :=
  match stepd c with Fixed s => 0 < s | Auto => 0 < maxE c /\ 0 < maxD c /\ 0 < maxI c end.

(** [x] was reported: handed to the callback, or returned. *)
Definition reported (recs : list result) (out : res result) (x : result) : Prop := In x recs \/ out = Ok x.
(** [x] was reported after at least one step. *)
Definition reported_after_step (recs : list result) (out : res result) (x : result) : Prop :=
  In x recs \/ (recs <> [] /\ out = Ok x).

(** Neighbouring elements [a], [b] of a list at position [i]. *)
Definition neighbours {A} (l : list A) (i : nat) (a b : A) : Prop := nth_error l i = Some a /\ nth_error l (S i) = Some b.
Definition increasing (l : list R) : Prop := forall i a b, neighbours l i a b -> a < b.
Definition nonneg (l : list R) : Prop := forall v, In v l -> 0 <= v.

(** the entries of column [j] of a table *)
Definition col (j : nat) (rows : list (list R)) : list R := map (fun r => nth j r 0) rows.

(** [xs] are the same keys in the same order as the user's functions *)
Definition keys_of (fns : list (string * GammaFn)) {A} (d : list (string * A)) : Prop := map fst d = map fst fns.
Definition arrays_of_length {A} (n : nat) (d : list (string * list A)) : Prop := forall k v, In (k, v) d -> length v = n.

(** C06: one entry per gamma in every array, [K] subgroup rows *)
Definition lined_up (K : nat) (x : result) : Prop :=
  let n := length (r_gamma x) in
  length (r_dens x) = n /\ length (r_subs x) = K /\ (forall row, In row (r_subs x) -> length row = n) /\
  arrays_of_length n (r_en x) /\ arrays_of_length n (r_rel x) /\ arrays_of_length n (r_abs x).

(** C14: the dictionaries of [x] hold, key by key, the values of the user
    functions at the gammas (energy functions: both edges of each bin, lower
    edges reported), densities and subgroup split of [x], the blob carrying the
    distribution [ne]. *)
Definition rates_now_en (c : cfg) (ne : dist) (x : result) : Prop :=
  Forall2 (fun kf kv => fst kv = fst kf /\
     exists vals2, snd kf ne {| fp_gamma := flat_map (fun g => [g; g * (1 + 1 / 10000)]) (r_gamma x); fp_densities := r_dens x; fp_subgroups := r_subs x |} = Ok vals2 /\
       length vals2 = (2 * length (r_gamma x))%nat /\
       length (snd kv) = length (r_gamma x) /\
       forall i, (i < length (r_gamma x))%nat -> nth_error (snd kv) i = option_map Some (nth_error vals2 (2 * i))) (en_fns c) (r_en x).
Definition rates_now (fns : list (string * GammaFn)) (ne : dist) (x : result) (d : rates R) : Prop :=
  Forall2 (fun kf kv => fst kv = fst kf /\
     exists vals, snd kf ne {| fp_gamma := r_gamma x; fp_densities := r_dens x; fp_subgroups := r_subs x |} = Ok vals /\
       length vals = length (r_gamma x) /\ snd kv = map Some vals) fns d.

(** C15: no NaN placeholder *)
Definition finite_rates {A} (d : list (string * list (option A))) : Prop := forall k v x, In (k, v) d -> In x v -> x <> None.
Definition finite_report (x : result) : Prop := finite_rates (r_en x) /\ finite_rates (r_rel x) /\ finite_rates (r_abs x).


(** number of rows of the subgroup table at the start: the rows given by the
    user, else one per subgroup, else one *)
Definition start_rows (c : cfg) : nat :=
  match subgroups c with
  | None => 1
  | Some g => match subinit c with Some s => length s | None => length g end
  end.

(** C09: the sum over all functions of the rate at bin [i]; for energy rates
    [p] selects the lower ([fst]) or upper ([snd]) edge *)
Definition total_rate (d : rates R) (i : nat) : R :=
  Rsum (map (fun kv => match nth_error (snd kv) i with Some (Some x) => x | _ => 0 end) d).
Definition total_edge_rate (p : bin -> R) (d : rates bin) (i : nat) : R :=
  Rsum (map (fun kv => match nth_error (snd kv) i with Some (Some x) => p x | _ => 0 end) d).

(** C27: a distribution that can be evaluated: the empty one, or a table of at
    least two points, strictly increasing in log10, with non-zero densities. *)
Definition well_formed (np : numpy) (d : dist) : Prop :=
  match d with
  | DOrig _ _ _ => False
  | DEmpty _ _ => True
  | DInterp xs ns => length xs = length ns /\ (2 <= length xs)%nat /\ (forall v, In v ns -> v <> 0) /\ increasing (map (lg np) xs)
  end.

(** C25: the split a run starts with *)
Definition start_split (c : cfg) : list (list R) :=
  let n := length (g0 c) in
  match subgroups c with
  | None => [repeat 1 n]
  | Some g => match subinit c with
              | Some s => s
              | None => match g with [] => [] | _ :: rest => repeat 1 n :: map (fun _ => repeat 0 n) rest end
              end
  end.
(** C25: nothing acts and nothing is in need of tidying up.  [dens]: the
    initial densities, n_e(initial_gamma_array). *)
Record inert (np : numpy) (c : cfg) (ne : dist) (dens : list R) : Prop := {
  in_zero : forall kf, In kf (en_fns c ++ rel_fns c ++ abs_fns c) -> forall d p, snd kf d p = Ok (repeat 0 (length (fp_gamma p)));
  in_grid : g0 c <> [] /\ (forall g, In g (g0 c) -> 0 < g) /\ increasing (map (lg np) (g0 c));
  in_dens : dens = snd (dist_call np ne (g0 c)) /\ nonneg dens;
  (* all densities zero, or at least two that are not (else no table can be made) *)
  in_table : (forall v, In v dens -> v = 0) \/ (2 <= length (filter (fun v => negb (Reqb v 0)) dens))%nat;
  in_split : start_split c <> [] /\ length (start_split c) = match subgroups c with None => 1%nat | Some g => length g end /\
             (forall row, In row (start_split c) -> length row = length (g0 c) /\ nonneg row) /\
             (forall j, (j < length (g0 c))%nat -> Rsum (col j (start_split c)) = 1);
  in_gaps : forall thr, merge_thr c = Some thr -> (2 <= length (g0 c))%nat /\
             forall i a b, neighbours (g0 c) i a b -> (1 <= i)%nat -> (S i < length (g0 c) - 1)%nat -> thr <= lg np b - lg np a;
  in_range : forall lo hi, bounds c = Some (lo, hi) -> forall g, In g (g0 c) -> lo <= g <= hi / (1 + 1 / 10000)
}.

(** C68: constant rates.  One function of each kind, no subgroups, no bounds, no
    merging, a fixed step [t]; [a] energy rate, [r] relative and [q] absolute
    injection rate. *)
Definition const_fn (q : R) : GammaFn := fun _ p => Ok (repeat q (length (fp_gamma p))).
Definition const_cfg (T t a r q m : R) (gs : list R) (me : method_t) : cfg :=
  {| total := T; stepd := Fixed t; en_fns := [("gain"%string, const_fn a)]; rel_fns := [("esc"%string, const_fn r)];
     abs_fns := [("inj"%string, const_fn q)]; g0 := gs; bounds := None; creep := 0; merge_thr := None;
     maxE := 1; maxD := 1; maxI := 1; optimize := false; method := me; subgroups := None; subinit := None; mec2 := m |}.

(** The states at the top of the while loop of evaluate() on a blob with
    distribution [ne] (every report comes from one, see reached_reported);
    [d] is blob.n_e at that moment. *)
Inductive reached (np : numpy) (c : cfg) (ne : dist) : dist -> tstate -> Prop :=
| at_start s : initial_values np c ne = Ok s -> reached np c ne ne s
| after_pass d s d' s' : reached np c ne d s -> st_elapsed s < total c -> step np c s d = (d', Ok s') -> reached np c ne d' s'.

(** C19 *)
(** rate of function [x] at bin [i]; 0 if [x] is not in the dictionary *)
Definition rate_of (d : list (string * list R)) (x : string) (i : nat) : R :=
  match lookup x d with Some v => nth i v 0 | None => 0 end.
(** one edge of every energy rate *)
Definition edge (p : bin -> R) (d : list (string * list bin)) : list (string * list R) := map (fun kv => (fst kv, map p (snd kv))) d.

(** C24: positions of the positive entries *)
Definition kept (l : list R) : list nat := filter (fun i => Rltb 0 (nth i l 0)) (seq 0 (length l)).
(** [y] holds exactly the bins of [x] with positive density, in order *)
Definition keeps_positive (x y : result) : Prop :=
  let at_kept {A} (l : list A) (d : A) := map (fun i => nth i l d) (kept (r_dens x)) in
  let dict (d : rates R) := map (fun kv => (fst kv, at_kept (snd kv) None)) d in
  r_time y = r_time x /\ r_gamma y = at_kept (r_gamma x) 0 /\ r_dens y = at_kept (r_dens x) 0 /\
  r_subs y = map (fun row => at_kept row 0) (r_subs x) /\
  r_en y = dict (r_en x) /\ r_rel y = dict (r_rel x) /\ r_abs y = dict (r_abs x).

(** C26 *)
(** [block l a k]: the [k] elements of [l] from position [a] on *)
Definition block (l : list R) (a k : nat) : list R := map (fun i => nth i l 0) (seq a k).
Definition average (l : list R) : R := Rsum l / INR (length l).

(** C25: every function reported as zero at each of [n] bins *)
Definition zero_rates (fns : list (string * GammaFn)) (n : nat) : rates R := map (fun kf => (fst kf, repeat (Some 0) n)) fns.

(** C10-C13: the rate at bin [i] of function [x]; [p] selects the edge of an
    energy rate *)
Definition rate_at {A} (p : A -> R) (d : rates A) (x : string) (i : nat) : R :=
  match lookup x d with Some v => match nth_error v i with Some (Some y) => p y | _ => 0 end | None => 0 end.
(** the rate applied to subgroup [g] at bin [i]: the sum over the functions
    named in the subgroup; without subgroups, over all functions *)
Definition group_rate {A} (c : cfg) (p : A -> R) (d : rates A) (g i : nat) : R :=
  match subgroups c with
  | None => Rsum (map (fun kv => match nth_error (snd kv) i with Some (Some x) => p x | _ => 0 end) d)
  | Some gs => Rsum (map (fun x => rate_at p d x i) (nth g gs []))
  end.
(** A bin between gammas [l] and [u] with energy change rates [rl], [ru] at its
    edges, relative and absolute injection rates [rel], [ab], over a time [dt]:
    no edge energy changes by more than the fraction maxE, the width of the bin
    (so the density) by no more than a factor 1 + maxD, at most half of the
    particles escape through the relative rate, and no more than maxI is
    injected. *)
Record within_limits (c : cfg) (l u rl ru rel ab dt : R) : Prop := {
  lim_lower : Rabs (rl * dt) <= maxE c * (l * mec2 c);
  lim_upper : Rabs (ru * dt) <= maxE c * (u * mec2 c);
  lim_width : let w := (u - l) * mec2 c in w / (1 + maxD c) <= w + (ru - rl) * dt <= w * (1 + maxD c);
  lim_escape : - rel * dt <= 1 / 2;
  lim_inject : Rabs (ab * dt) <= maxI c
}.
(** subgroup [g] at bin [i] of state [s] *)
Definition limits_at (c : cfg) (s : tstate) (g i : nat) (dt : R) : Prop :=
  exists l u, nth_error (st_bins s) i = Some (l, u) /\
    within_limits c l u (group_rate c fst (st_en s) g i) (group_rate c snd (st_en s) g i)
      (group_rate c (fun x => x) (st_rel s) g i) (group_rate c (fun x => x) (st_abs s) g i) dt.

(** C13: states the loop goes through between two of its tops *)
Inductive leads_to (np : numpy) (c : cfg) : dist -> tstate -> dist -> tstate -> Prop :=
| lead_refl d s : leads_to np c d s d s
| lead_step d0 s0 d s d' s' : leads_to np c d0 s0 d s -> st_elapsed s < total c -> step np c s d = (d', Ok s') -> leads_to np c d0 s0 d' s'.
(** Python dictionaries have distinct keys *)
Definition distinct_names (c : cfg) : Prop :=
  NoDup (map fst (en_fns c)) /\ NoDup (map fst (rel_fns c)) /\ NoDup (map fst (abs_fns c)).
(** one call of [f] gave the rates [rl], [ru] at the edges [l], [u] of a bin of
    density [v], resp. the rate [r] at gamma [g] *)
Definition called_en (f : GammaFn) (d : dist) (l u v rl ru : R) : Prop :=
  exists p vals q, f d p = Ok vals /\ nth_error (fp_gamma p) (2 * q) = Some l /\ nth_error (fp_gamma p) (2 * q + 1) = Some u /\
    nth_error (fp_densities p) q = Some v /\ nth_error vals (2 * q) = Some rl /\ nth_error vals (2 * q + 1) = Some ru.
Definition called (f : GammaFn) (d : dist) (g v r : R) : Prop :=
  exists p vals q, f d p = Ok vals /\ nth_error (fp_gamma p) q = Some g /\ nth_error (fp_densities p) q = Some v /\ nth_error vals q = Some r.
(** Bin [k] of [s] is (l, l (1 + 1e-4)), its density is [v], and its rates were
    computed for just that.  (At the start, elapsed time 0, injection functions
    are called on the array that n_e(initial_gamma_array) may have nudged at its
    ends.) *)
Record fresh_at (c : cfg) (d : dist) (s : tstate) (k : nat) (l u v : R) : Prop := {
  fa_bin : nth_error (st_bins s) k = Some (l, u);
  fa_pos : 0 < l;
  fa_width : u = l * (1 + 1 / 10000);
  fa_dens : nth_error (st_dens s) k = Some v;
  fa_en : Forall2 (fun kf kv => fst kv = fst kf /\ exists rl ru, nth_error (snd kv) k = Some (Some (rl, ru)) /\ called_en (snd kf) d l u v rl ru) (en_fns c) (st_en s);
  fa_rel : Forall2 (fun kf kv => fst kv = fst kf /\ exists g r, (g = l \/ st_elapsed s = 0) /\ nth_error (snd kv) k = Some (Some r) /\ called (snd kf) d g v r) (rel_fns c) (st_rel s);
  fa_abs : Forall2 (fun kf kv => fst kv = fst kf /\ exists g r, (g = l \/ st_elapsed s = 0) /\ nth_error (snd kv) k = Some (Some r) /\ called (snd kf) d g v r) (abs_fns c) (st_abs s)
}.
(** the dictionaries hold the same rates at bin [k] of [s0] and bin [i] of [s] *)
Definition rates_same {A} (r0 : rates A) (k : nat) (r : rates A) (i : nat) : Prop :=
  Forall2 (fun a b => fst a = fst b /\ nth_error (snd a) k = nth_error (snd b) i) r0 r.
Definition same_rates (s0 : tstate) (k : nat) (s : tstate) (i : nat) : Prop :=
  rates_same (st_en s0) k (st_en s) i /\ rates_same (st_rel s0) k (st_rel s) i /\ rates_same (st_abs s0) k (st_abs s) i.

(** C11, C12: a function given by the user raises [e] itself *)
Definition user_raises (c : cfg) (e : exn) : Prop := exists kf d p, In kf (en_fns c ++ rel_fns c ++ abs_fns c) /\ snd kf d p = Err e.
(** the errors of a step that would make a bin or a density invalid; NonFinite
    is a bin of zero width (numpy: division by zero, inf or nan densities) *)
Definition bin_error (e : exn) : Prop :=
  e = ValueError "Negative gamma obtained at bins" \/ e = ValueError "Negative density obtained at bins" \/ e = NonFinite.
Definition density_error (e : exn) : Prop := e = ValueError "Negative density obtained".
Definition split_in_unit (rows : list (list R)) : Prop := forall row f, In row rows -> In f row -> 0 <= f <= 1.

(** C17: table [b], [n] is the bins of [s] with edges moved for a time [dt] at
    rates [rl], [ru] (per bin), the particles of each bin kept, and the
    injection of the state [s] added *)
Definition moved (c : cfg) (s : tstate) (dt : R) (rl ru : nat -> R) (b : list bin) (n : list R) : Prop :=
  length b = length (st_bins s) /\ length n = length (st_bins s) /\
  forall i l u v, nth_error (st_bins s) i = Some (l, u) -> nth_error (st_dens s) i = Some v ->
    let l' := l + rl i * dt / mec2 c in let u' := u + ru i * dt / mec2 c in
    exists v', nth_error b i = Some (l', u') /\ nth_error n i = Some v' /\ 0 < l' < u' /\
      v' * (u' - l') = v * (u - l) + (v * total_rate (st_rel s) i + total_rate (st_abs s) i) * dt * (u' - l').
(** [en]: the energy rates at both edges of the bins [b] with densities [n],
    the blob carrying [d] *)
Definition energy_rates_at (c : cfg) (d : dist) (b : list bin) (n : list R) (subs : list (list R)) (en : rates bin) : Prop :=
  Forall2 (fun kf kv => fst kv = fst kf /\
     exists vals2, snd kf d {| fp_gamma := flat_map (fun x => [fst x; snd x]) b; fp_densities := n; fp_subgroups := subs |} = Ok vals2 /\
       length vals2 = (2 * length b)%nat /\ length (snd kv) = length b /\
       forall i, (i < length b)%nat -> exists x y, nth_error vals2 (2 * i) = Some x /\ nth_error vals2 (2 * i + 1) = Some y /\ nth_error (snd kv) i = Some (Some (x, y)))
    (en_fns c) en.
