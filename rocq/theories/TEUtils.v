(** Model of /repo/agnpy/time_evolution/_time_evolution_utils.py (and of the
    parts of spectra.py it uses).  Arrays of shape (2,N) of bin edges are lists
    of pairs (lower, upper); arrays of shape (N,) are lists. *)
From Verif Require Import Base.

(** The numerical primitives the code takes from numpy/scipy.
    [lg]: float log10; [p10]: 10**x; [argsort]: np.argsort (an unspecified
    sorting permutation); [interp xs ys x]: scipy PchipInterpolator(xs, ys)(x). *)
Record numpy := {
  lg : R -> R;
  p10 : R -> R;
  argsort : list R -> list nat;
  interp : list R -> list R -> R -> R
}.

(** What the theorems may assume about the primitives. *)
Record numpy_ok (np : numpy) : Prop := {
  lg_mono : forall x y, 0 < x -> x <= y -> lg np x <= lg np y;
  p10_pos : forall x, 0 < p10 np x;
  argsort_perm : forall l, Permutation (argsort np l) (seq 0 (length l));
  argsort_sorted : forall l i j a b, (i < j)%nat ->
      nth_error (argsort np l) i = Some a -> nth_error (argsort np l) j = Some b ->
      nth a l 0 <= nth b l 0
}.

(** _time_evolution_utils.py L12 *)
Definition bin_size_factor : R := 1 / 10000.

Notation bin := (R * R)%type (only parsing).   (* lower and upper edge *)
(** gm_bins[0], the lower edges (L162, L165) *)
Definition lbs (b : list bin) : list R := map fst b.
(** gm_bins[1], the upper edges (L24, time_evolution.py L457) *)
Definition ubs (b : list bin) : list R := map snd b.

(** update_bin_ub, L20-24: reset the upper edge of the masked bins. *)
Definition update_bin_ub (b : list bin) (mask : list bool) : list bin :=
  map2 (fun (x : bin) (m : bool) => if m then (fst x, fst x * (1 + bin_size_factor)) else x) b mask.

(** mask_to_mapping, L103-104 *)
Definition mask_to_mapping (mask : list bool) : list Z := select mask (arange (length mask)).

(** remap, L82-93, for one array ([default] = None: parameter not given).
    [values[..., mapping]] may raise IndexError. *)
Definition remap {A : Type} (mapping : list Z) (values : list A) (default : option A) : res (list A) :=
  let! remapped := take_idx values mapping in
  if existsb (fun i => Z.eqb i (-1)) mapping then
    match default with
    | None => Err (ValueError "No default value provided for new elements")
    | Some d => Ok (map2 (fun i v => if Z.eqb i (-1) then d else v) mapping remapped)
    end
  else Ok remapped.

(** remap for dictionaries, L83-84 *)
Definition remap_dict {A : Type} (mapping : list Z) (d : list (string * list A)) (default : option A)
  : res (list (string * list A)) :=
  mapM (fun kv => let! v := remap mapping (snd kv) default in Ok (fst kv, v)) d.

(** one row of remap_subgroups_density, L96-100 *)
Definition remap_row (mapping : list Z) (new_value : R) (row : list R) : res (list R) :=
  let! taken := take_idx row mapping in
  Ok (map2 (fun i v => if Z.eqb i (-1) then new_value else v) mapping taken).

(** remap_subgroups_density, L96-100: new elements go to the first group.
    ([new_subgroups_density[0, ...]] raises IndexError when there are no rows;
    the constructor and initial values never produce zero rows unless
    subgroups=[] is given, which is modelled as the IndexError.) *)
Definition remap_subgroups_density (mapping : list Z) (rows : list (list R)) : res (list (list R)) :=
  match rows with
  | [] => Err IndexError
  | row0 :: rest =>
      let! r0 := remap_row mapping 1 row0 in
      let! rs := mapM (remap_row mapping 0) rest in
      Ok (r0 :: rs)
  end.

(** combine_mapping, L107-113 *)
Definition combine_mapping (first second : list Z) : res (list Z) :=
  let! combined := take_idx first second in
  Ok (map2 (fun i v => if Z.eqb i (-1) then (-1)%Z else v) second combined).

(** to_erg, L116-117, [mec2] in erg *)
Definition to_erg (mec2 : R) (b : list bin) : list bin :=
  map (fun x => (fst x * mec2, snd x * mec2)) b.

(** to_densities_grouped, L120-123 (subgroups_density is never None here) *)
Definition to_densities_grouped (density : list R) (subs : list (list R)) : list (list R) :=
  map (fun row => map2 Rmult density row) subs.

(** recalc_energy_bins_and_density_increase, L137-155.  Bins with new width 0
    give an infinite or NaN factor in Python; the model reports [NonFinite]
    after the two checks the code makes. *)
Definition recalc_energy_bins_and_density_increase (changes bins : list bin)
  : res (list bin * list R) :=
  let new := map2 (fun (b c : bin) => (fst b + fst c, snd b + snd c)) bins changes in
  if existsb (fun b : bin => Rleb (fst b) 0 || Rleb (snd b) 0) new then
    Err (ValueError "Negative gamma obtained at bins")
  else if existsb (fun b : bin => Rltb (snd b - fst b) 0) new then
    Err (ValueError "Negative density obtained at bins")
  else if existsb (fun b : bin => Reqb (snd b - fst b) 0) new then
    Err NonFinite
  else
    Ok (new, map2 (fun (b b' : bin) => (snd b - fst b) / (snd b' - fst b')) bins new).

(** recalc_gamma_bins_and_density, L130-134 *)
Definition recalc_gamma_bins_and_density (mec2 : R) (en_bins changes : list bin) (density : list R)
  : res (list bin * list R) :=
  let! (new, incr) := recalc_energy_bins_and_density_increase changes en_bins in
  Ok (map (fun x : bin => (fst x / mec2, snd x / mec2)) new, map2 Rmult density incr).

(** [np.diff(dup) != 1] splitting, L183-185: split a list of indices into
    maximal blocks of consecutive numbers. *)
Fixpoint split_runs (l : list nat) : list (list nat) :=
  match l with
  | [] => []
  | a :: l' =>
      match split_runs l' with
      | (b :: g) :: gs => if Nat.eqb b (S a) then (a :: b :: g) :: gs else [a] :: (b :: g) :: gs
      | gs => [a] :: gs
      end
  end.

(** group_duplicates, L178-187 (for a first index 0 Python would prepend -1;
    callers always pass indices >= 1) *)
Definition group_duplicates (dup : list nat) : list (list nat) :=
  map (fun g => match g with [] => [] | a :: _ => (a - 1)%nat :: g end) (split_runs dup).

(** labels, L206-208: index of the (last) group containing position [i]. *)
Fixpoint label_from (k : nat) (groups : list (list nat)) (i : nat) : option nat :=
  match groups with
  | [] => None
  | g :: gs =>
      match label_from (S k) gs i with
      | Some r => Some r
      | None => if existsb (Nat.eqb i) g then Some k else None
      end
  end.
(** labels[i] after the loop of L206-208; None is -1 *)
Definition label (groups : list (list nat)) (i : nat) : option nat := label_from 0 groups i.

(** np.mean, L209 and L211 *)
Definition mean (l : list R) : R := Rsum l / INR (length l).
(** L209: np.exp(np.mean(np.log(...))) *)
Definition geo_mean (l : list R) : R := exp (mean (map ln l)).

(** elements of [x] whose label is [g]: x[labels == g], L209/L211 *)
Definition with_label {A : Type} (groups : list (list nat)) (x : list A) (g : nat) : list A :=
  map snd (filter (fun ia => match label groups (fst ia) with
                             | Some g' => Nat.eqb g' g | None => false end)
                  (combine (seq 0 (length x)) x)).

(** merge_points, L190-219.  [dist] = None: plain average of the densities. *)
Definition merge_points (x y : list R) (groups : list (list nat)) (dist : option (R -> R))
  : list R * list R :=
  let x_means := map (fun g => geo_mean (with_label groups x g)) (seq 0 (length groups)) in
  let y_means := match dist with
                 | None => map (fun g => mean (with_label groups y g)) (seq 0 (length groups))
                 | Some d => map d x_means
                 end in
  let group_tails := flat_map (fun g => tl g) groups in
  let retain := filter (fun i => negb (existsb (Nat.eqb i) group_tails)) (seq 0 (length x)) in
  let pick (orig means : list R) (i : nat) : R :=
    match label groups i with None => nth i orig 0 | Some g => nth g means 0 end in
  (map (pick x x_means) retain, map (pick y y_means) retain).

(** np.setdiff1d(np.arange(n), dup), L170 *)
Definition keep_idx (n : nat) (dup : list nat) : list nat :=
  filter (fun i => negb (existsb (Nat.eqb i) dup)) (seq 0 n).

(** L167: positions equal in log10 to their predecessor
    ([(a[:-1] == a[1:]).nonzero()[0] + 1]) *)
Definition dup_positions (eq : R -> R -> bool) (l : list R) : list nat :=
  filter (fun i => match nth_error l (i - 1), nth_error l i with
                   | Some a, Some b => eq a b | _, _ => false end)
         (seq 1 (length l - 1)).

(** sort_and_merge_duplicates, L158-175; returns bins, densities, mapping.
    [any(duplicate_idx)] is non-emptiness since all indices are >= 1. *)
Definition sort_and_merge_duplicates (np : numpy) (b : list bin) (dens : list R) (dist : option (R -> R))
  : list bin * list R * list nat :=
  let sort_idx := argsort np (lbs b) in
  let b_sorted := map (fun i => nth i b (0, 0)) sort_idx in
  let d_sorted := map (fun i => nth i dens 0) sort_idx in
  let dup := dup_positions (fun x y => Reqb (lg np x) (lg np y)) (lbs b_sorted) in
  match dup with
  | [] => (b_sorted, d_sorted, sort_idx)
  | _ =>
      let keep := keep_idx (length sort_idx) dup in
      let groups := group_duplicates dup in
      let '(x, y) := merge_points (lbs b_sorted) d_sorted groups dist in
      (map (fun g => (g, 0)) x, y, map (fun i => nth i sort_idx 0%nat) keep)
  end.

(** Particle distributions as far as the time evolution is concerned.
    [DOrig]: the distribution the blob starts with, evaluated by [f] inside
    [gmin,gmax] and 0 outside; [DInterp]: InterpolatedDistribution on the points
    of non-zero density (spectra.py L759-790, norm = 1); [DEmpty]:
    EmptyDistribution(gamma_min=lo, gamma_max=hi) as built by
    update_distribution (L237), where [lo], [hi] are whole arrays. *)
Inductive dist : Type :=
| DOrig (f : R -> R) (gmin gmax : R)
| DInterp (xs ns : list R)
| DEmpty (lo hi : list R).

(** np.min, spectra.py L787 *)
Definition list_min (l : list R) : R := match l with [] => 0 | a :: l' => fold_left Rmin l' a end.
(** np.max, spectra.py L788 *)
Definition list_max (l : list R) : R := match l with [] => 0 | a :: l' => fold_left Rmax l' a end.

(** spectra.py L800-806 (norm = 1) for one gamma; L868-869 for EmptyDistribution. *)
Definition dist_eval (np : numpy) (d : dist) (g : R) : R :=
  match d with
  | DOrig f lo hi => if Rleb lo g && Rleb g hi then f g else 0
  | DInterp xs ns =>
      if Rleb (list_min xs) g && Rleb g (list_max xs)
      then p10 np (interp np (map (lg np) xs) (map (lg np) ns) (lg np g)) else 0
  | DEmpty _ _ => 0
  end.

(** strictly increasing neighbours: the check scipy's PchipInterpolator makes *)
Fixpoint strictly_increasingb (l : list R) : bool :=
  match l with
  | a :: ((b :: _) as l') => Rltb a b && strictly_increasingb l'
  | _ => true
  end.

(** InterpolatedDistribution(gamma, n, interpolator=PchipInterpolator),
    spectra.py L759-790: zero densities are dropped; Pchip raises ValueError for
    fewer than two points or for abscissae that are not strictly increasing. *)
Definition interpolated (np : numpy) (gamma n : list R) : res dist :=
  let valid := map (fun v => negb (Reqb v 0)) n in
  let xs := select valid gamma in
  let ns := select valid n in
  if Nat.ltb (length xs) 2 then Err (ValueError "x must contain at least 2 elements")
  else if strictly_increasingb (map (lg np) xs) then Ok (DInterp xs ns)
  else Err (ValueError "x must be strictly increasing sequence").

(** ParticleDistribution._correct_array_boundary_values, spectra.py L211-225:
    in-place nudge of the first and last element onto [gmin], [gmax]. *)
Definition correct_first (gmin : R) (l : list R) : list R :=
  match l with
  | [] => []
  | a :: l' => if Rltb a gmin && Rltb ((gmin - a) / a) (1 / 10 ^ 10) then gmin :: l' else l
  end.
(** spectra.py L223-225: the last element *)
Definition correct_last (gmax : R) (l : list R) : list R :=
  match rev l with
  | [] => []
  | a :: l' => if Rltb gmax a && Rltb ((a - gmax) / gmax) (1 / 10 ^ 10) then rev (gmax :: l') else l
  end.
(** spectra.py L211-225: both ends, the first one first *)
Definition correct_bounds (gmin gmax : R) (l : list R) : list R := correct_last gmax (correct_first gmin l).

(** distribution(gamma_array): the array as the caller sees it afterwards, and
    the values (spectra.py L800-809, L858-869). *)
Definition dist_call (np : numpy) (d : dist) (gs : list R) : list R * list R :=
  match d with
  | DOrig _ lo hi => let gs' := correct_bounds lo hi gs in (gs', map (dist_eval np d) gs')
  | DInterp xs _ => let gs' := correct_bounds (list_min xs) (list_max xs) gs in (gs', map (dist_eval np d) gs')
  | DEmpty _ _ => (gs, map (dist_eval np d) gs)
  end.

(** update_distribution, L234-244: the new distribution (assigned to blob.n_e) *)
Definition update_distribution (np : numpy) (b : list bin) (n : list R) : res dist :=
  let '(sb, sn, _) := sort_and_merge_duplicates np b n None in
  if forallb (fun v => Reqb v 0) sn then Ok (DEmpty (lbs sb) (ubs sb))
  else if Nat.eqb (length sb) 1 then Err CollapseError
  else interpolated np (lbs sb) sn.

(** FnParams, types.py L11-15 *)
Record FnParams := { fp_gamma : list R; fp_densities : list R; fp_subgroups : list (list R) }.

(** A user supplied GammaFn.  It may look at the blob (whose only changing part
    is its distribution) and at FnParams, and may raise. *)
(** types.py L26: GammaFn = Callable[[FnParams], Quantity]; the blob a Python function may have
    captured is an explicit argument *)
Definition GammaFn : Type := dist -> FnParams -> res (list R).

(** Reshapes of L43/L50/L53: an array of columns of type [A] to a flat array
    (order "F") and back; [Err ValueError] if the size does not fit. *)
Record shape (A : Type) := { flat : list A -> list R; unflat : list R -> option (list A) }.
Arguments flat {A}. Arguments unflat {A}.
(** reshape(-1, order=F) of a (2,N) array, L43 *)
Definition interlace (b : list bin) : list R := flat_map (fun x => [fst x; snd x]) b.
(** reshape((2,N), order=F) of a flat array, L50/L53; None if the size is odd *)
Fixpoint pairs (l : list R) : option (list bin) :=
  match l with
  | [] => Some []
  | a :: b :: l' => match pairs l' with Some r => Some ((a, b) :: r) | None => None end
  | _ => None
  end.
(** L43/L50/L53 for arrays of bins (2,N): energy change functions *)
Definition shape2 : shape bin := {| flat := interlace; unflat := pairs |}.
(** L43/L50/L53 for arrays (N,): injection functions *)
Definition shape1 : shape R := {| flat := fun l => l; unflat := fun l => Some l |}.

(** Rate dictionaries; None is NaN. *)
(** the dictionaries of rates made by L47-54, by label *)
Definition rates (A : Type) : Type := list (string * list (option A)).

(** L50/L53: fn(params).reshape(...) *)
Definition call_fn {A : Type} (sh : shape A) (fn : GammaFn) (ne : dist) (params : FnParams) (n : nat)
  : res (list (option A)) :=
  let! flat_values := fn ne params in
  match unflat sh flat_values with
  | Some vals => if Nat.eqb (length vals) n then Ok (map Some vals)
                 else Err (ValueError "cannot reshape array")
  | None => Err (ValueError "cannot reshape array")
  end.

(** recalc_new_rates, L27-54.  [mask] = None: recalc_mask not given, everything
    is recalculated and [previous] is ignored. *)
Definition recalc_new_rates {A : Type} (sh : shape A) (cols : list A) (fns : list (string * GammaFn))
    (ne : dist) (dens : list R) (subs : list (list R)) (previous : rates A) (mask : option (list bool))
  : res (rates A) :=
  let m := match mask with None => map (fun _ => true) cols | Some m => m end in
  let cols_masked := select m cols in
  let dens_masked := select m dens in
  let! subs_masked := remap_subgroups_density (mask_to_mapping m) subs in
  let params := {| fp_gamma := flat sh cols_masked; fp_densities := dens_masked; fp_subgroups := subs_masked |} in
  mapM (fun lf =>
      match mask with
      | None => let! v := call_fn sh (snd lf) ne params (length cols_masked) in Ok (fst lf, v)
      | Some _ =>
          match lookup (fst lf) previous with
          | None => Err KeyError
          | Some prev => let! v := call_fn sh (snd lf) ne params (length cols_masked) in
                         Ok (fst lf, scatter m prev v)
          end
      end) fns.

(** NaN guard: the model refuses to compute with NaN placeholders. *)
(** no code of its own: time_evolution.py L237 and L330 would go on computing with NaN *)
Definition known {A : Type} (r : rates A) : res (list (string * list A)) :=
  mapM (fun kv => match all_some (snd kv) with Some l => Ok (fst kv, l) | None => Err NaNRate end) r.

(** + on columns of (2,N) arrays, L72/L76 *)
Definition add_bin (a b : bin) : bin := (fst a + fst b, snd a + snd b).

(** sum_change_rates, L57-79; [zero] is the zero column, [n] the number of
    columns of [shape]. *)
Definition vsum {A : Type} (add : A -> A -> A) (zero : A) (n : nat) (arrays : list (list A)) : list A :=
  fold_left (map2 add) arrays (repeat zero n).
(** L57-79: without subgroups one sum of all arrays (L69-73), otherwise one sum per subgroup
    over the names it has in the dictionary (L75-79) *)
Definition sum_change_rates {A : Type} (add : A -> A -> A) (zero : A) (n : nat)
    (rates : list (string * list A)) (subgroups : option (list (list string))) : list (list A) :=
  match subgroups with
  | None => [vsum add zero n (map snd rates)]
  | Some rows =>
      map (fun row => vsum add zero n
             (flat_map (fun x => match lookup x rates with Some v => [v] | None => [] end) row)) rows
  end.

(** energy_changes_lb, L247-248 *)
Definition energy_changes_lb (r : rates bin) : rates R :=
  map (fun kv => (fst kv, map (option_map fst) (snd kv))) r.
