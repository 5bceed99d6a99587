(** Model of /repo/agnpy/time_evolution/time_evolution.py, class TimeEvolution.
    Line numbers below refer to that file. *)
From Verif Require Import Base TEUtils.

(** Times that may be np.inf: None is +inf. *)
Notation ext := (option R) (only parsing).
(** np.minimum on times, L322-323 *)
Definition ext_min (a b : ext) : ext :=
  match a, b with
  | None, x => x
  | x, None => x
  | Some x, Some y => Some (Rmin x y)
  end.
(** time_left_per_bin < step_time, L259 *)
Definition ext_ltb (a : ext) (t : R) : bool := match a with None => false | Some x => Rltb x t end.
(** time_left_per_bin -= step_time, L256 *)
Definition ext_sub (a : ext) (t : R) : ext := match a with None => None | Some x => Some (x - t) end.
(** time_left_per_bin == 0, L244 *)
Definition ext_is0 (a : ext) : bool := match a with None => false | Some x => Reqb x 0 end.

(** _step_duration, L124-129: a time or "auto" *)
Inductive step_policy : Type := Fixed (s : R) | Auto.
(** _method, L170-175 *)
Inductive method_t : Type := Euler | Heun.

(** The fields set by __init__ (L122-191) that evaluate() uses. [g0] is
    _initial_gamma_array; [mec2] is the electron rest energy in erg. *)
Record cfg := {
  total : R;
  stepd : step_policy;
  en_fns : list (string * GammaFn);
  rel_fns : list (string * GammaFn);
  abs_fns : list (string * GammaFn);
  g0 : list R;
  bounds : option (R * R);
  creep : R;
  merge_thr : option R;
  maxE : R;
  maxD : R;
  maxI : R;
  optimize : bool;
  method : method_t;
  subgroups : option (list (list string));
  subinit : option (list (list R));
  mec2 : R
}.

(** Loop state of evaluate(), L227-230; [ne] (blob.n_e) is threaded separately. *)
Record tstate := {
  st_bins : list bin;
  st_dens : list R;
  st_subs : list (list R);
  st_en : rates bin;
  st_rel : rates R;
  st_abs : rates R;
  st_left : list ext;
  st_elapsed : R
}.

(** TimeEvaluationResult, types.py L17-24 *)
Record result := {
  r_time : R;
  r_gamma : list R;
  r_dens : list R;
  r_subs : list (list R);
  r_en : rates R;
  r_rel : rates R;
  r_abs : rates R
}.

(** Computations that may replace blob.n_e before they raise. *)
(** statements of L326-363 and of evaluate, which may assign blob.n_e (_time_evolution_utils.py
    L243) *)
Definition St (A : Type) : Type := dist -> dist * res A.
(** end of a sequence of statements (no code of its own) *)
Definition ret {A : Type} (a : A) : St A := fun d => (d, Ok a).
(** a call that does not assign blob.n_e (no code of its own) *)
Definition lift {A : Type} (x : res A) : St A := fun d => (d, x).
(** sequencing of statements; blob.n_e keeps what was assigned before an exception (no code of
    its own) *)
Definition bindS {A B : Type} (m : St A) (f : A -> St B) : St B :=
  fun d => match m d with (d', Ok a) => f a d' | (d', Err e) => (d', Err e) end.
(** blob.n_e = distribution, _time_evolution_utils.py L243 *)
Definition put (x : dist) : St unit := fun _ => (x, Ok tt).
(** reading self._blob.n_e, as the user's functions do when called (_time_evolution_utils.py
    L50/L53) *)
Definition get : St dist := fun d => (d, Ok d).
Notation "'do' x '<-' m ';' k" := (bindS m (fun x => k))
  (at level 200, x pattern, m at level 100, k at level 200, right associativity).

(** numpy broadcasting of two 2-D arrays along the first axis (L237). *)
Definition bcast_rows {A B C : Type} (f : list A -> list B -> list C) (m : list (list A)) (k : list (list B))
  : res (list (list C)) :=
  if Nat.eqb (length m) (length k) then Ok (map2 f m k)
  else match m, k with
       | [row], _ => Ok (map (f row) k)
       | _, [row] => Ok (map (fun x => f x row) m)
       | _, _ => Err (ValueError "operands could not be broadcast together")
       end.

Section Evolution.
Variable np : numpy.
Variable c : cfg.

(** _calculate_initial_values, L193-211. *)
Definition initial_subs : res (list (list R)) :=
  let n := length (g0 c) in
  match subgroups c with
  | None => Ok [repeat 1 n]
  | Some rows =>
      match subinit c with
      | Some s => Ok s
      | None => match rows with
                | [] => Err IndexError
                | _ :: rest => Ok (repeat 1 n :: map (fun _ => repeat 0 n) rest)
                end
      end
  end.

(** L194-197: gm_bins *)
Definition initial_bins : list bin :=
  update_bin_ub (map (fun g => (g, 0)) (g0 c)) (map (fun _ => true) (g0 c)).

(** _calculate_initial_values, L193-211, together with L228-230; the call of L198 may nudge
    _initial_gamma_array in place, after gm_bins has been copied from it *)
Definition initial_values (ne : dist) : res tstate :=
  let bins := initial_bins in
  let '(lb', density) := dist_call np ne (g0 c) in
  let! subs := initial_subs in
  let! en := recalc_new_rates shape2 bins (en_fns c) ne density subs [] None in
  let! rel := recalc_new_rates shape1 lb' (rel_fns c) ne density subs [] None in
  let! ab := recalc_new_rates shape1 lb' (abs_fns c) ne density subs [] None in
  Ok {| st_bins := bins; st_dens := density; st_subs := subs; st_en := en; st_rel := rel; st_abs := ab;
        st_left := map (fun _ => Some 0) bins; st_elapsed := 0 |}.

(** _group_change_rates, L417-421, after the NaN guard *)
Definition group_energy (n : nat) (en : rates bin) : res (list (list bin)) :=
  let! k := known en in Ok (sum_change_rates add_bin (0, 0) n k (subgroups c)).
(** _group_change_rates for the injection rates, L419-420 *)
Definition group_injection (n : nat) (r : rates R) : res (list (list R)) :=
  let! k := known r in Ok (sum_change_rates Rplus 0 n k (subgroups c)).

(** The four limits of _calc_max_time_per_bin, L294-322, for one bin of one
    group: [eb] energy bin, [er] its energy change rates. *)
(** L295-297 for one edge *)
Definition time_1_edge (e r : R) : ext := if Reqb r 0 then None else Some (maxE c * e / Rabs r).
(** L295-297: the smaller of the limits of the two edges (axis=0) *)
Definition time_1 (eb er : bin) : ext := ext_min (time_1_edge (fst eb) (fst er)) (time_1_edge (snd eb) (snd er)).
(** L303-309 *)
Definition time_2 (eb er : bin) : ext :=
  let df := snd er - fst er in
  if Reqb df 0 then None
  else let x_f := (snd eb - fst eb) / df in
       Some (if Rltb 0 x_f then x_f * maxD c else - x_f * maxD c / (1 + maxD c)).
(** L313-314 *)
Definition time_3 (rel : R) : ext := if Rltb rel 0 then Some (- (1 / 2) / rel) else None.
(** L318-320 *)
Definition time_4 (ab : R) : ext := if Reqb ab 0 then None else Some (maxI c / Rabs ab).
(** L322 for one bin *)
Definition max_time_bin (eb er : bin) (rel ab : R) : ext :=
  ext_min (time_1 eb er) (ext_min (time_2 eb er) (ext_min (time_3 rel) (time_4 ab))).
(** L322 for the bins of one group *)
Definition max_times_group (en_bins er : list bin) (rel ab : list R) : list ext :=
  map2 (fun (x : bin * bin) (y : R * R) => max_time_bin (fst x) (snd x) (fst y) (snd y))
       (combine en_bins er) (combine rel ab).

(** _calc_max_time_per_bin, L281-324; the loop over groups, [acc] = max_times *)
Fixpoint calc_max_times (en_bins : list bin) (dens_g : list (list R)) (eng : list (list bin))
    (relg absg : list (list R)) (acc : list ext) : res (list ext) :=
  match dens_g with
  | [] => Ok acc
  | d :: dens_g' =>
      match eng, relg, absg with
      | er :: eng', rel :: relg', ab :: absg' =>
          if existsb (fun b => b) (map2 (fun x y => Reqb x 0 && Rltb y 0) d ab)
          then Err (ValueError "Particles cannot escape when density is zero")
          else calc_max_times en_bins dens_g' eng' relg' absg'
                 (map2 ext_min acc (max_times_group en_bins er rel ab))
      | _, _, _ => Err IndexError
      end
  end.

(** [new_bins_and_densities], L366-368 *)
Fixpoint recalc_groups (en_bins : list bin) (density : list R) (subs : list (list R)) (changes : list (list bin))
  : res (list (list bin * list R)) :=
  match subs with
  | [] => Ok []
  | row :: subs' =>
      match changes with
      | [] => Err IndexError
      | ch :: changes' =>
          let! x := recalc_gamma_bins_and_density (mec2 c) en_bins ch (map2 Rmult density row) in
          let! xs := recalc_groups en_bins density subs' changes' in
          Ok (x :: xs)
      end
  end.

(** adding the injection and the sign check, L369-373 *)
Fixpoint inject_groups (xs : list (list bin * list R)) (inj : list (list R)) : res (list (list bin * list R)) :=
  match xs with
  | [] => Ok []
  | (b, d) :: xs' =>
      match inj with
      | [] => Err IndexError
      | i :: inj' =>
          let d' := map2 Rplus d i in
          if existsb (fun v => Rltb v 0) d' then Err (ValueError "Negative density obtained")
          else let! r := inject_groups xs' inj' in Ok ((b, d') :: r)
      end
  end.

(** gamma_bins == new_gm_bins for one bin, L382 *)
Definition bin_eqb (a b : bin) : bool := Reqb (fst a) (fst b) && Reqb (snd a) (snd b).

(** L379-387: densities of the groups 1.. on the grid of group 0; the call of
    the interpolated distribution may nudge that grid in place. *)
Fixpoint regrid_groups (bins0 : list bin) (rest : list (list bin * list R)) : res (list bin * list (list R)) :=
  match rest with
  | [] => Ok (bins0, [])
  | (b, d) :: rest' =>
      if forallb (fun v => Reqb v 0) d || forallb (fun x => x) (map2 bin_eqb b bins0) then
        let! (bins', ds) := regrid_groups bins0 rest' in Ok (bins', d :: ds)
      else
        let! dd := interpolated np (lbs b) d in
        let '(lb', vals) := dist_call np dd (lbs bins0) in
        let bins0' := map2 (fun x (y : bin) => (x, snd y)) lb' bins0 in
        let! (bins', ds) := regrid_groups bins0' rest' in Ok (bins', vals :: ds)
  end.

(** new_densities.sum(axis=0), L389; also used for L182 *)
Definition col_sum (n : nat) (rows : list (list R)) : list R := fold_left (map2 Rplus) rows (repeat 0 n).

(** L390-392: new split ratios where the total is non-zero *)
Definition new_row (tot old new : list R) : list R :=
  map2 (fun (on : R * R) t => if Reqb t 0 then fst on else snd on / t) (combine old new) tot.

(** _apply_time_eval, L365-393 *)
Definition apply_time_eval (en_bins : list bin) (density : list R) (subs : list (list R))
    (changes : list (list bin)) (inj : list (list R)) : res (list bin * list R * list (list R)) :=
  let! xs := recalc_groups en_bins density subs changes in
  let! ys := inject_groups xs inj in
  match ys with
  | [] => Err IndexError
  | (b0, d0) :: rest =>
      let! (bins', ds) := regrid_groups b0 rest in
      let new_dens := col_sum (length density) (d0 :: ds) in
      Ok (bins', new_dens, map2 (new_row new_dens) subs (d0 :: ds))
  end.

(** _remove_too_close_bins, L441-461, for threshold [thr]; IndexError for fewer
    than two bins (L446). The resulting mapping is a list of positions. *)
Definition too_close (thr : R) (b : list bin) : list nat :=
  filter (fun i => negb (Nat.eqb i 1) && negb (Nat.eqb i (length b - 1)))
         (dup_positions (fun x y => Rltb (lg np y - lg np x) thr) (lbs b)).
(** _remove_too_close_bins, L441-461 *)
Definition remove_too_close_bins (thr : R) (b : list bin) (dens : list R) (d : dist)
  : res (list bin * list R * list nat) :=
  if Nat.ltb (length b) 2 then Err IndexError
  else match too_close thr b with
       | [] => Ok (b, dens, seq 0 (length b))
       | close =>
           let keep := keep_idx (length dens) close in
           let groups := group_duplicates close in
           let '(x, y) := merge_points (lbs b) dens groups (Some (dist_eval np d)) in
           let starts := map (fun g => hd 0%nat g) groups in
           let ub := map (fun i => if existsb (Nat.eqb i) starts then 0 else snd (nth i b (0, 0))) keep in
           Ok (combine x ub, y, keep)
       end.

(** _sort_and_merge_bins, L423-429; the mapping as numpy integers *)
Definition sort_and_merge_bins (b : list bin) (dens : list R) (d : dist) : res (list bin * list R * list Z) :=
  let '(b1, d1, m1) := sort_and_merge_duplicates np b dens (Some (dist_eval np d)) in
  let z1 := map Z.of_nat m1 in
  match merge_thr c with
  | None => Ok (b1, d1, z1)
  | Some thr =>
      let! (b2, d2, m2) := remove_too_close_bins thr b1 d1 d in
      let! m := combine_mapping z1 (map Z.of_nat m2) in
      Ok (b2, d2, m)
  end.

(** _remove_gamma_beyond_bounds, L431-439 *)
Definition in_bounds (bd : R * R) (b : bin) : bool :=
  Rleb (fst bd) (fst b) && Rleb (fst b) (snd bd / (1 + bin_size_factor)).
(** _remove_gamma_beyond_bounds, L431-439: the bins inside and their positions *)
Definition remove_gamma_beyond_bounds (bd : R * R) (b : list bin) : list bin * list Z :=
  let mask := map (in_bounds bd) b in
  (select mask b, mask_to_mapping mask).

(** _add_boundary_bins, L395-415; [er] is en_changes_grouped[0].
    [gm_bins[0,[0,-1]]] raises IndexError when there is no bin. *)
Definition add_boundary_bins (bd : R * R) (b : list bin) (er : list bin) : res (list bin * list Z) :=
  match b, er with
  | bf :: _, rf :: _ =>
      let bl := last b bf in
      let rl := last er rf in
      let low := Rleb (creep c) (lg np (fst bf) - lg np (fst bd)) && Rltb 0 (fst rf) in
      let high := Rleb (creep c) (lg np (snd bd) - lg np (fst bl)) && Rltb (fst rl) 0 in
      let m := arange (length b) in
      let '(b1, m1) := if low then ((fst bd, 0) :: b, (-1)%Z :: m) else (b, m) in
      Ok (if high then (b1 ++ [(snd bd / (1 + bin_size_factor), 0)], m1 ++ [(-1)%Z]) else (b1, m1))
  | _, _ => Err IndexError
  end.

(** en_changes_grouped * unit_time_interval_sec, L331 and L339, one group *)
Definition scale_bins (t : R) (l : list bin) : list bin := map (fun x => (fst x * t, snd x * t)) l.
(** total_injection_grouped * unit_time_interval_sec, L331 and L342, one group *)
Definition scale (t : R) (l : list R) : list R := map (fun x => x * t) l.
(** (en_changes_grouped + en_changes_grouped_recalced) / 2, L338, one bin *)
Definition avg_bin (a b : bin) : bin := ((fst a + fst b) / 2, (snd a + snd b) / 2).

(** [dist = update_distribution(..., self._blob)] *)
(** L332 and L343: update_distribution and the assignment of blob.n_e (_time_evolution_utils.py
    L243) *)
Definition set_distribution (b : list bin) (n : list R) : St dist :=
  do d <- lift (update_distribution np b n); do _ <- put d; ret d.

(** stages 1 and 2 of _apply_time_changes, L329-344 *)
Definition stage12 (en_bins : list bin) (density : list R) (subs : list (list R)) (eng : list (list bin))
    (inj : list (list R)) (t : R) : St (list bin * list R * list (list R) * dist * list (list bin)) :=
  do (b1, n1, s1) <- lift (apply_time_eval en_bins density subs (map (scale_bins t) eng) (map (scale t) inj));
  do d1 <- set_distribution b1 n1;
  match method c with
  | Euler => ret (b1, n1, s1, d1, eng)
  | Heun =>
      do ne <- get;
      do en' <- lift (recalc_new_rates shape2 b1 (en_fns c) ne n1 s1 [] None);
      do eng' <- lift (group_energy (length b1) en');
      let avg := map2 (map2 avg_bin) eng eng' in
      do (b2, n2, s2) <- lift (apply_time_eval en_bins density s1 (map (scale_bins t) avg) (map (scale t) inj));
      do d2 <- set_distribution b2 n2;
      ret (b2, n2, s2, d2, avg)
  end.

(** stages 3 to 5 of _apply_time_changes, L346-363 *)
Definition stage345 (b : list bin) (n : list R) (s : list (list R)) (d : dist) (eng : list (list bin))
  : res (list bin * list R * list (list R) * list Z) :=
  let! (b3, n3, m3) := sort_and_merge_bins b n d in
  let! s3 := remap_subgroups_density m3 s in
  match bounds c with
  | None => Ok (b3, n3, s3, m3)
  | Some bd =>
      let '(b4, m4) := remove_gamma_beyond_bounds bd b3 in
      let! n4 := remap m4 n3 None in
      let! s4 := remap_subgroups_density m4 s3 in
      let! m34 := combine_mapping m3 m4 in
      match eng with
      | [] => Err IndexError
      | er :: _ =>
          let! (b5, m5) := add_boundary_bins bd b4 er in
          let! n5 := remap m5 n4 (Some 0) in
          let! s5 := remap_subgroups_density m5 s4 in
          let! m := combine_mapping m34 m5 in
          Ok (b5, n5, s5, m)
      end
  end.

(** _apply_time_changes, L326-363 *)
Definition apply_time_changes (en_bins : list bin) (density : list R) (subs : list (list R))
    (eng : list (list bin)) (inj : list (list R)) (t : R)
  : St (list bin * list R * list (list R) * list Z) :=
  do (b, n, s, d, eng') <- stage12 en_bins density subs eng inj t;
  lift (stage345 b n s d eng').

(** np.min of a non-empty array of times *)
Definition ext_list_min (l : list ext) : res ext :=
  match l with
  | [] => Err (ValueError "zero-size array to reduction operation minimum which has no identity")
  | a :: l' => Ok (fold_left ext_min l' a)
  end.

(** choice of the step, L237-250: total injection rates, the (possibly
    refreshed) time left per bin, and the step length *)
Definition choose_step (s : tstate) : res (list (list bin) * list (list R) * list ext * R) :=
  let n := length (st_bins s) in
  let en_bins := to_erg (mec2 c) (st_bins s) in
  let! eng := group_energy n (st_en s) in
  let! relg := group_injection n (st_rel s) in
  let! absg := group_injection n (st_abs s) in
  let dens_g := to_densities_grouped (st_dens s) (st_subs s) in
  let! dr := bcast_rows (map2 Rmult) dens_g relg in
  let! inj := bcast_rows (map2 Rplus) dr absg in
  let! (left', step0) :=
    match stepd c with
    | Fixed t => Ok (st_left s, Some t)
    | Auto =>
        let! mx := calc_max_times en_bins dens_g eng relg absg (map (fun _ => None) (st_dens s)) in
        if optimize c then
          let left' := map2 (fun l m => if ext_is0 l then m else l) (st_left s) mx in
          let! t := ext_list_min left' in Ok (left', t)
        else let! t := ext_list_min mx in Ok (st_left s, t)
    end in
  let remaining := total c - st_elapsed s in
  let step := match step0 with
              | None => remaining
              | Some t => if Rltb remaining t then remaining else t
              end in
  Ok (eng, inj, left', step).

(** One pass through the loop body, L233-270, up to the callback. *)
Definition step (s : tstate) : St tstate :=
  do (eng, inj, left0, t) <- lift (choose_step s);
  do (b, n, sg, mapping) <- apply_time_changes (to_erg (mec2 c) (st_bins s)) (st_dens s) (st_subs s) eng inj t;
  do (left', mask) <- lift (
      if optimize c then
        let! l1 := remap mapping (map (fun x => ext_sub x t) left0) (Some (Some 0)) in
        let l2 := map2 (fun x (bb : bin) => if Reqb (snd bb) 0 then Some 0 else x) l1 b in
        let mask := map (fun x => ext_ltb x t) l2 in
        Ok (map2 (fun (m : bool) x => if m then Some 0 else x) mask l2, mask)
      else Ok (st_left s, map (fun _ => true) n));
  let b' := update_bin_ub b mask in
  do ne <- get;
  do en <- lift (let! prev := remap_dict mapping (st_en s) (Some None) in
                 recalc_new_rates shape2 b' (en_fns c) ne n sg prev (Some mask));
  do ab <- lift (let! prev := remap_dict mapping (st_abs s) (Some None) in
                 recalc_new_rates shape1 (lbs b') (abs_fns c) ne n sg prev (Some mask));
  do rel <- lift (let! prev := remap_dict mapping (st_rel s) (Some None) in
                  recalc_new_rates shape1 (lbs b') (rel_fns c) ne n sg prev (Some mask));
  ret {| st_bins := b'; st_dens := n; st_subs := sg; st_en := en; st_rel := rel; st_abs := ab;
         st_left := left'; st_elapsed := st_elapsed s + t |}.

(** What the callback gets (L272-274): positional arguments, in the order
    energy, absolute, relative, into a tuple whose fields are energy,
    relative, absolute. *)
Definition callback_report (s : tstate) : result :=
  {| r_time := st_elapsed s; r_gamma := lbs (st_bins s); r_dens := st_dens s; r_subs := st_subs s;
     r_en := energy_changes_lb (st_en s); r_rel := st_abs s; r_abs := st_rel s |}.

(** What evaluate() returns, L278-279 *)
Definition final_report (s : tstate) : result :=
  {| r_time := st_elapsed s; r_gamma := lbs (st_bins s); r_dens := st_dens s; r_subs := st_subs s;
     r_en := energy_changes_lb (st_en s); r_rel := st_rel s; r_abs := st_abs s |}.

(** The while loop, L232-276: final state of blob.n_e, the states after each
    completed pass, and the outcome. *)
Fixpoint loop (fuel : nat) (s : tstate) (ne : dist) : dist * list tstate * res tstate :=
  if Rltb (st_elapsed s) (total c) then
    match fuel with
    | O => (ne, [], Err OutOfFuel)
    | S fuel' =>
        match step s ne with
        | (ne', Err e) => (ne', [], Err e)
        | (ne', Ok s') =>
            let '(ne'', tr, r) := loop fuel' s' ne' in (ne'', s' :: tr, r)
        end
    end
  else (ne, [], Ok s).

(** evaluate(), L213-279: blob.n_e afterwards, the callback arguments, and the
    returned value or the exception. *)
Definition evaluate (fuel : nat) (ne : dist) : dist * list result * res result :=
  match initial_values ne with
  | Err e => (ne, [], Err e)
  | Ok s => let '(ne', tr, r) := loop fuel s ne in (ne', map callback_report tr, rmap final_report r)
  end.

End Evolution.

(** remove_empty_densities, _time_evolution_utils.py L222-231 (boolean mask
    indexing; [remap] with a boolean mask never finds -1). *)
Definition remove_empty_densities (r : result) : res result :=
  let mask := map (fun d => Rltb 0 d) (r_dens r) in
  let! subs := remap_subgroups_density (mask_to_mapping mask) (r_subs r) in
  let sel (d : rates R) := map (fun kv => (fst kv, select mask (snd kv))) d in
  Ok {| r_time := r_time r; r_gamma := select mask (r_gamma r); r_dens := select mask (r_dens r);
        r_subs := subs; r_en := sel (r_en r); r_rel := sel (r_rel r); r_abs := sel (r_abs r) |}.

(** The constructor, L103-191. *)
Inductive step_arg := SQuantity (s : R) | SString (s : string) | SOther.
(** functions argument: a dict, an iterable of functions with their str(), a
    single function, or None *)
(** the functions argument of the constructor, L130-140: a dict, an iterable of functions with
    their str(), a single function, or None *)
Inductive fns_arg :=
| FDict (d : list (string * GammaFn))
| FList (l : list (string * GammaFn))
| FOne (name : string) (f : GammaFn)
| FNone.

(** {str(v): v for v in l}: a repeated key keeps its first position and takes
    the last value *)
(** d[k] = v on a Python dict, used by the comprehensions of L131, L134, L138 *)
Fixpoint dict_set {A : Type} (k : string) (v : A) (d : list (string * A)) : list (string * A) :=
  match d with
  | [] => [(k, v)]
  | (k', v') :: d' => if String.eqb k k' then (k', v) :: d' else (k', v') :: dict_set k v d'
  end.
(** the comprehensions of L131, L134, L138 *)
Definition dict_of {A : Type} (l : list (string * A)) : list (string * A) :=
  fold_left (fun d kv => dict_set (fst kv) (snd kv) d) l [].
(** L130-140; a None energy function argument is kept under the key "None" and
    fails when called (TypeError: 'NoneType' object is not callable) *)
Definition fns_dict (energy : bool) (a : fns_arg) : list (string * GammaFn) :=
  match a with
  | FDict d => d
  | FList l => dict_of l
  | FOne n f => [(n, f)]
  | FNone => if energy then [("None"%string, fun _ _ => Err (TypeError "'NoneType' object is not callable"))] else []
  end.

(** the arguments of __init__, L103-121, and what it reads of the blob (L157-159) *)
Record args := {
  a_total : R;
  a_en : fns_arg;
  a_rel : fns_arg;
  a_abs : fns_arg;
  a_step : step_arg;
  a_g0 : option (list R);
  a_bounds : option (R * R);
  a_creep : R;
  a_merge : option R;
  a_maxE : R;
  a_maxD : R;
  a_maxI : R;
  a_optimize : option bool;
  a_method : string;       (* already lower-cased *)
  a_subgroups : option (list (list string));
  a_subinit : option (list (list R));
  (* from the blob *)
  b_gmin : R;
  b_gmax : R;
  b_size : nat;
  b_mec2 : R
}.

(** np.logspace(a, b, n) with a = log10 lo, b = log10 hi: 10**(a + i (b-a)/(n-1)) *)
Definition logspace (np : numpy) (lo hi : R) (n : nat) : list R :=
  let a := lg np lo in let b := lg np hi in
  map (fun i => p10 np (a + INR i * ((b - a) / INR (n - 1)))) (seq 0 n).

(** L157-159 *)
Definition default_grid (np : numpy) (a : args) : list R :=
  let lo := Rmax (b_gmin a) (match a_bounds a with Some bd => fst bd | None => 0 end) in
  let hi := match a_bounds a with Some bd => Rmin (b_gmax a) (snd bd) | None => b_gmax a end in
  logspace np lo hi (b_size a).

(** np.allclose(x, 1.0, atol=1e-6) with rtol = 1e-5: |x - 1| <= atol + rtol*|1| *)
Definition close_to_1 (x : R) : bool := Rleb (Rabs (x - 1)) (1 / 10 ^ 6 + 1 / 10 ^ 5).

(** if not b: raise ValueError(msg), L129-190 *)
Definition guard (b : bool) (msg : string) : res unit := if b then Ok tt else Err (ValueError msg).

(** number of columns of a (rectangular) matrix; a matrix with no rows is
    modelled with zero columns *)
(** subgroups_initial_density.shape[1], L189 *)
Definition ncols (m : list (list R)) : nat := match m with [] => O | r :: _ => length r end.

(** __init__, L103-191, statement by statement *)
Definition te_init (np : numpy) (a : args) : res cfg :=
  let! sd := match a_step a with
             | SQuantity s => Ok (Fixed s)
             | SString s => if String.eqb s "auto" then Ok Auto
                            else Err (ValueError "step_duration must be a time Quantity, or a string auto")
             | SOther => Err (ValueError "step_duration must be a time Quantity, or a string auto")
             end in
  let en := fns_dict true (a_en a) in
  let rel := fns_dict false (a_rel a) in
  let ab := fns_dict false (a_abs a) in
  let! _ := guard (negb (existsb (fun k => mem_key k rel || mem_key k ab) (map fst en)
                         || existsb (fun k => mem_key k ab) (map fst rel)))
                  "Found duplicate keys of energy change or injection functions" in
  let! _ := match a_bounds a, a_g0 a with
            | Some bd, Some g =>
                let! _ := guard (negb (existsb (fun x => Rltb x (fst bd)) g))
                  "initial_gamma_array might not contain elements smaller than gamma_min" in
                guard (negb (existsb (fun x => Rltb (snd bd) x) g))
                  "initial_gamma_array might not contain elements greater than gamma_max"
            | _, _ => Ok tt
            end in
  let! _ := match a_g0 a with
            | Some g => guard (strictly_increasingb g) "initial_gamma_array must be strictly increasing"
            | None => Ok tt
            end in
  let g := match a_g0 a with Some g => g | None => default_grid np a end in
  let is_auto := match sd with Auto => true | Fixed _ => false end in
  let! _ := guard (negb (match a_optimize a with Some true => true | _ => false end && negb is_auto))
                  "optimize_recalculating_slow_rates is only supported with automatic step duration" in
  let opt := match a_optimize a with None => is_auto | Some b => b end in
  let! m := if String.eqb (a_method a) "heun" then Ok Heun
            else if String.eqb (a_method a) "euler" then Ok Euler
            else Err (ValueError "Invalid method") in
  let! _ := guard (negb (opt && match m with Heun => true | Euler => false end))
                  "Heun method is not supported when optimize_recalculating_slow_rates is set" in
  let! _ := guard (forallb (fun k => mem_key k en || mem_key k rel || mem_key k ab)
                           (concat (match a_subgroups a with Some s => s | None => [] end)))
                  "Function not defined" in
  let! _ := match a_subinit a with
            | None => Ok tt
            | Some s =>
                let! _ := guard (forallb close_to_1 (col_sum (ncols s) s)) "Initial densities should sum to 1.0" in
                let! _ := guard (match a_subgroups a with None => false | Some _ => true end)
                                "subgroups_initial_density provided without subgroups" in
                match a_g0 a with
                | None => Err (ValueError "subgroups_initial_density provided without initial_gamma_array")
                | Some g => guard (Nat.eqb (ncols s) (length g)) "Incorrect shape for subgroups_initial_density"
                end
            end in
  Ok {| total := a_total a; stepd := sd; en_fns := en; rel_fns := rel; abs_fns := ab; g0 := g;
        bounds := a_bounds a; creep := a_creep a; merge_thr := a_merge a; maxE := a_maxE a; maxD := a_maxD a;
        maxI := a_maxI a; optimize := opt; method := m; subgroups := a_subgroups a; subinit := a_subinit a;
        mec2 := b_mec2 a |}.
