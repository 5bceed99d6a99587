(** Specification of a step of TimeEvolution with subgroups (C17, C81). *)
From Verif Require Import Base TEUtils TimeEvolution Spec_TE.

(** entry of a table with one row per subgroup *)
Definition entry (rows : list (list R)) (g i : nat) : R := nth i (nth g rows []) 0.

(** The particles of subgroup [g] of state [s] after a time [dt], on bins of
    their own: edges moved at rates [rl g i], [ru g i]; of the density of a bin
    the fraction [split] is carried along with the bin; injection at the rates
    of the subgroup, the relative one in proportion to the subgroup in [s]. *)
Definition group_moved (c : cfg) (s : tstate) (split : list (list R)) (dt : R) (rl ru : nat -> nat -> R) (g : nat) (t : list bin * list R) : Prop :=
  length (fst t) = length (st_bins s) /\ length (snd t) = length (st_bins s) /\
  forall i l u, nth_error (st_bins s) i = Some (l, u) ->
    let v := nth i (st_dens s) 0 in
    let l' := l + rl g i * dt / mec2 c in let u' := u + ru g i * dt / mec2 c in
    exists v', nth_error (fst t) i = Some (l', u') /\ nth_error (snd t) i = Some v' /\ 0 < l' < u' /\ 0 <= v' /\
      v' * (u' - l') = v * entry split g i * (u - l) +
        (v * entry (st_subs s) g i * group_rate c (fun x => x) (st_rel s) g i + group_rate c (fun x => x) (st_abs s) g i) * dt * (u' - l').

(** the points of a table with non-zero density *)
Definition points (t : list bin * list R) : list (R * R) :=
  filter (fun p => negb (Reqb (snd p) 0)) (combine (map fst (fst t)) (snd t)).
(** grid [g'] is [g], but its first lower edge may have been raised to [lo] and
    its last one reduced to [hi], by less than one part in 1e10 *)
Definition touched (lo hi : R) (g g' : list bin) : Prop :=
  length g' = length g /\
  forall i l u, nth_error g i = Some (l, u) -> exists l', nth_error g' i = Some (l', u) /\
    (l' = l \/ (i = 0%nat /\ l' = lo /\ l < lo /\ (lo - l) / l < 1 / 10 ^ 10) \/
     (S i = length g /\ l' = hi /\ hi < l /\ (l - hi) / hi < 1 / 10 ^ 10)).
(** [parts]: densities of the tables [ts] on the grid [g], which becomes [g']:
    a table that is zero, or on the same bins, is taken as it is; any other is
    interpolated between its non-zero points. *)
Inductive regrid (np : numpy) : list bin -> list (list bin * list R) -> list bin -> list (list R) -> Prop :=
| rg_nil g : regrid np g [] g []
| rg_same g t ts g' parts : (forall v, In v (snd t) -> v = 0) \/ fst t = g ->
    regrid np g ts g' parts -> regrid np g (t :: ts) g' (snd t :: parts)
| rg_interp g t ts xs ns g1 g' parts : ~ (forall v, In v (snd t) -> v = 0) -> fst t <> g ->
    xs = map fst (points t) -> ns = map snd (points t) -> (2 <= length xs)%nat -> increasing (map (lg np) xs) ->
    touched (list_min xs) (list_max xs) g g1 ->
    regrid np g1 ts g' parts ->
    regrid np g (t :: ts) g' (map (fun x => dist_eval np (DInterp xs ns) (fst x)) g1 :: parts).
(** the tables of all subgroups put on the grid of the first one: [b], [n] and
    the split of [n]; in bins without particles the split stays as [old] *)
Definition put_together (np : numpy) (old : list (list R)) (tables : list (list bin * list R)) (b : list bin) (n : list R) (split : list (list R)) : Prop :=
  exists t0 ts parts, tables = t0 :: ts /\ regrid np (fst t0) ts b parts /\
    length n = length b /\ length split = length tables /\ (forall row, In row split -> length row = length b) /\
    forall i, (i < length b)%nat ->
      let tot := Rsum (map (fun p => nth i p 0) (snd t0 :: parts)) in
      nth i n 0 = tot /\
      forall g, (g < length tables)%nat -> (tot <> 0 -> entry split g i = entry (snd t0 :: parts) g i / tot) /\ (tot = 0 -> entry split g i = entry old g i).
(** a step without merging, sorting or cutting at the bounds leaves [b], [n], [split] *)
Definition kept (np : numpy) (c : cfg) (s' : tstate) (b : list bin) (n : list R) (split : list (list R)) : Prop :=
  bounds c = None -> merge_thr c = None -> increasing (map (lg np) (map fst b)) ->
  map fst (st_bins s') = map fst b /\ st_dens s' = n /\ st_subs s' = split.
(** tables [t0 :: ts] that can be put together: all on the same bins, or each
    with at least two points of non-zero density, in order; empty ones never
    matter *)
Definition can_join (np : numpy) (t0 : list bin * list R) (ts : list (list bin * list R)) : Prop :=
  let empty (t : list bin * list R) := forall v, In v (snd t) -> v = 0 in
  (forall t, In t ts -> empty t \/ fst t = fst t0) \/
  (forall t, In t ts -> empty t \/ (2 <= length (points t))%nat /\ increasing (map (fun p => lg np (fst p)) (points t))).
