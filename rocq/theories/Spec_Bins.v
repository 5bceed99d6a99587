(** Specification of what a step does with the bins it has moved (C82). *)
From Coq Require Import Sorted.
From Verif Require Import Base TEUtils TimeEvolution Spec_TE Spec_Init.

(** A point of the table of a state: Lorentz factor (lower edge of a bin),
    density, and the fractions of that density that belong to the subgroups. *)
Record cell := { at_gamma : R; density : R; shares : list R }.
Definition cells (b : list bin) (n : list R) (split : list (list R)) : list cell :=
  map (fun i => {| at_gamma := fst (nth i b (0, 0)); density := nth i n 0; shares := map (fun row => nth i row 0) split |}) (seq 0 (length b)).

(** [l'] is [l] with every point at a [joined] position united with its
    predecessor: each remaining position starts a run that ends before the next
    remaining one.  A run of one point stays as it is; a longer one becomes one
    point at the geometric mean, with the density [f] gives there (or, without
    [f], the average density), and the shares of its first point. *)
Definition united (joined : nat -> Prop) (f : option (R -> R)) (l l' : list cell) : Prop :=
  exists starts, StronglySorted lt starts /\ (forall i, In i starts <-> (i < length l)%nat /\ ~ joined i) /\
    Forall2 (fun i x' => exists k x, nth_error l i = Some x /\ (1 <= k)%nat /\ (i + k <= length l)%nat /\
        (forall m, (i < m < i + k)%nat -> joined m) /\ ((i + k)%nat = length l \/ ~ joined (i + k)%nat) /\
        (k = 1%nat -> x' = x) /\
        ((2 <= k)%nat -> let run := firstn k (skipn i l) in
           at_gamma x' = exp (average (map (fun y => ln (at_gamma y)) run)) /\
           density x' = match f with Some f => f (at_gamma x') | None => average (map density run) end /\
           shares x' = shares x)) starts l'.

(** neighbours with the same logarithm *)
Definition same_log (np : numpy) (l : list cell) (i : nat) : Prop :=
  (1 <= i)%nat /\ exists x y, nth_error l (i - 1) = Some x /\ nth_error l i = Some y /\ lg np (at_gamma x) = lg np (at_gamma y).
(** neighbours closer than [thr]; the second and the last point are exempt *)
Definition too_near (np : numpy) (thr : R) (l : list cell) (i : nat) : Prop :=
  (2 <= i)%nat /\ (S i < length l)%nat /\ exists x y, nth_error l (i - 1) = Some x /\ nth_error l i = Some y /\ lg np (at_gamma y) - lg np (at_gamma x) < thr.

(** [l'] is [l] in ascending order, without points that share a logarithm *)
Definition ordered (np : numpy) (f : option (R -> R)) (l l' : list cell) : Prop :=
  exists p, Permutation l p /\ StronglySorted Rle (map at_gamma p) /\ united (same_log np p) f p l'.

(** The points [l] after sorting, uniting, cutting at the bounds and filling
    gaps at the bounds.  [f]: the distribution of the moved points; [first],
    [last_]: rates of energy change at the first and the last bin of the step. *)
Definition settled (np : numpy) (c : cfg) (f : R -> R) (first last_ : R) (l l' : list cell) : Prop :=
  exists l1 l2, ordered np (Some f) l l1 /\
    match merge_thr c with None => l2 = l1 | Some thr => united (too_near np thr l1) (Some f) l1 l2 end /\
    match bounds c with
    | None => l' = l2
    | Some (lo, hi) =>
        let top := hi / (1 + 1 / 10000) in
        let inside := filter (fun x => Rleb lo (at_gamma x) && Rleb (at_gamma x) top) l2 in
        exists x0 low high,
          let new g := {| at_gamma := g; density := 0; shares := 1 :: map (fun _ => 0) (tl (shares x0)) |} in
          head inside = Some x0 /\ l' = framed low high (new lo) (new top) inside /\
          (low = true <-> creep c <= lg np (at_gamma x0) - lg np lo /\ 0 < first) /\
          (high = true <-> creep c <= lg np hi - lg np (at_gamma (last inside x0)) /\ last_ < 0)
    end.

(** distribution [d] through the points of a table: those of non-zero density,
    at least two of them, after sorting and uniting with averages *)
Definition through (np : numpy) (l : list cell) (d : dist) : Prop :=
  exists l', ordered np None l l' /\
    ((forall x, In x l' -> density x = 0) /\ (forall g, dist_eval np d g = 0) \/
     let pts := filter (fun x => negb (Reqb (density x) 0)) l' in
     (2 <= length pts)%nat /\ increasing (map (fun x => lg np (at_gamma x)) pts) /\
     d = DInterp (map at_gamma pts) (map density pts)).
