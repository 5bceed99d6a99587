(** Vocabulary in which C18 and C20 are stated: which constructor arguments of
    TimeEvolution are documented as acceptable.  Nothing here is used by the
    model. *)
From Verif Require Import Base TEUtils TimeEvolution Spec_TE.

(** The names under which a function argument is registered: the keys of a
    dictionary, the names of the functions of a list, the name of a single
    function; a missing energy function is called "None", missing injection
    functions have no name. *)
Definition registered (energy : bool) (a : fns_arg) (k : string) : Prop :=
  match a with
  | FDict d => exists f, In (k, f) d
  | FList l => exists f, In (k, f) l
  | FOne n _ => k = n
  | FNone => energy = true /\ k = "None"%string
  end.

(** Slow rates are reused: asked for, or left unspecified with automatic steps. *)
Definition reuse_wanted (a : args) : Prop :=
  a_optimize a = Some true \/ (a_optimize a = None /\ a_step a = SString "auto").

(** The initial split is a two-dimensional array: all rows are equally long. *)
Definition rectangular (rows : list (list R)) : Prop :=
  forall r r', In r rows -> In r' rows -> length r = length r'.

Record accepted (a : args) : Prop := {
  ac_step : a_step a = SString "auto" \/ exists s, a_step a = SQuantity s;
  ac_distinct : forall k, ~ (registered true (a_en a) k /\ registered false (a_rel a) k) /\
                          ~ (registered true (a_en a) k /\ registered false (a_abs a) k) /\
                          ~ (registered false (a_rel a) k /\ registered false (a_abs a) k);
  ac_inside : forall lo hi g x, a_bounds a = Some (lo, hi) -> a_g0 a = Some g -> In x g -> lo <= x <= hi;
  ac_increasing : forall g, a_g0 a = Some g -> increasing g;
  ac_reuse : a_optimize a = Some true -> a_step a = SString "auto";
  ac_method : a_method a = "heun"%string \/ a_method a = "euler"%string;
  ac_heun : a_method a = "heun"%string -> ~ reuse_wanted a;
  ac_known : forall gs names k, a_subgroups a = Some gs -> In names gs -> In k names ->
               registered true (a_en a) k \/ registered false (a_rel a) k \/ registered false (a_abs a) k;
  ac_split : forall rows, a_subinit a = Some rows ->
               a_subgroups a <> None /\
               (exists g, a_g0 a = Some g /\ forall first, nth_error rows 0 = Some first -> length first = length g) /\
               (rows = [] -> a_g0 a = Some []) /\
               forall j first, nth_error rows 0 = Some first -> (j < length first)%nat ->
                 Rabs (Rsum (col j rows) - 1) <= 11 / 10 ^ 6
}.

(** C23: the same configuration with another total time; the configuration a
    user builds to carry on from a result [r]: total time [T], the gammas of
    [r] as initial_gamma_array, its subgroup table as initial split (if there
    are subgroups); a report [delta] seconds later. *)
Definition with_total (T : R) (c : cfg) : cfg :=
  {| total := T; stepd := stepd c; en_fns := en_fns c; rel_fns := rel_fns c; abs_fns := abs_fns c; g0 := g0 c;
     bounds := bounds c; creep := creep c; merge_thr := merge_thr c; maxE := maxE c; maxD := maxD c; maxI := maxI c;
     optimize := optimize c; method := method c; subgroups := subgroups c; subinit := subinit c; mec2 := mec2 c |}.
Definition restart (T : R) (r : result) (c : cfg) : cfg :=
  {| total := T; stepd := stepd c; en_fns := en_fns c; rel_fns := rel_fns c; abs_fns := abs_fns c; g0 := r_gamma r;
     bounds := bounds c; creep := creep c; merge_thr := merge_thr c; maxE := maxE c; maxD := maxD c; maxI := maxI c;
     optimize := optimize c; method := method c; subgroups := subgroups c;
     subinit := match subgroups c with None => None | Some _ => Some (r_subs r) end; mec2 := mec2 c |}.
Definition later (delta : R) (r : result) : result :=
  {| r_time := r_time r + delta; r_gamma := r_gamma r; r_dens := r_dens r; r_subs := r_subs r; r_en := r_en r; r_rel := r_rel r; r_abs := r_abs r |}.

(** C08, C73: a list with [x] put in front if [low] and [y] behind if [high]. *)
Definition framed {A : Type} (low high : bool) (x y : A) (l : list A) : list A :=
  (if low then [x] else []) ++ l ++ (if high then [y] else []).
