(** Model of /repo/agnpy/fit/data.py.  The table is the list of its rows with
    the columns the loaders read. *)
From Verif Require Import Base TEUtils.
From Coq Require Import String List Ascii.
Import ListNotations.
Open Scope string_scope.
Open Scope list_scope.
Open Scope R_scope.

Record row := { instrument : string; e_ref : R; e2dnde : R; e2dnde_errn : R; e2dnde_errp : R }.

(** order of the instrument names *)
(** order of the names in group_by, fit/data.py L34, L117 *)
Definition str_leb (a b : string) : bool := match String.compare a b with Gt => false | _ => true end.
(** sorted distinct names of group_by, fit/data.py L34, L117 *)
Fixpoint insert_key (k : string) (l : list string) : list string :=
  match l with
  | [] => [k]
  | x :: l' => if String.eqb k x then l else if str_leb k x then k :: l else x :: insert_key k l'
  end.
(** sorted distinct names of group_by, fit/data.py L34, L117 *)
Definition keys (t : list row) : list string := fold_right (fun r l => insert_key (instrument r) l) [] t.
(** table.group_by("instrument").groups, L34 and L117: one group for each name,
    names in increasing order, rows in their original order *)
Definition groups (t : list row) : list (list row) :=
  map (fun k => filter (fun r => String.eqb (instrument r) k) t) (keys t).
(** tab["instrument"][0]; groups are not empty *)
(** tab["instrument"][0], fit/data.py L42, L120 *)
Definition group_name (g : list row) : string := match g with r :: _ => instrument r | [] => "" end.

(** systematics_dict: name and relative error; keys are unique *)
(** argument systematics_dict, fit/data.py L9, L92 *)
Definition syst_dict := list (string * R).

(** the loop over the keys, L51-54 and L124-127: the local variable keeps its
    value if no key matches *)
Definition syst_loop {A : Type} (name : string) (d : syst_dict) (f : R -> A) (init : A) : A :=
  fold_left (fun acc kv => if String.eqb name (fst kv) then f (snd kv) else acc) d init.

(** load_sherpa_flux_points, L36-61.  [stale] is the local variable
    e2dnde_err_syst, unbound ([None]) before the first assignment. *)
Record sherpa_arrays := { sh_x : list R; sh_y : list R; sh_stat : list R; sh_syst : list R }.
(** fit/data.py L41-61 *)
Fixpoint sherpa_loop (d : option syst_dict) (stale : option (list R)) (gs : list (list row)) (acc : sherpa_arrays) : res sherpa_arrays :=
  match gs with
  | [] => Ok acc
  | tab :: gs' =>
      let name := group_name tab in
      let flux := map e2dnde tab in
      let syst := match d with
                  | Some dict => syst_loop name dict (fun s => Some (map (Rmult s) flux)) stale
                  | None => Some (map (fun _ => 0) flux)
                  end in
      match syst with
      | None => Err UnboundLocalError
      | Some err =>
          sherpa_loop d syst gs' {| sh_x := sh_x acc ++ map e_ref tab; sh_y := sh_y acc ++ flux;
                                    sh_stat := sh_stat acc ++ map (fun r => (e2dnde_errn r + e2dnde_errp r) / 2) tab;
                                    sh_syst := sh_syst acc ++ err |}
      end
  end.
(** Data1D(...), L63: sherpa refuses errors of another length (DataErr, here
    ValueError); notice, L66: points with E_min <= x <= E_max *)
Record sherpa_data := { sd_arrays : sherpa_arrays; sd_mask : list bool }.
(** fit/data.py L9-68 *)
Definition load_sherpa_flux_points (t : list row) (E_min E_max : R) (d : option syst_dict) : res sherpa_data :=
  let! a := sherpa_loop d None (groups t) {| sh_x := []; sh_y := []; sh_stat := []; sh_syst := [] |} in
  if Nat.eqb (length (sh_syst a)) (length (sh_x a)) then
    Ok {| sd_arrays := a; sd_mask := map (fun x => Rleb E_min x && Rleb x E_max) (sh_x a) |}
  else Err (ValueError "size mismatch between independent axis and syserror").

(** gammapy's FluxPoints of one group: reference fluxes and errors in units of
    them (dnde = norm * dnde_ref); only what L83-89 use *)
Record flux_points := { fp_name : string; fp_energy : list R; dnde : list R; dnde_ref : list R; norm_errn : list R; norm_errp : list R }.
(** flux_points.dnde_errn.data, .dnde_errp.data *)
(** FluxPoints.dnde_errn of gammapy, read in fit/data.py L71-89 *)
Definition dnde_errn (f : flux_points) : list R := map2 Rmult (norm_errn f) (dnde_ref f).
(** FluxPoints.dnde_errp of gammapy, read in fit/data.py L71-89 *)
Definition dnde_errp (f : flux_points) : list R := map2 Rmult (norm_errp f) (dnde_ref f).
(** add_systematic_errors_gammapy_flux_points, L71-89 *)
Definition add_systematic (s : R) (f : flux_points) : flux_points :=
  let err_syst := map (Rmult s) (dnde f) in
  let quad a b := sqrt (a ^ 2 + b ^ 2) in
  let errn := map2 quad (dnde_errn f) err_syst in
  let errp := map2 quad (dnde_errp f) err_syst in
  {| fp_name := fp_name f; fp_energy := fp_energy f; dnde := dnde f; dnde_ref := dnde_ref f;
     norm_errn := map2 Rdiv errn (dnde_ref f); norm_errp := map2 Rdiv errp (dnde_ref f) |}.
(** FluxPoints.from_table(group, sed_type="e2dnde"), L121: dnde = e2dnde / e_ref^2;
    gammapy chooses the reference spectrum [ref], E^-2 by default *)
Definition from_table (ref : R -> R) (g : list row) : flux_points :=
  {| fp_name := group_name g; fp_energy := map e_ref g;
     dnde := map (fun r => e2dnde r / e_ref r ^ 2) g; dnde_ref := map (fun r => ref (e_ref r)) g;
     norm_errn := map (fun r => e2dnde_errn r / e_ref r ^ 2 / ref (e_ref r)) g;
     norm_errp := map (fun r => e2dnde_errp r / e_ref r ^ 2 / ref (e_ref r)) g |}.
(** load_gammapy_flux_points, L92-137: one dataset for each group.  The energy
    mask of L133 is gammapy's own choice of bins and is not modelled. *)
Definition load_gammapy_flux_points (ref : R -> R) (t : list row) (d : option syst_dict) : list flux_points :=
  map (fun g =>
    let data := from_table ref g in
    match d with
    | Some dict => fold_left (fun f kv => if String.eqb (group_name g) (fst kv) then add_systematic (snd kv) f else f) dict data
    | None => data
    end) (groups t).
