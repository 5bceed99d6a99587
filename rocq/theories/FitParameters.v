(** Model of the conversions of agnpy.fit.core.Parameter, /repo/agnpy/fit/core.py. *)
From Verif Require Import Base Spectra Fit.
From Coq Require Import String List.
Import ListNotations.
Open Scope string_scope.
Open Scope list_scope.
Open Scope R_scope.

(** the arguments handed to sherpa.models.model.Parameter, core.py L20-41;
    units are left out (as in fit_par) *)
Record sherpa_par := { sh_model : string; sh_name : string; sh_val : R; sh_min : R; sh_max : R; sh_hard_max : R; sh_frozen : bool }.
(** to_sherpa_parameter, core.py L20-41 *)
Definition to_sherpa_parameter (modelname : string) (p : fit_par) : sherpa_par :=
  let hard_max := 3.40282e38 in
  let hard_max := if Rltb hard_max (par_max p) then 1e50 else hard_max in
  {| sh_model := modelname; sh_name := par_name p; sh_val := par_value p; sh_min := par_min p; sh_max := par_max p;
     sh_hard_max := hard_max; sh_frozen := par_frozen p |}.
(** the arguments handed to gammapy.modeling.Parameter, and
    to_gammapy_parameter, core.py L43-52 *)
Record gammapy_par := { gp_name : string; gp_value : R; gp_min : R; gp_max : R; gp_frozen : bool }.
(** fit/core.py L43-52 *)
Definition to_gammapy_parameter (p : fit_par) : gammapy_par :=
  {| gp_name := par_name p; gp_value := par_value p; gp_min := par_min p; gp_max := par_max p; gp_frozen := par_frozen p |}.
(** the parameters of the four models: sherpa_wrapper.py L344-367 (model name
    "ssc", L343) and L398-435 ("ec", L397); gammapy_wrapper.py L126-140 and
    L212-235, norm at the end *)
Definition sherpa_ssc_pars (s : spectrum) : res (list sherpa_par) := rmap (map (to_sherpa_parameter "ssc")) (ssc_parameters s).
(** sherpa_wrapper.py L398-435 *)
Definition sherpa_ec_pars (s : spectrum) (targets : list string) : res (list sherpa_par) := rmap (map (to_sherpa_parameter "ec")) (ec_parameters s targets).
(** gammapy_wrapper.py L126-140 *)
Definition gammapy_ssc_pars (s : spectrum) : res (list gammapy_par) := rmap (fun l => map to_gammapy_parameter (l ++ [norm_parameter])) (ssc_parameters s).
(** gammapy_wrapper.py L212-235 *)
Definition gammapy_ec_pars (s : spectrum) (targets : list string) : res (list gammapy_par) := rmap (fun l => map to_gammapy_parameter (l ++ [norm_parameter])) (ec_parameters s targets).
