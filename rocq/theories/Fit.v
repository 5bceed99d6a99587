(** Model of /repo/agnpy/fit/core.py, gammapy_wrapper.py, sherpa_wrapper.py and
    models.py.  sherpa and gammapy only store the parameters and hand their
    current values back: sherpa as a list in the order of the model's
    parameters, gammapy as keyword arguments.  Their range checks, units and
    minimisers are not modelled.  astropy's Distance(z=z).to("cm") is [dist]. *)
From Verif Require Import Base TEUtils NumpyInst MathUtils Conversion Spectra Blob Synchrotron Geometry Kernels SSC Targets ExternalCompton RadProc.
From Coq Require Import String List.
Import ListNotations.
Open Scope string_scope.
Open Scope list_scope.
Open Scope R_scope.

(** Parameter, core.py L8-18; [unit] is dropped, sherpa ignores it and gammapy
    multiplies by it a number that the code reads back in the same unit *)
Record fit_par := { par_name : string; par_value : R; par_min : R; par_max : R; par_frozen : bool }.
(** Parameter.__init__, fit/core.py L12-18 *)
Definition mk_par (n : string) (v lo hi : R) (f : bool) : fit_par := {| par_name := n; par_value := v; par_min := lo; par_max := hi; par_frozen := f |}.

(** vars(n_e) without the attributes popped in core.py L77-85, in the order the
    constructors of spectra.py assign them: L36-38 (gamma_min, gamma_max), then
    L265-266, L350-353, L461-464, L561-563, L655-659, L769 *)
Definition attributes (s : spectrum) : list (string * R) :=
  match s with
  | PowerLaw k p a b => [("gamma_min", a); ("gamma_max", b); ("k", k); ("p", p)]
  | BrokenPowerLaw k p1 p2 gb a b => [("gamma_min", a); ("gamma_max", b); ("k", k); ("p1", p1); ("p2", p2); ("gamma_b", gb)]
  | LogParabola k p q g0 a b => [("gamma_min", a); ("gamma_max", b); ("k", k); ("p", p); ("q", q); ("gamma_0", g0)]
  | ExpCutoffPowerLaw k p gc a b => [("gamma_min", a); ("gamma_max", b); ("k", k); ("p", p); ("gamma_c", gc)]
  | ExpCutoffBrokenPowerLaw k p1 p2 gc gb a b => [("gamma_min", a); ("gamma_max", b); ("k", k); ("p1", p1); ("p2", p2); ("gamma_c", gc); ("gamma_b", gb)]
  | Interpolated norm a b _ _ => [("gamma_min", a); ("gamma_max", b); ("norm", norm)]
  | EmptyDist a b => [("gamma_min", a); ("gamma_max", b)]
  end.
(** dictionary lookup *)
(** d[key], fit/core.py L90 *)
Fixpoint lookup (key : string) (d : list (string * R)) : option R :=
  match d with [] => None | (k, v) :: d' => if String.eqb k key then Some v else lookup key d' end.
(** key_order and the comprehension, core.py L89-90 *)
Definition key_order : list string := ["k"; "norm"; "p"; "p1"; "p2"; "q"; "gamma_c"; "gamma_b"; "gamma_0"; "gamma_min"; "gamma_max"].
(** fit/core.py L90 *)
Definition ordered (d : list (string * R)) : list (string * R) :=
  flat_map (fun key => match lookup key d with Some v => [(key, v)] | None => [] end) key_order.
(** the if chain of core.py L93-113; a name that matches no branch would leave
    [par] unbound in the first iteration: no attribute does *)
Definition spectral_par (nv : string * R) : res fit_par :=
  let '(name, value) := nv in
  if String.eqb name "k" then Ok (mk_par "log10_k" (log10 value) (- (15)) 15 false)
  else if String.eqb name "gamma_min" then Ok (mk_par "log10_gamma_min" (log10 value) 0 4 true)
  else if String.eqb name "gamma_max" then Ok (mk_par "log10_gamma_max" (log10 value) 4 8 true)
  else if existsb (String.eqb name) ["gamma_b"; "gamma_0"; "gamma_c"] then Ok (mk_par ("log10_" ++ name) (log10 value) 2 6 false)
  else if String.prefix "p" name then Ok (mk_par name value 1 5 false)
  else if String.eqb name "q" then Ok (mk_par name value 0.001 1 false)
  else if String.eqb name "norm" then Ok (mk_par "log10_norm" (log10 value) (- (3)) 3 false)
  else Err UnboundLocalError.
(** get_spectral_parameters_from_n_e, core.py L55-125 *)
Definition spectral_parameters (s : spectrum) : res (list fit_par) := mapM spectral_par (ordered (attributes s)).

(** make_emission_region_parameters_dict, core.py L128-180; [ec]: scenario "ec" rather than "ssc" *)
Definition emission_region_parameters (ec : bool) : list fit_par :=
  let common := [mk_par "z" 0.1 0.001 10 true; mk_par "delta_D" 10 1 100 false; mk_par "log10_B" (- (2)) (- (4)) 2 false; mk_par "t_var" 600 10 (PI * 1e7) false] in
  if ec then common ++ [mk_par "mu_s" 0 0 1 true; mk_par "log10_r" 18 16 22 true] else common.
(** "x" in targets *)
(** fit/core.py L183-236 *)
Definition has (t : string) (targets : list string) : bool := existsb (String.eqb t) targets.
(** make_targets_parameters_dict, core.py L183-236 *)
Definition targets_parameters (targets : list string) : list fit_par :=
  [mk_par "log10_L_disk" 45 42 48 true; mk_par "M_BH" 1e42 1e32 1e45 true; mk_par "m_dot" 1e26 1e24 1e30 true;
   mk_par "R_in" 1e14 1e12 1e16 true; mk_par "R_out" 1e17 1e12 1e19 true] ++
  (if has "blr" targets then [mk_par "xi_line" 0.6 0 1 true; mk_par "lambda_line" 1215.67 900 7000 true; mk_par "R_line" 1e17 1e16 1e18 true] else []) ++
  (if has "dt" targets then [mk_par "xi_dt" 0.6 0 1 true; mk_par "T_dt" 1e3 1e2 1e4 true; mk_par "R_dt" 3e18 1e17 1e20 true] else []).

(** parameters of the wrappers: sherpa_wrapper.py L347-367, L406-435; the
    gammapy ones (L126-140, L212-235) have [norm] at the end in addition *)
Definition ssc_parameters (s : spectrum) : res (list fit_par) := let! sp := spectral_parameters s in Ok (sp ++ emission_region_parameters false).
(** sherpa_wrapper.py L398-435, gammapy_wrapper.py L212-235 *)
Definition ec_parameters (s : spectrum) (targets : list string) : res (list fit_par) :=
  let! sp := spectral_parameters s in Ok (sp ++ emission_region_parameters true ++ targets_parameters targets).
(** gammapy_wrapper.py L126-140, L212-235: the norm of gammapy's models *)
Definition norm_parameter : fit_par := mk_par "norm" 1 0.1 10 true.

(** an argument of evaluate: a plain number, or a density in cm-3 *)
(** the elements of args in sherpa_wrapper.py L29-48 and of the results of gammapy_wrapper.py
    L24-37 *)
Inductive arg := ANum (x : R) | ADens (x : R).
(** 10 ** a: astropy refuses a dimensional exponent *)
Definition pow10_arg (a : arg) : res arg := match a with ANum x => Ok (ANum (pow10 x)) | ADens _ => Err (TypeError "Can only apply 'power' function to dimensionless quantities") end.
(** a * u.Unit("cm-3"), a number *)
(** sherpa_wrapper.py L29-48, gammapy_wrapper.py L24-37 *)
Definition dens_arg (a : arg) : res arg := match a with ANum x => Ok (ADens x) | ADens _ => Err (TypeError "cm-6 is not a density") end.
(** args[i] = f(args[i]); a negative index counts from the end *)
(** args[i] = f(args[i]), sherpa_wrapper.py L29-48 *)
Fixpoint update_at (i : nat) (f : arg -> res arg) (args : list arg) : res (list arg) :=
  match args, i with
  | [], _ => Err IndexError
  | a :: l, O => let! a' := f a in Ok (a' :: l)
  | a :: l, S j => let! l' := update_at j f l in Ok (a :: l')
  end.
(** args[-k] = f(args[-k]), sherpa_wrapper.py L29-48 *)
Definition update_neg (k : nat) (f : arg -> res arg) (args : list arg) : res (list arg) :=
  if Nat.ltb (length args) k then Err IndexError else update_at (length args - k) f args.

(** _scale_spectral_parameters, sherpa_wrapper.py L29-48 *)
Definition sherpa_scale (s : spectrum) (args : list arg) : res (list arg) :=
  match s with
  | Interpolated _ _ _ _ _ =>
      let! a := update_at 0 pow10_arg args in let! a := update_at 1 pow10_arg a in update_at 2 pow10_arg a
  | _ =>
      let! a := update_at 0 (fun x => let! y := pow10_arg x in dens_arg y) args in
      let! a := update_neg 2 pow10_arg a in
      let! a := update_neg 1 pow10_arg a in
      match s with
      | BrokenPowerLaw _ _ _ _ _ _ | LogParabola _ _ _ _ _ _ | ExpCutoffPowerLaw _ _ _ _ _ => update_neg 3 pow10_arg a
      | ExpCutoffBrokenPowerLaw _ _ _ _ _ _ _ => let! a := update_neg 3 pow10_arg a in update_neg 4 pow10_arg a
      | _ => Ok a
      end
  end.

(** _sort_spectral_parameters, gammapy_wrapper.py L24-37 *)
Definition gammapy_sort (names : list string) (s : spectrum) (kwargs : list (string * R)) : res (list arg) :=
  let! args := mapM (fun key => match lookup key kwargs with
                                | None => Err KeyError
                                | Some v => Ok (ANum (if String.prefix "log10_" key then pow10 v else v))
                                end) names in
  match s with Interpolated _ _ _ _ _ => Ok args | _ => update_at 0 dens_arg args end.

(** n_e.evaluate(gamma, * args) evaluates the class of n_e with other
    parameters (signatures: spectra.py L273, L367, L471, L570, L674, L800,
    L868).  A normalisation without its unit makes the SED have a wrong unit:
    TypeError stands for astropy's UnitConversionError. *)
Definition with_args (s : spectrum) (args : list arg) : res spectrum :=
  match s, args with
  | PowerLaw _ _ _ _, [ADens k; ANum p; ANum a; ANum b] => Ok (PowerLaw k p a b)
  | BrokenPowerLaw _ _ _ _ _ _, [ADens k; ANum p1; ANum p2; ANum gb; ANum a; ANum b] => Ok (BrokenPowerLaw k p1 p2 gb a b)
  | LogParabola _ _ _ _ _ _, [ADens k; ANum p; ANum q; ANum g0; ANum a; ANum b] => Ok (LogParabola k p q g0 a b)
  | ExpCutoffPowerLaw _ _ _ _ _, [ADens k; ANum p; ANum gc; ANum a; ANum b] => Ok (ExpCutoffPowerLaw k p gc a b)
  | ExpCutoffBrokenPowerLaw _ _ _ _ _ _ _, [ADens k; ANum p1; ANum p2; ANum gc; ANum gb; ANum a; ANum b] => Ok (ExpCutoffBrokenPowerLaw k p1 p2 gc gb a b)
  | Interpolated _ _ _ f df, [ANum norm; ANum a; ANum b] => Ok (Interpolated norm a b f df)
  | EmptyDist a b, _ => Ok (EmptyDist a b)
  | _, _ => Err (TypeError "wrong arguments of evaluate")
  end.

(** star unpacking of pars into args, x_1, ..., x_n *)
(** sherpa_wrapper.py L51-76, L78-151, L153-226, L228-326 *)
Definition star_unpack (n : nat) (pars : list R) : res (list R * list R) :=
  if Nat.ltb (length pars) n then Err (ValueError "not enough values to unpack")
  else Ok (firstn (length pars - n) pars, skipn (length pars - n) pars).

Section Fit.
Variable P : phys.
Variable dist : R -> res R.

(** gamma_to_integrate, gammapy_wrapper.py L20-21, sherpa_wrapper.py L25-26;
    external Compton does not change it (ExternalCompton.v) *)
Definition fit_gamma : list R := np_logspace 1 9 300.
(** R_b, gammapy_wrapper.py L52, sherpa_wrapper.py L64 (1 + z > 0) *)
Definition R_b_of (z delta_D t_var : R) : R := c_c P * t_var * delta_D / (1 + z).
(** energies in eV to Hz *)
(** sherpa_wrapper.py L51-76, gammapy_wrapper.py L161-182 *)
Definition eV_to_Hz (x : R) : R := x * eV_erg / c_h P.
(** epsilon_line, gammapy_wrapper.py L91, sherpa_wrapper.py L118; wavelength in Angstrom *)
Definition epsilon_of_line (lambda : R) : R := c_h P * c_c P / (lambda * 1e-8) / mec2_erg P.
(** epsilon_dt, gammapy_wrapper.py L100, sherpa_wrapper.py L192 *)
Definition epsilon_of_T (T : R) : R := 2.7 * (c_kB P * T / mec2_erg P).

(** synchrotron plus SSC, with default arguments; [grid] is the module array
    gamma_e_to_integrate, which both evaluations correct in place *)
(** sherpa_wrapper.py L51-76, gammapy_wrapper.py L161-182 *)
Definition synch_and_ssc (nu : list R) (z dl dd b rb : R) (s : spectrum) (ssa : bool) (grid : list R) : res (list R * list R) :=
  let! r1 := evaluate_sed_flux P nu z dl dd b rb s ssa trapz grid in
  let! r2 := ssc_evaluate_sed_flux P nu z dl dd b rb s ssa trapz (fst r1) in
  Ok (fst r2, map2 Rplus (snd r1) (snd r2)).

(** *** sherpa: calc, with the parameter values [pars] and energies [x] in eV *)
(** _evaluate_sed_ssc_scenario, L51-75 *)
Definition sherpa_ssc (s : spectrum) (ssa : bool) (pars x grid : list R) : res (list R * list R) :=
  let! ar := star_unpack 4 pars in
  match snd ar with
  | [z; delta_D; log10_B; t_var] =>
      let! args := sherpa_scale s (map ANum (fst ar)) in
      let B := pow10 log10_B in
      let! dl := dist z in
      let rb := R_b_of z delta_D t_var in
      let nu := map eV_to_Hz x in
      let! s' := with_args s args in
      synch_and_ssc nu z dl delta_D B rb s' ssa grid
  | _ => Err (ValueError "unpack")
  end.
(** _evaluate_sed_ec_blr_scenario, L78-150 *)
Definition sherpa_ec_blr (s : spectrum) (ssa : bool) (pars x grid : list R) : res (list R * list R) :=
  let! ar := star_unpack 14 pars in
  match snd ar with
  | [z; delta_D; log10_B; t_var; mu_s; log10_r; log10_L_disk; M_BH; m_dot; R_in; R_out; xi_line; lambda_line; R_line] =>
      let! args := sherpa_scale s (map ANum (fst ar)) in
      let B := pow10 log10_B in
      let! dl := dist z in
      let rb := R_b_of z delta_D t_var in
      let r := pow10 log10_r in
      let L_disk := pow10 log10_L_disk in
      let nu := map eV_to_Hz x in
      let! s' := with_args s args in
      let! gs := synch_and_ssc nu z dl delta_D B rb s' ssa grid in
      let! bb_disk := evaluate_multi_T_bb_norm_sed P nu z L_disk M_BH m_dot R_in R_out dl 1 in
      let ec_blr := ec_blr P nu z dl delta_D mu_s rb L_disk xi_line (epsilon_of_line lambda_line) R_line r s' trapz fit_gamma mu_to_integrate phi_to_integrate in
      Ok (fst gs, map2 Rplus (map2 Rplus (snd gs) bb_disk) ec_blr)
  | _ => Err (ValueError "unpack")
  end.
(** _evaluate_sed_ec_dt_scenario, L153-225 *)
Definition sherpa_ec_dt (s : spectrum) (ssa : bool) (pars x grid : list R) : res (list R * list R) :=
  let! ar := star_unpack 14 pars in
  match snd ar with
  | [z; delta_D; log10_B; t_var; mu_s; log10_r; log10_L_disk; M_BH; m_dot; R_in; R_out; xi_dt; T_dt; R_dt] =>
      let! args := sherpa_scale s (map ANum (fst ar)) in
      let B := pow10 log10_B in
      let! dl := dist z in
      let rb := R_b_of z delta_D t_var in
      let r := pow10 log10_r in
      let L_disk := pow10 log10_L_disk in
      let nu := map eV_to_Hz x in
      let! s' := with_args s args in
      let! gs := synch_and_ssc nu z dl delta_D B rb s' ssa grid in
      let! bb_disk := evaluate_multi_T_bb_norm_sed P nu z L_disk M_BH m_dot R_in R_out dl 1 in
      let bb_dt := map (fun n => evaluate_bb_norm_sed P n z (xi_dt * L_disk) T_dt R_dt dl) nu in
      let ec_dt := ec_dt P nu z dl delta_D mu_s rb L_disk xi_dt (epsilon_of_T T_dt) R_dt r s' trapz fit_gamma phi_to_integrate in
      Ok (fst gs, map2 Rplus (map2 Rplus (map2 Rplus (snd gs) bb_disk) bb_dt) ec_dt)
  | _ => Err (ValueError "unpack")
  end.
(** _evaluate_sed_ec_blr_dt_scenario, L228-325 *)
Definition sherpa_ec_blr_dt (s : spectrum) (ssa : bool) (pars x grid : list R) : res (list R * list R) :=
  let! ar := star_unpack 17 pars in
  match snd ar with
  | [z; delta_D; log10_B; t_var; mu_s; log10_r; log10_L_disk; M_BH; m_dot; R_in; R_out; xi_line; lambda_line; R_line; xi_dt; T_dt; R_dt] =>
      let! args := sherpa_scale s (map ANum (fst ar)) in
      let B := pow10 log10_B in
      let! dl := dist z in
      let rb := R_b_of z delta_D t_var in
      let r := pow10 log10_r in
      let L_disk := pow10 log10_L_disk in
      let nu := map eV_to_Hz x in
      let! s' := with_args s args in
      let! gs := synch_and_ssc nu z dl delta_D B rb s' ssa grid in
      let! bb_disk := evaluate_multi_T_bb_norm_sed P nu z L_disk M_BH m_dot R_in R_out dl 1 in
      let bb_dt := map (fun n => evaluate_bb_norm_sed P n z (xi_dt * L_disk) T_dt R_dt dl) nu in
      let ec_blr := ec_blr P nu z dl delta_D mu_s rb L_disk xi_line (epsilon_of_line lambda_line) R_line r s' trapz fit_gamma mu_to_integrate phi_to_integrate in
      let ec_dt := ec_dt P nu z dl delta_D mu_s rb L_disk xi_dt (epsilon_of_T T_dt) R_dt r s' trapz fit_gamma phi_to_integrate in
      Ok (fst gs, map2 Rplus (map2 Rplus (map2 Rplus (map2 Rplus (snd gs) bb_disk) bb_dt) ec_blr) ec_dt)
  | _ => Err (ValueError "unpack")
  end.
(** ExternalComptonRegriddableModel1D.calc, L465-472; [None] if no list matches *)
Definition list_eqb (l m : list string) : bool := if list_eq_dec string_dec l m then true else false.
(** sherpa_wrapper.py L465-472 *)
Definition sherpa_ec (s : spectrum) (targets : list string) (ssa : bool) (pars x grid : list R) : res (option (list R * list R)) :=
  if list_eqb targets ["blr"] then rmap Some (sherpa_ec_blr s ssa pars x grid)
  else if list_eqb targets ["dt"] then rmap Some (sherpa_ec_dt s ssa pars x grid)
  else if list_eqb targets ["blr"; "dt"] then rmap Some (sherpa_ec_blr_dt s ssa pars x grid)
  else Ok None.

(** *** gammapy: evaluate, with the keyword arguments [kwargs] and energies in eV *)
Definition kw (key : string) (kwargs : list (string * R)) : res R := match lookup key kwargs with Some v => Ok v | None => Err KeyError end.
(** (sed / energy**2).to("1 / (cm2 eV s)"), L181 and L357 *)
Definition to_differential (x : list R) (gs : list R * list R) : list R * list R := (fst gs, map2 (fun f e => f / eV_erg / e ^ 2) (snd gs) x).
(** _sort_emission_region_parameters, L40-62: z, d_L, delta_D, B, R_b *)
Definition sort_emission_region (kwargs : list (string * R)) : res (R * R * R * R * R) :=
  let! z := kw "z" kwargs in
  let! delta_D := kw "delta_D" kwargs in
  let! log10_B := kw "log10_B" kwargs in
  let! t_var := kw "t_var" kwargs in
  let! dl := dist z in
  Ok (z, dl, delta_D, pow10 log10_B, R_b_of z delta_D t_var).
(** names of the spectral parameters kept by the constructor, L127-128, L213-214 *)
Definition spectral_names (s : spectrum) : res (list string) := let! l := spectral_parameters s in Ok (map par_name l).
(** SynchrotronSelfComptonSpectralModel.evaluate, L161-181 *)
Definition gammapy_ssc (s : spectrum) (ssa : bool) (kwargs : list (string * R)) (x grid : list R) : res (list R * list R) :=
  let nu := map eV_to_Hz x in
  let! names := spectral_names s in
  let! args := gammapy_sort names s kwargs in
  let! er := sort_emission_region kwargs in
  let '(z, dl, delta_D, B, rb) := er in
  let! s' := with_args s args in
  let! gs := synch_and_ssc nu z dl delta_D B rb s' ssa grid in
  Ok (to_differential x gs).
(** ExternalComptonSpectralModel.evaluate, L284-357, with _sort_disk_parameters
    (L65-73), _sort_blr_parameters (L86-93), _sort_dt_parameters (L96-102) *)
Definition gammapy_ec (s : spectrum) (targets : list string) (ssa : bool) (kwargs : list (string * R)) (x grid : list R) : res (list R * list R) :=
  let nu := map eV_to_Hz x in
  let! names := spectral_names s in
  let! args := gammapy_sort names s kwargs in
  let! er := sort_emission_region kwargs in
  let '(z, dl, delta_D, B, rb) := er in
  let! mu_s := kw "mu_s" kwargs in
  let! log10_r := kw "log10_r" kwargs in
  let r := pow10 log10_r in
  let! s' := with_args s args in
  let! gs := synch_and_ssc nu z dl delta_D B rb s' ssa grid in
  let! log10_L_disk := kw "log10_L_disk" kwargs in
  let L_disk := pow10 log10_L_disk in
  let! M_BH := kw "M_BH" kwargs in
  let! m_dot := kw "m_dot" kwargs in
  let! R_in := kw "R_in" kwargs in
  let! R_out := kw "R_out" kwargs in
  let! bb_disk := evaluate_multi_T_bb_norm_sed P nu z L_disk M_BH m_dot R_in R_out dl 1 in
  let sed := map2 Rplus (snd gs) bb_disk in
  let! sed := (if has "blr" targets then
    let! xi_line := kw "xi_line" kwargs in
    let! lambda_line := kw "lambda_line" kwargs in
    let! R_line := kw "R_line" kwargs in
    Ok (map2 Rplus sed (ec_blr P nu z dl delta_D mu_s rb L_disk xi_line (epsilon_of_line lambda_line) R_line r s' trapz fit_gamma mu_to_integrate phi_to_integrate))
    else Ok sed) in
  let! sed := (if has "dt" targets then
    let! xi_dt := kw "xi_dt" kwargs in
    let! T_dt := kw "T_dt" kwargs in
    let! R_dt := kw "R_dt" kwargs in
    let sed := map2 Rplus sed (ec_dt P nu z dl delta_D mu_s rb L_disk xi_dt (epsilon_of_T T_dt) R_dt r s' trapz fit_gamma phi_to_integrate) in
    Ok (map2 Rplus sed (map (fun n => evaluate_bb_norm_sed P n z (xi_dt * L_disk) T_dt R_dt dl) nu))
    else Ok sed) in
  Ok (to_differential x (fst gs, sed)).

(** models.py L14-22, L28-36: the backend chooses the wrapper *)
Inductive backend := Gammapy | Sherpa.
(** fit/models.py L14-22, L28-36 *)
Definition choose_backend (name : string) : res backend :=
  if String.eqb name "sherpa" then Ok Sherpa else if String.eqb name "gammapy" then Ok Gammapy else Err (ValueError "not an available backend, try gammapy or sherpa").

(** set_emission_region_parameters_from_blob, sherpa_wrapper.py L369-374 and
    L437-445, gammapy_wrapper.py L154-159 and L239-247: assignments by name *)
Definition assign (key : string) (v : R) (l : list (string * R)) : list (string * R) := map (fun nv => if String.eqb (fst nv) key then (key, v) else nv) l.
(** sherpa_wrapper.py L369-374, gammapy_wrapper.py L154-159 *)
Definition set_region_from_blob (b : blob) (l : list (string * R)) : list (string * R) :=
  assign "t_var" (t_var P b) (assign "log10_B" (log10 (B_field b)) (assign "delta_D" (delta_D b) (assign "z" (redshift b) l))).
(** sherpa_wrapper.py L437-445, gammapy_wrapper.py L239-247 *)
Definition set_region_from_blob_ec (b : blob) (r : R) (l : list (string * R)) : res (list (string * R)) :=
  let! ms := mu_s b in
  Ok (assign "log10_r" (log10 r) (assign "mu_s" ms (set_region_from_blob b l))).
(** set_targets_parameters_from_targets, sherpa_wrapper.py L447-463, gammapy_wrapper.py L249-267 *)
Definition set_targets (d : ssdisk) (bl : option blr) (dt : option dust_torus) (l : list (string * R)) : list (string * R) :=
  let l := assign "R_out" (sd_R_out d) (assign "R_in" (sd_R_in d) (assign "m_dot" (sd_m_dot d) (assign "M_BH" (sd_M_BH d) (assign "log10_L_disk" (log10 (sd_L_disk d)) l)))) in
  let l := match bl with Some t => assign "R_line" (blr_R_line t) (assign "lambda_line" (blr_lambda t) (assign "xi_line" (blr_xi t) l)) | None => l end in
  match dt with Some t => assign "R_dt" (dt_R t) (assign "T_dt" (dt_T t) (assign "xi_dt" (dt_xi t) l)) | None => l end.
End Fit.
