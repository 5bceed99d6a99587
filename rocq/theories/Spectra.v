(** Model of /repo/agnpy/spectra/spectra.py.  Densities are numbers in cm-3.
    Lorentz factors are positive; [npow] (x**y) agrees with Python for positive
    bases only, and the theorems say so. *)
From Verif Require Import Base TEUtils NumpyInst MathUtils Conversion.

(** The particle distributions with their parameters in the order of the
    [parameters] properties: PowerLaw L232-305, BrokenPowerLaw L308-419,
    LogParabola L422-522, ExpCutoffPowerLaw L525-607, ExpCutoffBrokenPowerLaw
    L610-735, InterpolatedDistribution L738-848 ([f] the log10 interpolator,
    [df] its derivative()), EmptyDistribution L850-869. *)
Inductive spectrum : Type :=
| PowerLaw (k p gmin gmax : R)
| BrokenPowerLaw (k p1 p2 gb gmin gmax : R)
| LogParabola (k p q g0 gmin gmax : R)
| ExpCutoffPowerLaw (k p gc gmin gmax : R)
| ExpCutoffBrokenPowerLaw (k p1 p2 gc gb gmin gmax : R)
| Interpolated (norm gmin gmax : R) (f df : R -> R)
| EmptyDist (gmin gmax : R).

(** attributes gamma_min, gamma_max, spectra.py L37 and L787 *)
Definition gamma_min (s : spectrum) : R :=
  match s with
  | PowerLaw _ _ a _ | BrokenPowerLaw _ _ _ _ a _ | LogParabola _ _ _ _ a _ | ExpCutoffPowerLaw _ _ _ a _
  | ExpCutoffBrokenPowerLaw _ _ _ _ _ a _ | Interpolated _ a _ _ _ | EmptyDist a _ => a
  end.
(** attribute gamma_max, spectra.py L38; L788 for InterpolatedDistribution *)
Definition gamma_max (s : spectrum) : R :=
  match s with
  | PowerLaw _ _ _ b | BrokenPowerLaw _ _ _ _ _ b | LogParabola _ _ _ _ _ b | ExpCutoffPowerLaw _ _ _ _ b
  | ExpCutoffBrokenPowerLaw _ _ _ _ _ _ b | Interpolated _ _ b _ _ | EmptyDist _ b => b
  end.
(** (gamma_min <= gamma) * (gamma <= gamma_max), spectra.py L276, L371, L476, L573, L678, L803
    *)
Definition in_range (s : spectrum) (g : R) : bool := Rleb (gamma_min s) g && Rleb g (gamma_max s).

(** evaluate at one gamma, without the array correction: L275-277, L369-374,
    L473-479, L572-576, L676-681, L803-806, L869 *)
Definition density (s : spectrum) (g : R) : R :=
  if in_range s g then
    match s with
    | PowerLaw k p _ _ => k * npow g (- p)
    | BrokenPowerLaw k p1 p2 gb _ _ => let index := if Rleb g gb then p1 else p2 in k * npow (g / gb) (- index)
    | LogParabola k p q g0 _ _ => let ratio := g / g0 in let index := - p - q * log10 ratio in k * npow ratio index
    | ExpCutoffPowerLaw k p gc _ _ => k * npow g (- p) * exp (- g / gc)
    | ExpCutoffBrokenPowerLaw k p1 p2 gc gb _ _ =>
        let index := if Rleb g gb then p1 else p2 in k * npow (g / gb) (- index) * exp (- g / gc)
    | Interpolated norm _ _ f _ => norm * pow10 (f (log10 g))
    | EmptyDist _ _ => 0
    end
  else 0.

(** evaluate / __call__ on an array: the array after the in-place correction
    of L211-225 (EmptyDistribution, L868, does not correct), and the values *)
Definition corrected (s : spectrum) (gs : list R) : list R :=
  match s with EmptyDist _ _ => gs | _ => correct_bounds (gamma_min s) (gamma_max s) gs end.
(** __call__ on an array, spectra.py L279-281, L376-385, L481-490, L578-581, L683-693, L808-809,
    L858-859: the array as corrected in place, and the values *)
Definition evaluate (s : spectrum) (gs : list R) : list R * list R :=
  let gs' := corrected s gs in (gs', map (density s) gs').

(** evaluate_SSA_integrand at one gamma.  L286-290, L391-396, L496-499,
    L587-591, L701-710, L831-834; EmptyDistribution has no such method. *)
Definition ssa_prefactor (s : spectrum) (g : R) : R :=
  match s with
  | LogParabola _ p q g0 _ _ => - (p + 2 * q * log10 (g / g0) + 2) / g
  | ExpCutoffPowerLaw _ p gc _ _ => - (p + 2) / g + - 1 / gc
  | ExpCutoffBrokenPowerLaw _ p1 p2 gc gb _ _ =>
      let index := if Rleb g gb then p1 else p2 in - (index + 2) / g + - 1 / gc
  | _ => 0
  end.
(** evaluate_SSA_integrand at one gamma, spectra.py L283-290, L388-396, L493-499, L584-591,
    L696-710, L811-834 *)
Definition ssa_point (s : spectrum) (g : R) : R :=
  match s with
  | PowerLaw k p _ _ => k * (if in_range s g then - (p + 2) * npow g (- p - 1) else 0)
  | BrokenPowerLaw k p1 p2 gb _ _ =>
      let index := if Rleb g gb then p1 else p2 in
      if in_range s g then k * - (index + 2) / g * npow (g / gb) (- index) else 0
  | LogParabola _ _ _ _ _ _ => ssa_prefactor s g * density s g
  | ExpCutoffPowerLaw _ _ _ _ _ => ssa_prefactor s g * density s g
  | ExpCutoffBrokenPowerLaw _ _ _ _ _ _ _ => if in_range s g then ssa_prefactor s g * density s g else 0
  | Interpolated _ _ _ _ df => let n := density s g in n * df (log10 g) / g - 2 * n / g
  | EmptyDist _ _ => 0
  end.
(** evaluate_SSA_integrand on an array.  PowerLaw and BrokenPowerLaw do not
    correct the array; for the others the factors written before the nested
    evaluate call use the array as it was given (L496, L587, L701-704, L831). *)
Definition evaluate_SSA_integrand (s : spectrum) (gs : list R) : res (list R * list R) :=
  let gs' := corrected s gs in
  match s with
  | PowerLaw _ _ _ _ | BrokenPowerLaw _ _ _ _ _ _ => Ok (gs, map (ssa_point s) gs)
  | LogParabola _ _ _ _ _ _ | ExpCutoffPowerLaw _ _ _ _ _ =>
      Ok (gs', map2 (fun g g' => ssa_prefactor s g * density s g') gs gs')
  | ExpCutoffBrokenPowerLaw _ _ _ _ _ _ _ =>
      Ok (gs', map2 (fun g g' => if in_range s g then ssa_prefactor s g * density s g' else 0) gs gs')
  | Interpolated _ _ _ _ df =>
      Ok (gs', map2 (fun g g' => let n := density s g' in n * df (log10 g) / g' - 2 * n / g') gs gs')
  | EmptyDist _ _ => Err AttributeError
  end.

(** integrate, L78-95; EmptyDistribution.integrate, L865-866 *)
Definition integrate (s : spectrum) (integrator : integrator_t) (glow gup : option R) (gpow : R) : R :=
  match s with
  | EmptyDist _ _ => 0
  | _ =>
      let lo := match glow with Some g => g | None => gamma_min s end in
      let hi := match gup with Some g => g | None => gamma_max s end in
      let '(gs, values) := evaluate s (np_logspace (log10 lo) (log10 hi) 200) in
      integrator (map2 (fun v g => v * npow g gpow) values gs) gs
  end.

(** The five classes that take k: parameters other than k, gamma_min, gamma_max *)
(** the classes of spectra.py L232, L308, L422, L525, L610: parameters other than k, gamma_min,
    gamma_max *)
Inductive shape : Type :=
| ShPL (p : R) | ShBPL (p1 p2 gb : R) | ShLP (p q g0 : R) | ShECPL (p gc : R) | ShECBPL (p1 p2 gc gb : R).
(** the attributes assigned by the constructors, spectra.py L255-266, L338-353, L449-464,
    L550-563, L642-659 *)
Definition build (sh : shape) (k gmin gmax : R) : spectrum :=
  match sh with
  | ShPL p => PowerLaw k p gmin gmax
  | ShBPL p1 p2 gb => BrokenPowerLaw k p1 p2 gb gmin gmax
  | ShLP p q g0 => LogParabola k p q g0 gmin gmax
  | ShECPL p gc => ExpCutoffPowerLaw k p gc gmin gmax
  | ShECBPL p1 p2 gc gb => ExpCutoffBrokenPowerLaw k p1 p2 gc gb gmin gmax
  end.

(** the mass argument of the constructors: m_e, m_p or anything else, L39-48 *)
Inductive mass_arg : Type := MassElectron | MassProton | MassOther (m : R).
(** spectra.py L39-48 *)
Definition check_mass (m : mass_arg) : res particle :=
  match m with
  | MassElectron => Ok Electron
  | MassProton => Ok Proton
  | MassOther _ => Err (ValueError "No distribution for particles with this mass is available.")
  end.

(** ParticleDistribution.integral (static), L53-76, with the default np.trapz *)
Definition shape_integral (sh : shape) (k gmin gmax glow gup gpow : R) : R :=
  let '(gs, values) := evaluate (build sh k gmin gmax) (np_logspace (log10 glow) (log10 gup) 200) in
  trapz (map2 (fun v g => v * npow g gpow) values gs) gs.

(** cls(k=..., **kwargs, mass=mass): the distribution and its particle *)
(** cls(k=..., **kwargs, mass=mass), spectra.py L118, L143, L158: the distribution and its
    particle *)
Definition construct (sh : shape) (k gmin gmax : R) (m : mass_arg) : res (spectrum * particle) :=
  let! pt := check_mass m in Ok (build sh k gmin gmax, pt).
(** k = x / y on floats; y = 0 gives inf or nan, reported as NonFinite *)
(** spectra.py L115, L142, L157 *)
Definition div_res (x y : R) : res R := if Reqb y 0 then Err NonFinite else Ok (x / y).

(** from_total_density, L97-118.  gamma_min / gamma_max missing from kwargs:
    the local variable is unbound. *)
Definition from_total_density (n_tot : R) (m : mass_arg) (sh : shape) (gmin gmax : option R) : res (spectrum * particle) :=
  match gmin, gmax with
  | Some a, Some b =>
      let! k := div_res n_tot (shape_integral sh 1 a b a b 0) in
      construct sh k a b m
  | _, _ => Err UnboundLocalError
  end.

Section WithConstants.
Variable P : phys.
(** mass.to("erg", mass_energy()) *)
(** mass.to("erg", equivalencies=u.mass_energy()), spectra.py L141 *)
Definition mc2_of (m : mass_arg) : R :=
  match m with MassElectron => rest_energy P Electron | MassProton => rest_energy P Proton | MassOther x => x * c_c P ^ 2 end.

(** from_total_energy_density, L120-143 *)
Definition from_total_energy_density (u_tot : R) (m : mass_arg) (sh : shape) (gmin gmax : option R) : res (spectrum * particle) :=
  match gmin, gmax with
  | Some a, Some b =>
      let integral := shape_integral sh 1 a b a b 1 in
      let! k := div_res u_tot (mc2_of m * integral) in
      construct sh k a b m
  | _, _ => Err UnboundLocalError
  end.

(** from_total_energy, L160-176 *)
Definition from_total_energy (W V : R) (m : mass_arg) (sh : shape) (gmin gmax : option R) : res (spectrum * particle) :=
  let! u := div_res W V in from_total_energy_density u m sh gmin gmax.
End WithConstants.

(** from_density_at_gamma_1, L145-158 (gamma_min and gamma_max given): the
    scalar 1 is not corrected *)
Definition from_density_at_gamma_1 (n1 : R) (m : mass_arg) (sh : shape) (gmin gmax : R) : res (spectrum * particle) :=
  let! k := div_res n1 (density (build sh 1 gmin gmax) 1) in
  construct sh k gmin gmax m.

(** InterpolatedDistribution.__init__ and log10_interpolation, L759-790.
    [mk] is the interpolator class applied to (log10 gamma, log10 n): it
    returns the interpolating function and its derivative, or raises.  An
    empty gamma raises IndexError at gamma[0], L760. *)
Definition interpolated_init (mk : list R -> list R -> res ((R -> R) * (R -> R)))
    (gamma n : list R) (unit_is_cm3 : bool) (norm : R) (m : mass_arg) : res (spectrum * particle) :=
  match gamma with
  | [] => Err IndexError
  | _ =>
      let! pt := check_mass m in
      if negb unit_is_cm3 then Err (ValueError "Provide a particle distribution in cm-3") else
      let valid := map (fun v => negb (Reqb v 0)) n in
      let xs := select valid gamma in
      let ns := select valid n in
      let! fd := mk (map log10 xs) (map log10 ns) in
      match xs with
      | [] => Err (ValueError "zero-size array to reduction operation minimum which has no identity")
      | _ => Ok (Interpolated norm (list_min xs) (list_max xs) (fst fd) (snd fd), pt)
      end
  end.
