(** Vocabulary of the statements about the fit models. *)
From Verif Require Import Base Spectra RadProc.
From Coq Require Import String List.
Import ListNotations.
Open Scope string_scope.
Open Scope list_scope.
Open Scope R_scope.

(** 10^x *)
Definition ten (x : R) : R := Rpower 10 x.
(** the distribution a set of fit parameter values [v] describes, by name *)
Definition fitted (s : spectrum) (v : string -> R) : spectrum :=
  let a := ten (v "log10_gamma_min") in
  let b := ten (v "log10_gamma_max") in
  match s with
  | PowerLaw _ _ _ _ => PowerLaw (ten (v "log10_k")) (v "p") a b
  | BrokenPowerLaw _ _ _ _ _ _ => BrokenPowerLaw (ten (v "log10_k")) (v "p1") (v "p2") (ten (v "log10_gamma_b")) a b
  | LogParabola _ _ _ _ _ _ => LogParabola (ten (v "log10_k")) (v "p") (v "q") (ten (v "log10_gamma_0")) a b
  | ExpCutoffPowerLaw _ _ _ _ _ => ExpCutoffPowerLaw (ten (v "log10_k")) (v "p") (ten (v "log10_gamma_c")) a b
  | ExpCutoffBrokenPowerLaw _ _ _ _ _ _ _ => ExpCutoffBrokenPowerLaw (ten (v "log10_k")) (v "p1") (v "p2") (ten (v "log10_gamma_c")) (ten (v "log10_gamma_b")) a b
  | Interpolated _ _ _ f df => Interpolated (ten (v "log10_norm")) a b f df
  | EmptyDist a0 b0 => EmptyDist a0 b0
  end.
Definition is_empty (s : spectrum) : Prop := match s with EmptyDist _ _ => True | _ => False end.
(** the quantities stored as logarithms are positive *)
Definition fit_positive (s : spectrum) : Prop :=
  match s with
  | PowerLaw k _ a b => 0 < k /\ 0 < a /\ 0 < b
  | BrokenPowerLaw k _ _ gb a b => 0 < k /\ 0 < gb /\ 0 < a /\ 0 < b
  | LogParabola k _ _ g0 a b => 0 < k /\ 0 < g0 /\ 0 < a /\ 0 < b
  | ExpCutoffPowerLaw k _ gc a b => 0 < k /\ 0 < gc /\ 0 < a /\ 0 < b
  | ExpCutoffBrokenPowerLaw k _ _ gc gb a b => 0 < k /\ 0 < gc /\ 0 < gb /\ 0 < a /\ 0 < b
  | Interpolated n a b _ _ => 0 < n /\ 0 < a /\ 0 < b
  | EmptyDist _ _ => True
  end.
(** the dictionary [kwargs] gives the name at each position the value at that position *)
Fixpoint dict_value (key : string) (d : list (string * R)) : option R :=
  match d with [] => None | (k, v) :: d' => if string_dec k key then Some v else dict_value key d' end.
Definition same_values (names : list string) (values : list R) (kwargs : list (string * R)) : Prop :=
  length values = length names /\
  forall i n x, nth_error names i = Some n -> nth_error values i = Some x -> dict_value n kwargs = Some x.
(** one electronvolt in erg *)
Definition electronvolt : R := 1.602176634e-12.
(** nu F_nu in erg cm-2 s-1 at energies in eV turned into photons eV-1 cm-2 s-1 *)
Definition photons_per_eV (energies sed : list R) : list R := map (fun fe => fst fe / electronvolt / (snd fe * snd fe)) (combine sed energies).
