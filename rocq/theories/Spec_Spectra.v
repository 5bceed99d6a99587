(** Vocabulary of the statements about the particle distributions. *)
From Verif Require Import Base NumpyInst MathUtils Spectra.

(** the five analytic classes, with parameters for which the formulas make sense *)
Definition shape_ok (sh : shape) : Prop :=
  match sh with
  | ShPL _ => True
  | ShBPL _ _ gb => 0 < gb
  | ShLP _ _ g0 => 0 < g0
  | ShECPL _ gc => 0 < gc
  | ShECBPL _ _ gc gb => 0 < gc /\ 0 < gb
  end.
(** gamma is not the break of a broken power law *)
Definition off_break (sh : shape) (g : R) : Prop :=
  match sh with ShBPL _ _ gb | ShECBPL _ _ _ gb => g <> gb | _ => True end.
(** the index of a power law (gamma)^(-index), as the documentation states it:
    - d ln n / d ln gamma *)
Definition spectral_index (sh : shape) (g : R) : R :=
  match sh with
  | ShPL p => p
  | ShBPL p1 p2 gb => if Rlt_dec g gb then p1 else p2
  | ShLP p q g0 => p + 2 * q * log10 (g / g0)
  | ShECPL p gc => p + g / gc
  | ShECBPL p1 p2 gc gb => (if Rlt_dec g gb then p1 else p2) + g / gc
  end.
(** the same distribution with its normalisation k (or norm) multiplied by [c] *)
Definition rescaled (c : R) (s : spectrum) : spectrum :=
  match s with
  | PowerLaw k p a b => PowerLaw (c * k) p a b
  | BrokenPowerLaw k p1 p2 gb a b => BrokenPowerLaw (c * k) p1 p2 gb a b
  | LogParabola k p q g0 a b => LogParabola (c * k) p q g0 a b
  | ExpCutoffPowerLaw k p gc a b => ExpCutoffPowerLaw (c * k) p gc a b
  | ExpCutoffBrokenPowerLaw k p1 p2 gc gb a b => ExpCutoffBrokenPowerLaw (c * k) p1 p2 gc gb a b
  | Interpolated norm a b f df => Interpolated (c * norm) a b f df
  | EmptyDist a b => EmptyDist a b
  end.
(** the array a caller holds after evaluating a sequence of distributions on it *)
Definition after_calls (ss : list spectrum) (gs : list R) : list R := fold_left (fun g s => fst (evaluate s g)) ss gs.
