(** Vocabulary of the statements about the radiative processes. *)
From Verif Require Import Base TEUtils NumpyInst MathUtils Conversion Spectra Blob.

(** physically meaningful arguments of the SED functions *)
Record sed_args (nu : list R) (z dl dd b rb : R) (gamma : list R) : Prop := {
  sa_z : 0 < 1 + z; sa_dl : 0 < dl; sa_dd : 0 < dd; sa_b : 0 < b; sa_rb : 0 < rb;
  sa_nu : forall x, In x nu -> 0 < x; sa_gamma : forall g, In g gamma -> 0 < g
}.
(** a grid whose neighbours differ by a factor larger than 1 + 1e-9 *)
Fixpoint spaced (l : list R) : Prop :=
  match l with a :: l' => match l' with b :: _ => a * (1 + 1 / 10 ^ 9) < b /\ spaced l' | [] => True end | [] => True end.
(** the two integrators agnpy offers *)
Definition offered (integ : integrator_t) : Prop := integ = trapz \/ integ = trapz_loglog.
(** non-negative distribution with positive limits *)
Definition nonneg_dist (s : spectrum) : Prop := 0 < gamma_min s /\ 0 < gamma_max s /\ forall g, 0 <= density s g.
(** local index of the distribution at least -2 (density / gamma^2 decreasing) *)
Definition absorbing (sh : shape) (g : R) : Prop :=
  match sh with
  | ShPL p => -2 <= p
  | ShBPL p1 p2 _ => -2 <= p1 /\ -2 <= p2
  | ShLP p q g0 => -2 <= p + 2 * q * log10 (g / g0)
  | ShECPL p _ => -2 <= p
  | ShECBPL p1 p2 _ _ => -2 <= p1 /\ -2 <= p2
  end.
(** pointwise comparison of two SEDs *)
Definition all_le (l m : list R) : Prop := Forall2 Rle l m.
Definition all_nonneg (l : list R) : Prop := forall x, In x l -> 0 <= x.
(** the constants with the two masses exchanged *)
Definition exchange_masses (P : phys) : phys :=
  {| c_me := c_mp P; c_mp := c_me P; c_h := c_h P; c_c := c_c P; c_e := c_e P; c_sigmaT := c_sigmaT P; c_G := c_G P; c_kB := c_kB P;
     c_sigmaSB := c_sigmaSB P |}.
