(** Physical constants and model of /repo/agnpy/utils/conversion.py.  All
    quantities are the numbers in cgs units. *)
From Verif Require Import Base.

(** The constants taken from astropy.constants (cgs): any positive values. *)
Record phys := {
  c_me : R;      (* electron mass *)
  c_mp : R;      (* proton mass *)
  c_h : R;       (* Planck *)
  c_c : R;       (* speed of light *)
  c_e : R;       (* charge, e.gauss *)
  c_sigmaT : R;  (* Thomson cross section *)
  c_G : R;       (* gravitation *)
  c_kB : R;      (* Boltzmann *)
  c_sigmaSB : R  (* Stefan-Boltzmann *)
}.
(** all constants of conversion.py L2-4 (astropy.constants) are positive *)
Record phys_ok (P : phys) : Prop := {
  me_pos : 0 < c_me P; mp_pos : 0 < c_mp P; h_pos : 0 < c_h P; c_pos : 0 < c_c P; e_pos : 0 < c_e P;
  sigmaT_pos : 0 < c_sigmaT P; G_pos : 0 < c_G P; kB_pos : 0 < c_kB P; sigmaSB_pos : 0 < c_sigmaSB P
}.

(** CODATA 2018 values *)
(** values of astropy.constants (conversion.py L2-4), cgs; used by the examples only *)
Definition codata : phys :=
  {| c_me := 9.1093837015e-28; c_mp := 1.67262192369e-24; c_h := 6.62607015e-27; c_c := 29979245800;
     c_e := 4.803204712570263e-10; c_sigmaT := 6.6524587321e-25; c_G := 6.6743e-8; c_kB := 1.380649e-16; c_sigmaSB := 5.6703744e-5 |}.
Lemma codata_ok : phys_ok codata.
Proof. constructor; simpl; lra. Qed.

Section Conversion.
Variable P : phys.

(** mass of the particle: m_e or m_p (astropy constants compared by value or identity) *)
Inductive particle := Electron | Proton.
(** m_e, m_p, conversion.py L2 *)
Definition mass_of (m : particle) : R := match m with Electron => c_me P | Proton => c_mp P end.

(** conversion.py L6-7: rest energies (mass_energy equivalency m c^2) *)
Definition rest_energy (m : particle) : R := mass_of m * c_c P ^ 2.
(** mec2, conversion.py L6 *)
Definition mec2_erg : R := rest_energy Electron.
(** mpc2, conversion.py L7 *)
Definition mpc2_erg : R := rest_energy Proton.

(** conversion.py L8-9: lambda_c_e, lambda_c_p *)
Definition lambda_c (m : particle) : R := c_h P / (mass_of m * c_c P).

(** epsilon_equivalency, L14-27: Hz -> dimensionless and back.  (The
    ValueError branch, L23-26, is unreachable with the two particles.) *)
Definition nu_to_eps (m : particle) (nu : R) : R := c_h P * nu / rest_energy m.
(** second function of the equivalency, conversion.py L17, L21 *)
Definition eps_to_nu (m : particle) (eps : R) : R := eps * rest_energy m / c_h P.

(** nu_to_epsilon_prime, L30-35 *)
Definition nu_to_epsilon_prime (nu z delta_D : R) (m : particle) : R := (1 + z) * nu_to_eps m nu / delta_D.

(** B_to_cgs, L38-40: the equivalency maps x to x *)
Definition B_to_cgs (B : R) : R := B.

(** to_R_g_units, L43-46 *)
Definition R_g (M : R) : R := c_G P * M / c_c P ^ 2.
(** conversion.py L43-46 *)
Definition to_R_g_units (r M : R) : R := r / R_g M.
End Conversion.
