(** Model of the instance methods of SSDisk in /repo/agnpy/targets/targets.py
    that evaluate its static methods with the attributes of the disk. *)
From Verif Require Import Base MathUtils Conversion Spectra Blob Targets.
Open Scope R_scope.

(** SSDisk.epsilon_mu, L332-333 *)
Definition disk_epsilon_mu (d : ssdisk) (mu r_tilde : R) : R := evaluate_epsilon_mu (sd_L_disk d) (sd_M_BH d) (sd_eta d) mu r_tilde.
(** SSDisk.epsilon, L335-337 *)
Definition disk_epsilon (d : ssdisk) (R_tilde : R) : R := evaluate_epsilon (sd_L_disk d) (sd_M_BH d) (sd_eta d) R_tilde.
(** SSDisk.phi_disk_mu, L339-340; SSDisk.phi_disk, L342-343, is [phi_disk] of Targets.v *)
Definition disk_phi_mu (d : ssdisk) (mu r_tilde : R) : R := evaluate_phi_disk_mu mu (sd_R_in_tilde d) r_tilde.
(** SSDisk.T, L345-348 *)
Definition disk_T (P : phys) (d : ssdisk) (r : R) : R := evaluate_T P r (sd_M_BH d) (sd_m_dot d) (sd_R_in d).
