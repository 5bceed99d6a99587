(** Model of the energy change functions of
    /repo/agnpy/time_evolution/time_evolution.py L17-39.  They are GammaFns: the
    argument is the Lorentz factors of the bin edges (args.gamma), and they read
    the blob, whose electron distribution the run replaces after each step. *)
From Verif Require Import Base TEUtils NumpyInst MathUtils Conversion Spectra Blob Synchrotron SSC.

Section Losses.
Variable P : phys.
(** the electron distribution the evolution stored in blob.n_e, seen as a
    spectrum of agnpy.spectra; left abstract *)
Variable as_spectrum : dist -> spectrum.

(** synchrotron_loss, L17-21 *)
Definition synchrotron_loss (sy : synchrotron) : GammaFn :=
  fun _ args => Ok (map (fun g => synch_loss_rate P sy g * -1) (fp_gamma args)).
(** ssc_thomson_limit_loss, L29-33: the blob of the process is the evolved one *)
Definition ssc_thomson_limit_loss (s : ssc) : GammaFn :=
  fun ne args =>
    let s' := {| sc_blob := set_n_e (as_spectrum ne) (sc_blob s); sc_ssa := sc_ssa s; sc_integ := sc_integ s |} in
    Ok (map (fun g => ssc_loss_rate_thomson P s' g * -1) (fp_gamma args)).
(** ssc_loss, L23-27; [grid] is the module array gamma_e_to_integrate at the time of the call *)
Definition ssc_loss (s : ssc) (grid : list R) : GammaFn :=
  fun ne args =>
    let s' := {| sc_blob := set_n_e (as_spectrum ne) (sc_blob s); sc_ssa := sc_ssa s; sc_integ := sc_integ s |} in
    let! r := ssc_loss_rate P s' grid (fp_gamma args) in
    Ok (map (fun x => x * -1) (snd r)).
(** fermi_acceleration, L35-39; to_erg of utils: gamma * mec2 *)
Definition fermi_acceleration (t_acc : R) : GammaFn :=
  fun _ args => Ok (map (fun g => g * mec2_erg P / t_acc) (fp_gamma args)).
End Losses.
