(** C53 continued: the spectrum of the disk *)
From Verif Require Import Base TEUtils ListFacts NumpyInst MathUtils Conversion Spectra Blob Geometry Targets Spec_Math Spec_Geom Spec_Beams Spec_Thermal MathFacts SpectraFacts BlobFacts SynchFacts TargetFacts Props_Targets Props_Beams Props_Thermal.
From Coq Require Import String List.
Import ListNotations.
Open Scope list_scope.
Open Scope R_scope.

Lemma pow4_eq a b : 0 <= a -> 0 <= b -> a ^ 4 = b ^ 4 -> a = b.
Proof.
  intros Ha Hb E. destruct (Rtotal_order a b) as [H|[H|H]]; auto; exfalso.
  - destruct (Req_dec a 0) as [->|N]; [|pose proof (pow4_lt a b ltac:(lra) H); lra]. assert (0 < b ^ 4) by (apply pow_lt; lra). rewrite <- E in H0. lra.
  - destruct (Req_dec b 0) as [->|N]; [|pose proof (pow4_lt b a ltac:(lra) H); lra]. assert (0 < a ^ 4) by (apply pow_lt; lra). rewrite E in H0. lra.
Qed.

(** Up to one positive factor for all frequencies the disk shows, at each
    frequency, the sum over a hundred radii of black bodies at the temperature
    that radiates the flux of the radius. *)
Theorem C53_disk_spectrum : forall P d nu z dl mu_s (T : R -> R),
  phys_ok P -> 0 < 1 + z -> 0 < sd_L_disk d -> 0 < sd_M_BH d -> 0 < sd_m_dot d -> 0 < sd_R_in d -> sd_R_in d < sd_R_out d -> 0 < dl -> 0 < mu_s ->
  (forall r, sd_R_in d <= r -> 0 <= T r /\ c_sigmaSB P * T r ^ 4 = disk_flux P (sd_M_BH d) (sd_m_dot d) (sd_R_in d) r) ->
  exists K, 0 < K /\ ssdisk_sed_flux P d nu z dl mu_s = Ok (map (fun n => K * (n * over (linspace (sd_R_in d) (sd_R_out d) 100) (fun r => 2 * PI * r * planck P (n * (1 + z)) (T r)))) nu).
Proof.
  intros P d nu z dl ms T HP Hz HL HM Hm Hi Ho Hd Hs HT. unfold ssdisk_sed_flux, evaluate_multi_T_bb_norm_sed. cbv zeta. fold disk_nu_to_integrate. pose proof PI_RGT_0.
  pose proof (grid_integral_pos P z _ _ _ _ dl ms HP Hz HM Hm Hi Ho Hd Hs) as HI. set (I := trapz _ disk_nu_to_integrate) in *. assert (HA : 0 < 4 * PI * dl ^ 2) by pos. assert (HD : 0 < 2 * (I * (4 * PI * dl ^ 2))) by pos.
  rewrite div_ok by lra. cbn [bind]. set (nm := sd_L_disk d / (2 * (I * (4 * PI * dl ^ 2)))). assert (Hd2 : 0 < dl ^ 2) by (apply pow_lt; auto).
  exists (nm * ms / dl ^ 2). split. { apply Rdiv_lt_0_compat; auto. apply Rmult_lt_0_compat; auto. apply Rdiv_lt_0_compat; auto. }
  f_equal. apply map_ext. intros n. unfold evaluate_multi_T_bb_sed. cbv zeta. rewrite trapz_over.
  replace (over (linspace (sd_R_in d) (sd_R_out d) 100) (fun r => 2 * PI * r * planck P (n * (1 + z)) (T r))) with (2 * PI * dl ^ 2 * over (linspace (sd_R_in d) (sd_R_out d) 100) (fun r => r / dl ^ 2 * black_body P (n * (1 + z)) (evaluate_T P r (sd_M_BH d) (sd_m_dot d) (sd_R_in d)))).
  { field. lra. }
  rewrite over_scale. apply over_ext. intros r Hr. apply linspace_in in Hr; [|lra]. destruct (HT r ltac:(lra)) as [T0 T4].
  destruct (C79_disk_temperature P r _ _ _ HP HM Hm Hi ltac:(lra)) as [E0 E4]. rewrite black_body_planck by auto. destruct HP as [].
  replace (evaluate_T P r (sd_M_BH d) (sd_m_dot d) (sd_R_in d)) with (T r). { field. lra. }
  apply pow4_eq; auto. apply Rmult_eq_reg_l with (c_sigmaSB P); [congruence|lra].
Qed.
Print Assumptions C53_disk_spectrum.
Example C53_disk_spectrum_case : exists d T, ex_disk = Ok d /\ 0 < sd_L_disk d /\ 0 < sd_M_BH d /\ 0 < sd_m_dot d /\ 0 < sd_R_in d /\ sd_R_in d < sd_R_out d /\
  forall r, sd_R_in d <= r -> 0 <= T r /\ c_sigmaSB codata * T r ^ 4 = disk_flux codata (sd_M_BH d) (sd_m_dot d) (sd_R_in d) r.
Proof.
  destruct C51_C53_case as (d & E & H1 & H2 & H3 & H4 & H5). exists d, (fun r => evaluate_T codata r (sd_M_BH d) (sd_m_dot d) (sd_R_in d)). repeat (split; auto).
  - apply C79_disk_temperature; auto. apply codata_ok.
  - apply C79_disk_temperature; auto. apply codata_ok.
Qed.
