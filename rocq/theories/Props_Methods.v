(** Methods of objects: the rest of C41 (protons), C71 (absorption factors) and C79 (methods of SSDisk) *)
From Verif Require Import Base TEUtils NumpyInst MathUtils Conversion Spectra Blob Synchrotron Geometry Targets ExternalCompton Absorption DiskMethods Spec_Geom Spec_Beams Spec_Thermal TargetFacts BlobFacts Props_Targets Props_Blob Props_Synch Props_EC Props_Absorption Props_Thermal.
From Coq Require Import Lra Lia String List.
Import ListNotations.
Open Scope list_scope.
Open Scope R_scope.

(** ** C41 for the protons *)
Theorem C41_proton_luminosity : forall P b integ nu,
  proton_sed_luminosity P b integ nu = rmap (map (fun f => 4 * PI * d_L b ^ 2 * f)) (proton_sed_flux P b integ nu).
Proof. intros P b integ nu. unfold proton_sed_luminosity. destruct (proton_sed_flux P b integ nu); reflexivity. Qed.
Print Assumptions C41_proton_luminosity.
Theorem C41_proton_no_distance : forall P b integ nu d, d_L b <> 0 -> d <> 0 ->
  proton_sed_luminosity P (set_d_L d b) integ nu = proton_sed_luminosity P b integ nu.
Proof.
  intros P b integ nu d H0 Hd. unfold proton_sed_luminosity, proton_sed_flux, n_p, gamma_p. cbn [set_d_L n_p_opt gamma_p_size].
  destruct (n_p_opt b) as [s|]; [|reflexivity]. cbn [bind]. f_equal. unfold proton_evaluate_sed_flux, evaluate, to_luminosity. cbn [snd set_d_L redshift d_L delta_D B_field R_b].
  rewrite !map_map. apply map_ext. intros n. pose proof PI_RGT_0. field. split; auto. lra.
Qed.
Print Assumptions C41_proton_no_distance.
Example C41_proton_case : let b := set_n_p (PowerLaw 1 2 1 1e4) ex_blob in
  d_L b <> 0 /\ exists sed, proton_sed_luminosity codata b trapz [1e12; 1e15] = Ok sed /\ length sed = 2%nat /\ proton_sed_luminosity codata (set_d_L 1 b) trapz [1e12; 1e15] = Ok sed.
Proof.
  intros b. assert (D : d_L b <> 0) by (unfold b, set_n_p, ex_blob; cbn [d_L]; lra). split; [exact D|].
  pose proof (C41_proton_luminosity codata b trapz [1e12; 1e15]) as Lm. unfold proton_sed_flux in Lm. cbn [n_p gamma_p bind n_p_opt b set_n_p] in Lm. cbn [rmap] in Lm.
  eexists. split; [exact Lm|]. split.
  - unfold proton_evaluate_sed_flux. cbn [evaluate snd]. rewrite !map_length. reflexivity.
  - fold b. rewrite (C41_proton_no_distance codata b trapz [1e12; 1e15] 1 D ltac:(lra)). exact Lm.
Qed.

(** ** C71: brightness and absorption factors *)
Theorem C71_absorption_power : forall P a nu c l, target_energy (ab_target a) <> None -> absorption P a nu = Ok l ->
  absorption P (absorb_on (brighter c (ab_target a)) a) nu = Ok (map (fun x => Rpower x c) l).
Proof.
  intros P a nu c l Hn H. unfold absorption in *. rewrite C71_linear by auto. destruct (tau P a nu) as [[t|]|e]; try discriminate. cbn [bind scaled_sed rmap option_map] in *. unfold scaled_sed. cbn [rmap option_map bind].
  assert (El : l = map (fun x => exp (- x)) t) by congruence. subst l. rewrite !map_map. f_equal. apply map_ext. intros x. unfold Rpower. rewrite ln_exp. f_equal. ring.
Qed.
Print Assumptions C71_absorption_power.
(** a torus seen along the axis: 10^20 Hz is below the threshold and not absorbed; twice the luminosity squares all factors *)
Definition c71_absorber : absorber :=
  {| ab_target := TDustTorus {| dt_L_disk := 2 * 10 ^ 46; dt_xi := 1 / 10; dt_T := 1000; dt_epsilon := 1 / 10 ^ 6; dt_R := 10 ^ 18 |};
     ab_r := Some (10 ^ 17); ab_z := 1 / 2; ab_mu_s := 1; ab_mu_size := 100; ab_phi_size := 50; ab_l_size := 50 |}.
Example C71_case : exists l, target_energy (ab_target c71_absorber) = Some (1 / 10 ^ 6) /\ absorption codata c71_absorber [10 ^ 26; 10 ^ 20] = Ok l /\ nth_error l 1 = Some 1 /\
  absorption codata (absorb_on (brighter 2 (ab_target c71_absorber)) c71_absorber) [10 ^ 26; 10 ^ 20] = Ok (map (fun x => Rpower x 2) l).
Proof.
  destruct C55_case as (O & Ii & Av & t & E & _ & Z). assert (A : absorption codata c71_absorber [10 ^ 26; 10 ^ 20] = Ok (map (fun x => exp (- x)) t)).
  { unfold absorption. unfold c71_absorber. rewrite E. reflexivity. }
  exists (map (fun x => exp (- x)) t). split; [reflexivity|]. split; [exact A|]. split.
  - rewrite nth_error_map, Z. cbn [option_map]. f_equal. rewrite Ropp_0. apply exp_0.
  - apply C71_absorption_power; [discriminate|exact A].
Qed.

(** ** C79: what the methods of SSDisk return at the radius seen under the angle arccos(mu) from the height r *)
Theorem C79_disk_methods : forall P M L eta R_in R_out units d r mu, phys_ok P -> ssdisk_init P M L eta R_in R_out units = Ok d ->
  0 < M -> 0 < L -> 0 < eta -> 0 < r -> 0 < mu < 1 ->
  let rg := c_G P * M / c_c P ^ 2 in
  let R_ := r * tan (acos mu) in
  0 < sd_R_in d <= R_ ->
  disk_epsilon_mu d mu (r / rg) = disk_epsilon d (R_ / rg) /\ disk_phi_mu d mu (r / rg) = phi_disk d (R_ / rg) /\
  0 <= phi_disk d (R_ / rg) < 1 /\
  disk_flux P M (L / (eta * c_c P ^ 2)) (sd_R_in d) R_ = 3 * c_G P * M * (L / (eta * c_c P ^ 2)) / (8 * PI * R_ ^ 3) * phi_disk d (R_ / rg) /\
  0 <= disk_T P d R_ /\ c_sigmaSB P * disk_T P d R_ ^ 4 = disk_flux P M (L / (eta * c_c P ^ 2)) (sd_R_in d) R_.
Proof.
  intros P M L eta R_in R_out units d r mu HP Hd HM HL He Hr Hmu rg R_ HR. pose proof HP as []. pose proof PI_RGT_0.
  assert (Hrg : 0 < rg) by (unfold rg; pos).
  assert (F : sd_M_BH d = M /\ sd_L_disk d = L /\ sd_eta d = eta /\ sd_m_dot d = L / (eta * c_c P ^ 2) /\ sd_R_in_tilde d = sd_R_in d / rg).
  { unfold ssdisk_init in Hd. cbv zeta in Hd. fold rg in Hd. destruct units, R_in as [a|a], R_out as [b|b]; try discriminate; match type of Hd with Ok ?x = Ok ?y => assert (Ed : y = x) by congruence end; subst d; cbn [sd_M_BH sd_L_disk sd_eta sd_m_dot sd_R_in_tilde sd_R_in]; repeat split; auto; unfold Rdiv; rewrite ?Rmult_assoc, ?Rinv_r by lra; ring. }
  destruct F as (F1 & F2 & F3 & F4 & F5).
  assert (T : r / rg * sqrt (/ mu ^ 2 - 1) = R_ / rg). { unfold R_. rewrite Props_Targets.tan_acos by lra. unfold Rdiv. ring. }
  assert (Q : sd_R_in_tilde d / (R_ / rg) = sd_R_in d / R_) by (rewrite F5; field; lra).
  assert (Ph : phi_disk d (R_ / rg) = 1 - sqrt (sd_R_in d / R_)) by (unfold phi_disk; rewrite Q; reflexivity).
  split; [unfold disk_epsilon_mu, disk_epsilon, evaluate_epsilon_mu; cbv zeta; rewrite T; reflexivity|].
  split; [unfold disk_phi_mu, evaluate_phi_disk_mu, phi_disk; cbv zeta; rewrite T; reflexivity|].
  split. { rewrite Ph. assert (0 < sd_R_in d / R_) by pos. assert (sd_R_in d / R_ <= 1) by (apply Rmult_le_reg_r with R_; [lra|]; unfold Rdiv; rewrite Rmult_assoc, Rinv_l; lra).
    assert (0 < sqrt (sd_R_in d / R_)) by (apply sqrt_lt_R0; auto). assert (sqrt (sd_R_in d / R_) <= 1) by (eapply Rle_trans; [apply sqrt_le_1_alt; eassumption|rewrite sqrt_1; lra]). lra. }
  split; [rewrite Ph; reflexivity|]. unfold disk_T. rewrite F1, F4. apply C79_disk_temperature; auto; try lra. pos.
Qed.
Print Assumptions C79_disk_methods.
Example C79_methods_case : exists d, ssdisk_init codata 1 1 1 (Quantity 1) (Quantity 100) false = Ok d /\ 0 < sd_R_in d <= 10 * tan (acos (1 / 2)).
Proof.
  eexists. split; [reflexivity|]. cbn [sd_R_in]. split; [lra|]. rewrite Props_Targets.tan_acos by lra. replace (/ (1 / 2) ^ 2 - 1) with 3 by field.
  assert (1 <= sqrt 3) by (eapply Rle_trans; [|apply sqrt_le_1_alt; apply (Rle_trans 1 3 3); lra]; rewrite sqrt_1; lra). lra.
Qed.
