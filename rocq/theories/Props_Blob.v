(** C36 to C38 and C70: the emission region *)
From Verif Require Import Base TEUtils NumpyInst MathUtils Conversion Spectra Blob Spec_Math Spec_Spectra Spec_Blob MathFacts SpectraFacts BlobFacts Props_Spectra.

(** ** C36 *)
(** set_delta_D(Gamma, theta): the Doppler factor is 1/(Gamma(1-beta cos theta)), and the properties give cos theta and theta back *)
Theorem C36_set_delta_D : forall b g t, 1 < g -> 0 <= t <= PI -> exists b',
  set_delta_D g t b = (b', Ok tt) /\ Gamma b' = g /\ delta_D b' = doppler g t /\ 0 < delta_D b' /\
  mu_s b' = Ok (cos t) /\ theta_s b' = Ok (t * 180 / PI) /\
  R_b b' = R_b b /\ redshift b' = redshift b /\ d_L b' = d_L b /\ B_field b' = B_field b /\ n_e b' = n_e b /\ n_p_opt b' = n_p_opt b.
Proof.
  intros b g t Hg Ht. rewrite set_delta_D_ok by auto. eexists. split; [reflexivity|].
  assert (M : mu_s (set_delta (doppler g t) (set_Gamma g b)) = Ok (cos t)) by (apply (mu_s_doppler _ g t); auto).
  split; [reflexivity|]. split; [reflexivity|]. split; [apply doppler_pos; auto|]. split; [exact M|].
  split; [apply theta_s_ok; auto|]. repeat split.
Qed.
Print Assumptions C36_set_delta_D.

(** the other way: from any Gamma > 1 and delta_D > 0 *)
Theorem C36_mu_s_inverse : forall b, 1 < Gamma b -> 0 < delta_D b -> exists be m,
  Beta b = Ok be /\ 0 < be < 1 /\ Gamma b ^ 2 * (1 - be ^ 2) = 1 /\ mu_s b = Ok m /\ 1 / (Gamma b * (1 - be * m)) = delta_D b.
Proof.
  intros b Hg Hd. exists (sqrt (1 - / Gamma b ^ 2)), ((1 - / (Gamma b * delta_D b)) / sqrt (1 - / Gamma b ^ 2)).
  destruct (beta_lt_1 _ Hg). split; [apply Beta_ok; auto|]. split; [auto|]. split; [apply beta_sq; auto|].
  split; [apply mu_s_ok; lra|]. set (be := sqrt _) in *. assert (E : 1 - be * ((1 - / (Gamma b * delta_D b)) / be) = / (Gamma b * delta_D b)) by (field; repeat split; lra).
  rewrite E. field. split; lra.
Qed.
Print Assumptions C36_mu_s_inverse.

(** theta_s is a number exactly if delta_D lies between the values for receding and approaching jets *)
Theorem C36_theta_s_range : forall b, 1 < Gamma b -> 0 < delta_D b ->
  ((exists t, theta_s b = Ok t) <-> doppler (Gamma b) PI <= delta_D b <= doppler (Gamma b) 0) /\
  (forall t, theta_s b = Ok t -> doppler (Gamma b) (t * PI / 180) = delta_D b /\ 0 <= t <= 180).
Proof.
  intros b Hg Hd. destruct (beta_lt_1 _ Hg) as [B0 B1]. pose proof PI_RGT_0 as HPI. unfold theta_s. rewrite mu_s_ok by lra. cbn [bind].
  set (be := sqrt (1 - / Gamma b ^ 2)) in *. set (g := Gamma b) in *. set (d := delta_D b) in *. set (m := (1 - / (g * d)) / be).
  assert (Hm : / (g * d) = 1 - be * m) by (unfold m; field; repeat split; lra).
  assert (Hgd : 0 < g * d) by nra.
  assert (Hinv : d = / (g * (1 - be * m))). { rewrite <- Hm. field. split; lra. }
  assert (Hp : 0 < g * (1 - be * m)). { rewrite <- Hm. apply Rmult_lt_0_compat; [lra|]. apply Rinv_0_lt_compat; auto. }
  assert (D : (-1 <= m <= 1) <-> doppler g PI <= d <= doppler g 0).
  { unfold doppler. fold be. rewrite cos_PI, cos_0.
    assert (P1 : 0 < g * (1 - be * (-1))) by nra. assert (P2 : 0 < g * (1 - be * 1)) by nra. rewrite Hinv. split.
    - intros [L U]. split; apply Rinv_le_contravar; auto; apply Rmult_le_compat_l; try lra; nra.
    - intros [L U]. apply Rle_Rinv in L; try (apply Rinv_0_lt_compat; auto). apply Rle_Rinv in U; try (apply Rinv_0_lt_compat; auto).
      rewrite !Rinv_involutive in L by lra. rewrite !Rinv_involutive in U by lra.
      apply Rmult_le_reg_l in L; [|lra]. apply Rmult_le_reg_l in U; [|lra]. split; nra. }
  destruct (Rltb m (-1) || Rltb 1 m) eqn:E.
  - assert (N : ~ (-1 <= m <= 1)). { apply Bool.orb_true_iff in E. rewrite !Rltb_true in E. lra. }
    split; [|discriminate]. split; [intros [t T]; discriminate|]. intros H. exfalso. apply N, D, H.
  - assert (N : -1 <= m <= 1). { apply Bool.orb_false_iff in E. rewrite !Rltb_false in E. lra. }
    split. { split; [intros _; apply D; auto|eauto]. }
    intros t T. injection T as <-. unfold to_deg. destruct (acos_bound m) as [A0 A1].
    replace (acos m * 180 / PI * PI / 180) with (acos m) by (field; lra). unfold doppler. fold be. rewrite cos_acos by auto. split; [auto|].
    split. { apply Rmult_le_pos; [|left; apply Rinv_0_lt_compat; auto]. lra. }
    apply (Rmult_le_reg_r PI); auto. unfold Rdiv. rewrite Rmult_assoc, Rinv_l by lra. nra.
Qed.
Print Assumptions C36_theta_s_range.

Definition ex_blob : blob :=
  {| R_b := 1e16; redshift := 0.069; d_L := 1e27; delta_D := 10; Gamma := 10; B_field := 1; n_e := PowerLaw 1e-13 2.1 10 1e5; n_p_opt := None; xi := 1;
     gamma_e_size := 200; gamma_p_size := 200 |}.
Example C36_case : exists b', set_delta_D 20 (PI / 60) ex_blob = (b', Ok tt) /\ theta_s b' = Ok (PI / 60 * 180 / PI).
Proof.
  pose proof PI_RGT_0. destruct (C36_set_delta_D ex_blob 20 (PI / 60)) as (b' & E & _ & _ & _ & _ & T & _); try lra. exists b'. auto.
Qed.
(** delta_D = 25 with Gamma = 10: no viewing angle *)
Example C36_case_nan : theta_s (set_delta 25 ex_blob) = Err NonFinite.
Proof.
  destruct (theta_s (set_delta 25 ex_blob)) as [t|e] eqn:E.
  - exfalso. assert (H : exists t, theta_s (set_delta 25 ex_blob) = Ok t) by eauto.
    apply (proj1 (C36_theta_s_range (set_delta 25 ex_blob) ltac:(simpl; lra) ltac:(simpl; lra))) in H. destruct H as [_ H]. simpl in H.
    unfold doppler in H. rewrite cos_0 in H.
    assert (S : sqrt (1 - / 10 ^ 2) < 0.995). { rewrite <- (sqrt_pow2 0.995) by lra. apply sqrt_lt_1; lra. }
    assert (/ (10 * (1 - sqrt (1 - / 10 ^ 2) * 1)) < / (10 * (1 - 0.995))) by (apply Rinv_lt_contravar; nra). lra.
  - unfold theta_s in E. destruct (mu_s (set_delta 25 ex_blob)) as [m|e'] eqn:M.
    + cbn [bind] in E. destruct (Rltb m (-1) || Rltb 1 m); [congruence|discriminate].
    + exfalso. rewrite mu_s_ok in M by (simpl; lra). discriminate.
Qed.

(** ** C37 *)
(** After any sequence of assignments and set_delta_D calls the blob behaves like one newly built from the current values of its
    attributes, except that d_L is still the distance of the redshift it was built with. *)
Theorem C37_updates : forall P dist rb z dd gam bf ne np x es ps b0 us b1, proper_calls us ->
  blob_init dist rb z dd gam bf ne np x es ps = Ok b0 ->
  blob_init dist (current sel_R_b us rb) (current sel_z us z) (Num (current sel_delta us (delta_D b0))) (current sel_Gamma us gam)
     (current sel_B us bf) (current sel_n_e us ne) (current sel_n_p us np) (current sel_xi us x) (current sel_esize us es) (current sel_psize us ps) = Ok b1 ->
  let b := do_updates us b0 in
  V_b b = V_b b1 /\ t_var P b = t_var P b1 /\ Beta b = Beta b1 /\ mu_s b = mu_s b1 /\ theta_s b = theta_s b1 /\ U_B b = U_B b1 /\
  gamma_e b = gamma_e b1 /\ gamma_p b = gamma_p b1 /\ n_e_tot b = n_e_tot b1 /\ N_e_tot b = N_e_tot b1 /\ n_p_tot b = n_p_tot b1 /\ N_p_tot b = N_p_tot b1 /\
  u_e P b = u_e P b1 /\ u_p P b = u_p P b1 /\ W_e P b = W_e P b1 /\ W_p P b = W_p P b1 /\ k_eq P b = k_eq P b1 /\
  P_jet_ke P b = P_jet_ke P b1 /\ P_jet_B P b = P_jet_B P b1 /\ u_ph_synch P b = u_ph_synch P b1 /\
  dist z = Ok (d_L b) /\ dist (current sel_z us z) = Ok (d_L b1).
Proof.
  intros P dist rb z dd gam bf ne np x es ps b0 us b1 Hp H0 H1.
  unfold blob_init in H0. destruct dd as [d|]; [|discriminate]. destruct (Rleb d 0); [discriminate|]. destruct (dist z) as [dl|] eqn:Ez; [|discriminate].
  cbn [bind] in H0. injection H0 as <-. cbn [delta_D] in H1.
  unfold blob_init in H1. destruct (Rleb _ 0); [discriminate|]. destruct (dist (current sel_z us z)) as [dl1|] eqn:Ez1; [|discriminate].
  cbn [bind] in H1. injection H1 as <-. cbv zeta.
  match goal with |- context [do_updates us ?b] => pose proof (updates_effect us Hp b) as E end. cbv zeta in E.
  cbn [R_b redshift delta_D Gamma B_field n_e n_p_opt xi gamma_e_size gamma_p_size d_L] in E.
  destruct E as (E1 & E2 & E3 & E4 & E5 & E6 & E7 & E8 & E9 & E10 & E11).
  destruct (do_updates us _) as [rb' z' dl' d' g' bf' ne' np' x' es' ps'].
  cbn [R_b redshift delta_D Gamma B_field n_e n_p_opt xi gamma_e_size gamma_p_size d_L] in *. subst.
  repeat (split; [reflexivity|]). auto.
Qed.
Print Assumptions C37_updates.

(** in particular changing z leaves the distance as it was *)
Theorem C37_stale_distance : forall us b z, proper_calls us -> d_L (do_updates us b) = d_L b /\ (forall us', us = us' ++ AssignZ z :: nil -> redshift (do_updates us b) = z).
Proof.
  intros us b z Hp. pose proof (updates_effect us Hp b) as E. cbv zeta in E. split; [tauto|].
  intros us' ->. destruct E as (_ & E & _). rewrite E. unfold current. rewrite fold_left_app. reflexivity.
Qed.
Print Assumptions C37_stale_distance.

Example C37_case : exists b0 b1, let us := [CallSetDeltaD 20 0.05; AssignZ 1; AssignR_b 1e17; AssignN_p (PowerLaw 1 2 1 1e3)]%list in
  blob_init (fun z => Ok (1e28 * z)) 1e16 0.5 (Num 10) 10 1 (PowerLaw 1e-13 2.1 10 1e5) None 1 200 200 = Ok b0 /\
  blob_init (fun z => Ok (1e28 * z)) 1e17 1 (Num (doppler 20 0.05)) 20 1 (PowerLaw 1e-13 2.1 10 1e5) (Some (PowerLaw 1 2 1 1e3)) 1 200 200 = Ok b1 /\
  V_b (do_updates us b0) = V_b b1 /\ d_L (do_updates us b0) = 1e28 * 0.5 /\ d_L b1 = 1e28 * 1.
Proof.
  pose proof (doppler_pos 20 0.05 ltac:(lra)) as Hd.
  eexists. eexists. cbv zeta. unfold blob_init. rewrite (proj2 (Rleb_false 10 0)), (proj2 (Rleb_false (doppler 20 0.05) 0)) by lra.
  split; [reflexivity|]. split; [reflexivity|]. cbn [do_updates fold_left do_update]. rewrite set_delta_D_ok by lra. repeat split.
Qed.

(** ** C38 *)
(** k_eq is the ratio of the particle and the magnetic jet power *)
Theorem C38_ratio : forall P b, phys_ok P -> 1 < Gamma b -> R_b b <> 0 -> B_field b <> 0 -> exists k pke pb u,
  k_eq P b = Ok k /\ P_jet_ke P b = Ok pke /\ P_jet_B P b = Ok pb /\ 0 < pb /\ k = pke / pb /\ k * U_B b = u /\
  (n_p_opt b = None -> u = u_e P b) /\ (forall s, n_p_opt b = Some s -> exists up, u_p P b = Ok up /\ u = u_e P b + up).
Proof.
  intros P b HP Hg Hr Hb. destruct (u_particles_ok P b) as [u Eu]. pose proof (U_B_pos b Hb) as HU.
  unfold k_eq, P_jet_ke, P_jet_B. rewrite jet_prefactor, Eu by auto. cbn [bind]. rewrite div_ok by lra.
  set (f := 2 * PI * R_b b ^ 2 * sqrt (1 - / Gamma b ^ 2) * Gamma b ^ 2 * c_c P).
  assert (Hf : 0 < f).
  { pose proof PI_RGT_0. destruct (beta_lt_1 _ Hg). destruct HP. pose proof (Rsqr_pos_lt _ Hr) as T. unfold Rsqr in T.
    assert (0 < R_b b ^ 2) by (simpl; lra). assert (0 < Gamma b ^ 2) by (simpl; nra). unfold f.
    apply Rmult_lt_0_compat; auto. apply Rmult_lt_0_compat; auto. apply Rmult_lt_0_compat; auto. apply Rmult_lt_0_compat; lra. }
  exists (u / U_B b), (f * u), (f * U_B b), u. repeat (split; [reflexivity|]). split; [apply Rmult_lt_0_compat; auto|].
  split; [field; split; lra|]. split; [field; lra|]. unfold u_particles in Eu.
  split; intros.
  - rewrite H in Eu. congruence.
  - rewrite H in Eu. destruct (u_p P b) as [up|] eqn:E; [|discriminate]. cbn [bind] in Eu. exists up. split; congruence.
Qed.
Print Assumptions C38_ratio.

(** all of them are non-negative for non-negative distributions *)
Theorem C38_nonneg : forall P b k pke pb, phys_ok P -> 1 < Gamma b -> B_field b <> 0 -> proper_dist (n_e b) -> (forall s, n_p_opt b = Some s -> proper_dist s) ->
  k_eq P b = Ok k -> P_jet_ke P b = Ok pke -> P_jet_B P b = Ok pb -> 0 <= k /\ 0 <= pke /\ 0 <= pb /\ 0 <= pke + pb.
Proof.
  intros P b k pke pb HP Hg Hb He Hp. destruct (u_particles_ok P b) as [u Eu].
  pose proof (u_particles_nonneg P b u HP He Hp Eu) as Hu. pose proof (U_B_pos b Hb) as HU.
  unfold k_eq, P_jet_ke, P_jet_B. rewrite jet_prefactor, Eu by auto. cbn [bind]. rewrite div_ok by lra.
  set (f := 2 * PI * R_b b ^ 2 * sqrt (1 - / Gamma b ^ 2) * Gamma b ^ 2 * c_c P).
  assert (Hf : 0 <= f).
  { pose proof PI_RGT_0. destruct (beta_lt_1 _ Hg). destruct HP. pose proof (Rle_0_sqr (R_b b)) as T. unfold Rsqr in T.
    assert (0 <= R_b b ^ 2) by (simpl; lra). assert (0 <= Gamma b ^ 2) by (simpl; nra). unfold f.
    apply Rmult_le_pos; [|lra]. apply Rmult_le_pos; auto. apply Rmult_le_pos; [|lra]. apply Rmult_le_pos; lra. }
  intros K A B. injection K as <-. injection A as <-. injection B as <-.
  assert (0 <= u / U_B b) by (apply Rmult_le_pos; [auto|left; apply Rinv_0_lt_compat; auto]). assert (0 <= f * u) by nra. assert (0 <= f * U_B b) by nra. lra.
Qed.
Print Assumptions C38_nonneg.

(** variability time and radius *)
Theorem C38_t_var : forall P b, phys_ok P -> delta_D b <> 0 -> redshift b <> -1 ->
  R_b b = c_c P * t_var P b * delta_D b / (1 + redshift b).
Proof. intros P b HP Hd Hz. destruct HP. unfold t_var. field. repeat split; lra. Qed.
Print Assumptions C38_t_var.

Example C38_case : exists k, k_eq codata ex_blob = Ok k /\ 0 <= k.
Proof.
  destruct (C38_ratio codata ex_blob codata_ok) as (k & pke & pb & u & K & A & B & _); simpl; try lra.
  exists k. split; auto. refine (proj1 (C38_nonneg codata ex_blob k pke pb codata_ok _ _ _ _ K A B)); simpl; try lra.
  - split; [simpl; lra|]. split; [simpl; lra|]. intros g. apply (density_nonneg_build (ShPL 2.1)); lra.
  - intros s Hs; discriminate.
Qed.

(** ** C70: normalising a distribution to a total and putting it in a blob *)
Theorem C70_totals : forall P b, gamma_e_size b = 200%nat -> 0 < gamma_min (n_e b) -> gamma_min (n_e b) <= gamma_max (n_e b) ->
  n_e_tot b = integrate (n_e b) trapz None None 0 /\ u_e P b = mec2_erg P * integrate (n_e b) trapz None None 1.
Proof. exact totals_integrate. Qed.
Print Assumptions C70_totals.

Theorem C70_roundtrip : forall P b sh a c w s pt, 0 < a -> a <= c -> gamma_e_size b = 200%nat -> V_b b <> 0 ->
  (from_total_density w MassElectron sh (Some a) (Some c) = Ok (s, pt) -> n_e_tot (set_n_e s b) = w /\ N_e_tot (set_n_e s b) = V_b b * w) /\
  (from_total_energy_density P w MassElectron sh (Some a) (Some c) = Ok (s, pt) -> u_e P (set_n_e s b) = w) /\
  (from_total_energy P w (V_b b) MassElectron sh (Some a) (Some c) = Ok (s, pt) -> W_e P (set_n_e s b) = w).
Proof.
  intros P b sh a c w s pt Ha Hac Hs HV.
  assert (L : forall k, construct sh k a c MassElectron = Ok (s, pt) -> gamma_min s = a /\ gamma_max s = c /\ pt = Electron).
  { intros k H. unfold construct in H. cbn [check_mass bind] in H. injection H as <- <-. rewrite build_min, build_max. auto. }
  assert (T : gamma_min s = a -> gamma_max s = c -> n_e_tot (set_n_e s b) = integrate s trapz None None 0 /\ u_e P (set_n_e s b) = mec2_erg P * integrate s trapz None None 1).
  { intros E1 E2. apply (totals_integrate P (set_n_e s b)); simpl; auto; lra. }
  assert (F : forall x y f, (let! k := div_res x y in f k) = Ok (s, pt) -> exists k : R, f k = Ok (s, pt)).
  { intros x y f H. unfold div_res in H. destruct (Reqb y 0); [discriminate|]. cbn [bind] in H. eauto. }
  split; [|split]; intros H.
  - pose proof (C30_total_density _ _ _ _ _ _ _ Ha Hac H) as I. unfold from_total_density in H. apply F in H. destruct H as [k H]. apply L in H. destruct H as (E1 & E2 & _).
    destruct (T E1 E2) as [T1 _]. split; [congruence|]. unfold N_e_tot. change (V_b (set_n_e s b)) with (V_b b). rewrite T1, I. reflexivity.
  - pose proof (C30_total_energy_density _ _ _ _ _ _ _ _ Ha Hac H) as I. unfold from_total_energy_density in H. apply F in H. destruct H as [k H]. apply L in H. destruct H as (E1 & E2 & ->).
    destruct (T E1 E2) as [_ T1]. rewrite T1. exact I.
  - pose proof (C30_total_energy _ _ _ _ _ _ _ _ _ Ha Hac H) as I. unfold from_total_energy in H. apply F in H. destruct H as [v H]. unfold from_total_energy_density in H. apply F in H. destruct H as [k H].
    apply L in H. destruct H as (E1 & E2 & ->). destruct (T E1 E2) as [_ T1]. unfold W_e. change (V_b (set_n_e s b)) with (V_b b). rewrite T1. exact I.
Qed.
Print Assumptions C70_roundtrip.

Example C70_case : exists s, from_total_energy codata 1e48 (V_b ex_blob) MassElectron (ShBPL 2 3 1e3) (Some 10) (Some 1e6) = Ok (s, Electron) /\ W_e codata (set_n_e s ex_blob) = 1e48.
Proof.
  assert (HV : V_b ex_blob <> 0). { unfold V_b; simpl. pose proof PI_RGT_0. nra. }
  destruct (C30_succeeds codata 1 1e48 (V_b ex_blob) MassElectron (ShBPL 2 3 1e3) 10 1e6 Electron codata_ok) as (_ & _ & [s Hs]); try lra; auto.
  exists s. split; auto. exact (proj2 (proj2 (C70_roundtrip codata ex_blob (ShBPL 2 3 1e3) 10 1e6 1e48 s Electron ltac:(lra) ltac:(lra) eq_refl HV)) Hs).
Qed.
