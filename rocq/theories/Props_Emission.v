(** C77: synchrotron self Compton; C78: synchrotron, from single particles *)
From Verif Require Import Base TEUtils ListFacts NumpyInst MathUtils Conversion Spectra Blob Synchrotron Kernels SSC Geometry Targets Absorption Spec_Math Spec_Spectra Spec_Blob Spec_Rad Spec_Geom Spec_Beams Spec_Emission MathFacts SpectraFacts SpectraFacts2 BlobFacts Calculus SynchFacts SynchFacts2 Props_Blob Props_Synch ComptonFacts Props_Compton TargetFacts Props_Beams Props_Opacity Props_Fit.
From Coquelicot Require Import Coquelicot.
From Coq Require Import List.
Import ListNotations.
Open Scope list_scope.
Open Scope R_scope.

(** ** single particles *)
Lemma shape_eq x : R_func x = synch_shape x.
Proof.
  unfold R_func, synch_shape. cbv zeta. unfold npow.
  assert (E2 : Rpower x (2 / 3) = Rpower x (1 / 3) ^ 2). { rewrite <- Rpower_pow by apply exp_pos. rewrite Rpower_mult. f_equal. simpl. field. }
  assert (E4 : Rpower x (4 / 3) = Rpower x (1 / 3) ^ 4). { rewrite <- Rpower_pow by apply exp_pos. rewrite Rpower_mult. f_equal. simpl. field. }
  rewrite E2, E4. set (y := Rpower x (1 / 3)). assert (0 < y) by apply exp_pos. assert (0 < y ^ 2) by pos. assert (0 < y ^ 4) by pos.
  assert (0 < sqrt (1 + 3.4 * y ^ 2)) by (apply sqrt_lt_R0; lra). field. split; lra.
Qed.
Lemma power_eq P m B g nu eps : phys_ok P -> 0 < m -> 0 < B -> 0 < g -> eps = c_h P * nu / (m * c_c P ^ 2) ->
  eps * single_particle_synch_power P B eps g m = nu * synch_power P m B g nu.
Proof.
  intros HP Hm HB Hg ->. pose proof HP as []. pose proof PI_RGT_0. unfold single_particle_synch_power, synch_power. cbv zeta. rewrite shape_eq.
  replace (calc_x P B (c_h P * nu / (m * c_c P ^ 2)) g m) with (nu / (3 * c_e P * B * g ^ 2 / (4 * PI * m * c_c P))). 2:{ unfold calc_x. field. repeat split; lra. }
  field. repeat split; lra.
Qed.
Lemma eps_comoving P b n : phys_ok P -> 0 < delta_D b -> nu_to_epsilon_prime P n (redshift b) (delta_D b) Electron = comoving_energy P b n.
Proof. intros [] Hd. unfold nu_to_epsilon_prime, nu_to_eps, rest_energy, mass_of, comoving_energy, comoving. field. repeat split; lra. Qed.

(** ** C78 *)
Lemma core P m b s g n eps : phys_ok P -> 0 < m -> emitter_ok b s -> (forall x, In x g -> 0 < x) -> eps = c_h P * comoving b n / (m * c_c P ^ 2) ->
  delta_D b ^ 4 / (4 * PI * d_L b ^ 2) * eps * over g (fun x => 4 / 3 * PI * R_b b ^ 3 * density s x * single_particle_synch_power P (B_field b) eps x m) =
  received b (comoving b n * over g (fun x => population b s x * synch_power P m (B_field b) x (comoving b n))).
Proof.
  intros HP Hm [] Hg He. pose proof HP as []. pose proof PI_RGT_0. unfold received.
  assert (E : eps * over g (fun x => 4 / 3 * PI * R_b b ^ 3 * density s x * single_particle_synch_power P (B_field b) eps x m) = comoving b n * over g (fun x => population b s x * synch_power P m (B_field b) x (comoving b n))).
  { rewrite !over_scale. apply over_ext. intros x Hx. unfold population.
    transitivity (4 / 3 * PI * R_b b ^ 3 * density s x * (eps * single_particle_synch_power P (B_field b) eps x m)); [ring|].
    rewrite (power_eq P m (B_field b) x (comoving b n)) by auto. ring. }
  rewrite <- E. unfold Rdiv. ring.
Qed.
Lemma flux_pt_spec P b s n g : phys_ok P -> emitter_ok b s -> (forall x, In x g -> 0 < x) ->
  flux_pt P trapz (redshift b) (d_L b) (delta_D b) (B_field b) (R_b b) s g n =
  received b (comoving b n * over g (fun x => population b s x * synch_power P (c_me P) (B_field b) x (comoving b n))).
Proof.
  intros HP Hb Hg. pose proof Hb as []. unfold flux_pt. cbv zeta. rewrite eps_comoving, trapz_over by auto. apply core; auto. apply me_pos. auto.
Qed.
Theorem C78_synchrotron : forall P b nu, phys_ok P -> emitter_ok b (n_e b) ->
  synch_sed_flux P {| sy_blob := b; sy_ssa := false; sy_integ := trapz |} nu =
  Ok (map (fun n => received b (comoving b n * over (log_grid (gamma_min (n_e b)) (gamma_max (n_e b)) (gamma_e_size b)) (fun g =>
        population b (n_e b) g * synch_power P (c_me P) (B_field b) g (comoving b n)))) nu).
Proof.
  intros P b nu HP Hb. pose proof Hb as []. unfold synch_sed_flux. cbn [sy_blob sy_ssa sy_integ]. rewrite sed_plain. cbn [bind snd]. f_equal.
  pose proof (eval_gamma_e b em_min em_max) as E. unfold evaluate in E. apply pair_equal_spec in E. destruct E as [E _]. rewrite E. apply map_ext. intros n.
  apply flux_pt_spec; auto. intros x Hx. apply gamma_e_in in Hx; auto. lra.
Qed.
Print Assumptions C78_synchrotron.
Theorem C78_proton : forall P b s nu, phys_ok P -> n_p_opt b = Some s -> emitter_ok b s ->
  proton_sed_flux P b trapz nu =
  Ok (map (fun n => received b (comoving b n * over (log_grid (gamma_min s) (gamma_max s) (gamma_p_size b)) (fun g =>
        population b s g * synch_power P (c_mp P) (B_field b) g (comoving b n)))) nu).
Proof.
  intros P b s nu HP Hs Hb. pose proof Hb as []. pose proof HP as []. pose proof PI_RGT_0. unfold proton_sed_flux, n_p, gamma_p. rewrite Hs. cbn [bind]. unfold proton_evaluate_sed_flux. fold (log_grid (gamma_min s) (gamma_max s) (gamma_p_size b)).
  set (g := log_grid _ _ _). assert (Hg : forall x, In x g -> gamma_min s <= x <= gamma_max s) by (intros x; apply grid_in; auto).
  unfold evaluate. rewrite corrected_id by auto. cbn [snd]. f_equal. apply map_ext. intros n. rewrite map2_map_map, trapz_over. apply core; auto.
  - intros x Hx. apply Hg in Hx. lra.
  - unfold nu_to_epsilon_prime, nu_to_eps, rest_energy, mass_of, comoving. field. repeat split; lra.
Qed.
Print Assumptions C78_proton.

(** self absorption: the emission without it times the fraction that escapes *)
Lemma slopes_trapz f (h : R -> R) g : trapz (map (fun x => h x * f x) g) g = trapezia (map (fun gs => (fst gs, snd gs * f (fst gs))) (combine g (map h g))).
Proof. rewrite trapz_over. unfold over. induction g as [|x g IH]; auto. destruct g as [|y g]; auto. cbn [map combine fst snd trapezia] in *. rewrite IH. reflexivity. Qed.
Theorem C78_self_absorption : forall P b nu slopes, phys_ok P -> emitter_ok b (n_e b) -> (forall n, In n nu -> 0 < n) ->
  let g := log_grid (gamma_min (n_e b)) (gamma_max (n_e b)) (gamma_e_size b) in
  evaluate_SSA_integrand (n_e b) g = Ok (g, slopes) ->
  exists thin, synch_sed_flux P {| sy_blob := b; sy_ssa := false; sy_integ := trapz |} nu = Ok thin /\
  synch_sed_flux P {| sy_blob := b; sy_ssa := true; sy_integ := trapz |} nu =
  Ok (map (fun nF => snd nF * tau_to_attenuation (2 * R_b b * absorption_coefficient P (B_field b) (comoving b (fst nF)) (combine g slopes))) (combine nu thin)).
Proof.
  intros P b nu slopes HP Hb Hnu g Hs. pose proof Hb as []. pose proof HP as []. pose proof PI_RGT_0. rewrite C78_synchrotron by auto. eexists. split; [reflexivity|].
  assert (He : forall a c, n_e b <> EmptyDist a c). { intros a c K. rewrite K in Hs. discriminate. }
  unfold synch_sed_flux. cbn [sy_blob sy_ssa sy_integ]. rewrite sed_ssa by auto. cbn [bind snd]. f_equal.
  assert (Hg : forall x, In x g -> gamma_min (n_e b) <= x <= gamma_max (n_e b)) by (intros x; apply grid_in; auto).
  assert (Cg : corrected (n_e b) g = g) by (apply corrected_id; auto). change (gamma_e b) with g. rewrite Cg.
  rewrite ssa_array in Hs by auto. apply ok_pair_inj in Hs. destruct Hs as [_ <-].
  assert (M : forall (f : R -> R) l, combine l (map f l) = map (fun x => (x, f x)) l) by (intros f l; induction l; simpl; congruence).
  rewrite (M _ nu), map_map. cbn [fst snd]. apply map_ext_in. intros n Hn. assert (Hn0 : 0 < comoving b n). { unfold comoving. specialize (Hnu n Hn). pos. }
  rewrite flux_pt_spec by (auto; intros x Hx; apply Hg in Hx; lra). fold g. f_equal. f_equal. unfold tau_pt, absorption_coefficient. cbv zeta.
  rewrite <- (slopes_trapz (fun x => synch_power P (c_me P) (B_field b) x (comoving b n)) (ssa_point (n_e b)) g), !trapz_over. unfold tau_prefactor, lambda_c, mass_of. rewrite eps_comoving by auto. set (e := comoving_energy P b n).
  assert (He0 : 0 < e) by (unfold e, comoving_energy; pos).
  assert (E : e * over g (fun x => ssa_point (n_e b) x * single_particle_synch_power P (B_field b) e x (c_me P)) = comoving b n * over g (fun x => ssa_point (n_e b) x * synch_power P (c_me P) (B_field b) x (comoving b n))).
  { rewrite !over_scale. apply over_ext. intros x Hx. apply Hg in Hx. transitivity (ssa_point (n_e b) x * (e * single_particle_synch_power P (B_field b) e x (c_me P))); [ring|].
    rewrite (power_eq P (c_me P) (B_field b) x (comoving b n)); auto; [ring|lra]. }
  set (I1 := over g (fun x => ssa_point (n_e b) x * single_particle_synch_power P (B_field b) e x (c_me P))) in *. change (B_to_cgs (B_field b)) with (B_field b). fold I1. set (I2 := over g (fun x => ssa_point (n_e b) x * synch_power P (c_me P) (B_field b) x (comoving b n))) in *. assert (EI : I1 = comoving b n * I2 / e) by (rewrite <- E; field; lra). rewrite EI. clearbody I1 I2. clear E EI.
  assert (Ee : comoving b n = e * (c_me P * c_c P ^ 2) / c_h P) by (unfold e, comoving_energy; field; repeat split; lra). rewrite Ee. field. repeat split; lra.
Qed.
Print Assumptions C78_self_absorption.

(** the fraction that escapes from a homogeneous sphere: chords of length 2 R y,
    y the cosine of the angle to the normal, optical depth tau y; 3 / (2 tau) is
    the ratio of the luminosities of the opaque and of the transparent sphere *)
Definition escape_fraction (tau : R) : R := RInt (fun y => 3 / (2 * tau) * (2 * y * (1 - exp (- (tau * y))))) 0 1.
Theorem C78_escape : forall tau, 0 < tau ->
  (1 / 10 ^ 3 <= tau -> tau_to_attenuation tau = escape_fraction tau) /\ (tau < 1 / 10 ^ 3 -> Rabs (tau_to_attenuation tau - escape_fraction tau) < 4 / 10 ^ 4).
Proof.
  intros tau Ht. assert (E : escape_fraction tau = att tau).
  { apply is_RInt_unique. 
    set (F := fun y => 3 / (2 * tau) * (y ^ 2 + 2 * ((1 + tau * y) * exp (- (tau * y))) / tau ^ 2)).
    assert (D : forall y, is_derive F y (3 / (2 * tau) * (2 * y * (1 - exp (- (tau * y)))))). { intros y. unfold F. auto_derive; auto. simpl. field. lra. }
    assert (V : att tau = minus (F 1) (F 0)). { unfold F, att, minus, plus, opp. simpl. rewrite Rmult_0_r, Ropp_0, exp_0, Rmult_1_r. unfold att_num. field. lra. }
    rewrite V. apply (is_RInt_derive F).
    - intros y _. apply D.
    - intros y _. apply continuity_pt_filterlim. apply derivable_continuous_pt. apply ex_derive_Reals_0. auto_derive. auto. }
  rewrite E, attenuation_eq. destruct (Rltb_spec tau (1 / 10 ^ 3)); split; intros K; try lra.
  pose proof (att_range tau Ht). pose proof (att_lower tau Ht). rewrite Rabs_right; lra.
Qed.
Print Assumptions C78_escape.

(** delta approximation: an electron emits its total power at the frequency
    gamma^2 m_e c^2 (B / B_cr) / h *)
Theorem C78_delta : forall P b nu, phys_ok P -> emitter_ok b (n_e b) -> (forall n, In n nu -> 0 < n) ->
  let electron nu' := sqrt (c_h P * nu' / (c_me P * c_c P ^ 2) / (B_field b / B_cr)) in
  (forall n, In n nu -> gamma_min (n_e b) <= electron (comoving b n) <= gamma_max (n_e b)) ->
  exists density_of_electrons, (forall nu', 0 < nu' -> is_derive electron nu' (density_of_electrons nu')) /\
  synch_sed_flux_delta P {| sy_blob := b; sy_ssa := false; sy_integ := trapz |} nu =
  map (fun n => let nu' := comoving b n in let g := electron nu' in
    received b (nu' * (population b (n_e b) g * density_of_electrons nu') * total_power P (B_field b) g)) nu.
Proof.
  intros P b nu HP Hb Hnu el Hel. pose proof Hb as []. pose proof HP as []. pose proof PI_RGT_0.
  set (k := c_h P / (c_me P * c_c P ^ 2) / (B_field b / B_cr)). assert (Hk : 0 < k) by (unfold k, B_cr; assert (0 < 4.414e13) by lra; pos).
  assert (Ek : forall x, el x = sqrt (k * x)). { intros x. unfold el, k. f_equal. unfold B_cr. field. repeat split; lra. }
  exists (fun x => k / (2 * sqrt (k * x))). split.
  - intros x Hx. apply is_derive_ext with (fun x => sqrt (k * x)); [intros; symmetry; apply Ek|]. auto_derive; [pos|]. assert (0 < sqrt (k * x)) by pos. field. lra.
  - unfold synch_sed_flux_delta, evaluate_sed_flux_delta_approx. cbv zeta. cbn [sy_blob].
    assert (Eg : map (fun n => sqrt (nu_to_epsilon_prime P n (redshift b) (delta_D b) Electron / epsilon_B (B_field b))) nu = map (fun n => el (comoving b n)) nu).
    { apply map_ext. intros n. rewrite eps_comoving by auto. reflexivity. }
    rewrite Eg. unfold evaluate. rewrite corrected_id. 2:{ intros g Hg. apply in_map_iff in Hg. destruct Hg as (n & <- & Hn). auto. }
    rewrite map_map, map2_map_both. apply map_ext_in. intros n Hn. cbv zeta. rewrite !Ek. assert (Hc : 0 < comoving b n). { unfold comoving. specialize (Hnu n Hn). pos. }
    set (q := sqrt (k * comoving b n)). assert (Hq : 0 < q) by (unfold q; pos). assert (Q2 : k * comoving b n = q ^ 2). { unfold q. rewrite pow2_sqrt; auto. left. pos. }
    unfold received, population, total_power, B_to_cgs. replace (comoving b n) with (q ^ 2 / k) by (rewrite <- Q2; field; lra). field. repeat split; lra.
Qed.
Print Assumptions C78_delta.

(** ** C77 *)
Lemma Fc_ln q G : ftiny <= q -> q <= 1 -> F_c q G = 2 * q * ln q + (1 + 2 * q) * (1 - q) + (G * q) ^ 2 / (1 + G * q) * (1 - q) / 2.
Proof.
  intros H0 H1. unfold F_c, clog. rewrite Rmax_left by auto. rewrite Rmin_left. 2:{ unfold fmax. assert (1 <= 2 ^ 1023) by (apply pow_R1_Rle; lra). assert (/ 2 ^ 52 < 1). { rewrite <- Rinv_1 at 1. apply Rinv_lt_contravar; [rewrite Rmult_1_l; apply pow_lt; lra|]. simpl. lra. } nra. }
  unfold Rdiv. ring.
Qed.
Lemma jones_eq P g e es : 0 < g <= 2 ^ 510 -> 0 < e -> jones_cross_section P g e es = 3 * c_sigmaT P / (4 * e * g ^ 2) * isotropic_kernel g e es.
Proof.
  intros [Hg Hg'] He. unfold jones_cross_section, isotropic_kernel. cbv zeta. assert (H4 : 0 < 4 * g * e) by nra. assert (Hg2 : 0 < g ^ 2) by pos.
  assert (Q0 : 0 < 1 / (4 * g ^ 2)) by (apply Rdiv_lt_0_compat; lra).
  assert (Ed : 4 * g * e * (1 - es / g) = 4 * e * (g - es)) by (field; lra). rewrite Ed.
  destruct (Reqb_spec (4 * e * (g - es)) 0) as [E|E].
  { assert (es = g) by nra. subst es. destruct (Rlt_dec g g); [lra|]. ring. }
  assert (Hes : g - es <> 0) by (intros K; apply E; rewrite K; ring).
  assert (Eq : es / g / (4 * e * (g - es)) = es / (4 * g * e * (g - es))) by (field; repeat split; lra). rewrite Eq.
  set (q := es / (4 * g * e * (g - es))). assert (Qd : q * (4 * g * e * (g - es)) = es) by (unfold q; field; repeat split; lra).
  destruct (Rlt_dec es g) as [L|L].
  - destruct (Rle_dec (1 / (4 * g ^ 2)) q) as [A|A]; destruct (Rleb_spec (1 / (4 * g ^ 2)) q) as [A'|A']; try contradiction; cbn [andb]; [|ring].
    destruct (Rle_dec q 1) as [B|B]; destruct (Rleb_spec q 1) as [B'|B']; try contradiction; [|ring]. rewrite Fc_ln; auto. apply Rle_trans with (2 := A).
    unfold ftiny. replace (1 / (4 * g ^ 2)) with (/ (4 * g ^ 2)) by (field; lra). apply Rinv_le_contravar; [lra|].
    replace (2 ^ 1022) with (4 * (2 ^ 510 * 2 ^ 510)). 2:{ rewrite <- pow_add. change 1022%nat with (2 + (510 + 510))%nat. rewrite (pow_add 2 2). simpl (2 ^ 2). ring. }
    apply Rmult_le_compat_l; [lra|]. set (X := 2 ^ 510) in *. clearbody X. simpl. rewrite Rmult_1_r. apply Rmult_le_compat; lra.
  - destruct (Rleb_spec (1 / (4 * g ^ 2)) q) as [A'|A']; cbn [andb]; [|ring]. exfalso. assert (g - es < 0) by lra. assert (4 * g * e * (g - es) < 0) by nra. assert (q * (4 * g * e * (g - es)) < 0) by nra. lra.
Qed.
Lemma trapz_pairs2 (f : R -> R) (G F : R -> R -> R) nus : forall sed, length sed = length nus ->
  trapz (map2 F (map f nus) (map2 G (map f nus) sed)) (map f nus) = trapezia (map (fun nF => (f (fst nF), F (f (fst nF)) (G (f (fst nF)) (snd nF)))) (combine nus sed)).
Proof.
  intros sed HL. rewrite <- trapz_pairs, !map_map. cbn [fst snd]. f_equal.
  - revert sed HL. induction nus as [|n nus IH]; intros [|x sed] HL; try discriminate; auto. cbn [map map2 combine fst snd]. rewrite IH by (cbn in HL; congruence). reflexivity.
  - revert sed HL. induction nus as [|n nus IH]; intros [|x sed] HL; try discriminate; auto. cbn [map combine fst]. rewrite <- IH by (cbn in HL; congruence). reflexivity.
Qed.
Lemma trapezia_scale (k : R) l : k * trapezia l = trapezia (map (fun p => (fst p, k * snd p)) l).
Proof. rewrite <- !trapz_pairs, !map_map. cbn [fst snd]. rewrite <- trapz_scale, map_map. reflexivity. Qed.
Lemma sed_result P nu z dl dd b rb s ssa integ g r : gamma_min s <= gamma_max s -> corrected s g = g ->
  evaluate_sed_flux P nu z dl dd b rb s ssa integ g = Ok r -> fst r = g /\ length (snd r) = length nu.
Proof.
  intros Hm Cg Hr. destruct ssa.
  - assert (D : (forall a c, s <> EmptyDist a c) \/ evaluate_SSA_integrand s g = Err AttributeError) by (destruct s; [left; congruence .. | right; reflexivity]).
    destruct D as [D|D]. { rewrite sed_ssa in Hr by auto. apply ok_inj_eq in Hr. subst r. cbn [fst snd]. rewrite map_length. auto. }
    exfalso. unfold evaluate_sed_flux, evaluate, evaluate_tau_ssa in Hr. rewrite Cg, D in Hr. cbn [bind] in Hr. congruence.
  - rewrite sed_plain in Hr. apply ok_inj_eq in Hr. subst r. cbn [fst snd]. rewrite map_length. auto.
Qed.
Theorem C77_ssc : forall P b ssa nu synch, phys_ok P -> emitter_ok b (n_e b) -> gamma_max (n_e b) <= 2 ^ 510 ->
  let frequencies := np_logspace 5 30 200 in
  let mc2 := c_me P * c_c P ^ 2 in
  synch_sed_flux P {| sy_blob := b; sy_ssa := ssa; sy_integ := trapz |} frequencies = Ok synch ->
  ssc_sed_flux P {| sc_blob := b; sc_ssa := ssa; sc_integ := trapz |} nu =
  Ok (map (fun n => let es := comoving_energy P b n in
    received b (es ^ 2 * mc2 * trapezia (map (fun nF =>
      let eps := comoving_energy P b (fst nF) in
      let luminosity := 4 * PI * d_L b ^ 2 * snd nF / (delta_D b ^ 4 * eps) in
      let photons := sphere_density P (R_b b) luminosity / (eps * mc2) in
      (eps, photons * c_c P * over (log_grid (gamma_min (n_e b)) (gamma_max (n_e b)) (gamma_e_size b)) (fun g =>
              population b (n_e b) g * jones_cross_section P g eps es))) (combine frequencies synch)))) nu).
Proof.
  intros P b ssa nu synch HP Hb Hmax frequencies mc2 Hs. pose proof Hb as []. pose proof HP as []. pose proof PI_RGT_0. assert (Hm : 0 < mc2) by (unfold mc2; pos).
  set (g := log_grid _ _ _). assert (Hg : forall x, In x g -> gamma_min (n_e b) <= x <= gamma_max (n_e b)) by (intros x; apply grid_in; auto).
  assert (Cg : corrected (n_e b) g = g) by (apply corrected_id; auto).
  unfold ssc_sed_flux. cbn [sc_blob sc_ssa sc_integ]. unfold ssc_evaluate_sed_flux. change nu_to_integrate with frequencies. change (gamma_e b) with g.
  unfold synch_sed_flux in Hs. cbn [sy_blob sy_ssa sy_integ] in Hs. change (gamma_e b) with g in Hs.
  assert (HG : forall r, evaluate_sed_flux P frequencies (redshift b) (d_L b) (delta_D b) (B_field b) (R_b b) (n_e b) ssa trapz g = Ok r -> fst r = g /\ length (snd r) = length frequencies).
  { intros r Hr. apply sed_result in Hr; auto. }
  destruct (evaluate_sed_flux P frequencies _ _ _ _ _ _ _ _ _) as [[g1 sed]|]; [|discriminate]. cbn [bind snd] in Hs |- *. apply ok_inj_eq in Hs. subst sed. destruct (HG _ eq_refl) as [E1 HL]. cbn [fst snd] in E1, HL. subst g1. clear HG.
  unfold evaluate. rewrite Cg. cbn [bind snd]. f_equal. apply map_ext. intros n. cbv zeta. rewrite eps_comoving by auto. set (es := comoving_energy P b n).
  replace (map (fun x => nu_to_epsilon_prime P x (redshift b) (delta_D b) Electron) frequencies) with (map (comoving_energy P b) frequencies). 2:{ apply map_ext. intros x. symmetry. apply eps_comoving; auto. }
  unfold received. 
  set (T := trapezia _). cut (3 / 4 * c_sigmaT P * trapz (map2 (fun e u => trapz (map2 (fun v g0 => u / e ^ 2 * (4 / 3 * PI * R_b b ^ 3 * v) / g0 ^ 2 * isotropic_kernel g0 e es) (map (density (n_e b)) g) g) g) (map (comoving_energy P b) frequencies) (map2 (evaluate_u_ph_synch_diff P (R_b b) (d_L b) (delta_D b)) (map (comoving_energy P b) frequencies) synch)) (map (comoving_energy P b) frequencies) * c_c P = mc2 * T).
  { intros K. set (T1 := trapz _ _) in *. clearbody T1 T. transitivity (delta_D b ^ 4 / (4 * PI * d_L b ^ 2) * es ^ 2 * (3 / 4 * c_sigmaT P * T1 * c_c P)); [field; lra|]. rewrite K. field. lra. }
  rewrite trapz_pairs2 by auto. unfold T. transitivity (3 / 4 * c_sigmaT P * c_c P * trapezia (map (fun nF : R * R => (comoving_energy P b (fst nF), trapz (map2 (fun v g0 => evaluate_u_ph_synch_diff P (R_b b) (d_L b) (delta_D b) (comoving_energy P b (fst nF)) (snd nF) / comoving_energy P b (fst nF) ^ 2 * (4 / 3 * PI * R_b b ^ 3 * v) / g0 ^ 2 * isotropic_kernel g0 (comoving_energy P b (fst nF)) es) (map (density (n_e b)) g) g) g)) (combine frequencies synch))); [ring|].
  rewrite !trapezia_scale, !map_map. f_equal. apply map_ext_in. intros [x F] HxF. cbn [fst snd]. f_equal. apply in_combine_l in HxF. apply logspace_pos in HxF.
  assert (He : 0 < comoving_energy P b x) by (unfold comoving_energy, comoving; pos). set (e := comoving_energy P b x) in *. clearbody e.
  rewrite map2_map_map, trapz_over, !over_scale. apply over_ext. intros y Hy. apply Hg in Hy. rewrite jones_eq by lra. unfold population, evaluate_u_ph_synch_diff, sphere_density. 
  set (kk := isotropic_kernel y e es). clearbody kk. field. repeat split; lra.
Qed.
Print Assumptions C77_ssc.
(** the energy density of the synchrotron photons is that of a sphere that
    radiates the total power of its electrons *)
Theorem C77_energy_density : forall P b, phys_ok P -> emitter_ok b (n_e b) ->
  u_ph_synch P b = sphere_density P (R_b b) (over (log_grid (gamma_min (n_e b)) (gamma_max (n_e b)) (gamma_e_size b)) (fun g => population b (n_e b) g * total_power P (B_field b) g)).
Proof.
  intros P b HP Hb. pose proof Hb as []. pose proof HP as []. pose proof PI_RGT_0. unfold u_ph_synch. rewrite eval_gamma_e by auto. cbn [snd]. rewrite map2_map_l, trapz_over. change (gamma_e b) with (log_grid (gamma_min (n_e b)) (gamma_max (n_e b)) (gamma_e_size b)). set (g := log_grid _ _ _).
  unfold sphere_density. set (k := 4 / 3 * PI * R_b b ^ 3 * (4 / 3 * c_sigmaT P * c_c P * (B_field b ^ 2 / (8 * PI)))).
  replace (over g (fun x => population b (n_e b) x * total_power P (B_field b) x)) with (k * over g (fun x => x ^ 2 * density (n_e b) x)). 2:{ rewrite over_scale. apply over_ext. intros x Hx. unfold k, population, total_power. ring. }
  set (I := over g _). clearbody I. unfold k, U_B, B_cgs, B_to_cgs. field. repeat split; lra.
Qed.
Print Assumptions C77_energy_density.

(** ** concrete cases: the blob of the tutorials *)
Lemma ex_emitter : emitter_ok ex_blob (n_e ex_blob).
Proof. constructor; unfold ex_blob; cbn [redshift d_L delta_D B_field R_b n_e gamma_min gamma_max]; lra. Qed.
Example C77_case : exists synch, synch_sed_flux codata {| sy_blob := ex_blob; sy_ssa := true; sy_integ := trapz |} (np_logspace 5 30 200) = Ok synch /\ gamma_max (n_e ex_blob) <= 2 ^ 510.
Proof.
  pose proof ex_emitter as E. pose proof E as []. set (g := log_grid (gamma_min (n_e ex_blob)) (gamma_max (n_e ex_blob)) (gamma_e_size ex_blob)).
  destruct (C78_self_absorption codata ex_blob (np_logspace 5 30 200) (map (ssa_point (n_e ex_blob)) g) codata_ok E) as (thin & _ & K).
  - intros n Hn. apply logspace_pos in Hn. auto.
  - apply ssa_array; [discriminate|]. apply corrected_id. intros x. apply grid_in; auto.
  - eexists. split; [exact K|]. unfold ex_blob. cbn [n_e gamma_max]. apply Rle_trans with (2 ^ 20); [simpl; lra|]. apply Rle_pow; [lra|]. lia.
Qed.
Example C78_case : emitter_ok ex_blob (n_e ex_blob) /\ let nu' := comoving ex_blob 1e14 in
  10 <= sqrt (c_h codata * nu' / (c_me codata * c_c codata ^ 2) / (B_field ex_blob / B_cr)) <= 1e5.
Proof.
  split; [exact ex_emitter|]. unfold comoving, ex_blob, codata, B_cr. cbn [redshift delta_D B_field c_h c_me c_c]. split.
  - apply Rle_trans with (sqrt (10 ^ 2)); [rewrite sqrt_pow2; lra|]. apply sqrt_le_1_alt. lra.
  - apply Rle_trans with (sqrt ((1e5) ^ 2)); [|rewrite sqrt_pow2; lra]. apply sqrt_le_1_alt. lra.
Qed.
Example C78_proton_case : exists b s, n_p_opt b = Some s /\ emitter_ok b s.
Proof. exists (set_n_p (PowerLaw 1 2 10 1e6) ex_blob), (PowerLaw 1 2 10 1e6). split; auto. constructor; unfold ex_blob, set_n_p; cbn [redshift d_L delta_D B_field R_b gamma_min gamma_max]; lra. Qed.
