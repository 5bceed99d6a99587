(** C39 to C43: synchrotron radiation *)
From Verif Require Import Base TEUtils NumpyInst MathUtils Conversion Spectra Blob Synchrotron Spec_Math Spec_Spectra Spec_Blob Spec_Rad MathFacts SpectraFacts BlobFacts SynchFacts SynchFacts2 Props_Blob.
From Coquelicot Require Import Coquelicot.
Import ListNotations.
Open Scope list_scope.
Open Scope R_scope.

(** ** C39 *)
Theorem C39_nonneg : forall P nu z dl dd b rb s integ gamma, phys_ok P -> sed_args nu z dl dd b rb gamma -> spaced gamma -> nonneg_dist s -> offered integ ->
  exists g sed, evaluate_sed_flux P nu z dl dd b rb s false integ gamma = Ok (g, sed) /\ length sed = length nu /\ all_nonneg sed.
Proof.
  intros P nu z dl dd b rb s integ gamma HP [] Hs Hd Ho. rewrite sed_plain. eexists. eexists. split; [reflexivity|]. split; [apply map_length|].
  intros x Hx. apply in_map_iff in Hx. destruct Hx as (n & <- & Hn). destruct (corrected_good s gamma Hd sa_gamma Hs). destruct Hd as (_ & _ & Hd).
  apply flux_pt_nonneg; auto.
Qed.
Print Assumptions C39_nonneg.

Theorem C39_proton_nonneg : forall P nu z dl dd b rb s integ gamma, phys_ok P -> sed_args nu z dl dd b rb gamma -> spaced gamma -> nonneg_dist s -> offered integ ->
  length (snd (proton_evaluate_sed_flux P nu z dl dd b rb s integ gamma)) = length nu /\ all_nonneg (snd (proton_evaluate_sed_flux P nu z dl dd b rb s integ gamma)).
Proof.
  intros P nu z dl dd b rb s integ gamma HP [] Hs Hd Ho. unfold proton_evaluate_sed_flux, evaluate. cbn [snd]. split; [apply map_length|].
  intros x Hx. apply in_map_iff in Hx. destruct Hx as (n & <- & Hn). destruct (corrected_good s gamma Hd sa_gamma Hs) as [Hi Hp]. destruct Hd as (_ & _ & Hd).
  pose proof PI_RGT_0. pose proof (eps_pos P n z dd Proton HP (sa_nu n Hn) sa_z sa_dd). cbv zeta. rewrite map2_map_map.
  assert (0 < dl ^ 2) by (apply pow_lt; auto). assert (0 < dd ^ 4) by (apply pow_lt; auto). assert (0 < rb ^ 3) by (apply pow_lt; auto).
  apply Rmult_le_pos. { apply Rmult_le_pos; [|lra]. left. apply Rdiv_lt_0_compat; auto. nra. }
  apply offered_nonneg; auto. intros v Hv. apply in_map_iff in Hv. destruct Hv as (y & <- & Hy).
  pose proof (power_pos P (B_to_cgs b) (nu_to_epsilon_prime P n z dd Proton) y (c_mp P) HP sa_b). specialize (Hd y).
  apply Rmult_le_pos; [|lra]. apply Rmult_le_pos; auto. nra.
Qed.
Print Assumptions C39_proton_nonneg.

(** at the level of the object: sed_flux(nu) of Synchrotron(blob) *)
Theorem C39_object : forall P sy nu, phys_ok P -> sed_args nu (redshift (sy_blob sy)) (d_L (sy_blob sy)) (delta_D (sy_blob sy)) (B_field (sy_blob sy)) (R_b (sy_blob sy)) [] ->
  proper_dist (n_e (sy_blob sy)) -> offered (sy_integ sy) -> sy_ssa sy = false ->
  exists sed, synch_sed_flux P sy nu = Ok sed /\ length sed = length nu /\ all_nonneg sed.
Proof.
  intros P [b ssa integ] nu HP [] (H0 & H1 & Hd) Ho Hf. cbn [sy_blob sy_ssa sy_integ] in *. subst ssa. unfold synch_sed_flux. cbn [sy_blob sy_ssa sy_integ]. rewrite sed_plain. cbn [bind snd].
  eexists. split; [reflexivity|]. split; [apply map_length|]. intros x Hx. apply in_map_iff in Hx. destruct Hx as (n & <- & Hn).
  assert (Hin : forall g, In g (gamma_e b) -> gamma_min (n_e b) <= g <= gamma_max (n_e b)) by (intros g; apply gamma_e_in; lra).
  rewrite corrected_id by auto. apply flux_pt_nonneg; auto. { apply gamma_e_incr; auto. } intros v Hv. specialize (Hin v Hv). lra.
Qed.
Print Assumptions C39_object.

Theorem C39_linear_in_k : forall P nu z dl dd b rb s gamma c, phys_ok P -> sed_args nu z dl dd b rb gamma ->
  exists g sed, evaluate_sed_flux P nu z dl dd b rb s false trapz gamma = Ok (g, sed) /\
  evaluate_sed_flux P nu z dl dd b rb (rescaled c s) false trapz gamma = Ok (g, map (Rmult c) sed).
Proof.
  intros P nu z dl dd b rb s gamma c _ _. rewrite !sed_plain. eexists. eexists. split; [reflexivity|]. rewrite corrected_rescaled. f_equal. f_equal.
  rewrite map_map. apply map_ext. intros n. unfold flux_pt. cbv zeta.
  rewrite (map_ext _ (fun x => c * (4 / 3 * PI * rb ^ 3 * density s x * single_particle_synch_power P b (nu_to_epsilon_prime P n z dd Electron) x (c_me P)))).
  2:{ intros x. rewrite density_rescaled. ring. } rewrite <- map_map, trapz_scale. ring.
Qed.
Print Assumptions C39_linear_in_k.

(** a sum of two distributions, on a grid none of the evaluations alters *)
Theorem C39_additive : forall P nu z dl dd b rb s s1 s2 gamma, phys_ok P -> sed_args nu z dl dd b rb gamma ->
  fst (evaluate s gamma) = gamma -> fst (evaluate s1 gamma) = gamma -> fst (evaluate s2 gamma) = gamma ->
  (forall g, In g gamma -> density s g = density s1 g + density s2 g) ->
  exists sed1 sed2, evaluate_sed_flux P nu z dl dd b rb s1 false trapz gamma = Ok (gamma, sed1) /\ evaluate_sed_flux P nu z dl dd b rb s2 false trapz gamma = Ok (gamma, sed2) /\
  evaluate_sed_flux P nu z dl dd b rb s false trapz gamma = Ok (gamma, map2 Rplus sed1 sed2).
Proof.
  intros P nu z dl dd b rb s s1 s2 gamma _ _ E0 E1 E2 Hd. unfold evaluate in E0, E1, E2. cbn [fst] in *. rewrite !sed_plain. rewrite E0, E1, E2.
  eexists. eexists. split; [reflexivity|]. split; [reflexivity|]. f_equal. f_equal. rewrite map2_map_both. apply map_ext. intros n. unfold flux_pt. cbv zeta.
  rewrite <- Rmult_plus_distr_l. f_equal. rewrite <- trapz_add by (rewrite map_length; auto). f_equal. rewrite map2_map_both. apply map_ext_in. intros x Hx. rewrite Hd by auto. ring.
Qed.
Print Assumptions C39_additive.

Lemma ex_args : sed_args [1e12; 1e15] 0.069 1e27 10 1 1e16 [10; 100; 1000].
Proof. constructor; try lra; intros x H; simpl in H; intuition subst; lra. Qed.
Lemma ex_spaced : spaced [10; 100; 1000].
Proof. simpl. lra. Qed.
Lemma ex_nonneg k : 0 <= k -> nonneg_dist (PowerLaw k 2 10 1e5).
Proof. intros Hk. repeat split; try (simpl; lra). intros g. apply (density_nonneg_build (ShPL 2)). auto. Qed.
Example C39_case : exists g sed, evaluate_sed_flux codata [1e12; 1e15] 0.069 1e27 10 1 1e16 (PowerLaw 1 2 10 1e5) false trapz [10; 100; 1000] = Ok (g, sed) /\ length sed = 2%nat /\ all_nonneg sed.
Proof. apply (C39_nonneg codata _ _ _ _ _ _ _ _ _ codata_ok ex_args ex_spaced (ex_nonneg 1 ltac:(lra))). left; reflexivity. Qed.
Lemma ex_grid k : fst (evaluate (PowerLaw k 2 10 1e5) [10; 100; 1000]) = [10; 100; 1000].
Proof. unfold evaluate. cbn [fst]. apply corrected_id. intros g Hg. simpl in Hg. simpl. intuition subst; lra. Qed.
Example C39_case_additive : exists sed1 sed2, evaluate_sed_flux codata [1e12; 1e15] 0.069 1e27 10 1 1e16 (PowerLaw 1 2 10 1e5) false trapz [10; 100; 1000] = Ok ([10; 100; 1000], sed1) /\
  evaluate_sed_flux codata [1e12; 1e15] 0.069 1e27 10 1 1e16 (PowerLaw 2 2 10 1e5) false trapz [10; 100; 1000] = Ok ([10; 100; 1000], sed2) /\
  evaluate_sed_flux codata [1e12; 1e15] 0.069 1e27 10 1 1e16 (PowerLaw 3 2 10 1e5) false trapz [10; 100; 1000] = Ok ([10; 100; 1000], map2 Rplus sed1 sed2).
Proof.
  apply (C39_additive codata _ _ _ _ _ _ _ _ _ _ codata_ok ex_args (ex_grid 3) (ex_grid 1) (ex_grid 2)).
  intros g Hg. rewrite (density_build_k (ShPL 2) 3 10 1e5 g : density (PowerLaw 3 2 10 1e5) g = _), (density_build_k (ShPL 2) 2 10 1e5 g : density (PowerLaw 2 2 10 1e5) g = _).
  change (PowerLaw 1 2 10 1e5) with (build (ShPL 2) 1 10 1e5). ring.
Qed.

(** ** C40 *)
Theorem C40_factor_range : forall tau, 0 < tau_to_attenuation tau <= 1.
Proof. exact attenuation_range. Qed.
Print Assumptions C40_factor_range.
Theorem C40_factor_decreasing : forall t1 t2, t1 <= t2 -> tau_to_attenuation t2 <= tau_to_attenuation t1.
Proof. exact attenuation_decr. Qed.
Print Assumptions C40_factor_decreasing.
(** it starts at 1, below 1e-3 it is 1, and putting it to 1 there is an error of at most 3.75e-4 with respect to the formula *)
Theorem C40_factor_from_1 : (forall tau, tau < 1 / 10 ^ 3 -> tau_to_attenuation tau = 1) /\
  (forall tau, 0 < tau -> 1 - 3 * tau / 8 < 3 / tau * (1 / 2 + exp (- tau) / tau - (1 - exp (- tau)) / tau ^ 2) < 1) /\
  (forall tau, 1 / 10 ^ 3 <= tau -> tau_to_attenuation tau = 3 / tau * (1 / 2 + exp (- tau) / tau - (1 - exp (- tau)) / tau ^ 2)).
Proof.
  assert (E : forall t, 0 < t -> 3 / t * (1 / 2 + exp (- t) / t - (1 - exp (- t)) / t ^ 2) = att t).
  { intros t Ht. unfold att. rewrite <- att_eq by lra. field. lra. }
  split; [|split].
  - intros t Ht. rewrite attenuation_eq. rewrite (proj2 (Rltb_true t (1 / 10 ^ 3)) Ht). reflexivity.
  - intros t Ht. rewrite E by auto. split; [apply att_lower; auto|apply att_range; auto].
  - intros t Ht. rewrite E by (simpl in Ht; lra). rewrite attenuation_eq. rewrite (proj2 (Rltb_false t (1 / 10 ^ 3)) Ht). reflexivity.
Qed.
Print Assumptions C40_factor_from_1.

(** hence, for every distribution, the SED with self-absorption lies between 0 and the one without *)
Theorem C40_attenuates : forall P nu z dl dd b rb s integ gamma, phys_ok P -> sed_args nu z dl dd b rb gamma -> spaced gamma -> nonneg_dist s -> gamma_min s <= gamma_max s ->
  (forall a c, s <> EmptyDist a c) -> offered integ ->
  exists g sed seda, evaluate_sed_flux P nu z dl dd b rb s false integ gamma = Ok (g, sed) /\ evaluate_sed_flux P nu z dl dd b rb s true integ gamma = Ok (g, seda) /\
  all_nonneg seda /\ all_le seda sed.
Proof.
  intros P nu z dl dd b rb s integ gamma HP [] Hs Hd Hm He Ho. rewrite sed_plain, sed_ssa by auto. eexists. eexists. eexists. split; [reflexivity|]. split; [reflexivity|].
  destruct (corrected_good s gamma Hd sa_gamma Hs). destruct Hd as (_ & _ & Hd). set (g := corrected s gamma) in *.
  assert (F : forall n, In n nu -> 0 <= flux_pt P integ z dl dd b rb s g n) by (intros n Hn; apply flux_pt_nonneg; auto). split.
  - intros x Hx. apply in_map_iff in Hx. destruct Hx as (n & <- & Hn). specialize (F n Hn).
    pose proof (attenuation_range (tau_pt P integ z dd b rb s g n)). nra.
  - unfold all_le. clear sa_nu. induction nu as [|n nu IH]; simpl; constructor.
    + pose proof (attenuation_range (tau_pt P integ z dd b rb s g n)). specialize (F n (or_introl eq_refl)). nra.
    + apply IH. intros m Hm'. apply F. right; auto.
Qed.
Print Assumptions C40_attenuates.

(** the optical depth is non-negative for distributions with index at least -2 *)
Theorem C40_tau_nonneg : forall P nu z dl dd b rb sh k a c integ gamma, phys_ok P -> sed_args nu z dl dd b rb gamma -> incr gamma -> shape_ok sh -> 0 <= k -> 
  (forall g, In g gamma -> a <= g <= c /\ absorbing sh g) -> offered integ ->
  exists tau, evaluate_tau_ssa P nu z dd b rb (build sh k a c) integ gamma = Ok (gamma, tau) /\ length tau = length nu /\ all_nonneg tau.
Proof.
  intros P nu z dl dd b rb sh k a c integ gamma HP [] Hi Hok Hk Hg Ho.
  rewrite tau_plain. 2:{ intros x y. destruct sh; discriminate. }
  2:{ apply corrected_id. intros g Hx. rewrite build_min, build_max. apply Hg; auto. }
  eexists. split; [reflexivity|]. split; [apply map_length|]. intros x Hx. apply in_map_iff in Hx. destruct Hx as (n & <- & Hn).
  apply tau_pt_nonneg; auto. intros y Hy. apply ssa_point_nonpos; auto. apply Hg; auto.
Qed.
Print Assumptions C40_tau_nonneg.

(** below index -2 the optical depth of a power law is negative and the SED is left unattenuated *)
Theorem C40_inverted_unattenuated : forall P nu z dl dd b rb k p a c gamma, phys_ok P -> sed_args nu z dl dd b rb gamma -> incr gamma -> 0 <= k -> p < -2 -> a <= c ->
  (forall g, In g gamma -> a <= g <= c) ->
  evaluate_sed_flux P nu z dl dd b rb (PowerLaw k p a c) true trapz gamma = evaluate_sed_flux P nu z dl dd b rb (PowerLaw k p a c) false trapz gamma.
Proof.
  intros P nu z dl dd b rb k p a c gamma HP [] Hi Hk Hp Hac Hg. rewrite sed_plain, sed_ssa by (auto; discriminate). f_equal. f_equal. apply map_ext_in. intros n Hn.
  rewrite corrected_id by auto. assert (T : tau_pt P trapz z dd b rb (PowerLaw k p a c) gamma n <= 0).
  { assert (E : tau_pt P trapz z dd b rb (PowerLaw (- k) p a c) gamma n = - tau_pt P trapz z dd b rb (PowerLaw k p a c) gamma n).
    { unfold tau_pt. cbv zeta. rewrite (map_ext _ (fun x => -1 * (ssa_point (PowerLaw k p a c) x * single_particle_synch_power P b (nu_to_epsilon_prime P n z dd Electron) x (c_me P)))).
      2:{ intros x. unfold ssa_point, in_range. cbn [gamma_min gamma_max]. ring. } rewrite <- map_map, trapz_scale. ring. }
    assert (0 <= tau_pt P trapz z dd b rb (PowerLaw (- k) p a c) gamma n); [|lra]. apply tau_pt_nonneg; auto. { left; reflexivity. }
    intros x Hx. unfold ssa_point. destruct (in_range _ x); [|lra]. pose proof (npow_pos x (- p - 1)). assert (0 <= - (p + 2) * npow x (- p - 1)) by nra. nra. }
  rewrite attenuation_eq. rewrite (proj2 (Rltb_true _ (1 / 10 ^ 3))) by (simpl; lra). ring.
Qed.
Print Assumptions C40_inverted_unattenuated.

Example C40_case : exists g sed seda, evaluate_sed_flux codata [1e12; 1e15] 0.069 1e27 10 1 1e16 (PowerLaw 1 2 10 1e5) false trapz [10; 100; 1000] = Ok (g, sed) /\
  evaluate_sed_flux codata [1e12; 1e15] 0.069 1e27 10 1 1e16 (PowerLaw 1 2 10 1e5) true trapz [10; 100; 1000] = Ok (g, seda) /\ all_nonneg seda /\ all_le seda sed.
Proof.
  apply (C40_attenuates codata _ _ _ _ _ _ _ _ _ codata_ok ex_args ex_spaced (ex_nonneg 1 ltac:(lra))); [simpl; lra|discriminate|left; reflexivity].
Qed.
Example C40_case_tau : exists tau, evaluate_tau_ssa codata [1e12; 1e15] 0.069 10 1 1e16 (build (ShLP 2 0.1 100) 1 10 1e5) trapz_loglog [10; 100; 1000] = Ok ([10; 100; 1000], tau) /\ length tau = 2%nat /\ all_nonneg tau.
Proof.
  apply (C40_tau_nonneg codata _ _ 1e27 _ _ _ _ _ _ _ _ _ codata_ok ex_args); simpl; try lra; [|right; reflexivity].
  intros g Hg. split; [intuition subst; lra|]. intuition subst.
  - replace (10 / 100) with (/ 10) by lra. unfold log10. rewrite ln_Rinv by lra. pose proof ln10_pos. replace (- ln 10 / ln 10) with (-1) by (field; lra). lra.
  - replace (100 / 100) with 1 by lra. unfold log10. rewrite ln_1. lra.
  - replace (1000 / 100) with 10 by lra. rewrite log10_10. lra.
Qed.

(** ** C41 (synchrotron; the other processes are in Props_Compton) *)
(** luminosity = 4 pi d_L^2 flux, and it does not depend on d_L, with or without self-absorption, for any integrator *)
Theorem C41_synch_luminosity : forall P sy nu, synch_sed_luminosity P sy nu = rmap (map (fun f => 4 * PI * d_L (sy_blob sy) ^ 2 * f)) (synch_sed_flux P sy nu).
Proof. intros P sy nu. unfold synch_sed_luminosity. destruct (synch_sed_flux P sy nu); reflexivity. Qed.
Print Assumptions C41_synch_luminosity.
Lemma flux_pt_dl P integ z dl dl' dd b rb s g n : dl <> 0 -> dl' <> 0 -> flux_pt P integ z dl' dd b rb s g n = (dl / dl') ^ 2 * flux_pt P integ z dl dd b rb s g n.
Proof. intros H H'. unfold flux_pt. cbv zeta. pose proof PI_RGT_0. field. repeat split; auto; lra. Qed.
Lemma sed_dl P nu z dl dl' dd b rb s ssa integ gamma : dl <> 0 -> dl' <> 0 ->
  evaluate_sed_flux P nu z dl' dd b rb s ssa integ gamma = rmap (fun r => (fst r, map (Rmult ((dl / dl') ^ 2)) (snd r))) (evaluate_sed_flux P nu z dl dd b rb s ssa integ gamma).
Proof.
  intros H H'. assert (E : forall n e g v, dd ^ 4 / (4 * PI * dl' ^ 2) * e * integ (map2 (fun v x => 4 / 3 * PI * rb ^ 3 * v * single_particle_synch_power P (B_to_cgs b) n x (c_me P)) v g) g
     = (dl / dl') ^ 2 * (dd ^ 4 / (4 * PI * dl ^ 2) * e * integ (map2 (fun v x => 4 / 3 * PI * rb ^ 3 * v * single_particle_synch_power P (B_to_cgs b) n x (c_me P)) v g) g)).
  { intros. pose proof PI_RGT_0. field. repeat split; auto; lra. }
  unfold evaluate_sed_flux, evaluate. cbv zeta. destruct ssa.
  - destruct (evaluate_tau_ssa P nu z dd b rb s integ (corrected s gamma)) as [[g t]|e]; [|reflexivity]. cbn [bind rmap fst snd]. f_equal. f_equal.
    revert t. induction nu as [|n nu IH]; intros t; cbn [map map2]; auto. destruct t as [|t0 t]; cbn [map map2]; auto. rewrite IH. f_equal. rewrite E. ring.
  - cbn [rmap fst snd]. f_equal. f_equal. rewrite map_map. apply map_ext. intros n. apply E.
Qed.
Theorem C41_synch_no_distance : forall P sy nu d, d_L (sy_blob sy) <> 0 -> d <> 0 ->
  synch_sed_luminosity P {| sy_blob := set_d_L d (sy_blob sy); sy_ssa := sy_ssa sy; sy_integ := sy_integ sy |} nu = synch_sed_luminosity P sy nu.
Proof.
  intros P [b ssa integ] nu d H0 Hd. unfold synch_sed_luminosity, synch_sed_flux. cbn [sy_blob sy_ssa sy_integ set_d_L redshift d_L delta_D B_field R_b n_e] in *.
  change (gamma_e (set_d_L d b)) with (gamma_e b). rewrite (sed_dl P nu (redshift b) (d_L b) d) by auto.
  match goal with |- context [rmap _ ?r] => destruct r as [[g sed]|e] end; [|reflexivity]. cbn [rmap bind fst snd]. f_equal. unfold to_luminosity. rewrite map_map. apply map_ext.
  intros f. field. auto.
Qed.
Print Assumptions C41_synch_no_distance.
(** beaming: the flux at the observed frequency of the same comoving frequency goes as delta_D^4 / d_L^2 *)
Lemma ok_pair_inj {A B} (x x' : A) (y y' : B) : Ok (x, y) = Ok (x', y') -> x = x' /\ y = y'.
Proof. intros H. assert (E : (x, y) = (x', y')) by congruence. split; congruence. Qed.
Theorem C41_beaming : forall P nu z dl dl' dd dd' b rb s ssa integ gamma g sed, phys_ok P -> dl <> 0 -> dl' <> 0 -> dd <> 0 -> dd' <> 0 ->
  evaluate_sed_flux P nu z dl dd b rb s ssa integ gamma = Ok (g, sed) ->
  evaluate_sed_flux P (map (fun n => n * dd' / dd) nu) z dl' dd' b rb s ssa integ gamma = Ok (g, map (Rmult (dd' ^ 4 / dd ^ 4 * (dl ^ 2 / dl' ^ 2))) sed).
Proof.
  intros P nu z dl dl' dd dd' b rb s ssa integ gamma g sed HP Hdl Hdl' Hdd Hdd' H.
  rewrite (sed_dl P _ z dl dl') by auto.
  assert (E : evaluate_sed_flux P (map (fun n => n * dd' / dd) nu) z dl dd' b rb s ssa integ gamma = Ok (g, map (Rmult (dd' ^ 4 / dd ^ 4)) sed)).
  { assert (Ee : forall n, nu_to_epsilon_prime P (n * dd' / dd) z dd' Electron = nu_to_epsilon_prime P n z dd Electron).
    { intros n. destruct HP. unfold nu_to_epsilon_prime, nu_to_eps, rest_energy, mass_of. field. repeat split; auto; lra. }
    assert (Et : evaluate_tau_ssa P (map (fun n => n * dd' / dd) nu) z dd' b rb s integ (corrected s gamma) = evaluate_tau_ssa P nu z dd b rb s integ (corrected s gamma)).
    { unfold evaluate_tau_ssa. destruct (evaluate_SSA_integrand s (corrected s gamma)) as [[g0 v]|e]; [|reflexivity]. cbn [bind]. f_equal. f_equal. rewrite map_map. apply map_ext.
      intros n. rewrite Ee. reflexivity. }
    unfold evaluate_sed_flux, evaluate in *. cbv zeta in *. rewrite map_map. rewrite Et. pose proof PI_RGT_0.
    rewrite (map_ext (fun n => _ * _ * _) (fun n => dd' ^ 4 / dd ^ 4 * (dd ^ 4 / (4 * PI * dl ^ 2) * nu_to_epsilon_prime P n z dd Electron *
       integ (map2 (fun v x => 4 / 3 * PI * rb ^ 3 * v * single_particle_synch_power P (B_to_cgs b) (nu_to_epsilon_prime P n z dd Electron) x (c_me P)) (map (density s) (corrected s gamma)) (corrected s gamma)) (corrected s gamma)))).
    2:{ intros n. rewrite Ee. field. repeat split; auto; lra. }
    destruct ssa.
    - destruct (evaluate_tau_ssa P nu z dd b rb s integ (corrected s gamma)) as [[g0 t]|e]; [|discriminate]. cbn [bind fst snd] in *. apply ok_pair_inj in H. destruct H as [<- <-]. f_equal. f_equal.
      clear. revert t. induction nu as [|n nu IH]; intros t; cbn [map map2]; auto. destruct t as [|t0 t]; cbn [map map2]; auto. rewrite IH. f_equal. ring.
    - apply ok_pair_inj in H. destruct H as [<- <-]. f_equal. f_equal. rewrite map_map. reflexivity. }
  rewrite E. cbn [rmap fst snd]. f_equal. f_equal. rewrite map_map. apply map_ext. intros x. field. auto.
Qed.
Print Assumptions C41_beaming.

(** a blob whose redshift was changed after construction keeps the flux normalisation of the old distance (see C37) *)
Theorem C37_stale_flux : forall P b ssa integ nu z d, d_L b <> 0 -> d <> 0 ->
  synch_sed_flux P {| sy_blob := set_z z b; sy_ssa := ssa; sy_integ := integ |} nu =
  rmap (map (Rmult ((d / d_L b) ^ 2))) (synch_sed_flux P {| sy_blob := set_d_L d (set_z z b); sy_ssa := ssa; sy_integ := integ |} nu).
Proof.
  intros P b ssa integ nu z d H0 Hd. unfold synch_sed_flux. cbn [sy_blob sy_ssa sy_integ set_z set_d_L redshift d_L delta_D B_field R_b n_e].
  change (gamma_e (set_d_L d (set_z z b))) with (gamma_e b). change (gamma_e (set_z z b)) with (gamma_e b).
  rewrite (sed_dl P nu z d (d_L b)) by auto. match goal with |- context [rmap _ ?r] => destruct r as [[g sed]|e] end; reflexivity.
Qed.
Print Assumptions C37_stale_flux.

Example C41_case : exists g sed, evaluate_sed_flux codata [1e12; 1e15] 0.069 1e27 10 1 1e16 (PowerLaw 1 2 10 1e5) false trapz [10; 100; 1000] = Ok (g, sed) /\
  evaluate_sed_flux codata (map (fun n => n * 20 / 10) [1e12; 1e15]) 0.069 2e27 20 1 1e16 (PowerLaw 1 2 10 1e5) false trapz [10; 100; 1000] = Ok (g, map (Rmult (20 ^ 4 / 10 ^ 4 * (1e27 ^ 2 / 2e27 ^ 2))) sed).
Proof.
  destruct C39_case as (g & sed & H & _). exists g, sed. split; auto. apply (C41_beaming codata _ _ 1e27 2e27 10 20); auto; try lra. apply codata_ok.
Qed.

(** ** C42 *)
(** [flux] is the sed_flux method of any process *)
Theorem C42_peak : forall flux nu f, flux nu = Ok f -> length f = length nu -> f <> [] -> exists i m n,
  sed_peak_flux flux nu = Ok m /\ sed_peak_nu flux nu = Ok n /\ nth_error f i = Some m /\ nth_error nu i = Some n /\
  (forall x, In x f -> x <= m) /\ (forall j x, (j < i)%nat -> nth_error f j = Some x -> x < m).
Proof.
  intros flux nu f H Hl Hne. unfold sed_peak_flux, sed_peak_nu. rewrite H. cbn [bind]. destruct f as [|y f]; [contradiction|].
  destruct (argmax_spec f (y :: nil) y 0%nat) as (m & E1 & E2 & E3 & E4); auto.
  { intros [|[|j]] x Hx; simpl in Hx; try discriminate. injection Hx as <-. lra. } { intros j x Hj. lia. }
  cbv zeta in *. cbn [length app] in *. set (i := argmax_from y 0 1 f) in *.
  assert (Hi : (i < length nu)%nat) by (rewrite <- Hl; apply (proj1 (nth_error_Some (y :: f) i)); congruence).
  destruct (nth_error nu i) as [n|] eqn:En; [|apply nth_error_None in En; lia].
  exists i, m, n. unfold np_max, np_argmax. cbn [bind]. unfold nu_at. fold i. rewrite En. rewrite E2 at 1. repeat split; auto.
  intros x Hx. apply In_nth_error in Hx. destruct Hx as [j Hj]. eauto.
Qed.
Print Assumptions C42_peak.
Theorem C42_empty : forall flux, flux [] = Ok [] -> (exists e, sed_peak_flux flux [] = Err e) /\ (exists e, sed_peak_nu flux [] = Err e).
Proof. intros flux H. unfold sed_peak_flux, sed_peak_nu. rewrite H. split; eexists; reflexivity. Qed.
Print Assumptions C42_empty.
Example C42_case : sed_peak_flux (fun _ => Ok [1; 3; 3; 2]) [10; 20; 30; 40] = Ok 3 /\ sed_peak_nu (fun _ => Ok [1; 3; 3; 2]) [10; 20; 30; 40] = Ok 20.
Proof.
  destruct (C42_peak (fun _ => Ok [1; 3; 3; 2]) [10; 20; 30; 40] [1; 3; 3; 2] eq_refl eq_refl ltac:(discriminate)) as (i & m & n & E1 & E2 & E3 & E4 & E5 & E6).
  rewrite E1, E2. assert (M : 3 <= m) by (apply E5; simpl; auto).
  destruct i as [|[|[|[|i]]]]; simpl in E3, E4.
  - injection E3 as <-. lra.
  - injection E3 as <-. injection E4 as <-. auto.
  - injection E3 as <-. specialize (E6 1%nat 3 ltac:(lia) eq_refl). lra.
  - injection E3 as <-. lra.
  - destruct i; discriminate.
Qed.
(** the synchrotron SED has one value per frequency, so C42 applies to it *)
Theorem C42_synch_applies : forall P sy nu, sy_ssa sy = false -> exists f, synch_sed_flux P sy nu = Ok f /\ length f = length nu.
Proof. intros P [b ssa integ] nu H. simpl in H. subst. unfold synch_sed_flux. cbn [sy_blob sy_ssa sy_integ]. rewrite sed_plain. eexists. split; [reflexivity|]. apply map_length. Qed.
Print Assumptions C42_synch_applies.

(** ** C43 *)
Theorem C43_mass_exchange : forall P nu z dl dd b rb s integ gamma,
  evaluate_sed_flux (exchange_masses P) nu z dl dd b rb s false integ gamma = Ok (proton_evaluate_sed_flux P nu z dl dd b rb s integ gamma).
Proof. reflexivity. Qed.
Print Assumptions C43_mass_exchange.
Theorem C43_equal_masses : forall P nu z dl dd b rb s integ gamma, c_mp P = c_me P ->
  evaluate_sed_flux P nu z dl dd b rb s false integ gamma = Ok (proton_evaluate_sed_flux P nu z dl dd b rb s integ gamma).
Proof.
  intros P nu z dl dd b rb s integ gamma E. rewrite <- C43_mass_exchange. replace (exchange_masses P) with P; auto. destruct P. unfold exchange_masses. simpl in *. congruence.
Qed.
Print Assumptions C43_equal_masses.
(** frequencies: the peak frequency scales as 1/m; at a given frequency the argument of R scales as m (the critical frequency as 1/m) *)
Theorem C43_scaling : forall P b g nu z dd, phys_ok P -> b <> 0 -> g <> 0 -> nu <> 0 -> dd <> 0 -> 1 + z <> 0 ->
  nu_synch_peak P b g (c_mp P) = c_me P / c_mp P * nu_synch_peak P b g (c_me P) /\
  nu_to_epsilon_prime P nu z dd Proton = c_me P / c_mp P * nu_to_epsilon_prime P nu z dd Electron /\
  calc_x P b (nu_to_epsilon_prime P nu z dd Proton) g (c_mp P) = c_mp P / c_me P * calc_x P b (nu_to_epsilon_prime P nu z dd Electron) g (c_me P) /\
  calc_x P b (nu_to_epsilon_prime P nu z dd Electron) g (c_me P) = 2 / 3 * ((1 + z) * nu / dd) / nu_synch_peak P b g (c_me P).
Proof.
  intros P b g nu z dd [] Hb Hg Hn Hd Hz. pose proof PI_RGT_0.
  unfold nu_synch_peak, calc_x, B_to_cgs, nu_to_epsilon_prime, nu_to_eps, rest_energy, mass_of.
  split; [|split; [|split]]; field; repeat split; auto; lra.
Qed.
Print Assumptions C43_scaling.
(** object level: no protons, no SED; otherwise the SED of the electron formula with m_p *)
Theorem C43_object : forall P b integ nu,
  (n_p_opt b = None -> proton_sed_flux P b integ nu = Err AttributeError) /\
  (forall s, n_p_opt b = Some s -> gamma_p_size b = gamma_e_size b ->
     proton_sed_flux P b integ nu = synch_sed_flux (exchange_masses P) {| sy_blob := set_n_e s b; sy_ssa := false; sy_integ := integ |} nu).
Proof.
  intros P b integ nu. split.
  - intros H. unfold proton_sed_flux, n_p. rewrite H. reflexivity.
  - intros s H E. unfold proton_sed_flux, n_p, gamma_p. rewrite H. cbn [bind]. unfold synch_sed_flux. cbn [sy_blob sy_ssa sy_integ].
    rewrite C43_mass_exchange. cbn [bind]. unfold gamma_e. cbn [set_n_e n_e gamma_e_size redshift d_L delta_D B_field R_b]. rewrite E. reflexivity.
Qed.
Print Assumptions C43_object.
Example C43_case : exists sed, proton_sed_flux codata (set_n_p (PowerLaw 1 2 1 1e4) ex_blob) trapz [1e12; 1e15] = Ok sed /\ length sed = 2%nat.
Proof. eexists. split; [reflexivity|reflexivity]. Qed.
