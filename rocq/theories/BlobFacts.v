(** Facts about blobs *)
From Verif Require Import Base TEUtils NumpyInst MathUtils Conversion Spectra Blob Spec_Math Spec_Spectra Spec_Blob MathFacts SpectraFacts.

Lemma div_ok x y : y <> 0 -> div_res x y = Ok (x / y).
Proof. intros H. unfold div_res. rewrite (proj2 (Reqb_false y 0)) by auto. reflexivity. Qed.
Lemma sqrt_ok x : 0 <= x -> sqrt_res x = Ok (sqrt x).
Proof. intros H. unfold sqrt_res. rewrite (proj2 (Rltb_false x 0)) by lra. reflexivity. Qed.

Lemma inv_sq_lt_1 g : 1 < g -> 0 < / g ^ 2 < 1.
Proof.
  intros H. assert (1 < g ^ 2) by (simpl; nra). split; [apply Rinv_0_lt_compat; lra|].
  rewrite <- Rinv_1. apply Rinv_lt_contravar; lra.
Qed.
Lemma beta_lt_1 g : 1 < g -> 0 < sqrt (1 - / g ^ 2) < 1.
Proof.
  intros H. destruct (inv_sq_lt_1 g H). split; [apply sqrt_lt_R0; lra|].
  rewrite <- sqrt_1 at 2. apply sqrt_lt_1; lra.
Qed.
Lemma beta_sq g : 1 < g -> g ^ 2 * (1 - sqrt (1 - / g ^ 2) ^ 2) = 1.
Proof.
  intros H. destruct (inv_sq_lt_1 g H). rewrite pow2_sqrt by lra. field. lra.
Qed.
Lemma Beta_ok b : 1 < Gamma b -> Beta b = Ok (sqrt (1 - / Gamma b ^ 2)).
Proof.
  intros H. unfold Beta. destruct (inv_sq_lt_1 _ H). rewrite div_ok by (apply pow_nonzero; lra). cbn [bind].
  rewrite sqrt_ok; unfold Rdiv; rewrite Rmult_1_l; auto. lra.
Qed.
Lemma doppler_denom g t : 1 < g -> 0 < g * (1 - sqrt (1 - / g ^ 2) * cos t).
Proof.
  intros H. destruct (beta_lt_1 g H). destruct (COS_bound t). apply Rmult_lt_0_compat; [lra|]. nra.
Qed.
Lemma set_delta_D_ok b g t : 1 < g -> set_delta_D g t b = (set_delta (doppler g t) (set_Gamma g b), Ok tt).
Proof.
  intros H. unfold set_delta_D. rewrite (Beta_ok (set_Gamma g b)) by auto. cbn [bind set_Gamma Gamma].
  pose proof (doppler_denom g t H). rewrite div_ok by lra. unfold doppler, Rdiv. rewrite Rmult_1_l. reflexivity.
Qed.
Lemma doppler_pos g t : 1 < g -> 0 < doppler g t.
Proof. intros H. apply Rinv_0_lt_compat, doppler_denom, H. Qed.
Lemma mu_s_ok b : 1 < Gamma b -> delta_D b <> 0 -> mu_s b = Ok ((1 - / (Gamma b * delta_D b)) / sqrt (1 - / Gamma b ^ 2)).
Proof.
  intros H Hd. unfold mu_s. rewrite div_ok by (apply Rmult_integral_contrapositive; split; lra). cbn [bind].
  rewrite Beta_ok by auto. cbn [bind]. destruct (beta_lt_1 _ H). rewrite div_ok by lra. unfold Rdiv at 2. rewrite Rmult_1_l. reflexivity.
Qed.
Lemma mu_s_doppler b g t : 1 < g -> Gamma b = g -> delta_D b = doppler g t -> mu_s b = Ok (cos t).
Proof.
  intros H EG Ed. pose proof (doppler_pos g t H). rewrite mu_s_ok by lra. rewrite EG, Ed. f_equal. unfold doppler.
  pose proof (doppler_denom g t H). destruct (beta_lt_1 g H). set (be := sqrt (1 - / g ^ 2)) in *.
  assert (1 - be * cos t <> 0) by nra. field. repeat split; try lra.
Qed.
Lemma theta_s_ok b t : 0 <= t <= PI -> mu_s b = Ok (cos t) -> theta_s b = Ok (to_deg t).
Proof.
  intros Ht H. unfold theta_s. rewrite H. cbn [bind]. destruct (COS_bound t).
  rewrite (proj2 (Rltb_false (cos t) (-1))), (proj2 (Rltb_false 1 (cos t))) by lra. cbn [orb]. rewrite acos_cos by auto. reflexivity.
Qed.

(** ** updates *)
Lemma current_cons {A} (sel : update -> option A) u us init : current sel (u :: us) init = current sel us (match sel u with Some x => x | None => init end).
Proof. reflexivity. Qed.
Lemma updates_effect us : proper_calls us -> forall b,
  let b' := do_updates us b in
  R_b b' = current sel_R_b us (R_b b) /\ redshift b' = current sel_z us (redshift b) /\ delta_D b' = current sel_delta us (delta_D b) /\
  Gamma b' = current sel_Gamma us (Gamma b) /\ B_field b' = current sel_B us (B_field b) /\ n_e b' = current sel_n_e us (n_e b) /\
  n_p_opt b' = current sel_n_p us (n_p_opt b) /\ xi b' = current sel_xi us (xi b) /\ gamma_e_size b' = current sel_esize us (gamma_e_size b) /\
  gamma_p_size b' = current sel_psize us (gamma_p_size b) /\ d_L b' = d_L b.
Proof.
  induction us as [|u us IH]; intros Hp b. { repeat split; reflexivity. }
  assert (Hp' : proper_calls us) by (intros g t Hi; apply (Hp g t); right; auto).
  specialize (IH Hp' (do_update u b)). cbv zeta in *.
  change (do_updates (u :: us) b) with (do_updates us (do_update u b)). rewrite !current_cons.
  destruct u as [r|z|d|g|x|s|s|x|e p|g t]; try exact IH.
  assert (Hg : 1 < g) by (apply (Hp g t); left; auto).
  cbn [do_update] in *. rewrite set_delta_D_ok in * by auto. exact IH.
Qed.

(** ** integrals *)
Lemma gamma_e_in b g : 0 < gamma_min (n_e b) -> gamma_min (n_e b) <= gamma_max (n_e b) -> In g (gamma_e b) -> gamma_min (n_e b) <= g <= gamma_max (n_e b).
Proof. intros H0 H1. apply grid_in; auto. Qed.
Lemma gamma_e_incr b : 0 < gamma_min (n_e b) -> gamma_min (n_e b) < gamma_max (n_e b) -> incr (gamma_e b).
Proof. intros. apply logspace_incr, log10_lt; auto. Qed.
Lemma eval_gamma_e b : 0 < gamma_min (n_e b) -> gamma_min (n_e b) <= gamma_max (n_e b) ->
  evaluate (n_e b) (gamma_e b) = (gamma_e b, map (density (n_e b)) (gamma_e b)).
Proof. intros H0 H1. unfold evaluate. rewrite corrected_id; auto. intros g Hg. apply gamma_e_in; auto. Qed.
Lemma map2_map_l {A B C} (f : A -> B -> C) (g : A -> B) l : map2 f l (map g l) = map (fun x => f x (g x)) l.
Proof. induction l; simpl; congruence. Qed.
Lemma n_e_tot_eq b : 0 < gamma_min (n_e b) -> gamma_min (n_e b) <= gamma_max (n_e b) ->
  n_e_tot b = trapz (map (density (n_e b)) (gamma_e b)) (gamma_e b).
Proof. intros H0 H1. unfold n_e_tot. rewrite eval_gamma_e by auto. reflexivity. Qed.
Lemma u_e_eq P b : 0 < gamma_min (n_e b) -> gamma_min (n_e b) <= gamma_max (n_e b) ->
  u_e P b = mec2_erg P * trapz (map (fun g => g * density (n_e b) g) (gamma_e b)) (gamma_e b).
Proof. intros H0 H1. unfold u_e. rewrite eval_gamma_e by auto. cbn [snd]. rewrite map2_map_l. reflexivity. Qed.
Lemma npow_0 g : npow g 0 = 1.
Proof. unfold npow, Rpower. rewrite Rmult_0_l. apply exp_0. Qed.
Lemma npow_1 g : 0 < g -> npow g 1 = g.
Proof. intros H. unfold npow. apply Rpower_1. auto. Qed.
Lemma not_empty_integrate s : (forall a b, s <> EmptyDist a b) -> match s with EmptyDist _ _ => False | _ => True end.
Proof. destruct s; auto. intros H. apply (H gmin gmax); auto. Qed.
Lemma trapz_ext x : forall y z, y = z -> trapz y x = trapz z x.
Proof. intros; subst; auto. Qed.
Lemma totals_integrate P b : gamma_e_size b = 200%nat -> 0 < gamma_min (n_e b) -> gamma_min (n_e b) <= gamma_max (n_e b) ->
  n_e_tot b = integrate (n_e b) trapz None None 0 /\ u_e P b = mec2_erg P * integrate (n_e b) trapz None None 1.
Proof.
  intros Hs H0 H1. assert (Hin : forall g, In g (gamma_e b) -> gamma_min (n_e b) <= g <= gamma_max (n_e b)) by (intros g; apply gamma_e_in; auto).
  rewrite n_e_tot_eq, u_e_eq by auto.
  assert (EG : gamma_e b = np_logspace (log10 (gamma_min (n_e b))) (log10 (gamma_max (n_e b))) 200) by (unfold gamma_e; rewrite Hs; reflexivity).
  assert (Z : forall (c d : R) (f : R -> R) x, (forall g, f g = 0) -> trapz (map f x) x = 0).
  { intros _ _ f x Hf. rewrite (map_ext f (fun g => 0 * 1)) by (intros; rewrite Hf; ring).
    rewrite <- (map_map (fun _ => 1) (Rmult 0)). rewrite trapz_scale. ring. }
  destruct (n_e b) as [| | | | | |ga gb] eqn:E.
  7:{ simpl integrate. assert (D : forall g, density (EmptyDist ga gb) g = 0) by (intros g; unfold density; destruct (in_range (EmptyDist ga gb) g); reflexivity).
      split; [apply (Z 0 0); exact D|]. rewrite (Z 0 0); [reflexivity|]. intros g; rewrite D; ring. }
  all: rewrite !integrate_eq by exact Logic.I; cbv zeta; rewrite corrected_id; rewrite <- EG; auto;
    split; [apply trapz_ext, map_ext_in; intros g Hg; rewrite npow_0; ring|];
    f_equal; apply trapz_ext, map_ext_in; intros g Hg; rewrite npow_1; [ring|]; specialize (Hin g Hg); simpl in *; lra.
Qed.
Lemma Forall_map_nonneg (f : R -> R) l : (forall x, In x l -> 0 <= f x) -> Forall (fun v => 0 <= v) (map f l).
Proof. intros H. apply List.Forall_forall. intros v Hv. apply in_map_iff in Hv. destruct Hv as (x & <- & Hx). auto. Qed.
Lemma mec2_pos P : phys_ok P -> 0 < mec2_erg P.
Proof. intros []. unfold mec2_erg, rest_energy, mass_of. apply Rmult_lt_0_compat; auto. apply pow_lt; auto. Qed.
Lemma mpc2_pos P : phys_ok P -> 0 < mpc2_erg P.
Proof. intros []. unfold mpc2_erg, rest_energy, mass_of. apply Rmult_lt_0_compat; auto. apply pow_lt; auto. Qed.
Lemma u_e_nonneg P b : phys_ok P -> proper_dist (n_e b) -> 0 <= u_e P b.
Proof.
  intros HP (H0 & H1 & Hd). rewrite u_e_eq by lra. apply Rmult_le_pos; [left; apply mec2_pos; auto|].
  apply trapz_nonneg. { apply gamma_e_incr; auto. } apply Forall_map_nonneg. intros g Hg. apply gamma_e_in in Hg; try lra. apply Rmult_le_pos; auto. lra.
Qed.
Lemma u_p_nonneg P b s : phys_ok P -> n_p_opt b = Some s -> proper_dist s -> exists u, u_p P b = Ok u /\ 0 <= u.
Proof.
  intros HP E (H0 & H1 & Hd). unfold u_p, n_p, gamma_p. rewrite E. cbn [bind]. eexists. split; [reflexivity|].
  apply Rmult_le_pos; [left; apply mpc2_pos; auto|]. set (x := np_logspace _ _ _).
  assert (Hin : forall g, In g x -> gamma_min s <= g <= gamma_max s) by (intros g; apply grid_in; lra).
  unfold evaluate. rewrite corrected_id by auto. cbn [snd]. rewrite map2_map_l.
  apply trapz_nonneg. { apply logspace_incr, log10_lt; auto. } apply Forall_map_nonneg. intros g Hg. apply Hin in Hg. apply Rmult_le_pos; auto. lra.
Qed.
Lemma u_particles_ok P b : exists u, u_particles P b = Ok u.
Proof. unfold u_particles, u_p, n_p, gamma_p. destruct (n_p_opt b); cbn [bind]; eexists; reflexivity. Qed.
Lemma u_particles_nonneg P b u : phys_ok P -> proper_dist (n_e b) -> (forall s, n_p_opt b = Some s -> proper_dist s) -> u_particles P b = Ok u -> 0 <= u.
Proof.
  intros HP He Hp H. unfold u_particles in H. pose proof (u_e_nonneg P b HP He). destruct (n_p_opt b) as [s|] eqn:E.
  - destruct (u_p_nonneg P b s HP E (Hp s eq_refl)) as (v & Ev & Hv). rewrite Ev in H. cbn [bind] in H. injection H as <-. lra.
  - injection H as <-. auto.
Qed.
Lemma jet_prefactor P b : 1 < Gamma b -> P_jet_prefactor P b = Ok (2 * PI * R_b b ^ 2 * sqrt (1 - / Gamma b ^ 2) * Gamma b ^ 2 * c_c P).
Proof. intros H. unfold P_jet_prefactor. rewrite Beta_ok by auto. reflexivity. Qed.
Lemma U_B_pos b : B_field b <> 0 -> 0 < U_B b.
Proof.
  intros H. unfold U_B, B_cgs, B_to_cgs. pose proof PI_RGT_0. apply Rdiv_lt_0_compat; [|lra]. pose proof (Rsqr_pos_lt _ H) as T. unfold Rsqr in T. simpl. lra.
Qed.
