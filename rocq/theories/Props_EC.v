(** C48 and the rest of C41: external Compton *)
From Verif Require Import Base TEUtils ListFacts NumpyInst MathUtils Conversion Spectra Blob Synchrotron Geometry Kernels Targets ExternalCompton Spec_Math Spec_Spectra Spec_Blob Spec_Rad MathFacts SpectraFacts SpectraFacts2 BlobFacts SynchFacts SynchFacts2 Props_Synch Props_Compton Props_Geometry TargetFacts Props_Targets.
From Coquelicot Require Import Coquelicot.
From Coq Require Import List.
Import ListNotations.
Open Scope list_scope.
Open Scope R_scope.

(** physically meaningful external Compton objects *)
Definition target_ok (t : target) (r : option R) : Prop :=
  match t with
  | TCMB t => 0 <= cmb_u_0 t /\ 0 < cmb_epsilon_0 t
  | TPointSource t => 0 <= ps_L_0 t /\ 0 < ps_epsilon_0 t /\ exists h, r = Some h /\ 0 < h
  | TDisk t => 0 < sd_L_disk t /\ 0 < sd_M_BH t /\ 0 < sd_eta t /\ 0 < sd_R_in t /\ sd_R_in t < sd_R_out t /\ exists h, r = Some h /\ 0 < h
  | TBLR t => 0 <= blr_L_disk t /\ 0 <= blr_xi t /\ 0 < blr_epsilon t /\ 0 < blr_R_line t /\ exists h, r = Some h /\ 0 < h /\ h <> blr_R_line t
  | TDustTorus t => 0 <= dt_L_disk t /\ 0 <= dt_xi t /\ 0 < dt_epsilon t /\ exists h, r = Some h /\ 0 < h
  | TBlob _ | TOther => False
  end.
Definition ec_ok (e : ec) : Prop :=
  let b := ec_blob e in
  0 < 1 + redshift b /\ 0 < d_L b /\ 0 < delta_D b /\ 0 < R_b b /\ (forall g, 0 <= density (n_e b) g) /\
  (exists m, mu_s b = Ok m /\ -1 <= m <= 1) /\ offered (ec_integ e) /\ target_ok (ec_target e) (ec_r e).

Lemma ext_grid b : incr (gamma_e_external_frame b) /\ forall g, In g (gamma_e_external_frame b) -> 0 < g.
Proof. split; [apply logspace_incr; lra|apply logspace_pos]. Qed.
Lemma Ne_nonneg s dd rb gamma : 0 < rb -> (forall g, 0 <= density s g) -> forall v, In v (N_e_ext s dd rb gamma) -> 0 <= v.
Proof. intros Hr Hd v Hv. unfold N_e_ext, evaluate in Hv. cbn [snd] in Hv. rewrite map_map in Hv. apply in_map_iff in Hv. destruct Hv as (x & <- & _). specialize (Hd (x)). pose proof PI_RGT_0. pos. Qed.
Lemma gi_nonneg integ gamma Ne w k : offered integ -> incr gamma -> (forall g, In g gamma -> 0 < g) -> (forall v, In v Ne -> 0 <= v) -> 0 <= w -> (forall g, 0 < g -> 0 <= k g) ->
  0 <= gamma_integral integ gamma Ne w k.
Proof.
  intros Ho Hi Hp Hn Hw Hk. unfold gamma_integral. apply offered_nonneg; auto. clear Hi. revert Ne Hn. induction gamma as [|g gamma IH]; intros [|n Ne] Hn x Hx; try (destruct Hx; fail).
  cbn [map2] in Hx. destruct Hx as [<-|Hx].
  - assert (0 <= n) by (apply Hn; left; auto). assert (0 < g) by (apply Hp; left; auto). assert (0 < g ^ 2) by pos. specialize (Hk g ltac:(auto)). pos.
  - apply (IH (fun a Ha => Hp a (or_intror Ha)) Ne (fun a Ha => Hn a (or_intror Ha)) x Hx).
Qed.
Lemma trapz_map_nonneg f l : incr l -> (forall x, In x l -> 0 <= f x) -> 0 <= trapz (map f l) l.
Proof. intros Hi Hf. apply trapz_nonneg; auto. apply List.Forall_forall. intros v Hv. apply in_map_iff in Hv. destruct Hv as (x & <- & Hx). auto. Qed.
Lemma phi_incr n : incr (linspace 0 (2 * PI) n).
Proof. apply linspace_incr. pose proof PI_RGT_0. lra. Qed.
Lemma comp_kernel_nonneg g es e ms mu phi : 0 < g -> 0 < es -> 0 < e -> -1 <= ms <= 1 -> -1 <= mu <= 1 -> 0 <= compton_kernel g es e ms mu phi.
Proof. intros. apply C45_kernel; auto. apply C49_range; auto. Qed.

Theorem C48_nonneg : forall P e nu, phys_ok P -> ec_ok e -> (forall n, In n nu -> 0 < n) ->
  exists sed, ec_sed_flux P e nu = Ok (Some sed) /\ length sed = length nu /\ all_nonneg sed.
Proof.
  intros P [b t r integ msz psz] nu HP Hok Hnu. unfold ec_ok in Hok. cbn [ec_blob ec_target ec_r ec_integ] in Hok. destruct Hok as (Hz & Hdl & Hdd & Hrb & Hd & (ms & Hms & Hmr) & Ho & Ht).
  destruct (ext_grid b) as [G1 G2]. pose proof (Ne_nonneg (n_e b) (delta_D b) (R_b b) (gamma_e_external_frame b) Hrb Hd) as HN.
  assert (Hes : forall n, In n nu -> 0 < eps_s P n (redshift b)) by (intros n Hn; apply eps_pos; auto; lra). pose proof HP as []. pose proof PI_RGT_0.
  unfold ec_sed_flux. cbn [ec_blob ec_target ec_r ec_integ the_r]. unfold the_r. cbn [ec_r]. rewrite Hms. cbn [bind].
  destruct t as [t|t|t|t|t|t|]; cbn [target_ok] in Ht; try (exfalso; exact Ht).
  - destruct Ht as (Hu & He). eexists. split; [reflexivity|]. split; [apply map_length|]. intros x Hx. unfold ec_iso_mono in Hx. apply in_map_iff in Hx. destruct Hx as (n & <- & Hn). specialize (Hes n Hn). cbv zeta. apply Rmult_le_pos.
    { pos. } apply trapz_map_nonneg; [apply phi_incr|]. intros p _. apply trapz_map_nonneg; [apply linspace_incr; lra|]. intros m Hm. apply linspace_in in Hm; [|lra]. apply gi_nonneg; auto. lra. intros g Hg. apply comp_kernel_nonneg; auto.
  - destruct Ht as (Hu & He & h & -> & Hh). cbn [bind]. eexists. split; [reflexivity|]. split; [apply map_length|]. intros x Hx. unfold ec_ps in Hx. apply in_map_iff in Hx. destruct Hx as (n & <- & Hn). specialize (Hes n Hn). cbv zeta. apply Rmult_le_pos.
    { pos. } apply gi_nonneg; auto. lra. intros g Hg. apply comp_kernel_nonneg; auto. lra.
  - destruct Ht as (HL & HM & He & Hi & Hio & h & -> & Hh). cbn [bind]. eexists. split; [reflexivity|]. split; [apply map_length|]. intros x Hx. unfold ec_ss_disk in Hx. apply in_map_iff in Hx. destruct Hx as (n & <- & Hn). specialize (Hes n Hn). cbv zeta.
    assert (Hg : 0 < R_g P (sd_M_BH t)) by (unfold R_g; pos). assert (T : forall a, to_R_g_units P a (sd_M_BH t) = a / R_g P (sd_M_BH t)) by reflexivity. rewrite !T.
    assert (Hrt : 0 < h / R_g P (sd_M_BH t)) by pos. assert (Hit : 0 < sd_R_in t / R_g P (sd_M_BH t)) by pos. assert (Hiot : sd_R_in t / R_g P (sd_M_BH t) < sd_R_out t / R_g P (sd_M_BH t)) by (unfold Rdiv; apply Rmult_lt_compat_r; auto; pos).
    apply Rmult_le_pos. { assert (0 < c_c P ^ 2) by pos. pos. } apply trapz_map_nonneg; [apply phi_incr|]. intros p _. apply trapz_map_nonneg; [apply mu_grid_incr; auto|]. intros m Hm. apply mu_grid_in in Hm; auto. destruct Hm as (Hm1 & _ & Hm2).
    assert (Hep : 0 < evaluate_epsilon_mu (sd_L_disk t) (sd_M_BH t) (sd_eta t) m (h / R_g P (sd_M_BH t))) by (unfold evaluate_epsilon_mu, evaluate_epsilon; cbv zeta; pos).
    apply gi_nonneg; auto.
    + pose proof (phi_range _ _ Hit (proj1 Hm2)) as Hph. change (0 <= evaluate_phi_disk_mu m (sd_R_in t / R_g P (sd_M_BH t)) (h / R_g P (sd_M_BH t)) < 1) in Hph. pos.
    + intros g Hg'. apply comp_kernel_nonneg; auto. lra.
  - destruct Ht as (HL & Hx & He & HR & h & -> & Hh & Hne). cbn [bind]. eexists. split; [reflexivity|]. split; [apply map_length|]. intros x Hxx. unfold ec_blr in Hxx. apply in_map_iff in Hxx. destruct Hxx as (n & <- & Hn). specialize (Hes n Hn). cbv zeta.
    apply Rmult_le_pos. { pos. } apply trapz_map_nonneg; [apply phi_incr|]. intros p _. apply trapz_map_nonneg; [apply linspace_incr; lra|]. intros m Hm. apply linspace_in in Hm; [|lra].
    assert (Hxr : 0 < x_re_shell m (blr_R_line t) h). { unfold x_re_shell. apply sqrt_lt_R0. pose proof (shell_x2 (blr_R_line t) h m HR ltac:(lra) Hm Hne). lra. }
    apply gi_nonneg; auto. { pos. } intros g Hg. apply comp_kernel_nonneg; auto. apply C50_mu_star; auto. lra.
  - destruct Ht as (HL & Hx & He & h & -> & Hh). cbn [bind]. eexists. split; [reflexivity|]. split; [apply map_length|]. intros x Hxx. unfold ec_dt in Hxx. apply in_map_iff in Hxx. destruct Hxx as (n & <- & Hn). specialize (Hes n Hn). cbv zeta.
    assert (0 < h ^ 2) by pos. pose proof (pow2_ge_0 (dt_R t)). assert (Hxr : 0 < x_re_ring (dt_R t) h) by (unfold x_re_ring; apply sqrt_lt_R0; lra).
    apply Rmult_le_pos. { pos. } apply trapz_map_nonneg; [apply phi_incr|]. intros p _. apply gi_nonneg; auto. lra. intros g Hg. apply comp_kernel_nonneg; auto.
    assert (h <= x_re_ring (dt_R t) h). { unfold x_re_ring. rewrite <- (sqrt_pow2 h) at 1 by lra. apply sqrt_le_1_alt. lra. }
    assert (0 < h / x_re_ring (dt_R t) h) by pos. split; [lra|]. apply Rmult_le_reg_r with (x_re_ring (dt_R t) h); auto. unfold Rdiv. rewrite Rmult_assoc, Rinv_l by lra. lra.
Qed.
Print Assumptions C48_nonneg.

(** linear in the normalisation of the electrons (with the trapezoidal integrator) *)
Definition scale_electrons (c : R) (e : ec) : ec :=
  {| ec_blob := set_n_e (rescaled c (n_e (ec_blob e))) (ec_blob e); ec_target := ec_target e; ec_r := ec_r e; ec_integ := ec_integ e;
     ec_mu_size := ec_mu_size e; ec_phi_size := ec_phi_size e |}.
Definition scaled_sed (c : R) (r : res (option (list R))) : res (option (list R)) := rmap (option_map (map (Rmult c))) r.
Lemma Ne_rescaled c s dd rb gamma : N_e_ext (rescaled c s) dd rb gamma = map (Rmult c) (N_e_ext s dd rb gamma).
Proof. unfold N_e_ext, evaluate. cbn [snd]. rewrite corrected_rescaled, !map_map. apply map_ext. intros g. rewrite density_rescaled. ring. Qed.
Lemma gi_scale c gamma Ne w k : gamma_integral trapz gamma (map (Rmult c) Ne) w k = c * gamma_integral trapz gamma Ne w k.
Proof.
  unfold gamma_integral. rewrite <- trapz_scale. f_equal. revert Ne. induction gamma as [|g gamma IH]; intros [|n Ne]; auto. cbn [map map2]. rewrite IH. f_equal. unfold Rdiv. ring.
Qed.
Lemma trapz_map_scale c f h l : (forall x, f x = c * h x) -> trapz (map f l) l = c * trapz (map h l) l.
Proof. intros H. rewrite <- trapz_scale, map_map. f_equal. apply map_ext. auto. Qed.
Theorem C48_linear_in_electrons : forall P e nu c, ec_integ e = trapz -> ec_sed_flux P (scale_electrons c e) nu = scaled_sed c (ec_sed_flux P e nu).
Proof.
  intros P [b t r integ msz psz] nu c Hi. cbn [ec_integ] in Hi. subst integ. unfold ec_sed_flux, scale_electrons, the_r, ec_mu, ec_phi. cbn [ec_blob ec_target ec_r ec_integ ec_mu_size ec_phi_size].
  change (mu_s (set_n_e (rescaled c (n_e b)) b)) with (mu_s b). change (gamma_e_external_frame (set_n_e (rescaled c (n_e b)) b)) with (gamma_e_external_frame b).
  destruct t as [t|t|t|t|t|t|]; try reflexivity; destruct (mu_s b) as [ms|ex]; try reflexivity; cbn [bind]; try (destruct r as [h|]; [|reflexivity]); cbn [bind scaled_sed rmap option_map]; unfold scaled_sed; cbn [rmap option_map]; do 2 f_equal; cbn [set_n_e redshift d_L delta_D R_b n_e].
  - unfold ec_iso_mono. cbv zeta. rewrite Ne_rescaled, map_map. apply map_ext. intros n. erewrite trapz_map_scale; [|intros p; apply trapz_map_scale; intros m; apply gi_scale]. ring.
  - unfold ec_ps. cbv zeta. rewrite Ne_rescaled, map_map. apply map_ext. intros n. rewrite gi_scale. ring.
  - unfold ec_ss_disk. cbv zeta. rewrite Ne_rescaled, map_map. apply map_ext. intros n. erewrite trapz_map_scale; [|intros p; apply trapz_map_scale; intros m; apply gi_scale]. ring.
  - unfold ec_blr. cbv zeta. rewrite Ne_rescaled, map_map. apply map_ext. intros n. erewrite trapz_map_scale; [|intros p; apply trapz_map_scale; intros m; apply gi_scale]. ring.
  - unfold ec_dt. cbv zeta. rewrite Ne_rescaled, map_map. apply map_ext. intros n. erewrite trapz_map_scale; [|intros p; apply gi_scale]. ring.
Qed.
Print Assumptions C48_linear_in_electrons.

(** linear in the brightness of the target, at fixed photon energy and geometry *)
Definition brighter (c : R) (t : target) : target :=
  match t with
  | TCMB t => TCMB {| cmb_u_0 := c * cmb_u_0 t; cmb_epsilon_0 := cmb_epsilon_0 t |}
  | TPointSource t => TPointSource {| ps_L_0 := c * ps_L_0 t; ps_epsilon_0 := ps_epsilon_0 t |}
  | TBLR t => TBLR {| blr_L_disk := c * blr_L_disk t; blr_xi := blr_xi t; blr_line := blr_line t; blr_lambda := blr_lambda t; blr_epsilon := blr_epsilon t; blr_R_line := blr_R_line t |}
  | TDustTorus t => TDustTorus {| dt_L_disk := c * dt_L_disk t; dt_xi := dt_xi t; dt_T := dt_T t; dt_epsilon := dt_epsilon t; dt_R := dt_R t |}
  | t => t
  end.
Definition with_target (t : target) (e : ec) : ec :=
  {| ec_blob := ec_blob e; ec_target := t; ec_r := ec_r e; ec_integ := ec_integ e; ec_mu_size := ec_mu_size e; ec_phi_size := ec_phi_size e |}.
Theorem C48_linear_in_target : forall P e nu c, (forall d, ec_target e <> TDisk d) -> ec_sed_flux P (with_target (brighter c (ec_target e)) e) nu = scaled_sed c (ec_sed_flux P e nu).
Proof.
  intros P [b t r integ msz psz] nu c Hn. unfold ec_sed_flux, with_target, the_r, ec_mu, ec_phi in *. cbn [ec_blob ec_target ec_r ec_integ ec_mu_size ec_phi_size] in *.
  destruct t as [t|t|t|t|t|t|]; cbn [brighter]; try reflexivity; try (exfalso; apply (Hn t); reflexivity); destruct (mu_s b) as [ms|ex]; try reflexivity; cbn [bind]; try (destruct r as [h|]; [|reflexivity]); cbn [bind]; unfold scaled_sed; cbn [rmap option_map]; do 2 f_equal;
    cbn [cmb_u_0 cmb_epsilon_0 ps_L_0 ps_epsilon_0 blr_L_disk blr_xi blr_epsilon blr_R_line dt_L_disk dt_xi dt_epsilon dt_R].
  - unfold ec_iso_mono. cbv zeta. rewrite map_map. apply map_ext. intros n. unfold Rdiv. ring.
  - unfold ec_ps. cbv zeta. rewrite map_map. apply map_ext. intros n. unfold Rdiv. ring.
  - unfold ec_blr. cbv zeta. rewrite map_map. apply map_ext. intros n. unfold Rdiv. ring.
  - unfold ec_dt. cbv zeta. rewrite map_map. apply map_ext. intros n. unfold Rdiv. ring.
Qed.
Print Assumptions C48_linear_in_target.
(** for the disk the luminosity also sets the photon energies: the SED depends on L_disk and eta through L_disk / eta only *)
Theorem C48_disk_accretion : forall P nu z dl dd ms rb M L eta ri ro r s integ gamma n phi c, c <> 0 -> eta <> 0 -> c_c P <> 0 ->
  ec_ss_disk P nu z dl dd ms rb M (c * L) (c * eta) ri ro r s integ gamma n phi = ec_ss_disk P nu z dl dd ms rb M L eta ri ro r s integ gamma n phi.
Proof.
  intros P nu z dl dd ms rb M L eta ri ro r s integ gamma n phi c Hc He Hcc. unfold ec_ss_disk. cbv zeta. apply map_ext. intros nn.
  assert (E1 : c * L / (c * eta * c_c P ^ 2) = L / (eta * c_c P ^ 2)) by (field; auto). rewrite E1. f_equal. f_equal. apply map_ext. intros p. f_equal. apply map_ext. intros m.
  assert (E2 : forall rt, evaluate_epsilon_mu (c * L) M (c * eta) m rt = evaluate_epsilon_mu L M eta m rt).
  { intros rt. unfold evaluate_epsilon_mu, evaluate_epsilon. cbv zeta. assert (Q : forall LE M8, c * L / LE / (M8 * (c * eta)) = L / LE / (M8 * eta)).
    { intros LE M8. unfold Rdiv. rewrite !Rinv_mult. transitivity (L * / LE * (/ M8 * / eta) * (c * / c)); [ring|]. rewrite Rinv_r by auto. ring. } rewrite Q. reflexivity. }
  rewrite E2. reflexivity.
Qed.
Print Assumptions C48_disk_accretion.

(** a torus or a shell of zero size is a point source behind the jet *)
Lemma kernel_mu1 g es e ms p : compton_kernel g es e ms 1 p = compton_kernel g es e ms 1 0.
Proof. unfold compton_kernel, get_gamma_min, cos_psi. cbv zeta. replace (1 - 1 ^ 2) with 0 by ring. rewrite sqrt_0, !Rmult_0_l. reflexivity. Qed.
Lemma trapz_const c a b n : (2 <= n)%nat -> trapz (map (fun _ => c) (linspace a b n)) (linspace a b n) = c * (b - a).
Proof.
  intros Hn. assert (K : forall l x0, trapz (map (fun _ => c) (x0 :: l)) (x0 :: l) = c * (last (x0 :: l) 0 - x0)).
  { induction l as [|x1 l IH]; intros x0. { cbn [map]. rewrite trapz_one. simpl. ring. } cbn [map]. rewrite trapz_cons2. specialize (IH x1). cbn [map] in IH. rewrite IH. change (last (x0 :: x1 :: l) 0) with (last (x1 :: l) 0). field. }
  assert (E0 := linspace_first a b n ltac:(lia)). assert (E1 := linspace_last a b n ltac:(lia)). pose proof (linspace_length a b n) as HL. destruct (linspace a b n) as [|x0 l]; [discriminate|]. cbn [nth_error] in E0. apply some_inj in E0. subst x0. rewrite K.
  assert (LL : last (a :: l) 0 = b); [|rewrite LL; ring]. assert (Q : forall (l : list R) x, nth_error l (length l - 1) = Some x -> last l 0 = x).
  { clear. induction l as [|u l IH]; intros x Hx; [discriminate|]. destruct l as [|u' l]; [simpl in *; congruence|]. change (last (u :: u' :: l) 0) with (last (u' :: l) 0). apply IH. simpl length in *. replace (S (S (length l)) - 1)%nat with (S (S (length l) - 1)) in Hx by lia. exact Hx. }
  apply Q. rewrite HL. exact E1.
Qed.
Theorem C48_torus_point_source : forall P e nu L xi T eps0, 0 < d_L (ec_blob e) -> 0 < eps0 -> (forall h, ec_r e = Some h -> 0 < h) -> (2 <= ec_phi_size e)%nat ->
  ec_sed_flux P (with_target (TDustTorus {| dt_L_disk := L; dt_xi := xi; dt_T := T; dt_epsilon := eps0; dt_R := 0 |}) e) nu =
  ec_sed_flux P (with_target (TPointSource {| ps_L_0 := xi * L; ps_epsilon_0 := eps0 |}) e) nu.
Proof.
  intros P [b t r integ msz psz] nu L xi T e0 Hd He Hr Hp. unfold ec_sed_flux, with_target, the_r, ec_mu, ec_phi in *. cbn [ec_blob ec_target ec_r ec_integ ec_mu_size ec_phi_size ps_L_0 ps_epsilon_0 dt_L_disk dt_xi dt_epsilon dt_R] in *.
  destruct (mu_s b) as [ms|ex]; auto. cbn [bind]. destruct r as [h|]; auto. specialize (Hr h eq_refl). cbn [bind]. do 2 f_equal. unfold ec_dt, ec_ps. cbv zeta. apply map_ext. intros n.
  assert (X : x_re_ring 0 h = h). { unfold x_re_ring. replace (0 ^ 2 + h ^ 2) with (h ^ 2) by ring. apply sqrt_pow2. lra. } rewrite X. replace (h / h) with 1 by (field; lra).
  rewrite (map_ext _ (fun _ => gamma_integral integ (gamma_e_external_frame b) (N_e_ext (n_e b) (delta_D b) (R_b b) (gamma_e_external_frame b)) 1 (fun g => compton_kernel g (eps_s P n (redshift b)) e0 ms 1 0))).
  2:{ intros p. unfold gamma_integral. f_equal. generalize (N_e_ext (n_e b) (delta_D b) (R_b b) (gamma_e_external_frame b)). generalize (gamma_e_external_frame b). induction l as [|g l IH]; intros [|v w]; auto. cbn [map2]. rewrite IH, kernel_mu1. reflexivity. }
  rewrite trapz_const by auto. pose proof PI_RGT_0. field. repeat split; lra.
Qed.
Print Assumptions C48_torus_point_source.
Theorem C48_shell_point_source : forall P e nu L xi line lam eps0, ec_integ e = trapz -> 0 < d_L (ec_blob e) -> 0 < eps0 -> (forall h, ec_r e = Some h -> 0 < h) -> (2 <= ec_phi_size e)%nat -> (2 <= ec_mu_size e)%nat ->
  ec_sed_flux P (with_target (TBLR {| blr_L_disk := L; blr_xi := xi; blr_line := line; blr_lambda := lam; blr_epsilon := eps0; blr_R_line := 0 |}) e) nu =
  ec_sed_flux P (with_target (TPointSource {| ps_L_0 := xi * L; ps_epsilon_0 := eps0 |}) e) nu.
Proof.
  intros P [b t r integ msz psz] nu L xi line lam e0 HI Hd He Hr Hp Hm. unfold ec_sed_flux, with_target, the_r, ec_mu, ec_phi in *. cbn [ec_blob ec_target ec_r ec_integ ec_mu_size ec_phi_size ps_L_0 ps_epsilon_0 blr_L_disk blr_xi blr_epsilon blr_R_line] in *.
  destruct (mu_s b) as [ms|ex]; auto. cbn [bind]. destruct r as [h|]; auto. specialize (Hr h eq_refl). cbn [bind]. do 2 f_equal. unfold ec_blr, ec_ps. cbv zeta. apply map_ext. intros n.
  assert (X : forall m, x_re_shell m 0 h = h). { intros m. unfold x_re_shell. replace (0 ^ 2 + h ^ 2 - 2 * h * 0 * m) with (h ^ 2) by ring. apply sqrt_pow2. lra. }
  assert (Y : forall m, mu_star_shell m 0 h = 1). { intros m. unfold mu_star_shell. rewrite X. cbv zeta. replace (1 - (0 / h) ^ 2 * (1 - m ^ 2)) with 1 by (field; lra). rewrite sqrt_1, Rmult_0_r. rewrite (proj2 (Rltb_true 0 h)) by auto. lra. }
  set (K := gamma_integral integ (gamma_e_external_frame b) (N_e_ext (n_e b) (delta_D b) (R_b b) (gamma_e_external_frame b)) 1 (fun g => compton_kernel g (eps_s P n (redshift b)) e0 ms 1 0)).
  set (K2 := gamma_integral integ (gamma_e_external_frame b) (N_e_ext (n_e b) (delta_D b) (R_b b) (gamma_e_external_frame b)) (1 / h ^ 2) (fun g => compton_kernel g (eps_s P n (redshift b)) e0 ms 1 0)).
  rewrite (map_ext _ (fun _ => K2 * (1 - -1))).
  2:{ intros p. rewrite (map_ext _ (fun _ => K2)). { apply trapz_const. auto. } intros m. rewrite X, Y. unfold K2, gamma_integral. f_equal.
      generalize (N_e_ext (n_e b) (delta_D b) (R_b b) (gamma_e_external_frame b)). generalize (gamma_e_external_frame b). induction l as [|g l IH]; intros [|v w]; auto. cbn [map2]. rewrite IH, kernel_mu1. reflexivity. }
  rewrite trapz_const by auto. assert (EK : K2 = K / h ^ 2).
  { replace (K / h ^ 2) with (/ h ^ 2 * K) by (unfold Rdiv; ring). unfold K2, K. subst integ. unfold gamma_integral. rewrite <- trapz_scale. f_equal. generalize (N_e_ext (n_e b) (delta_D b) (R_b b) (gamma_e_external_frame b)). generalize (gamma_e_external_frame b).
    induction l as [|g l IH]; intros [|v w]; auto. cbn [map map2]. rewrite IH. f_equal. unfold Rdiv. ring. }
  rewrite EK. pose proof PI_RGT_0. field. repeat split; lra.
Qed.
Print Assumptions C48_shell_point_source.

(** a point source exactly behind a blob seen head-on contributes nothing *)
Theorem C48_head_on : forall P e nu t, ec_target e = TPointSource t -> offered (ec_integ e) -> mu_s (ec_blob e) = Ok 1 -> forall h, ec_r e = Some h ->
  ec_sed_flux P e nu = Ok (Some (map (fun _ => 0) nu)).
Proof.
  intros P [b t' r integ msz psz] nu t Ht Ho Hm h Hr. cbn [ec_target ec_integ ec_blob ec_r] in *. subst. unfold ec_sed_flux, the_r. cbn [ec_blob ec_target ec_r ec_integ]. rewrite Hm. cbn [bind]. do 2 f_equal. unfold ec_ps. cbv zeta. apply map_ext. intros n.
  unfold gamma_integral. rewrite offered_zero; [ring|auto|]. generalize (N_e_ext (n_e b) (delta_D b) (R_b b) (gamma_e_external_frame b)). generalize (gamma_e_external_frame b). induction l as [|g l IH]; intros [|v w] x Hx; try (destruct Hx; fail).
  cbn [map2] in Hx. destruct Hx as [<-|Hx]; [|eapply IH; eauto]. rewrite (proj1 (C45_forward g (eps_s P n (redshift b)) (ps_epsilon_0 t) 1 1 0 ltac:(unfold cos_psi; cbv zeta; replace (1 - 1 ^ 2) with 0 by ring; rewrite sqrt_0; ring))). ring.
Qed.
Print Assumptions C48_head_on.

(** which formula is used *)
Theorem C48_dispatch : forall P e nu, (forall m, mu_s (ec_blob e) = Ok m ->
  let b := ec_blob e in let gam := np_logspace 1 9 (gamma_e_size b) in let mus := linspace (-1) 1 (ec_mu_size e) in let phis := linspace 0 (2 * PI) (ec_phi_size e) in
  (forall t, ec_target e = TCMB t -> ec_sed_flux P e nu =
     Ok (Some (ec_iso_mono P nu (redshift b) (d_L b) (delta_D b) m (R_b b) (cmb_epsilon_0 t) (cmb_u_0 t) (n_e b) (ec_integ e) gam mus phis))) /\
  (forall t r, ec_target e = TPointSource t -> ec_r e = Some r -> ec_sed_flux P e nu =
     Ok (Some (ec_ps P nu (redshift b) (d_L b) (delta_D b) m (R_b b) (ps_epsilon_0 t) (ps_L_0 t) r (n_e b) (ec_integ e) gam))) /\
  (forall t r, ec_target e = TDisk t -> ec_r e = Some r -> ec_sed_flux P e nu =
     Ok (Some (ec_ss_disk P nu (redshift b) (d_L b) (delta_D b) m (R_b b) (sd_M_BH t) (sd_L_disk t) (sd_eta t) (sd_R_in t) (sd_R_out t) r (n_e b) (ec_integ e) gam (ec_mu_size e) phis))) /\
  (forall t r, ec_target e = TBLR t -> ec_r e = Some r -> ec_sed_flux P e nu =
     Ok (Some (ec_blr P nu (redshift b) (d_L b) (delta_D b) m (R_b b) (blr_L_disk t) (blr_xi t) (blr_epsilon t) (blr_R_line t) r (n_e b) (ec_integ e) gam mus phis))) /\
  (forall t r, ec_target e = TDustTorus t -> ec_r e = Some r -> ec_sed_flux P e nu =
     Ok (Some (ec_dt P nu (redshift b) (d_L b) (delta_D b) m (R_b b) (dt_L_disk t) (dt_xi t) (dt_epsilon t) (dt_R t) r (n_e b) (ec_integ e) gam phis)))) /\
  ((ec_target e = TOther \/ exists x, ec_target e = TBlob x) -> ec_sed_flux P e nu = Ok None /\ exists msg, ec_sed_luminosity P e nu = Err (TypeError msg)).
Proof.
  intros P [b t r integ msz psz] nu. cbn [ec_blob ec_target ec_r ec_integ ec_mu_size ec_phi_size]. split.
  - intros m Hm. cbv zeta. unfold ec_sed_flux, the_r. cbn [ec_blob ec_target ec_r ec_integ ec_mu_size ec_phi_size]. repeat split; intros; subst; rewrite Hm; reflexivity.
  - intros [-> |(x & ->)]; unfold ec_sed_luminosity; (split; [reflexivity|eexists; reflexivity]).
Qed.
Print Assumptions C48_dispatch.
(** without a distance from the black hole the disk cannot be used at all, the others only fail when evaluated *)
Theorem C48_no_distance : forall P b t integ, (forall d, t = TDisk d -> exists msg, ec_init b t None integ = Err (TypeError msg)) /\
  ((forall d, t <> TDisk d) -> exists e, ec_init b t None integ = Ok e /\ forall nu m, mu_s b = Ok m -> (exists x, t = TPointSource x) \/ (exists x, t = TBLR x) \/ (exists x, t = TDustTorus x) -> exists msg, ec_sed_flux P e nu = Err (TypeError msg)).
Proof.
  intros P b t integ. split. { intros d ->. eexists. reflexivity. } intros Hn. unfold ec_init. destruct t; try (exfalso; eapply Hn; reflexivity); (eexists; split; [reflexivity|]); intros nu m Hm Ht; unfold ec_sed_flux, the_r; cbn [ec_blob ec_target ec_r]; rewrite ?Hm; cbn [bind]; eauto;
    exfalso; destruct Ht as [[x Hx]|[[x Hx]|[x Hx]]]; discriminate.
Qed.
Print Assumptions C48_no_distance.

(** ** C41 for external Compton *)
Theorem C41_ec_luminosity : forall P e nu sed, ec_sed_flux P e nu = Ok (Some sed) -> ec_sed_luminosity P e nu = Ok (map (fun f => 4 * PI * d_L (ec_blob e) ^ 2 * f) sed).
Proof. intros P e nu sed H. unfold ec_sed_luminosity. rewrite H. reflexivity. Qed.
Print Assumptions C41_ec_luminosity.
Definition at_distance (d : R) (e : ec) : ec :=
  {| ec_blob := set_d_L d (ec_blob e); ec_target := ec_target e; ec_r := ec_r e; ec_integ := ec_integ e; ec_mu_size := ec_mu_size e; ec_phi_size := ec_phi_size e |}.
Theorem C41_ec_no_distance : forall P e nu d, d_L (ec_blob e) <> 0 -> d <> 0 -> ec_sed_luminosity P (at_distance d e) nu = ec_sed_luminosity P e nu.
Proof.
  intros P [b t r integ msz psz] nu d H0 Hd. unfold ec_sed_luminosity, ec_sed_flux, at_distance, the_r, ec_mu, ec_phi. cbn [ec_blob ec_target ec_r ec_integ ec_mu_size ec_phi_size] in *.
  change (mu_s (set_d_L d b)) with (mu_s b). change (gamma_e_external_frame (set_d_L d b)) with (gamma_e_external_frame b).
  destruct t as [t|t|t|t|t|t|]; try reflexivity; destruct (mu_s b) as [ms|ex]; try reflexivity; cbn [bind]; try (destruct r as [h|]; [|reflexivity]); cbn [bind]; f_equal; cbn [set_d_L redshift d_L delta_D R_b n_e]; unfold to_luminosity;
  unfold ec_iso_mono, ec_ps, ec_ss_disk, ec_blr, ec_dt; cbv zeta; rewrite !map_map; apply map_ext; intros n; match goal with |- ?a * (?x / ?y * ?i) = _ => set (I := i) end; unfold Rdiv; rewrite !Rinv_mult;
  match goal with |- ?l = ?r => transitivity (l * (d_L b * / d_L b) ^ 2); [rewrite Rinv_r by auto; ring|transitivity (r * (d * / d) ^ 2); [|rewrite Rinv_r by auto; ring]] end; cbn [pow]; rewrite ?Rmult_1_r, ?Rinv_mult; ring.
Qed.
Print Assumptions C41_ec_no_distance.

(** ** a concrete case *)
Definition ex_ec : ec :=
  {| ec_blob := {| R_b := 1e16; redshift := 1; d_L := 1e28; delta_D := 1; Gamma := 5 / 3; B_field := 1; n_e := PowerLaw 1 2 10 100; n_p_opt := None; xi := 1; gamma_e_size := 200; gamma_p_size := 10 |};
     ec_target := TDustTorus {| dt_L_disk := 1e46; dt_xi := 1 / 10; dt_T := 1000; dt_epsilon := 1e-7; dt_R := 1e18 |}; ec_r := Some 1e18; ec_integ := trapz; ec_mu_size := 100; ec_phi_size := 50 |}.
Example C48_case : ec_ok ex_ec.
Proof.
  unfold ec_ok, ex_ec. cbn [ec_blob ec_target ec_r ec_integ redshift d_L delta_D R_b n_e target_ok dt_L_disk dt_xi dt_epsilon]. repeat (split; [lra|]). split. { intros g. apply (density_nonneg_build (ShPL 2) 1 10 100 g). lra. }
  split. { exists (1 / 2). split; [|lra]. rewrite mu_s_ok by (cbn [Gamma delta_D]; lra). cbn [Gamma delta_D]. f_equal. replace (1 - / (5 / 3) ^ 2) with ((4 / 5) ^ 2) by lra. rewrite sqrt_pow2 by lra. lra. }
  split. { left. reflexivity. } repeat (split; [lra|]). exists 1e18. split; [reflexivity|lra].
Qed.
