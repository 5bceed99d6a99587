(** C74, C75: external Compton and the energy densities of the targets *)
From Verif Require Import Base TEUtils ListFacts NumpyInst MathUtils Conversion Spectra Blob Synchrotron Geometry Kernels Targets ExternalCompton Spec_Math Spec_Spectra Spec_Blob Spec_Rad Spec_Geom Spec_Beams MathFacts SpectraFacts SpectraFacts2 BlobFacts SynchFacts SynchFacts2 Props_Synch Props_Compton Props_Geometry TargetFacts Props_Targets Props_EC.
From Coq Require Import List.
Import ListNotations.
Open Scope list_scope.
Open Scope R_scope.

Lemma trapz_pairs l : trapz (map snd l) (map fst l) = trapezia l.
Proof.
  induction l as [|[x0 y0] l IH]; auto. destruct l as [|[x1 y1] l]; [reflexivity|]. cbn [map fst snd] in *. rewrite trapz_cons2, IH. reflexivity.
Qed.
Lemma trapz_over f xs : trapz (map f xs) xs = over xs f.
Proof. unfold over. rewrite <- trapz_pairs, !map_map. cbn [fst snd]. rewrite map_id. reflexivity. Qed.
Lemma over_scale c f xs : c * over xs f = over xs (fun x => c * f x).
Proof. rewrite <- !trapz_over, <- trapz_scale, map_map. reflexivity. Qed.
Lemma over_ext f g xs : (forall x, In x xs -> f x = g x) -> over xs f = over xs g.
Proof. intros H. unfold over. f_equal. apply map_ext_in. intros x Hx. rewrite H; auto. Qed.
Lemma over_const c a b n : (2 <= n)%nat -> over (linspace a b n) (fun _ => c) = c * (b - a).
Proof. intros H. rewrite <- trapz_over. apply trapz_const. auto. Qed.
Lemma gamma_pairs gamma w k : forall Ne, length Ne = length gamma ->
  gamma_integral trapz gamma Ne w k = trapezia (map (fun gN => (fst gN, w * snd gN / fst gN ^ 2 * k (fst gN))) (combine gamma Ne)).
Proof.
  intros Ne HL. rewrite <- trapz_pairs, !map_map. cbn [fst snd]. unfold gamma_integral. f_equal.
  - revert Ne HL. induction gamma as [|g gamma IH]; intros [|v Ne] HL; auto; try discriminate. cbn [map2 combine map fst snd]. rewrite IH by (cbn in HL; congruence). reflexivity.
  - revert Ne HL. induction gamma as [|g gamma IH]; intros [|v Ne] HL; auto; try discriminate. cbn [combine map fst snd]. rewrite <- IH by (cbn in HL; congruence). reflexivity.
Qed.

(** the kernel of the code is the differential cross section up to factors *)
Lemma kernel_value g es ep ms mu phi : 0 < g -> 0 < es -> 0 < ep -> cos_psi ms mu phi <= 1 -> forall ebar, ebar = g * ep * (1 - cos_psi ms mu phi) ->
  es <= 2 * g * ebar / (1 + 2 * ebar) -> let y := 1 - es / g in compton_kernel g es ep ms mu phi = y + 1 / y - 2 * es / (g * ebar * y) + (es / (g * ebar * y)) ^ 2 /\ 0 < ebar /\ es < g.
Proof.
  intros Hg Hes Hep Hc ebar Heb Hle y. destruct (C45_kernel g es ep ms mu phi Hg Hes Hep Hc) as (_ & K2 & K3 & _). rewrite <- Heb in K2. apply K2 in Hle.
  assert (E0 : 0 < ebar). { destruct (Rle_lt_dec ebar 0) as [Q|Q]; auto. exfalso. assert (ebar = 0). { assert (0 <= ebar); [|lra]. rewrite Heb. assert (0 < g * ep) by pos. nra. } apply Hle. apply C45_forward. rewrite Heb in H. assert (0 < g * ep) by pos. nra. }
  assert (L : es < g). { apply K2 in Hle. assert (0 < 1 + 2 * ebar) by lra. apply Rle_lt_trans with (2 * g * ebar / (1 + 2 * ebar)); auto. apply Rmult_lt_reg_r with (1 + 2 * ebar); auto. unfold Rdiv. rewrite Rmult_assoc, Rinv_l by lra. nra. }
  split; [|split; auto]. unfold compton_kernel in Hle |- *. cbv zeta in *. rewrite <- Heb in *. destruct (get_gamma_min es ep ms mu phi) as [gm|]; [|contradiction]. destruct (Rleb gm g); [|contradiction]. fold y.
  assert (0 < y). { unfold y. assert (es / g < 1); [|lra]. apply Rmult_lt_reg_r with g; auto. unfold Rdiv. rewrite Rmult_assoc, Rinv_l by lra. lra. }
  field. repeat split; lra.
Qed.
Lemma cross_kernel P g es ep ms mu phi : 0 < g -> 0 < es -> 0 < ep -> cos_psi ms mu phi <= 1 ->
  (1 - cos_psi ms mu phi) * compton_cross_section P g es ep (cos_psi ms mu phi) = 3 / 8 * c_sigmaT P / (g ^ 2 * ep) * compton_kernel g es ep ms mu phi.
Proof.
  intros Hg Hes Hep Hc. unfold compton_cross_section. cbv zeta. destruct (Rle_dec es _) as [L|L].
  - destruct (kernel_value g es ep ms mu phi Hg Hes Hep Hc _ eq_refl L) as (E & E0 & E1). rewrite E. assert (0 < 1 - cos_psi ms mu phi). { assert (0 < g * ep) by pos. nra. }
    assert (0 < 1 - es / g). { assert (es / g < 1); [|lra]. apply Rmult_lt_reg_r with g; auto. unfold Rdiv. rewrite Rmult_assoc, Rinv_l by lra. lra. }
    assert (A : forall W, (1 - cos_psi ms mu phi) * (3 / 8 * c_sigmaT P / (g * (g * ep * (1 - cos_psi ms mu phi))) * W) = 3 / 8 * c_sigmaT P / (g ^ 2 * ep) * W) by (intros W; field; repeat split; lra).
    apply A.
  - destruct (C45_kernel g es ep ms mu phi Hg Hes Hep Hc) as (_ & K2 & _). destruct (Req_dec (compton_kernel g es ep ms mu phi) 0) as [E|E]; [rewrite E; ring|]. apply K2 in E. contradiction.
Qed.
Lemma beam_sed P dl dd ms es gamma Ne b mu phi : 0 < dl -> 0 < es -> 0 < b_eps b -> length Ne = length gamma -> (forall g, In g gamma -> 0 < g) -> -1 <= ms <= 1 -> -1 <= mu <= 1 ->
  dot (b_dir b) (observer ms) = cos_psi ms mu phi ->
  scattered_sed P dl dd ms es (combine gamma Ne) b =
  3 * c_c P * c_sigmaT P * b_u b * es ^ 2 * dd ^ 3 / (2 ^ 5 * PI * dl ^ 2 * b_eps b ^ 2) * gamma_integral trapz gamma Ne 1 (fun g => compton_kernel g es (b_eps b) ms mu phi).
Proof.
  intros Hdl Hes Hep HL Hg Hms Hmu Hd. unfold scattered_sed. cbv zeta. rewrite Hd, gamma_pairs by auto.
  transitivity (es ^ 2 * dd ^ 3 / (4 * PI * dl ^ 2) * (3 / 8 * c_c P * c_sigmaT P * b_u b / b_eps b ^ 2 * trapezia (map (fun gN => (fst gN, 1 * snd gN / fst gN ^ 2 * compton_kernel (fst gN) es (b_eps b) ms mu phi)) (combine gamma Ne)))).
  2:{ pose proof PI_RGT_0. field. repeat split; lra. } f_equal.
  rewrite <- !trapz_pairs, <- trapz_scale, !map_map. cbn [fst snd]. f_equal. apply map_ext_in. intros [g n] HgN. cbn [fst snd]. apply in_combine_l in HgN. specialize (Hg g HgN).
  pose proof (C49_range ms mu phi Hms Hmu) as HC. pose proof (cross_kernel P g es (b_eps b) ms mu phi Hg Hes Hep (proj2 HC)) as CK.
  transitivity (n * (c_c P * (b_u b / b_eps b)) * ((1 - cos_psi ms mu phi) * compton_cross_section P g es (b_eps b) (cos_psi ms mu phi))); [ring|]. rewrite CK. field. split; lra.
Qed.

(** directions *)
Lemma dir_spherical ms mu phi : dot (spherical 1 mu phi) (observer ms) = cos_psi ms mu phi.
Proof. unfold observer. rewrite <- C49_scalar_product. f_equal. ring. Qed.
Lemma cos_pi x : cos (x + PI) = - cos x.
Proof. rewrite neg_cos. reflexivity. Qed.
Lemma sin_pi x : sin (x + PI) = - sin x.
Proof. rewrite neg_sin. reflexivity. Qed.
Lemma dir_shell m R_ r ms phi : -1 <= m <= 1 -> 0 <= R_ -> 0 < x_re_shell m R_ r ->
  dot (times (/ dist (on_sight_line r 0 1) (spherical R_ m (phi + PI))) (minus (on_sight_line r 0 1) (spherical R_ m (phi + PI)))) (observer ms) = cos_psi ms (mu_star_shell m R_ r) phi.
Proof.
  intros Hm HR Hx. destruct (C50_mu_star m R_ r Hm Hx HR) as [E1 E2]. rewrite <- C50_shell_distance by auto. unfold cos_psi, dot, observer, times, minus, on_sight_line, spherical. cbn [px py pz]. cbv zeta. rewrite cos_pi, sin_pi, cos_0, sin_0.
  assert (X2 : x_re_shell m R_ r ^ 2 = R_ ^ 2 * (1 - m ^ 2) + (r - R_ * m) ^ 2).
  { unfold x_re_shell. rewrite <- Rsqr_pow2, Rsqr_sqrt; [ring|]. destruct (Rle_lt_dec 0 (R_ ^ 2 + r ^ 2 - 2 * r * R_ * m)) as [Q|Q]; auto. unfold x_re_shell in Hx. rewrite sqrt_neg_0 in Hx; lra. }
  assert (S : sqrt (1 - mu_star_shell m R_ r ^ 2) = R_ * sqrt (1 - m ^ 2) / x_re_shell m R_ r).
  { rewrite E1. set (x := x_re_shell m R_ r) in *. replace (1 - ((r - R_ * m) / x) ^ 2) with ((R_ / x) ^ 2 * (1 - m ^ 2)).
    - rewrite sqrt_mult_alt by apply pow2_ge_0. rewrite sqrt_pow2. { field. lra. } pos.
    - apply Rmult_eq_reg_r with (x ^ 2); [|apply pow_nonzero; lra]. transitivity (R_ ^ 2 * (1 - m ^ 2)); [field; lra|]. transitivity (x ^ 2 - (r - R_ * m) ^ 2); [rewrite X2; ring|field; lra]. }
  rewrite S, E1. field. lra.
Qed.
Lemma dir_ring R_ r ms phi : 0 <= R_ -> 0 < r ->
  dot (times (/ dist (on_sight_line r 0 1) (spherical R_ 0 (phi + PI))) (minus (on_sight_line r 0 1) (spherical R_ 0 (phi + PI)))) (observer ms) = cos_psi ms (r / x_re_ring R_ r) phi.
Proof.
  intros HR Hr. assert (H0 : -1 <= 0 <= 1) by lra. assert (X : x_re_shell 0 R_ r = x_re_ring R_ r) by (unfold x_re_shell, x_re_ring; f_equal; ring).
  assert (Hx : 0 < x_re_shell 0 R_ r). { rewrite X. unfold x_re_ring. apply sqrt_lt_R0. assert (0 < r ^ 2) by pos. pose proof (pow2_ge_0 R_). lra. }
  rewrite (dir_shell 0 R_ r ms phi H0 HR Hx). destruct (C50_mu_star 0 R_ r H0 Hx HR) as [E _]. rewrite E, X. f_equal. f_equal. ring.
Qed.

(** ** C74 *)
Lemma Ne_length s dd rb gamma : length (N_e_ext s dd rb gamma) = length gamma.
Proof. unfold N_e_ext, evaluate. cbn [snd]. rewrite !map_length, corrected_length, map_length. reflexivity. Qed.
Lemma eps_s_eq P n z : phys_ok P -> eps_s P n z = c_h P * n * (1 + z) / (c_me P * c_c P ^ 2).
Proof. intros []. unfold eps_s, nu_to_epsilon_prime, nu_to_eps, rest_energy, mass_of. assert (0 < c_c P ^ 2) by pos. field. lra. Qed.
Lemma disk_mus P M ri ro r n : phys_ok P -> 0 < M -> 0 < r ->
  evaluate_mu_from_r_tilde (to_R_g_units P ri M) (to_R_g_units P ro M) (to_R_g_units P r M) n = linspace (r / sqrt (r ^ 2 + ro ^ 2)) (r / sqrt (r ^ 2 + ri ^ 2)) n.
Proof.
  intros HP HM Hr. unfold evaluate_mu_from_r_tilde. cbv zeta. rewrite <- !mu_of_eq by auto. unfold mu_of, to_R_g_units. assert (0 < R_g P M) by (unfold R_g; pose proof HP as []; pos).
  assert (Q : forall x, x / R_g P M / (r / R_g P M) = x / r) by (intros; field; split; lra). rewrite !Q. reflexivity.
Qed.
Lemma disk_photon_eq P M L eta mu r : phys_ok P -> 0 < M -> 0 < r -> 0 < mu < 1 ->
  evaluate_epsilon_mu L M eta mu (to_R_g_units P r M) = disk_photon P M L eta (r * tan (acos mu)).
Proof.
  intros HP HM Hr Hmu. pose proof HP as []. unfold evaluate_epsilon_mu, evaluate_epsilon, disk_photon, npow, to_R_g_units, R_g. cbv zeta. rewrite tan_acos by lra.
  assert (E1 : 1.26 * 1e46 * (M / (1e8 * M_sun)) = 1.26e46 * (M / (1e8 * M_sun))) by lra. rewrite E1. f_equal; [f_equal; lra|]. f_equal; [|lra]. field. assert (0 < c_c P ^ 2) by pos. repeat split; lra.
Qed.
Lemma disk_photon_pos P M L eta R_ : 0 < disk_photon P M L eta R_.
Proof. unfold disk_photon. cbv zeta. apply Rmult_lt_0_compat; [apply Rmult_lt_0_compat; [lra|]|]; apply exp_pos. Qed.
Lemma npow_32' x : 0 < x -> npow x (3 / 2) = sqrt x ^ 3.
Proof.
  intros H. unfold npow. replace (3 / 2) with (/ 2 * INR 3) by (simpl; lra). rewrite <- Rpower_mult, Rpower_sqrt by auto. rewrite Rpower_pow by (apply sqrt_lt_R0; auto). reflexivity.
Qed.
Lemma gi_w gamma Ne w k : gamma_integral trapz gamma Ne w k = w * gamma_integral trapz gamma Ne 1 k.
Proof.
  unfold gamma_integral. rewrite <- trapz_scale. f_equal. revert Ne. induction gamma as [|g gamma IH]; intros [|n Ne]; auto. cbn [map map2]. rewrite IH. f_equal. unfold Rdiv. ring.
Qed.
Theorem C74_superposition : forall P e nu r ms, phys_ok P -> ec_ok e -> (forall t, ec_target e = TDustTorus t -> 0 <= dt_R t) -> ec_integ e = trapz ->
  mu_s (ec_blob e) = Ok ms -> (ec_r e = Some r \/ exists t, ec_target e = TCMB t) -> (forall n, In n nu -> 0 < n) ->
  let b := ec_blob e in
  let gammas := np_logspace 1 9 (gamma_e_size b) in
  let electrons := combine gammas (map (fun n => 4 / 3 * PI * R_b b ^ 3 * n) (snd (evaluate (n_e b) (map (fun g => g / delta_D b) gammas)))) in
  ec_sed_flux P e nu = Ok (Some (map (fun n =>
    axis_field P (ec_target e) r (ec_mu_size e) (ec_phi_size e)
      (scattered_sed P (d_L b) (delta_D b) ms (c_h P * n * (1 + redshift b) / (c_me P * c_c P ^ 2)) electrons)) nu)).
Proof.
  intros P [b t r' integ msz psz] nu r ms HP Hok HdtR Hint Hms Hr Hnu b0 gammas electrons. cbn [ec_blob ec_target ec_r ec_integ ec_mu_size ec_phi_size] in *. subst b0 integ. unfold ec_ok in Hok. cbn [ec_blob ec_target ec_r ec_integ] in Hok.
  destruct Hok as (Hz & Hdl & Hdd & Hrb & Hd & (ms' & Hms' & Hmr) & Ho & Ht). assert (ms' = ms) by congruence. subst ms'. clear Hms'.
  assert (HL := Ne_length (n_e b) (delta_D b) (R_b b) gammas). fold (N_e_ext (n_e b) (delta_D b) (R_b b) gammas) in electrons.
  assert (Hg : forall g, In g gammas -> 0 < g) by (intros g; apply logspace_pos).
  assert (Hes : forall n, In n nu -> 0 < c_h P * n * (1 + redshift b) / (c_me P * c_c P ^ 2)). { intros n Hn. specialize (Hnu n Hn). pose proof HP as []. pos. } pose proof HP as []. pose proof PI_RGT_0.
  unfold ec_sed_flux, the_r, ec_mu, ec_phi. cbn [ec_blob ec_target ec_r ec_integ ec_mu_size ec_phi_size]. rewrite Hms. cbn [bind]. change (gamma_e_external_frame b) with gammas.
  destruct t as [t|t|t|t|t|t|]; cbn [target_ok] in Ht; try (exfalso; exact Ht); cbn [axis_field]; cbv zeta.
  - destruct Ht as (Hu & He). do 2 f_equal. unfold ec_iso_mono. cbv zeta. apply map_ext_in. intros n Hn. specialize (Hes n Hn). rewrite eps_s_eq by auto. rewrite trapz_over, over_scale. unfold isotropic_field. apply over_ext. intros p Hp. rewrite trapz_over, over_scale. apply over_ext. intros m Hm. apply linspace_in in Hm; [|lra].
    unfold electrons. rewrite beam_sed with (mu := m) (phi := p); auto; try (cbn [b_dir]; apply dir_spherical; lra). cbn [b_u b_eps]. field. repeat split; lra.
  - destruct Ht as (Hu & He & h & -> & Hh). assert (h = r) by (destruct Hr as [Hr|(t' & Hr)]; congruence). subst h. cbn [bind]. do 2 f_equal. unfold ec_ps. cbv zeta. apply map_ext_in. intros n Hn. specialize (Hes n Hn). rewrite eps_s_eq by auto. 
    assert (Dr : dist (on_sight_line r 0 1) (spherical 0 0 0) = r). { unfold dist, dot, minus, on_sight_line, spherical. cbn [px py pz]. transitivity (sqrt (r ^ 2)); [f_equal; ring | apply sqrt_pow2; lra]. }
    unfold electrons. rewrite beam_sed with (mu := 1) (phi := 0); auto; try lra. { cbn [shine b_u b_eps]. rewrite Dr. field. repeat split; lra. }
    cbn [shine b_dir]. rewrite Dr. unfold dot, times, minus, on_sight_line, spherical, observer, cos_psi. cbn [px py pz]. cbv zeta. replace (1 - 1 ^ 2) with 0 by ring. rewrite sqrt_0. unfold spherical. cbn [px py pz]. field. lra.
  - destruct Ht as (HLd & HM & He & Hi & Hio & h & -> & Hh). assert (h = r) by (destruct Hr as [Hr|(t' & Hr)]; congruence). subst h. cbn [bind]. do 2 f_equal. unfold ec_ss_disk. cbv zeta. rewrite disk_mus by auto. apply map_ext_in. intros n Hn. specialize (Hes n Hn). rewrite eps_s_eq by auto.
    rewrite trapz_over, over_scale. unfold disk_field. apply over_ext. intros p Hp. rewrite trapz_over, over_scale. apply over_ext. intros m Hm.
    rewrite <- (disk_mus P (sd_M_BH t)) in Hm by auto. assert (Hrg : 0 < R_g P (sd_M_BH t)) by (unfold R_g; pos). unfold to_R_g_units in Hm. apply mu_grid_in in Hm; [| pos | pos | unfold Rdiv; apply Rmult_lt_compat_r; auto; pos]. destruct Hm as (Hm1 & _ & Hm2). unfold radius_of in Hm2.
    cbv zeta. rewrite disk_photon_eq by (auto; lra). unfold electrons. rewrite beam_sed with (mu := m) (phi := p); auto; try (cbn [b_dir]; apply dir_spherical; lra); try lra.
    2:{ apply disk_photon_pos. }
    cbn [b_u b_eps]. rewrite gi_w. set (ep := disk_photon _ _ _ _ _) in *. assert (Hep : 0 < ep) by apply disk_photon_pos.
    rewrite tan_acos by lra. assert (Hx : 0 < / m ^ 2 - 1). { assert (1 < / m ^ 2); [|lra]. rewrite <- Rinv_1 at 1. apply Rinv_lt_contravar; [|nra]. assert (0 < m ^ 2) by pos. lra. }
    rewrite npow_32' by auto. unfold evaluate_phi_disk_mu, disk_flux, to_R_g_units. cbv zeta. set (q := sqrt (/ m ^ 2 - 1)) in *. assert (Hq : 0 < q) by (unfold q; pos).
    replace (sd_R_in t / R_g P (sd_M_BH t) / (r / R_g P (sd_M_BH t) * q)) with (sd_R_in t / (r * q)) by (field; repeat split; lra). field. repeat split; lra.
  - destruct Ht as (HLd & Hx & He & HR & h & -> & Hh & Hne). assert (h = r) by (destruct Hr as [Hr|(t' & Hr)]; congruence). subst h. cbn [bind]. do 2 f_equal. unfold ec_blr. cbv zeta. apply map_ext_in. intros n Hn. specialize (Hes n Hn). rewrite eps_s_eq by auto.
    rewrite trapz_over, over_scale. unfold shell_field. apply over_ext. intros p Hp. rewrite trapz_over, over_scale. apply over_ext. intros m Hm. apply linspace_in in Hm; [|lra].
    assert (Hxr : 0 < x_re_shell m (blr_R_line t) r). { unfold x_re_shell. apply sqrt_lt_R0. pose proof (shell_x2 (blr_R_line t) r m HR ltac:(lra) Hm Hne). lra. }
    unfold electrons. rewrite beam_sed with (mu := mu_star_shell m (blr_R_line t) r) (phi := p); auto.
    + cbn [shine b_u b_eps]. rewrite <- C50_shell_distance by auto. rewrite gi_w. field. repeat split; lra.
    + apply C50_mu_star; auto. lra.
    + cbn [shine b_dir]. apply dir_shell; auto. lra.
  - destruct Ht as (HLd & Hx & He & h & -> & Hh). assert (h = r) by (destruct Hr as [Hr|(t' & Hr)]; congruence). subst h. cbn [bind]. do 2 f_equal. unfold ec_dt. cbv zeta. apply map_ext_in. intros n Hn. specialize (Hes n Hn). rewrite eps_s_eq by auto.
    specialize (HdtR t eq_refl). assert (0 < r ^ 2) by pos. pose proof (pow2_ge_0 (dt_R t)). assert (Hxr : 0 < x_re_ring (dt_R t) r) by (unfold x_re_ring; apply sqrt_lt_R0; lra).
    rewrite trapz_over, over_scale. unfold ring_field. apply over_ext. intros p Hp.
    unfold electrons. rewrite beam_sed with (mu := r / x_re_ring (dt_R t) r) (phi := p); auto.
    + cbn [shine b_u b_eps]. rewrite <- C50_ring_distance. field. repeat split; lra.
    + assert (r <= x_re_ring (dt_R t) r). { unfold x_re_ring. rewrite <- (sqrt_pow2 r) at 1 by lra. apply sqrt_le_1_alt. lra. }
      assert (0 < r / x_re_ring (dt_R t) r) by pos. split; [lra|]. apply Rmult_le_reg_r with (x_re_ring (dt_R t) r); auto. unfold Rdiv. rewrite Rmult_assoc, Rinv_l by lra. lra.
    + cbn [shine b_dir]. apply dir_ring; auto.
Qed.
Print Assumptions C74_superposition.
Example C74_case : ec_ok ex_ec /\ ec_integ ex_ec = trapz /\ exists r, ec_r ex_ec = Some r /\ forall t, ec_target ex_ec = TDustTorus t -> 0 <= dt_R t.
Proof.
  split; [exact C48_case|]. split; [reflexivity|]. eexists. split; [reflexivity|]. intros t H. unfold ex_ec in H. cbn [ec_target] in H. injection H as <-. cbn [dt_R]. lra.
Qed.

(** ** C75: the field of C74 has the energy density that the target reports *)
Lemma over_nest_const xs n f : (2 <= n)%nat -> over (linspace 0 (2 * PI) n) (fun _ => over xs f) = 2 * PI * over xs f.
Proof. intros H. rewrite over_const by auto. ring. Qed.
(** energy density of a beam for somebody moving up the jet axis *)
Definition boosted (G beta : R) (b : beam) : R := b_u b * (G * (1 - beta * pz (b_dir b))) ^ 2.
Theorem C75_cmb : forall P t r nmu nphi, (2 <= nmu)%nat -> (2 <= nphi)%nat -> cmb_u t None = Ok (axis_field P (TCMB t) r nmu nphi b_u).
Proof.
  intros P t r nmu nphi H1 H2. unfold cmb_u, axis_field, isotropic_field. cbn [b_u]. rewrite over_nest_const, over_const by auto. f_equal. pose proof PI_RGT_0. field. lra.
Qed.
Print Assumptions C75_cmb.
Lemma source_dist r : 0 < r -> dist (on_sight_line r 0 1) (spherical 0 0 0) = r.
Proof.
  intros H. unfold dist, dot, minus, on_sight_line, spherical. cbn [px py pz]. transitivity (sqrt (r ^ 2)); [f_equal; ring | apply sqrt_pow2; lra].
Qed.
Theorem C75_point_source : forall P t r nmu nphi b beta, phys_ok P -> 0 < r -> 1 <= Gamma b -> Beta b = Ok beta ->
  ps_u P t r None = Ok (axis_field P (TPointSource t) r nmu nphi b_u) /\
  ps_u P t r (Some b) = Ok (axis_field P (TPointSource t) r nmu nphi (boosted (Gamma b) beta)).
Proof.
  intros P t r nmu nphi b beta HP Hr HG HB. destruct (C51_point_source P t r b beta HP Hr HG HB) as [-> ->]. unfold axis_field, boosted, shine. cbv zeta. cbn [b_u b_dir]. rewrite source_dist by auto. split; auto. do 4 f_equal.
  unfold times, minus, on_sight_line, spherical. cbn [pz]. field. lra.
Qed.
Print Assumptions C75_point_source.
Theorem C75_torus : forall P t r nmu nphi b beta, phys_ok P -> 0 < r -> 1 <= Gamma b -> Beta b = Ok beta -> (2 <= nphi)%nat ->
  dt_u P t r None = Ok (axis_field P (TDustTorus t) r nmu nphi b_u) /\
  dt_u P t r (Some b) = Ok (axis_field P (TDustTorus t) r nmu nphi (boosted (Gamma b) beta)).
Proof.
  intros P t r nmu nphi b beta HP Hr HG HB Hn. destruct (C51_torus P t r b beta HP Hr HG HB) as [-> ->]. unfold axis_field, ring_field, boosted, shine. cbv zeta. cbn [b_u b_dir]. pose proof HP as []. pose proof PI_RGT_0.
  rewrite <- C50_ring_distance. assert (0 < r ^ 2) by pos. pose proof (pow2_ge_0 (dt_R t)). set (x := x_re_ring (dt_R t) r) in *. assert (0 < x) by (unfold x, x_re_ring; apply sqrt_lt_R0; lra).
  split; f_equal.
  - rewrite over_ext with (g := fun _ => dt_xi t * dt_L_disk t / (2 * PI) / (4 * PI * c_c P * x ^ 2)); [rewrite over_const by auto; field; repeat split; lra|]. intros p _. rewrite <- C50_ring_distance. reflexivity.
  - rewrite over_ext with (g := fun _ => dt_xi t * dt_L_disk t / (2 * PI) / (4 * PI * c_c P * x ^ 2) * (Gamma b * (1 - beta * (r / x))) ^ 2); [rewrite over_const by auto; field; repeat split; lra|].
    intros p _. rewrite <- C50_ring_distance. fold x. do 4 f_equal. unfold times, minus, on_sight_line, spherical. cbn [pz]. field. lra.
Qed.
Print Assumptions C75_torus.
Lemma blr_nest P t r nphi (f : R -> R) (F : beam -> R) : phys_ok P -> 0 < blr_R_line t -> 0 < r -> r <> blr_R_line t -> (2 <= nphi)%nat ->
  (forall m phi, -1 <= m <= 1 -> F (shine P (blr_xi t * blr_L_disk t / (4 * PI)) (blr_epsilon t) (spherical (blr_R_line t) m phi) (on_sight_line r 0 1)) =
     blr_xi t * blr_L_disk t / (16 * PI ^ 2 * c_c P) * (1 / x_re_shell m (blr_R_line t) r ^ 2 * f m)) ->
  blr_sum P t r f = axis_field P (TBLR t) r 50 nphi F.
Proof.
  intros HP HR Hr Hne Hn HF. pose proof HP as []. pose proof PI_RGT_0. unfold axis_field, shell_field. cbv zeta.
  rewrite over_ext with (g := fun _ => over (linspace (-1) 1 50) (fun m => blr_xi t * blr_L_disk t / (16 * PI ^ 2 * c_c P) * (1 / x_re_shell m (blr_R_line t) r ^ 2 * f m))).
  2:{ intros p _. apply over_ext. intros m Hm. apply linspace_in in Hm; [|lra]. apply HF. auto. }
  rewrite over_nest_const by auto. unfold blr_sum. rewrite <- over_scale, <- Rmult_assoc. f_equal; [field; split; lra|]. rewrite trapz_over. apply over_ext. intros m Hm. apply linspace_in in Hm; [|lra]. rewrite <- C50_shell_distance by auto. reflexivity.
Qed.
Theorem C75_blr : forall P t r nphi b beta, phys_ok P -> 0 < blr_R_line t -> 0 < r -> r <> blr_R_line t -> Beta b = Ok beta -> (2 <= nphi)%nat ->
  blr_u P t r None = Ok (axis_field P (TBLR t) r 50 nphi b_u) /\
  (blr_R_line t < r -> blr_u P t r (Some b) = Ok (axis_field P (TBLR t) r 50 nphi (boosted (Gamma b) beta))).
Proof.
  intros P t r nphi b beta HP HR Hr Hne HB Hn. pose proof HP as []. pose proof PI_RGT_0.
  assert (Hx : forall m, -1 <= m <= 1 -> 0 < x_re_shell m (blr_R_line t) r). { intros m Hm. unfold x_re_shell. apply sqrt_lt_R0. pose proof (shell_x2 (blr_R_line t) r m HR ltac:(lra) Hm Hne). lra. }
  split.
  - destruct (blr_u_eq P t r b beta HR ltac:(lra) Hne HB) as [-> _]. f_equal. apply blr_nest; auto. intros m p Hm. specialize (Hx m Hm). cbn [shine b_u]. rewrite <- C50_shell_distance by auto. field. repeat split; lra.
  - intros Ho. destruct (C51_blr_outside P t r b beta HR Ho HB) as [_ ->]. f_equal. apply blr_nest; auto. intros m p Hm. specialize (Hx m Hm). unfold boosted. cbn [shine b_u b_dir]. unfold blr_direction. rewrite <- !C50_shell_distance by auto.
    replace (pz (times (/ x_re_shell m (blr_R_line t) r) (minus (on_sight_line r 0 1) (spherical (blr_R_line t) m p)))) with ((r - blr_R_line t * m) / x_re_shell m (blr_R_line t) r); [field; repeat split; lra|].
    unfold times, minus, on_sight_line, spherical. cbn [pz]. field. lra.
Qed.
Print Assumptions C75_blr.
Theorem C75_disk : forall P M L eta R_in R_out units d r nphi b beta, phys_ok P -> ssdisk_init P M L eta R_in R_out units = Ok d ->
  0 < M -> 0 < L -> 0 < eta -> 0 < sd_R_in d -> sd_R_in d < sd_R_out d -> 0 < r -> 1 <= Gamma b -> Beta b = Ok beta -> (2 <= nphi)%nat ->
  ssdisk_u P d r None = Ok (axis_field P (TDisk d) r 100 nphi b_u) /\
  ssdisk_u P d r (Some b) = Ok (axis_field P (TDisk d) r 100 nphi (boosted (Gamma b) beta)).
Proof.
  intros P M L eta ri ro un d r nphi b beta HP Hd HM HL He Hi Ho Hr HG HB Hn. destruct (C51_disk P M L eta ri ro un d r b beta HP Hd HM HL He Hi Ho Hr HG HB) as [-> ->]. pose proof HP as []. pose proof PI_RGT_0.
  assert (Hat : sd_M_BH d = M /\ sd_L_disk d = L /\ sd_eta d = eta /\ sd_m_dot d = L / (eta * c_c P ^ 2)).
  { unfold ssdisk_init in Hd. destruct un, ri as [a|a], ro as [c|c]; try discriminate; apply (f_equal (fun x => match x with Ok y => y | Err _ => d end)) in Hd; cbv beta iota in Hd; rewrite <- Hd; repeat split. }
  destruct Hat as (A1 & A2 & A3 & A4). unfold axis_field, disk_field, boosted. cbv zeta. cbn [b_u b_dir]. unfold spherical. cbn [pz]. rewrite !over_nest_const by auto.
  set (mus := linspace _ _ 100).
  assert (K : forall m, In m mus -> disk_ray P d r m = 2 * PI * (2 * disk_flux P (sd_M_BH d) (sd_L_disk d / (sd_eta d * c_c P ^ 2)) (sd_R_in d) (r * tan (acos m)) * (r ^ 2 / m ^ 3) / (4 * PI * c_c P * (r / m) ^ 2))).
  { intros m Hm. unfold mus in Hm. rewrite <- (disk_mus P M) in Hm by auto. assert (Hrg : 0 < R_g P M) by (unfold R_g; pos). unfold to_R_g_units in Hm. apply mu_grid_in in Hm; [| pos | pos | unfold Rdiv; apply Rmult_lt_compat_r; auto; pos].
    destruct Hm as (Hm1 & _ & Hm2). unfold radius_of in Hm2. unfold disk_ray. rewrite tan_acos by lra.
    assert (HR : sd_R_in d <= r * sqrt (/ m ^ 2 - 1)). { apply Rmult_le_reg_r with (/ R_g P M); [pos|]. replace (r * sqrt (/ m ^ 2 - 1) * / R_g P M) with (r / R_g P M * sqrt (/ m ^ 2 - 1)) by (field; lra). apply Hm2. }
    rewrite sigma_T4; auto; [|lra|rewrite A4; assert (0 < c_c P ^ 2) by pos; pos]. assert (Hq : 0 < sqrt (/ m ^ 2 - 1)). { apply Rmult_lt_reg_l with r; auto. lra. }
    unfold disk_flux. rewrite A4, A1, A2, A3. set (q := sqrt (/ m ^ 2 - 1)) in *. field. repeat split; lra. }
  split; f_equal; rewrite trapz_over, over_scale; apply over_ext; intros m Hm.
  - apply K. auto.
  - rewrite K by auto. replace (1 * m) with m by ring. ring.
Qed.
Print Assumptions C75_disk.
Example C75_case : exists d b beta, ex_disk = Ok d /\ 0 < sd_R_in d /\ sd_R_in d < sd_R_out d /\ 1 <= Gamma b /\ Beta b = Ok beta /\ 0 < beta /\ (2 <= 50)%nat.
Proof.
  destruct C51_C53_case as (d & E & _ & _ & _ & H1 & H2). destruct C51_blr_case as (_ & b & beta & _ & HG & HB & Hb & _). exists d, b, beta. repeat split; auto; try lra. lia.
Qed.
