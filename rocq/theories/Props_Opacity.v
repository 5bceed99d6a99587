(** C76: the opacities are integrals over the photon fields of C74 and C75 *)
From Verif Require Import Base TEUtils ListFacts NumpyInst MathUtils Conversion Spectra Blob Synchrotron Geometry Targets Absorption Spec_Math Spec_Spectra Spec_Blob Spec_Rad Spec_Geom Spec_Beams MathFacts SpectraFacts SpectraFacts2 BlobFacts SynchFacts SynchFacts2 Props_Synch Props_Geometry TargetFacts Props_Targets Props_EC Props_Beams AbsorptionFacts Props_Absorption.
From Coq Require Import List Sorting.Permutation Sorting.Sorted.
Import ListNotations.
Open Scope list_scope.
Open Scope R_scope.

Lemma eps_1_eq P n z : phys_ok P -> eps_1 P n z = c_h P * n * (1 + z) / (c_me P * c_c P ^ 2).
Proof. apply eps_s_eq. Qed.
Lemma over_cons2 x0 x1 xs f : over (x0 :: x1 :: xs) f = (x1 - x0) * (f x0 + f x1) / 2 + over (x1 :: xs) f.
Proof. reflexivity. Qed.
Lemma over_map k xs f : over (map (fun x => x * k) xs) f = k * over xs (fun x => f (x * k)).
Proof.
  induction xs as [|x xs IH]; [unfold over; simpl; ring|]. destruct xs as [|y xs]; [unfold over; simpl; ring|]. cbn [map] in *. rewrite !over_cons2, IH. field.
Qed.
Lemma dir_general v phi mu ms : is_direction v phi mu -> 0 < sqrt (dot v v) -> dot (times (/ sqrt (dot v v)) v) (observer ms) = cos_psi ms mu phi.
Proof.
  intros (E & _ & _ & Hx & Hy) H. set (x := sqrt (dot v v)) in *. assert (Hz : pz v = x * mu) by (rewrite E; field; lra).
  unfold dot at 1. unfold times, observer, spherical, cos_psi. cbn [px py pz]. cbv zeta. rewrite Hx, Hz, cos_0, sin_0. field. lra.
Qed.
Lemma dir_between p q phi mu ms : is_direction (minus p q) phi mu -> 0 < dist p q -> dot (times (/ dist p q) (minus p q)) (observer ms) = cos_psi ms mu phi.
Proof. unfold dist. apply dir_general. Qed.

(** ** point source *)
Theorem C76_point_source : forall P a nu t r tau', phys_ok P -> absorber_ok a -> ab_target a = TPointSource t -> ab_r a = Some r -> ab_mu_s a <> 1 ->
  tau P a nu = Ok (Some tau') ->
  tau' = map (fun n => over (map (fun x => x * r) (np_logspace (- (5)) 5 100)) (fun u =>
      absorbed P (ab_mu_s a) (c_h P * n * (1 + ab_z a) / (c_me P * c_c P ^ 2)) (shine P (ps_L_0 t) (ps_epsilon_0 t) (spherical 0 0 0) (on_sight_line r u (ab_mu_s a))))) nu.
Proof.
  intros P [t' r' z ms msz psz lsz] nu t r tau' HP (Hms & Hok) Ht Hr Hne H. cbn [ab_target ab_r ab_mu_s ab_z] in *. subst t' r'. destruct Hok as (HL & He & h & E & Hh). injection E as <-. pose proof HP as [].
  unfold tau in H. cbn [ab_target ab_r ab_mu_s ab_z ab_the_r] in H. destruct (Reqb_spec ms 1) as [?|_]; [contradiction|]. unfold tau_ps_behind_blob_mu_s in H. cbv zeta in H. unfold ab_the_r in H. cbn [ab_r bind] in H. 
  set (uu := map (fun x => x * r) (np_logspace (- (5)) 5 100)) in *. destruct (existsb _ uu) eqn:Ex; [discriminate|]. cbn [bind] in H. apply oks_inj in H. subst tau'. apply map_ext. intros n. rewrite trapz_over, over_scale. apply over_ext. intros u Hu.
  pose proof (existsb_false _ _ _ Ex Hu) as Hx. cbv beta in Hx. assert (Hu0 : 0 < u) by exact (path_pos _ _ _ r _ Hh ltac:(eassumption)).
  set (x := sqrt (r * r + u * u + 2 * u * r * ms)) in *. assert (Hx0 : 0 < x) by (apply sqrt_nz; auto).
  assert (A : 0 <= 1 - ms ^ 2) by nra. pose proof (sqrt_sqrt _ A) as SA.
  assert (X2 : r * r + u * u + 2 * u * r * ms = (u * sqrt (1 - ms ^ 2)) ^ 2 + 0 ^ 2 + (r + u * ms) ^ 2). { transitivity (r * r + u * u * (sqrt (1 - ms ^ 2) * sqrt (1 - ms ^ 2) + ms ^ 2) + 2 * u * r * ms); [rewrite SA; ring|ring]. }
  assert (X2' : x ^ 2 = (u * sqrt (1 - ms ^ 2)) ^ 2 + 0 ^ 2 + (r + u * ms) ^ 2). { rewrite <- X2. unfold x. rewrite <- Rsqr_pow2. apply Rsqr_sqrt. apply Rnot_lt_le. intros K. unfold x in Hx0. rewrite sqrt_neg_0 in Hx0; lra. }
  assert (D : dist (on_sight_line r u ms) (spherical 0 0 0) = x). { unfold dist, dot, minus, on_sight_line, spherical, x. cbn [px py pz]. f_equal. rewrite X2. ring. }
  unfold absorbed, shine. cbv zeta. cbn [b_u b_eps b_dir]. rewrite D, eps_1_eq by auto.
  assert (C : dot (times (/ x) (minus (on_sight_line r u ms) (spherical 0 0 0))) (observer ms) = cos_psi ms ((r + u * ms) / x) 0).
  { unfold cos_psi, dot, times, minus, observer, on_sight_line, spherical. cbn [px py pz]. cbv zeta. rewrite cos_0, sin_0.
    assert (S : sqrt (1 - ((r + u * ms) / x) ^ 2) = u * sqrt (1 - ms ^ 2) / x).
    { replace (1 - ((r + u * ms) / x) ^ 2) with ((u * sqrt (1 - ms ^ 2) / x) ^ 2). { apply sqrt_pow2. pose proof (sqrt_pos (1 - ms ^ 2)). apply Rmult_le_pos; [apply Rmult_le_pos; lra|left; pos]. }
      apply Rmult_eq_reg_r with (x ^ 2); [|apply pow_nonzero; lra]. transitivity ((u * sqrt (1 - ms ^ 2)) ^ 2); [field; lra|]. transitivity (x ^ 2 - (r + u * ms) ^ 2); [rewrite X2'; ring|field; lra]. }
    rewrite S. field. lra. }
  rewrite C. pose proof PI_RGT_0. field. repeat split; lra.
Qed.
Print Assumptions C76_point_source.

(** ** torus *)
Lemma ring_pos R_ l : 0 < l -> 0 < x_re_ring R_ l.
Proof. intros H. unfold x_re_ring. apply sqrt_lt_R0. assert (0 < l ^ 2) by pos. pose proof (pow2_ge_0 R_). lra. Qed.
Theorem C76_torus_on_axis : forall P a nu t r tau', phys_ok P -> absorber_ok a -> ab_target a = TDustTorus t -> 0 <= dt_R t -> ab_r a = Some r -> ab_mu_s a = 1 ->
  tau P a nu = Ok (Some tau') ->
  tau' = map (fun n => over (map (fun x => x * r) (np_logspace 0 5 (ab_l_size a))) (fun l =>
      axis_field P (TDustTorus t) l (ab_mu_size a) (ab_phi_size a) (absorbed P 1 (c_h P * n * (1 + ab_z a) / (c_me P * c_c P ^ 2))))) nu.
Proof.
  intros P [t' r' z ms msz psz lsz] nu t r tau' HP (Hms & Hok) Ht HR Hr Hne H. cbn [ab_target ab_r ab_mu_s ab_z ab_l_size ab_mu_size ab_phi_size] in *. subst t' r' ms. destruct Hok as (HL & Hxi & He & h & E & Hh). injection E as <-. pose proof HP as [].
  unfold tau, ab_the_r in H. cbn [ab_target ab_r ab_mu_s ab_z ab_l_size bind] in H. destruct (Reqb_spec 1 1) as [_|?]; [|contradiction]. apply oks_inj in H. subst tau'. unfold tau_dt. cbv zeta. apply map_ext. intros n. rewrite trapz_over, over_scale. apply over_ext. intros l Hl.
  assert (Hl0 : 0 < l) by exact (path_pos _ _ _ r _ Hh ltac:(eassumption)). unfold axis_field, ring_field. cbv zeta. unfold ab_phi. cbn [ab_phi_size]. rewrite trapz_over, over_scale. apply over_ext. intros p Hp.
  pose proof (ring_pos (dt_R t) l Hl0) as Hx. unfold absorbed. cbn [shine b_u b_eps b_dir]. cbv zeta. rewrite dir_ring by auto. rewrite <- C50_ring_distance. rewrite eps_1_eq by auto. pose proof PI_RGT_0. field. repeat split; lra.
Qed.
Print Assumptions C76_torus_on_axis.
Theorem C76_torus_off_axis : forall P a nu t r tau', phys_ok P -> absorber_ok a -> ab_target a = TDustTorus t -> ab_r a = Some r -> ab_mu_s a <> 1 ->
  tau P a nu = Ok (Some tau') ->
  tau' = map (fun n => over (map (fun x => x * r) (np_logspace (- (5)) 5 (2 * ab_l_size a))) (fun u =>
      ring_field P (dt_xi t * dt_L_disk t) (dt_epsilon t) (dt_R t) (fun phi => phi) (ab_phi_size a) (on_sight_line r u (ab_mu_s a))
        (absorbed P (ab_mu_s a) (c_h P * n * (1 + ab_z a) / (c_me P * c_c P ^ 2))))) nu.
Proof.
  intros P [t' r' z ms msz psz lsz] nu t r tau' HP (Hms & Hok) Ht Hr Hne H. cbn [ab_target ab_r ab_mu_s ab_z ab_l_size ab_mu_size ab_phi_size] in *. subst t' r'. destruct Hok as (HL & Hxi & He & h & E & Hh). injection E as <-. pose proof HP as [].
  unfold tau, ab_the_r in H. cbn [ab_target ab_r ab_mu_s ab_z ab_l_size bind] in H. destruct (Reqb_spec ms 1) as [?|_]; [contradiction|]. unfold tau_dt_mu_s in H. cbv zeta in H. unfold ab_phi in H. cbn [ab_phi_size] in H.
  set (uu := map (fun x => x * r) _) in *. set (ps := linspace 0 (2 * PI) psz) in *. destruct (existsb _ ps) eqn:Ex; [discriminate|]. cbn [bind] in H. apply oks_inj in H. subst tau'. apply map_ext. intros n. rewrite trapz_over, over_scale. apply over_ext. intros u Hu.
  unfold ring_field. fold ps. rewrite trapz_over, over_scale. apply over_ext. intros p Hp.
  assert (Hx : 0 < x_re_ring_mu_s (dt_R t) r p u ms). { pose proof (existsb_false _ _ _ Ex Hp) as Ex2. cbv beta in Ex2. pose proof (existsb_false _ _ _ Ex2 Hu) as Ex3. cbv beta in Ex3. unfold x_re_ring_mu_s in *. cbv zeta in *. apply sqrt_nz. exact Ex3. }
  pose proof (C50_ring_direction (dt_R t) r p u ms Hms Hx) as D. rewrite C50_ring_mu_s_distance in Hx by auto. unfold absorbed. cbn [shine b_u b_eps b_dir]. cbv zeta. rewrite (dir_between _ _ _ _ ms D Hx), C50_ring_mu_s_distance by auto. rewrite eps_1_eq by auto. pose proof PI_RGT_0. field. repeat split; lra.
Qed.
Print Assumptions C76_torus_off_axis.

(** ** broad line region *)
Lemma nondecr_sorted l : nondecr l -> Sorted Rle l.
Proof. induction l as [|a [|b l] IH]; intros H; [constructor|repeat constructor|]. destruct H as [H1 H2]. constructor; [apply IH; exact H2|constructor; exact H1]. Qed.
Theorem C76_blr_on_axis : forall P a nu t r tau', phys_ok P -> absorber_ok a -> ab_target a = TBLR t -> ab_r a = Some r -> ab_mu_s a = 1 ->
  tau P a nu = Ok (Some tau') ->
  tau' = map (fun n => over (map (fun l => nudged (blr_R_line t) l l) (map (fun x => x * r) (np_logspace 0 5 (ab_l_size a)))) (fun l =>
      axis_field P (TBLR t) l (ab_mu_size a) (ab_phi_size a) (absorbed P 1 (c_h P * n * (1 + ab_z a) / (c_me P * c_c P ^ 2))))) nu.
Proof.
  intros P [t' r' z ms msz psz lsz] nu t r tau' HP (Hms & Hok) Ht Hr Hne H. cbn [ab_target ab_r ab_mu_s ab_z ab_l_size ab_mu_size ab_phi_size] in *. subst t' r' ms. destruct Hok as (HL & Hxi & He & HR & Hls & h & E & Hh). injection E as <-. pose proof HP as [].
  unfold tau, ab_the_r in H. cbn [ab_target ab_r ab_mu_s ab_z ab_l_size bind] in H. destruct (Reqb_spec 1 1) as [_|?]; [|contradiction]. unfold tau_blr in H. cbv zeta in H. unfold ab_phi, ab_mu in H. cbn [ab_phi_size ab_mu_size] in H.
  rewrite <- blr_path_nudged by auto. set (ls := blr_path _ _ _) in *. set (ps := linspace 0 (2 * PI) psz) in *. set (mus := linspace (-1) 1 msz) in *. destruct (existsb _ mus) eqn:Ex; [discriminate|]. cbn [bind] in H. apply oks_inj in H. subst tau'. apply map_ext. intros n. rewrite trapz_over, over_scale. apply over_ext. intros l Hl.
  unfold axis_field, shell_field. cbv zeta. fold ps mus. rewrite trapz_over, over_scale. apply over_ext. intros p Hp. rewrite trapz_over, over_scale. apply over_ext. intros m Hm.
  assert (Hx : 0 < x_re_shell m (blr_R_line t) l). { pose proof (existsb_false _ _ _ Ex Hm) as Ex2. cbv beta in Ex2. pose proof (existsb_false _ _ _ Ex2 Hl) as Ex3. cbv beta in Ex3. unfold x_re_shell in *. apply sqrt_nz. exact Ex3. }
  unfold mus in Hm. apply linspace_in in Hm; [|lra]. unfold absorbed. cbn [shine b_u b_eps b_dir]. cbv zeta. rewrite dir_shell by (auto; lra). rewrite <- C50_shell_distance by auto. rewrite eps_1_eq by auto. pose proof PI_RGT_0. field. repeat split; lra.
Qed.
Print Assumptions C76_blr_on_axis.
Theorem C76_blr_off_axis : forall P a nu t r tau', phys_ok P -> absorber_ok a -> ab_target a = TBLR t -> ab_r a = Some r -> ab_mu_s a <> 1 ->
  tau P a nu = Ok (Some tau') ->
  exists path, Permutation path (map (fun u => nudged (blr_R_line t) (dist (on_sight_line r u (ab_mu_s a)) (spherical 0 0 0)) u) (map (fun x => x * r) (np_logspace (- (5)) 5 (2 * ab_l_size a)))) /\
  Sorted Rle path /\
  tau' = map (fun n => over path (fun u =>
      shell_field P (blr_xi t * blr_L_disk t) (blr_epsilon t) (blr_R_line t) (fun phi => phi) (ab_mu_size a) (ab_phi_size a) (on_sight_line r u (ab_mu_s a))
        (absorbed P (ab_mu_s a) (c_h P * n * (1 + ab_z a) / (c_me P * c_c P ^ 2))))) nu.
Proof.
  intros P [t' r' z ms msz psz lsz] nu t r tau' HP (Hms & Hok) Ht Hr Hne H. cbn [ab_target ab_r ab_mu_s ab_z ab_l_size ab_mu_size ab_phi_size] in *. subst t' r'. destruct Hok as (HL & Hxi & He & HR & Hls & h & E & Hh). injection E as <-. pose proof HP as [].
  unfold tau, ab_the_r in H. cbn [ab_target ab_r ab_mu_s ab_z ab_l_size bind] in H. destruct (Reqb_spec ms 1) as [?|_]; [contradiction|]. unfold tau_blr_mu_s in H. cbv zeta in H. unfold ab_phi, ab_mu in H. cbn [ab_phi_size ab_mu_size] in H.
  exists (blr_path_mu_s (blr_R_line t) r ms (2 * lsz)). split; [apply blr_path_permutation; auto|]. split; [apply nondecr_sorted, path_nondecr; auto|].
  set (uu := blr_path_mu_s _ _ _ _) in *. set (ps := linspace 0 (2 * PI) psz) in *. set (mus := linspace (-1) 1 msz) in *. destruct (existsb _ mus) eqn:Ex; [discriminate|]. cbn [bind] in H. apply oks_inj in H. subst tau'. apply map_ext. intros n. rewrite trapz_over, over_scale. apply over_ext. intros u Hu.
  unfold shell_field. fold ps mus. rewrite trapz_over, over_scale. apply over_ext. intros p Hp. rewrite trapz_over, over_scale. apply over_ext. intros m Hm.
  assert (Hx : 0 < x_re_shell_mu_s (blr_R_line t) r p m u ms). { pose proof (existsb_false _ _ _ Ex Hm) as Ex2. cbv beta in Ex2. pose proof (existsb_false _ _ _ Ex2 Hp) as Ex3. cbv beta in Ex3. pose proof (existsb_false _ _ _ Ex3 Hu) as Ex4. cbv beta in Ex4. unfold x_re_shell_mu_s in *. cbv zeta in *. apply sqrt_nz. exact Ex4. }
  unfold mus in Hm. apply linspace_in in Hm; [|lra]. pose proof (C50_shell_direction (blr_R_line t) r p m u ms Hms Hm Hx) as D. rewrite C50_shell_mu_s_distance in Hx by auto. unfold absorbed. cbn [shine b_u b_eps b_dir]. cbv zeta. rewrite (dir_between _ _ _ _ ms D Hx), C50_shell_mu_s_distance by auto. rewrite eps_1_eq by auto. pose proof PI_RGT_0. field. repeat split; lra.
Qed.
Print Assumptions C76_blr_off_axis.

(** ** disk.  The code weighs each beam with the cosine of its angle to the axis,
    which neither SSDisk.u nor ExternalCompton do: the opacity is too small. *)
Lemma linspace_scale a b k n : linspace (a * k) (b * k) n = map (fun x => x * k) (linspace a b n).
Proof. unfold linspace. rewrite map_map. apply map_ext. intros i. unfold Rdiv. ring. Qed.
Lemma disk_photon_R P M L eta x : phys_ok P -> 0 < M -> evaluate_epsilon L M eta x = disk_photon P M L eta (x * R_g P M).
Proof.
  intros HP HM. pose proof HP as []. unfold evaluate_epsilon, disk_photon, npow, R_g. cbv zeta.
  assert (E1 : 1.26 * 1e46 * (M / (1e8 * M_sun)) = 1.26e46 * (M / (1e8 * M_sun))) by lra. rewrite E1. f_equal; [f_equal; lra|]. f_equal; [|lra]. field. assert (0 < c_c P ^ 2) by pos. repeat split; lra.
Qed.
Lemma npow_m12 x : 0 < x -> npow x (- (1) / 2) = / sqrt x.
Proof. intros H. unfold npow. replace (- (1) / 2) with (- / 2) by lra. rewrite Rpower_Ropp, Rpower_sqrt by auto. reflexivity. Qed.
Definition disk_absorbed (P : phys) (a : absorber) (t : ssdisk) (r n : R) (weight : beam -> R) : R :=
  over (map (fun x => x * r) (np_logspace 0 5 (ab_l_size a))) (fun l =>
    disk_rings P (sd_M_BH t) (sd_L_disk t) (sd_L_disk t / (sd_eta t * c_c P ^ 2)) (sd_eta t) (sd_R_in t) (sd_R_out t) 100 (ab_phi_size a) l
      (fun b => weight b * absorbed P 1 (c_h P * n * (1 + ab_z a) / (c_me P * c_c P ^ 2)) b)).
Theorem C76_disk : forall P a nu t r tau', phys_ok P -> absorber_ok a -> ab_target a = TDisk t -> ab_r a = Some r -> ab_mu_s a = 1 ->
  tau P a nu = Ok (Some tau') -> tau' = map (fun n => disk_absorbed P a t r n (fun b => pz (b_dir b))) nu.
Proof.
  intros P [t' r' z ms msz psz lsz] nu t r tau' HP (Hms & Hok) Ht Hr Hne H. cbn [ab_target ab_r ab_mu_s ab_z ab_l_size ab_mu_size ab_phi_size] in *. subst t' r' ms. destruct Hok as (HL & HM & He & HRi & HRo & h & E & Hh). injection E as <-. pose proof HP as []. pose proof PI_RGT_0.
  unfold tau, ab_the_r in H. cbn [ab_target ab_r ab_mu_s ab_z ab_l_size bind] in H. destruct (Reqb_spec 1 1) as [_|?]; [|contradiction]. apply oks_inj in H. subst tau'. unfold tau_ss_disk. cbv zeta. apply map_ext. intros n. unfold disk_absorbed. cbn [ab_z ab_l_size ab_phi_size].
  unfold ab_phi. cbn [ab_phi_size]. fold (R_g P (sd_M_BH t)). assert (Hk : 0 < R_g P (sd_M_BH t)) by (unfold R_g; pos). rewrite trapz_over, !over_map. unfold to_R_g_units. 
  assert (GM : c_G P * sd_M_BH t = R_g P (sd_M_BH t) * c_c P ^ 2) by (unfold R_g; field; lra).
  set (k := R_g P (sd_M_BH t)) in *. rewrite <- Rmult_assoc, !over_scale. apply over_ext. intros l0 Hl0. apply logspace_pos in Hl0. 
  assert (Hl : 0 < l0 * r) by pos. replace (l0 * (r / k)) with (l0 * r / k) by (field; lra). set (l := l0 * r) in *. clearbody l. clear l0 Hl0.
  unfold disk_rings. rewrite trapz_over, !over_scale. apply over_ext. intros p _. rewrite trapz_over, !over_scale.
  replace (linspace (sd_R_in t) (sd_R_out t) 100) with (map (fun x => x * k) (linspace (sd_R_in t / k) (sd_R_out t / k) 100)). 2:{ rewrite <- linspace_scale. f_equal; field; lra. }
  rewrite over_map, over_scale. apply over_ext. intros x Hx. apply linspace_in in Hx; [|unfold Rdiv; apply Rmult_le_compat_r; [left; pos|lra]]. assert (Hx0 : 0 < x). { assert (0 < sd_R_in t / k) by pos. lra. }
  unfold absorbed. cbn [b_u b_eps b_dir]. cbv zeta. rewrite dir_spherical, (disk_photon_R P) by auto. fold k. rewrite eps_1_eq by auto.
  set (ep := disk_photon _ _ _ _ _). assert (Hep : 0 < ep) by apply disk_photon_pos.
  assert (S1 : sqrt (1 + x ^ 2 / (l / k) ^ 2) = sqrt (l ^ 2 + (x * k) ^ 2) / l).
  { replace (1 + x ^ 2 / (l / k) ^ 2) with ((l ^ 2 + (x * k) ^ 2) / l ^ 2) by (field; split; lra). rewrite sqrt_div_alt by pos. rewrite sqrt_pow2 by lra. reflexivity. }
  assert (P1 : 0 < 1 + x ^ 2 / (l / k) ^ 2). { assert (0 < x ^ 2 / (l / k) ^ 2) by (assert (0 < l / k) by pos; pos). lra. }
  rewrite npow_m12, npow_32', S1 by auto. assert (P2 : 0 < l ^ 2 + (x * k) ^ 2) by (assert (0 < l ^ 2) by pos; assert (0 < x * k) by pos; assert (0 < (x * k) ^ 2) by pos; lra).
  pose proof (sqrt_sqrt _ (Rlt_le _ _ P2)) as SS. assert (Sp : 0 < sqrt (l ^ 2 + (x * k) ^ 2)) by (apply sqrt_lt_R0; auto). set (s := sqrt (l ^ 2 + (x * k) ^ 2)) in *.
  replace (/ (s / l)) with (l / s) by (field; split; lra). unfold spherical. cbn [pz]. set (c := cos_psi 1 (l / s) p). replace (ep * (c_h P * n * (1 + z) / (c_me P * c_c P ^ 2)) * (1 - c) / 2) with (c_h P * n * (1 + z) / (c_me P * c_c P ^ 2) * ep * (1 - c) / 2) by (unfold Rdiv; ring).
  set (sg := sigma P _). unfold disk_flux. replace (sd_R_in t / (x * k)) with (sd_R_in t / k / x) by (field; split; lra). set (ph := 1 - sqrt _). rewrite (Rmult_assoc 3 (c_G P)), GM. rewrite <- SS. clearbody s. field. repeat split; lra.
Qed.
Print Assumptions C76_disk.
Lemma over_le xs f g : nondecr xs -> (forall x, In x xs -> f x <= g x) -> over xs f <= over xs g.
Proof.
  induction xs as [|x0 xs IH]; intros Hi H. { unfold over. simpl. lra. } destruct xs as [|x1 xs]. { unfold over. simpl. lra. } destruct Hi as [H1 H2]. rewrite !over_cons2.
  assert (f x0 <= g x0) by (apply H; left; auto). assert (f x1 <= g x1) by (apply H; right; left; auto). specialize (IH H2 (fun x Hx => H x (or_intror Hx))). nra.
Qed.
Lemma over_nonneg xs f : nondecr xs -> (forall x, In x xs -> 0 <= f x) -> 0 <= over xs f.
Proof. intros Hi H. apply Rle_trans with (over xs (fun x => 0 * f x)); [rewrite <- over_scale; lra|]. apply over_le; auto. intros x Hx. specialize (H x Hx). lra. Qed.
Lemma over_pos xs f : incr xs -> (2 <= length xs)%nat -> (forall x, In x xs -> 0 <= f x) -> (exists x, In x xs /\ 0 < f x) -> 0 < over xs f.
Proof.
  induction xs as [|x0 xs IH]; intros Hi HL H (x & Hx & Hf). { destruct Hx. } destruct xs as [|x1 xs]. { simpl in HL. lia. } pose proof Hi as [H1 H2]. rewrite over_cons2.
  assert (F0 : 0 <= f x0) by (apply H; left; auto). assert (F1 : 0 <= f x1) by (apply H; right; left; auto).
  assert (K : 0 <= over (x1 :: xs) f) by (apply over_nonneg; [apply incr_nondecr; auto|intros y Hy; apply H; right; auto]).
  assert (C : 0 < f x0 + f x1 \/ 0 < over (x1 :: xs) f).
  { destruct Hx as [<-|[<-|Hx]]; [left; lra|left; lra|]. destruct (Rle_lt_dec (f x1) 0) as [Z|Z]; [|left; lra]. right. apply IH; [auto|destruct xs; [destruct Hx|simpl; lia]|intros y Hy; apply H; right; auto|exists x; split; auto; right; auto]. }
  destruct C as [C|C]; [|nra]. assert (0 < (x1 - x0) * (f x0 + f x1)) by (apply Rmult_lt_0_compat; lra). lra.
Qed.
Lemma absorbed_nonneg P ms e1 b : phys_ok P -> 0 <= b_u b -> 0 < b_eps b -> dot (b_dir b) (observer ms) <= 1 -> 0 <= absorbed P ms e1 b.
Proof.
  intros HP Hu He Hc. pose proof HP as []. unfold absorbed. cbv zeta. set (c := dot _ _) in *. pose proof (sigma_nonneg P (e1 * b_eps b * (1 - c) / 2) HP). assert (0 < c_c P ^ 2) by pos. pos.
Qed.
Lemma ring_cosine l R_ : 0 < l -> 0 < R_ -> 0 < l / sqrt (l ^ 2 + R_ ^ 2) < 1.
Proof.
  intros Hl HR. assert (0 < l ^ 2) by pos. assert (0 < R_ ^ 2) by pos. assert (Hs : l < sqrt (l ^ 2 + R_ ^ 2)). { rewrite <- (sqrt_pow2 l) at 1 by lra. apply sqrt_lt_1_alt. lra. }
  split; [pos|]. apply Rmult_lt_reg_r with (sqrt (l ^ 2 + R_ ^ 2)); [lra|]. unfold Rdiv. rewrite Rmult_assoc, Rinv_l by lra. lra.
Qed.
Lemma cosine_bound l lm R_ Ri : 0 < l -> l <= lm -> 0 < Ri -> Ri <= R_ -> l / sqrt (l ^ 2 + R_ ^ 2) <= lm / sqrt (lm ^ 2 + Ri ^ 2).
Proof.
  intros Hl Hm Hi HR. assert (0 < l ^ 2) by pos. assert (0 < R_) by lra. assert (0 < R_ ^ 2) by pos. assert (0 < Ri ^ 2) by pos. assert (0 < lm) by lra. assert (0 < lm ^ 2) by pos.
  assert (A : 0 < sqrt (l ^ 2 + R_ ^ 2)) by (apply sqrt_lt_R0; lra). assert (B : 0 < sqrt (lm ^ 2 + Ri ^ 2)) by (apply sqrt_lt_R0; lra).
  apply Rmult_le_reg_r with (sqrt (l ^ 2 + R_ ^ 2) * sqrt (lm ^ 2 + Ri ^ 2)); [pos|]. replace (l / sqrt (l ^ 2 + R_ ^ 2) * (sqrt (l ^ 2 + R_ ^ 2) * sqrt (lm ^ 2 + Ri ^ 2))) with (l * sqrt (lm ^ 2 + Ri ^ 2)) by (field; lra).
  replace (lm / sqrt (lm ^ 2 + Ri ^ 2) * (sqrt (l ^ 2 + R_ ^ 2) * sqrt (lm ^ 2 + Ri ^ 2))) with (lm * sqrt (l ^ 2 + R_ ^ 2)) by (field; lra).
  rewrite <- (sqrt_pow2 l) at 1 by lra. rewrite <- (sqrt_pow2 lm) at 2 by lra. rewrite <- !sqrt_mult_alt by lra. apply sqrt_le_1_alt. assert (l ^ 2 <= lm ^ 2) by nra. assert (Ri ^ 2 <= R_ ^ 2) by nra. assert (l ^ 2 * Ri ^ 2 <= lm ^ 2 * R_ ^ 2) by (apply Rmult_le_compat; lra). lra.
Qed.
Lemma disk_beam_ok P t R_ l p : phys_ok P -> 0 < sd_L_disk t -> 0 < sd_M_BH t -> 0 < sd_eta t -> 0 < sd_R_in t -> sd_R_in t <= R_ -> 0 < l ->
  0 <= 2 * disk_flux P (sd_M_BH t) (sd_L_disk t / (sd_eta t * c_c P ^ 2)) (sd_R_in t) R_ * R_ / (4 * PI * c_c P * (l ^ 2 + R_ ^ 2)) /\
  (sd_R_in t < R_ -> 0 < 2 * disk_flux P (sd_M_BH t) (sd_L_disk t / (sd_eta t * c_c P ^ 2)) (sd_R_in t) R_ * R_ / (4 * PI * c_c P * (l ^ 2 + R_ ^ 2))) /\
  dot (spherical 1 (l / sqrt (l ^ 2 + R_ ^ 2)) p) (observer 1) < 1.
Proof.
  intros HP HL HM He Hi HR Hl. pose proof HP as []. pose proof PI_RGT_0. assert (0 < R_) by lra. pose proof (ring_cosine l R_ Hl ltac:(auto)) as Hc. assert (0 < c_c P ^ 2) by pos. assert (0 < l ^ 2) by pos. assert (0 < R_ ^ 2) by pos. assert (0 < R_ ^ 3) by pos. assert (0 < l ^ 2 + R_ ^ 2) by lra.
  pose proof (phi_range (sd_R_in t) R_ Hi HR) as Hph. unfold disk_flux. set (m := sd_L_disk t / (sd_eta t * c_c P ^ 2)). assert (0 < m) by (unfold m; pos).
  split; [|split].
  - destruct Hph as [Hph _]. set (x := 1 - sqrt (sd_R_in t / R_)) in *. pos.
  - intros Hlt. assert (Hx : 0 < 1 - sqrt (sd_R_in t / R_)). { assert (sqrt (sd_R_in t / R_) < 1); [|lra]. rewrite <- sqrt_1 at 1. apply sqrt_lt_1_alt. split; [left; pos|]. apply Rmult_lt_reg_r with R_; auto. unfold Rdiv. rewrite Rmult_assoc, Rinv_l by lra. lra. } set (x := 1 - sqrt (sd_R_in t / R_)) in *. pos.
  - rewrite dir_spherical. unfold cos_psi. cbv zeta. replace (1 - 1 ^ 2) with 0 by ring. rewrite sqrt_0. lra.
Qed.
Lemma path_max a b n r x : a < b -> 0 < r -> In x (map (fun x => x * r) (np_logspace a b n)) -> x <= pow10 b * r.
Proof.
  intros Hab Hr H. apply in_map_iff in H. destruct H as (y & <- & Hy). unfold np_logspace in Hy. apply in_map_iff in Hy. destruct Hy as (w & <- & Hw). apply linspace_in in Hw; [|lra]. apply Rmult_le_compat_r; [lra|]. destruct (Req_dec w b) as [->|N]; [lra|]. left. apply pow10_lt. lra.
Qed.
Lemma lin_nd a b n : a < b -> nondecr (linspace a b n).
Proof. intros H. apply incr_nondecr, linspace_incr. auto. Qed.
Theorem C76_disk_below : forall P a nu t r tau' i n v, phys_ok P -> absorber_ok a -> ab_target a = TDisk t -> ab_r a = Some r -> ab_mu_s a = 1 ->
  tau P a nu = Ok (Some tau') -> nth_error nu i = Some n -> nth_error tau' i = Some v ->
  v <= disk_absorbed P a t r n (fun _ => 1) /\ (0 < v -> v < disk_absorbed P a t r n (fun _ => 1)).
Proof.
  intros P a nu t r tau' i n v HP Hok Ht Hr Hms H Hn Hv. rewrite (C76_disk P a nu t r tau' HP Hok Ht Hr Hms H) in Hv. rewrite nth_error_map, Hn in Hv. apply some_inj in Hv. destruct Hok as (_ & Hok). rewrite Ht in Hok. destruct Hok as (HL & HM & He & HRi & HRo & h & E & Hh). rewrite Hr in E. injection E as <-.
  set (lm := pow10 5 * r). assert (Hlm : 0 < lm) by (unfold lm; pose proof (pow10_pos 5); pos). set (q := lm / sqrt (lm ^ 2 + sd_R_in t ^ 2)). pose proof (ring_cosine lm (sd_R_in t) Hlm HRi) as Hq. fold q in Hq.
  pose proof PI_RGT_0. assert (K : forall w, (forall b, 0 <= w b) -> 0 <= disk_absorbed P a t r n w).
  { intros w Hw. unfold disk_absorbed. apply over_nonneg; [apply incr_nondecr, path_incr; lra|]. intros l Hl. assert (Hl0 : 0 < l) by exact (path_pos _ _ _ r _ Hh Hl). apply over_nonneg; [apply lin_nd; lra|]. intros p _. apply over_nonneg; [apply lin_nd; lra|]. intros R_ HR. apply linspace_in in HR; [|lra].
    destruct (disk_beam_ok P t R_ l p HP HL HM He HRi ltac:(lra) Hl0) as (B1 & _ & B3). apply Rmult_le_pos; [apply Hw|]. apply absorbed_nonneg; auto; cbn [b_u b_eps b_dir]; [apply disk_photon_pos|lra]. }
  assert (L : v <= q * disk_absorbed P a t r n (fun _ => 1)).
  { rewrite <- Hv. unfold disk_absorbed, disk_rings. rewrite over_scale. apply over_le; [apply incr_nondecr, path_incr; lra|]. intros l Hl. assert (Hl0 : 0 < l) by exact (path_pos _ _ _ r _ Hh Hl). rewrite over_scale. apply over_le; [apply lin_nd; lra|]. intros p _. rewrite over_scale. apply over_le; [apply lin_nd; lra|]. intros R_ HR. apply linspace_in in HR; [|lra].
    destruct (disk_beam_ok P t R_ l p HP HL HM He HRi ltac:(lra) Hl0) as (B1 & _ & B3). cbn [b_dir]. rewrite Rmult_1_l. apply Rmult_le_compat_r. { apply absorbed_nonneg; auto; cbn [b_u b_eps b_dir]; [apply disk_photon_pos|lra]. }
    unfold spherical. cbn [pz]. rewrite Rmult_1_l. apply cosine_bound; try lra. eapply path_max; eauto. lra. }
  specialize (K (fun _ => 1) ltac:(intros; lra)). split; [nra|]. intros Hv0. nra.
Qed.
Print Assumptions C76_disk_below.
(** at high energies there is absorption, so the opacity is really smaller *)
Theorem C76_disk_absorbs : forall P a t r, phys_ok P -> absorber_ok a -> ab_target a = TDisk t -> ab_r a = Some r -> ab_mu_s a = 1 -> 0 < 1 + ab_z a -> (2 <= ab_phi_size a)%nat -> (2 <= ab_l_size a)%nat ->
  exists n v, 0 < n /\ tau P a [n] = Ok (Some [v]) /\ 0 < v.
Proof.
  intros P a t r HP Hok Ht Hr Hms Hz Hp Hl. pose proof Hok as (_ & Hok'). rewrite Ht in Hok'. destruct Hok' as (HL & HM & He & HRi & HRo & h & E & Hh). rewrite Hr in E. injection E as <-. pose proof HP as []. pose proof PI_RGT_0.
  set (ep := disk_photon P (sd_M_BH t) (sd_L_disk t) (sd_eta t) (sd_R_out t)). assert (Hep : 0 < ep) by apply disk_photon_pos.
  destruct (disk_beam_ok P t (sd_R_out t) r 0 HP HL HM He HRi ltac:(lra) Hh) as (_ & B2 & B3). set (c := dot _ _) in B3.
  assert (Hc : 0 < c_c P ^ 2) by pos. assert (H1c : 0 < 1 - c) by lra.
  set (n := 4 / (ep * (1 - c)) * (c_me P * c_c P ^ 2) / (c_h P * (1 + ab_z a))). assert (Hn : 0 < n) by (unfold n; pos).
  assert (T : exists v, tau P a [n] = Ok (Some [v])). { unfold tau, ab_the_r. rewrite Ht, Hms, Hr. destruct (Reqb_spec 1 1) as [_|?]; [|contradiction]. cbn [bind]. unfold tau_ss_disk. cbn [map]. eexists. reflexivity. }
  destruct T as (v & T). exists n, v. split; auto. split; auto. pose proof (C76_disk P a [n] t r [v] HP Hok Ht Hr Hms T) as V. cbn [map] in V. injection V as ->. unfold disk_absorbed, disk_rings.
  assert (Hnn : forall l p R_, 0 < l -> sd_R_in t <= R_ -> 0 <= (fun b => pz (b_dir b) * absorbed P 1 (c_h P * n * (1 + ab_z a) / (c_me P * c_c P ^ 2)) b) {| b_u := 2 * disk_flux P (sd_M_BH t) (sd_L_disk t / (sd_eta t * c_c P ^ 2)) (sd_R_in t) R_ * R_ / (4 * PI * c_c P * (l ^ 2 + R_ ^ 2));
         b_eps := disk_photon P (sd_M_BH t) (sd_L_disk t) (sd_eta t) R_; b_dir := spherical 1 (l / sqrt (l ^ 2 + R_ ^ 2)) p |}).
  { intros l p R_ Hl0 HR. destruct (disk_beam_ok P t R_ l p HP HL HM He HRi HR Hl0) as (C1 & _ & C3). cbv beta. apply Rmult_le_pos. { cbn [b_dir]. unfold spherical. cbn [pz]. pose proof (ring_cosine l R_ Hl0 ltac:(lra)). lra. } apply absorbed_nonneg; auto; cbn [b_u b_eps b_dir]; [apply disk_photon_pos|lra]. }
  assert (LI : forall x l, In x (linspace (sd_R_in t) (sd_R_out t) l) -> sd_R_in t <= x <= sd_R_out t) by (intros x l; apply linspace_in; lra).
  apply over_pos. { apply path_incr; lra. } { rewrite map_length, logspace_length. auto. }
  { intros l Hl0. pose proof (path_pos _ _ _ _ _ Hh Hl0). apply over_nonneg; [apply lin_nd; lra|]. intros p _. apply over_nonneg; [apply lin_nd; lra|]. intros R_ HR. apply LI in HR. apply Hnn; lra. }
  exists r. split. { apply in_map_iff. exists 1. split; [ring|]. apply nth_error_In with (n := 0%nat). rewrite logspace_nth by lia. f_equal. simpl INR. unfold pow10. rewrite <- exp_0 at 1. f_equal. ring. }
  apply over_pos. { apply linspace_incr. lra. } { rewrite linspace_length. auto. } { intros p _. apply over_nonneg; [apply lin_nd; lra|]. intros R_ HR. apply LI in HR. apply Hnn; lra. }
  exists 0. split. { apply nth_error_In with (n := 0%nat). rewrite linspace_nth by lia. f_equal. simpl INR. ring. }
  apply over_pos. { apply linspace_incr. lra. } { rewrite linspace_length. lia. } { intros R_ HR. apply LI in HR. apply Hnn; lra. }
  exists (sd_R_out t). split. { apply nth_error_In with (n := 99%nat). rewrite linspace_nth by lia. f_equal. change (100 - 1)%nat with 99%nat. assert (INR 99 <> 0) by (apply not_0_INR; lia). field. auto. }
  cbv beta. apply Rmult_lt_0_compat. { cbn [b_dir]. unfold spherical. cbn [pz]. pose proof (ring_cosine r (sd_R_out t) Hh ltac:(lra)). lra. }
  unfold absorbed. cbv zeta. cbn [b_u b_eps b_dir]. fold c ep. specialize (B2 HRo). apply Rmult_lt_0_compat. { apply Rmult_lt_0_compat; [lra|apply Rdiv_lt_0_compat; [exact B2|pos]]. } apply sigma_pos; auto. replace (c_h P * n * (1 + ab_z a) / (c_me P * c_c P ^ 2) * ep * (1 - c) / 2) with 2; [lra|]. unfold n. field. repeat split; lra.
Qed.
Print Assumptions C76_disk_absorbs.

(** ** synchrotron photons of the blob *)
Lemma trapz_combine (f : R -> R) (g : R -> R -> R) nus sed (h : R -> R -> R) : length sed = length nus ->
  trapz (map2 h (map2 g sed (map f nus)) (map f nus)) (map f nus) =
  trapezia (map (fun nF => (f (fst nF), h (g (snd nF) (f (fst nF))) (f (fst nF)))) (combine nus sed)).
Proof.
  intros HL. rewrite <- trapz_pairs, !map_map. cbn [fst snd]. revert sed HL. 
  assert (E1 : forall sed, length sed = length nus -> map2 h (map2 g sed (map f nus)) (map f nus) = map (fun x => h (g (snd x) (f (fst x))) (f (fst x))) (combine nus sed)).
  { induction nus as [|n nus IH]; intros [|F sed] HL; try discriminate; auto. cbn [map map2 combine fst snd]. rewrite IH by (cbn in HL; congruence). reflexivity. }
  assert (E2 : forall sed, length sed = length nus -> map f nus = map (fun x : R * R => f (fst x)) (combine nus sed)).
  { clear E1. induction nus as [|n nus IH]; intros [|F sed] HL; try discriminate; auto. cbn [map combine fst]. rewrite <- IH by (cbn in HL; congruence). reflexivity. }
  intros sed HL. rewrite E1 by auto. rewrite (E2 sed) at 1 by auto. reflexivity.
Qed.
Theorem C76_blob : forall P a b nu sed, phys_ok P -> absorber_ok a -> ab_target a = TBlob b ->
  let peak g := c_e P * B_to_cgs (B_field b) / (2 * PI * c_me P * c_c P) * g ^ 2 in
  let nus := np_logspace (log10 (peak (gamma_min (n_e b)) * (1 / 10 ^ 2))) (log10 (peak (gamma_max (n_e b)) * 10 ^ 2)) 200 in
  synch_sed_flux P {| sy_blob := b; sy_ssa := true; sy_integ := trapz |} (map (fun n => n * delta_D b / (1 + redshift b)) nus) = Ok sed -> length sed = length nus ->
  let mc2 := c_me P * c_c P ^ 2 in
  tau P a nu = Ok (Some (map (fun n => let e1 := c_h P * n * (1 + redshift b) / (delta_D b * mc2) in
    2 * R_b b * trapezia (map (fun nF => let eps := c_h P * fst nF / mc2 in
      let luminosity := 4 * PI * d_L b ^ 2 * snd nF / (delta_D b ^ 4 * eps) in
      (eps, sphere_density P (R_b b) luminosity / (eps * mc2) * sigma P (eps * e1 / 2))) (combine nus sed))) nu)).
Proof.
  intros P a b nu sed HP (_ & Hok) Ht peak nus Hsed HL mc2. rewrite Ht in Hok. destruct Hok as (Hz & Hdl & Hdd & HB & HR & _ & _). pose proof HP as []. pose proof PI_RGT_0. assert (0 < c_c P ^ 2) by pos. assert (Hm : 0 < mc2) by (unfold mc2; pos).
  unfold tau. rewrite Ht. unfold tau_on_synchrotron. cbv zeta. unfold nu_synch_peak. fold (peak (gamma_min (n_e b))) (peak (gamma_max (n_e b))). fold nus. rewrite Hsed. cbn [bind]. do 2 f_equal. apply map_ext. intros n. f_equal. rewrite map_map.
  assert (En : map (fun x => nu_to_epsilon_prime P (x * delta_D b / (1 + redshift b)) (redshift b) (delta_D b) Electron) nus = map (fun x => c_h P * x / mc2) nus).
  { apply map_ext. intros x. unfold nu_to_epsilon_prime, nu_to_eps, rest_energy, mass_of, mc2. field. repeat split; lra. }
  rewrite En. rewrite (trapz_combine (fun x => c_h P * x / mc2) (fun f e => 3 * d_L b ^ 2 * f / (c_c P * R_b b ^ 2 * delta_D b ^ 4 * e ^ 2 * c_me P * c_c P ^ 2) * (3 / 4)) nus sed (fun v e => v * sigma P (e * nu_to_epsilon_prime P n (redshift b) (delta_D b) Electron / 2)) HL).
  f_equal. apply map_ext_in. intros [x F] HxF. cbn [fst snd]. f_equal. assert (Hx : 0 < x). { apply in_combine_l in HxF. eapply logspace_pos. exact HxF. }
  replace (nu_to_epsilon_prime P n (redshift b) (delta_D b) Electron) with (c_h P * n * (1 + redshift b) / (delta_D b * mc2)) by (unfold nu_to_epsilon_prime, nu_to_eps, rest_energy, mass_of, mc2; field; repeat split; lra).
  f_equal. unfold sphere_density, mc2. field. repeat split; lra.
Qed.
Print Assumptions C76_blob.

(** ** concrete cases *)
Definition ex_disk_absorber : absorber :=
  {| ab_target := TDisk {| sd_M_BH := 1e8 * M_sun; sd_L_disk := 1e46; sd_eta := 1 / 12; sd_R_in := 1e14; sd_R_out := 1e16; sd_R_in_tilde := 6; sd_R_out_tilde := 600; sd_L_Edd := 1.26e46; sd_l_Edd := 1 / 1.26; sd_m_dot := 1; sd_R_g := 1.5e13 |};
     ab_r := Some 1e17; ab_z := 1; ab_mu_s := 1; ab_mu_size := 100; ab_phi_size := 50; ab_l_size := 50 |}.
Example C76_disk_case : absorber_ok ex_disk_absorber /\ exists n v, 0 < n /\ tau codata ex_disk_absorber [n] = Ok (Some [v]) /\ 0 < v.
Proof.
  assert (O : absorber_ok ex_disk_absorber). { unfold absorber_ok, ex_disk_absorber. cbn [ab_mu_s ab_target ab_r sd_M_BH sd_L_disk sd_eta sd_R_in sd_R_out]. unfold M_sun. repeat (split; [lra|]). eexists. split; [reflexivity|lra]. }
  split; auto. eapply C76_disk_absorbs; eauto using codata_ok; try reflexivity; unfold ex_disk_absorber; cbn [ab_z ab_phi_size ab_l_size]; try lra; lia.
Qed.
Example C76_off_axis_case : let a := {| ab_target := TPointSource {| ps_L_0 := 1e45; ps_epsilon_0 := 1e-5 |}; ab_r := Some 1e17; ab_z := 1; ab_mu_s := 1 / 2; ab_mu_size := 100; ab_phi_size := 50; ab_l_size := 50 |} in
  absorber_ok a /\ ab_mu_s a <> 1 /\ forall nu, exists t, tau codata a nu = Ok (Some t).
Proof.
  intros a. assert (O : absorber_ok a). { unfold absorber_ok, a. cbn [ab_mu_s ab_target ab_r ps_L_0 ps_epsilon_0]. repeat (split; [lra|]). eexists. split; [reflexivity|lra]. }
  split; auto. split; [unfold a; cbn [ab_mu_s]; lra|]. intros nu. destruct (C56_supported codata a nu codata_ok O) as (t & E & _); [exact Logic.I|unfold avoids, a; cbn [ab_target ab_mu_s]; lra|eauto].
Qed.
