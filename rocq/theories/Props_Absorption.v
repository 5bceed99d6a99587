(** C54 to C56, C71: gamma-gamma absorption on the targets *)
From Verif Require Import Base TEUtils ListFacts NumpyInst MathUtils Conversion Spectra Blob Synchrotron Geometry Targets Absorption Spec_Math Spec_Spectra Spec_Blob Spec_Rad Spec_Geom MathFacts SpectraFacts SpectraFacts2 BlobFacts Calculus SynchFacts SynchFacts2 Props_Synch ComptonFacts Props_Geometry TargetFacts Props_Targets Props_EC AbsorptionFacts.
From Coquelicot Require Import Coquelicot.
From Coq Require Import Sorting.Permutation String List.
Import ListNotations.
Open Scope list_scope.
Open Scope R_scope.

(** ** C54 *)
Theorem C54_cross_section : forall P, phys_ok P ->
  (forall s, s < 1 -> sigma P s = 0) /\ sigma P 1 = 0 /\ (forall s, 1 < s -> 0 < sigma P s) /\ (forall s, 0 <= sigma P s).
Proof.
  intros P HP. split; [intros s; apply sigma_below|]. split; [|split; [intros s; apply sigma_pos; auto|intros s; apply sigma_nonneg; auto]].
  unfold sigma. destruct (Rltb_spec 1 1) as [K|_]; [lra|]. cbv zeta. replace (1 - 1 / 1) with 0 by field. rewrite sqrt_0. replace ((1 + 0) / (1 - 0)) with 1 by field.
  rewrite clog_ln, ln_1. ring. pose proof ftiny_lt_1. pose proof fmax_gt_1. split; lra.
Qed.
Print Assumptions C54_cross_section.
(** the value is the formula of the literature, with the centre-of-momentum speed beta = sqrt (1 - 1/s), while (1 + beta)/(1 - beta) is representable *)
Theorem C54_formula : forall P beta, phys_ok P -> 0 <= beta < 1 -> (1 + beta) / (1 - beta) <= fmax ->
  sigma P (/ (1 - beta ^ 2)) = 3 / 16 * c_sigmaT P * (1 - beta ^ 2) * ((3 - beta ^ 4) * ln ((1 + beta) / (1 - beta)) - 2 * beta * (2 - beta ^ 2)).
Proof.
  intros P b HP Hb Hf. assert (H2 : 0 < 1 - b ^ 2 <= 1) by nra. assert (H1 : 1 <= / (1 - b ^ 2)) by (rewrite <- Rinv_1 at 1; apply Rinv_le_contravar; lra).
  unfold sigma. destruct (Rltb_spec (/ (1 - b ^ 2)) 1) as [K|_]; [lra|]. cbv zeta. replace (1 - 1 / / (1 - b ^ 2)) with (b ^ 2) by (field; lra). rewrite sqrt_pow2 by lra. rewrite clog_ln. ring.
  split; auto. pose proof ftiny_lt_1. apply Rle_trans with 1; [lra|]. apply Rmult_le_reg_r with (1 - b); [lra|]. unfold Rdiv. rewrite Rmult_assoc, Rinv_l by lra. lra.
Qed.
Print Assumptions C54_formula.
Example C54_case : forall P, phys_ok P -> 0 < sigma P 2 /\ sigma P (1 / 2) = 0.
Proof. intros P HP. destruct (C54_cross_section P HP) as (A & _ & B & _). split; [apply B; lra|apply A; lra]. Qed.

(** ** C55 *)
(** physically meaningful absorbers *)
Definition absorber_ok (a : absorber) : Prop :=
  -1 <= ab_mu_s a <= 1 /\
  match ab_target a with
  | TBlob b => 0 < 1 + redshift b /\ 0 < d_L b /\ 0 < delta_D b /\ 0 < B_field b /\ 0 < R_b b /\ proper_dist (n_e b) /\ (forall x y, n_e b <> EmptyDist x y)
  | TPointSource t => 0 <= ps_L_0 t /\ 0 < ps_epsilon_0 t /\ exists r, ab_r a = Some r /\ 0 < r
  | TDisk t => 0 < sd_L_disk t /\ 0 < sd_M_BH t /\ 0 < sd_eta t /\ 0 < sd_R_in t /\ sd_R_in t < sd_R_out t /\ exists r, ab_r a = Some r /\ 0 < r
  | TBLR t => 0 <= blr_L_disk t /\ 0 <= blr_xi t /\ 0 < blr_epsilon t /\ 1 <= blr_R_line t /\ (Z.of_nat (ab_l_size a) <= 10001)%Z /\ exists r, ab_r a = Some r /\ 0 < r
  | TDustTorus t => 0 <= dt_L_disk t /\ 0 <= dt_xi t /\ 0 < dt_epsilon t /\ exists r, ab_r a = Some r /\ 0 < r
  | TCMB _ | TOther => exists r, ab_r a = Some r
  end.

Lemma one_minus_cos ms m p : -1 <= ms <= 1 -> -1 <= m <= 1 -> 0 <= 1 - cos_psi ms m p.
Proof. intros H1 H2. pose proof (C49_range ms m p H1 H2). lra. Qed.
Lemma integrand_nonneg P c x s : phys_ok P -> 0 <= 1 - c -> 0 < x -> 0 <= (1 - c) / x ^ 2 * sigma P s.
Proof. intros HP Hc Hx. pose proof (sigma_nonneg P s HP). assert (0 < x ^ 2) by pos. pos. Qed.
Lemma existsb_false {A} (f : A -> bool) l x : existsb f l = false -> In x l -> f x = false.
Proof. intros H Hx. destruct (f x) eqn:E; auto. assert (existsb f l = true) by (apply existsb_exists; eauto). congruence. Qed.
Lemma sqrt_nz e : Reqb (sqrt e) 0 = false -> 0 < sqrt e.
Proof. intros H. destruct (Reqb_spec (sqrt e) 0) as [K|K]; [discriminate|]. pose proof (sqrt_pos e). lra. Qed.
Lemma ratio_range a x : 0 < x -> a ^ 2 <= x ^ 2 -> -1 <= a / x <= 1.
Proof.
  intros Hx H. assert (- x <= a <= x) by (split; apply Rnot_lt_le; intros K; nra).
  split; apply Rmult_le_reg_r with x; auto; unfold Rdiv; rewrite Rmult_assoc, Rinv_l by lra; lra.
Qed.
Lemma npow_half_range y : 1 <= y -> -1 <= npow y (- (1) / 2) <= 1.
Proof.
  intros H. pose proof (npow_pos y (- (1) / 2)). split; [lra|]. unfold npow. replace 1 with (Rpower y 0) at 2 by (apply Rpower_O; lra). apply Rle_Rpower; lra.
Qed.
Lemma synch_ssa_nonneg P b nu : phys_ok P -> 0 < 1 + redshift b -> 0 < d_L b -> 0 < delta_D b -> 0 < B_field b -> 0 < R_b b -> proper_dist (n_e b) -> (forall x y, n_e b <> EmptyDist x y) ->
  (forall n, In n nu -> 0 < n) -> exists sed, synch_sed_flux P {| sy_blob := b; sy_ssa := true; sy_integ := trapz |} nu = Ok sed /\ length sed = length nu /\ all_nonneg sed.
Proof.
  intros HP Hz Hdl Hdd HB HR (H0 & H1 & Hd) He Hn. unfold synch_sed_flux. cbn [sy_blob sy_ssa sy_integ]. rewrite sed_ssa by (auto; lra). cbn [bind snd]. eexists. split; [reflexivity|]. split; [apply map_length|].
  intros x Hx. apply in_map_iff in Hx. destruct Hx as (n & <- & Hin). assert (Hg : forall g, In g (gamma_e b) -> gamma_min (n_e b) <= g <= gamma_max (n_e b)) by (intros g; apply gamma_e_in; lra).
  rewrite corrected_id by auto. apply Rmult_le_pos; [|left; apply attenuation_range]. apply flux_pt_nonneg; auto. { left; auto. } { apply gamma_e_incr; auto. } intros v Hv. specialize (Hg v Hv). lra.
Qed.

Lemma oks_inj (x y : list R) : Ok (Some x) = Ok (Some y) -> x = y.
Proof. intros H. injection H; auto. Qed.
Lemma in_map2 {A B C} (f : A -> B -> C) l m z : In z (map2 f l m) -> exists a b, In a l /\ In b m /\ z = f a b.
Proof. revert m. induction l as [|a l IH]; intros [|b m] H; try (destruct H; fail). destruct H as [<-|H]. { exists a, b. simpl; auto. } destruct (IH m H) as (a' & b' & H1 & H2 & H3). exists a', b'. simpl; auto. Qed.
Ltac done_tau x n := intros x Hx; apply in_map_iff in Hx; destruct Hx as (n & <- & Hn); apply Rmult_le_pos.
Theorem C55_nonneg : forall P a nu t, phys_ok P -> absorber_ok a -> tau P a nu = Ok (Some t) -> length t = length nu /\ all_nonneg t.
Proof.
  intros P [tg r z ms msz psz lsz] nu t HP [Hms Hok] Ht. unfold tau, ab_the_r, ab_mu, ab_phi in Ht. cbn [ab_target ab_r ab_z ab_mu_s ab_mu_size ab_phi_size ab_l_size] in *. pose proof HP as []. pose proof PI_RGT_0 as Hpi.
  destruct tg as [tg|tg|tg|tg|tg|b|].
  - destruct (Reqb ms 1); discriminate.
  - destruct Hok as (HL & He & h & -> & Hh). cbn [bind] in Ht. destruct (Reqb_spec ms 1) as [E1|E1].
    + apply oks_inj in Ht; subst t. unfold tau_ps_behind_blob. split; [apply map_length|]. done_tau x n; [pos|]. pose proof (sigma_nonneg P (ps_epsilon_0 tg * eps_1 P n z * (1 - ms) / 2) HP). assert (0 <= 1 - ms) by lra. pos.
    + unfold tau_ps_behind_blob_mu_s in Ht. cbv zeta in Ht. match type of Ht with context [existsb ?f ?l] => destruct (existsb f l) eqn:EX end; [discriminate|]. cbn [bind] in Ht. apply oks_inj in Ht; subst t. split; [apply map_length|].
      done_tau x n; [pos|]. apply trapz_map_nonneg; [apply path_incr; lra|]. intros u Hu. pose proof (existsb_false _ _ u EX Hu) as NZ. cbv beta in NZ. apply sqrt_nz in NZ.
      assert (D : h * h + u * u + 2 * u * h * ms = (h + u * ms) ^ 2 + u ^ 2 * (1 - ms ^ 2)) by ring. assert (0 <= u ^ 2 * (1 - ms ^ 2)) by (apply Rmult_le_pos; [apply pow2_ge_0|nra]). pose proof (pow2_ge_0 (h + u * ms)).
      apply integrand_nonneg; auto. apply one_minus_cos; auto. apply ratio_range; auto. rewrite pow2_sqrt; lra.
  - destruct Hok as (HL & HM & He & Hi & Hio & h & -> & Hh). cbn [bind] in Ht. destruct (Reqb_spec ms 1) as [E1|E1]; [|discriminate].
    apply oks_inj in Ht; subst t. unfold tau_ss_disk. cbv zeta. split; [apply map_length|].
    assert (Hg : 0 < R_g P (sd_M_BH tg)) by (unfold R_g; pos). assert (T : forall a, to_R_g_units P a (sd_M_BH tg) = a / R_g P (sd_M_BH tg)) by reflexivity. rewrite !T.
    assert (Hrt : 0 < h / R_g P (sd_M_BH tg)) by pos. assert (Hit : 0 < sd_R_in tg / R_g P (sd_M_BH tg)) by pos. assert (Hiot : sd_R_in tg / R_g P (sd_M_BH tg) < sd_R_out tg / R_g P (sd_M_BH tg)) by (unfold Rdiv; apply Rmult_lt_compat_r; auto; pos).
    done_tau x n; [pos|]. apply trapz_map_nonneg; [apply path_incr; lra|]. intros l Hl. apply path_pos in Hl; auto. apply trapz_map_nonneg; [apply phi_incr|]. intros p _. apply trapz_map_nonneg; [apply linspace_incr; auto|]. intros R_ HR. apply linspace_in in HR; [|lra].
    assert (0 < R_ ^ 2) by (apply pow_lt; lra). assert (0 < l ^ 2) by (apply pow_lt; lra). assert (HQ : 0 < R_ ^ 2 / l ^ 2) by pos.
    assert (Hep : 0 < evaluate_epsilon (sd_L_disk tg) (sd_M_BH tg) (sd_eta tg) R_) by (assert (0 < R_) by lra; unfold evaluate_epsilon; cbv zeta; pos).
    pose proof (phi_range _ _ Hit (proj1 HR)) as Hph. pose proof (npow_pos (1 + R_ ^ 2 / l ^ 2) (3 / 2)).
    assert (Hc : 0 <= 1 - cos_psi ms (npow (1 + R_ ^ 2 / l ^ 2) (- (1) / 2)) p) by (apply one_minus_cos; auto; apply npow_half_range; lra).
    match goal with |- context [sigma P ?s] => pose proof (sigma_nonneg P s HP) end. pos.
  - destruct Hok as (HL & Hx & He & HR & Hl & h & -> & Hh). cbn [bind] in Ht. destruct (Reqb_spec ms 1) as [E1|E1].
    + unfold tau_blr in Ht. cbv zeta in Ht. match type of Ht with context [existsb ?f ?l] => destruct (existsb f l) eqn:EX end; [discriminate|]. cbn [bind] in Ht. apply oks_inj in Ht; subst t. split; [apply map_length|].
      intros x Hxx. apply in_map_iff in Hxx. destruct Hxx as (n & <- & Hn). apply Rmult_le_pos. { pos. }
      apply trapz_map_nonneg; [apply blr_path_incr; auto|]. intros l Hl'. apply trapz_map_nonneg; [apply phi_incr|]. intros p _. apply trapz_map_nonneg; [apply linspace_incr; lra|]. intros m Hm.
      pose proof (existsb_false _ _ m EX Hm) as NZ. cbv beta in NZ. pose proof (existsb_false _ _ l NZ Hl') as NZ'. cbv beta in NZ'. unfold x_re_shell in NZ'. apply sqrt_nz in NZ'. fold (x_re_shell m (blr_R_line tg) l) in NZ'. apply linspace_in in Hm; [|lra].
      apply integrand_nonneg; auto. apply one_minus_cos; auto. apply C50_mu_star; auto. lra.
    + unfold tau_blr_mu_s in Ht. cbv zeta in Ht. match type of Ht with context [existsb ?f ?l] => destruct (existsb f l) eqn:EX end; [discriminate|]. cbn [bind] in Ht. apply oks_inj in Ht; subst t. split; [apply map_length|].
      intros x Hxx. apply in_map_iff in Hxx. destruct Hxx as (n & <- & Hn). apply Rmult_le_pos. { pos. }
      apply trapz_nonneg_nd; [apply path_nondecr; auto|]. intros u Hu. apply trapz_map_nonneg; [apply phi_incr|]. intros p Hp. apply trapz_map_nonneg; [apply linspace_incr; lra|]. intros m Hm.
      pose proof (existsb_false _ _ m EX Hm) as N1. cbv beta in N1. pose proof (existsb_false _ _ p N1 Hp) as N2. cbv beta in N2. pose proof (existsb_false _ _ u N2 Hu) as N3. cbv beta in N3. unfold x_re_shell_mu_s in N3. cbv zeta in N3. apply sqrt_nz in N3.
      change (0 < x_re_shell_mu_s (blr_R_line tg) h p m u ms) in N3. apply linspace_in in Hm; [|lra]. apply integrand_nonneg; auto. apply one_minus_cos; auto. apply (C50_shell_direction (blr_R_line tg) h p m u ms Hms Hm N3).
  - destruct Hok as (HL & Hx & He & h & -> & Hh). cbn [bind] in Ht. destruct (Reqb_spec ms 1) as [E1|E1].
    + apply oks_inj in Ht; subst t. unfold tau_dt. cbv zeta. split; [apply map_length|]. intros x Hxx. apply in_map_iff in Hxx. destruct Hxx as (n & <- & Hn). apply Rmult_le_pos. { pos. }
      apply trapz_map_nonneg; [apply path_incr; lra|]. intros l Hl. apply path_pos in Hl; auto. apply trapz_map_nonneg; [apply phi_incr|]. intros p _.
      assert (0 < l ^ 2) by pos. pose proof (pow2_ge_0 (dt_R tg)). assert (Hxr : 0 < x_re_ring (dt_R tg) l) by (unfold x_re_ring; apply sqrt_lt_R0; lra).
      apply integrand_nonneg; auto. apply one_minus_cos; auto. apply ratio_range; auto. unfold x_re_ring. rewrite pow2_sqrt; lra.
    + unfold tau_dt_mu_s in Ht. cbv zeta in Ht. match type of Ht with context [existsb ?f ?l] => destruct (existsb f l) eqn:EX end; [discriminate|]. cbn [bind] in Ht. apply oks_inj in Ht; subst t. split; [apply map_length|].
      intros x Hxx. apply in_map_iff in Hxx. destruct Hxx as (n & <- & Hn). apply Rmult_le_pos. { pos. }
      apply trapz_map_nonneg; [apply path_incr; lra|]. intros u Hu. apply trapz_map_nonneg; [apply phi_incr|]. intros p Hp.
      pose proof (existsb_false _ _ p EX Hp) as N2. cbv beta in N2. pose proof (existsb_false _ _ u N2 Hu) as N3. cbv beta in N3. unfold x_re_ring_mu_s in N3. cbv zeta in N3. apply sqrt_nz in N3.
      change (0 < x_re_ring_mu_s (dt_R tg) h p u ms) in N3. apply integrand_nonneg; auto. apply one_minus_cos; auto. apply (C50_ring_direction (dt_R tg) h p u ms Hms N3).
  - destruct Hok as (Hz & Hdl & Hdd & HB & HR & Hpd & Hne). unfold tau_on_synchrotron in Ht. cbv zeta in Ht.
    assert (Hpk : forall g, 0 < g -> 0 < nu_synch_peak P (B_field b) g (c_me P)) by (intros g Hg; unfold nu_synch_peak, B_to_cgs; pos).
    pose proof Hpd as (Hg0 & Hg1 & Hd). set (grid := map (fun n => n * delta_D b / (1 + redshift b)) (np_logspace _ _ 200)) in *.
    assert (Hgp : forall n, In n grid -> 0 < n). { intros n Hn. apply in_map_iff in Hn. destruct Hn as (y & <- & Hy). apply logspace_pos in Hy. pos. }
    destruct (synch_ssa_nonneg P b grid HP Hz Hdl Hdd HB HR Hpd Hne Hgp) as (sed & Es & Ls & Ns). rewrite Es in Ht. cbn [bind] in Ht. apply oks_inj in Ht; subst t. split; [apply map_length|].
    intros x Hx. apply in_map_iff in Hx. destruct Hx as (n & <- & Hn). apply Rmult_le_pos; [pos|].
    assert (Hmn : forall g1 g2, 0 < g1 -> g1 < g2 -> nu_synch_peak P (B_field b) g1 (c_me P) < nu_synch_peak P (B_field b) g2 (c_me P)).
    { intros g1 g2 A B. unfold nu_synch_peak, B_to_cgs. apply Rmult_lt_compat_l; [pos|]. nra. }
    apply trapz_nonneg.
    + apply incr_map. { intros x y Hxy. unfold nu_to_epsilon_prime, nu_to_eps, rest_energy, mass_of. unfold Rdiv. assert (0 < / (c_me P * c_c P ^ 2)) by (assert (0 < c_c P ^ 2) by pos; pos). assert (0 < / delta_D b) by pos.
        apply Rmult_lt_compat_r; auto. apply Rmult_lt_compat_l; auto. apply Rmult_lt_compat_r; auto. apply Rmult_lt_compat_l; auto. }
      unfold grid. apply incr_map. { intros x y Hxy. unfold Rdiv. apply Rmult_lt_compat_r; [pos|]. apply Rmult_lt_compat_r; auto. } apply logspace_incr. pose proof (Hpk (gamma_min (n_e b)) Hg0). pose proof (Hmn _ _ Hg0 Hg1). apply log10_lt; [pos|]. lra.
    + apply List.Forall_forall. intros v Hv. apply in_map2 in Hv. destruct Hv as (w & e & Hw & He & ->). apply in_map2 in Hw. destruct Hw as (f & e' & Hf & He' & ->). specialize (Ns f Hf).
      apply in_map_iff in He'. destruct He' as (y & <- & Hy). pose proof (eps_pos P y (redshift b) (delta_D b) Electron HP (Hgp y Hy) Hz Hdd) as Hey. match goal with |- context [sigma P ?s] => pose proof (sigma_nonneg P s HP) end. 
      set (ey := nu_to_epsilon_prime P y (redshift b) (delta_D b) Electron) in *. assert (0 < ey ^ 2) by pos. assert (0 < d_L b ^ 2) by pos. assert (0 < R_b b ^ 2) by pos. assert (0 < delta_D b ^ 4) by pos. assert (0 < c_c P ^ 2) by pos. pos.
  - destruct (Reqb ms 1); discriminate.
Qed.
Print Assumptions C55_nonneg.

(** the attenuation factors *)
Theorem C55_absorption : forall P a nu l, phys_ok P -> absorber_ok a -> absorption P a nu = Ok l ->
  length l = length nu /\ (forall x, In x l -> 0 < x <= 1) /\ exists t, tau P a nu = Ok (Some t) /\ l = map (fun x => / exp x) t.
Proof.
  intros P a nu l HP Hok H. unfold absorption in H. destruct (tau P a nu) as [[t|]|] eqn:E; try discriminate. cbn [bind] in H. injection H as <-. destruct (C55_nonneg P a nu t HP Hok E) as [L N].
  split; [rewrite map_length; auto|]. split.
  - intros x Hx. apply in_map_iff in Hx. destruct Hx as (y & <- & Hy). specialize (N y Hy). split; [apply exp_pos|]. rewrite <- exp_0. destruct (Rle_lt_or_eq_dec 0 y N) as [K|<-]. { left. apply exp_increasing. lra. } right. f_equal. ring.
  - exists t. split; auto. apply map_ext. intros x. apply exp_Ropp.
Qed.
Print Assumptions C55_absorption.
(** exactly behind the blob a point source absorbs nothing, and the averaged attenuation is 0/0 at every frequency *)
Theorem C55_point_source_behind : forall P t r z nu msz psz lsz, let a := {| ab_target := TPointSource t; ab_r := Some r; ab_z := z; ab_mu_s := 1; ab_mu_size := msz; ab_phi_size := psz; ab_l_size := lsz |} in
  tau P a nu = Ok (Some (map (fun _ => 0) nu)) /\ absorption P a nu = Ok (map (fun _ => 1) nu) /\ absorption_homogeneous P a nu = Ok (map (fun _ => None) nu).
Proof.
  intros P t r z nu msz psz lsz a. assert (E : tau P a nu = Ok (Some (map (fun _ => 0) nu))).
  { unfold a, tau, ab_the_r. cbn [ab_target ab_mu_s ab_r ab_z]. destruct (Reqb_spec 1 1) as [_|K]; [|lra]. cbn [bind]. do 2 f_equal. unfold tau_ps_behind_blob. apply map_ext. intros n. cbv zeta. unfold Rdiv. ring. }
  split; auto. unfold absorption, absorption_homogeneous. rewrite E. cbn [bind]. rewrite !map_map. split; f_equal; apply map_ext; intros n.
  - replace (- 0) with 0 by ring. apply exp_0.
  - destruct (Reqb_spec 0 0); auto. lra.
Qed.
Print Assumptions C55_point_source_behind.
Lemma averaged_range t : 0 < t -> exp (- t) < (1 - exp (- t)) / t < 1.
Proof.
  intros H. pose proof (exp_gt (- t) ltac:(lra)). pose proof (exp_gt t ltac:(lra)) as G. pose proof (exp_pos (- t)). assert (E : exp t * exp (- t) = 1) by (rewrite <- exp_plus; replace (t + - t) with 0 by ring; apply exp_0).
  split; apply Rmult_lt_reg_r with t; auto; unfold Rdiv; rewrite ?Rmult_assoc, Rinv_l by lra; nra.
Qed.
(** averaged over the depth: strictly between exp(-tau) and 1, undefined exactly where tau = 0 *)
Theorem C55_homogeneous : forall P a nu l, phys_ok P -> absorber_ok a -> absorption_homogeneous P a nu = Ok l ->
  exists t, tau P a nu = Ok (Some t) /\ Forall2 (fun v x => (x = 0 -> v = None) /\ (x <> 0 -> exists y, v = Some y /\ / exp x < y < 1)) l t.
Proof.
  intros P a nu l HP Hok H. unfold absorption_homogeneous in H. destruct (tau P a nu) as [[t|]|] eqn:E; try discriminate. cbn [bind] in H. injection H as <-. destruct (C55_nonneg P a nu t HP Hok E) as [_ N]. exists t. split; auto. clear E.
  induction t as [|x t IH]; simpl; constructor; [|apply IH; intros v Hv; apply N; right; auto]. specialize (N x (or_introl eq_refl)). destruct (Reqb_spec x 0) as [K|K]; split; intros Q; auto; try contradiction.
  exists ((1 - exp (- x)) / x). split; auto. rewrite <- exp_Ropp. apply averaged_range. lra.
Qed.
Print Assumptions C55_homogeneous.

(** ** C56 *)
(** the combinations with an implementation *)
Definition implemented (a : absorber) : Prop :=
  match ab_target a with TCMB _ | TOther => False | TDisk _ => ab_mu_s a = 1 | _ => True end.
(** A point of the path through the broad line region where the distance x to the black hole is within
    1e-8 cm + 1e-4 R of the radius R of the shell is moved on by 1e-4 R *)
Definition nudged (R_shell x u : R) : R := if Rle_dec (Rabs (x - R_shell)) (1 / 10 ^ 8 + R_shell / 10 ^ 4) then u + R_shell / 10 ^ 4 else u.
Lemma moved_nudged Rs x u : 0 <= Rs -> moved (isclose_line x Rs) Rs u = nudged Rs x u.
Proof.
  intros H. unfold moved, isclose_line, nudged, min_rel_distance. rewrite (Rabs_right Rs) by lra.
  destruct (Rleb_spec (Rabs (x - Rs)) (1 / 10 ^ 8 + 1 / 10 ^ 4 * Rs)); destruct (Rle_dec (Rabs (x - Rs)) (1 / 10 ^ 8 + Rs / 10 ^ 4)); lra.
Qed.
Lemma blr_path_nudged Rs r n : 1 <= Rs -> blr_path Rs r n = map (fun l => nudged Rs l l) (map (fun x => x * r) (np_logspace 0 5 n)).
Proof. intros H. unfold blr_path. apply map_ext. intros l. apply moved_nudged. lra. Qed.
Lemma insert_permutation x l : Permutation (insert_sorted x l) (x :: l).
Proof.
  induction l as [|y l IH]; [apply Permutation_refl|]. cbn [insert_sorted]. destruct (Rleb x y); [apply Permutation_refl|].
  eapply Permutation_trans; [apply perm_skip, IH|]. apply perm_swap.
Qed.
Lemma sort_permutation l : Permutation (np_sort l) l.
Proof. induction l as [|x l IH]; [apply Permutation_refl|]. cbn [np_sort fold_right]. eapply Permutation_trans; [apply insert_permutation|]. apply perm_skip, IH. Qed.
Lemma sight_line_distance r u ms : -1 <= ms <= 1 -> dist (on_sight_line r u ms) (spherical 0 0 0) = sqrt (r ^ 2 + u ^ 2 + 2 * u * r * ms).
Proof.
  intros H. unfold dist, dot, Spec_Geom.minus, on_sight_line, spherical. cbn [px py pz]. f_equal. assert (A : 0 <= 1 - ms ^ 2) by nra. pose proof (sqrt_sqrt _ A) as S.
  transitivity (u * u * (sqrt (1 - ms ^ 2) * sqrt (1 - ms ^ 2)) + (r + u * ms) ^ 2); [ring|]. rewrite S. ring.
Qed.
Lemma blr_path_permutation Rs r ms n : 1 <= Rs -> -1 <= ms <= 1 ->
  Permutation (blr_path_mu_s Rs r ms n) (map (fun u => nudged Rs (dist (on_sight_line r u ms) (spherical 0 0 0)) u) (map (fun x => x * r) (np_logspace (- (5)) 5 n))).
Proof.
  intros HR Hms. unfold blr_path_mu_s. cbv zeta. set (uu := map _ _).
  rewrite (map_ext (fun u => nudged Rs (dist (on_sight_line r u ms) (spherical 0 0 0)) u) (fun u => moved (isclose_line (sqrt (r ^ 2 + u ^ 2 + 2 * u * r * ms)) Rs) Rs u)) by (intros u; rewrite moved_nudged by lra; rewrite sight_line_distance by auto; reflexivity).
  destruct (existsb _ uu) eqn:Ex. { apply sort_permutation. }
  rewrite (map_ext_in _ (fun u => u)). { rewrite map_id. apply Permutation_refl. }
  intros u Hu. pose proof (existsb_false _ _ _ Ex Hu) as K. cbv beta in K. rewrite K. reflexivity.
Qed.
(** no grid point of the photon path lies on the emitting element (point source, shell, ring): there the integrand is nan *)
Definition avoids (a : absorber) : Prop :=
  match ab_target a, ab_r a with
  | TPointSource _, _ => -1 < ab_mu_s a
  | TBLR t, Some r =>
      (ab_mu_s a = 1 -> forall l, In l (map (fun x => x * r) (np_logspace 0 5 (ab_l_size a))) -> nudged (blr_R_line t) l l <> blr_R_line t) /\
      (ab_mu_s a <> 1 -> forall u, In u (map (fun x => x * r) (np_logspace (- (5)) 5 (2 * ab_l_size a))) ->
        dist (on_sight_line r (nudged (blr_R_line t) (dist (on_sight_line r u (ab_mu_s a)) (spherical 0 0 0)) u) (ab_mu_s a)) (spherical 0 0 0) <> blr_R_line t)
  | TDustTorus _, Some r => ab_mu_s a <> 1 -> forall u, 0 < u -> In u (map (fun x => x * r) (np_logspace (- (5)) 5 (2 * ab_l_size a))) -> pz (on_sight_line r u (ab_mu_s a)) <> 0
  | _, _ => True
  end.
Lemma existsb_false_intro {A} (f : A -> bool) l : (forall x, In x l -> f x = false) -> existsb f l = false.
Proof. intros H. destruct (existsb f l) eqn:E; auto. apply existsb_exists in E. destruct E as (x & Hx & K). rewrite (H x Hx) in K. discriminate. Qed.
Lemma reqb_pos x : 0 < x -> Reqb x 0 = false.
Proof. intros H. destruct (Reqb_spec x 0); auto. lra. Qed.
Lemma dist_pos p q : p <> q -> 0 < dist p q.
Proof.
  intros H. unfold dist. apply sqrt_lt_R0. unfold dot, minus. cbn [px py pz]. destruct p as [x1 y1 z1], q as [x2 y2 z2]. cbn [px py pz] in *.
  pose proof (Rle_0_sqr (x1 - x2)) as A. pose proof (Rle_0_sqr (y1 - y2)) as B. pose proof (Rle_0_sqr (z1 - z2)) as C. unfold Rsqr in *.
  assert (Q : forall a, 0 <= a * a -> 0 < a * a \/ a = 0). { intros a Ha. destruct (Rle_lt_or_eq_dec _ _ Ha) as [K|K]; [left; exact K|right]. symmetry in K. apply Rmult_integral in K. tauto. }
  destruct (Q _ A) as [K|K]; [apply Rplus_lt_le_0_compat; auto; apply Rplus_lt_le_0_compat; auto|]. destruct (Q _ B) as [K'|K']; [apply Rplus_lt_le_0_compat; auto; apply Rplus_le_lt_0_compat; auto|]. destruct (Q _ C) as [K2|K2]; [apply Rplus_le_lt_0_compat; auto; apply Rplus_le_le_0_compat; auto|].
  exfalso. apply H. f_equal; lra.
Qed.
Theorem C56_supported : forall P a nu, phys_ok P -> absorber_ok a -> implemented a -> avoids a ->
  exists t, tau P a nu = Ok (Some t) /\ length t = length nu /\ all_nonneg t.
Proof.
  intros P a nu HP Hok Hi Ha. assert (X : exists t, tau P a nu = Ok (Some t)). 2:{ destruct X as (t & E). exists t. split; auto. apply C55_nonneg with P a; auto. }
  destruct a as [tg r z ms msz psz lsz]. destruct Hok as [Hms Hok]. unfold tau, ab_the_r, ab_mu, ab_phi, implemented, avoids in *. cbn [ab_target ab_r ab_z ab_mu_s ab_mu_size ab_phi_size ab_l_size] in *. destruct tg as [tg|tg|tg|tg|tg|b|]; try (exfalso; exact Hi).
  - destruct Hok as (HL & He & h & -> & Hh). cbn [bind]. destruct (Reqb_spec ms 1) as [E1|E1]; [eexists; reflexivity|]. unfold tau_ps_behind_blob_mu_s. cbv zeta.
    rewrite existsb_false_intro. { eexists; reflexivity. } intros u Hu. apply path_pos in Hu; auto. apply reqb_pos. apply sqrt_lt_R0. replace (h * h + u * u + 2 * u * h * ms) with ((h + u * ms) ^ 2 + u ^ 2 * (1 - ms ^ 2)) by ring.
    pose proof (pow2_ge_0 (h + u * ms)). assert (0 < u ^ 2 * (1 - ms ^ 2)). { apply Rmult_lt_0_compat; [pos|]. replace (1 - ms ^ 2) with ((1 - ms) * (1 + ms)) by ring. apply Rmult_lt_0_compat; lra. } lra.
  - destruct Hok as (HL & HM & He & Hin & Hio & h & -> & Hh). subst ms. cbn [bind]. destruct (Reqb_spec 1 1) as [_|K]; [|lra]. eexists; reflexivity.
  - destruct Hok as (HL & Hx & He & HR & Hl & h & -> & Hh). cbn [bind]. destruct Ha as [Ha1 Ha2]. destruct (Reqb_spec ms 1) as [E1|E1].
    + specialize (Ha1 E1). unfold tau_blr. cbv zeta. rewrite existsb_false_intro. { eexists; reflexivity. } intros m Hm. apply linspace_in in Hm; [|lra]. apply existsb_false_intro. intros l Hl'. apply reqb_pos. unfold x_re_shell. apply sqrt_lt_R0.
      assert (Hlp : 0 < l). { unfold blr_path in Hl'. apply in_map_iff in Hl'. destruct Hl' as (y & <- & Hy). apply path_pos in Hy; auto. unfold moved, min_rel_distance. destruct (isclose_line _ _); lra. }
      assert (l <> blr_R_line tg). { rewrite blr_path_nudged in Hl' by auto. apply in_map_iff in Hl'. destruct Hl' as (y & <- & Hy). apply Ha1; auto. } pose proof (shell_x2 (blr_R_line tg) l m ltac:(lra) ltac:(lra) Hm ltac:(auto)). lra.
    + specialize (Ha2 E1). unfold tau_blr_mu_s. cbv zeta. rewrite existsb_false_intro. { eexists; reflexivity. } intros m Hm. apply linspace_in in Hm; [|lra]. apply existsb_false_intro. intros p Hp. apply existsb_false_intro. intros u Hu. apply reqb_pos.
      rewrite C50_shell_mu_s_distance by auto. apply dist_pos. intros K. pose proof (Permutation_in _ (blr_path_permutation (blr_R_line tg) h ms (2 * lsz) HR Hms) Hu) as Hu'. apply in_map_iff in Hu'. destruct Hu' as (v & Ev & Hv). apply (Ha2 v Hv). rewrite Ev, K. unfold dist. match goal with |- sqrt ?a = _ => replace a with (blr_R_line tg ^ 2); [apply sqrt_pow2; lra|symmetry] end. unfold dot, Spec_Geom.minus, spherical. cbn [px py pz]. assert (A : 0 <= 1 - m ^ 2) by nra. pose proof (sqrt_sqrt _ A) as SA. pose proof (sin2_cos2 p) as T. unfold Rsqr in T. set (s := sqrt (1 - m ^ 2)) in *.
      transitivity (blr_R_line tg ^ 2 * (s * s * (sin p * sin p + cos p * cos p) + m ^ 2)); [ring|]. rewrite T, SA. ring.
  - destruct Hok as (HL & Hx & He & h & -> & Hh). cbn [bind]. destruct (Reqb_spec ms 1) as [E1|E1]; [eexists; reflexivity|]. unfold tau_dt_mu_s. cbv zeta. rewrite existsb_false_intro. { eexists; reflexivity. }
    intros p Hp. apply existsb_false_intro. intros u Hu. apply reqb_pos. rewrite C50_ring_mu_s_distance by auto. apply dist_pos. intros K. apply (Ha E1 u (path_pos _ _ _ _ _ Hh Hu) Hu). rewrite K. cbn. ring.
  - destruct Hok as (Hz & Hdl & Hdd & HB & HR & Hpd & Hne). unfold tau_on_synchrotron. cbv zeta. set (grid := map (fun n => n * delta_D b / (1 + redshift b)) (np_logspace _ _ 200)) in *.
    assert (Hgp : forall n, In n grid -> 0 < n). { intros n Hn. apply in_map_iff in Hn. destruct Hn as (y & <- & Hy). apply logspace_pos in Hy. pos. }
    destruct (synch_ssa_nonneg P b grid HP Hz Hdl Hdd HB HR Hpd Hne Hgp) as (sed & Es & Ls & Ns). rewrite Es. cbn [bind]. eexists; reflexivity.
Qed.
Print Assumptions C56_supported.
(** the other combinations give None without any error, and absorption then raises TypeError *)
Theorem C56_silent : forall P a nu, ab_r a <> None -> (tau P a nu = Ok None <-> ~ implemented a) /\
  (~ implemented a -> absorption P a nu = Err (TypeError "bad operand type for unary -: 'NoneType'") /\ absorption_homogeneous P a nu = Err (TypeError "bad operand type for unary -: 'NoneType'")).
Proof.
  intros P [tg r z ms msz psz lsz] nu Hr. cbn [ab_r] in Hr. destruct r as [h|]; [|contradiction].
  assert (A : tau P {| ab_target := tg; ab_r := Some h; ab_z := z; ab_mu_s := ms; ab_mu_size := msz; ab_phi_size := psz; ab_l_size := lsz |} nu = Ok None <-> ~ implemented {| ab_target := tg; ab_r := Some h; ab_z := z; ab_mu_s := ms; ab_mu_size := msz; ab_phi_size := psz; ab_l_size := lsz |}).
  { unfold tau, implemented, ab_the_r. cbn [ab_target ab_r ab_z ab_mu_s ab_mu_size ab_phi_size ab_l_size]. destruct tg as [tg|tg|tg|tg|tg|b|]; cbn [bind]; try (destruct (Reqb ms 1); tauto); try (destruct (Reqb_spec ms 1) as [K|K]; cbn [bind]).
    all: try (split; [intros Q|intros Q; exfalso; tauto]). all: try discriminate.
    all: try (match type of Q with context [bind ?e _] => destruct e; discriminate end). all: split; auto. }
  split; auto. intros H. apply A in H. unfold absorption, absorption_homogeneous. rewrite H. auto.
Qed.
Print Assumptions C56_silent.
(** the constructor insists on a distance, except for a blob *)
Theorem C56_init : forall t r z ms, (exists m, absorption_init t r z ms = Err (ValueError m)) <-> (r = None /\ forall b, t <> TBlob b).
Proof.
  intros t r z ms. unfold absorption_init. split.
  - intros (m & H). destruct r as [h|]; [discriminate|]. split; auto. intros b ->. discriminate.
  - intros [-> H]. destruct t; try (eexists; reflexivity). exfalso. apply (H b). reflexivity.
Qed.
Print Assumptions C56_init.
Theorem C56_stored : forall t r z ms a, absorption_init t r z ms = Ok a -> ab_target a = t /\ ab_r a = r /\ ab_z a = z /\ ab_mu_s a = ms /\ ab_mu_size a = 100%nat /\ ab_phi_size a = 50%nat /\ ab_l_size a = 50%nat.
Proof. intros t r z ms a H. unfold absorption_init in H. destruct r, t; try discriminate; injection H as <-; repeat split. Qed.
Print Assumptions C56_stored.
(** a blob on the axis at the distance (1 - 1e-4) R_line: the point moved away from the shell lands on it, and the opacity is nan at every frequency *)
Theorem C55_blr_moved_onto_shell : forall P t z nu msz psz lsz, 0 < blr_R_line t -> (2 <= lsz)%nat -> (2 <= msz)%nat ->
  tau P {| ab_target := TBLR t; ab_r := Some ((1 - min_rel_distance) * blr_R_line t); ab_z := z; ab_mu_s := 1; ab_mu_size := msz; ab_phi_size := psz; ab_l_size := lsz |} nu = Err NonFinite.
Proof.
  intros P t z nu msz psz lsz HR Hl Hm. unfold tau, ab_the_r. cbn [ab_target ab_r ab_z ab_mu_s ab_mu_size ab_phi_size ab_l_size]. destruct (Reqb_spec 1 1) as [_|K]; [|lra]. cbn [bind]. unfold tau_blr. cbv zeta.
  assert (X : existsb (fun m => existsb (fun li => Reqb (x_re_shell m (blr_R_line t) li) 0) (blr_path (blr_R_line t) ((1 - min_rel_distance) * blr_R_line t) lsz)) (ab_mu {| ab_target := TBLR t; ab_r := Some ((1 - min_rel_distance) * blr_R_line t); ab_z := z; ab_mu_s := 1; ab_mu_size := msz; ab_phi_size := psz; ab_l_size := lsz |}) = true).
  2:{ rewrite X. reflexivity. }
  apply existsb_exists. exists 1. split.
  - unfold ab_mu. cbn [ab_mu_size]. pose proof (linspace_last (-1) 1 msz ltac:(lia)) as L. apply nth_error_In in L. exact L.
  - apply existsb_exists. exists (blr_R_line t). split.
    + unfold blr_path. apply in_map_iff. exists ((1 - min_rel_distance) * blr_R_line t). split.
      * unfold moved, isclose_line. rewrite (Rabs_right (blr_R_line t)) by lra. destruct (Rleb_spec (Rabs ((1 - min_rel_distance) * blr_R_line t - blr_R_line t)) (1 / 10 ^ 8 + min_rel_distance * blr_R_line t)) as [_|K]; [ring|]. exfalso. apply K.
        unfold min_rel_distance. rewrite Rabs_left; lra.
      * apply in_map_iff. exists 1. split; [ring|]. pose proof (logspace_nth 0 5 lsz 0 ltac:(lia)) as L. apply nth_error_In in L. replace (pow10 (0 + INR 0 * ((5 - 0) / INR (lsz - 1)))) with 1 in L; auto. unfold pow10. simpl INR. replace ((0 + 0 * ((5 - 0) / INR (lsz - 1))) * ln 10) with 0 by ring. rewrite exp_0; auto.
    + unfold x_re_shell. replace (blr_R_line t ^ 2 + blr_R_line t ^ 2 - 2 * blr_R_line t * blr_R_line t * 1) with 0 by ring. rewrite sqrt_0. destruct (Reqb_spec 0 0); auto.
Qed.
Print Assumptions C55_blr_moved_onto_shell.

(** ** C71: threshold and brightness *)
(** energy of the target photons of a monochromatic target *)
Definition target_energy (t : target) : option R :=
  match t with TPointSource t => Some (ps_epsilon_0 t) | TBLR t => Some (blr_epsilon t) | TDustTorus t => Some (dt_epsilon t) | _ => None end.
Lemma trapz_zero f l : (forall x, In x l -> f x = 0) -> trapz (map f l) l = 0.
Proof.
  intros H. induction l as [|a l IH]; [reflexivity|]. destruct l as [|b l]; [reflexivity|]. cbn [map]. rewrite trapz_cons2. cbn [map] in IH. rewrite IH by (intros x Hx; apply H; right; auto). rewrite (H a), (H b) by (simpl; auto). lra.
Qed.
Lemma below_threshold P x c : 0 <= x < 1 -> -1 <= c <= 1 -> sigma P (x * (1 - c) / 2) = 0.
Proof. intros Hx Hc. apply sigma_below. assert (x * (1 - c) <= x * 2) by (apply Rmult_le_compat_l; lra). lra. Qed.
(** gamma rays with (1 + z) h nu / (m_e c^2) times the target energy (in units of m_e c^2) below 1 are not absorbed at all *)
Theorem C71_threshold : forall P a nu t e i n, phys_ok P -> absorber_ok a -> target_energy (ab_target a) = Some e -> tau P a nu = Ok (Some t) ->
  nth_error nu i = Some n -> 0 < n -> 0 < 1 + ab_z a -> (1 + ab_z a) * (c_h P * n) / (c_me P * c_c P ^ 2) * e < 1 -> nth_error t i = Some 0.
Proof.
  intros P [tg r z ms msz psz lsz] nu t e i n HP [Hms Hok] He Ht Hn Hnp Hz Hth. unfold tau, ab_the_r, ab_mu, ab_phi in Ht. cbn [ab_target ab_r ab_z ab_mu_s ab_mu_size ab_phi_size ab_l_size] in *. pose proof HP as []. pose proof PI_RGT_0 as Hpi.
  assert (E1 : eps_1 P n z * e < 1). { unfold eps_1, nu_to_epsilon_prime, nu_to_eps, rest_energy, mass_of. replace ((1 + z) * (c_h P * n / (c_me P * c_c P ^ 2)) / 1) with ((1 + z) * (c_h P * n) / (c_me P * c_c P ^ 2)) by (field; lra). auto. }
  assert (E0 : 0 < eps_1 P n z) by (apply eps_pos; auto; lra).
  assert (Z : forall A p (f : R -> R -> R) l, (forall x, In x l -> f n x = 0) -> t = map (fun n => A * trapz (map (f n) l) l) nu -> p = 0 -> nth_error t i = Some p).
  { intros A p f l Hf -> ->. rewrite nth_error_map, Hn. cbn [option_map]. rewrite trapz_zero by auto. f_equal. ring. }
  destruct tg as [tg|tg|tg|tg|tg|b|]; try discriminate; cbn [target_energy] in He; apply some_inj in He.
  - destruct Hok as (HL & Hep & h & -> & Hh). cbn [bind] in Ht. rewrite He in *. assert (Hr : 0 <= eps_1 P n z * e < 1) by (split; auto; nra). destruct (Reqb_spec ms 1) as [K|K].
    + apply oks_inj in Ht. subst t. unfold tau_ps_behind_blob. rewrite nth_error_map, Hn. cbn [option_map]. f_equal. replace (e * eps_1 P n z) with (eps_1 P n z * e) by ring. rewrite below_threshold by (auto; lra). unfold Rdiv. ring.
    + unfold tau_ps_behind_blob_mu_s in Ht. cbv zeta in Ht. match type of Ht with context [existsb ?f ?l] => destruct (existsb f l) eqn:EX end; [discriminate|]. cbn [bind] in Ht. apply oks_inj in Ht. subst t. rewrite nth_error_map, Hn. cbn [option_map]. f_equal.
      rewrite trapz_zero; [ring|]. intros u Hu. pose proof (existsb_false _ _ u EX Hu) as NZ. cbv beta in NZ. apply sqrt_nz in NZ.
      assert (D : h * h + u * u + 2 * u * h * ms = (h + u * ms) ^ 2 + u ^ 2 * (1 - ms ^ 2)) by ring. assert (0 <= u ^ 2 * (1 - ms ^ 2)) by (apply Rmult_le_pos; [apply pow2_ge_0|nra]). pose proof (pow2_ge_0 (h + u * ms)).
      rewrite below_threshold; [ring|auto|]. apply C49_range; auto. apply ratio_range; auto. rewrite pow2_sqrt; lra.
  - destruct Hok as (HL & Hx & Hep & HR & Hl & h & -> & Hh). cbn [bind] in Ht. rewrite He in *. assert (Hr : 0 <= eps_1 P n z * e < 1) by (split; auto; nra). destruct (Reqb_spec ms 1) as [K|K].
    + unfold tau_blr in Ht. cbv zeta in Ht. match type of Ht with context [existsb ?f ?l] => destruct (existsb f l) eqn:EX end; [discriminate|]. cbn [bind] in Ht. apply oks_inj in Ht. subst t. rewrite nth_error_map, Hn. cbn [option_map]. f_equal.
      rewrite trapz_zero; [ring|]. intros l Hl'. apply trapz_zero. intros p _. apply trapz_zero. intros m Hm.
      pose proof (existsb_false _ _ m EX Hm) as NZ. cbv beta in NZ. pose proof (existsb_false _ _ l NZ Hl') as NZ'. cbv beta in NZ'. unfold x_re_shell in NZ'. apply sqrt_nz in NZ'. fold (x_re_shell m (blr_R_line tg) l) in NZ'. apply linspace_in in Hm; [|lra].
      rewrite below_threshold; [ring|auto|]. apply C49_range; auto. apply C50_mu_star; auto. lra.
    + unfold tau_blr_mu_s in Ht. cbv zeta in Ht. match type of Ht with context [existsb ?f ?l] => destruct (existsb f l) eqn:EX end; [discriminate|]. cbn [bind] in Ht. apply oks_inj in Ht. subst t. rewrite nth_error_map, Hn. cbn [option_map]. f_equal.
      rewrite trapz_zero; [ring|]. intros u Hu. apply trapz_zero. intros p Hp. apply trapz_zero. intros m Hm.
      pose proof (existsb_false _ _ m EX Hm) as N1. cbv beta in N1. pose proof (existsb_false _ _ p N1 Hp) as N2. cbv beta in N2. pose proof (existsb_false _ _ u N2 Hu) as N3. cbv beta in N3. unfold x_re_shell_mu_s in N3. cbv zeta in N3. apply sqrt_nz in N3.
      change (0 < x_re_shell_mu_s (blr_R_line tg) h p m u ms) in N3. apply linspace_in in Hm; [|lra]. rewrite below_threshold; [ring|auto|]. apply C49_range; auto. apply (C50_shell_direction (blr_R_line tg) h p m u ms Hms Hm N3).
  - destruct Hok as (HL & Hx & Hep & h & -> & Hh). cbn [bind] in Ht. rewrite He in *. assert (Hr : 0 <= eps_1 P n z * e < 1) by (split; auto; nra). destruct (Reqb_spec ms 1) as [K|K].
    + apply oks_inj in Ht. subst t. unfold tau_dt. cbv zeta. rewrite nth_error_map, Hn. cbn [option_map]. f_equal. rewrite trapz_zero; [ring|]. intros l Hl. apply path_pos in Hl; auto. apply trapz_zero. intros p _.
      assert (0 < l ^ 2) by pos. pose proof (pow2_ge_0 (dt_R tg)). assert (Hxr : 0 < x_re_ring (dt_R tg) l) by (unfold x_re_ring; apply sqrt_lt_R0; lra).
      rewrite below_threshold; [ring|auto|]. apply C49_range; auto. apply ratio_range; auto. unfold x_re_ring. rewrite pow2_sqrt; lra.
    + unfold tau_dt_mu_s in Ht. cbv zeta in Ht. match type of Ht with context [existsb ?f ?l] => destruct (existsb f l) eqn:EX end; [discriminate|]. cbn [bind] in Ht. apply oks_inj in Ht. subst t. rewrite nth_error_map, Hn. cbn [option_map]. f_equal.
      rewrite trapz_zero; [ring|]. intros u Hu. apply trapz_zero. intros p Hp.
      pose proof (existsb_false _ _ p EX Hp) as N2. cbv beta in N2. pose proof (existsb_false _ _ u N2 Hu) as N3. cbv beta in N3. unfold x_re_ring_mu_s in N3. cbv zeta in N3. apply sqrt_nz in N3.
      change (0 < x_re_ring_mu_s (dt_R tg) h p u ms) in N3. rewrite below_threshold; [ring|auto|]. apply C49_range; auto. apply (C50_ring_direction (dt_R tg) h p u ms Hms N3).
Qed.
Print Assumptions C71_threshold.
Definition absorb_on (t : target) (a : absorber) : absorber :=
  {| ab_target := t; ab_r := ab_r a; ab_z := ab_z a; ab_mu_s := ab_mu_s a; ab_mu_size := ab_mu_size a; ab_phi_size := ab_phi_size a; ab_l_size := ab_l_size a |}.
(** the opacity of a monochromatic target is proportional to its luminosity *)
Theorem C71_linear : forall P a nu c, target_energy (ab_target a) <> None -> tau P (absorb_on (brighter c (ab_target a)) a) nu = scaled_sed c (tau P a nu).
Proof.
  intros P [tg r z ms msz psz lsz] nu c Hn. unfold tau, absorb_on, ab_the_r, ab_mu, ab_phi. cbn [ab_target ab_r ab_z ab_mu_s ab_mu_size ab_phi_size ab_l_size] in *.
  destruct tg as [tg|tg|tg|tg|tg|b|]; cbn [target_energy] in Hn; try contradiction; cbn [brighter]; destruct (Reqb ms 1); destruct r as [h|]; try reflexivity; cbn [bind ps_L_0 ps_epsilon_0 blr_L_disk blr_xi blr_epsilon blr_R_line dt_L_disk dt_xi dt_epsilon dt_R];
    unfold tau_ps_behind_blob, tau_ps_behind_blob_mu_s, tau_blr, tau_blr_mu_s, tau_dt, tau_dt_mu_s; cbv zeta; try (match goal with |- context [existsb ?f ?l] => destruct (existsb f l) eqn:EX end; [reflexivity|]); cbn [bind]; unfold scaled_sed; cbn [rmap option_map]; do 2 f_equal; rewrite map_map; apply map_ext; intros n; unfold Rdiv; ring.
Qed.
Print Assumptions C71_linear.

(** a broad line region off axis and a torus on axis: concrete absorbers *)
Example C55_case : let a := {| ab_target := TDustTorus {| dt_L_disk := 2 * 10 ^ 46; dt_xi := 1 / 10; dt_T := 1000; dt_epsilon := 1 / 10 ^ 6; dt_R := 10 ^ 18 |}; ab_r := Some (10 ^ 17); ab_z := 1 / 2; ab_mu_s := 1; ab_mu_size := 100; ab_phi_size := 50; ab_l_size := 50 |} in
  absorber_ok a /\ implemented a /\ avoids a /\ exists t, tau codata a [10 ^ 26; 10 ^ 20] = Ok (Some t) /\ all_nonneg t /\ nth_error t 1 = Some 0.
Proof.
  intros a. assert (O : absorber_ok a). { unfold absorber_ok, a. cbn. split; [lra|]. repeat split; try lra. eexists. split; [reflexivity|lra]. }
  assert (Ii : implemented a) by exact Logic.I. assert (Av : avoids a) by (intros K; exfalso; apply K; reflexivity). split; auto. split; auto. split; auto.
  destruct (C56_supported codata a [10 ^ 26; 10 ^ 20] codata_ok O Ii Av) as (t & E & L & N). exists t. split; auto. split; auto.
  assert (Te : target_energy (ab_target a) = Some (1 / 10 ^ 6)) by reflexivity. assert (Nn : nth_error [10 ^ 26; 10 ^ 20] 1 = Some (10 ^ 20)) by reflexivity.
  apply (C71_threshold codata a [10 ^ 26; 10 ^ 20] t (1 / 10 ^ 6) 1 (10 ^ 20) codata_ok O Te E Nn); unfold a, codata; cbn [ab_z c_h c_me c_c]; lra.
Qed.
Example C56_case : forall nu, exists a, absorption_init (TDisk {| sd_M_BH := 1; sd_L_disk := 1; sd_eta := 1; sd_R_in := 1; sd_R_out := 2; sd_R_in_tilde := 1; sd_R_out_tilde := 2; sd_L_Edd := 1; sd_l_Edd := 1; sd_m_dot := 1; sd_R_g := 1 |}) (Some 1) 0 (1 / 2) = Ok a /\ tau codata a nu = Ok None.
Proof. intros nu. eexists. split; [reflexivity|]. apply C56_silent; [discriminate|]. cbn. lra. Qed.
