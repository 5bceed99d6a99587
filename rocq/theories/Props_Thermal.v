(** C79: the thermal targets; C80: the emission lines *)
From Verif Require Import Base TEUtils NumpyInst MathUtils Conversion Spectra Blob Synchrotron Geometry Targets Absorption Spec_Geom Spec_Beams Spec_Thermal TargetFacts.
From Coq Require Import Lra Lia Ratan Sorting.Sorted String List.
Import ListNotations.
Open Scope list_scope.
Open Scope R_scope.

Lemma PI_bounds : 3.14159265 < PI < 3.14159266.
Proof.
  pose proof (PI_2_3_7_ineq 4) as H. unfold sum_f_R0, tg_alt, PI_2_3_7_tg, Ratan_seq in H. cbn [Nat.mul Nat.add] in H.
  rewrite !S_INR in H. simpl INR in H. simpl pow in H. lra.
Qed.
Lemma within_intro tol x y lo hi : 0 < lo -> lo <= y <= hi -> x - lo <= tol * lo -> hi - x <= tol * lo -> 0 <= tol -> within tol x y.
Proof. intros H0 Hy H1 H2 Ht. unfold within. rewrite (Rabs_right y) by lra. assert (tol * lo <= tol * y) by (apply Rmult_le_compat_l; lra). apply Rabs_le. lra. Qed.
Lemma within_scale tol k x y : within tol x y -> within tol (k * x) (k * y).
Proof. unfold within. intros H. replace (k * x - k * y) with (k * (x - y)) by ring. rewrite !Rabs_mult. pose proof (Rabs_pos k). nra. Qed.

(** ** C80 *)
Lemma rydberg_H : let r := 2 * PI ^ 2 * (c_me codata / (1 + c_me codata / (1 * c_mp codata))) * c_e codata ^ 4 / (c_h codata ^ 3 * c_c codata) in 109677.5 <= r <= 109677.7.
Proof.
  cbv zeta. unfold codata. cbn [c_me c_mp c_e c_h c_c]. pose proof PI_bounds. assert (9.8696043 <= PI ^ 2 <= 9.8696045) by (simpl; nra). set (p := PI ^ 2) in *. clearbody p. lra.
Qed.
Lemma rydberg_He : let r := 2 * PI ^ 2 * (c_me codata / (1 + c_me codata / (4 * c_mp codata))) * c_e codata ^ 4 / (c_h codata ^ 3 * c_c codata) in 109722 <= r <= 109723.
Proof.
  cbv zeta. unfold codata. cbn [c_me c_mp c_e c_h c_c]. pose proof PI_bounds. assert (9.8696043 <= PI ^ 2 <= 9.8696045) by (simpl; nra). set (p := PI ^ 2) in *. clearbody p. lra.
Qed.
Lemma bohr_within tol lam z A n m lo hi : 
  let r := 2 * PI ^ 2 * (c_me codata / (1 + c_me codata / (A * c_mp codata))) * c_e codata ^ 4 / (c_h codata ^ 3 * c_c codata) in
  let d := z ^ 2 * (1 / n ^ 2 - 1 / m ^ 2) in
  0 < lo -> lo <= r <= hi -> 0 < d -> 0 <= tol -> lam - 1e8 / (hi * d) <= tol * (1e8 / (hi * d)) -> 1e8 / (lo * d) - lam <= tol * (1e8 / (hi * d)) ->
  within tol lam (bohr_wavelength codata z A n m).
Proof.
  intros r d Hlo Hr Hd Ht H1 H2. unfold bohr_wavelength. cbv zeta. fold r. rewrite Rmult_assoc. fold d. clearbody r d.
  assert (0 < lo * d) by (apply Rmult_lt_0_compat; lra). assert (0 < r * d) by (apply Rmult_lt_0_compat; lra). assert (0 < hi * d) by (apply Rmult_lt_0_compat; lra).
  assert (lo * d <= r * d) by (apply Rmult_le_compat_r; lra). assert (r * d <= hi * d) by (apply Rmult_le_compat_r; lra).
  apply within_intro with (1e8 / (hi * d)) (1e8 / (lo * d)); auto. { apply Rdiv_lt_0_compat; lra. }
  split; unfold Rdiv; (apply Rmult_le_compat_l; [lra|]); apply Rinv_le_contravar; auto.
Qed.
Theorem C80_lines : forall name z A n m, In (name, (z, A, n, m)) one_electron_lines ->
  exists lam, lookup_line name lines_dictionary = Some lam /\ within (1 / 20000) lam (bohr_wavelength codata z A n m).
Proof.
  intros name z A n m H. unfold one_electron_lines in H. cbn [In] in H.
  destruct H as [E|[E|[E|[E|[E|[E|[E|[E|[E|[]]]]]]]]]]; injection E as <- <- <- <- <-; (eexists; split; [reflexivity|]).
  all: first [apply bohr_within with 109677.5 109677.7; try lra; apply rydberg_H | apply bohr_within with 109722 109723; try lra; apply rydberg_He].
Qed.
Print Assumptions C80_lines.
(** the other lines: the wave number is the difference of two levels (Ritz) *)
Theorem C80_other_lines : forall name up lo, In (name, (up, lo)) levels_of_lines ->
  exists lam, lookup_line name lines_dictionary = Some lam /\ within (1 / 1000) (1e8 / lam) (up - lo).
Proof.
  intros name up lo H. unfold levels_of_lines in H. cbn [In] in H.
  repeat (destruct H as [E|H]; [injection E as <- <- <-; eexists; split; [reflexivity|]; match goal with |- within _ _ ?y => apply within_intro with y y; lra end|]). contradiction.
Qed.
Print Assumptions C80_other_lines.
(** and there are no further lines; they are listed by increasing wavelength *)
Theorem C80_complete : (forall name, In name (map fst lines_dictionary) <-> In name (map fst one_electron_lines) \/ In name (map fst levels_of_lines)) /\
  StronglySorted Rlt (map snd lines_dictionary).
Proof.
  split.
  - intros name. rewrite <- in_app_iff. unfold lines_dictionary, one_electron_lines, levels_of_lines. cbn [map fst app In]. tauto.
  - unfold lines_dictionary. cbn [map snd]. repeat (constructor; [|repeat (constructor; [lra|]); constructor]). constructor.
Qed.
Print Assumptions C80_complete.
Theorem C80_line_energy : forall P L xi line R_line t lam, phys_ok P -> lookup_line line lines_dictionary = Some lam -> blr_init P L xi line R_line = Ok t ->
  let frequency := c_c P / (lam * 1e-8) in
  0 < lam /\ blr_epsilon t = c_h P * frequency / (c_me P * c_c P ^ 2).
Proof.
  intros P L xi line R_line t lam HP Hl Ht. pose proof HP as []. unfold blr_init in Ht. rewrite Hl in Ht. 
  assert (Hlam : 0 < lam). { clear Ht. revert Hl. assert (K : forall d, List.Forall (fun p : string * R => 0 < snd p) d -> lookup_line line d = Some lam -> 0 < lam).
    { induction d as [|[k x] d IH]; intros F; simpl; [discriminate|]. inversion F; subst. destruct (String.eqb k line); [intros E; injection E as <-; auto|auto]. }
    apply K. unfold lines_dictionary. repeat (constructor; [cbn [snd]; lra|]). constructor. }
  split; auto. assert (E : forall t', Ok t' = Ok t -> t' = t) by congruence. apply E in Ht. subst t. cbn [blr_epsilon]. unfold mec2_erg, rest_energy, mass_of. field. repeat split; lra.
Qed.
Print Assumptions C80_line_energy.
Example C80_case : exists t, blr_init codata 1e46 0.1 "Lyalpha" 1e17 = Ok t /\ blr_lambda t = 1215.67.
Proof. eexists. split; reflexivity. Qed.

(** ** C79 *)
Theorem C79_cmb : forall P z, phys_ok P -> 
  cmb_epsilon_0 (cmb_init P z) = thermal_energy P (2.72548 * (1 + z)) /\
  within (1 / 10 ^ 5) (cmb_u_0 (cmb_init codata z)) (black_body_density codata (2.72548 * (1 + z))).
Proof.
  intros P z HP. pose proof HP as []. unfold cmb_init, thermal_energy, black_body_density. cbn [cmb_u_0 cmb_epsilon_0]. split.
  - unfold mec2_erg, rest_energy, mass_of. field. split; lra.
  - replace (7.5657 * 1e-15 * 2.72548 ^ 4 * (1 + z) ^ 4) with ((2.72548 * (1 + z)) ^ 4 * (7.5657 * 1e-15)) by ring. rewrite (Rmult_comm (4 * _ / _)).
    apply within_scale. unfold codata. cbn [c_sigmaSB c_c]. apply within_intro with (4 * 5.6703744e-5 / 29979245800) (4 * 5.6703744e-5 / 29979245800); lra.
Qed.
Print Assumptions C79_cmb.
Theorem C79_torus : forall P L xi T r, phys_ok P -> dt_epsilon (dt_init P L xi T r) = thermal_energy P T /\
  (forall R_, r = Some R_ -> dt_R (dt_init P L xi T r) = R_).
Proof.
  intros P L xi T r HP. pose proof HP as []. unfold dt_init, thermal_energy. cbn [dt_epsilon dt_R]. split; [unfold mec2_erg, rest_energy, mass_of; field; split; lra|]. intros R_ ->. reflexivity.
Qed.
Print Assumptions C79_torus.
(** the default radius is the sublimation radius: 3.5e18 cm for a disk of 1e45
    erg/s and dust of 1000 K, proportional to the square root of the luminosity
    and to the power -2.6 of the temperature *)
Theorem C79_sublimation : forall P L xi T, 0 < L -> 0 < T ->
  let radius l t := dt_R (dt_init P l xi t None) in
  radius 1e45 1e3 = 3.5e18 /\ (forall k, 0 < k -> radius (k ^ 2 * L) T = k * radius L T) /\ (forall k, 0 < k -> radius L (k * T) = Rpower k (-2.6) * radius L T).
Proof.
  intros P L xi T HL HT radius. unfold radius, dt_init. cbn [dt_R]. unfold npow. repeat split.
  - replace (1e45 / 1e45) with 1 by lra. replace (1e3 / 1e3) with 1 by lra. rewrite sqrt_1. unfold Rpower. rewrite ln_1, Rmult_0_r, exp_0. lra.
  - intros k Hk. replace (k ^ 2 * L / 1e45) with (k ^ 2 * (L / 1e45)) by lra. rewrite sqrt_mult_alt by (apply pow2_ge_0). rewrite sqrt_pow2 by lra. ring.
  - intros k Hk. replace (k * T / 1e3) with (k * (T / 1e3)) by lra. rewrite <- (Rpower_mult_distr k (T / 1e3)) by lra. replace (-2.6) with (- (2.6)) by lra. ring.
Qed.
Print Assumptions C79_sublimation.
Lemma pow4_lt a b : 0 < a -> a < b -> a ^ 4 < b ^ 4.
Proof. intros Ha H. assert (a * a < b * b) by (apply Rmult_le_0_lt_compat; lra). replace (a ^ 4) with ((a * a) * (a * a)) by ring. replace (b ^ 4) with ((b * b) * (b * b)) by ring. assert (0 < a * a) by (apply Rmult_lt_0_compat; lra). apply Rmult_le_0_lt_compat; lra. Qed.
Lemma quartic_root x : 0 < x -> npow x (1 / 4) ^ 4 = x.
Proof. intros H. unfold npow. rewrite <- Rpower_pow by apply exp_pos. rewrite Rpower_mult. replace (1 / 4 * INR 4) with 1 by (simpl; field). apply Rpower_1. auto. Qed.
(** both faces of the disk radiate as black bodies the flux of C75 *)
Theorem C79_disk_temperature : forall P R_ M m_dot R_in, phys_ok P -> 0 < M -> 0 < m_dot -> 0 < R_in -> R_in <= R_ ->
  0 <= evaluate_T P R_ M m_dot R_in /\ c_sigmaSB P * evaluate_T P R_ M m_dot R_in ^ 4 = disk_flux P M m_dot R_in R_.
Proof.
  intros P R_ M m_dot R_in HP HM Hm Hi HR. pose proof HP as []. pose proof PI_RGT_0. unfold evaluate_T, disk_flux. cbv zeta. set (ph := 1 - sqrt (R_in / R_)).
  assert (Hph : 0 <= ph). { unfold ph. assert (sqrt (R_in / R_) <= 1); [|lra]. rewrite <- sqrt_1 at 1. apply sqrt_le_1_alt. apply Rmult_le_reg_r with R_; [lra|]. unfold Rdiv. rewrite Rmult_assoc, Rinv_l; lra. }
  assert (HR3 : 0 < R_ ^ 3) by (apply pow_lt; lra). set (v := 3 * c_G P * M * m_dot * ph / (8 * PI * R_ ^ 3 * c_sigmaSB P)).
  assert (Ev : c_sigmaSB P * v = 3 * c_G P * M * m_dot / (8 * PI * R_ ^ 3) * ph) by (unfold v; field; repeat split; lra).
  assert (Hv : 0 <= v). { unfold v. apply Rmult_le_pos; [|left; pos]. repeat (apply Rmult_le_pos; try lra). }
  destruct (Reqb_spec v 0) as [E|E].
  - split; [lra|]. rewrite <- Ev, E. ring.
  - split; [unfold npow, Rpower; left; apply exp_pos|]. rewrite quartic_root by lra. auto.
Qed.
Print Assumptions C79_disk_temperature.
(** Photons of the disk at radius R carry the mean thermal energy of the
    temperature that the disk has far from its inner edge *)
Theorem C79_disk_photons : forall M L eta R_ T, 0 < M -> 0 < L -> 0 < eta -> 0 < R_ -> 0 < T ->
  let P := codata in
  c_sigmaSB P * T ^ 4 = 3 * c_G P * M * (L / (eta * c_c P ^ 2)) / (8 * PI * R_ ^ 3) ->
  within (1 / 200) (evaluate_epsilon L M eta (to_R_g_units P R_ M)) (thermal_energy P T).
Proof.
  intros M L eta R_ T HM HL He HR HT P HT4. assert (HP : phys_ok P) by exact codata_ok. pose proof HP as []. pose proof PI_bounds as HPI. set (e := evaluate_epsilon _ _ _ _). set (th := thermal_energy P T).
  assert (Hth : 0 < th) by (unfold th, thermal_energy; assert (0 < 2.7) by lra; pos).
  set (w := L / (1.26 * 1e46 * (M / (1e8 * M_sun))) / (M / (1e8 * M_sun) * eta)). set (Rt := to_R_g_units P R_ M).
  assert (HMs : 0 < 1e8 * M_sun) by (unfold M_sun; lra). assert (Hw : 0 < w) by (unfold w; assert (0 < 1.26 * 1e46) by lra; pos). assert (HRt : 0 < Rt) by (unfold Rt, to_R_g_units, R_g; pos).
  assert (He4 : e ^ 4 = (2.7 * 1e-4) ^ 4 * w / Rt ^ 3).
  { unfold e, evaluate_epsilon. cbv zeta. fold w. fold Rt. rewrite !Rpow_mult_distr, quartic_root by auto.
    assert (E : npow Rt (- (3) / 4) ^ 4 = / Rt ^ 3). { unfold npow. rewrite <- Rpower_pow by apply exp_pos. rewrite Rpower_mult. replace (- (3) / 4 * INR 4) with (- (3)) by (simpl; field). rewrite Rpower_Ropp. f_equal. replace 3 with (INR 3) by (simpl; lra). apply Rpower_pow. auto. }
    rewrite E. unfold Rdiv. ring. }
  assert (Hee : 0 < e). { unfold e, evaluate_epsilon, npow, Rpower. cbv zeta. apply Rmult_lt_0_compat; [apply Rmult_lt_0_compat; [lra|apply exp_pos]|apply exp_pos]. }
  assert (Hth4 : th ^ 4 * (8 * PI * c_sigmaSB P * c_G P ^ 2 * (1e8 * M_sun) ^ 2 * (c_me P * c_c P ^ 2) ^ 4) = (2.7 * c_kB P) ^ 4 * (3 * c_c P ^ 4 * (1.26 * 1e46)) * (w / Rt ^ 3)).
  { assert (E1 : th ^ 4 * (c_me P * c_c P ^ 2) ^ 4 = (2.7 * c_kB P) ^ 4 * T ^ 4) by (unfold th, thermal_energy; field; split; lra).
    transitivity ((th ^ 4 * (c_me P * c_c P ^ 2) ^ 4) * (8 * PI * c_sigmaSB P * c_G P ^ 2 * (1e8 * M_sun) ^ 2)); [ring|]. rewrite E1.
    transitivity ((2.7 * c_kB P) ^ 4 * (c_sigmaSB P * T ^ 4) * (8 * PI * c_G P ^ 2 * (1e8 * M_sun) ^ 2)); [ring|]. rewrite HT4. unfold w, Rt, to_R_g_units, R_g. assert (0 < M_sun) by lra. field. repeat split; lra. }
  set (u := w / Rt ^ 3) in *. assert (Hu : 0 < u) by (unfold u; pos). replace ((2.7 * 1e-4) ^ 4 * w / Rt ^ 3) with ((2.7 * 1e-4) ^ 4 * u) in He4 by (unfold u, Rdiv; ring).
  assert (Hb : (199 / 200) ^ 4 * th ^ 4 <= (2.7 * 1e-4) ^ 4 * u <= (201 / 200) ^ 4 * th ^ 4).
  { assert (Ht4 : 0 < th ^ 4) by pos. set (t4 := th ^ 4) in *. clearbody t4 u. clear - Hth4 Hu HPI Ht4. unfold P, codata, M_sun in Hth4. cbn [c_sigmaSB c_G c_me c_c c_kB] in Hth4.
    assert (3.14159265 * t4 <= PI * t4 <= 3.14159266 * t4) by (split; apply Rmult_le_compat_r; lra). set (y := PI * t4) in *. 
    assert (K : y * (8 * 5.6703744e-5 * 6.6743e-8 ^ 2 * (1e8 * 1.988409870698051e33) ^ 2 * (9.1093837015e-28 * 29979245800 ^ 2) ^ 4) = (2.7 * 1.380649e-16) ^ 4 * (3 * 29979245800 ^ 4 * (1.26 * 1e46)) * u) by (rewrite <- Hth4; unfold y; ring).
    clearbody y. clear Hth4 HPI. split; lra. }
  rewrite <- He4, <- !Rpow_mult_distr in Hb. destruct Hb as [B1 B2].
  assert (L1 : 199 / 200 * th <= e). { apply Rnot_lt_le. intros K. assert (e ^ 4 < (199 / 200 * th) ^ 4); [|lra]. apply pow4_lt; lra. }
  assert (L2 : e <= 201 / 200 * th). { apply Rnot_lt_le. intros K. assert ((201 / 200 * th) ^ 4 < e ^ 4); [|lra]. apply pow4_lt; lra. }
  unfold within. rewrite (Rabs_right th) by lra. apply Rabs_le. lra.
Qed.
Print Assumptions C79_disk_photons.
Theorem C79_eddington : forall M L eta R_in R_out units d, 0 < M -> 0 < eta -> ssdisk_init codata M L eta R_in R_out units = Ok d ->
  within (1 / 300) (sd_L_Edd d) (eddington codata M) /\ sd_L_disk d = sd_l_Edd d * sd_L_Edd d /\ sd_L_disk d = sd_eta d * sd_m_dot d * c_c codata ^ 2.
Proof.
  intros M L eta R_in R_out units d HM He Hd. pose proof PI_bounds. pose proof codata_ok as []. assert (HMs : 0 < 1e8 * M_sun) by (unfold M_sun; lra).
  assert (E : sd_L_Edd d = 1.26 * 1e46 * (M / (1e8 * M_sun)) /\ sd_L_disk d = L /\ sd_l_Edd d = L / (1.26 * 1e46 * (M / (1e8 * M_sun))) /\ sd_eta d = eta /\ sd_m_dot d = L / (eta * c_c codata ^ 2)).
  { unfold ssdisk_init in Hd. cbv zeta in Hd. assert (I : forall (x y : ssdisk), Ok x = Ok y -> x = y) by congruence. destruct units, R_in, R_out; try congruence; apply I in Hd; subst d; repeat split. }
  destruct E as (E1 & E2 & E3 & E4 & E5). rewrite E1, E2, E3, E4, E5. split; [|split].
  - unfold eddington, codata, M_sun. cbn [c_G c_mp c_c c_sigmaT].
    replace (1.26 * 1e46 * (M / (1e8 * 1.988409870698051e33))) with (M * (1.26 * 1e46 / (1e8 * 1.988409870698051e33))) by (unfold Rdiv; ring).
    replace (4 * PI * 6.6743e-8 * M * 1.67262192369e-24 * 29979245800 / 6.6524587321e-25) with (M * (4 * PI * 6.6743e-8 * 1.67262192369e-24 * 29979245800 / 6.6524587321e-25)) by (unfold Rdiv; ring).
    apply within_scale. apply within_intro with 6.3219e4 6.3220e4; lra.
  - assert (0 < M_sun) by lra. field. repeat split; lra.
  - field. split; lra.
Qed.
Print Assumptions C79_eddington.
(** the critical field used by the delta approximation of C78 *)
Theorem C79_critical_field : within (1 / 10 ^ 5) B_cr (critical_field codata).
Proof.
  pose proof PI_bounds. unfold B_cr, critical_field, codata. cbn [c_me c_c c_e c_h]. 
  replace (9.1093837015e-28 ^ 2 * 29979245800 ^ 3 / (4.803204712570263e-10 * (6.62607015e-27 / (2 * PI)))) with (PI * (2 * 9.1093837015e-28 ^ 2 * 29979245800 ^ 3 / (4.803204712570263e-10 * 6.62607015e-27))) by (field; lra).
  apply within_intro with 4.41400e13 4.41401e13; lra.
Qed.
Print Assumptions C79_critical_field.
(** a disk around 1e8 solar masses, at 1e15 cm: about 4e4 K *)
Example C79_case : exists T, 0 < T /\ c_sigmaSB codata * T ^ 4 = 3 * c_G codata * (1e8 * M_sun) * (1e46 / (1 / 12 * c_c codata ^ 2)) / (8 * PI * (1e15) ^ 3).
Proof.
  pose proof PI_RGT_0. pose proof codata_ok as HP. set (v := 3 * c_G codata * (1e8 * M_sun) * (1e46 / (1 / 12 * c_c codata ^ 2)) / (8 * PI * (1e15) ^ 3)).
  assert (Hv : 0 < v). { destruct HP. assert (0 < 1e8 * M_sun) by (unfold M_sun; lra). assert (0 < 1e46 / (1 / 12 * c_c codata ^ 2)) by (assert (0 < 1e46) by lra; assert (0 < 1 / 12) by lra; pos). unfold v. apply Rdiv_lt_0_compat; [|apply Rmult_lt_0_compat; [lra|apply pow_lt; lra]]. repeat (apply Rmult_lt_0_compat; try lra). }
  destruct HP. exists (npow (v / c_sigmaSB codata) (1 / 4)). split; [apply exp_pos|]. rewrite quartic_root by (apply Rdiv_lt_0_compat; auto). field. lra.
Qed.
Example C79_disk_case : exists d, ssdisk_init codata (1e8 * M_sun) 1e46 (1 / 12) (Plain 6) (Plain 200) true = Ok d /\ 0 < 1e8 * M_sun.
Proof. eexists. split; [reflexivity|]. unfold M_sun. lra. Qed.
