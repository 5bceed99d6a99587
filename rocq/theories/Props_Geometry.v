(** C49, C50: geometry *)
From Verif Require Import Base Geometry Spec_Geom.

(** ** C49 *)
Theorem C49_range : forall mu_s mu phi, -1 <= mu_s <= 1 -> -1 <= mu <= 1 -> -1 <= cos_psi mu_s mu phi <= 1.
Proof.
  intros ms mu phi Hs Hm. unfold cos_psi. cbv zeta. assert (A : 0 <= 1 - mu ^ 2) by nra. assert (B : 0 <= 1 - ms ^ 2) by nra.
  pose proof (sqrt_sqrt _ A) as SA. pose proof (sqrt_sqrt _ B) as SB. pose proof (sqrt_pos (1 - mu ^ 2)). pose proof (sqrt_pos (1 - ms ^ 2)). pose proof (COS_bound phi).
  set (a := sqrt (1 - mu ^ 2)) in *. set (b := sqrt (1 - ms ^ 2)) in *. set (c := cos phi) in *.
  assert (0 <= a * b) by (apply Rmult_le_pos; auto). assert (2 * (a * b) <= a * a + b * b) by (pose proof (Rle_0_sqr (a - b)) as K; unfold Rsqr in K; lra).
  assert (- (a * b) <= a * b * c <= a * b) by nra. assert (2 * (mu * ms) <= mu ^ 2 + ms ^ 2) by (pose proof (pow2_ge_0 (mu - ms)); lra). assert (- (mu ^ 2 + ms ^ 2) <= 2 * (mu * ms)) by (pose proof (pow2_ge_0 (mu + ms)); lra). lra.
Qed.
Print Assumptions C49_range.
Theorem C49_symmetric : forall mu_s mu phi, cos_psi mu_s mu phi = cos_psi mu mu_s phi /\ cos_psi mu_s mu (- phi) = cos_psi mu_s mu phi /\ cos_psi mu_s mu (phi + 2 * PI) = cos_psi mu_s mu phi.
Proof. intros. unfold cos_psi. cbv zeta. rewrite cos_neg, (cos_plus phi (2 * PI)), cos_2PI, sin_2PI. repeat split; ring. Qed.
Print Assumptions C49_symmetric.
Theorem C49_scalar_product : forall mu_s mu phi phi_s, cos_psi mu_s mu (phi - phi_s) = dot (spherical 1 mu phi) (spherical 1 mu_s phi_s).
Proof. intros. unfold cos_psi, dot, spherical. cbn [px py pz]. cbv zeta. rewrite cos_minus. ring. Qed.
Print Assumptions C49_scalar_product.
Theorem C49_unit : forall mu phi, -1 <= mu <= 1 -> dot (spherical 1 mu phi) (spherical 1 mu phi) = 1 /\ (cos_psi mu mu 0 = 1).
Proof.
  intros mu phi H. assert (A : 0 <= 1 - mu ^ 2) by nra. pose proof (sqrt_sqrt _ A) as SA. unfold cos_psi, dot, spherical. cbn [px py pz]. cbv zeta. rewrite cos_0.
  pose proof (sin2_cos2 phi) as T. unfold Rsqr in T. set (a := sqrt (1 - mu ^ 2)) in *. split; [|nra].
  replace (1 * a * cos phi * (1 * a * cos phi) + 1 * a * sin phi * (1 * a * sin phi) + 1 * mu * (1 * mu)) with (a * a * (sin phi * sin phi + cos phi * cos phi) + mu ^ 2) by ring. rewrite T, SA. ring.
Qed.
Print Assumptions C49_unit.
Example C49_case : cos_psi 0.6 0.8 0 = 0.96.
Proof.
  unfold cos_psi. cbv zeta. rewrite cos_0. replace (1 - 0.8 ^ 2) with (0.6 * 0.6) by lra. replace (1 - 0.6 ^ 2) with (0.8 * 0.8) by lra. rewrite !sqrt_square by lra. lra.
Qed.

(** ** C50 *)
Lemma sq_eq x : x * x = x ^ 2.
Proof. ring. Qed.
Theorem C50_shell_distance : forall mu R_re r phi, -1 <= mu <= 1 -> x_re_shell mu R_re r = dist (on_sight_line r 0 1) (spherical R_re mu phi).
Proof.
  intros mu Rr r phi H. assert (A : 0 <= 1 - mu ^ 2) by nra. pose proof (sqrt_sqrt _ A) as SA. unfold x_re_shell, dist, dot, minus, on_sight_line, spherical. cbn [px py pz]. f_equal.
  pose proof (sin2_cos2 phi) as T. unfold Rsqr in T. set (a := sqrt (1 - mu ^ 2)) in *. 
  replace (R_sqrt.sqrt (1 - 1 ^ 2)) with 0 by (replace (1 - 1 ^ 2) with 0 by ring; rewrite sqrt_0; auto).
  transitivity (Rr ^ 2 * (a * a) * (sin phi * sin phi + cos phi * cos phi) + (r - Rr * mu) ^ 2); [rewrite T, SA; ring|ring].
Qed.
Print Assumptions C50_shell_distance.
Theorem C50_ring_distance : forall R_re r phi, x_re_ring R_re r = dist (on_sight_line r 0 1) (spherical R_re 0 phi).
Proof.
  intros Rr r phi. unfold x_re_ring, dist, dot, minus, on_sight_line, spherical. cbn [px py pz]. f_equal.
  pose proof (sin2_cos2 phi) as T. unfold Rsqr in T. replace (1 - 0 ^ 2) with 1 by ring. rewrite sqrt_1.
  transitivity (Rr ^ 2 * (sin phi * sin phi + cos phi * cos phi) + r ^ 2); [rewrite T; ring|]. replace (1 - 1 ^ 2) with 0 by ring. rewrite sqrt_0. ring.
Qed.
Print Assumptions C50_ring_distance.
Theorem C50_ring_mu_s_distance : forall R_re r phi u mu_s, -1 <= mu_s <= 1 -> x_re_ring_mu_s R_re r phi u mu_s = dist (on_sight_line r u mu_s) (spherical R_re 0 phi).
Proof.
  intros Rr r phi u ms H. assert (A : 0 <= 1 - ms ^ 2) by nra. pose proof (sqrt_sqrt _ A) as SA. unfold x_re_ring_mu_s, dist, dot, minus, on_sight_line, spherical. cbn [px py pz]. cbv zeta. replace (1 - ms * ms) with (1 - ms ^ 2) by ring. f_equal.
  pose proof (sin2_cos2 phi) as T. unfold Rsqr in T. replace (1 - 0 ^ 2) with 1 by ring. rewrite sqrt_1. set (a := sqrt (1 - ms ^ 2)) in *.
  transitivity (u ^ 2 * (a * a + ms ^ 2) + Rr ^ 2 * (sin phi * sin phi + cos phi * cos phi) + r ^ 2 - 2 * u * Rr * a * cos phi + 2 * r * u * ms); [rewrite T, SA; ring|ring].
Qed.
Print Assumptions C50_ring_mu_s_distance.
Theorem C50_shell_mu_s_distance : forall R_re r phi mu u mu_s, -1 <= mu_s <= 1 -> -1 <= mu <= 1 -> x_re_shell_mu_s R_re r phi mu u mu_s = dist (on_sight_line r u mu_s) (spherical R_re mu phi).
Proof.
  intros Rr r phi mu u ms H Hm. assert (A : 0 <= 1 - ms ^ 2) by nra. pose proof (sqrt_sqrt _ A) as SA. assert (B : 0 <= 1 - mu ^ 2) by nra. pose proof (sqrt_sqrt _ B) as SB.
  unfold x_re_shell_mu_s, dist, dot, minus, on_sight_line, spherical. cbn [px py pz]. cbv zeta. replace (1 - ms * ms) with (1 - ms ^ 2) by ring. replace (1 - mu * mu) with (1 - mu ^ 2) by ring. f_equal.
  pose proof (sin2_cos2 phi) as T. unfold Rsqr in T. set (a := sqrt (1 - ms ^ 2)) in *. set (b := sqrt (1 - mu ^ 2)) in *.
  transitivity (u ^ 2 * (a * a + ms ^ 2) + Rr ^ 2 * (b * b * (sin phi * sin phi + cos phi * cos phi) + mu ^ 2) + r ^ 2 - 2 * u * Rr * a * b * cos phi - 2 * Rr * mu * (r + u * ms) + 2 * r * u * ms); [rewrite T, SA, SB; ring|ring].
Qed.
Print Assumptions C50_shell_mu_s_distance.

(** mu_star is the cosine between the axis and the direction from the shell point to the axis point *)
Theorem C50_mu_star : forall mu R_re r, -1 <= mu <= 1 -> 0 < x_re_shell mu R_re r -> 0 <= R_re ->
  mu_star_shell mu R_re r = (r - R_re * mu) / x_re_shell mu R_re r /\ -1 <= mu_star_shell mu R_re r <= 1.
Proof.
  intros mu Rr r H Hx HR. assert (X2 : x_re_shell mu Rr r ^ 2 = Rr ^ 2 * (1 - mu ^ 2) + (r - Rr * mu) ^ 2).
  { unfold x_re_shell. rewrite <- sq_eq, sqrt_sqrt. ring. assert (0 <= Rr ^ 2 * (1 - mu ^ 2)) by (apply Rmult_le_pos; nra). pose proof (pow2_ge_0 (r - Rr * mu)). nra. }
  assert (E : mu_star_shell mu Rr r = (r - Rr * mu) / x_re_shell mu Rr r).
  { unfold mu_star_shell. cbv zeta. set (x := x_re_shell mu Rr r) in *. replace (1 - (Rr / x) ^ 2 * (1 - mu ^ 2)) with (((r - Rr * mu) / x) ^ 2).
    - rewrite <- sq_eq. fold (Rsqr ((r - Rr * mu) / x)). rewrite sqrt_Rsqr_abs. destruct (Rltb_spec (mu * Rr) r) as [L|L].
      + rewrite Rabs_right. lra. apply Rle_ge. apply Rmult_le_pos. lra. left. apply Rinv_0_lt_compat; auto.
      + rewrite Rabs_left1. lra. assert (0 < / x) by (apply Rinv_0_lt_compat; auto). unfold Rdiv. nra.
    - apply Rmult_eq_reg_r with (x ^ 2); [|apply pow_nonzero; lra]. replace (((r - Rr * mu) / x) ^ 2 * x ^ 2) with ((r - Rr * mu) ^ 2) by (field; lra).
      replace ((1 - (Rr / x) ^ 2 * (1 - mu ^ 2)) * x ^ 2) with (x ^ 2 - Rr ^ 2 * (1 - mu ^ 2)) by (field; lra). rewrite X2. ring. }
  split; auto. rewrite E. set (x := x_re_shell mu Rr r) in *. assert (0 <= Rr ^ 2 * (1 - mu ^ 2)) by (apply Rmult_le_pos; nra).
  assert (- x <= r - Rr * mu <= x). { split; [|]; apply Rnot_lt_le; intros K; nra. }
  split.
  - apply Rmult_le_reg_r with x; auto. unfold Rdiv. rewrite Rmult_assoc, Rinv_l by lra. lra.
  - apply Rmult_le_reg_r with x; auto. unfold Rdiv. rewrite Rmult_assoc, Rinv_l by lra. lra.
Qed.
Print Assumptions C50_mu_star.

(** atan2 *)
Lemma atan2_spec y x : let rho := sqrt (x ^ 2 + y ^ 2) in - PI < atan2 y x <= PI /\ x = rho * cos (atan2 y x) /\ y = rho * sin (atan2 y x).
Proof.
  cbv zeta. pose proof PI_RGT_0.
  assert (C : forall t, cos (atan t) = / sqrt (1 + t ^ 2)) by (intros t; rewrite cos_atan; unfold Rdiv; rewrite Rmult_1_l; f_equal; f_equal; unfold Rsqr; ring).
  assert (S : forall t, sin (atan t) = t / sqrt (1 + t ^ 2)) by (intros t; rewrite sin_atan; f_equal; f_equal; unfold Rsqr; ring).
  assert (Q : x <> 0 -> sqrt (x ^ 2 + y ^ 2) = Rabs x * sqrt (1 + (y / x) ^ 2)).
  { intros Hx. replace (x ^ 2 + y ^ 2) with (Rsqr x * (1 + (y / x) ^ 2)) by (unfold Rsqr; field; auto). rewrite sqrt_mult_alt by apply Rle_0_sqr. rewrite sqrt_Rsqr_abs. auto. }
  assert (Pq : 0 < sqrt (1 + (y / x) ^ 2)) by (apply sqrt_lt_R0; pose proof (pow2_ge_0 (y / x)); lra).
  unfold atan2. destruct (Rltb_spec 0 x) as [L|L].
  - pose proof (atan_bound (y / x)). rewrite C, S, Q by lra. rewrite Rabs_right by lra. split; [lra|]. split; field; lra.
  - destruct (Rltb_spec x 0) as [L'|L'].
    + pose proof (atan_bound (y / x)). rewrite Q by lra. rewrite Rabs_left by lra. destruct (Rleb_spec 0 y) as [Y|Y].
      * split. { assert (atan (y / x) <= 0); [|lra]. rewrite <- atan_0. destruct (Req_dec y 0) as [->|N]. { unfold Rdiv. rewrite Rmult_0_l. lra. } left. apply atan_increasing. assert (/ x < 0) by (apply Rinv_lt_0_compat; auto). unfold Rdiv. nra. }
        rewrite neg_cos, neg_sin, C, S. split; field; repeat split; lra.
      * split. { assert (0 < atan (y / x)); [|lra]. rewrite <- atan_0. apply atan_increasing. assert (/ x < 0) by (apply Rinv_lt_0_compat; auto). unfold Rdiv. nra. }
        replace (atan (y / x) - PI) with (- (PI - atan (y / x))) by ring. rewrite cos_neg, sin_neg, sin_PI_x. rewrite <- cos_neg. replace (- (PI - atan (y / x))) with (atan (y / x) - PI) by ring.
        rewrite <- (Ropp_involutive (cos _)), <- neg_cos. replace (atan (y / x) - PI + PI) with (atan (y / x)) by ring. rewrite C, S. split; field; repeat split; lra.
    + assert (x = 0) by lra. subst x. replace (0 ^ 2 + y ^ 2) with (Rsqr y) by (unfold Rsqr; ring). rewrite sqrt_Rsqr_abs. destruct (Rltb_spec 0 y) as [Y|Y]; [|destruct (Rltb_spec y 0) as [Y'|Y']].
      * rewrite cos_PI2, sin_PI2, Rabs_right by lra. split; [lra|]. split; ring.
      * rewrite cos_neg, sin_neg, cos_PI2, sin_PI2, Rabs_left by lra. split; [lra|]. split; ring.
      * assert (y = 0) by lra. subst y. rewrite Rabs_R0. split; [lra|]. split; ring.
Qed.
Lemma direction_of dx dy dz x : 0 < x -> x ^ 2 = dx ^ 2 + dy ^ 2 + dz ^ 2 -> is_direction {| px := dx; py := dy; pz := dz |} (atan2 dy dx) (dz / x).
Proof.
  intros Hx E. destruct (atan2_spec dy dx) as (A1 & A2 & A3). unfold is_direction, dot. cbn [px py pz].
  assert (Ex : sqrt (dx * dx + dy * dy + dz * dz) = x). { replace (dx * dx + dy * dy + dz * dz) with (x ^ 2) by (rewrite E; ring). apply sqrt_pow2. lra. } rewrite Ex.
  assert (0 <= dx ^ 2 + dy ^ 2) by (pose proof (pow2_ge_0 dx); pose proof (pow2_ge_0 dy); lra).
  assert (Er : x * sqrt (1 - (dz / x) ^ 2) = sqrt (dx ^ 2 + dy ^ 2)).
  { replace (1 - (dz / x) ^ 2) with ((dx ^ 2 + dy ^ 2) / x ^ 2). rewrite sqrt_div by (auto; apply pow_lt; auto). rewrite sqrt_pow2 by lra. field. lra.
    apply Rmult_eq_reg_r with (x ^ 2); [|apply pow_nonzero; lra]. replace ((dx ^ 2 + dy ^ 2) / x ^ 2 * x ^ 2) with (dx ^ 2 + dy ^ 2) by (field; lra). replace ((1 - (dz / x) ^ 2) * x ^ 2) with (x ^ 2 - dz ^ 2) by (field; lra). rewrite E. ring. }
  rewrite Er. repeat split; try apply A1; auto.
  - apply Rmult_le_reg_r with x; auto. unfold Rdiv. rewrite Rmult_assoc, Rinv_l by lra. apply Rnot_lt_le. intros K. nra.
  - apply Rmult_le_reg_r with x; auto. unfold Rdiv. rewrite Rmult_assoc, Rinv_l by lra. apply Rnot_lt_le. intros K. nra.
Qed.

(** phi and mu are the polar coordinates of the direction from the reprocessing point to the photon *)
Theorem C50_ring_direction : forall R_re r phi_re u mu_s, -1 <= mu_s <= 1 -> 0 < x_re_ring_mu_s R_re r phi_re u mu_s ->
  is_direction (minus (on_sight_line r u mu_s) (spherical R_re 0 phi_re)) (fst (phi_mu_re_ring R_re r phi_re u mu_s)) (snd (phi_mu_re_ring R_re r phi_re u mu_s)).
Proof.
  intros Rr r phi u ms H Hx. unfold phi_mu_re_ring. cbv zeta. cbn [fst snd]. unfold minus, on_sight_line, spherical. cbn [px py pz].
  replace (1 - ms ^ 2) with (1 - ms * ms) by ring. replace (1 - 0 ^ 2) with 1 by ring. rewrite sqrt_1.
  replace (u * sqrt (1 - ms * ms) - Rr * 1 * cos phi) with (u * sqrt (1 - ms * ms) - Rr * cos phi) by ring. replace (0 - Rr * 1 * sin phi) with (0 - Rr * sin phi) by ring. replace (r + u * ms - Rr * 0) with (r + u * ms) by ring.
  apply direction_of; auto. assert (A : 0 <= 1 - ms * ms) by nra. pose proof (sqrt_sqrt _ A) as SA. pose proof (sin2_cos2 phi) as T. unfold Rsqr in T.
  unfold x_re_ring_mu_s in *. cbv zeta in *. rewrite <- sq_eq. set (a := sqrt (1 - ms * ms)) in *.
  assert (Q : u * u + Rr * Rr + r * r - 2 * u * Rr * a * cos phi + 2 * r * u * ms = (u * a - Rr * cos phi) ^ 2 + (0 - Rr * sin phi) ^ 2 + (r + u * ms) ^ 2).
  { transitivity (u ^ 2 * (a * a + ms ^ 2) + Rr ^ 2 * (sin phi * sin phi + cos phi * cos phi) + r ^ 2 - 2 * u * Rr * a * cos phi + 2 * r * u * ms); [rewrite T, SA; ring|ring]. }
  rewrite sqrt_sqrt; auto. rewrite Q. pose proof (pow2_ge_0 (u * a - Rr * cos phi)). pose proof (pow2_ge_0 (0 - Rr * sin phi)). pose proof (pow2_ge_0 (r + u * ms)). lra.
Qed.
Print Assumptions C50_ring_direction.
Theorem C50_shell_direction : forall R_re r phi_re mu_re u mu_s, -1 <= mu_s <= 1 -> -1 <= mu_re <= 1 -> 0 < x_re_shell_mu_s R_re r phi_re mu_re u mu_s ->
  is_direction (minus (on_sight_line r u mu_s) (spherical R_re mu_re phi_re)) (fst (phi_mu_re_shell R_re r phi_re mu_re u mu_s)) (snd (phi_mu_re_shell R_re r phi_re mu_re u mu_s)).
Proof.
  intros Rr r phi mu u ms H Hm Hx. unfold phi_mu_re_shell. cbv zeta. cbn [fst snd]. unfold minus, on_sight_line, spherical. cbn [px py pz].
  replace (1 - ms ^ 2) with (1 - ms * ms) by ring. replace (1 - mu ^ 2) with (1 - mu * mu) by ring. replace (- Rr * sqrt (1 - mu * mu) * sin phi) with (0 - Rr * sqrt (1 - mu * mu) * sin phi) by ring.
  apply direction_of; auto. assert (A : 0 <= 1 - ms * ms) by nra. pose proof (sqrt_sqrt _ A) as SA. assert (B : 0 <= 1 - mu * mu) by nra. pose proof (sqrt_sqrt _ B) as SB. pose proof (sin2_cos2 phi) as T. unfold Rsqr in T.
  unfold x_re_shell_mu_s in *. cbv zeta in *. rewrite <- sq_eq. set (a := sqrt (1 - ms * ms)) in *. set (b := sqrt (1 - mu * mu)) in *.
  match goal with |- sqrt ?e * _ = ?rhs => assert (Q : e = rhs) end.
  { transitivity (u ^ 2 * (a * a + ms ^ 2) + Rr ^ 2 * (b * b * (sin phi * sin phi + cos phi * cos phi) + mu ^ 2) + r ^ 2 - 2 * u * Rr * a * b * cos phi - 2 * Rr * mu * (r + u * ms) + 2 * r * u * ms); [rewrite T, SA, SB; ring|ring]. }
  rewrite sqrt_sqrt; auto. rewrite Q. pose proof (pow2_ge_0 (u * a - Rr * b * cos phi)). pose proof (pow2_ge_0 (0 - Rr * b * sin phi)). pose proof (pow2_ge_0 (r + u * ms - Rr * mu)). lra.
Qed.
Print Assumptions C50_shell_direction.

(** an observer on the axis: the general formulae are the on-axis ones at height r + u *)
Theorem C50_on_axis : forall R_re r phi mu u, -1 <= mu <= 1 -> 0 <= R_re ->
  x_re_ring_mu_s R_re r phi u 1 = x_re_ring R_re (r + u) /\ x_re_shell_mu_s R_re r phi mu u 1 = x_re_shell mu R_re (r + u) /\
  (0 < x_re_shell mu R_re (r + u) -> snd (phi_mu_re_shell R_re r phi mu u 1) = mu_star_shell mu R_re (r + u)) /\
  snd (phi_mu_re_ring R_re r phi u 1) = (r + u) / x_re_ring R_re (r + u).
Proof.
  intros Rr r phi mu u H HR. assert (Z : sqrt (1 - 1 * 1) = 0) by (replace (1 - 1 * 1) with 0 by ring; apply sqrt_0).
  assert (E1 : x_re_ring_mu_s Rr r phi u 1 = x_re_ring Rr (r + u)). { unfold x_re_ring_mu_s, x_re_ring. cbv zeta. rewrite Z. f_equal. ring. }
  assert (E2 : x_re_shell_mu_s Rr r phi mu u 1 = x_re_shell mu Rr (r + u)). { unfold x_re_shell_mu_s, x_re_shell. cbv zeta. rewrite Z. f_equal. ring. }
  repeat split; auto.
  - intros Hx. destruct (C50_mu_star mu Rr (r + u) H Hx HR) as [-> _]. unfold phi_mu_re_shell. cbv zeta. cbn [snd]. rewrite E2. f_equal. ring.
  - unfold phi_mu_re_ring. cbv zeta. cbn [snd]. rewrite E1. f_equal. ring.
Qed.
Print Assumptions C50_on_axis.
Example C50_case : x_re_shell 0 3 4 = 5 /\ mu_star_shell 0 3 4 = 4 / 5 /\ x_re_ring 3 4 = 5.
Proof.
  assert (E : x_re_shell 0 3 4 = 5). { unfold x_re_shell. replace (3 ^ 2 + 4 ^ 2 - 2 * 4 * 3 * 0) with (5 * 5) by ring. apply sqrt_square. lra. }
  split; auto. split. { destruct (C50_mu_star 0 3 4) as [-> _]; try lra. rewrite E. f_equal. ring. } unfold x_re_ring. replace (3 ^ 2 + 4 ^ 2) with (5 * 5) by ring. apply sqrt_square. lra.
Qed.
