(** C51 to C53: photon targets *)
From Verif Require Import Base TEUtils ListFacts NumpyInst MathUtils Conversion Spectra Blob Geometry Targets Spec_Math Spec_Geom Spec_Thermal MathFacts SpectraFacts BlobFacts Calculus SynchFacts Props_Geometry TargetFacts.
From Coquelicot Require Import Coquelicot.
From Coq Require Import String List.
Import ListNotations.
Open Scope list_scope.
Open Scope R_scope.

(** ** C51: energy densities in the frame of the blob.  A ray at angle arccos mu
    to the motion of the blob gains the factor (Gamma (1 - beta mu))^2. *)
Lemma map_ext_in' (f g : R -> R) l : (forall a, In a l -> f a = g a) -> map f l = map g l.
Proof. apply map_ext_in. Qed.

Lemma boost_inv G beta : 0 <= beta -> 1 <= G -> G ^ 2 * (1 - beta ^ 2) = 1 -> forall u, u / (G ^ 2 * (1 + beta) ^ 2) = u * (G * (1 - beta * 1)) ^ 2.
Proof.
  intros Hb HG H u. assert (0 < G ^ 2 * (1 + beta) ^ 2) by pos. apply Rmult_eq_reg_r with (G ^ 2 * (1 + beta) ^ 2); [|lra].
  unfold Rdiv. rewrite Rmult_assoc, Rinv_l by lra. transitivity (u * (G ^ 2 * (1 - beta ^ 2)) ^ 2); [rewrite H; ring|ring].
Qed.
Theorem C51_cmb : forall P z b beta, 1 <= Gamma b -> Beta b = Ok beta ->
  exists A, is_RInt (fun mu => 1 / 2 * (Gamma b * (1 - beta * mu)) ^ 2) (-1) 1 A /\
    cmb_u (cmb_init P z) None = Ok (cmb_u_0 (cmb_init P z)) /\ cmb_u (cmb_init P z) (Some b) = Ok (cmb_u_0 (cmb_init P z) * A).
Proof.
  intros P z b beta HG HB. exists (Gamma b ^ 2 * (1 + beta ^ 2 / 3)). split; [|split; [reflexivity|]].
  - evar_last.
    + apply (is_RInt_derive (fun mu => 1 / 2 * Gamma b ^ 2 * (mu - beta * mu ^ 2 + beta ^ 2 * mu ^ 3 / 3)) (fun mu => 1 / 2 * (Gamma b * (1 - beta * mu)) ^ 2)).
      * intros x _. auto_derive; auto. simpl. field.
      * intros x _. apply (ex_derive_continuous (fun mu => 1 / 2 * (Gamma b * (1 - beta * mu)) ^ 2)). auto_derive. auto.
    + unfold minus, plus, opp. simpl. field.
  - unfold cmb_u. rewrite HB. cbn [bind]. f_equal. ring.
Qed.
Print Assumptions C51_cmb.

Theorem C51_point_source : forall P t r b beta, phys_ok P -> 0 < r -> 1 <= Gamma b -> Beta b = Ok beta ->
  ps_u P t r None = Ok (ps_L_0 t / (4 * PI * c_c P * r ^ 2)) /\
  ps_u P t r (Some b) = Ok (ps_L_0 t / (4 * PI * c_c P * r ^ 2) * (Gamma b * (1 - beta * 1)) ^ 2).
Proof.
  intros P t r b beta [] Hr HG HB. destruct (beta_props b beta HB HG) as [HB1 HB2]. unfold ps_u.
  assert (0 < 4 * PI * c_c P * r ^ 2) by pos. rewrite div_ok by lra. cbn [bind]. split; auto. rewrite HB. cbn [bind]. f_equal. apply boost_inv; auto; lra.
Qed.
Print Assumptions C51_point_source.

(** torus: the rays come from the ring, at distance x *)
Theorem C51_torus : forall P t r b beta, phys_ok P -> 0 < r -> 1 <= Gamma b -> Beta b = Ok beta ->
  let x := dist (on_sight_line r 0 1) (spherical (dt_R t) 0 0) in
  dt_u P t r None = Ok (dt_xi t * dt_L_disk t / (4 * PI * c_c P * x ^ 2)) /\
  dt_u P t r (Some b) = Ok (dt_xi t * dt_L_disk t / (4 * PI * c_c P * x ^ 2) * (Gamma b * (1 - beta * (r / x))) ^ 2).
Proof.
  intros P t r b beta [] Hr HG HB x. unfold x. rewrite <- C50_ring_distance. unfold x_re_ring, dt_u. assert (0 < r ^ 2) by pos. pose proof (pow2_ge_0 (dt_R t)).
  assert (0 < 4 * PI * c_c P * (dt_R t ^ 2 + r ^ 2)) by pos. rewrite div_ok by lra. cbn [bind]. rewrite HB. cbn [bind]. rewrite pow2_sqrt by lra. split; reflexivity.
Qed.
Print Assumptions C51_torus.
Theorem C51_torus_point_source : forall P L xi T eps0 r b, 0 < r -> (forall bl, b = Some bl -> 1 <= Gamma bl) ->
  dt_u P (dt_init P L xi T (Some 0)) r b = ps_u P {| ps_L_0 := xi * L; ps_epsilon_0 := eps0 |} r b.
Proof.
  intros P L xi T e0 r b Hr HK. destruct b as [b|].
  - specialize (HK b eq_refl). rename HK into K. destruct (Beta_exists b K) as [beta HB]. destruct (beta_props b beta HB K) as [HB1 HB2].
    unfold dt_u, dt_init, ps_u. cbn [dt_R dt_xi dt_L_disk ps_L_0]. replace (0 ^ 2 + r ^ 2) with (r ^ 2) by ring. destruct (div_res (xi * L) (4 * PI * c_c P * r ^ 2)) as [u|e]; cbn [bind]; auto. rewrite HB. cbn [bind]. f_equal.
    rewrite sqrt_pow2 by lra. replace (r / r) with 1 by (field; lra). symmetry. apply boost_inv; auto; lra.
  - unfold dt_u, dt_init, ps_u. cbn [dt_R dt_xi dt_L_disk ps_L_0]. replace (0 ^ 2 + r ^ 2) with (r ^ 2) by ring. reflexivity.
Qed.
Print Assumptions C51_torus_point_source.

(** disk: the ray at angle arccos mu comes from radius r tan(arccos mu) and carries sigma T^4 / (c mu) *)
Definition disk_ray (P : phys) (d : ssdisk) (r mu : R) : R :=
  c_sigmaSB P * evaluate_T P (r * tan (acos mu)) (sd_M_BH d) (sd_m_dot d) (sd_R_in d) ^ 4 / (c_c P * mu).
Lemma tan_acos mu : 0 < mu -> mu < 1 -> tan (acos mu) = sqrt (/ mu ^ 2 - 1).
Proof.
  intros H0 H1. unfold tan. rewrite cos_acos, sin_acos by lra. unfold Rsqr. replace (/ mu ^ 2 - 1) with ((1 - mu * mu) / mu ^ 2) by (field; lra).
  rewrite sqrt_div; [|nra|apply pow_lt; auto]. rewrite sqrt_pow2 by lra. reflexivity.
Qed.
Lemma npow_4 x : 0 < x -> npow x (1 / 4) ^ 4 = x.
Proof. intros H. unfold npow. rewrite <- Rpower_pow by (apply exp_pos). rewrite Rpower_mult. replace (1 / 4 * INR 4) with 1 by (simpl; lra). apply Rpower_1. auto. Qed.
Lemma npow_32 x : 0 < x -> npow x (- (3) / 2) = / (sqrt x) ^ 3.
Proof.
  intros H. unfold npow. replace (- (3) / 2) with (- (/ 2 * INR 3)) by (simpl; lra). rewrite Rpower_Ropp. f_equal. rewrite <- Rpower_mult, Rpower_sqrt by auto. rewrite Rpower_pow by (apply sqrt_lt_R0; auto). reflexivity.
Qed.
Lemma sigma_T4 P r M md ri : phys_ok P -> 0 < M -> 0 < md -> 0 < ri -> ri <= r ->
  c_sigmaSB P * evaluate_T P r M md ri ^ 4 = 3 * c_G P * M * md * (1 - sqrt (ri / r)) / (8 * PI * r ^ 3).
Proof.
  intros HP HM Hm Hi Hr. pose proof HP as []. unfold evaluate_T. cbv zeta. pose proof PI_RGT_0. assert (0 < r ^ 3) by pos. assert (0 < 8 * PI * r ^ 3 * c_sigmaSB P) by pos.
  set (phi := 1 - sqrt (ri / r)). pose proof (phi_range ri r Hi Hr) as Hphi. fold phi in Hphi. destruct (Reqb_spec (3 * c_G P * M * md * phi / (8 * PI * r ^ 3 * c_sigmaSB P)) 0) as [E|E].
  - destruct (Req_dec phi 0) as [->|N]. { field. split; lra. } exfalso. revert E. apply Rgt_not_eq. red. assert (0 < phi) by lra. pos.
  - rewrite npow_4. { field. repeat split; lra. } assert (0 <= 3 * c_G P * M * md * phi / (8 * PI * r ^ 3 * c_sigmaSB P)) by pos. lra.
Qed.
Lemma integrand_eq P d M L eta ri ro rg u r m : phys_ok P -> ssdisk_init P M L eta ri ro u = Ok d -> rg = sd_R_g d ->
  0 < M -> 0 < L -> 0 < eta -> 0 < sd_R_in d -> sd_R_in d < sd_R_out d -> 0 < r -> In m (evaluate_mu_from_r_tilde (sd_R_in_tilde d) (sd_R_out_tilde d) (r / rg) 100) ->
  3 * sd_l_Edd d * sd_L_Edd d * sd_R_g d / (8 * PI * c_c P * sd_eta d * r ^ 3) * (1 / m * npow (/ m ^ 2 - 1) (- (3) / 2) * evaluate_phi_disk_mu m (sd_R_in_tilde d) (r / rg)) = disk_ray P d r m.
Proof.
  intros HP Hd Hrg HM HL He Hi Ho Hr Hm. pose proof HP as []. pose proof PI_RGT_0. assert (Hms : 0 < 1e8 * M_sun) by (unfold M_sun; lra).
  assert (Hrg0 : sd_R_g d = c_G P * M / c_c P ^ 2 /\ sd_l_Edd d * sd_L_Edd d = L /\ sd_M_BH d = M /\ sd_m_dot d = L / (eta * c_c P ^ 2) /\ sd_eta d = eta /\ sd_R_in d = sd_R_in_tilde d * sd_R_g d /\ sd_R_out d = sd_R_out_tilde d * sd_R_g d).
  { assert (K : 0 < 1.26 * 1e46 * (M / (1e8 * M_sun))) by pos. assert (K2 : 0 < c_G P * M / c_c P ^ 2) by pos. assert (Q : forall x, x = x / (c_G P * M / c_c P ^ 2) * (c_G P * M / c_c P ^ 2)) by (intros x; field; repeat split; lra).
    unfold ssdisk_init in Hd. destruct u, ri as [a|a], ro as [c|c]; try discriminate; apply (f_equal (fun x => match x with Ok y => y | Err _ => d end)) in Hd; cbv beta iota in Hd; rewrite <- Hd; cbn [sd_R_g sd_l_Edd sd_L_Edd sd_M_BH sd_m_dot sd_eta sd_R_in sd_R_in_tilde sd_R_out sd_R_out_tilde];
      (repeat split; try reflexivity; try apply Q); (unfold Rdiv at 1; rewrite Rmult_assoc, Rinv_l by lra; ring). }
  destruct Hrg0 as (E1 & E2 & E3 & E4 & E5 & E6 & E7). assert (Hrgp : 0 < sd_R_g d) by (rewrite E1; pos). subst rg.
  assert (Hit : 0 < sd_R_in_tilde d) by (rewrite E6 in Hi; apply Rmult_lt_reg_r with (sd_R_g d); lra).
  assert (Hot : sd_R_in_tilde d < sd_R_out_tilde d) by (rewrite E6, E7 in Ho; apply Rmult_lt_reg_r with (sd_R_g d); lra).
  apply mu_grid_in in Hm; auto; [|pos]. destruct Hm as (Hm1 & _ & Hm2). unfold radius_of in Hm2.
  unfold disk_ray. rewrite tan_acos by lra. assert (Hx : 0 < / m ^ 2 - 1). { assert (1 < / m ^ 2); [|lra]. rewrite <- Rinv_1 at 1. apply Rinv_lt_contravar; [|nra]. assert (0 < m ^ 2) by pos. lra. }
  rewrite npow_32 by auto. unfold evaluate_phi_disk_mu. set (q := sqrt (/ m ^ 2 - 1)) in *. assert (Hq : 0 < q) by (unfold q; pos).
  assert (HR : sd_R_in d <= r * q). { rewrite E6. replace (r * q) with (r / sd_R_g d * q * sd_R_g d) by (field; lra). apply Rmult_le_compat_r; lra. }
  rewrite sigma_T4; auto; [|rewrite E3; auto|rewrite E4; assert (0 < c_c P ^ 2) by pos; pos].
  assert (Hrat : sd_R_in_tilde d / (r / sd_R_g d * q) = sd_R_in d / (r * q)) by (rewrite E6; field; repeat split; lra). cbv zeta. rewrite Hrat.
  rewrite (Rmult_assoc 3), E2, E1, E3, E4, E5. field. repeat split; try lra.
Qed.
Theorem C51_disk : forall P M L eta R_in R_out units d r b beta, phys_ok P -> ssdisk_init P M L eta R_in R_out units = Ok d ->
  0 < M -> 0 < L -> 0 < eta -> 0 < sd_R_in d -> sd_R_in d < sd_R_out d -> 0 < r -> 1 <= Gamma b -> Beta b = Ok beta ->
  let mus := linspace (r / sqrt (r ^ 2 + sd_R_out d ^ 2)) (r / sqrt (r ^ 2 + sd_R_in d ^ 2)) 100 in
  ssdisk_u P d r None = Ok (trapz (map (disk_ray P d r) mus) mus) /\
  ssdisk_u P d r (Some b) = Ok (trapz (map (fun mu => disk_ray P d r mu * (Gamma b * (1 - beta * mu)) ^ 2) mus) mus).
Proof.
  intros P M L eta ri ro un d r b beta HP Hd HM HL He Hi Ho Hr HG HB mus. pose proof HP as []. assert (Hms : 0 < 1e8 * M_sun) by (unfold M_sun; lra).
  destruct (beta_props b beta HB HG) as [HB1 HB2].
  assert (Hrg0 : sd_R_g d = c_G P * M / c_c P ^ 2 /\ sd_R_in d = sd_R_in_tilde d * sd_R_g d /\ sd_R_out d = sd_R_out_tilde d * sd_R_g d).
  { assert (K2 : 0 < c_G P * M / c_c P ^ 2) by pos. assert (Q : forall x, x = x / (c_G P * M / c_c P ^ 2) * (c_G P * M / c_c P ^ 2)) by (intros x; field; repeat split; lra).
    unfold ssdisk_init in Hd. destruct un, ri as [a|a], ro as [c|c]; try discriminate; apply (f_equal (fun x => match x with Ok y => y | Err _ => d end)) in Hd; cbv beta iota in Hd; rewrite <- Hd; cbn [sd_R_g sd_R_in sd_R_in_tilde sd_R_out sd_R_out_tilde]; (repeat split; try reflexivity; try apply Q). }
  destruct Hrg0 as (E1 & E6 & E7). assert (Hrgp : 0 < sd_R_g d) by (rewrite E1; pos).
  assert (Hmus : evaluate_mu_from_r_tilde (sd_R_in_tilde d) (sd_R_out_tilde d) (r / sd_R_g d) 100 = mus).
  { unfold mus, evaluate_mu_from_r_tilde. cbv zeta. rewrite <- !mu_of_eq by auto. unfold mu_of. rewrite E6, E7. assert (Q : forall x, x / (r / sd_R_g d) = x * sd_R_g d / r) by (intros; field; split; lra). rewrite !Q. reflexivity. }
  unfold ssdisk_u. cbv zeta. set (pre := 3 * sd_l_Edd d * sd_L_Edd d * sd_R_g d / (8 * PI * c_c P * sd_eta d * r ^ 3)). rewrite HB. cbn [bind].
  assert (K : forall m, In m mus -> pre * (1 / m * npow (/ m ^ 2 - 1) (- (3) / 2) * evaluate_phi_disk_mu m (sd_R_in_tilde d) (r / sd_R_g d)) = disk_ray P d r m /\ 0 < m < 1).
  { intros m Hm. split. { unfold pre. apply (integrand_eq P d M L eta ri ro (sd_R_g d) un r m); auto. rewrite Hmus. auto. }
    rewrite <- Hmus in Hm. apply mu_grid_in in Hm; [tauto|pos| |]. rewrite E6 in Hi; apply Rmult_lt_reg_r with (sd_R_g d); lra. rewrite E6, E7 in Ho; apply Rmult_lt_reg_r with (sd_R_g d); lra. }
  rewrite Hmus. split; f_equal; rewrite <- trapz_scale, map_map; f_equal; apply map_ext_in'; intros m Hm; destruct (K m Hm) as [K1 K2].
  - exact K1.
  - rewrite <- K1, <- Rmult_assoc. rewrite !Rmult_assoc. do 4 f_equal. assert (0 < 1 - beta * m) by nra.
    assert (E : 1 + beta * ((m - beta) / (1 - beta * m)) = (1 - beta ^ 2) / (1 - beta * m)) by (field; lra). rewrite E.
    assert (G2 : 1 - beta ^ 2 = / Gamma b ^ 2). { apply Rmult_eq_reg_l with (Gamma b ^ 2). rewrite HB2, Rinv_r; auto. all: apply pow_nonzero; lra. } rewrite G2. field. lra.
Qed.
Print Assumptions C51_disk.

(** BLR: shell elements at polar cosine mu emit xi L_disk / (8 pi c x^2); the code takes the absolute value of the direction cosine mu_star *)
Definition blr_sum (P : phys) (t : blr) (r : R) (f : R -> R) : R :=
  blr_xi t * blr_L_disk t / (8 * PI * c_c P) * trapz (map (fun mu => 1 / dist (on_sight_line r 0 1) (spherical (blr_R_line t) mu 0) ^ 2 * f mu) (linspace (-1) 1 50)) (linspace (-1) 1 50).
Definition blr_direction (t : blr) (r mu : R) : R := (r - blr_R_line t * mu) / dist (on_sight_line r 0 1) (spherical (blr_R_line t) mu 0).
Lemma shell_x2 R_ r m : 0 < R_ -> 0 <= r -> -1 <= m <= 1 -> r <> R_ -> 0 < r ^ 2 + R_ ^ 2 - 2 * r * R_ * m.
Proof.
  intros HR Hr Hm Hne. assert (0 <= r * R_ * (1 - m)) by pos. assert (0 < (r - R_) ^ 2); [|nra]. pose proof (pow2_ge_0 (r - R_)). assert (r - R_ <> 0) by lra. pose proof (pow_nonzero (r - R_) 2 ltac:(auto)). lra.
Qed.
Lemma blr_u_eq P t r b beta : 0 < blr_R_line t -> 0 <= r -> r <> blr_R_line t -> Beta b = Ok beta ->
  blr_u P t r None = Ok (blr_sum P t r (fun _ => 1)) /\ blr_u P t r (Some b) = Ok (blr_sum P t r (fun mu => (Gamma b * (1 - beta * Rabs (blr_direction t r mu))) ^ 2)).
Proof.
  intros HR Hr Hne HB. unfold blr_u, blr_sum. cbv zeta. rewrite HB. cbn [bind].
  assert (K : forall m, In m (linspace (-1) 1 50) -> dist (on_sight_line r 0 1) (spherical (blr_R_line t) m 0) ^ 2 = r ^ 2 + blr_R_line t ^ 2 - 2 * r * blr_R_line t * m /\ 0 < dist (on_sight_line r 0 1) (spherical (blr_R_line t) m 0) /\
     sqrt (1 - blr_R_line t ^ 2 / (r ^ 2 + blr_R_line t ^ 2 - 2 * r * blr_R_line t * m) * (1 - m ^ 2)) = Rabs (blr_direction t r m)).
  { intros m Hm. apply linspace_in in Hm; [|lra]. pose proof (shell_x2 (blr_R_line t) r m HR Hr Hm Hne) as X. assert (E : r ^ 2 + blr_R_line t ^ 2 - 2 * r * blr_R_line t * m = blr_R_line t ^ 2 + r ^ 2 - 2 * r * blr_R_line t * m) by ring.
    unfold blr_direction. rewrite <- (C50_shell_distance m (blr_R_line t) r 0 Hm). assert (X2 : x_re_shell m (blr_R_line t) r ^ 2 = r ^ 2 + blr_R_line t ^ 2 - 2 * r * blr_R_line t * m) by (unfold x_re_shell; rewrite <- E; apply pow2_sqrt; lra).
    assert (X0 : 0 < x_re_shell m (blr_R_line t) r) by (unfold x_re_shell; rewrite <- E; pos). split; [|split]; auto. rewrite <- X2. set (x := x_re_shell m (blr_R_line t) r) in *.
    rewrite <- sqrt_Rsqr_abs. f_equal. unfold Rsqr. apply Rmult_eq_reg_r with (x ^ 2); [|apply pow_nonzero; lra].
    replace ((r - blr_R_line t * m) / x * ((r - blr_R_line t * m) / x) * x ^ 2) with ((r - blr_R_line t * m) ^ 2) by (field; lra).
    replace ((1 - blr_R_line t ^ 2 / x ^ 2 * (1 - m ^ 2)) * x ^ 2) with (x ^ 2 - blr_R_line t ^ 2 * (1 - m ^ 2)) by (field; lra). rewrite X2. ring. }
  split; do 3 f_equal; apply map_ext_in'; intros m Hm; destruct (K m Hm) as (K1 & K2 & K3).
  - rewrite K1. ring.
  - rewrite K3, K1. f_equal. ring.
Qed.
Theorem C51_blr_outside : forall P t r b beta, 0 < blr_R_line t -> blr_R_line t < r -> Beta b = Ok beta ->
  blr_u P t r None = Ok (blr_sum P t r (fun _ => 1)) /\ blr_u P t r (Some b) = Ok (blr_sum P t r (fun mu => (Gamma b * (1 - beta * blr_direction t r mu)) ^ 2)).
Proof.
  intros P t r b beta HR Hr HB. destruct (blr_u_eq P t r b beta HR ltac:(lra) ltac:(lra) HB) as [E1 E2]. split; auto. rewrite E2. unfold blr_sum. do 3 f_equal. apply map_ext_in'. intros m Hm. apply linspace_in in Hm; [|lra].
  rewrite Rabs_pos_eq; auto. unfold blr_direction. assert (0 < dist (on_sight_line r 0 1) (spherical (blr_R_line t) m 0)). { rewrite <- (C50_shell_distance m (blr_R_line t) r 0 Hm). unfold x_re_shell. apply sqrt_lt_R0. pose proof (shell_x2 (blr_R_line t) r m HR ltac:(lra) Hm ltac:(lra)). lra. }
  apply Rdiv_le_0_compat; auto. nra.
Qed.
Print Assumptions C51_blr_outside.
(** inside the shell the sign of the direction is lost: the density in the frame of the blob comes out too small *)
Theorem C51_blr_inside : forall P t r b beta, phys_ok P -> 0 < blr_xi t * blr_L_disk t -> 0 <= r -> r < blr_R_line t -> 1 <= Gamma b -> 0 < beta -> Beta b = Ok beta ->
  exists u, blr_u P t r (Some b) = Ok u /\ u < blr_sum P t r (fun mu => (Gamma b * (1 - beta * blr_direction t r mu)) ^ 2).
Proof.
  intros P t r b beta [] HL Hr HR HG Hb HB. destruct (blr_u_eq P t r b beta ltac:(lra) Hr ltac:(lra) HB) as [E1 E2]. rewrite E2. eexists. split; [reflexivity|]. unfold blr_sum. destruct (beta_props b beta HB HG) as [HB1 HB2].
  apply Rmult_lt_compat_l. { apply Rdiv_lt_0_compat; auto. pos. }
  assert (Hx : forall m, -1 <= m <= 1 -> 0 < dist (on_sight_line r 0 1) (spherical (blr_R_line t) m 0)).
  { intros m Hm. rewrite <- (C50_shell_distance m (blr_R_line t) r 0 Hm). unfold x_re_shell. apply sqrt_lt_R0. pose proof (shell_x2 (blr_R_line t) r m ltac:(lra) ltac:(lra) Hm ltac:(lra)). lra. }
  assert (Hd : forall m, -1 <= m <= 1 -> -1 <= blr_direction t r m <= 1).
  { intros m Hm. unfold blr_direction. specialize (Hx m Hm). rewrite <- (C50_shell_distance m (blr_R_line t) r 0 Hm) in *. destruct (C50_mu_star m (blr_R_line t) r Hm Hx ltac:(lra)) as [<- B]. exact B. }
  assert (Hpt : forall m, -1 <= m <= 1 -> 1 / dist (on_sight_line r 0 1) (spherical (blr_R_line t) m 0) ^ 2 * (Gamma b * (1 - beta * Rabs (blr_direction t r m))) ^ 2 <=
      1 / dist (on_sight_line r 0 1) (spherical (blr_R_line t) m 0) ^ 2 * (Gamma b * (1 - beta * blr_direction t r m)) ^ 2).
  { intros m Hm. specialize (Hx m Hm). specialize (Hd m Hm). apply Rmult_le_compat_l. { left. pos. } rewrite !Rpow_mult_distr. apply Rmult_le_compat_l; [pos|]. unfold Rabs. destruct (Rcase_abs _); nra. }
  apply trapz_strict_last.
  - apply linspace_incr. lra.
  - rewrite map_length. reflexivity.
  - assert (G : forall m, In m (linspace (-1) 1 50) -> -1 <= m <= 1) by (intros; apply (linspace_in _ _ 50); auto; lra). revert G. induction (linspace (-1) 1 50) as [|m l IH]; intros G; [constructor|]. cbn [map]. constructor. apply Hpt, G; left; auto. apply IH. intros; apply G; right; auto.
  - rewrite linspace_length. lia.
  - assert (EL := linspace_last (-1) 1 50 ltac:(lia)). assert (LL : forall (f : R -> R) l x, nth_error l (length l - 1) = Some x -> last (map f l) 0 = f x).
    { intros f l. induction l as [|a l IH]; intros x Hx'; [discriminate|]. destruct l as [|a' l]; [simpl in *; congruence|]. change (last (map f (a :: a' :: l)) 0) with (last (map f (a' :: l)) 0). apply IH. simpl length in *. replace (S (S (length l)) - 1)%nat with (S (S (length l) - 1)) in Hx' by lia. exact Hx'. }
    rewrite !(LL _ _ 1) by (rewrite linspace_length; exact EL). clear LL. cbv beta. specialize (Hx 1 ltac:(lra)). apply Rmult_lt_compat_l. { pos. } rewrite !Rpow_mult_distr. apply Rmult_lt_compat_l; [pos|].
    assert (D : blr_direction t r 1 < 0). { unfold blr_direction. assert (0 < / dist (on_sight_line r 0 1) (spherical (blr_R_line t) 1 0)) by pos. unfold Rdiv. nra. } pose proof (Hd 1 ltac:(lra)). rewrite Rabs_left by auto. nra.
Qed.
Print Assumptions C51_blr_inside.

(** ** C52: the geometry of the disk *)
Theorem C52_mu_grid : forall R_in R_out r size, 0 < r -> 0 < R_in -> R_in < R_out ->
  let mus := evaluate_mu_from_r_tilde R_in R_out r size in
  incr mus /\ length mus = size /\
  (forall mu, In mu mus -> 0 < mu < 1 /\ R_in <= r * tan (acos mu) <= R_out /\ 0 <= evaluate_phi_disk_mu mu R_in r < 1 /\
     evaluate_phi_disk_mu mu R_in r = 1 - sqrt (R_in / (r * tan (acos mu)))) /\
  ((1 < size)%nat -> exists first last, nth_error mus 0 = Some first /\ nth_error mus (size - 1) = Some last /\ r * tan (acos first) = R_out /\ r * tan (acos last) = R_in).
Proof.
  intros ri ro r n Hr Hi Ho mus. split; [apply mu_grid_incr; auto|]. split; [apply linspace_length|]. split.
  - intros m Hm. apply mu_grid_in in Hm; auto. destruct Hm as (H1 & _ & H2). unfold radius_of in H2. rewrite tan_acos by lra. unfold evaluate_phi_disk_mu. cbv zeta. split; auto. split; auto. split; auto. apply phi_range; lra.
  - intros Hn. exists (mu_of r ro), (mu_of r ri). unfold mus, evaluate_mu_from_r_tilde. cbv zeta. fold (mu_of r ri) (mu_of r ro). pose proof (mu_of_range r ri Hr Hi). pose proof (mu_of_range r ro Hr ltac:(lra)).
    split; [apply linspace_first; lia|]. split; [apply linspace_last; auto|]. rewrite !tan_acos by lra. split; [apply (radius_mu r ro)|apply (radius_mu r ri)]; auto; lra.
Qed.
Print Assumptions C52_mu_grid.
Theorem C52_units : forall P M L eta a b, phys_ok P -> 0 < M ->
  ssdisk_init P M L eta (Plain a) (Plain b) true = ssdisk_init P M L eta (Quantity (a * R_g P M)) (Quantity (b * R_g P M)) false.
Proof.
  intros P M L eta a b [] HM. unfold ssdisk_init, R_g. cbv zeta. assert (0 < c_c P ^ 2) by pos. assert (0 < c_G P * M / c_c P ^ 2) by pos. set (g := c_G P * M / c_c P ^ 2) in *.
  do 2 f_equal; unfold Rdiv; rewrite Rmult_assoc, Rinv_r by lra; ring.
Qed.
Print Assumptions C52_units.
Theorem C52_argument_kinds : forall P M L eta R_in R_out units, (exists d, ssdisk_init P M L eta R_in R_out units = Ok d) <->
  (units = true /\ exists a b, R_in = Plain a /\ R_out = Plain b) \/ (units = false /\ exists a b, R_in = Quantity a /\ R_out = Quantity b).
Proof.
  intros. unfold ssdisk_init. cbv zeta. split.
  - intros [d H]. destruct units, R_in as [a|a], R_out as [b|b]; try discriminate; [left|right]; eauto.
  - intros [(-> & a & b & -> & ->)|(-> & a & b & -> & ->)]; eauto.
Qed.
Print Assumptions C52_argument_kinds.
Theorem C52_type_error : forall P M L eta R_in R_out units e, ssdisk_init P M L eta R_in R_out units = Err e -> exists msg, e = TypeError msg.
Proof. intros. unfold ssdisk_init in H. cbv zeta in H. destruct units, R_in, R_out; try discriminate; inversion H; eauto. Qed.
Print Assumptions C52_type_error.

(** ** C53 *)
Lemma disk_nu_pos n : In n disk_nu_to_integrate -> 0 < n.
Proof. apply logspace_pos. Qed.
Lemma multi_T_mu_s P nu z M md ri ro dl ms : evaluate_multi_T_bb_sed P nu z M md ri ro dl ms = ms * evaluate_multi_T_bb_sed P nu z M md ri ro dl 1.
Proof. unfold evaluate_multi_T_bb_sed. cbv zeta. ring. Qed.
Lemma grid_integral_pos P z M md ri ro dl ms : phys_ok P -> 0 < 1 + z -> 0 < M -> 0 < md -> 0 < ri -> ri < ro -> 0 < dl -> 0 < ms ->
  0 < trapz (map (fun n => evaluate_multi_T_bb_sed P n z M md ri ro dl ms / n) disk_nu_to_integrate) disk_nu_to_integrate.
Proof.
  intros. apply trapz_all_pos.
  - apply logspace_incr. lra.
  - unfold disk_nu_to_integrate. rewrite logspace_length. lia.
  - rewrite map_length. auto.
  - intros v Hv. apply in_map_iff in Hv. destruct Hv as (n & <- & Hn). apply disk_nu_pos in Hn. apply Rdiv_lt_0_compat; auto. apply multi_T_pos; auto.
Qed.
(** the SED on the integration grid of the code; F_nu = SED / nu; two sides, 4 pi d_L^2 *)
Theorem C53_disk_luminosity : forall P d z dl mu_s, phys_ok P -> 0 < 1 + z -> 0 < sd_M_BH d -> 0 < sd_m_dot d -> 0 < sd_R_in d -> sd_R_in d < sd_R_out d -> 0 < dl -> 0 < mu_s ->
  exists sed, ssdisk_sed_flux P d (np_logspace 3 21 100) z dl mu_s = Ok sed /\
    2 * (4 * PI * dl ^ 2) * trapz (map2 Rdiv sed (np_logspace 3 21 100)) (np_logspace 3 21 100) = sd_L_disk d.
Proof.
  intros P d z dl ms HP Hz HM Hm Hi Ho Hd Hs. unfold ssdisk_sed_flux, evaluate_multi_T_bb_norm_sed. cbv zeta. fold disk_nu_to_integrate.
  pose proof (grid_integral_pos P z _ _ _ _ dl ms HP Hz HM Hm Hi Ho Hd Hs) as HI. set (I := trapz _ disk_nu_to_integrate) in *. assert (HA : 0 < 4 * PI * dl ^ 2) by pos. assert (HL : 0 < 2 * (I * (4 * PI * dl ^ 2))) by pos.
  rewrite div_ok by lra. cbn [bind]. eexists. split; [reflexivity|]. rewrite map2_map_map. set (nm := sd_L_disk d / (2 * (I * (4 * PI * dl ^ 2)))).
  rewrite (map_ext _ (fun n => nm * (evaluate_multi_T_bb_sed P n z (sd_M_BH d) (sd_m_dot d) (sd_R_in d) (sd_R_out d) dl ms / n))) by (intros; unfold Rdiv; ring).
  rewrite <- (map_map _ (Rmult nm)), trapz_scale. fold I. unfold nm. field. repeat split; try lra. apply PI_neq0.
Qed.
Print Assumptions C53_disk_luminosity.
Theorem C53_disk_mu_s : forall P d nu z dl mu_s mu_s', mu_s <> 0 -> mu_s' <> 0 -> ssdisk_sed_flux P d nu z dl mu_s = ssdisk_sed_flux P d nu z dl mu_s'.
Proof.
  assert (K : forall P d nu z dl ms, ms <> 0 -> ssdisk_sed_flux P d nu z dl ms = ssdisk_sed_flux P d nu z dl 1).
  { intros P d nu z dl ms H. unfold ssdisk_sed_flux, evaluate_multi_T_bb_norm_sed. cbv zeta.
    set (f := fun n => evaluate_multi_T_bb_sed P n z (sd_M_BH d) (sd_m_dot d) (sd_R_in d) (sd_R_out d) dl 1).
    assert (E : map (fun n => evaluate_multi_T_bb_sed P n z (sd_M_BH d) (sd_m_dot d) (sd_R_in d) (sd_R_out d) dl ms / n) disk_nu_to_integrate = map (Rmult ms) (map (fun n => f n / n) disk_nu_to_integrate)).
    { rewrite map_map. apply map_ext. intros n. rewrite multi_T_mu_s. unfold f, Rdiv. ring. } rewrite E, trapz_scale.
    set (I := trapz (map (fun n => f n / n) disk_nu_to_integrate) disk_nu_to_integrate). change (trapz (map (fun n => evaluate_multi_T_bb_sed P n z (sd_M_BH d) (sd_m_dot d) (sd_R_in d) (sd_R_out d) dl 1 / n) disk_nu_to_integrate) disk_nu_to_integrate) with I. unfold div_res. set (A := 4 * PI * dl ^ 2).
    destruct (Reqb_spec (2 * (I * A)) 0) as [Z|Z].
    - rewrite (proj2 (Reqb_true (2 * (ms * I * A)) 0)); [reflexivity|]. replace (2 * (ms * I * A)) with (ms * (2 * (I * A))) by ring. rewrite Z. ring.
    - assert (Z2 : ms * (2 * (I * A)) <> 0) by (apply Rmult_integral_contrapositive; auto). rewrite (proj2 (Reqb_false (2 * (ms * I * A)) 0)) by (replace (2 * (ms * I * A)) with (ms * (2 * (I * A))) by ring; auto). cbn [bind]. f_equal. apply map_ext. intros n. rewrite multi_T_mu_s. fold (f n).
      assert (I <> 0 /\ A <> 0) as [HI HA] by (split; intros Q; apply Z; rewrite Q; ring). field. repeat split; auto. }
  intros. rewrite K by auto. symmetry. apply K. auto.
Qed.
Print Assumptions C53_disk_mu_s.
(** seen edge-on the normalisation is 0/0 *)
Theorem C53_disk_edge_on : forall P d nu z dl, ssdisk_sed_flux P d nu z dl 0 = Err NonFinite.
Proof.
  intros. unfold ssdisk_sed_flux, evaluate_multi_T_bb_norm_sed. cbv zeta.
  assert (E : map (fun n => evaluate_multi_T_bb_sed P n z (sd_M_BH d) (sd_m_dot d) (sd_R_in d) (sd_R_out d) dl 0 / n) disk_nu_to_integrate = map (Rmult 0) disk_nu_to_integrate).
  { apply map_ext. intros n. rewrite multi_T_mu_s. unfold Rdiv. ring. } rewrite E, trapz_scale. unfold div_res. rewrite (proj2 (Reqb_true _ 0)); [reflexivity|ring].
Qed.
Print Assumptions C53_disk_edge_on.
Lemma black_body_planck P nu T : phys_ok P -> black_body P nu T = planck P nu T.
Proof. intros []. unfold black_body, planck. destruct (Reqb T 0); auto. assert (c_c P ^ 2 <> 0) by (apply pow_nonzero; lra). unfold Rdiv. rewrite Rinv_mult. ring. Qed.
Theorem C53_torus : forall P t nu z dl, phys_ok P -> 0 < dt_R t -> 0 < dt_T t -> 0 < dl ->
  dt_sed_flux P t nu z dl = map (fun n => dt_xi t * dt_L_disk t / (4 * PI * dt_R t ^ 2 * (c_sigmaSB P * dt_T t ^ 4)) * (PI * dt_R t ^ 2 / dl ^ 2 * n * planck P (n * (1 + z)) (dt_T t))) nu.
Proof. intros P t nu z dl HP HR HT Hd. unfold dt_sed_flux, evaluate_bb_norm_sed, evaluate_bb_sed. cbv zeta. apply map_ext. intros n. rewrite black_body_planck by auto. destruct HP. field. repeat split; try lra. apply PI_neq0. Qed.
Print Assumptions C53_torus.
Theorem C53_torus_radius : forall P L xi T R1 R2 nu z dl, phys_ok P -> 0 < R1 -> 0 < R2 -> 0 < T -> 0 < dl ->
  dt_sed_flux P (dt_init P L xi T (Some R1)) nu z dl = dt_sed_flux P (dt_init P L xi T (Some R2)) nu z dl.
Proof. intros P L xi T R1 R2 nu z dl HP H1 H2 HT Hd. pose proof HP as []. rewrite !C53_torus by auto. unfold dt_init. cbn [dt_xi dt_L_disk dt_R dt_T]. apply map_ext. intros n. field. repeat split; try lra. apply PI_neq0. Qed.
Print Assumptions C53_torus_radius.

(** ** concrete cases *)
Definition ex_disk : res ssdisk := ssdisk_init codata (1e8 * M_sun) 1e46 (1 / 12) (Plain 6) (Plain 200) true.
Example C51_C53_case : exists d, ex_disk = Ok d /\ 0 < sd_M_BH d /\ 0 < sd_L_disk d /\ 0 < sd_m_dot d /\ 0 < sd_R_in d /\ sd_R_in d < sd_R_out d.
Proof.
  pose proof codata_ok as []. eexists. split; [reflexivity|]. cbn [sd_M_BH sd_L_disk sd_m_dot sd_R_in sd_R_out]. assert (0 < 1e8 * M_sun) by (unfold M_sun; lra). set (M := 1e8 * M_sun) in *. assert (0 < c_G codata * M / c_c codata ^ 2) by pos.
  split; auto. split; [lra|]. split. { assert (0 < 1 / 12) by lra. assert (0 < c_c codata ^ 2) by pos. assert (0 < 1e46) by lra. pos. } split; nra.
Qed.
Example C51_blr_case : exists t b beta, blr_init codata 1e45 (1 / 10) "Lyalpha" 1e17 = Ok t /\ Gamma b = 5 / 3 /\ Beta b = Ok beta /\ beta = 4 / 5 /\ 0 < blr_xi t * blr_L_disk t /\ 5e16 < blr_R_line t.
Proof.
  eexists. exists {| R_b := 1; redshift := 0; d_L := 1; delta_D := 1; Gamma := 5 / 3; B_field := 1; n_e := PowerLaw 1 2 10 100; n_p_opt := None; xi := 1; gamma_e_size := 10; gamma_p_size := 10 |}, (4 / 5).
  split; [reflexivity|]. cbn [Gamma blr_xi blr_L_disk blr_R_line]. split; auto. split; [|repeat split; lra]. unfold Beta. cbn [Gamma]. rewrite div_ok by lra. cbn [bind]. rewrite sqrt_ok by lra. f_equal. replace (1 - 1 / (5 / 3) ^ 2) with ((4 / 5) ^ 2) by lra. apply sqrt_pow2. lra.
Qed.
Example C52_case : incr (evaluate_mu_from_r_tilde 6 200 100 100) /\ exists first, nth_error (evaluate_mu_from_r_tilde 6 200 100 100) 0 = Some first /\ 100 * tan (acos first) = 200.
Proof. destruct (C52_mu_grid 6 200 100 100 ltac:(lra) ltac:(lra) ltac:(lra)) as (A & _ & _ & B). split; auto. destruct (B ltac:(lia)) as (f & l & H1 & _ & H2 & _). eauto. Qed.
