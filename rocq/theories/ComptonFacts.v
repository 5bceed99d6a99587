(** Facts about the Compton kernels and the Klein-Nishina factor *)
From Verif Require Import Base TEUtils NumpyInst MathUtils Conversion Spectra Blob Synchrotron Geometry Kernels SSC Spec_Math Spec_Rad Spec_Blob MathFacts SpectraFacts BlobFacts Calculus SynchFacts SynchFacts2.
From Coquelicot Require Import Coquelicot.
Import ListNotations.
Open Scope list_scope.
Open Scope R_scope.

(** ** Klein-Nishina factor *)
Lemma ln10_le3 : ln 10 <= 3.
Proof.
  rewrite <- (ln_exp 3). apply Rcomplements.ln_le; [lra|]. replace 3 with (1/2+1/2+1/2+1/2+1/2+1/2) by lra. rewrite !exp_plus.
  pose proof (exp_ge (1/2)). assert (1.5 <= exp (1/2)) by lra. set (e := exp (1/2)) in *. assert (2.25 <= e * e) by nra. assert (5 <= e * e * (e * e)) by nra. nra.
Qed.
Lemma ln10_ge1 : 1 <= ln 10.
Proof. rewrite <- (ln_exp 1). apply Rcomplements.ln_le; [apply exp_pos|]. pose proof exp_le_3. lra. Qed.
Lemma ln1e4 : ln (10 ^ 4) = 4 * ln 10.
Proof. rewrite ln_pow by lra. simpl. lra. Qed.
Lemma e4_repr : representable (10 ^ 4).
Proof.
  unfold representable. split.
  - apply Rle_trans with 1; [|simpl; lra]. left. apply ftiny_lt_1.
  - apply Rle_trans with (2 ^ 1023). 2:{ unfold fmax. assert (0 < / 2 ^ 52) by (apply Rinv_0_lt_compat, pow_lt; lra). assert (/ 2 ^ 52 <= 1). { rewrite <- Rinv_1. apply Rinv_le_contravar; [lra|]. apply pow_R1_Rle; lra. } assert (0 < 2 ^ 1023) by (apply pow_lt; lra). nra. }
    apply Rle_trans with (2 ^ 14); [simpl; lra|]. apply Rle_pow; [lra|lia].
Qed.
Lemma clog_1e4 : clog (10 ^ 4) = 4 * ln 10.
Proof. rewrite clog_ln by apply e4_repr. apply ln1e4. Qed.

Definition kn_high (L b : R) : R := 9 / (2 * b ^ 2) * (L - 11 / 6).
Lemma kn_high_decr b1 b2 : 10 ^ 4 <= b1 -> b1 <= b2 -> kn_high (clog b2) b2 <= kn_high (clog b1) b1.
Proof.
  intros H1 H2. unfold kn_high.
  (* clog is ln of the clipped argument; compare through ln x - ln y <= x/y - 1 *)
  set (m x := Rmin (Rmax x ftiny) fmax). assert (M : forall x, 10 ^ 4 <= x -> 10 ^ 4 <= m x /\ m x <= x).
  { intros x Hx. unfold m. pose proof e4_repr as [F1 F2]. rewrite Rmax_left by lra. split; [apply Rmin_glb; lra|apply Rmin_l]. }
  change (clog b2) with (ln (m b2)). change (clog b1) with (ln (m b1)). destruct (M b1 H1) as [A1 A2]. destruct (M b2) as [B1 B2]; [lra|].
  assert (R1 : m b2 * b1 <= m b1 * b2).
  { unfold m in *. pose proof e4_repr as [F1 F2]. assert (0 < 10 ^ 4) by (simpl; lra). rewrite !Rmax_left in * by lra.
    unfold Rmin in *. destruct (Rle_dec b2 fmax), (Rle_dec b1 fmax); nra. }
  assert (P4 : 10 ^ 4 = 10000) by (simpl; lra). rewrite P4 in *.
  assert (L1 : 4 <= ln (m b1)). { pose proof ln10_ge1. pose proof ln1e4. rewrite P4 in *. assert (ln 10000 <= ln (m b1)) by (apply Rcomplements.ln_le; lra). lra. }
  assert (L2 : ln (m b2) <= ln (m b1) + (m b2 / m b1 - 1)).
  { pose proof (ln_le_sub1 (m b2 / m b1) ltac:(apply Rdiv_lt_0_compat; lra)). unfold Rdiv in H at 1. rewrite ln_mult, ln_Rinv in H; try lra. apply Rinv_0_lt_compat; lra. }
  assert (R2 : m b2 / m b1 <= b2 / b1). { apply Rmult_le_reg_r with (m b1 * b1); [nra|]. replace (m b2 / m b1 * (m b1 * b1)) with (m b2 * b1) by (field; lra). replace (b2 / b1 * (m b1 * b1)) with (m b1 * b2) by (field; lra). auto. }
  set (r := b2 / b1) in *. assert (Er : b2 = r * b1) by (unfold r; field; lra). assert (1 <= r). { apply Rmult_le_reg_r with b1; nra. }
  assert (K : ln (m b2) - 11 / 6 <= r ^ 2 * (ln (m b1) - 11 / 6)). { assert (0 <= (r - 1) * (r - 1)) by nra. simpl. nra. }
  rewrite Er. replace (9 / (2 * b1 ^ 2) * (ln (m b1) - 11 / 6)) with (9 / (2 * (r * b1) ^ 2) * (r ^ 2 * (ln (m b1) - 11 / 6))) by (field; split; nra).
  rewrite <- Er. apply Rmult_le_compat_l; auto. apply Rdiv_le_0_compat; [lra|]. assert (0 < b2 ^ 2) by (apply pow_lt; lra). lra.
Qed.
Lemma kn_high_pos b : 10 ^ 4 <= b -> 0 < kn_high (clog b) b.
Proof.
  intros H. assert (P4 : 10 ^ 4 = 10000) by (simpl; lra). unfold kn_high. pose proof (clog_mono (10 ^ 4) b H). rewrite clog_1e4 in H0. pose proof ln10_ge1.
  assert (0 < b ^ 2) by (apply pow_lt; lra). apply Rmult_lt_0_compat; [|lra]. apply Rdiv_lt_0_compat; lra.
Qed.
Lemma kn_high_le b : 10 ^ 4 <= b -> kn_high (clog b) b <= 9 / (2 * (10 ^ 4) ^ 2) * (12 - 11 / 6).
Proof.
  intros H. eapply Rle_trans; [apply (kn_high_decr (10 ^ 4) b); auto; lra|]. unfold kn_high. rewrite clog_1e4. pose proof ln10_le3.
  apply Rmult_le_compat_l; [|lra]. simpl. lra.
Qed.
Lemma kn_low_range b : 0 <= b -> 0 < 1 / npow (1 + b) 1.5 <= 1.
Proof.
  intros H. pose proof (npow_pos (1 + b) 1.5). split; [apply Rdiv_lt_0_compat; lra|].
  assert (1 <= npow (1 + b) 1.5). { unfold npow. pose proof (Rle_Rpower (1 + b) 0 1.5 ltac:(lra) ltac:(lra)). rewrite Rpower_O in H1 by lra. auto. }
  apply Rmult_le_reg_r with (npow (1 + b) 1.5); auto. replace (1 / npow (1 + b) 1.5 * npow (1 + b) 1.5) with 1 by (field; lra). lra.
Qed.
Lemma kn_low_ge b : 0 <= b -> b < 10 ^ 4 -> 1 / (10001 * 101) <= 1 / npow (1 + b) 1.5.
Proof.
  intros H H1. assert (P4 : 10 ^ 4 = 10000) by (simpl; lra). pose proof (npow_pos (1 + b) 1.5). unfold Rdiv. apply Rmult_le_compat_l; [lra|]. apply Rinv_le_contravar; auto.
  unfold npow. replace 1.5 with (1 + / 2) by lra. rewrite Rpower_plus, Rpower_1, Rpower_sqrt by lra.
  assert (sqrt (1 + b) <= 101). { rewrite <- (sqrt_square 101) by lra. apply sqrt_le_1; lra. }
  pose proof (sqrt_pos (1 + b)). nra.
Qed.
Lemma f_KN_low b : b < 10 ^ 4 -> f_KN b = 1 / npow (1 + b) 1.5.
Proof. intros H. unfold f_KN. rewrite (proj2 (Rltb_true _ _) H). auto. Qed.
Lemma f_KN_high b : 10 ^ 4 <= b -> f_KN b = kn_high (clog b) b.
Proof. intros H. unfold f_KN. rewrite (proj2 (Rltb_false _ _) H). auto. Qed.
Lemma f_KN_range b : 0 <= b -> 0 < f_KN b <= 1.
Proof.
  intros H. destruct (Rlt_dec b (10 ^ 4)) as [L|L].
  - rewrite f_KN_low by auto. apply kn_low_range; auto.
  - rewrite f_KN_high by lra. split; [apply kn_high_pos; lra|]. eapply Rle_trans; [apply kn_high_le; lra|]. simpl. lra.
Qed.
Lemma f_KN_decr b1 b2 : 0 <= b1 -> b1 <= b2 -> f_KN b2 <= f_KN b1.
Proof.
  intros H H1. destruct (Rlt_dec b2 (10 ^ 4)) as [L|L].
  - rewrite !f_KN_low by lra. pose proof (npow_pos (1 + b1) 1.5). unfold Rdiv. apply Rmult_le_compat_l; [lra|]. apply Rinv_le_contravar; auto.
    unfold npow. apply Rle_Rpower_l; lra.
  - destruct (Rlt_dec b1 (10 ^ 4)) as [L1|L1].
    + rewrite (f_KN_high b2), (f_KN_low b1) by lra. eapply Rle_trans; [apply kn_high_le; lra|]. eapply Rle_trans; [|apply kn_low_ge; lra]. simpl. lra.
    + rewrite !f_KN_high by lra. apply kn_high_decr; lra.
Qed.

(** ** angle-dependent kernel *)
Lemma gamma_min_iff g es a : 0 < g -> 0 < es -> 0 < a -> (es / 2 * (1 + sqrt (1 + 2 / (a * es))) <= g <-> es <= 2 * g * (g * a) / (1 + 2 * (g * a))).
Proof.
  intros Hg He Ha. assert (Hae : 0 < a * es) by nra. assert (Hq : 0 < 2 / (a * es)) by (apply Rdiv_lt_0_compat; lra).
  set (q := 2 / (a * es)) in *. assert (Eq : q * (a * es) = 2) by (unfold q; field; lra).
  assert (Hs : sqrt (1 + q) * sqrt (1 + q) = 1 + q) by (apply sqrt_sqrt; lra). pose proof (sqrt_pos (1 + q)). set (s := sqrt (1 + q)) in *.
  assert (Hga : 0 < g * a) by nra.
  assert (D : es <= 2 * g * (g * a) / (1 + 2 * (g * a)) <-> es * (1 + 2 * (g * a)) <= 2 * g * (g * a)).
  { split; intros K. - apply Rmult_le_compat_r with (r := 1 + 2 * (g * a)) in K; [|lra]. replace (2 * g * (g * a) / (1 + 2 * (g * a)) * (1 + 2 * (g * a))) with (2 * g * (g * a)) in K by (field; lra). auto.
    - apply Rmult_le_reg_r with (1 + 2 * (g * a)); [lra|]. replace (2 * g * (g * a) / (1 + 2 * (g * a)) * (1 + 2 * (g * a))) with (2 * g * (g * a)) by (field; lra). auto. }
  rewrite D. split; intros K.
  - assert (K1 : es * s <= 2 * g - es) by nra. assert (0 <= es * s) by nra.
    assert (K2 : es * s * (es * s) <= (2 * g - es) * (2 * g - es)) by (apply Rmult_le_compat; auto). replace (es * s * (es * s)) with (es * es * (1 + q)) in K2 by (rewrite <- Hs; ring).
    assert (K3 : es * es * q <= 4 * g * g - 4 * g * es) by nra. apply Rmult_le_compat_r with (r := a) in K3; [|lra].
    replace (es * es * q * a) with (es * (q * (a * es))) in K3 by ring. rewrite Eq in K3. nra.
  - assert (K0 : es < 2 * g) by (destruct (Rlt_dec es g); nra).
    assert (K3 : es * es * q <= 4 * g * g - 4 * g * es). { apply Rmult_le_reg_r with a; [lra|]. replace (es * es * q * a) with (es * (q * (a * es))) by ring. rewrite Eq. nra. }
    assert (K2 : es * s * (es * s) <= (2 * g - es) * (2 * g - es)). { replace (es * s * (es * s)) with (es * es * (1 + q)) by (rewrite <- Hs; ring). nra. }
    assert (es * s <= 2 * g - es). { apply Rsqr_incr_0_var; [unfold Rsqr; auto|lra]. } nra.
Qed.
Lemma gamma_min_gt es a g : 0 < es -> 0 < a -> es / 2 * (1 + sqrt (1 + 2 / (a * es))) <= g -> es < g.
Proof.
  intros He Ha H. assert (0 < 2 / (a * es)) by (apply Rdiv_lt_0_compat; nra). assert (1 < sqrt (1 + 2 / (a * es))). { rewrite <- sqrt_1 at 1. apply sqrt_lt_1; lra. } nra.
Qed.
(** the value where it is non-zero *)
Lemma kernel_value g es e : 0 < g -> 0 < es -> es < g -> e <> 0 ->
  1 <= (1 - es / g) + 1 / (1 - es / g) + - (2 * es) / (g * e * (1 - es / g)) + es ^ 2 / (g * e * (1 - es / g)) ^ 2.
Proof.
  intros Hg He Hlt Hn. assert (Hy : 0 < 1 - es / g < 1).
  { assert (0 < es / g) by (apply Rdiv_lt_0_compat; lra). assert (es / g < 1). { apply Rmult_lt_reg_r with g; auto. replace (es / g * g) with es by (field; lra). lra. } lra. }
  set (y := 1 - es / g) in *. set (t := es / (g * e * y)).
  replace (- (2 * es) / (g * e * y)) with (- 2 * t) by (unfold t; field; repeat split; lra).
  replace (es ^ 2 / (g * e * y) ^ 2) with (t ^ 2) by (unfold t; field; repeat split; lra).
  assert (2 <= y + 1 / y). { assert (y + 1 / y - 2 = (y - 1) * (y - 1) / y) by (field; lra). assert (0 <= (y - 1) * (y - 1) / y) by (apply Rdiv_le_0_compat; [apply Rle_0_sqr|lra]). lra. } pose proof (pow2_ge_0 (1 - t)). replace ((1 - t) ^ 2) with (1 - 2 * t + t ^ 2) in * by ring. lra.
Qed.

(** ** isotropic kernel *)
Lemma ln2_half : 1 / 2 < ln 2.
Proof. assert (exp (1/2) < 2). { pose proof exp_le_3. replace 1 with (1/2+1/2) in H at 1 by lra. rewrite exp_plus in H. pose proof (exp_pos (1/2)). nra. } rewrite <- (ln_exp (1/2)). apply ln_increasing; auto. apply exp_pos. Qed.
Lemma Fc_core q : 0 < q -> q < 1 -> 0 < 2 * q * ln q + (1 + 2 * q) * (1 - q).
Proof.
  intros Hq Hq1. assert (H : 2 * 1 * ln 1 + (1 + 2 * 1) * (1 - 1) < 2 * q * ln q + (1 + 2 * q) * (1 - q)).
  { apply (strict_decr (fun q => 2 * q * ln q + (1 + 2 * q) * (1 - q)) (fun q => 2 * ln q + 3 - 4 * q)); auto.
    - intros x Hx. auto_derive; [lra|]. field. lra.
    - intros x Hx. pose proof (ln_le_sub1 (2 * x) ltac:(lra)). rewrite ln_mult in H by lra. pose proof ln2_half. lra. }
  rewrite ln_1 in H. lra.
Qed.
Lemma clog_ge_ln q : 0 < q -> q <= 1 -> ln q <= clog q.
Proof.
  intros H H1. unfold clog. apply Rcomplements.ln_le; auto. pose proof fmax_gt_1. apply Rmin_glb; [apply Rmax_l|lra].
Qed.
Lemma F_c_pos q G : 0 < q -> q < 1 -> 0 <= G -> 0 < F_c q G.
Proof.
  intros Hq H1 HG. unfold F_c. cbv zeta. pose proof (Fc_core q Hq H1). pose proof (clog_ge_ln q Hq ltac:(lra)).
  assert (0 <= 1 / 2 * (G * q) ^ 2 / (1 + G * q) * (1 - q)). { assert (0 <= G * q) by nra. apply Rmult_le_pos; [|lra]. apply Rdiv_le_0_compat; [|lra]. pose proof (pow2_ge_0 (G * q)). lra. }
  nra.
Qed.
Lemma F_c_1 G : F_c 1 G = 0.
Proof. unfold F_c. cbv zeta. assert (E : clog 1 = 0). { rewrite clog_ln. apply ln_1. split; [left; apply ftiny_lt_1|left; apply fmax_gt_1]. } rewrite E. unfold Rdiv. ring. Qed.
