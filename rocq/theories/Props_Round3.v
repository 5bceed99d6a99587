(** C107: the Doppler factor in floating point arithmetic *)
From Coquelicot Require Import Rcomplements.
From Flocq Require Import Core.
From Verif Require Import Base Blob Spec_Blob Clock ClockFacts RoundFacts Spec_Round Props_Round Props_Round2 RoundBlob BlobFacts.
Open Scope R_scope.
#[local] Existing Instance prec53.

Theorem C107_model : forall b, 1 < Gamma b ->
  Beta b = Ok (speed (fun x => x) (Gamma b)) /\
  (forall t, 0 <= t <= PI -> exists b', set_delta_D (Gamma b) t b = (b', Ok tt) /\ delta_D b' = doppler_factor (fun x => x) (Gamma b) (cos t)) /\
  (0 < delta_D b -> mu_s b = Ok (cosine (fun x => x) (Gamma b) (delta_D b))).
Proof.
  intros b Hg. destruct (beta_lt_1 _ Hg) as [B0 B1].
  assert (E : speed (fun x => x) (Gamma b) = sqrt (1 - / Gamma b ^ 2)) by (unfold speed; do 2 f_equal; field; lra). split; [|split].
  - rewrite E. apply Beta_ok. auto.
  - intros t Ht. rewrite set_delta_D_ok by auto. eexists. split; [reflexivity|]. cbn [set_delta delta_D]. unfold doppler_factor, approach. rewrite E. unfold doppler, Rdiv. ring.
  - intros Hd. rewrite mu_s_ok by lra. unfold cosine. rewrite E. f_equal. unfold Rdiv. rewrite Rmult_1_l. reflexivity.
Qed.
Print Assumptions C107_model.

Lemma round_to k n x : (k <= 1074)%nat -> 2 ^ 52 <= x * 2 ^ k < 2 ^ 53 -> Rabs (x * 2 ^ k - IZR n) < 1 / 2 -> binary64 x = IZR n / 2 ^ k.
Proof.
  intros Hk H N. assert (P : 0 < 2 ^ k) by (apply pow_lt; lra).
  assert (B : forall j : nat, bpow radix2 (Z.of_nat j) = 2 ^ j) by (intros j; rewrite bpow_powerRZ; symmetry; apply pow_powerRZ).
  assert (Bk : bpow radix2 (- Z.of_nat k) = / 2 ^ k) by (rewrite bpow_opp, B; auto).
  assert (X : 0 < x). { apply (Rmult_lt_reg_r (2 ^ k)); auto. assert (0 < 2 ^ 52) by (apply pow_lt; lra). lra. }
  assert (M : mag radix2 x = (53 - Z.of_nat k)%Z :> Z).
  { apply mag_unique. rewrite Rabs_pos_eq by lra. replace (53 - Z.of_nat k - 1)%Z with (Z.of_nat 52 + - Z.of_nat k)%Z by lia. change 53%Z with (Z.of_nat 53).
    unfold Z.sub. rewrite !bpow_plus, !Bk, !B. split; [apply Rle_div_l|apply Rlt_div_r]; auto; unfold Rdiv; rewrite ?Rinv_inv; lra. }
  assert (C : cexp radix2 (FLT_exp (-1074) 53) x = (- Z.of_nat k)%Z) by (unfold cexp; rewrite M; unfold FLT_exp; lia).
  unfold binary64, round, scaled_mantissa, F2R. cbn [Fnum Fexp]. rewrite C, Z.opp_involutive, B, Bk. rewrite (Znearest_imp _ _ n); [reflexivity|]. lra.
Qed.
(** rounding in the unit interval *)
Lemma fl_unit x : Rabs x <= 1 -> Rabs (binary64 x - x) <= u64 / 2.
Proof.
  intros H. pose proof u64_pos as U. destruct (Req_dec (Rabs x) 1) as [E|E].
  - assert (D1 : is_double 1). { apply double_is. exists 1%Z, 0%Z. split; [lia|]. split; [lia|]. simpl. ring. }
    assert (D : is_double x). { unfold Rabs in E. destruct (Rcase_abs x); [|rewrite E; auto]. replace x with (- (1)) by lra. apply generic_format_opp. auto. }
    rewrite b64_id by auto. replace (x - x) with 0 by ring. rewrite Rabs_R0. lra.
  - eapply Rle_trans; [apply error_le_half_ulp; typeclasses eauto|]. destruct (Req_dec x 0) as [Z|Z].
    + subst x. rewrite ulp_FLT_small; [|unfold Prec_gt_0; lia|rewrite Rabs_R0; apply bpow_gt_0]. replace u64 with (bpow radix2 (-53)) by (rewrite u64_val; simpl; lra).
      assert (bpow radix2 (-1074) <= bpow radix2 (-53)) by (apply bpow_le; lia). lra.
    + rewrite ulp_neq_0 by auto. replace u64 with (bpow radix2 (-53)) by (rewrite u64_val; simpl; lra).
      assert (M : (mag radix2 x <= 0)%Z) by (apply mag_le_bpow; auto; simpl; lra).
      assert (bpow radix2 (cexp radix2 (FLT_exp (-1074) 53) x) <= bpow radix2 (-53)) by (apply bpow_le; unfold cexp, FLT_exp; lia). lra.
Qed.

(** *** the speed *)
Lemma inv_sq g : 2 <= g <= 2 ^ 30 -> near 2 (binary64 (1 / binary64 (g * g))) (/ g ^ 2).
Proof.
  intros Hg. pose proof u64_tiny as U1. pose proof u64_pos as U. assert (G2 : 4 <= g * g <= 2 ^ 60) by (replace (2 ^ 60) with (2 ^ 30 * 2 ^ 30) by ring; split; nra).
  assert (N1 : near 1 (binary64 (g * g)) (g * g)). { apply (fl_near_lo 0); [lia|]. simpl. lra. }
  pose proof (near_pos _ _ _ N1 ltac:(lra)) as P1. set (a := binary64 (g * g)) in *.
  assert (N2 : near 1 (1 / a) (/ g ^ 2)). { replace (/ g ^ 2) with (1 / (g * g)) by (simpl; field; lra). replace 1%nat with (0 + 1)%nat by lia. apply near_div; try lra; auto. apply near_refl. }
  assert (L : / 2 ^ 62 <= 1 / a).
  { destruct N1 as [N1 _]. unfold Rdiv. rewrite Rmult_1_l. apply Rinv_le_contravar; auto. eapply Rle_trans; [exact N1|]. rewrite pow_1.
    replace (2 ^ 62) with (2 ^ 60 * 4) by ring. apply Rmult_le_compat; lra. }
  apply (near_trans 1 1) with (1 / a); auto. apply (fl_near_lo 62); [lia|auto].
Qed.
Lemma speed_err g : 2 <= g <= 2 ^ 30 -> Rabs (speed binary64 g - sqrt (1 - / g ^ 2)) <= 11 / 10 * u64.
Proof.
  intros Hg. pose proof u64_tiny as U1. pose proof u64_pos as U. unfold speed. pose proof (inv_sq g Hg) as N3. set (a := binary64 (g * g)) in *.
  set (i := binary64 (1 / a)) in *. assert (Q : 0 < / g ^ 2 <= 1 / 4).
  { split; [apply Rinv_0_lt_compat; nra|]. replace (1 / 4) with (/ 4) by field. apply Rinv_le_contravar; nra. }
  assert (E1 : Rabs (i - / g ^ 2) <= 201 / 100 * u64 * (/ g ^ 2)) by (apply (near_abs 2); [lra|auto|]; simpl; nra).
  assert (E1' : Rabs (i - / g ^ 2) <= 51 / 100 * u64) by (eapply Rle_trans; [exact E1|]; nra).
  apply Rabs_le_between in E1'. assert (I0 : 0 <= i) by (apply (near_nonneg 2 _ (/ g ^ 2)); auto; lra). set (v := / g ^ 2) in *.
  assert (E2 : Rabs (binary64 (1 - i) - (1 - i)) <= u64 / 2) by (apply fl_unit; apply Rabs_le; lra). apply Rabs_le_between in E2. set (s := binary64 (1 - i)) in *.
  assert (S0 : 74 / 100 <= s <= 1 + / 1000) by lra.
  assert (Sv : 86 / 100 <= sqrt s). { replace (86 / 100) with (sqrt (86 / 100 * (86 / 100))) by (rewrite sqrt_square; lra). apply sqrt_le_1_alt. lra. }
  assert (Bv : 86 / 100 <= sqrt (1 - v)). { replace (86 / 100) with (sqrt (86 / 100 * (86 / 100))) by (rewrite sqrt_square; lra). apply sqrt_le_1_alt. lra. }
  assert (E3 : Rabs (sqrt s - sqrt (1 - v)) <= 60 / 100 * u64).
  { assert (H : (sqrt s - sqrt (1 - v)) * (sqrt s + sqrt (1 - v)) = s - (1 - v)). { replace ((sqrt s - sqrt (1 - v)) * (sqrt s + sqrt (1 - v))) with (sqrt s * sqrt s - sqrt (1 - v) * sqrt (1 - v)) by ring. rewrite !sqrt_sqrt; lra. }
    assert (A : Rabs (s - (1 - v)) <= 101 / 100 * u64) by (apply Rabs_le; lra). rewrite <- H, Rabs_mult, (Rabs_pos_eq (sqrt s + _)) in A by lra.
    pose proof (Rabs_pos (sqrt s - sqrt (1 - v))). nra. }
  assert (S1 : Rabs (sqrt s) <= 1).
  { rewrite Rabs_pos_eq by lra. apply Rle_trans with (sqrt 1); [|rewrite sqrt_1; lra]. apply sqrt_le_1_alt. apply b64_le_double.
    - apply double_is. exists 1%Z, 0%Z. split; [lia|]. split; [lia|]. simpl. ring.
    - lra. }
  pose proof (fl_unit _ S1) as E4. apply Rabs_le_between in E3. apply Rabs_le_between in E4. apply Rabs_le. lra.
Qed.

Lemma speed_range g : 2 <= g <= 2 ^ 30 -> 86 / 100 <= speed binary64 g <= 1.
Proof.
  intros Hg. split.
  - pose proof (speed_err g Hg) as E. apply Rabs_le_between in E. pose proof u64_tiny.
    assert (Bv : 865 / 1000 <= sqrt (1 - / g ^ 2)). { replace (865 / 1000) with (sqrt (865 / 1000 * (865 / 1000))) by (rewrite sqrt_square; lra). apply sqrt_le_1_alt.
      assert (/ g ^ 2 <= / 4) by (apply Rinv_le_contravar; nra). lra. }
    lra.
  - unfold speed. assert (D1 : is_double 1). { apply double_is. exists 1%Z, 0%Z. split; [lia|]. split; [lia|]. simpl. ring. }
    apply b64_le_double; auto. apply Rle_trans with (sqrt 1); [|rewrite sqrt_1; lra]. apply sqrt_le_1_alt. apply b64_le_double; auto.
    assert (0 <= binary64 (1 / binary64 (g * g))); [|lra]. apply b64_ge_double; [apply double_0|]. unfold Rdiv. rewrite Rmult_1_l. left. apply Rinv_0_lt_compat.
    apply Rlt_le_trans with 1; [lra|]. apply b64_ge_double; auto. nra.
Qed.

(** accuracy: the relative error grows with the square of the Lorentz factor *)
Theorem C107_accuracy : forall g mu, double g -> 2 <= g <= 10 ^ 6 -> -1 <= mu <= 1 ->
  let d := / (g * (1 - sqrt (1 - / g ^ 2) * mu)) in
  Rabs (doppler_factor binary64 g mu - d) <= 5 / 10 ^ 16 * g ^ 2 * d.
Proof.
  intros g mu Dg Hg Hm d. assert (Hg' : 2 <= g <= 2 ^ 30) by (split; [lra|]; simpl in *; lra).
  pose proof (speed_err g Hg') as E1. pose proof (speed_range g Hg') as R1. pose proof u64_tiny as U1. pose proof u64_pos as U. apply double_is in Dg.
  unfold doppler_factor, approach. set (b := speed binary64 g) in *. set (be := sqrt (1 - / g ^ 2)) in *.
  assert (Hbm : Rabs (b * mu) <= 1). { rewrite Rabs_mult. rewrite <- (Rmult_1_l 1). apply Rmult_le_compat; try apply Rabs_pos; [rewrite Rabs_pos_eq; lra|apply Rabs_le; lra]. }
  pose proof (fl_unit _ Hbm) as E2. set (p := binary64 (b * mu)) in *.
  assert (E3 : Rabs (p - be * mu) <= 16 / 10 * u64).
  { replace (p - be * mu) with ((p - b * mu) + (b - be) * mu) by ring. eapply Rle_trans; [apply Rabs_triang|]. rewrite Rabs_mult.
    assert (Rabs mu <= 1) by (apply Rabs_le; lra). pose proof (Rabs_pos (b - be)). pose proof (Rabs_pos mu).
    assert (Rabs (b - be) * Rabs mu <= 11 / 10 * u64 * 1) by (apply Rmult_le_compat; auto). lra. }
  assert (V : 0 < / g ^ 2 <= / 4). { split; [apply Rinv_0_lt_compat; nra|apply Rinv_le_contravar; nra]. }
  assert (G12 : / 10 ^ 12 <= / g ^ 2) by (apply Rinv_le_contravar; [nra|]; replace (10 ^ 12) with (10 ^ 6 * 10 ^ 6) by ring; nra).
  assert (GG : u64 * g ^ 2 <= / 1000). { assert (g ^ 2 <= 10 ^ 12) by (replace (10 ^ 12) with (10 ^ 6 * 10 ^ 6) by ring; nra). assert (u64 * g ^ 2 <= u64 * 10 ^ 12) by (apply Rmult_le_compat_l; lra). lra. }
  assert (B2 : be * be = 1 - / g ^ 2) by (unfold be; apply sqrt_sqrt; lra).
  assert (B0 : 0 <= be) by (apply sqrt_pos). assert (B1 : / g ^ 2 / 2 <= 1 - be) by nra.
  assert (D0 : / g ^ 2 / 2 <= 1 - be * mu). { assert (be * mu <= be * 1) by (apply Rmult_le_compat_l; lra). lra. }
  set (D := 1 - be * mu) in *. assert (DD : D <= 2). { unfold D. assert (be * mu >= be * - (1)) by (apply Rmult_ge_compat_l; lra). nra. }
  set (q := 1 - p). assert (QD : Rabs (q - D) <= 16 / 10 * u64). { unfold q, D. replace (1 - p - (1 - be * mu)) with (- (p - be * mu)) by ring. rewrite Rabs_Ropp. auto. }
  assert (UD : u64 <= 2 * (u64 * g ^ 2) * D). { assert (g ^ 2 * (/ g ^ 2 / 2) <= g ^ 2 * D) by (apply Rmult_le_compat_l; nra). replace (g ^ 2 * (/ g ^ 2 / 2)) with (/ 2) in H by (field; lra). nra. }
  assert (Qlo : 99 / 100 * D <= q). { apply Rabs_le_between in QD. assert (2 * (u64 * g ^ 2) * D <= 2 * / 1000 * D) by (apply Rmult_le_compat_r; lra). lra. }
  assert (Pq : 0 < q) by lra.
  assert (Dp : is_double 1 /\ is_double p). { split; [|apply b64_double]. apply double_is. exists 1%Z, 0%Z. split; [lia|]. split; [lia|]. simpl. ring. }
  assert (N1 : near 1 (binary64 q) q) by (apply fl_near_minus; try apply Dp; unfold q in Pq; lra).
  assert (Q0 : / 2 ^ 43 <= q). { apply Rle_trans with (99 / 100 * (/ 10 ^ 12 / 2)); [simpl; lra|lra]. }
  assert (N2 : near 1 (g * binary64 q) (g * q)) by (apply near_scale; auto; lra).
  assert (L2 : / 2 ^ 44 <= g * binary64 q).
  { destruct N2 as [_ N2]. rewrite pow_1 in N2. pose proof (near_pos _ _ _ N1 Pq). assert (0 < g * binary64 q) by nra. assert (q <= g * q) by (rewrite <- (Rmult_1_l q) at 1; apply Rmult_le_compat_r; lra).
    assert (g * binary64 q * (1 + u64) <= g * binary64 q * (11 / 10)) by (apply Rmult_le_compat_l; lra).
    assert (/ 2 ^ 44 = / 2 ^ 43 / 2). { change (2 ^ 44) with (2 * 2 ^ 43). rewrite Rinv_mult. field. } lra. }
  assert (N3 : near 2 (binary64 (g * binary64 q)) (g * q)) by (apply (near_trans 1 1) with (g * binary64 q); auto; apply (fl_near_lo 44); auto; lia).
  set (a := binary64 (g * binary64 q)) in *. assert (Pgq : 0 < g * q) by nra. pose proof (near_pos _ _ _ N3 Pgq) as Pa.
  assert (N4 : near 2 (1 / a) (/ (g * q))). { unfold Rdiv. rewrite Rmult_1_l. apply near_inv; auto. }
  assert (L4 : / 2 ^ 30 <= 1 / a).
  { destruct N3 as [N3 _]. unfold Rdiv. rewrite Rmult_1_l. apply Rinv_le_contravar; auto. eapply Rle_trans; [exact N3|].
    assert (q <= 3) by (apply Rabs_le_between in QD; lra). assert (g * q <= 10 ^ 6 * 3) by (apply Rmult_le_compat; lra).
    assert ((1 + u64) ^ 2 <= 2) by (simpl; nra). assert (g * q * (1 + u64) ^ 2 <= 10 ^ 6 * 3 * 2) by (apply Rmult_le_compat; [lra|left; apply up_pos|auto|auto]). simpl in *. lra. }
  assert (N5 : near 3 (binary64 (1 / a)) (/ (g * q))) by (apply (near_trans 1 2) with (1 / a); auto; apply (fl_near_lo 30); auto; lia).
  assert (Pq' : 0 < / (g * q)) by (apply Rinv_0_lt_compat; auto).
  assert (E5 : Rabs (binary64 (1 / a) - / (g * q)) <= 301 / 100 * u64 * / (g * q)). { apply (near_abs 3); [lra|auto|]. simpl. nra. }
  assert (Pd : 0 < d). { unfold d. apply Rinv_0_lt_compat. fold D. nra. }
  assert (Eq : / (g * q) - d = d * ((D - q) / q)). { unfold d. fold D. field. repeat split; lra. }
  assert (E6 : Rabs (/ (g * q) - d) <= d * (325 / 100 * (u64 * g ^ 2))).
  { rewrite Eq, Rabs_mult, (Rabs_pos_eq d) by lra. apply Rmult_le_compat_l; [lra|]. unfold Rdiv. rewrite Rabs_mult, (Rabs_pos_eq (/ q)) by (left; apply Rinv_0_lt_compat; auto).
    apply Rle_div_l; auto. rewrite Rabs_minus_sym. eapply Rle_trans; [exact QD|].
    apply Rle_trans with (325 / 100 * (u64 * g ^ 2) * (99 / 100 * D)); [nra|]. apply Rmult_le_compat_l; [nra|auto]. }
  set (w := u64 * g ^ 2) in *. assert (W0 : 0 <= w) by (unfold w; nra). assert (W4 : u64 <= w / 4) by (unfold w; nra).
  assert (Q2 : / (g * q) <= d * (1 + 4 / 1000)). { apply Rabs_le_between in E6. assert (d * (325 / 100 * w) <= d * (4 / 1000)) by (apply Rmult_le_compat_l; lra). lra. }
  assert (E7 : 301 / 100 * u64 * / (g * q) <= d * (80 / 100 * w)).
  { replace (d * (80 / 100 * w)) with (79 / 100 * w * (d * (80 / 79))) by field. apply Rmult_le_compat; try lra. }
  replace (5 / 10 ^ 16 * g ^ 2 * d) with (d * (5 / 10 ^ 16 * g ^ 2)) by ring.
  apply Rle_trans with (d * (405 / 100 * w)). 2: { apply Rmult_le_compat_l; [lra|]. unfold w. assert (u64 <= 112 / 10 ^ 18) by lra. assert (g ^ 2 * u64 <= g ^ 2 * (112 / 10 ^ 18)) by (apply Rmult_le_compat_l; [nra|auto]). assert (0 <= g ^ 2) by apply pow2_ge_0. set (G := g ^ 2) in *. lra. }
  replace (binary64 (1 / a) - d) with ((binary64 (1 / a) - / (g * q)) + (/ (g * q) - d)) by ring. eapply Rle_trans; [apply Rabs_triang|]. lra.
Qed.
Print Assumptions C107_accuracy.

Lemma pow2_double (n : Z) (k : nat) : (Z.abs n < 2 ^ 53)%Z -> (k <= 1074)%nat -> is_double (IZR n / 2 ^ k).
Proof.
  intros Hn Hk. apply double_is. exists n, (- Z.of_nat k)%Z. split; auto. split; [lia|]. rewrite powerRZ_neg', <- pow_powerRZ. reflexivity.
Qed.
(** a number closer to a double in [3/4, 1] than half of the spacing *)
Lemma snap b y : is_double b -> 3 / 4 <= b <= 1 -> y < 1 -> Rabs (y - b) < u64 / 2 -> binary64 y = b.
Proof.
  intros Db Hb Hy H. pose proof u64_tiny as U1. apply double_is in Db. destruct Db as (m & e & Hm & He & E).
  assert (P : 0 < powerRZ 2 e) by (apply powerRZ_lt; lra).
  assert (Ez : exists n : Z, b = IZR n / 2 ^ 53).
  { destruct (Z_le_gt_dec (-53) e) as [L|L].
    - exists (m * 2 ^ (e + 53))%Z. rewrite mult_IZR. rewrite E. replace (IZR (2 ^ (e + 53))) with (powerRZ 2 (e + 53)).
      + rewrite powerRZ_add by lra. replace (powerRZ 2 53) with (2 ^ 53) by reflexivity. field; try (apply pow_nonzero; lra).
      + rewrite <- (bpow_powerRZ radix2). symmetry. apply (IZR_Zpower radix2). lia.
    - exfalso. assert (powerRZ 2 e <= / 2 ^ 54). { replace (/ 2 ^ 54) with (powerRZ 2 (-54)) by reflexivity. rewrite <- !(bpow_powerRZ radix2). apply bpow_le. lia. }
      assert (IZR m < 2 ^ 53). { rewrite (pow_IZR 2 53). apply IZR_lt. change (Z.of_nat 53) with 53%Z. lia. }
      assert (H9 : IZR m * powerRZ 2 e <= 2 ^ 53 * / 2 ^ 54).
      { destruct (Rle_dec 0 (IZR m)); [apply Rmult_le_compat; lra|]. apply Rle_trans with 0; [nra|]. left. apply Rmult_lt_0_compat; [apply pow_lt; lra|apply Rinv_0_lt_compat, pow_lt; lra]. }
      rewrite <- E in H9. change (2 ^ 54) with (2 * 2 ^ 53) in H9. rewrite Rinv_mult in H9. replace (2 ^ 53 * (/ 2 * / 2 ^ 53)) with (/ 2) in H9 by (field; apply pow_nonzero; lra). lra. }
  destruct Ez as [n En]. rewrite En. apply Rabs_lt_between in H. assert (P53 : 0 < 2 ^ 53) by (apply pow_lt; lra). apply round_to; [lia| |].
  - replace (2 ^ 52) with (1 / 2 * 2 ^ 53) by (simpl; field). split; [apply Rmult_le_compat_r; lra|]. rewrite <- (Rmult_1_l (2 ^ 53)) at 2. apply Rmult_lt_compat_r; lra.
  - replace (IZR n) with (b * 2 ^ 53) by (rewrite En; field; lra). replace (y * 2 ^ 53 - b * 2 ^ 53) with ((y - b) * 2 ^ 53) by ring. rewrite Rabs_mult, (Rabs_pos_eq (2 ^ 53)) by lra.
    assert (u64 * 2 ^ 53 = 1) by (simpl; lra). apply Rlt_le_trans with (u64 / 2 * 2 ^ 53); [|lra]. apply Rmult_lt_compat_r; auto. apply Rabs_lt_between. lra.
Qed.

(** looking down the jet: the viewing angle comes back as exactly zero *)
Theorem C107_aligned : forall g, double g -> 21 / 10 <= g <= 2 ^ 25 ->
  cosine binary64 g (doppler_factor binary64 g 1) = 1.
Proof.
  intros g Dg Hg. apply double_is in Dg. assert (Hg' : 2 <= g <= 2 ^ 30) by (split; [lra|]; simpl in *; lra).
  pose proof (speed_err g Hg') as E1. pose proof u64_tiny as U1. pose proof u64_pos as U.
  assert (D1 : is_double 1) by (replace 1 with (IZR 1 / 2 ^ 0) by (simpl; field); apply pow2_double; lia).
  assert (Hb : 879 / 1000 <= speed binary64 g).
  { apply Rabs_le_between in E1. assert (8792 / 10000 <= sqrt (1 - / g ^ 2)); [|lra].
    replace (8792 / 10000) with (sqrt (8792 / 10000 * (8792 / 10000))) by (rewrite sqrt_square; lra). apply sqrt_le_1_alt.
    assert (/ g ^ 2 <= / (441 / 100)) by (apply Rinv_le_contravar; nra). lra. }
  assert (Hb1 : speed binary64 g <= 1 - / 2 ^ 52).
  { assert (T : forall k, (k <= 52)%nat -> is_double (1 - / 2 ^ k)).
    { intros k Hk. assert (0 < 2 ^ k) by (apply pow_lt; lra). replace (1 - / 2 ^ k) with (IZR (2 ^ Z.of_nat k - 1) / 2 ^ k).
      - apply pow2_double; [|lia]. assert (1 <= 2 ^ Z.of_nat k)%Z by (change 1%Z with (2 ^ 0)%Z; apply Z.pow_le_mono_r; lia). assert (2 ^ Z.of_nat k < 2 ^ 53)%Z by (apply Z.pow_lt_mono_r; lia). lia.
      - rewrite minus_IZR, <- pow_IZR. field. lra. }
    unfold speed. apply b64_le_double; [apply T; lia|]. apply Rle_trans with (sqrt ((1 - / 2 ^ 52) * (1 - / 2 ^ 52))); [|rewrite sqrt_square; simpl; lra].
    apply sqrt_le_1_alt. apply Rle_trans with (1 - / 2 ^ 51); [|simpl; lra]. apply b64_le_double; [apply T; lia|].
    assert (/ 2 ^ 51 <= binary64 (1 / binary64 (g * g))); [|lra]. pose proof (inv_sq g Hg') as [_ N]. set (i := binary64 (1 / binary64 (g * g))) in *.
    assert (/ 2 ^ 50 <= / g ^ 2) by (apply Rinv_le_contravar; [nra|]; replace (2 ^ 50) with (2 ^ 25 * 2 ^ 25) by ring; nra).
    assert ((1 + u64) ^ 2 <= 2) by (simpl; nra). assert (0 < / 2 ^ 50) by (apply Rinv_0_lt_compat, pow_lt; lra).
    assert (0 <= i). { apply (Rmult_le_reg_r ((1 + u64) ^ 2)); [apply up_pos|]. lra. }
    assert (i * (1 + u64) ^ 2 <= i * 2) by (apply Rmult_le_compat_l; auto). replace (/ 2 ^ 51) with (/ 2 ^ 50 / 2); [lra|]. change (2 ^ 51) with (2 * 2 ^ 50). rewrite Rinv_mult. field. }
  assert (Db : is_double (speed binary64 g)) by apply b64_double.
  unfold cosine, doppler_factor, approach. set (b := speed binary64 g) in *. rewrite Rmult_1_r, (b64_id b) by auto. rewrite (rest_exact 1 b) by (auto; lra).
  set (q := 1 - b). assert (I52 : 0 < / 2 ^ 52) by (apply Rinv_0_lt_compat, pow_lt; lra). assert (Hq : / 2 ^ 52 <= q <= 121 / 1000) by (unfold q; lra).
  assert (N1 : near 1 (binary64 (g * q)) (g * q)). { apply (fl_near_lo 52); [lia|]. rewrite <- (Rmult_1_l (/ 2 ^ 52)). apply Rmult_le_compat; lra. }
  assert (P1 : 0 < g * q) by (apply Rmult_lt_0_compat; lra). pose proof (near_pos _ _ _ N1 P1) as P1'. set (a1 := binary64 (g * q)) in *.
  assert (big : / 2 ^ 30 <= 1 / a1).
  { unfold Rdiv. rewrite Rmult_1_l. apply Rinv_le_contravar; auto. destruct N1 as [N1 _]. rewrite pow_1 in N1. assert (g * q <= 2 ^ 25 * (121 / 1000)) by (apply Rmult_le_compat; lra).
    assert (g * q * (1 + u64) <= 2 ^ 25 * (121 / 1000) * 2) by (apply Rmult_le_compat; lra). simpl in *. lra. }
  assert (N2 : near 2 (binary64 (1 / a1)) (/ (g * q))).
  { apply (near_trans 1 1) with (1 / a1); [apply (fl_near_lo 30); auto; lia|]. unfold Rdiv. rewrite Rmult_1_l. apply near_inv; auto. }
  set (d := binary64 (1 / a1)) in *. assert (P2 : 0 < / (g * q)) by (apply Rinv_0_lt_compat; auto).
  assert (N3 : near 2 (g * d) (/ q)). { replace (/ q) with (g * / (g * q)) by (field; lra). apply near_scale; auto. lra. }
  assert (Q1 : 8 <= / q). { replace 8 with (/ / 8) by field. apply Rinv_le_contravar; lra. }
  pose proof (near_pos _ _ _ N3 ltac:(lra)) as P3. assert (L3 : 1 <= g * d). { destruct N3 as [_ N3]. assert ((1 + u64) ^ 2 <= 2) by (simpl; nra). assert (g * d * (1 + u64) ^ 2 <= g * d * 2) by (apply Rmult_le_compat_l; lra). lra. }
  assert (N4 : near 3 (binary64 (g * d)) (/ q)). { apply (near_trans 1 2) with (g * d); auto. apply (fl_near_lo 0); [lia|simpl; lra]. }
  set (a2 := binary64 (g * d)) in *. pose proof (near_pos _ _ _ N4 ltac:(lra)) as P4.
  assert (N5 : near 3 (1 / a2) q). { unfold Rdiv. rewrite Rmult_1_l. rewrite <- (Rinv_inv q). apply near_inv; auto. lra. }
  assert (L5 : / 2 ^ 53 <= 1 / a2).
  { destruct N5 as [_ N5]. assert (P5 : 0 < 1 / a2) by (apply Rdiv_lt_0_compat; lra). assert ((1 + u64) ^ 3 <= 2) by (simpl; nra).
    assert (1 / a2 * (1 + u64) ^ 3 <= 1 / a2 * 2) by (apply Rmult_le_compat_l; lra). replace (/ 2 ^ 53) with (/ 2 ^ 52 / 2); [lra|]. change (2 ^ 53) with (2 * 2 ^ 52). rewrite Rinv_mult. field. }
  assert (N6 : near 4 (binary64 (1 / a2)) q) by (apply (near_trans 1 3) with (1 / a2); auto; apply (fl_near_lo 53); auto; lia).
  set (r := binary64 (1 / a2)) in *. assert (E6 : Rabs (r - q) <= 4001 / 1000 * u64 * q) by (apply (near_abs 4); [lra|auto|apply up4]).
  assert (E6' : Rabs (r - q) < u64 / 2). { eapply Rle_lt_trans; [exact E6|]. assert (4001 / 1000 * u64 * q <= 4001 / 1000 * u64 * (121 / 1000)) by (apply Rmult_le_compat_l; lra). lra. }
  assert (Y : binary64 (1 - r) = b).
  { apply snap; auto; try lra.
    - assert (0 < r); [|lra]. apply (near_pos _ _ _ N6). lra.
    - replace (1 - r - b) with (- (r - q)) by (unfold q; ring). rewrite Rabs_Ropp. auto. }
  rewrite Y. replace (b / b) with 1 by (field; lra). apply b64_id. auto.
Qed.
Print Assumptions C107_aligned.

(** at very large bulk Lorentz factors the subtraction 1 - beta mu is lost: division by zero *)
Theorem C107_lost : forall g, 2 ^ 28 <= g <= 2 ^ 500 ->
  speed binary64 g = 1 /\ approach binary64 g 1 = 0.
Proof.
  intros g Hg. pose proof u64_tiny as U1. pose proof u64_pos as U.
  assert (D1 : is_double 1) by (replace 1 with (IZR 1 / 2 ^ 0) by (simpl; field); apply pow2_double; lia).
  assert (D0 : is_double 0) by (replace 0 with (IZR 0 / 2 ^ 0) by (simpl; field); apply pow2_double; lia).
  assert (E : speed binary64 g = 1).
  { assert (P28 : 0 < 2 ^ 28) by (apply pow_lt; lra). assert (G2 : 2 ^ 56 <= g * g). { replace (2 ^ 56) with (2 ^ 28 * 2 ^ 28) by ring. apply Rmult_le_compat; lra. }
    assert (D56 : is_double (2 ^ 56)). { apply double_is. exists 1%Z, 56%Z. repeat split; try lia. change (powerRZ 2 56) with (2 ^ 56). ring. }
    unfold speed. pose proof (b64_ge_double _ _ D56 G2) as A. set (a := binary64 (g * g)) in *.
    assert (P56 : 0 < 2 ^ 56) by (apply pow_lt; lra). assert (I : 0 < 1 / a <= / 2 ^ 56). { split; [apply Rdiv_lt_0_compat; lra|]. unfold Rdiv. rewrite Rmult_1_l. apply Rinv_le_contravar; auto. }
    assert (D56' : is_double (/ 2 ^ 56)). { replace (/ 2 ^ 56) with (IZR 1 / 2 ^ 56) by (unfold Rdiv; ring). apply pow2_double; lia. }
    pose proof (b64_le_double _ _ D56' (proj2 I)) as B. pose proof (b64_ge_double _ _ D0 (Rlt_le _ _ (proj1 I))) as C. set (i := binary64 (1 / a)) in *.
    assert (S : binary64 (1 - i) = 1).
    { destruct (Rle_lt_or_eq_dec _ _ C) as [C'|C']; [|rewrite <- C', Rminus_0_r; apply b64_id; auto].
      apply snap; auto; try lra. replace (1 - i - 1) with (- i) by ring. rewrite Rabs_Ropp, Rabs_pos_eq by auto. eapply Rle_lt_trans; [exact B|]. simpl. lra. }
    rewrite S, sqrt_1. apply b64_id; auto. }
  split; auto. unfold approach. rewrite E, Rmult_1_r, (b64_id 1) by auto. replace (1 - 1) with 0 by ring. rewrite (b64_id 0), Rmult_0_r by auto. apply b64_id; auto.
Qed.
Print Assumptions C107_lost.

(** for a mildly relativistic blob on the line of sight the cosine may come back above one *)
Theorem C107_range_needed : exists g, double g /\ 1 < g /\ 1 < cosine binary64 g (doppler_factor binary64 g 1).
Proof.
  assert (R : forall x k n, (k <= 1074)%nat -> 4503599627370496 <= x * 2 ^ k < 9007199254740992 -> Rabs (x * 2 ^ k - IZR n) < 1 / 2 -> binary64 x = IZR n / 2 ^ k).
  { intros x k n Hk H1 H2. apply round_to; auto. replace (2 ^ 52) with 4503599627370496 by (simpl; lra). replace (2 ^ 53) with 9007199254740992 by (simpl; lra). auto. }
  exists (33 / 32). split; [exists 33%Z, (-5)%Z; repeat split; try lia; simpl; lra|]. split; [lra|].
  assert (E0 : binary64 (33 / 32 * (33 / 32)) = 4789472650592256 / 2 ^ 52).
  { apply (R _ 52%nat 4789472650592256%Z); [lia|simpl; lra|apply Rabs_lt_between; simpl; lra]. }
  assert (E1 : binary64 (1 / (4789472650592256 / 2 ^ 52)) = 8469579464513109 / 2 ^ 53).
  { apply (R _ 53%nat 8469579464513109%Z); [lia|simpl; lra|apply Rabs_lt_between; simpl; lra]. }
  assert (E2 : binary64 (1 - 8469579464513109 / 2 ^ 53) = 8601916643646128 / 2 ^ 57).
  { apply (R _ 57%nat 8601916643646128%Z); [lia|simpl; lra|apply Rabs_lt_between; simpl; lra]. }
  assert (Sq : 8802225694788423 - 1 / 2 < sqrt (8601916643646128 / 2 ^ 57) * 2 ^ 55 < 8802225694788423 + 1 / 2).
  { replace (2 ^ 55) with (sqrt (2 ^ 55 * 2 ^ 55)) by (apply sqrt_square, pow_le; lra). rewrite <- sqrt_mult_alt by (simpl; lra).
    rewrite <- (sqrt_square (8802225694788423 - 1 / 2)) by lra. rewrite <- (sqrt_square (8802225694788423 + 1 / 2)) by lra. split; apply sqrt_lt_1_alt; split; simpl; lra. }
  assert (E3 : binary64 (sqrt (8601916643646128 / 2 ^ 57)) = 8802225694788423 / 2 ^ 55).
  { apply (R _ 55%nat 8802225694788423%Z); [lia|lra|apply Rabs_lt_between; lra]. }
  assert (B : speed binary64 (33 / 32) = 8802225694788423 / 2 ^ 55). { unfold speed. rewrite E0, E1, E2. exact E3. }
  assert (E4 : binary64 (8802225694788423 / 2 ^ 55 * 1) = 8802225694788423 / 2 ^ 55).
  { apply (R _ 55%nat 8802225694788423%Z); [lia|simpl; lra|apply Rabs_lt_between; simpl; lra]. }
  assert (E5 : binary64 (1 - 8802225694788423 / 2 ^ 55) = 6806642831043886 / 2 ^ 53).
  { apply (R _ 53%nat 6806642831043886%Z); [lia|simpl; lra|apply Rabs_lt_between; simpl; lra]. }
  assert (E6 : binary64 (33 / 32 * (6806642831043886 / 2 ^ 53)) = 7019350419514007 / 2 ^ 53).
  { apply (R _ 53%nat 7019350419514007%Z); [lia|simpl; lra|apply Rabs_lt_between; simpl; lra]. }
  assert (E7 : binary64 (1 / (7019350419514007 / 2 ^ 53)) = 5778999021694645 / 2 ^ 52).
  { apply (R _ 52%nat 5778999021694645%Z); [lia|simpl; lra|apply Rabs_lt_between; simpl; lra]. }
  assert (D : doppler_factor binary64 (33 / 32) 1 = 5778999021694645 / 2 ^ 52). { unfold doppler_factor, approach. rewrite B, E4, E5, E6. exact E7. }
  assert (E8 : binary64 (33 / 32 * (5778999021694645 / 2 ^ 52)) = 5959592741122603 / 2 ^ 52).
  { apply (R _ 52%nat 5959592741122603%Z); [lia|simpl; lra|apply Rabs_lt_between; simpl; lra]. }
  assert (E9 : binary64 (1 / (5959592741122603 / 2 ^ 52)) = 6806642831043885 / 2 ^ 53).
  { apply (R _ 53%nat 6806642831043885%Z); [lia|simpl; lra|apply Rabs_lt_between; simpl; lra]. }
  assert (E10 : binary64 (1 - 6806642831043885 / 2 ^ 53) = 8802225694788428 / 2 ^ 55).
  { apply (R _ 55%nat 8802225694788428%Z); [lia|simpl; lra|apply Rabs_lt_between; simpl; lra]. }
  assert (E11 : binary64 (8802225694788428 / 2 ^ 55 / (8802225694788423 / 2 ^ 55)) = 4503599627370499 / 2 ^ 52).
  { replace (8802225694788428 / 2 ^ 55 / (8802225694788423 / 2 ^ 55)) with (8802225694788428 / 8802225694788423) by (simpl; lra).
    apply (R _ 52%nat 4503599627370499%Z); [lia|simpl; lra|apply Rabs_lt_between; simpl; lra]. }
  rewrite D. unfold cosine. rewrite B, E8, E9, E10, E11. simpl. lra.
Qed.
Print Assumptions C107_range_needed.

(** a blob with Gamma = 10 seen at 0 degrees and at cos theta = 0.875: the hypotheses are met *)
Example C107_case :
  cosine binary64 10 (doppler_factor binary64 10 1) = 1 /\
  Rabs (doppler_factor binary64 10 (7 / 8) - / (10 * (1 - sqrt (1 - / 10 ^ 2) * (7 / 8)))) <= 5 / 10 ^ 14 * / (10 * (1 - sqrt (1 - / 10 ^ 2) * (7 / 8))) /\
  approach binary64 (2 ^ 30) 1 = 0.
Proof.
  assert (double 10) by (exists 10%Z, 0%Z; repeat split; try lia; simpl; lra). split; [|split].
  - apply C107_aligned; auto. simpl. lra.
  - replace (5 / 10 ^ 14) with (5 / 10 ^ 16 * 10 ^ 2) by field. apply C107_accuracy; auto; simpl; lra.
  - apply C107_lost. split; [simpl; lra|]. apply Rle_pow; [lra|lia].
Qed.
