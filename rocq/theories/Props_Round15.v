(** C121: the synchrotron function R(x) in double precision *)
From Coquelicot Require Import Coquelicot.
From Flocq Require Import Core.
From Verif Require Import Base MathUtils Synchrotron Clock ClockFacts Rounding RoundFacts Spec_Round Props_Round Props_Round2 Props_Round3 Props_Round4 Props_Round5 Props_Round6 Props_Round13 Props_Round14 RoundSynch.
Import ListNotations.
Open Scope list_scope.
Open Scope R_scope.
#[local] Existing Instance prec53.

Theorem C121_model : forall x, rounded_R (fun v => v) exp Rpower x = R_func x.
Proof. intros x. unfold rounded_R, rounded_poly, R_func, npow. cbv zeta. replace (1808 / 1000) with 1.808 by lra. replace (34 / 10) with 3.4 by lra. replace (221 / 100) with 2.21 by lra. replace (347 / 1000) with 0.347 by lra. replace (1353 / 1000) with 1.353 by lra. replace (217 / 1000) with 0.217 by lra. reflexivity. Qed.
Print Assumptions C121_model.

(** the fit of Aharonian et al. *)
Definition fitted (x : R) : R :=
  1808 / 1000 * Rpower x (1 / 3) / sqrt (1 + 34 / 10 * Rpower x (2 / 3))
  * (1 + 221 / 100 * Rpower x (2 / 3) + 347 / 1000 * Rpower x (4 / 3))
  / (1 + 1353 / 1000 * Rpower x (2 / 3) + 217 / 1000 * Rpower x (4 / 3)) * exp (- x).
(** np.power is accurate to one unit in the last place *)
Definition accurate_pow (f : R -> R -> R) : Prop := forall x q, 0 < x -> Rabs (f x q - Rpower x q) <= / 2 ^ 52 * Rpower x q.

Lemma fl_up k a b : near k a b -> (k <= 2000)%nat -> / 2 ^ 1000 <= b -> near (S k) (binary64 a) b.
Proof.
  intros N Hk L. pose proof (pos_inv 1000) as P. pose proof (near_pos _ _ _ N ltac:(lra)) as A. apply (near_trans 1 k _ a); auto. apply (fl_near_lo 1001); [lia|]. destruct N as [_ B]. assert (W : (1 + u64) ^ k <= 2). { apply up_two. apply le_INR in Hk. replace (INR 2000) with 2000 in Hk by (rewrite INR_IZR_INZ; reflexivity). assert (INR k * u64 <= 2000 * u64) by (apply Rmult_le_compat_r; [rewrite u64_val; lra|auto]). rewrite u64_val in *. lra. }
  assert (a * (1 + u64) ^ k <= a * 2) by (apply Rmult_le_compat_l; lra). replace (/ 2 ^ 1001) with (/ 2 ^ 1000 / 2); [lra|]. rewrite (pow_add 2 1000 1 : 2 ^ 1001 = _). rewrite pow_1, Rinv_mult. unfold Rdiv. ring.
Qed.
Lemma err_near a b r : 0 < b -> Rabs (a - b) <= r * b -> 0 <= r <= 201 / 100 * u64 -> near 3 a b.
Proof.
  intros Hb H Hr. apply Rabs_le_inv in H. assert (U : 0 < u64) by (rewrite u64_val; lra). assert (r * b <= 201 / 100 * u64 * b) by (apply Rmult_le_compat_r; lra). assert (W : 1 + 29 / 10 * u64 <= (1 + u64) ^ 3) by (simpl; rewrite u64_val; lra). split.
  - assert (b * (1 + 29 / 10 * u64) <= b * (1 + u64) ^ 3) by (apply Rmult_le_compat_l; lra). assert (0 < u64 * b) by (apply Rmult_lt_0_compat; auto). lra.
  - assert (A : b * (1 - 201 / 100 * u64) <= a) by lra. assert (A0 : 0 <= a). { assert (0 <= b * (1 - 201 / 100 * u64)) by (apply Rmult_le_pos; rewrite ?u64_val; lra). lra. } assert (b * (1 - 201 / 100 * u64) * (1 + 29 / 10 * u64) <= a * (1 + u64) ^ 3) by (apply Rmult_le_compat; rewrite ?u64_val in *; try lra). assert (1 <= (1 - 201 / 100 * u64) * (1 + 29 / 10 * u64)) by (rewrite u64_val; lra). assert (b * 1 <= b * ((1 - 201 / 100 * u64) * (1 + 29 / 10 * u64))) by (apply Rmult_le_compat_l; lra). lra.
Qed.
Lemma exp_up k d : 0 <= d <= 99 / 100 * u64 * INR k -> exp d <= (1 + u64) ^ k.
Proof.
  intros H. assert (U : 0 < u64) by (rewrite u64_val; lra). assert (B : exp (99 / 100 * u64) <= 1 + u64). { pose proof (exp_below (99 / 100 * u64) ltac:(lra)) as [X _]. set (e := 99 / 100 * u64) in *. assert (E : exp e * exp (- e) = 1) by (rewrite <- exp_plus; replace (e + - e) with 0 by ring; apply exp_0). apply Rmult_le_reg_r with (1 - e); [unfold e; rewrite u64_val; lra|]. pose proof (exp_pos e). assert (exp e * (1 - e) <= exp e * exp (- e)) by (apply Rmult_le_compat_l; lra). assert (1 <= (1 + u64) * (1 - e)) by (unfold e; rewrite u64_val; lra). lra. }
  apply Rle_trans with (exp (INR k * (99 / 100 * u64))). { destruct H as [_ H]. destruct (Req_dec d (INR k * (99 / 100 * u64))) as [->|K]; [lra|]. left. apply exp_increasing. lra. }
  replace (exp (INR k * (99 / 100 * u64))) with (exp (99 / 100 * u64) ^ k). { apply pow_incr. split; [left; apply exp_pos|auto]. } clear. induction k as [|k IH]. { simpl. rewrite Rmult_0_l, exp_0. reflexivity. } rewrite S_INR, Rmult_plus_distr_r, Rmult_1_l, exp_plus, <- IH. simpl. ring.
Qed.

Section Value.
Variable fexp : R -> R.
Variable fpow : R -> R -> R.
Hypothesis exp_ok : accurate_exp fexp.
Hypothesis pow_ok : accurate_pow fpow.
Variable x : R.
Hypothesis Hx : / 2 ^ 300 <= x <= 500.
Lemma x_pos : 0 < x.
Proof. pose proof (pos_inv 300). lra. Qed.
Lemma ln_range : - (300) * ln 2 <= ln x <= 300 * ln 2 /\ 0 < ln 2 <= 1.
Proof.
  assert (L2 : 0 < ln 2 <= 1). { split; [rewrite <- ln_1; apply ln_increasing; lra|]. pose proof (exp_ineq1 1 ltac:(lra)). rewrite <- (ln_exp 1). left. apply ln_increasing; lra. } split; auto. split.
  - replace (- (300) * ln 2) with (ln (/ 2 ^ 300)). { apply ln_le; [apply pos_inv|lra]. } rewrite ln_Rinv by (apply pow_lt; lra). rewrite ln_pow by lra. replace (INR 300) with 300 by (rewrite INR_IZR_INZ; reflexivity). ring.
  - apply Rle_trans with (ln (2 ^ 300)); [apply ln_le; [apply x_pos|]|]. { apply Rle_trans with (2 ^ 9); [lra|apply Rle_pow; [lra|lia]]. } rewrite ln_pow by lra. replace (INR 300) with 300 by (rewrite INR_IZR_INZ; reflexivity). lra.
Qed.
Lemma pow_lo q : 0 < q <= 4 / 3 -> / 2 ^ 400 <= Rpower x q.
Proof.
  intros Hq. destruct ln_range as [[A _] L2]. replace (/ 2 ^ 400) with (exp (- (400) * ln 2)). 2:{ rewrite <- (exp_ln (/ 2 ^ 400)) by apply pos_inv. f_equal. rewrite ln_Rinv by (apply pow_lt; lra). rewrite ln_pow by lra. replace (INR 400) with 400 by (rewrite INR_IZR_INZ; reflexivity). ring. }
  unfold Rpower. assert (K : - (400) * ln 2 <= q * ln x). { assert (q * (- (300) * ln 2) <= q * ln x) by (apply Rmult_le_compat_l; lra). assert (q * (300 * ln 2) <= 4 / 3 * (300 * ln 2)) by (apply Rmult_le_compat_r; lra). lra. } destruct K as [K|K]; [left; apply exp_increasing; auto|rewrite K; lra].
Qed.
Lemma pow_hi q : 0 < q <= 4 / 3 -> Rpower x q <= 2 ^ 18.
Proof.
  intros Hq. pose proof x_pos as X. replace (2 ^ 18) with (Rpower 512 2). 2:{ replace 2 with (INR 2) at 1 by (simpl; lra). rewrite Rpower_pow by lra. lra. } destruct (Rle_dec x 1) as [K|K].
  - apply Rle_trans with (Rpower 1 q); [apply Rle_Rpower_l; lra|]. unfold Rpower. rewrite ln_1, Rmult_0_r. assert (0 < 2 * ln 512) by (apply Rmult_lt_0_compat; [lra|rewrite <- ln_1; apply ln_increasing; lra]). left. apply exp_increasing. auto.
  - apply Rle_trans with (Rpower x 2); [apply Rle_Rpower; lra|apply Rle_Rpower_l; lra].
Qed.
Lemma pow_near q : / 2 <= 2 * q -> 0 < q <= 4 / 3 -> near 413 (fpow x (binary64 q)) (Rpower x q).
Proof.
  intros Q0 Hq. assert (U : 0 < u64) by (rewrite u64_val; lra). destruct ln_range as [LX L2]. assert (N : near 1 (binary64 q) q) by (apply (fl_near_lo 2); [lia|simpl; lra]). assert (D : Rabs (binary64 q - q) <= 136 / 100 * u64). { destruct N as [A B]. rewrite pow_1 in A, B. assert (q * u64 <= 4 / 3 * u64) by (apply Rmult_le_compat_r; lra). assert (binary64 q <= 135 / 100) by (rewrite u64_val in *; lra). assert (binary64 q * u64 <= 135 / 100 * u64) by (apply Rmult_le_compat_r; lra). apply Rabs_le. lra. }
  assert (M : near 410 (Rpower x (binary64 q)) (Rpower x q)).
  { assert (Z : Rabs ((binary64 q - q) * ln x) <= 99 / 100 * u64 * INR 410). { rewrite Rabs_mult. apply Rle_trans with (136 / 100 * u64 * 270); [|replace (INR 410) with 410 by (rewrite INR_IZR_INZ; reflexivity); lra]. apply Rmult_le_compat; try apply Rabs_pos; auto. apply Rabs_le. assert (ln 2 <= 9 / 10); [|lra]. rewrite <- (ln_exp (9 / 10)). apply ln_le; [lra|]. replace (9 / 10) with (9 / 20 + 9 / 20) by lra. rewrite exp_plus. pose proof (exp_ineq1 (9 / 20) ltac:(lra)). assert ((1 + 9 / 20) * (1 + 9 / 20) <= exp (9 / 20) * exp (9 / 20)) by (apply Rmult_le_compat; lra). lra. }
    unfold near, Rpower. set (d := (binary64 q - q) * ln x) in *. replace (binary64 q * ln x) with (q * ln x + d) by (unfold d; ring). pose proof (exp_up 410 (Rabs d) (conj (Rabs_pos d) Z)) as W. set (w := (1 + u64) ^ 410) in *. clearbody w. pose proof (exp_pos (q * ln x)) as P. assert (D1 : exp d <= exp (Rabs d)) by (destruct (RRle_abs d) as [K|K]; [left; apply exp_increasing; auto|rewrite <- K; lra]). assert (D2 : exp (- d) <= exp (Rabs d)). { assert (K : - d <= Rabs d) by (rewrite <- Rabs_Ropp; apply RRle_abs). destruct K as [K|K]; [left; apply exp_increasing; auto|rewrite <- K; lra]. }
    rewrite exp_plus. split; [apply Rmult_le_compat_l; lra|]. rewrite Rmult_assoc. replace (exp (q * ln x)) with (exp (q * ln x) * 1) at 1 by ring. apply Rmult_le_compat_l; [lra|]. replace 1 with (exp d * exp (- d)) by (rewrite <- exp_plus; replace (d + - d) with 0 by ring; apply exp_0). apply Rmult_le_compat_l; [left; apply exp_pos|lra]. }
  apply (near_trans 3 410 _ (Rpower x (binary64 q))); auto. apply (err_near _ _ (/ 2 ^ 52)); [apply exp_pos|apply pow_ok, x_pos|rewrite u2; lra].
Qed.
Lemma lit_near c : / 8 <= c -> near 1 (binary64 c) c.
Proof. intros H. apply (fl_near_lo 3); [lia|simpl; lra]. Qed.
Lemma low n b : / 2 ^ n <= b -> (n <= 1000)%nat -> / 2 ^ 1000 <= b.
Proof. apply lo_w. Qed.
Lemma term_near c q : / 8 <= c -> / 2 <= 2 * q -> 0 < q <= 4 / 3 -> near 415 (binary64 (binary64 c * fpow x (binary64 q))) (c * Rpower x q).
Proof.
  intros Hc Q0 Hq. pose proof (pow_lo q Hq) as L. pose proof (pos_inv 400) as P. apply (fl_up 414); [|lia|]. { apply (near_mult 1 413); try lra; [apply lit_near; auto|apply pow_near; auto]. } apply (low 403); [|lia]. apply (mul_lo 3 400); [simpl; lra|auto|lia].
Qed.
Lemma one_near k a b : (k <= 1000)%nat -> 0 < b -> near k a b -> near (S k) (binary64 (1 + a)) (1 + b).
Proof.
  intros Hk Hb N. apply fl_up; [|lia|]. { apply near_plus; auto. apply (near_weak 0 k); [lia|lra|apply near_refl]. } apply (low 0); [simpl; lra|lia].
Qed.
Lemma poly_near a b : / 8 <= a -> / 8 <= b -> near 417 (rounded_poly binary64 fpow a b x) (1 + a * Rpower x (2 / 3) + b * Rpower x (4 / 3)).
Proof.
  intros Ha Hb. pose proof (exp_pos (2 / 3 * ln x) : 0 < Rpower x (2 / 3)) as P1. pose proof (exp_pos (4 / 3 * ln x) : 0 < Rpower x (4 / 3)) as P2. assert (A : 0 < a * Rpower x (2 / 3)) by (apply Rmult_lt_0_compat; lra). assert (B : 0 < b * Rpower x (4 / 3)) by (apply Rmult_lt_0_compat; lra). unfold rounded_poly. apply (fl_up 416); [|lia|apply (low 0); [simpl; lra|lia]]. apply near_plus.
  - apply (one_near 415); [lia|auto|]. apply term_near; lra.
  - apply (near_weak 415); [lia|lra|]. apply term_near; lra.
Qed.
Lemma exp_near : near 3 (fexp (- x)) (exp (- x)) /\ / 2 ^ 800 <= exp (- x).
Proof.
  assert (L : / 2 ^ 800 <= exp (- x)). { rewrite exp_Ropp. apply Rinv_le_contravar; [apply exp_pos|]. apply Rle_trans with (exp 500). { destruct Hx as [_ [K|K]]; [left; apply exp_increasing; auto|rewrite K; lra]. } replace 500 with (INR 100 * 5) by (rewrite INR_IZR_INZ; simpl; lra). assert (Q : exp (INR 100 * 5) = exp 5 ^ 100). { generalize 100%nat. induction n as [|n IH]; [simpl; rewrite Rmult_0_l, exp_0; reflexivity|]. rewrite S_INR, Rmult_plus_distr_r, Rmult_1_l, exp_plus, IH. simpl. ring. } rewrite Q. replace 800%nat with (8 * 100)%nat by reflexivity. rewrite pow_mult. apply pow_incr. split; [left; apply exp_pos|]. replace 5 with (INR 5 * 1) by (simpl; lra). assert (Q5 : exp (INR 5 * 1) = exp 1 ^ 5). { generalize 5%nat. induction n as [|n IH]; [simpl; rewrite Rmult_0_l, exp_0; reflexivity|]. rewrite S_INR, Rmult_plus_distr_r, Rmult_1_l, exp_plus, IH. simpl. ring. } rewrite Q5. apply Rle_trans with (3 ^ 5); [|lra]. apply pow_incr. split; [left; apply exp_pos|apply exp_le_3]. }
  split; auto. destruct h0_small as [[S0 S1] S2]. pose proof (exp_ok (- x)) as F. rewrite u2 in F. change (/ 2 ^ 1000) with h0 in F. assert (U : 0 < u64) by (rewrite u64_val; lra). pose proof (exp_pos (- x)) as P. apply (err_near _ _ (201 / 100 * u64)); auto; [|lra]. eapply Rle_trans; [exact F|]. assert (h0 <= 1 / 100 * u64 * exp (- x)); [|lra]. apply Rle_trans with (1 / 100 * u64 * / 2 ^ 800); [|apply Rmult_le_compat_l; lra]. unfold h0. rewrite (pow_add 2 200 800 : 2 ^ 1000 = _), Rinv_mult. apply Rmult_le_compat_r; [left; apply pos_inv|]. apply Rle_trans with (/ 2 ^ 60); [apply lo_le; lia|]. rewrite u64_val. replace (/ 2 ^ 60) with (/ 1152921504606846976) by (rewrite (pow_IZR 2 60); reflexivity). lra.
Qed.
Lemma R_near : near 1673 (rounded_R binary64 fexp fpow x) (fitted x).
Proof.
  destruct exp_near as [XN XL]. pose proof (term_near (1808 / 1000) (1 / 3) ltac:(lra) ltac:(lra) ltac:(lra)) as T1. pose proof (poly_near (221 / 100) (347 / 1000) ltac:(lra) ltac:(lra)) as T3. pose proof (poly_near (1353 / 1000) (217 / 1000) ltac:(lra) ltac:(lra)) as T4.
  pose proof (pow_lo (1 / 3) ltac:(lra)) as L1. pose proof (pow_lo (2 / 3) ltac:(lra)) as L2. pose proof (pow_lo (4 / 3) ltac:(lra)) as L4. pose proof (pow_hi (2 / 3) ltac:(lra)) as H2. pose proof (pow_hi (4 / 3) ltac:(lra)) as H4. pose proof (pos_inv 400) as P4. pose proof (pos_inv 800) as P8.
  assert (T2 : near 417 (binary64 (sqrt (binary64 (1 + binary64 (binary64 (34 / 10) * fpow x (binary64 (2 / 3))))))) (sqrt (1 + 34 / 10 * Rpower x (2 / 3)))).
  { assert (Q : 1 <= sqrt (1 + 34 / 10 * Rpower x (2 / 3))) by (rewrite <- sqrt_1 at 1; apply sqrt_le_1_alt; lra). apply (fl_up 416); [|lia|apply (low 0); [simpl; lra|lia]]. apply near_sqrt; [lra|]. apply (one_near 415); [lia|lra|]. apply term_near; lra. }
  unfold rounded_R, fitted. cbv zeta. set (a := 1808 / 1000 * Rpower x (1 / 3)) in *. set (b := sqrt (1 + 34 / 10 * Rpower x (2 / 3))) in *. set (c := 1 + 221 / 100 * Rpower x (2 / 3) + 347 / 1000 * Rpower x (4 / 3)) in *. set (f := 1 + 1353 / 1000 * Rpower x (2 / 3) + 217 / 1000 * Rpower x (4 / 3)) in *.
  assert (A : / 2 ^ 400 <= a) by (unfold a; lra). assert (B : 0 < b <= 2 ^ 20). { unfold b. split; [apply sqrt_lt_R0; lra|]. apply Rle_trans with (sqrt (Rsqr (2 ^ 20))); [apply sqrt_le_1_alt; unfold Rsqr; lra|rewrite sqrt_Rsqr; lra]. } assert (C : 1 <= c) by (unfold c; lra). assert (F : 0 < f <= 2 ^ 20) by (unfold f; lra).
  assert (AB : / 2 ^ 420 <= a / b) by (apply (mul_lo 400 20); [auto|apply inv_lo; auto|lia]). assert (ABC : / 2 ^ 420 <= a / b * c) by (apply (mul_lo 420 0); [auto|simpl; lra|lia]). assert (ABCF : / 2 ^ 440 <= a / b * c / f) by (apply (mul_lo 420 20); [auto|apply inv_lo; auto|lia]). pose proof (pos_inv 420). pose proof (pos_inv 440).
  set (p1 := binary64 (binary64 (1808 / 1000) * fpow x (binary64 (1 / 3)))) in *. set (p2 := binary64 (sqrt (binary64 (1 + binary64 (binary64 (34 / 10) * fpow x (binary64 (2 / 3))))))) in *. set (p3 := rounded_poly binary64 fpow (221 / 100) (347 / 1000) x) in *. set (p4 := rounded_poly binary64 fpow (1353 / 1000) (217 / 1000) x) in *. clearbody p1 p2 p3 p4.
  assert (N1 : near 833 (binary64 (p1 / p2)) (a / b)) by (apply (fl_up 832); [apply (near_div 415 417); auto; lra|lia|apply (low 420); [auto|lia]]).
  assert (N2 : near 1251 (binary64 (binary64 (p1 / p2) * p3)) (a / b * c)) by (apply (fl_up 1250); [apply (near_mult 833 417); auto; lra|lia|apply (low 420); [auto|lia]]).
  assert (N3 : near 1669 (binary64 (binary64 (binary64 (p1 / p2) * p3) / p4)) (a / b * c / f)) by (apply (fl_up 1668); [apply (near_div 1251 417); auto; lra|lia|apply (low 440); [auto|lia]]).
  apply (fl_up 1672); [|lia|].
  - apply (near_mult 1669 3); auto; [lra|left; apply exp_pos].
  - destruct (Rle_dec x 1) as [K|K].
    + apply (low 442); [|lia]. apply (mul_lo 440 2); [auto| |lia]. apply Rle_trans with (exp (- (1))); [|destruct K as [K|K]; [left; apply exp_increasing; lra|rewrite K; lra]]. rewrite exp_Ropp. apply Rinv_le_contravar; [apply exp_pos|]. pose proof exp_le_3. simpl. lra.
    + assert (A1 : / 2 ^ 0 <= a). { rewrite pow_O, Rinv_1. unfold a. assert (1 <= Rpower x (1 / 3)); [|lra]. unfold Rpower. apply Rle_trans with (exp 0); [rewrite exp_0; lra|]. assert (0 < 1 / 3 * ln x) by (apply Rmult_lt_0_compat; [lra|rewrite <- ln_1; apply ln_increasing; lra]). left. apply exp_increasing. auto. }
      assert (AB1 : / 2 ^ 20 <= a / b) by (apply (mul_lo 0 20); [auto|apply inv_lo; auto|lia]). assert (ABC1 : / 2 ^ 20 <= a / b * c) by (apply (mul_lo 20 0); [auto|simpl; lra|lia]). assert (ABCF1 : / 2 ^ 40 <= a / b * c / f) by (apply (mul_lo 20 20); [auto|apply inv_lo; auto|lia]). apply (low 840); [|lia]. apply (mul_lo 40 800); auto; lia.
Qed.
End Value.

(** relative accuracy of 2 parts in 10^13, from the power law below the critical
    frequency to the exponential cutoff *)
Theorem C121_accuracy : forall fexp fpow x, accurate_exp fexp -> accurate_pow fpow -> / 2 ^ 300 <= x <= 500 ->
  0 < fitted x /\ Rabs (rounded_R binary64 fexp fpow x - fitted x) <= 2 / 10 ^ 13 * fitted x.
Proof.
  intros fexp fpow x He Hp Hx. assert (P : 0 < fitted x). { unfold fitted. pose proof (exp_pos (1 / 3 * ln x) : 0 < Rpower x (1 / 3)). pose proof (exp_pos (2 / 3 * ln x) : 0 < Rpower x (2 / 3)). pose proof (exp_pos (4 / 3 * ln x) : 0 < Rpower x (4 / 3)). apply Rmult_lt_0_compat; [|apply exp_pos]. apply Rdiv_lt_0_compat; [|lra]. apply Rmult_lt_0_compat; [|lra]. apply Rdiv_lt_0_compat; [lra|]. apply sqrt_lt_R0. lra. }
  split; auto. apply (near_size 1673); auto; [apply R_near; auto| |]; replace (INR 1673) with 1673 by (rewrite INR_IZR_INZ; reflexivity); rewrite u64_val; lra.
Qed.
Print Assumptions C121_accuracy.
(** a case: at the critical frequency, with functions rounded to the nearest double *)
Example C121_case : accurate_exp nearest_exp /\ accurate_pow Rpower /\
  fitted 1 = 1808 / 1000 / sqrt (44 / 10) * (3557 / 1000) / (2570 / 1000) * exp (- (1)) /\
  Rabs (rounded_R binary64 nearest_exp Rpower 1 - fitted 1) <= 2 / 10 ^ 13 * fitted 1.
Proof.
  assert (A : accurate_exp nearest_exp) by apply C120_case. assert (B : accurate_pow Rpower). { intros x q _. unfold Rminus. rewrite Rplus_opp_r, Rabs_R0. apply Rmult_le_pos; [left; apply pos_inv|left; apply exp_pos]. }
  split; auto. split; auto. split; [|apply C121_accuracy; auto; split; [|lra]; rewrite <- Rinv_1; apply Rinv_le_contravar; [lra|apply pow_R1_Rle; lra]].
  unfold fitted. assert (R1 : forall q, Rpower 1 q = 1) by (intros q; unfold Rpower; rewrite ln_1, Rmult_0_r; apply exp_0). rewrite !R1, !Rmult_1_r. replace (1 + 34 / 10) with (44 / 10) by lra. replace (1 + 221 / 100 + 347 / 1000) with (3557 / 1000) by lra. replace (1 + 1353 / 1000 + 217 / 1000) with (2570 / 1000) by lra. reflexivity.
Qed.
