(** C120: the attenuation of a homogeneous emitter in double precision *)
From Coquelicot Require Import Coquelicot.
From Flocq Require Import Core.
From Verif Require Import Base Absorption Clock ClockFacts Rounding RoundFacts Spec_Round Props_Round Props_Round2 Props_Round3 Props_Round4 Props_Round5 Props_Round6 Props_Round7 Props_Round13 RoundSlab.
Import ListNotations.
Open Scope list_scope.
Open Scope R_scope.
#[local] Existing Instance prec53.

Theorem C120_model : forall P a nu t, tau P a nu = Ok (Some t) -> absorption_homogeneous P a nu = Ok (map (averaged (fun x => x) exp) t).
Proof. intros P a nu t H. unfold absorption_homogeneous. rewrite H. reflexivity. Qed.
Print Assumptions C120_model.

(** exp is rounded to the nearest double, the best a library can do *)
Definition nearest_exp (x : R) : R := binary64 (exp x).
Lemma exp_below t : 0 < t -> 1 - t < exp (- t) < 1 - t + t ^ 2.
Proof.
  intros H. pose proof (exp_ineq1 (- t) ltac:(lra)) as A. pose proof (exp_ineq1 t ltac:(lra)) as B. pose proof (exp_pos (- t)) as C. assert (E : exp t * exp (- t) = 1) by (rewrite <- exp_plus; replace (t + - t) with 0 by ring; apply exp_0). split; [lra|].
  apply Rmult_lt_reg_l with (1 + t); [lra|]. assert ((1 + t) * exp (- t) < exp t * exp (- t)) by (apply Rmult_lt_compat_r; auto). assert (0 < t ^ 3) by (apply pow_lt; auto). replace ((1 + t) * (1 - t + t ^ 2)) with (1 + t ^ 3) by ring. lra.
Qed.
Lemma half_double : is_double (/ 2 ^ 53).
Proof. replace (/ 2 ^ 53) with (IZR 1 / 2 ^ 53) by (unfold Rdiv; ring). apply pow2_double; lia. Qed.

(** below 2^-55 the source, hardly absorbed, is taken for fully absorbed *)
Theorem C120_transparent : forall t, 0 < t <= / 2 ^ 55 ->
  averaged binary64 nearest_exp t = Some 0 /\ 1 - t < (1 - exp (- t)) / t <= 1.
Proof.
  intros t H. pose proof (exp_below t ltac:(lra)) as X. assert (P55 : / 2 ^ 55 = / 36028797018963968) by (rewrite (pow_IZR 2 55); reflexivity). rewrite P55 in H. assert (T2 : t ^ 2 <= t * (1 / 4)) by (replace (t ^ 2) with (t * t) by ring; apply Rmult_le_compat_l; lra). split.
  - unfold averaged. destruct (Reqb_spec t 0); [lra|]. f_equal. assert (F : nearest_exp (- t) = 1). { unfold nearest_exp. rewrite (round_to 53 9007199254740992); [rewrite (pow_IZR 2 53); simpl; lra|lia| |]; rewrite ?(pow_IZR 2 53), ?(pow_IZR 2 52); [simpl; lra|apply Rabs_def1; simpl; lra]. }
    rewrite F. replace (1 - 1) with 0 by ring. rewrite fl_0. unfold Rdiv. rewrite Rmult_0_l. apply fl_0.
  - split; [|apply Rmult_le_reg_r with t; [lra|]; unfold Rdiv; rewrite Rmult_assoc, Rinv_l; lra]. apply Rmult_lt_reg_r with t; [lra|]. unfold Rdiv. rewrite Rmult_assoc, Rinv_l by lra. lra.
Qed.
Print Assumptions C120_transparent.
(** ... and a little above, it is brightened *)
Theorem C120_range_refuted : exists t v, is_double t /\ 0 < t < 1 /\ averaged binary64 nearest_exp t = Some v /\ 5 / 4 <= v /\
  exists t', is_double t' /\ 0 < t' < 1 /\ averaged binary64 nearest_exp t' = Some 0.
Proof.
  assert (P55 : 3 / 2 ^ 55 = 3 / 36028797018963968) by (rewrite (pow_IZR 2 55); reflexivity). exists (3 / 2 ^ 55), (binary64 (4 / 3)). split; [apply (pow2_double 3 55); lia|]. split; [rewrite P55; lra|]. split; [|split].
  - unfold averaged. destruct (Reqb_spec (3 / 2 ^ 55) 0) as [Z|_]; [rewrite P55 in Z; lra|]. f_equal. pose proof (exp_below (3 / 2 ^ 55) ltac:(rewrite P55; lra)) as X. assert (F : nearest_exp (- (3 / 2 ^ 55)) = IZR 9007199254740991 / 2 ^ 53). { unfold nearest_exp. rewrite P55 in *. apply round_to; [lia| |]; rewrite ?(pow_IZR 2 53), ?(pow_IZR 2 52); [simpl; lra|apply Rabs_def1; simpl; lra]. }
    rewrite F. replace (1 - IZR 9007199254740991 / 2 ^ 53) with (/ 2 ^ 53) by (rewrite !(pow_IZR 2 53); simpl; lra). rewrite (b64_id _ half_double). f_equal. rewrite (pow_add 2 53 2 : 2 ^ 55 = _). field.
  - apply b64_ge_double; [|lra]. replace (5 / 4) with (IZR 5 / 2 ^ 2) by (simpl; lra). apply pow2_double; lia.
  - exists (/ 2 ^ 55). assert (Q : / 2 ^ 55 = / 36028797018963968) by (rewrite (pow_IZR 2 55); reflexivity). split; [replace (/ 2 ^ 55) with (IZR 1 / 2 ^ 55) by (unfold Rdiv; ring); apply pow2_double; lia|]. split; [rewrite Q; lra|]. apply C120_transparent. rewrite Q. lra.
Qed.
Print Assumptions C120_range_refuted.

(** the accuracy, for every exponential accurate to one unit in the last place *)
Theorem C120_accuracy_partial : forall fexp t, accurate_exp fexp -> / 2 ^ 40 <= t <= 2 ^ 400 ->
  exists v, averaged binary64 fexp t = Some v /\ Rabs (v - (1 - exp (- t)) / t) <= / 2 ^ 53 * (2 / t + 3) * ((1 - exp (- t)) / t).
Proof.
  intros fexp t Hf [L H]. fold u64. assert (P40 : / 2 ^ 40 = / 1099511627776) by (rewrite (pow_IZR 2 40); reflexivity). assert (T : 0 < t) by (rewrite P40 in L; lra). unfold averaged. destruct (Reqb_spec t 0); [lra|]. eexists. split; [reflexivity|].
  pose proof (exp_ineq1 t ltac:(lra)) as B. pose proof (exp_pos (- t)) as C. assert (E : exp t * exp (- t) = 1) by (rewrite <- exp_plus; replace (t + - t) with 0 by ring; apply exp_0). pose proof (Hf (- t)) as F. set (x := exp (- t)) in *. set (y := fexp (- t)) in *.
  assert (N1 : t * x <= 1 - x). { assert ((1 + t) * x <= exp t * x) by (apply Rmult_le_compat_r; lra). lra. } assert (N0 : 0 < 1 - x) by (assert (0 < t * x) by (apply Rmult_lt_0_compat; auto); lra). assert (N2 : t <= (1 - x) * (1 + t)) by lra.
  destruct h0_small as [[S0 S1] S2]. assert (U : 0 < u64) by (rewrite u64_val; lra). rewrite u2 in F. change (/ 2 ^ 1000) with h0 in F.
  assert (V2 : / (1 + t) <= (1 - x) / t). { apply Rmult_le_reg_r with (t * (1 + t)); [apply Rmult_lt_0_compat; lra|]. replace (/ (1 + t) * (t * (1 + t))) with t by (field; lra). replace ((1 - x) / t * (t * (1 + t))) with ((1 - x) * (1 + t)) by (field; lra). auto. }
  assert (NL : / 2 ^ 50 <= 1 - x). { assert (P50 : / 2 ^ 50 = / 1125899906842624) by (rewrite (pow_IZR 2 50); reflexivity). rewrite P50. rewrite P40 in L. destruct (Rle_dec t 1) as [K|K]. { assert ((1 - x) * (1 + t) <= (1 - x) * 2) by (apply Rmult_le_compat_l; lra). lra. } assert (1 * x <= t * x) by (apply Rmult_le_compat_r; lra). lra. }
  assert (VL : / 2 ^ 401 <= (1 - x) / t). { eapply Rle_trans; [|exact V2]. apply Rinv_le_contravar; [lra|]. rewrite (pow_add 2 400 1 : 2 ^ 401 = _), pow_1. assert (1 <= 2 ^ 400) by (apply pow_R1_Rle; lra). lra. }
  assert (HN : h0 <= 1 / 100 * u64 * (1 - x)). { assert (P : h0 * 2 ^ 401 * / 2 ^ 401 = h0) by (field; apply pow_nonzero; lra). assert (h0 * 2 ^ 401 * / 2 ^ 401 <= u64 / 10 ^ 10 * / 2 ^ 50); [|rewrite P in H0; assert (u64 / 10 ^ 10 * / 2 ^ 50 <= u64 / 10 ^ 10 * (1 - x)) by (apply Rmult_le_compat_l; lra); assert (0 < u64 * (1 - x)) by (apply Rmult_lt_0_compat; lra); lra]. assert (0 < h0 * 2 ^ 401) by (apply Rmult_lt_0_compat; [auto|apply pow_lt; lra]). apply Rmult_le_compat; [lra|left; apply pos_inv|auto|apply lo_le; lia]. }
  assert (IT : 0 < / t <= 1099511627776). { split; [apply Rinv_0_lt_compat; auto|]. rewrite P40 in L. rewrite <- (Rinv_inv 1099511627776). apply Rinv_le_contravar; lra. }
  set (r := u64 * (2 * / t + 1 / 100)). assert (R0 : 0 <= r <= 1 / 2000). { unfold r. split; [apply Rmult_le_pos; lra|]. apply Rle_trans with (u64 * (2 * 1099511627776 + 1 / 100)); [apply Rmult_le_compat_l; lra|rewrite u64_val; lra]. }
  assert (A : rel r (1 - y) (1 - x)). { unfold rel. replace (1 - y - (1 - x)) with (- (y - x)) by ring. rewrite Rabs_Ropp, (Rabs_right (1 - x)) by lra. eapply Rle_trans; [exact F|]. assert (X : x <= / t * (1 - x)). { apply Rmult_le_reg_l with t; auto. replace (t * (/ t * (1 - x))) with (1 - x) by (field; lra). auto. } assert (2 * u64 * x <= 2 * u64 * (/ t * (1 - x))) by (apply Rmult_le_compat_l; lra). unfold r. lra. }
  assert (A1 : rel (r + 102 / 100 * u64) (binary64 (1 - y)) (1 - x)) by (apply fl_step; [auto|lra|apply (lo_w 50); [auto|lia]]).
  assert (A2 : rel (r + 102 / 100 * u64) (binary64 (1 - y) / t) ((1 - x) / t)). { unfold Rdiv. rewrite (Rmult_comm _ (/ t)), (Rmult_comm (1 - x)). apply rel_scal. auto. }
  assert (A3 : rel (r + 102 / 100 * u64 + 102 / 100 * u64) (binary64 (binary64 (1 - y) / t)) ((1 - x) / t)). { apply fl_step; auto; [rewrite u64_val in *; lra|apply (lo_w 401); [auto|lia]]. }
  unfold rel in A3. assert (V0 : 0 < (1 - x) / t) by (apply Rdiv_lt_0_compat; lra). rewrite (Rabs_right ((1 - x) / t)) in A3 by lra. eapply Rle_trans; [exact A3|]. apply Rmult_le_compat_r; [lra|]. unfold r, Rdiv. lra.
Qed.
Print Assumptions C120_accuracy_partial.
(** a case: an opacity of 10^-3, and the exponential rounded to the nearest double *)
Example C120_case : accurate_exp nearest_exp /\ exists v, averaged binary64 nearest_exp (/ 10 ^ 3) = Some v /\ Rabs (v - (1 - exp (- / 10 ^ 3)) / / 10 ^ 3) <= 3 / 10 ^ 13.
Proof.
  assert (A : accurate_exp nearest_exp). { intros x. unfold nearest_exp. pose proof (fl_err (exp x)) as F. pose proof (exp_pos x). rewrite (Rabs_right (exp x)) in F by lra. change (/ 2 ^ 1000) with h0. rewrite u2. assert (0 < u64) by (rewrite u64_val; lra). assert (0 < u64 * exp x) by (apply Rmult_lt_0_compat; auto). lra. }
  split; auto. destruct (C120_accuracy_partial nearest_exp (/ 10 ^ 3) A) as (v & V1 & V2). { split; [apply Rinv_le_contravar; lra|]. apply Rle_trans with 1; [lra|apply pow_R1_Rle; lra]. }
  exists v. split; auto. eapply Rle_trans; [exact V2|]. pose proof (exp_below (/ 10 ^ 3) ltac:(lra)) as X. set (w := (1 - exp (- / 10 ^ 3)) / / 10 ^ 3) in *. assert (W : 0 <= w <= 1). { unfold w, Rdiv. rewrite Rinv_inv. lra. } fold u64. assert (C : u64 * (2 / / 10 ^ 3 + 3) <= 3 / 10 ^ 13) by (rewrite u64_val; lra). assert (u64 * (2 / / 10 ^ 3 + 3) * w <= 3 / 10 ^ 13 * 1); [|lra]. apply Rmult_le_compat; try lra. apply Rmult_le_pos; [rewrite u64_val; lra|lra].
Qed.
