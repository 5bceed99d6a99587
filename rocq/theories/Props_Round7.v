(** C113: the isotropic Compton kernel in floating point arithmetic *)
From Flocq Require Import Core.
From Flocq Require Import Relative.
From Verif Require Import Base NumpyInst MathUtils Kernels Clock ClockFacts Rounding RoundFacts Spec_Round MathFacts Props_Round Props_Round2 Props_Round3 Props_Round4 Props_Round5 Props_Round6 RoundKernel.
Open Scope R_scope.
#[local] Existing Instance prec53.

(** ** without rounding it is the function of Kernels.v *)
Theorem C113_model : forall g e es, rounded_kernel (fun v => v) clog (fun v => v ^ 2) g e es = isotropic_kernel g e es.
Proof. intros. reflexivity. Qed.
Print Assumptions C113_model.

(** ** what the kernel is: Jones' formula between the kinematic limits *)
Definition jones (q G : R) : R := 2 * q * ln q + (1 + 2 * q) * (1 - q) + (G * q) ^ 2 / (2 * (1 + G * q)) * (1 - q).
Definition fraction (g e es : R) : R := es / (4 * g * e * (g - es)).
Definition exact_kernel (g e es : R) : R :=
  if Rlt_dec es g then
    if Rle_dec (1 / (4 * g ^ 2)) (fraction g e es) then
      if Rle_dec (fraction g e es) 1 then jones (fraction g e es) (4 * g * e) else 0
    else 0
  else 0.
(** numpy's square is accurate to one unit in the last place *)
Definition accurate_square (f : R -> R) : Prop := forall v, / 2 ^ 400 <= v <= 2 ^ 400 -> Rabs (f v - v ^ 2) <= / 2 ^ 52 * v ^ 2.

(** ** Jones' formula as a function of q *)
Lemma q_ln a : 0 < a <= 1 -> - 1 <= a * ln a <= 0.
Proof.
  intros H. assert (L : ln a <= 0) by (rewrite <- ln_1; apply Rcomplements.ln_le; lra). pose proof (exp_ineq1_le (ln (/ a))) as K. rewrite exp_ln in K by (apply Rinv_0_lt_compat; lra). rewrite ln_Rinv in K by lra.
  assert (M : a * (1 + - ln a) <= a * / a) by (apply Rmult_le_compat_l; lra). rewrite Rinv_r in M by lra. split; [lra|]. assert (0 <= a * - ln a) by (apply Rmult_le_pos; lra). lra.
Qed.
Definition gg (G q : R) : R := (G * q) ^ 2 / (2 * (1 + G * q)).
Lemma gg_range G q : 0 <= G -> 0 < q <= 1 -> 0 <= gg G q <= G / 2.
Proof.
  intros HG Hq. assert (V : 0 <= G * q) by (apply Rmult_le_pos; lra). assert (V1 : G * q <= G * 1) by (apply Rmult_le_compat_l; lra). unfold gg. set (v := G * q) in *. split. - apply Rmult_le_pos; [apply pow2_ge_0|left; apply Rinv_0_lt_compat; lra].
  - apply Rmult_le_reg_r with (2 * (1 + v)); [lra|]. unfold Rdiv at 1. rewrite Rmult_assoc, Rinv_l, Rmult_1_r by lra. assert (v * v <= G * v) by (apply Rmult_le_compat_r; lra). nra.
Qed.
Lemma jones_lip a b t G : 0 <= G -> 0 < a -> a <= b <= 1 -> b <= a * (1 + t) -> 0 <= t <= 1 / 100 -> Rabs (jones b G - jones a G) <= 5 * (1 + G) * t.
Proof.
  intros HG Ha Hb Hab Ht. unfold jones. fold (gg G a) (gg G b). pose proof (gg_range G a HG ltac:(lra)) as Ra.
  assert (D : 0 <= b - a <= a * t) by lra. assert (D2 : a * t <= 1 * t) by (apply Rmult_le_compat_r; lra).
  assert (T1 : - t <= b * ln b - a * ln a <= t).
  { assert (L : 0 <= ln b - ln a <= t). { split. - pose proof (Rcomplements.ln_le a b Ha ltac:(lra)). lra. - replace (ln b - ln a) with (ln (b / a)) by (unfold Rdiv; rewrite ln_mult, ln_Rinv by (try apply Rinv_0_lt_compat; lra); ring). pose proof (exp_ineq1_le (ln (b / a))) as K. rewrite exp_ln in K by (apply Rdiv_lt_0_compat; lra). assert (b / a <= 1 + t). { apply Rmult_le_reg_r with a; auto. unfold Rdiv. rewrite Rmult_assoc, Rinv_l; lra. } lra. }
    pose proof (q_ln a ltac:(lra)) as Q. replace (b * ln b - a * ln a) with (b * (ln b - ln a) + (b - a) * ln a) by ring. assert (0 <= b * (ln b - ln a) <= 1 * t) by (split; [apply Rmult_le_pos|apply Rmult_le_compat]; lra).
    assert (L0 : ln a <= 0) by (rewrite <- ln_1; apply Rcomplements.ln_le; lra). assert (0 <= (b - a) * - ln a <= a * t * - ln a) by (split; [apply Rmult_le_pos|apply Rmult_le_compat_r]; lra). assert (- (a * ln a) * t <= 1 * t) by (apply Rmult_le_compat_r; lra). lra. }
  assert (T2 : - (3 * t) <= (1 + 2 * b) * (1 - b) - (1 + 2 * a) * (1 - a) <= 3 * t). { replace ((1 + 2 * b) * (1 - b) - (1 + 2 * a) * (1 - a)) with ((b - a) * (1 - 2 * (a + b))) by ring. assert (- ((b - a) * 3) <= (b - a) * (1 - 2 * (a + b)) <= (b - a) * 3). { split; [|apply Rmult_le_compat_l; lra]. assert ((b - a) * (-3) <= (b - a) * (1 - 2 * (a + b))) by (apply Rmult_le_compat_l; lra). lra. } lra. }
  assert (T3 : - (102 / 100 * G * t) <= gg G b * (1 - b) - gg G a * (1 - a) <= 102 / 100 * G * t).
  { assert (Vab : 0 <= G * a <= G * b) by (split; [apply Rmult_le_pos|apply Rmult_le_compat_l]; lra). assert (Vb : G * b <= (1 + t) * (G * a)). { replace ((1 + t) * (G * a)) with (G * (a * (1 + t))) by ring. apply Rmult_le_compat_l; lra. }
    assert (M : gg G a <= gg G b <= (1 + t) ^ 2 * gg G a). { unfold gg. set (v := G * a) in *. set (w := G * b) in *. split.
      - apply Rmult_le_reg_r with (2 * (1 + v)); [lra|]. unfold Rdiv at 1. rewrite Rmult_assoc, Rinv_l, Rmult_1_r by lra. apply Rmult_le_reg_r with (2 * (1 + w)); [lra|]. replace (w ^ 2 / (2 * (1 + w)) * (2 * (1 + v)) * (2 * (1 + w))) with (w ^ 2 * (2 * (1 + v))) by (field; lra). assert (v * v <= w * w) by (apply Rmult_le_compat; lra). assert (v * w * v <= v * w * w) by (apply Rmult_le_compat_l; [apply Rmult_le_pos; lra|lra]). lra.
      - replace ((1 + t) ^ 2 * (v ^ 2 / (2 * (1 + v)))) with (((1 + t) * v) ^ 2 * / (2 * (1 + v))) by (field; lra). unfold Rdiv. apply Rmult_le_compat; [apply pow2_ge_0|left; apply Rinv_0_lt_compat; lra|apply pow_incr; lra|]. apply Rinv_le_contravar; lra. }
    set (p := gg G a) in *. set (r := gg G b) in *. assert (R1 : r - p <= 201 / 100 * t * (G / 2)). { assert ((1 + t) ^ 2 - 1 <= 201 / 100 * t) by nra. assert (((1 + t) ^ 2 - 1) * p <= 201 / 100 * t * (G / 2)) by (apply Rmult_le_compat; nra). lra. }
    replace (r * (1 - b) - p * (1 - a)) with ((r - p) * (1 - b) - p * (b - a)) by ring. assert (0 <= (r - p) * (1 - b) <= (r - p) * 1) by (split; [apply Rmult_le_pos|apply Rmult_le_compat_l]; lra). assert (0 <= p * (b - a) <= G / 2 * t) by (split; [apply Rmult_le_pos|apply Rmult_le_compat]; lra). assert (0 <= G * t) by (apply Rmult_le_pos; lra). lra. }
  assert (0 <= G * t) by (apply Rmult_le_pos; lra). apply Rabs_le. lra.
Qed.
Lemma jones_1 G : jones 1 G = 0.
Proof. unfold jones. rewrite ln_1. ring. Qed.

(** ** the sum of the three terms *)
Section Sum.
Variable flog fsq : R -> R.
Hypothesis log_ok : accurate_ln flog.
Hypothesis sq_ok : accurate_square fsq.
Lemma sum_err q ge G : / 2 ^ 140 <= q <= 1 -> / 2 ^ 160 <= G <= 2 ^ 40 -> rel (21 / 10 * u64) ge G ->
  Rabs (kernel_sum binary64 flog fsq q ge - jones q G) <= 31 * u64 * (1 + G).
Proof.
  intros Hq HG Rg. assert (U1 : 0 < u64) by (rewrite u64_val; lra). assert (U2 : u64 <= 1 / 10 ^ 15) by (rewrite u64_val; lra). pose proof h0_small as [[h1 h2] _]. assert (Qp : 0 < / 2 ^ 140) by (apply Rinv_0_lt_compat, pow_lt; lra). assert (Gp : 0 < / 2 ^ 160) by (apply Rinv_0_lt_compat, pow_lt; lra).
  pose proof (q_ln q ltac:(lra)) as QL. assert (L0 : ln q <= 0) by (rewrite <- ln_1; apply Rcomplements.ln_le; lra).
  assert (F2 : Rabs (binary64 (2 * q) - 2 * q) <= 202 / 100 * u64 * q). { assert (K : rel (101 / 100 * u64) (binary64 (2 * q)) (2 * q)). { apply fl_rel. rewrite Rabs_right by lra. apply Rle_trans with (/ 2 ^ 140); [apply lo_le; lia|lra]. } unfold rel in K. rewrite (Rabs_right (2 * q)) in K by lra. lra. }
  assert (B : Rabs (binary64 (1 - q) - (1 - q)) <= 101 / 100 * u64). { pose proof (fl_err (1 - q)) as K. rewrite (Rabs_right (1 - q)) in K by lra. assert (u64 * (1 - q) <= u64 * 1) by (apply Rmult_le_compat_l; lra). lra. }
  assert (FL : Rabs (flog q - ln q) <= 2 * u64 * - ln q + h0). { assert (Z : / 2 ^ 200 <= q <= 2 ^ 401). { split; [apply Rle_trans with (/ 2 ^ 140); [apply lo_le; lia|lra]|]. apply Rle_trans with (2 ^ 0); [simpl; lra|apply Rle_pow; [lra|lia]]. } pose proof (log_ok q Z) as K. fold h0 in K. rewrite u2, (Rabs_left1 (ln q)) in K by lra. exact K. }
  (* term 1 *)
  assert (T1 : Rabs (binary64 (binary64 (2 * q) * flog q) - 2 * q * ln q) <= 83 / 10 * u64).
  { assert (P : Rabs (binary64 (2 * q) * flog q - 2 * q * ln q) <= 61 / 10 * u64).
    { replace (binary64 (2 * q) * flog q - 2 * q * ln q) with ((binary64 (2 * q) - 2 * q) * flog q + 2 * q * (flog q - ln q)) by ring. eapply Rle_trans; [apply Rabs_triang|]. rewrite !Rabs_mult, (Rabs_right 2), (Rabs_right q) by lra.
      assert (Y : Rabs (flog q) <= - ln q * (1 + 2 * u64) + h0). { replace (flog q) with (ln q + (flog q - ln q)) by ring. eapply Rle_trans; [apply Rabs_triang|]. rewrite (Rabs_left1 (ln q)) by lra. lra. }
      assert (E1 : Rabs (binary64 (2 * q) - 2 * q) * Rabs (flog q) <= 202 / 100 * u64 * q * (- ln q * (1 + 2 * u64) + h0)) by (apply Rmult_le_compat; try apply Rabs_pos; auto). assert (E2 : 2 * q * Rabs (flog q - ln q) <= 2 * q * (2 * u64 * - ln q + h0)) by (apply Rmult_le_compat_l; lra).
      set (w := - (q * ln q)) in *. assert (W : 0 <= w <= 1) by (unfold w; lra). replace (202 / 100 * u64 * q * (- ln q * (1 + 2 * u64) + h0)) with (202 / 100 * u64 * (w * (1 + 2 * u64) + q * h0)) in E1 by (unfold w; ring). replace (2 * q * (2 * u64 * - ln q + h0)) with (4 * u64 * w + 2 * (q * h0)) in E2 by (unfold w; ring).
      assert (qh : 0 <= q * h0 <= 1 * h0) by (split; [apply Rmult_le_pos|apply Rmult_le_compat_r]; lra). assert (w * (1 + 2 * u64) <= 1 * (1 + 2 * u64)) by (apply Rmult_le_compat_r; lra). assert (202 / 100 * u64 * (w * (1 + 2 * u64) + q * h0) <= 202 / 100 * u64 * (1001 / 1000)) by (apply Rmult_le_compat_l; lra). assert (4 * u64 * w <= 4 * u64 * 1) by (apply Rmult_le_compat_l; lra). lra. }
    eapply Rle_trans; [apply (fl_up _ _ _ 2 P)|]. - apply Rabs_le. lra. - assert (u64 * (61 / 10 * u64) <= u64 * (1 / 1000)) by (apply Rmult_le_compat_l; lra). lra. }
  (* term 2 *)
  assert (T2 : Rabs (binary64 (binary64 (1 + binary64 (2 * q)) * binary64 (1 - q)) - (1 + 2 * q) * (1 - q)) <= 115 / 10 * u64).
  { assert (uq : u64 * q <= u64 * 1) by (apply Rmult_le_compat_l; lra). assert (A : Rabs ((1 + binary64 (2 * q)) - (1 + 2 * q)) <= 202 / 100 * u64). { replace (1 + binary64 (2 * q) - (1 + 2 * q)) with (binary64 (2 * q) - 2 * q) by ring. lra. }
    assert (A2 : Rabs (binary64 (1 + binary64 (2 * q)) - (1 + 2 * q)) <= 503 / 100 * u64). { eapply Rle_trans; [apply (fl_up _ _ _ 3 A)|]. - apply Rabs_le. lra. - assert (u64 * (202 / 100 * u64) <= u64 * (1 / 1000)) by (apply Rmult_le_compat_l; lra). lra. }
    pose proof (mul_err _ _ _ _ _ _ 3 1 A2 B ltac:(apply Rabs_le; lra) ltac:(apply Rabs_le; lra)) as P. assert (P2 : Rabs (binary64 (1 + binary64 (2 * q)) * binary64 (1 - q) - (1 + 2 * q) * (1 - q)) <= 81 / 10 * u64). { eapply Rle_trans; [exact P|]. assert (503 / 100 * u64 * (1 + 101 / 100 * u64) <= 503 / 100 * u64 * (1001 / 1000)) by (apply Rmult_le_compat_l; lra). lra. }
    eapply Rle_trans; [apply (fl_up _ _ _ 3 P2)|]. - rewrite Rabs_mult. rewrite !Rabs_right by lra. assert ((1 + 2 * q) * (1 - q) <= 3 * 1) by (apply Rmult_le_compat; lra). lra. - assert (u64 * (81 / 10 * u64) <= u64 * (1 / 1000)) by (apply Rmult_le_compat_l; lra). lra. }
  (* term 3 *)
  pose proof (gg_range G q ltac:(lra) ltac:(lra)) as GR. assert (Vlo : / 2 ^ 300 <= G * q) by (replace 300%nat with (160 + 140)%nat by lia; apply lo_mult; lra). assert (Vp : 0 < / 2 ^ 300) by (apply Rinv_0_lt_compat, pow_lt; lra). assert (Vhi : G * q <= 2 ^ 40 * 1) by (apply Rmult_le_compat; lra).
  assert (R1 : rel (21 / 10 * u64) (ge * q) (G * q)) by (rewrite (Rmult_comm ge), (Rmult_comm G); apply rel_scal; auto).
  set (V := G * q) in *. assert (half : forall a b e, rel e a b -> e <= 1 / 2 -> 0 < b -> b / 2 <= a). { intros a b e Hr He Hb. unfold rel in Hr. rewrite (Rabs_right b) in Hr by lra. apply Rabs_le_inv in Hr. assert (e * b <= 1 / 2 * b) by (apply Rmult_le_compat_r; lra). lra. }
  assert (uu : u64 * u64 <= u64 * (1 / 10 ^ 15)) by (apply Rmult_le_compat_l; lra).
  assert (Lo : forall a b e n, rel e a b -> e <= 1 / 2 -> / 2 ^ n <= b -> (n < 900)%nat -> / 2 ^ 900 <= Rabs a). { intros a b e n Hr He Hb Hn. assert (0 < / 2 ^ n) by (apply Rinv_0_lt_compat, pow_lt; lra). pose proof (half a b e Hr He ltac:(lra)). eapply Rle_trans; [|apply RRle_abs]. apply Rle_trans with (/ 2 ^ (n + 1)); [apply lo_le; lia|]. rewrite pow_add, pow_1, Rinv_mult. lra. }
  assert (R2 : rel (32 / 10 * u64) (binary64 (ge * q)) V). { eapply rel_weak; [|apply (rel_trans _ _ _ _ _ (fl_rel _ (Lo _ _ _ 300%nat R1 ltac:(lra) Vlo ltac:(lia))) R1); lra]. lra. }
  set (v := binary64 (ge * q)) in *. assert (v0 : V / 2 <= v) by (apply (half v V _ R2); lra). assert (v1 : v <= 2 * V). { unfold rel in R2. rewrite (Rabs_right V) in R2 by lra. apply Rabs_le_inv in R2. assert (32 / 10 * u64 * V <= 1 * V) by (apply Rmult_le_compat_r; lra). lra. }
  assert (R3 : rel (86 / 10 * u64) (fsq v) (V ^ 2)).
  { assert (S : rel (2 * u64) (fsq v) (v ^ 2)). { unfold rel. rewrite (Rabs_right (v ^ 2)) by (apply Rle_ge, pow2_ge_0). rewrite <- u2. apply sq_ok. split. - apply Rle_trans with (/ 2 ^ (300 + 1)); [apply lo_le; lia|]. rewrite pow_add, pow_1, Rinv_mult. lra. - apply Rle_trans with (2 ^ 42); [lra|apply Rle_pow; [lra|lia]]. }
    pose proof (rel_mul _ _ _ _ _ _ R2 R2 ltac:(lra)) as M. replace (v * v) with (v ^ 2) in M by ring. replace (V * V) with (V ^ 2) in M by ring. assert (M2 : rel (65 / 10 * u64) (v ^ 2) (V ^ 2)) by (eapply rel_weak; [|exact M]; lra). eapply rel_weak; [|exact (rel_trans _ _ _ _ _ S M2 ltac:(lra))]. lra. }
  assert (R4 : rel (97 / 10 * u64) (binary64 (1 / 2 * fsq v)) (1 / 2 * V ^ 2)).
  { assert (S : rel (86 / 10 * u64) (1 / 2 * fsq v) (1 / 2 * V ^ 2)) by (apply rel_scal; auto). assert (VV : / 2 ^ 601 <= 1 / 2 * V ^ 2). { replace 601%nat with (1 + (300 + 300))%nat by lia. apply lo_mult; [simpl; lra|]. replace (V ^ 2) with (V * V) by ring. apply lo_mult; auto. } eapply rel_weak; [|exact (rel_trans _ _ _ _ _ (fl_rel _ (Lo _ _ _ 601%nat S ltac:(lra) VV ltac:(lia))) S ltac:(lra))]. lra. }
  assert (R5 : rel (43 / 10 * u64) (binary64 (1 + v)) (1 + V)).
  { assert (S : rel (32 / 10 * u64) (1 + v) (1 + V)). { unfold rel in *. rewrite (Rabs_right V) in R2 by lra. rewrite (Rabs_right (1 + V)) by lra. replace (1 + v - (1 + V)) with (v - V) by ring. assert (0 <= 32 / 10 * u64) by lra. lra. } assert (V1 : / 2 ^ 0 <= 1 + V) by (simpl; lra). eapply rel_weak; [|exact (rel_trans _ _ _ _ _ (fl_rel _ (Lo _ _ _ 0%nat S ltac:(lra) V1 ltac:(lia))) S ltac:(lra))]. lra. }
  assert (R6 : rel (15 * u64) (binary64 (1 / 2 * fsq v) / binary64 (1 + v)) (gg G q)).
  { pose proof (rel_inv _ _ _ R5 ltac:(lra) ltac:(lra)) as I. pose proof (rel_mul _ _ _ _ _ _ R4 I ltac:(lra)) as M. replace (1 / 2 * V ^ 2 * / (1 + V)) with (gg G q) in M by (unfold gg; fold V; field; lra). eapply rel_weak; [|exact M]. lra. }
  assert (GL : / 2 ^ 700 <= gg G q). { unfold gg. fold V. replace (V ^ 2 / (2 * (1 + V))) with (V * V * / (2 * (1 + V))) by (field; lra). replace 700%nat with ((300 + 300) + 100)%nat by lia. apply lo_mult; [apply lo_mult; auto|]. apply Rinv_le_contravar; [lra|]. apply Rle_trans with (2 ^ 43); [lra|apply Rle_pow; [lra|lia]]. }
  assert (R7 : rel (161 / 10 * u64) (binary64 (binary64 (1 / 2 * fsq v) / binary64 (1 + v))) (gg G q)). { eapply rel_weak; [|exact (rel_trans _ _ _ _ _ (fl_rel _ (Lo _ _ _ 700%nat R6 ltac:(lra) GL ltac:(lia))) R6 ltac:(lra))]. lra. }
  set (K := binary64 (binary64 (1 / 2 * fsq v) / binary64 (1 + v))) in *. set (k := gg G q) in *.
  assert (uG : 0 < u64 * G) by (apply Rmult_lt_0_compat; lra). assert (uuG : u64 * (u64 * G) <= 1 / 10 ^ 15 * (u64 * G)) by (apply Rmult_le_compat_r; lra).
  assert (K1 : Rabs (K - k) <= 81 / 10 * (u64 * G)). { unfold rel in R7. rewrite (Rabs_right k) in R7 by lra. assert (161 / 10 * u64 * k <= 161 / 10 * u64 * (G / 2)) by (apply Rmult_le_compat_l; lra). lra. }
  pose proof (mul_err _ _ _ _ _ _ (G / 2) 1 K1 B ltac:(apply Rabs_le; lra) ltac:(apply Rabs_le; lra)) as P3. assert (P4 : Rabs (K * binary64 (1 - q) - k * (1 - q)) <= 87 / 10 * (u64 * G)) by (eapply Rle_trans; [exact P3|]; lra).
  assert (T3 : Rabs (binary64 (K * binary64 (1 - q)) - k * (1 - q)) <= 93 / 10 * (u64 * G) + h0). { eapply Rle_trans; [apply (fl_up _ _ _ (G / 2) P4)|]. - rewrite Rabs_mult, !Rabs_right by lra. assert (k * (1 - q) <= G / 2 * 1) by (apply Rmult_le_compat; lra). lra. - lra. }
  (* the sum *)
  unfold kernel_sum, jones. fold (gg G q). fold v. fold K. fold k. set (t1 := binary64 (binary64 (2 * q) * flog q)) in *. set (t2 := binary64 (binary64 (1 + binary64 (2 * q)) * binary64 (1 - q))) in *. set (t3 := binary64 (K * binary64 (1 - q))) in *.
  assert (A2 : 0 <= (1 + 2 * q) * (1 - q) <= 3). { split; [apply Rmult_le_pos; lra|]. assert ((1 + 2 * q) * (1 - q) <= 3 * 1) by (apply Rmult_le_compat; lra). lra. } assert (A3 : 0 <= k * (1 - q) <= G / 2). { split; [apply Rmult_le_pos; lra|]. assert (k * (1 - q) <= G / 2 * 1) by (apply Rmult_le_compat; lra). lra. }
  set (w1 := 2 * q * ln q) in *. set (w2 := (1 + 2 * q) * (1 - q)) in *. set (w3 := k * (1 - q)) in *. assert (A1 : - 2 <= w1 <= 0) by (unfold w1; lra).
  assert (S1 : Rabs ((t1 + t2) - (w1 + w2)) <= 198 / 10 * u64). { replace ((t1 + t2) - (w1 + w2)) with ((t1 - w1) + (t2 - w2)) by ring. eapply Rle_trans; [apply Rabs_triang|]. lra. }
  assert (S2 : Rabs (binary64 (t1 + t2) - (w1 + w2)) <= 23 * u64). { eapply Rle_trans; [apply (fl_up _ _ _ 3 S1)|]. - apply Rabs_le. lra. - lra. }
  assert (S3 : Rabs ((binary64 (t1 + t2) + t3) - (w1 + w2 + w3)) <= 231 / 10 * u64 + 93 / 10 * (u64 * G)). { replace ((binary64 (t1 + t2) + t3) - (w1 + w2 + w3)) with ((binary64 (t1 + t2) - (w1 + w2)) + (t3 - w3)) by ring. eapply Rle_trans; [apply Rabs_triang|]. lra. }
  eapply Rle_trans; [apply (fl_up _ _ _ (3 + G / 2) S3)|]. - apply Rabs_le. lra. - lra.
Qed.
End Sum.

(** ** the fraction q and the limits *)
Section Kernel.
Variable flog fsq : R -> R.
Hypothesis log_ok : accurate_ln flog.
Hypothesis sq_ok : accurate_square fsq.
Variable g e es : R.
Hypothesis Hg : 1 <= g <= 2 ^ 60.
Hypothesis He : / 2 ^ 150 <= e.
Hypothesis HG : 4 * g * e <= 2 ^ 40.
Hypothesis Hs : / 2 ^ 200 <= es <= 2 ^ 200.
Let G := 4 * g * e.
Let ge := binary64 (binary64 (4 * g) * e).
Let X := es / g.
Let x := binary64 X.
Let Z := binary64 (1 - x).
Let d := binary64 (ge * Z).
Let q := fraction g e es.
Let q' := binary64 (x / d).
Let M := 1 / (4 * g ^ 2).
Let m := binary64 (1 / binary64 (4 * fsq g)).

Lemma U_pos : 0 < u64 <= 1 / 10 ^ 15.
Proof. rewrite u64_val. lra. Qed.
Lemma lo_abs a n : / 2 ^ n <= a -> (n <= 900)%nat -> / 2 ^ 900 <= Rabs a.
Proof. intros H Hn. eapply Rle_trans; [|apply RRle_abs]. apply Rle_trans with (/ 2 ^ n); [apply lo_le; lia|auto]. Qed.
Lemma rel_lo a b r n : rel r a b -> r <= 1 / 2 -> / 2 ^ n <= b -> (n < 900)%nat -> / 2 ^ 900 <= Rabs a.
Proof.
  intros Hr Hh Hb Hn. assert (0 < / 2 ^ n) by (apply Rinv_0_lt_compat, pow_lt; lra). unfold rel in Hr. rewrite (Rabs_right b) in Hr by lra. apply Rabs_le_inv in Hr. assert (r * b <= 1 / 2 * b) by (apply Rmult_le_compat_r; lra).
  apply (lo_abs a (n + 1)); [|lia]. rewrite pow_add, pow_1, Rinv_mult. lra.
Qed.
Lemma e_pos : 0 < e.
Proof. assert (0 < / 2 ^ 150) by (apply Rinv_0_lt_compat, pow_lt; lra). lra. Qed.
Lemma G_lo : / 2 ^ 160 <= G.
Proof. unfold G. pose proof e_pos. apply Rle_trans with (/ 2 ^ 150); [apply lo_le; lia|]. assert (1 * e <= 4 * g * e) by (apply Rmult_le_compat_r; lra). lra. Qed.
Lemma G_pos : 0 < G.
Proof. pose proof G_lo. assert (0 < / 2 ^ 160) by (apply Rinv_0_lt_compat, pow_lt; lra). lra. Qed.
Lemma G_rel : rel (21 / 10 * u64) ge G.
Proof.
  pose proof U_pos as U. pose proof e_pos. assert (uu : u64 * u64 <= u64 * (1 / 10 ^ 15)) by (apply Rmult_le_compat_l; lra). assert (A : rel (101 / 100 * u64) (binary64 (4 * g)) (4 * g)) by (apply fl_rel, (lo_abs _ 0%nat); [simpl; lra|lia]).
  apply (rel_scal _ e) in A. rewrite (Rmult_comm e), (Rmult_comm e (4 * g)) in A. fold G in A. eapply rel_weak; [|exact (rel_trans _ _ _ _ _ (fl_rel _ (rel_lo _ _ _ _ A ltac:(lra) G_lo ltac:(lia))) A ltac:(lra))]. lra.
Qed.
Lemma ge_range : 0 < ge <= 1001 / 1000 * G.
Proof. pose proof G_rel as K. pose proof U_pos. pose proof G_pos. unfold rel in K. rewrite (Rabs_right G) in K by lra. apply Rabs_le_inv in K. assert (21 / 10 * u64 * G <= 1 / 1000 * G) by (apply Rmult_le_compat_r; lra). lra. Qed.
Lemma X_lo : / 2 ^ 260 <= X.
Proof. unfold X, Rdiv. replace 260%nat with (200 + 60)%nat by lia. apply lo_mult; [lra|]. apply Rinv_le_contravar; lra. Qed.
Lemma X_pos : 0 < X.
Proof. pose proof X_lo. assert (0 < / 2 ^ 260) by (apply Rinv_0_lt_compat, pow_lt; lra). lra. Qed.
Lemma x_rel : rel (101 / 100 * u64) x X.
Proof. apply fl_rel, (lo_abs _ 260%nat); [apply X_lo|lia]. Qed.
Lemma x_err : Rabs (x - X) <= 101 / 100 * u64 * X.
Proof. pose proof x_rel as K. pose proof X_pos. unfold rel in K. rewrite (Rabs_right X) in K by lra. exact K. Qed.
Lemma X_lt : es < g -> X < 1.
Proof. intros H. unfold X. apply Rmult_lt_reg_r with g; [lra|]. unfold Rdiv. rewrite Rmult_assoc, Rinv_l; lra. Qed.
Lemma q_eq : es < g -> 0 < q /\ X = q * (G * (1 - X)).
Proof.
  intros H. pose proof e_pos. assert (0 < es) by (assert (0 < / 2 ^ 200) by (apply Rinv_0_lt_compat, pow_lt; lra); lra). split. - unfold q, fraction. apply Rdiv_lt_0_compat; [lra|]. repeat apply Rmult_lt_0_compat; lra. - unfold X, q, fraction, G. field. repeat split; lra.
Qed.
Lemma Z_err : es < g -> 0 <= Z /\ Rabs (Z - (1 - X)) <= 102 / 100 * u64 * X + u64 * (1 - X).
Proof.
  intros H. pose proof (X_lt H) as HX. pose proof U_pos as U. pose proof X_pos. split. - apply b64_ge_double; [apply double_0|]. assert (x <= 1) by (apply b64_le_double; [apply double_1|lra]). lra.
  - destruct (b64_minus 1 x double_1 (b64_double _)) as (r & Hr & E). unfold Z. rewrite E. pose proof x_err as K. replace ((1 - x) * (1 + r) - (1 - X)) with (r * (1 - x) - (x - X)) by ring. eapply Rle_trans; [apply (Rabs_triang _ (- (x - X)))|]. rewrite Rabs_Ropp, Rabs_mult.
    assert (A : Rabs (1 - x) <= (1 - X) + 101 / 100 * u64 * X). { replace (1 - x) with ((1 - X) - (x - X)) by ring. eapply Rle_trans; [apply (Rabs_triang _ (- (x - X)))|]. rewrite Rabs_Ropp, (Rabs_right (1 - X)) by lra. lra. }
    assert (B : Rabs r * Rabs (1 - x) <= u64 * ((1 - X) + 101 / 100 * u64 * X)) by (apply Rmult_le_compat; try apply Rabs_pos; auto). assert (C : u64 * (u64 * X) <= 1 / 1000 * (u64 * X)). { apply Rmult_le_compat_r. - apply Rmult_le_pos; lra. - lra. } assert (0 <= u64 * X) by (apply Rmult_le_pos; lra). lra.
Qed.
Lemma q_close : es < g -> q <= 2 -> 0 < d /\ rel (u64 * (8 + 11 / 10 * (G * q))) q' q.
Proof.
  intros H Hq. pose proof (X_lt H) as HX. pose proof U_pos as U. pose proof X_pos. destruct (q_eq H) as [q0 E]. destruct (Z_err H) as [Z0 ZE]. pose proof G_pos. set (Y := 1 - X) in *. assert (Yp : 0 < Y) by (unfold Y; lra).
  assert (Gq : 0 < G * q <= 2 ^ 41). { split; [apply Rmult_lt_0_compat; auto|]. assert (G * q <= 2 ^ 40 * 2) by (apply Rmult_le_compat; unfold G in *; lra). lra. }
  set (s := u64 * (G * q)). assert (s0 : 0 < s <= 1 / 4000). { unfold s. split; [apply Rmult_lt_0_compat; lra|]. apply Rle_trans with (u64 * 2 ^ 41); [apply Rmult_le_compat_l; lra|]. rewrite u64_val. lra. }
  assert (us : u64 * s <= 1 / 10 ^ 15 * s) by (apply Rmult_le_compat_r; lra). assert (uu : u64 * u64 <= u64 * (1 / 10 ^ 15)) by (apply Rmult_le_compat_l; lra).
  assert (R1 : rel (102 / 100 * s + u64) Z Y). { unfold rel. rewrite (Rabs_right Y) by lra. eapply Rle_trans; [exact ZE|]. rewrite E at 1. unfold s. apply Req_le. ring. }
  assert (R2 : rel (22 / 10 * u64 + 11 / 10 * s + u64) (ge * Z) (G * Y)) by (eapply rel_weak; [|exact (rel_mul _ _ _ _ _ _ G_rel R1 ltac:(lra))]; lra).
  assert (R2' : rel (32 / 10 * u64 + 103 / 100 * s) (ge * Z) (G * Y)) by (eapply rel_weak; [|exact (rel_mul _ _ _ _ _ _ G_rel R1 ltac:(lra))]; lra).
  assert (W : 0 < G * Y) by (apply Rmult_lt_0_compat; auto). assert (Wlo : / 2 ^ 261 <= G * Y). { assert (q * (G * Y) <= 2 * (G * Y)) by (apply Rmult_le_compat_r; lra). pose proof X_lo as K. replace 261%nat with (260 + 1)%nat by lia. rewrite pow_add, pow_1, Rinv_mult. lra. }
  assert (R3 : rel (43 / 10 * u64 + 1031 / 1000 * s) d (G * Y)). { eapply rel_weak; [|exact (rel_trans _ _ _ _ _ (fl_rel _ (rel_lo _ _ _ _ R2' ltac:(lra) Wlo ltac:(lia))) R2' ltac:(lra))]. lra. }
  assert (D : 0 < d). { pose proof R3 as K. unfold rel in K. rewrite (Rabs_right (G * Y)) in K by lra. apply Rabs_le_inv in K. assert ((43 / 10 * u64 + 1031 / 1000 * s) * (G * Y) <= 1 / 2 * (G * Y)) by (apply Rmult_le_compat_r; lra). lra. }
  split; auto. pose proof (rel_inv _ _ _ R3 ltac:(lra) ltac:(lra)) as I. assert (R4 : rel (55 / 10 * u64 + 1053 / 1000 * s) (x / d) q). { pose proof (rel_mul _ _ _ _ _ _ x_rel I ltac:(lra)) as K. replace (X * / (G * Y)) with q in K by (rewrite E; field; lra). eapply rel_weak; [|exact K]. lra. }
  assert (Qlo : / 2 ^ 310 <= q). { replace q with (X * / (G * Y)) by (rewrite E; field; lra). replace 310%nat with (260 + 50)%nat by lia. apply lo_mult; [apply X_lo|]. apply Rinv_le_contravar; auto. assert (G * Y <= 2 ^ 40 * 1) by (apply Rmult_le_compat; unfold G, Y in *; lra). lra. }
  eapply rel_weak; [|exact (rel_trans _ _ _ _ _ (fl_rel _ (rel_lo _ _ _ _ R4 ltac:(lra) Qlo ltac:(lia))) R4 ltac:(lra))]. replace (u64 * (8 + 11 / 10 * (G * q))) with (8 * u64 + 11 / 10 * s) by (unfold s; ring). lra.
Qed.
Lemma q_far : es < g -> 2 < q -> 0 <= d /\ (d <> 0 -> 1 < q').
Proof.
  intros H Hq. pose proof (X_lt H) as HX. pose proof U_pos as U. pose proof X_pos. destruct (q_eq H) as [q0 E]. destruct (Z_err H) as [Z0 ZE]. pose proof G_pos as Gp. pose proof ge_range as [g0 g1]. set (Y := 1 - X) in *. assert (Yp : 0 < Y) by (unfold Y; lra).
  assert (W : 0 < G * Y) by (apply Rmult_lt_0_compat; auto). assert (W2 : G * Y <= X / 2). { assert (2 * (G * Y) <= q * (G * Y)) by (apply Rmult_le_compat_r; lra). lra. }
  assert (D0 : 0 <= d) by (apply b64_ge_double; [apply double_0|apply Rmult_le_pos; lra]). split; auto. intros Dn. apply Rabs_le_inv in ZE.
  assert (P : ge * Z <= 52 / 100 * X). { assert (A : ge * Z <= 1001 / 1000 * G * (Y + 102 / 100 * u64 * X + u64 * Y)) by (apply Rmult_le_compat; lra). assert (B : u64 * (G * Y) <= 1 / 1000 * (G * Y)) by (apply Rmult_le_compat_r; lra). assert (C : u64 * G * X <= 1 / 1000 * X). { apply Rmult_le_compat_r; [lra|]. apply Rle_trans with (u64 * 2 ^ 40); [apply Rmult_le_compat_l; unfold G; lra|]. rewrite u64_val. lra. } lra. }
  assert (D1 : d <= 53 / 100 * X). { apply Rle_trans with (binary64 (52 / 100 * X)); [apply b64_le; auto|]. assert (K : rel (101 / 100 * u64) (binary64 (52 / 100 * X)) (52 / 100 * X)). { apply fl_rel, (lo_abs _ 261%nat); [|lia]. pose proof X_lo. replace 261%nat with (260 + 1)%nat by lia. rewrite pow_add, pow_1, Rinv_mult. lra. }
    unfold rel in K. rewrite (Rabs_right (52 / 100 * X)) in K by lra. apply Rabs_le_inv in K. assert (u64 * X <= 1 / 1000 * X) by (apply Rmult_le_compat_r; lra). lra. }
  assert (x1 : 99 / 100 * X <= x). { pose proof x_err as K. apply Rabs_le_inv in K. assert (u64 * X <= 1 / 1000 * X) by (apply Rmult_le_compat_r; lra). lra. }
  assert (Q : 3 / 2 <= x / d). { apply Rmult_le_reg_r with d; [lra|]. unfold Rdiv at 2. rewrite Rmult_assoc, Rinv_l by auto. lra. }
  apply Rlt_le_trans with (binary64 (3 / 2)); [|apply b64_le; auto]. assert (K : rel (101 / 100 * u64) (binary64 (3 / 2)) (3 / 2)) by (apply fl_rel, (lo_abs _ 0%nat); [simpl; lra|lia]). unfold rel in K. rewrite (Rabs_right (3 / 2)) in K by lra. apply Rabs_le_inv in K. lra.
Qed.
Lemma q_beyond : g <= es -> d <> 0 -> q' <= 0.
Proof.
  intros H Dn. pose proof ge_range. assert (X1 : 1 <= X). { unfold X. apply Rmult_le_reg_r with g; [lra|]. unfold Rdiv. rewrite Rmult_assoc, Rinv_l; lra. } assert (x1 : 1 <= x) by (apply b64_ge_double; [apply double_1|auto]).
  assert (Z0 : Z <= 0) by (apply b64_le_double; [apply double_0|lra]). assert (D0 : d <= 0). { apply b64_le_double; [apply double_0|]. assert (0 <= ge * - Z) by (apply Rmult_le_pos; lra). lra. }
  apply b64_le_double; [apply double_0|]. unfold Rdiv. assert (/ d < 0) by (apply Rinv_lt_0_compat; lra). assert (0 <= x * - / d) by (apply Rmult_le_pos; lra). lra.
Qed.
Lemma M_lo : / 2 ^ 122 <= M.
Proof. unfold M, Rdiv. rewrite Rmult_1_l. apply Rinv_le_contravar; [pose proof (pow_lt g 2 ltac:(lra)); lra|]. assert (g * g <= 2 ^ 60 * 2 ^ 60) by (apply Rmult_le_compat; lra). replace (g ^ 2) with (g * g) by ring. rewrite <- pow_add in *. replace (2 ^ 122) with (4 * 2 ^ (60 + 60)) by (rewrite (pow_add 2 2 120) || (replace 122%nat with (2 + 120)%nat by lia; rewrite pow_add); simpl; ring). lra. Qed.
Lemma m_rel : rel (5 * u64) m M.
Proof.
  pose proof U_pos as U. assert (uu : u64 * u64 <= u64 * (1 / 10 ^ 15)) by (apply Rmult_le_compat_l; lra). assert (gg1 : 1 <= g ^ 2) by (apply pow_R1_Rle; lra).
  assert (S : rel (2 * u64) (fsq g) (g ^ 2)). { unfold rel. rewrite (Rabs_right (g ^ 2)) by lra. rewrite <- u2. apply sq_ok. split; [apply Rle_trans with (/ 2 ^ 0); [apply lo_le; lia|simpl; lra]|]. apply Rle_trans with (2 ^ 60); [lra|apply Rle_pow; [lra|lia]]. }
  apply (rel_scal _ 4) in S. assert (S2 : rel (32 / 10 * u64) (binary64 (4 * fsq g)) (4 * g ^ 2)). { assert (O : / 2 ^ 0 <= 4 * g ^ 2) by (simpl; simpl in gg1; lra). eapply rel_weak; [|exact (rel_trans _ _ _ _ _ (fl_rel _ (rel_lo _ _ _ _ S ltac:(lra) O ltac:(lia))) S ltac:(lra))]. lra. }
  pose proof (rel_inv _ _ _ S2 ltac:(lra) ltac:(lra)) as I. apply (rel_scal _ 1) in I. assert (I2 : rel (33 / 10 * u64) (1 / binary64 (4 * fsq g)) M) by (eapply rel_weak; [|exact I]; lra).
  eapply rel_weak; [|exact (rel_trans _ _ _ _ _ (fl_rel _ (rel_lo _ _ _ _ I2 ltac:(lra) M_lo ltac:(lia))) I2 ltac:(lra))]. lra.
Qed.
Lemma m_range : M * (1 - 5 * u64) <= m <= M * (1 + 5 * u64) /\ 0 < M.
Proof. pose proof m_rel as K. pose proof M_lo. assert (0 < / 2 ^ 122) by (apply Rinv_0_lt_compat, pow_lt; lra). unfold rel in K. rewrite (Rabs_right M) in K by lra. apply Rabs_le_inv in K. lra. Qed.
Lemma GM : G * M = e / g.
Proof. unfold G, M. field. lra. Qed.
Lemma eg : 0 < e / g <= 2 ^ 38.
Proof. pose proof e_pos. split; [apply Rdiv_lt_0_compat; lra|]. apply Rmult_le_reg_r with g; [lra|]. unfold Rdiv. rewrite Rmult_assoc, Rinv_l, Rmult_1_r by lra. assert (1 * e <= g * e) by (apply Rmult_le_compat_r; lra). assert (2 ^ 38 * 1 <= 2 ^ 38 * g) by (apply Rmult_le_compat_l; lra). lra. Qed.

(** the two lower limits agree *)
Lemma low_same : es < g -> q <= 2 -> u64 * (20 + 4 * (e / g)) * M < Rabs (q - M) -> (m <= q' <-> M <= q).
Proof.
  intros H Hq A. destruct (q_close H Hq) as [_ R]. destruct (q_eq H) as [q0 _]. pose proof m_range as [B M0]. pose proof U_pos as U. pose proof eg as [k0 k1]. pose proof GM as EGM. set (k := e / g) in *. pose proof G_pos as G0.
  unfold rel in R. rewrite (Rabs_right q) in R by lra. apply Rabs_le_inv in R. assert (uk : 0 < u64 * k <= 1 / 10 ^ 4). { split; [apply Rmult_lt_0_compat; lra|]. apply Rle_trans with (u64 * 2 ^ 38); [apply Rmult_le_compat_l; lra|rewrite u64_val; lra]. }
  destruct (Rle_dec M q) as [L|L].
  - rewrite Rabs_right in A by lra. split; [intros _; auto|intros _]. destruct (Rle_dec (2 * M) q) as [L2|L2].
    + assert (Gq : G * q <= 2 ^ 41). { assert (G * q <= 2 ^ 40 * 2) by (apply Rmult_le_compat; unfold G in *; lra). lra. } assert (T : u64 * (8 + 11 / 10 * (G * q)) <= 1 / 10). { apply Rle_trans with (u64 * (8 + 11 / 10 * 2 ^ 41)); [apply Rmult_le_compat_l; lra|rewrite u64_val; lra]. }
      assert (u64 * (8 + 11 / 10 * (G * q)) * q <= 1 / 10 * q) by (apply Rmult_le_compat_r; lra). assert (u64 * M <= 1 / 1000 * M) by (apply Rmult_le_compat_r; lra). lra.
    + assert (Gq : G * q <= 2 * k). { assert (G * q <= G * (2 * M)) by (apply Rmult_le_compat_l; lra). lra. } set (b := u64 * (8 + 22 / 10 * k)). assert (T : u64 * (8 + 11 / 10 * (G * q)) <= b) by (apply Rmult_le_compat_l; lra). assert (T2 : u64 * (8 + 11 / 10 * (G * q)) * q <= b * q) by (apply Rmult_le_compat_r; lra).
      assert (b1 : 0 <= b <= 1 / 2) by (unfold b; lra). assert (C : M * (1 + u64 * (20 + 4 * k)) * (1 - b) <= q * (1 - b)) by (apply Rmult_le_compat_r; lra).
      assert (N : 1 + 5 * u64 <= (1 + u64 * (20 + 4 * k)) * (1 - b)). { set (a := u64 * (20 + 4 * k)). assert (a1 : 0 <= a <= 1 / 1000) by (unfold a; lra). assert (a * b <= 1 / 1000 * b) by (apply Rmult_le_compat_r; lra). unfold a, b in *. lra. }
      assert (M * (1 + 5 * u64) <= M * ((1 + u64 * (20 + 4 * k)) * (1 - b))) by (apply Rmult_le_compat_l; lra). lra.
  - rewrite Rabs_left1 in A by lra. split; [intros F|lra]. exfalso. assert (Gq : G * q <= k). { assert (G * q <= G * M) by (apply Rmult_le_compat_l; lra). lra. } set (b := u64 * (8 + 11 / 10 * k)). assert (T : u64 * (8 + 11 / 10 * (G * q)) <= b) by (apply Rmult_le_compat_l; lra). assert (T2 : u64 * (8 + 11 / 10 * (G * q)) * q <= b * q) by (apply Rmult_le_compat_r; lra).
    assert (b1 : 0 <= b) by (unfold b; lra). assert (T3 : b * q <= b * M) by (apply Rmult_le_compat_l; lra). assert (b * M + 5 * u64 * M < u64 * (20 + 4 * k) * M). { rewrite <- Rmult_plus_distr_r. apply Rmult_lt_compat_r; auto. unfold b. lra. } lra.
Qed.
(** the size of the error from the error of q *)
Lemma lip_total a b : 0 < a -> a <= b <= 1 -> 0 < q <= 2 -> b <= a * (1 + 101 / 100 * (u64 * (8 + 11 / 10 * (G * q)))) -> G * q <= 1001 / 1000 * G -> Rabs (jones b G - jones a G) <= 41 * u64 * (1 + G) ^ 2.
Proof.
  intros Ha Hb Hq Hab Gq. pose proof U_pos as U. pose proof G_pos as G0. assert (G * q <= 1001 / 1000 * 2 ^ 40) by (unfold G in *; lra). assert (Gq0 : 0 < G * q) by (apply Rmult_lt_0_compat; lra). set (t := 101 / 100 * (u64 * (8 + 11 / 10 * (G * q)))) in *.
  assert (T : 0 <= t <= 1 / 100). { unfold t. assert (0 <= u64 * (8 + 11 / 10 * (G * q))) by (apply Rmult_le_pos; lra). assert (u64 * (8 + 11 / 10 * (G * q)) <= u64 * (8 + 2 ^ 41)) by (apply Rmult_le_compat_l; lra). rewrite u64_val in *. lra. }
  eapply Rle_trans; [apply (jones_lip a b t G); auto; lra|]. assert (t1 : t <= u64 * (81 / 10 * (1 + G))). { unfold t. assert (u64 * (8 + 11 / 10 * (G * q)) <= u64 * (8 + 12 / 10 * G)) by (apply Rmult_le_compat_l; lra). assert (0 <= u64 * G) by (apply Rmult_le_pos; lra). lra. }
  assert (5 * (1 + G) * t <= 5 * (1 + G) * (u64 * (81 / 10 * (1 + G)))) by (apply Rmult_le_compat_l; lra). assert (0 <= u64 * (1 + G) ^ 2) by (apply Rmult_le_pos; [lra|apply pow2_ge_0]). lra.
Qed.
Lemma kernel_error : (es < g -> u64 * (20 + 4 * (e / g)) * M < Rabs (q - M)) -> Rabs (rounded_kernel binary64 flog fsq g e es - exact_kernel g e es) <= 73 * u64 * (1 + G) ^ 2.
Proof.
  intros A. pose proof U_pos as U. pose proof G_pos as G0. assert (Big : 0 <= 73 * u64 * (1 + G) ^ 2) by (apply Rmult_le_pos; [lra|apply pow2_ge_0]). assert (Sq : 1 + G <= (1 + G) ^ 2). { assert (0 <= G * (1 + G)) by (apply Rmult_le_pos; lra). lra. } assert (uS : u64 * (1 + G) <= u64 * (1 + G) ^ 2) by (apply Rmult_le_compat_l; lra).
  unfold rounded_kernel, exact_kernel. fold ge. fold X. fold x. fold Z. fold d. fold q'. fold m. fold M. fold q. fold G. pose proof m_range as [B M0]. assert (m0 : 0 < m). { assert (0 < M * (1 - 5 * u64)) by (apply Rmult_lt_0_compat; lra). lra. }
  destruct (Rlt_dec es g) as [H|H].
  2:{ replace (if Reqb d 0 then 0 else if Rleb m q' && Rleb q' 1 then kernel_sum binary64 flog fsq q' ge else 0) with 0; [rewrite Rminus_0_r, Rabs_R0; auto|]. unfold Reqb, Rleb. destruct (Req_EM_T d 0) as [D|D]; auto. pose proof (q_beyond ltac:(lra) D). destruct (Rle_dec m q'); simpl; auto. lra. }
  specialize (A H). destruct (q_eq H) as [q0 _]. destruct (Rle_dec q 2) as [Q2|Q2].
  2:{ destruct (q_far H ltac:(lra)) as [_ F]. assert (E0 : (if Rle_dec M q then if Rle_dec q 1 then jones q G else 0 else 0) = 0) by (destruct (Rle_dec M q), (Rle_dec q 1); auto; lra). rewrite E0. replace (if Reqb d 0 then 0 else if Rleb m q' && Rleb q' 1 then kernel_sum binary64 flog fsq q' ge else 0) with 0; [rewrite Rminus_0_r, Rabs_R0; auto|]. unfold Reqb, Rleb. destruct (Req_EM_T d 0) as [D|D]; auto. specialize (F D). destruct (Rle_dec m q'), (Rle_dec q' 1); simpl; auto; lra. }
  destruct (q_close H Q2) as [D R]. pose proof (low_same H Q2 A) as Low. unfold rel in R. rewrite (Rabs_right q) in R by lra. apply Rabs_le_inv in R. assert (Gq : 0 < G * q <= 2 ^ 41). { split; [apply Rmult_lt_0_compat; auto|]. assert (G * q <= 2 ^ 40 * 2) by (apply Rmult_le_compat; unfold G in *; lra). lra. }
  set (h := u64 * (8 + 11 / 10 * (G * q))) in *. assert (h0' : 0 <= h <= 1 / 2000). { unfold h. split; [apply Rmult_le_pos; lra|]. apply Rle_trans with (u64 * (8 + 11 / 10 * 2 ^ 41)); [apply Rmult_le_compat_l; lra|rewrite u64_val; lra]. }
  assert (Sum : m <= q' -> q' <= 1 -> Rabs (kernel_sum binary64 flog fsq q' ge - jones q' G) <= 31 * u64 * (1 + G)). { intros a b. apply sum_err; auto. - split; auto. pose proof M_lo. assert (M * (1 / 2) <= M * (1 - 5 * u64)) by (apply Rmult_le_compat_l; lra). apply Rle_trans with (/ 2 ^ (122 + 1)); [apply lo_le; lia|]. rewrite pow_add, pow_1, Rinv_mult. lra. - split; [apply G_lo|unfold G; lra]. - apply G_rel. }
  assert (hq : 0 <= h * q) by (apply Rmult_le_pos; lra). assert (hq2 : h * q <= 1 / 1000 * q) by (apply Rmult_le_compat_r; lra). assert (Qs : q <= q' * (1 + 101 / 100 * h)). { assert (P : q * (1 - h) * (1 + 101 / 100 * h) <= q' * (1 + 101 / 100 * h)) by (apply Rmult_le_compat_r; lra). assert (N : 1 <= (1 - h) * (1 + 101 / 100 * h)). { assert (h * h <= 1 / 1000 * h) by (apply Rmult_le_compat_r; lra). lra. } assert (q * 1 <= q * ((1 - h) * (1 + 101 / 100 * h))) by (apply Rmult_le_compat_l; lra). lra. }
  assert (Qs' : q' <= q * (1 + 101 / 100 * h)) by lra. assert (GQ : q <= 1001 / 1000 -> G * q <= 1001 / 1000 * G) by (intros; rewrite (Rmult_comm _ G); apply Rmult_le_compat_l; lra).
  unfold Reqb, Rleb. destruct (Req_EM_T d 0) as [D0|_]; [lra|]. destruct (Rle_dec M q) as [L|L].
  2:{ destruct (Rle_dec m q') as [F|_]; [apply Low in F; lra|]. simpl. rewrite Rminus_0_r, Rabs_R0. auto. }
  destruct (Rle_dec m q') as [L'|F]; [|apply Low in L; contradiction]. destruct (Rle_dec q' 1) as [T'|T'], (Rle_dec q 1) as [T|T]; simpl.
  - specialize (Sum L' T'). assert (J : Rabs (jones q' G - jones q G) <= 41 * u64 * (1 + G) ^ 2). { destruct (Rle_dec q q'). - apply (lip_total q q'); auto; try lra. - rewrite Rabs_minus_sym. apply (lip_total q' q); auto; lra. }
    replace (kernel_sum binary64 flog fsq q' ge - jones q G) with ((kernel_sum binary64 flog fsq q' ge - jones q' G) + (jones q' G - jones q G)) by ring. eapply Rle_trans; [apply Rabs_triang|]. lra.
  - specialize (Sum L' T'). assert (q1 : q <= 1001 / 1000). { assert (q' * (1 + 101 / 100 * h) <= 1 * (1 + 101 / 100 * h)) by (apply Rmult_le_compat_r; lra). lra. } assert (J : Rabs (jones 1 G - jones q' G) <= 41 * u64 * (1 + G) ^ 2) by (apply (lip_total q' 1); fold h; auto; lra). rewrite jones_1 in J. rewrite Rminus_0_r. replace (kernel_sum binary64 flog fsq q' ge) with ((kernel_sum binary64 flog fsq q' ge - jones q' G) - (0 - jones q' G)) by ring. eapply Rle_trans; [apply (Rabs_triang _ (- _))|]. rewrite Rabs_Ropp. lra.
  - assert (J : Rabs (jones 1 G - jones q G) <= 41 * u64 * (1 + G) ^ 2) by (apply (lip_total q 1); fold h; auto; lra). rewrite jones_1 in J. eapply Rle_trans; [exact J|]. lra.
  - rewrite Rminus_0_r, Rabs_R0. auto.
Qed.
End Kernel.

(** ** C113: the error of the kernel *)
Theorem C113_kernel : forall flog fsq, accurate_ln flog -> accurate_square fsq -> forall g e es,
  1 <= g <= 2 ^ 60 -> / 2 ^ 150 <= e -> 4 * g * e <= 2 ^ 40 -> / 2 ^ 200 <= es <= 2 ^ 200 ->
  (* not within a few roundings of the lower limit, where the kernel jumps *)
  (es < g -> (20 + 4 * (e / g)) * / 2 ^ 53 * (1 / (4 * g ^ 2)) < Rabs (fraction g e es - 1 / (4 * g ^ 2))) ->
  Rabs (rounded_kernel binary64 flog fsq g e es - exact_kernel g e es) <= 9 / 10 ^ 15 * (1 + 4 * g * e) ^ 2.
Proof.
  intros flog fsq Hl Hf g e es Hg He HG Hs A. assert (E53 : / 2 ^ 53 = u64) by (rewrite u64_val, (pow_IZR 2 53); change (Z.of_nat 53) with 53%Z; simpl Z.pow; lra). eapply Rle_trans; [apply (kernel_error flog fsq Hl Hf g e es Hg He HG Hs)|]. - intros H. specialize (A H). rewrite E53 in A. lra.
  - apply Rmult_le_compat_r; [apply pow2_ge_0|]. rewrite u64_val. lra.
Qed.
Print Assumptions C113_kernel.

(** above the energy of the electron the kernel is zero, exactly *)
Theorem C113_beyond : forall flog fsq, accurate_square fsq -> forall g e es,
  1 <= g <= 2 ^ 60 -> / 2 ^ 150 <= e -> g <= es ->
  rounded_kernel binary64 flog fsq g e es = 0.
Proof.
  intros flog fsq Hf g e es Hg He H. unfold rounded_kernel, Reqb, Rleb. destruct (Req_EM_T _ 0) as [D|D]; auto. pose proof (q_beyond g e es Hg He H D) as Q. destruct (m_range fsq Hf g Hg) as [B M0]. pose proof U_pos.
  assert (0 < 1 / (4 * g ^ 2) * (1 - 5 * u64)) by (apply Rmult_lt_0_compat; lra). destruct (Rle_dec _ _) as [F|F]; simpl; auto. lra.
Qed.
Print Assumptions C113_beyond.

(** an electron of Lorentz factor 1000 and a photon of 1e-4 m_e c^2, scattered to 100 m_e c^2:
    q = 5/18 is well inside the limits *)
Example C113_case :
  fraction 1000 (1 / 10 ^ 4) 100 = 5 / 18 /\
  exact_kernel 1000 (1 / 10 ^ 4) 100 = 5 / 9 * ln (5 / 18) + 14 / 9 * (13 / 18) + 1 / 180 * (13 / 18) /\
  Rabs (rounded_kernel binary64 ln (fun v => v ^ 2) 1000 (1 / 10 ^ 4) 100 - exact_kernel 1000 (1 / 10 ^ 4) 100) <= 18 / 10 ^ 15.
Proof.
  assert (Q : fraction 1000 (1 / 10 ^ 4) 100 = 5 / 18) by (unfold fraction; lra). split; [exact Q|]. split.
  - unfold exact_kernel. rewrite Q. destruct (Rlt_dec 100 1000); [|lra]. destruct (Rle_dec (1 / (4 * 1000 ^ 2)) (5 / 18)); [|lra]. destruct (Rle_dec (5 / 18) 1); [|lra]. unfold jones. lra.
  - eapply Rle_trans; [apply C113_kernel|].
    + intros x Hx. unfold Rminus; rewrite Rplus_opp_r, Rabs_R0. assert (0 < / 2 ^ 1000) by (apply Rinv_0_lt_compat, pow_lt; lra). pose proof (Rabs_pos (ln x)). assert (0 <= / 2 ^ 52 * Rabs (ln x)) by (apply Rmult_le_pos; [left; apply Rinv_0_lt_compat, pow_lt; lra|auto]). lra.
    + intros v Hv. unfold Rminus; rewrite Rplus_opp_r, Rabs_R0. apply Rmult_le_pos; [left; apply Rinv_0_lt_compat, pow_lt; lra|apply pow2_ge_0].
    + lra.
    + apply Rle_trans with (/ 2 ^ 14); [apply lo_le; lia|lra].
    + lra.
    + split; [apply Rle_trans with (/ 2 ^ 0); [apply lo_le; lia|simpl; lra]|]. apply Rle_trans with (2 ^ 7); [lra|apply Rle_pow; [lra|lia]].
    + intros _. rewrite Q. assert (/ 2 ^ 53 <= 1 / 1000) by (apply Rle_trans with (/ 2 ^ 10); [apply lo_le; lia|lra]). rewrite Rabs_right by lra. lra.
    + lra.
Qed.
