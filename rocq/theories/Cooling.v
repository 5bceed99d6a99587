(** Facts about x -> x - a x^2 (one Euler step of dx/dt = -a' x^2) and its Heun
    counterpart; used for C91. *)
From Coq Require Import Lia Lra Reals.
From Coquelicot Require Rcomplements.
From Verif Require Import Base TEUtils TimeEvolution Spec_Move.
Open Scope R_scope.

(** the factor one step multiplies the Lorentz factor with, z = a x *)
Definition shrink (me : method_t) (z : R) : R := match me with Euler => 1 - z | Heun => 1 - z + z ^ 2 - z ^ 3 / 2 end.
Definition dl : R := 1 / 10000.
(** relative width of the moved bin *)
Definition spread (me : method_t) (z : R) : R := ((1 + dl) * shrink me (z * (1 + dl)) - shrink me z) / dl.

Lemma shrink_bounds me z : 0 <= z <= 1 / 3 -> 1 / 2 <= shrink me z <= 1.
Proof. intros H. unfold shrink. destruct me; [lra|]. assert (0 <= z ^ 2) by nra. assert (0 <= z ^ 3 <= z ^ 2) by nra. nra. Qed.

Lemma step_incr me k x y : 0 <= k -> 0 < x -> x < y -> k * y <= 1 / 3 -> x * shrink me (k * x) < y * shrink me (k * y).
Proof.
  intros Hk Hx Hxy Hz. set (p := k * x). set (s := k * y) in *. assert (Hp : 0 <= p) by (apply Rmult_le_pos; lra). assert (Hps : p <= s) by (apply Rmult_le_compat_l; lra).
  apply Rminus_gt_0_lt. unfold shrink. destruct me.
  - replace (y * (1 - s) - x * (1 - p)) with ((y - x) * (1 - (p + s))) by (unfold p, s; ring). apply Rmult_lt_0_compat; lra.
  - replace (y * (1 - s + s ^ 2 - s ^ 3 / 2) - x * (1 - p + p ^ 2 - p ^ 3 / 2)) with ((y - x) * (1 - (p + s) + (p ^ 2 + p * s + s ^ 2) - (p ^ 3 + p ^ 2 * s + p * s ^ 2 + s ^ 3) / 2)) by (unfold p, s; field).
    apply Rmult_lt_0_compat; [lra|].
    assert (0 <= p ^ 2) by nra. assert (0 <= s ^ 2) by nra. assert (0 <= p * s) by nra.
    assert (p ^ 3 <= p ^ 2) by nra. assert (p ^ 2 * s <= p * s) by nra. assert (p * s ^ 2 <= s ^ 2) by nra. assert (s ^ 3 <= s ^ 2) by nra. nra.
Qed.

Lemma inverse_euler k x : 0 <= k -> 0 < x -> k * x <= 1 / 3 -> / (x * shrink Euler (k * x)) = / x + k / (1 - k * x).
Proof. intros. unfold shrink. field. lra. Qed.
Lemma inverse_heun k x : 0 <= k -> 0 < x -> k * x <= 1 / 3 ->
  / x + k * (1 - (k * x) ^ 2 / 2) <= / (x * shrink Heun (k * x)) <= / x + k.
Proof.
  intros Hk Hx Hz. pose proof (shrink_bounds Heun (k * x)) as B. assert (Z : 0 <= k * x) by (apply Rmult_le_pos; lra). specialize (B (conj Z Hz)).
  set (z := k * x) in *. set (f := shrink Heun z) in *. assert (Hf : 0 < x * f) by (apply Rmult_lt_0_compat; lra).
  assert (E : f * (1 + z) = 1 + z ^ 3 * (1 - z) / 2) by (unfold f, shrink; field).
  assert (Y : 0 <= z ^ 3 * (1 - z) / 2) by (assert (0 <= z ^ 3) by (apply pow_le; auto); nra).
  assert (Ek : k = z * / x) by (unfold z; field; lra).
  assert (Hi : 0 < / x) by (apply Rinv_0_lt_compat; auto).
  rewrite Rinv_mult.
  replace (/ x + k * (1 - z ^ 2 / 2)) with (/ x * (1 + z - z ^ 3 / 2)) by (rewrite Ek at 1; field; lra).
  replace (/ x + k) with (/ x * (1 + z)) by (rewrite Ek at 1; field; lra).
  assert (Fi : / f * f = 1) by (field; lra). assert (0 < / f) by (apply Rinv_0_lt_compat; lra).
  split; apply Rmult_le_compat_l; try lra.
  - apply Rmult_le_reg_r with f; [lra|]. rewrite Fi.
    replace ((1 + z - z ^ 3 / 2) * f) with (f * (1 + z) - z ^ 3 / 2 * f) by ring. rewrite E.
    assert (0 <= z ^ 3) by (apply pow_le; auto). assert (1 - z <= f) by (unfold f, shrink; nra). nra.
  - apply Rmult_le_reg_r with f; [lra|]. rewrite Fi. lra.
Qed.

Lemma exp_le_mono x y : x <= y -> exp x <= exp y.
Proof. intros [H | ->]; [left; apply exp_increasing; auto|right; auto]. Qed.
Lemma exp_ge1 x : 1 + x <= exp x.
Proof. destruct (Req_dec x 0) as [->|H]; [rewrite exp_0; lra|]. left. apply exp_ineq1. auto. Qed.

Lemma spread_low me z : 0 <= z <= 1 / 4 -> 1 / 3 <= spread me z /\ (me = Heun -> 1 / 2 <= spread me z).
Proof.
  intros H. assert (0 <= z ^ 2) by nra. assert (0 <= z ^ 3 <= z ^ 2 / 4) by nra. destruct me.
  - replace (spread Euler z) with (1 - (2 + dl) * z) by (unfold spread, shrink, dl; field). unfold dl. split; [lra|discriminate].
  - replace (spread Heun z) with (1 - (2 + dl) * z + (3 + 3 * dl + dl ^ 2) * z ^ 2 - (4 + 6 * dl + 4 * dl ^ 2 + dl ^ 3) * z ^ 3 / 2) by (unfold spread, shrink, dl; field). unfold dl.
    assert (1 / 2 <= 1 - (2 + 1 / 10000) * z + (3 + 3 * (1 / 10000) + (1 / 10000) ^ 2) * z ^ 2 - (4 + 6 * (1 / 10000) + 4 * (1 / 10000) ^ 2 + (1 / 10000) ^ 3) * z ^ 3 / 2).
    { pose proof (pow2_ge_0 (z - 2 / 5)). lra. }
    split; [lra|auto].
Qed.

(** how the density times the squared Lorentz factor changes in a step *)
Lemma density_euler z z0 : 0 <= z <= z0 -> z0 <= 1 / 4 ->
  1 <= / spread Euler z * shrink Euler z ^ 2 <= exp (3 * (z0 + dl) * - ln (shrink Euler z)).
Proof.
  intros Hz H0. destruct (spread_low Euler z ltac:(lra)) as [Hs _]. set (D := spread Euler z) in *.
  assert (ED : D = 1 - (2 + dl) * z) by (unfold D, spread, shrink, dl; field).
  assert (Di : / D * D = 1) by (field; lra). assert (Hd : 0 < / D) by (apply Rinv_0_lt_compat; lra). assert (Hd3 : / D <= 3) by (replace 3 with (/ (1 / 3)) by field; apply Rinv_le_contravar; lra).
  assert (EQ : shrink Euler z ^ 2 = D + (z ^ 2 + dl * z)) by (rewrite ED; unfold shrink; ring).
  assert (Hp : 0 <= z ^ 2 + dl * z) by (unfold dl; nra).
  assert (L : z <= - ln (shrink Euler z)).
  { unfold shrink. pose proof (exp_ge1 (- z)) as X. replace (1 + - z) with (1 - z) in X by ring. assert (ln (1 - z) <= - z); [|lra].
    rewrite <- (ln_exp (- z)). apply Rcomplements.ln_le; lra. }
  rewrite EQ. split.
  - replace (/ D * (D + (z ^ 2 + dl * z))) with (1 + / D * (z ^ 2 + dl * z)) by (field; lra). assert (0 <= / D * (z ^ 2 + dl * z)) by (apply Rmult_le_pos; lra). lra.
  - replace (/ D * (D + (z ^ 2 + dl * z))) with (1 + / D * (z ^ 2 + dl * z)) by (field; lra).
    eapply Rle_trans; [apply exp_ge1|]. apply exp_le_mono. 
    assert (/ D * (z ^ 2 + dl * z) <= 3 * (z ^ 2 + dl * z)) by (apply Rmult_le_compat_r; lra).
    assert (z ^ 2 + dl * z <= (z0 + dl) * z) by (unfold dl; nra).
    assert (0 <= z0 + dl) by (unfold dl; lra).
    assert ((z0 + dl) * z <= (z0 + dl) * - ln (shrink Euler z)) by (apply Rmult_le_compat_l; auto). lra.
Qed.
Lemma density_heun z z0 : 0 <= z <= z0 -> z0 <= 1 / 4 ->
  exp (- (3 * z0 ^ 2 * - ln (shrink Heun z))) <= / spread Heun z * shrink Heun z ^ 2 <= exp (3 * dl * - ln (shrink Heun z)).
Proof.
  intros Hz H0. destruct (spread_low Heun z ltac:(lra)) as [_ Hs]. specialize (Hs eq_refl). set (D := spread Heun z) in *.
  assert (ED : D = 1 - (2 + dl) * z + (3 + 3 * dl + dl ^ 2) * z ^ 2 - (4 + 6 * dl + 4 * dl ^ 2 + dl ^ 3) * z ^ 3 / 2) by (unfold D, spread, shrink, dl; field).
  assert (Di : / D * D = 1) by (field; lra). assert (Hd : 0 < / D) by (apply Rinv_0_lt_compat; lra). assert (Hd2 : / D <= 2) by (replace 2 with (/ (1 / 2)) by field; apply Rinv_le_contravar; lra).
  pose proof (shrink_bounds Heun z ltac:(lra)) as B.
  assert (Z2 : 0 <= z ^ 2 <= z / 4) by nra. assert (Z3 : 0 <= z ^ 3 <= z ^ 2 / 4) by nra.
  assert (Z4 : 0 <= z ^ 4 <= z ^ 3 / 4) by (replace (z ^ 4) with (z * z ^ 3) by ring; nra).
  assert (Z5 : 0 <= z ^ 5 <= z ^ 4 / 4) by (replace (z ^ 5) with (z * z ^ 4) by ring; nra).
  assert (Z6 : 0 <= z ^ 6 <= z ^ 5 / 4) by (replace (z ^ 6) with (z * z ^ 5) by ring; nra).
  assert (EQ : shrink Heun z ^ 2 = 1 - 2 * z + 3 * z ^ 2 - 3 * z ^ 3 + 2 * z ^ 4 - z ^ 5 + z ^ 6 / 4) by (unfold shrink; field).
  assert (Up : shrink Heun z ^ 2 <= D + dl * z) by (rewrite EQ, ED; unfold dl; lra).
  assert (Lo : D - z ^ 3 <= shrink Heun z ^ 2) by (rewrite EQ, ED; unfold dl; lra).
  assert (L : 3 / 4 * z <= - ln (shrink Heun z)).
  { set (f := shrink Heun z) in *. pose proof (exp_ge1 (- (1 - f))) as X. replace (1 + - (1 - f)) with f in X by ring.
    assert (ln f <= - (1 - f)). { rewrite <- (ln_exp (- (1 - f))). apply Rcomplements.ln_le; lra. } assert (3 / 4 * z <= 1 - f) by (unfold f, shrink; lra). lra. }
  set (l := - ln (shrink Heun z)) in *. split.
  - apply Rle_trans with (/ D * (D - z ^ 3)); [|apply Rmult_le_compat_l; lra].
    replace (/ D * (D - z ^ 3)) with (1 - / D * z ^ 3) by (field; lra).
    assert (Y : / D * z ^ 3 <= 2 * z ^ 3) by (apply Rmult_le_compat_r; lra).
    apply Rle_trans with (1 - 2 * z ^ 3); [|lra].
    (* 1 - y >= exp (- y / (1 - y)) *)
    set (y := 2 * z ^ 3) in *. assert (Hy : 0 <= y <= 1 / 32) by (unfold y; lra).
    assert (Hexp : exp (- (9 / 8 * y)) <= 1 - y).
    { rewrite exp_Ropp. pose proof (exp_ge1 (9 / 8 * y)). apply Rle_trans with (/ (1 + 9 / 8 * y)); [apply Rinv_le_contravar; lra|].
      apply Rmult_le_reg_r with (1 + 9 / 8 * y); [lra|]. rewrite Rinv_l by lra. nra. }
    eapply Rle_trans; [|exact Hexp]. apply exp_le_mono. apply Ropp_le_contravar.
    assert (Zq : z ^ 2 <= z0 ^ 2) by (apply pow_incr; lra).
    apply Rle_trans with (3 * z0 ^ 2 * (3 / 4 * z)); [|apply Rmult_le_compat_l; [nra|auto]].
    unfold y. replace (z ^ 3) with (z ^ 2 * z) by ring. apply Rle_trans with (9 / 4 * (z0 ^ 2 * z)); [|lra].
    assert (z ^ 2 * z <= z0 ^ 2 * z) by (apply Rmult_le_compat_r; lra). lra.
  - apply Rle_trans with (/ D * (D + dl * z)); [apply Rmult_le_compat_l; lra|].
    replace (/ D * (D + dl * z)) with (1 + / D * (dl * z)) by (field; lra).
    eapply Rle_trans; [apply exp_ge1|]. apply exp_le_mono.
    assert (Hdz : 0 <= dl * z) by (unfold dl; lra). assert (/ D * (dl * z) <= 2 * (dl * z)) by (apply Rmult_le_compat_r; lra).
    assert (0 < dl) by (unfold dl; lra). assert (dl * (3 / 4 * z) <= dl * l) by (apply Rmult_le_compat_l; lra). lra.
Qed.
