(** Facts for C86: the integral of the function of single-particle synchrotron
    emission ([synch_shape]) over frequency, bounded below and above by sums
    over cells that are evaluated with rational numbers.  No code of /repo is
    modelled here. *)
From Coq Require Import Reals Lra QArith Qreals Qround ZArith.
From Coquelicot Require Import Coquelicot.
From Verif Require Import Base Conversion Spectra Blob Spec_Beams Spec_Emission Calculus.
From Coq Require Import List.
Import ListNotations.
Open Scope list_scope.
Open Scope R_scope.

(** ** the function without its exponential cutoff, y the cube root of x *)
Definition num (y : R) : R := 1 + 2.21 * y ^ 2 + 0.347 * y ^ 4.
Definition den (y : R) : R := 1 + 1.353 * y ^ 2 + 0.217 * y ^ 4.
Definition gy (y : R) : R := 1.808 * y / sqrt (1 + 3.4 * y ^ 2) * (num y / den y).

Lemma num_pos y : 0 < num y.
Proof. unfold num. assert (0 <= y ^ 2) by apply pow2_ge_0. replace (y ^ 4) with (y ^ 2 * y ^ 2) by ring. nra. Qed.
Lemma den_pos y : 0 < den y.
Proof. unfold den. assert (0 <= y ^ 2) by apply pow2_ge_0. replace (y ^ 4) with (y ^ 2 * y ^ 2) by ring. nra. Qed.
Lemma root_pos y : 0 < 1 + 3.4 * y ^ 2.
Proof. assert (0 <= y ^ 2) by apply pow2_ge_0. lra. Qed.
Lemma sroot_pos y : 0 < sqrt (1 + 3.4 * y ^ 2).
Proof. apply sqrt_lt_R0, root_pos. Qed.

Lemma ratio_mono y z : 0 <= y <= z -> z <= 5 -> num y / den y <= num z / den z.
Proof.
  intros Hy Hz. apply Rle_div_l; [apply den_pos|]. unfold Rdiv. rewrite Rmult_assoc, (Rmult_comm (/ den z)), <- Rmult_assoc. apply Rle_div_r; [apply den_pos|].
  assert (E : num z * den y - num y * den z = (z ^ 2 - y ^ 2) * (0.857 + 0.13 * (y ^ 2 + z ^ 2) - 0.010079 * (y ^ 2 * z ^ 2))) by (unfold num, den; lra).
  assert (0 <= y ^ 2) by apply pow2_ge_0. assert (z ^ 2 <= 25) by (replace 25 with (5 ^ 2) by ring; apply pow_incr; lra). assert (y ^ 2 <= z ^ 2) by (apply pow_incr; lra).
  assert (y ^ 2 * z ^ 2 <= 25 * y ^ 2) by nra. assert (0 <= (z ^ 2 - y ^ 2) * (0.857 + 0.13 * (y ^ 2 + z ^ 2) - 0.010079 * (y ^ 2 * z ^ 2))); [|lra].
  apply Rmult_le_pos; lra.
Qed.
Lemma first_mono y z : 0 <= y <= z -> y / sqrt (1 + 3.4 * y ^ 2) <= z / sqrt (1 + 3.4 * z ^ 2).
Proof.
  intros Hy. pose proof (sroot_pos y). pose proof (sroot_pos z). apply Rle_div_l; auto. unfold Rdiv. rewrite Rmult_assoc, (Rmult_comm (/ _)), <- Rmult_assoc. apply Rle_div_r; auto.
  apply Rsqr_incr_0_var; [|apply Rmult_le_pos; lra]. rewrite !Rsqr_mult, !Rsqr_sqrt by (left; apply root_pos). unfold Rsqr. nra.
Qed.
Lemma first_nonneg y : 0 <= y -> 0 <= y / sqrt (1 + 3.4 * y ^ 2).
Proof. intros H. apply Rmult_le_pos; auto. left. apply Rinv_0_lt_compat, sroot_pos. Qed.
Lemma gy_mono y z : 0 <= y <= z -> z <= 5 -> gy y <= gy z.
Proof.
  intros Hy Hz. pose proof (first_mono y z Hy). pose proof (ratio_mono y z Hy Hz). pose proof (first_nonneg y ltac:(lra)).
  assert (0 < num y / den y) by (apply Rdiv_lt_0_compat; [apply num_pos|apply den_pos]).
  unfold gy. replace (1.808 * y / sqrt (1 + 3.4 * y ^ 2)) with (1.808 * (y / sqrt (1 + 3.4 * y ^ 2))) by (unfold Rdiv; ring).
  replace (1.808 * z / sqrt (1 + 3.4 * z ^ 2)) with (1.808 * (z / sqrt (1 + 3.4 * z ^ 2))) by (unfold Rdiv; ring).
  apply Rmult_le_compat; lra.
Qed.
Lemma gy_nonneg y : 0 <= y -> 0 <= gy y.
Proof.
  intros Hy. unfold gy. apply Rmult_le_pos. 2:{ left. apply Rdiv_lt_0_compat; [apply num_pos|apply den_pos]. }
  replace (1.808 * y / sqrt (1 + 3.4 * y ^ 2)) with (1.808 * (y / sqrt (1 + 3.4 * y ^ 2))) by (unfold Rdiv; ring). pose proof (first_nonneg y Hy). lra.
Qed.
Lemma gy_bound y : 0 <= y -> gy y <= 1.7.
Proof.
  intros Hy. pose proof (first_nonneg y Hy).
  assert (A : y / sqrt (1 + 3.4 * y ^ 2) <= 0.5425).
  { apply Rle_div_l; [apply sroot_pos|]. apply Rsqr_incr_0_var. 2:{ apply Rmult_le_pos; [lra|left; apply sroot_pos]. }
    rewrite Rsqr_mult, Rsqr_sqrt by (left; apply root_pos). unfold Rsqr. nra. }
  assert (B : num y / den y <= 1.7). { apply Rle_div_l; [apply den_pos|]. unfold num, den. assert (0 <= y ^ 2) by apply pow2_ge_0. assert (0 <= y ^ 4) by (replace (y ^ 4) with (y ^ 2 * y ^ 2) by ring; nra). lra. }
  assert (0 < num y / den y) by (apply Rdiv_lt_0_compat; [apply num_pos|apply den_pos]).
  unfold gy. replace (1.808 * y / sqrt (1 + 3.4 * y ^ 2)) with (1.808 * (y / sqrt (1 + 3.4 * y ^ 2))) by (unfold Rdiv; ring).
  apply Rle_trans with (1.808 * 0.5425 * 1.7); [|lra]. apply Rmult_le_compat; lra.
Qed.

Lemma shape_gy x : synch_shape x = gy (Rpower x (1 / 3)) * exp (- x).
Proof. reflexivity. Qed.
Lemma cube_root y : 0 < y -> Rpower (y ^ 3) (1 / 3) = y.
Proof. intros H. rewrite <- Rpower_pow, Rpower_mult by auto. replace (INR 3 * (1 / 3)) with 1 by (simpl; field). apply Rpower_1. auto. Qed.
Lemma root_mono x y : 0 < x <= y -> Rpower x (1 / 3) <= Rpower y (1 / 3).
Proof. intros H. apply Rle_Rpower_l; lra. Qed.
Lemma shape_pos x : 0 < synch_shape x.
Proof.
  rewrite shape_gy. apply Rmult_lt_0_compat; [|apply exp_pos]. unfold gy. assert (0 < Rpower x (1 / 3)) by apply exp_pos.
  apply Rmult_lt_0_compat; apply Rdiv_lt_0_compat; try apply sroot_pos; try apply num_pos; try apply den_pos. lra.
Qed.
Lemma shape_cont x : 0 < x -> continuous synch_shape x.
Proof.
  intros Hx. apply (ex_derive_continuous synch_shape x). unfold synch_shape, Rpower. auto_derive. set (y := exp (1 / 3 * ln x)).
  pose proof (sroot_pos y). pose proof (den_pos y). pose proof (root_pos y). unfold den in *. simpl in *. repeat split; auto; lra.
Qed.
Lemma shape_ex a b : 0 < a -> a <= b -> ex_RInt synch_shape a b.
Proof. intros Ha Hb. apply (ex_RInt_continuous synch_shape). intros x Hx. rewrite Rmin_left in Hx by auto. apply shape_cont. lra. Qed.
Lemma exp_int k a b : is_RInt (fun x => k * exp (- x)) a b (k * (exp (- a) - exp (- b))).
Proof.
  replace (k * (exp (- a) - exp (- b))) with (minus ((fun x => - k * exp (- x)) b) ((fun x => - k * exp (- x)) a)) by (unfold minus, plus, opp; simpl; ring).
  apply (is_RInt_derive (fun x => - k * exp (- x))).
  - intros x _. auto_derive; auto. ring.
  - intros x _. apply (ex_derive_continuous (fun x => k * exp (- x)) x). auto_derive. auto.
Qed.
Lemma cell_low y z : 0 < y <= z -> z <= 5 -> gy y * (exp (- y ^ 3) - exp (- z ^ 3)) <= RInt synch_shape (y ^ 3) (z ^ 3).
Proof.
  intros Hy Hz. assert (H3 : y ^ 3 <= z ^ 3) by (apply pow_incr; lra). assert (0 < y ^ 3) by (apply pow_lt; lra).
  rewrite <- (is_RInt_unique _ _ _ _ (exp_int (gy y) (y ^ 3) (z ^ 3))). apply RInt_le; auto.
  - eexists. apply exp_int.
  - apply shape_ex; auto.
  - intros x Hx. rewrite shape_gy. apply Rmult_le_compat_r; [left; apply exp_pos|]. apply gy_mono.
    + split; [lra|]. rewrite <- (cube_root y) at 1 by lra. apply root_mono. lra.
    + apply Rle_trans with z; auto. rewrite <- (cube_root z) by lra. apply root_mono. lra.
Qed.
Lemma cell_up y z : 0 < y <= z -> z <= 5 -> RInt synch_shape (y ^ 3) (z ^ 3) <= gy z * (exp (- y ^ 3) - exp (- z ^ 3)).
Proof.
  intros Hy Hz. assert (H3 : y ^ 3 <= z ^ 3) by (apply pow_incr; lra). assert (0 < y ^ 3) by (apply pow_lt; lra).
  rewrite <- (is_RInt_unique _ _ _ _ (exp_int (gy z) (y ^ 3) (z ^ 3))). apply RInt_le; auto.
  - apply shape_ex; auto.
  - eexists. apply exp_int.
  - intros x Hx. rewrite shape_gy. apply Rmult_le_compat_r; [left; apply exp_pos|]. apply gy_mono; auto. split.
    + left. apply exp_pos.
    + rewrite <- (cube_root z) by lra. apply root_mono. lra.
Qed.
Lemma head_up a z : 0 < a <= z ^ 3 -> 0 < z <= 5 -> RInt synch_shape a (z ^ 3) <= gy z * (1 - exp (- z ^ 3)).
Proof.
  intros Ha Hz. apply Rle_trans with (gy z * (exp (- a) - exp (- z ^ 3))).
  - rewrite <- (is_RInt_unique _ _ _ _ (exp_int (gy z) a (z ^ 3))). apply RInt_le; try lra.
    + apply shape_ex; lra.
    + eexists. apply exp_int.
    + intros x Hx. rewrite shape_gy. apply Rmult_le_compat_r; [left; apply exp_pos|]. apply gy_mono; try lra. split.
      * left. apply exp_pos.
      * rewrite <- (cube_root z) by lra. apply root_mono. lra.
  - apply Rmult_le_compat_l; [apply gy_nonneg; lra|]. assert (exp (- a) <= exp 0); [|rewrite exp_0 in *; lra]. destruct (Rle_lt_or_eq_dec (- a) 0); [lra| |rewrite e; lra]. left. apply exp_increasing. auto.
Qed.
Lemma tail_up x b : 0 < x <= b -> RInt synch_shape x b <= 1.7 * exp (- x).
Proof.
  intros Hx. apply Rle_trans with (1.7 * (exp (- x) - exp (- b))).
  - rewrite <- (is_RInt_unique _ _ _ _ (exp_int 1.7 x b)). apply RInt_le; try lra.
    + apply shape_ex; lra.
    + eexists. apply exp_int.
    + intros t Ht. rewrite shape_gy. apply Rmult_le_compat_r; [left; apply exp_pos|]. apply gy_bound. left. apply exp_pos.
  - pose proof (exp_pos (- b)). lra.
Qed.

(** ** bounds of the exponential *)
Lemma exp_up2 s : 0 <= s -> exp (- s) <= 1 - s + s ^ 2 / 2.
Proof.
  intros Hs. assert (H : (1 - 0 + 0 ^ 2 / 2) - exp (- 0) <= (1 - s + s ^ 2 / 2) - exp (- s)).
  { apply (mono_incr (fun s => (1 - s + s ^ 2 / 2) - exp (- s)) (fun s => -1 + s + exp (- s)) 0 s); auto.
    - intros x _. auto_derive; auto. field.
    - intros x Hx. pose proof (exp_ge (- x)). lra. }
  rewrite Ropp_0, exp_0 in H. lra.
Qed.
Lemma exp_low3 s : 0 <= s -> 1 - s + s ^ 2 / 2 - s ^ 3 / 6 <= exp (- s).
Proof.
  intros Hs. assert (H : exp (- 0) - (1 - 0 + 0 ^ 2 / 2 - 0 ^ 3 / 6) <= exp (- s) - (1 - s + s ^ 2 / 2 - s ^ 3 / 6)).
  { apply (mono_incr (fun s => exp (- s) - (1 - s + s ^ 2 / 2 - s ^ 3 / 6)) (fun s => - exp (- s) + 1 - s + s ^ 2 / 2) 0 s); auto.
    - intros x _. auto_derive; auto. field.
    - intros x Hx. pose proof (exp_up2 x ltac:(lra)). lra. }
  rewrite Ropp_0, exp_0 in H. lra.
Qed.

(** ** rational arithmetic *)
Definition scale : positive := (10 ^ 9)%positive.
Definition down (q : Q) : Q := Qmake (Qfloor (q * inject_Z (Zpos scale))) scale.
Definition up (q : Q) : Q := Qopp (down (Qopp q)).
Lemma scale_pos : 0 < IZR (Zpos scale).
Proof. apply IZR_lt. reflexivity. Qed.
Lemma down_le q : Q2R (down q) <= Q2R q.
Proof.
  pose proof (Qfloor_le (q * inject_Z (Zpos scale))) as H. apply Qle_Rle in H. rewrite Q2R_mult in H. pose proof scale_pos as Hs.
  assert (E : forall z, Q2R (inject_Z z) = IZR z) by (intros z; unfold Q2R, inject_Z; simpl; field). rewrite !E in H.
  unfold down, Q2R at 1. cbn [Qnum Qden]. change (IZR (Qfloor (q * inject_Z (Zpos scale))) / IZR (Zpos scale) <= Q2R q). apply Rle_div_l; auto.
Qed.
Lemma up_ge q : Q2R q <= Q2R (up q).
Proof. unfold up. rewrite Q2R_opp. pose proof (down_le (Qopp q)). rewrite Q2R_opp in H. lra. Qed.

(** bounds of the square root of q >= 1 *)
Definition guess (q : Q) : Z := Z.sqrt (Qfloor (q * inject_Z (10 ^ 12))).
Definition root_up (q : Q) : Q := let s := Qmake (guess q + 1) (10 ^ 6) in if Qle_bool q (s * s) then if Qle_bool 0 s then s else q else q.
Definition root_low (q : Q) : Q := let s := Qmake (guess q) (10 ^ 6) in if Qle_bool (s * s) q then if Qle_bool 1 s then s else 1%Q else 1%Q.
Lemma Q2R_1 : Q2R 1 = 1.
Proof. unfold Q2R. simpl. field. Qed.
Lemma Q2R_0 : Q2R 0 = 0.
Proof. unfold Q2R. simpl. field. Qed.
Lemma root_up_ok q : 1 <= Q2R q -> sqrt (Q2R q) <= Q2R (root_up q).
Proof.
  intros Hq. assert (F : sqrt (Q2R q) <= Q2R q). { rewrite <- (sqrt_Rsqr (Q2R q)) at 2 by lra. apply sqrt_le_1_alt. unfold Rsqr. nra. }
  unfold root_up. cbv zeta. set (s := Qmake _ _). destruct (Qle_bool q (s * s)) eqn:E1; auto. destruct (Qle_bool 0 s) eqn:E2; auto.
  apply Qle_bool_iff, Qle_Rle in E1. apply Qle_bool_iff, Qle_Rle in E2. rewrite Q2R_mult in E1. rewrite Q2R_0 in E2. rewrite <- (sqrt_Rsqr (Q2R s)) by auto. apply sqrt_le_1_alt. unfold Rsqr. auto.
Qed.
Lemma root_low_ok q : 1 <= Q2R q -> 1 <= Q2R (root_low q) <= sqrt (Q2R q).
Proof.
  intros Hq. assert (F : 1 <= Q2R 1 <= sqrt (Q2R q)). { rewrite Q2R_1. split; [lra|]. rewrite <- sqrt_1 at 1. apply sqrt_le_1_alt. auto. }
  unfold root_low. cbv zeta. set (s := Qmake _ _). destruct (Qle_bool (s * s) q) eqn:E1; auto. destruct (Qle_bool 1 s) eqn:E2; auto.
  apply Qle_bool_iff, Qle_Rle in E1. apply Qle_bool_iff, Qle_Rle in E2. rewrite Q2R_mult in E1. rewrite Q2R_1 in E2. split; auto.
  rewrite <- (sqrt_Rsqr (Q2R s)) by lra. apply sqrt_le_1_alt. unfold Rsqr. auto.
Qed.
Definition qrad (y : Q) : Q := (1 + (34 # 10) * (y * y))%Q.
Definition qnum (y : Q) : Q := let w := (y * y)%Q in (1 + (221 # 100) * w + (347 # 1000) * (w * w))%Q.
Definition qden (y : Q) : Q := let w := (y * y)%Q in (1 + (1353 # 1000) * w + (217 # 1000) * (w * w))%Q.
Definition g_low (y : Q) : Q := down ((1808 # 1000) * y / root_up (qrad y) * (qnum y / qden y))%Q.
Definition g_up (y : Q) : Q := up ((1808 # 1000) * y / root_low (qrad y) * (qnum y / qden y))%Q.
Lemma Q2R_frac n d : Q2R (n # d) = IZR n / IZR (Zpos d).
Proof. reflexivity. Qed.
Lemma qrad_R y : Q2R (qrad y) = 1 + 3.4 * Q2R y ^ 2.
Proof. unfold qrad. rewrite Q2R_plus, !Q2R_mult, Q2R_1, Q2R_frac. lra. Qed.
Lemma qnum_R y : Q2R (qnum y) = num (Q2R y).
Proof. unfold qnum. cbv zeta. rewrite !Q2R_plus, !Q2R_mult, Q2R_1, !Q2R_frac. unfold num. lra. Qed.
Lemma qden_R y : Q2R (qden y) = den (Q2R y).
Proof. unfold qden. cbv zeta. rewrite !Q2R_plus, !Q2R_mult, Q2R_1, !Q2R_frac. unfold den. lra. Qed.
Lemma nz q : Q2R q <> 0 -> ~ (q == 0)%Q.
Proof. intros H E. apply H. rewrite (Qeq_eqR _ _ E). apply Q2R_0. Qed.
Lemma quotient y r : 0 < Q2R r -> Q2R ((1808 # 1000) * y / r * (qnum y / qden y)) = 1.808 * Q2R y / Q2R r * (num (Q2R y) / den (Q2R y)).
Proof.
  intros Hr. pose proof (den_pos (Q2R y)). assert (~ (r == 0)%Q) by (apply nz; lra). assert (~ (qden y == 0)%Q) by (apply nz; rewrite qden_R; lra).
  rewrite Q2R_mult, !Q2R_div, Q2R_mult, qnum_R, qden_R, Q2R_frac by auto. replace 1.808 with (1808 / 1000) by lra. field. lra.
Qed.
Lemma g_low_ok y : 0 <= Q2R y -> Q2R (g_low y) <= gy (Q2R y).
Proof.
  intros Hy. assert (H1 : 1 <= Q2R (qrad y)) by (rewrite qrad_R; assert (0 <= Q2R y ^ 2) by apply pow2_ge_0; lra).
  pose proof (root_up_ok _ H1) as H. rewrite qrad_R in H. pose proof (sroot_pos (Q2R y)). unfold g_low. eapply Rle_trans; [apply down_le|]. rewrite quotient by lra. unfold gy.
  apply Rmult_le_compat_r. { left. apply Rdiv_lt_0_compat; [apply num_pos|apply den_pos]. } apply Rmult_le_compat_l; [lra|]. apply Rinv_le_contravar; auto.
Qed.
Lemma g_up_ok y : 0 <= Q2R y -> gy (Q2R y) <= Q2R (g_up y).
Proof.
  intros Hy. assert (H1 : 1 <= Q2R (qrad y)) by (rewrite qrad_R; assert (0 <= Q2R y ^ 2) by apply pow2_ge_0; lra).
  pose proof (root_low_ok _ H1) as H. rewrite qrad_R in H. pose proof (sroot_pos (Q2R y)). unfold g_up. eapply Rle_trans; [|apply up_ge]. rewrite quotient by lra. unfold gy.
  apply Rmult_le_compat_r. { left. apply Rdiv_lt_0_compat; [apply num_pos|apply den_pos]. } apply Rmult_le_compat_l; [lra|]. apply Rinv_le_contravar; lra.
Qed.

(** ** the sums *)
Definition cube (y : Q) : Q := (y * y * y)%Q.
Definition t2 (s : Q) : Q := (1 - s + (1 # 2) * (s * s))%Q.
Definition t3 (s : Q) : Q := (1 - s + (1 # 2) * (s * s) - (1 # 6) * (s * s * s))%Q.
(** every value of the list within (y, 5] and ascending *)
Fixpoint ascending (y : Q) (l : list Q) : bool :=
  match l with
  | [] => true
  | z :: l' => (Qle_bool y z && Qle_bool z 5 && Qle_bool 0 (t3 (cube z - cube y)) && Qle_bool (t2 (cube z - cube y)) 1 && Qle_bool 0 (g_low y) && ascending z l')%bool
  end.
Fixpoint sum_low (y e : Q) (l : list Q) : Q :=
  match l with
  | [] => 0%Q
  | z :: l' => let s := Qred (cube z - cube y) in Qred (down (g_low y * (e * (1 - t2 s))) + sum_low z (down (e * t3 s)) l')%Q
  end.
Fixpoint sum_up (y e : Q) (l : list Q) : Q :=
  match l with
  | [] => ((17 # 10) * e)%Q
  | z :: l' => let s := Qred (cube z - cube y) in Qred (up (g_up z * (e * (1 - t3 s))) + sum_up z (up (e * t2 s)) l')%Q
  end.
Lemma Q2R_red q : Q2R (Qred q) = Q2R q.
Proof. apply Qeq_eqR, Qred_correct. Qed.
Lemma cube_R y : Q2R (cube y) = Q2R y ^ 3.
Proof. unfold cube. rewrite !Q2R_mult. ring. Qed.
Lemma t2_R s : Q2R (t2 s) = 1 - Q2R s + Q2R s ^ 2 / 2.
Proof. unfold t2. rewrite Q2R_plus, Q2R_minus, !Q2R_mult, Q2R_1, Q2R_frac. field. Qed.
Lemma t3_R s : Q2R (t3 s) = 1 - Q2R s + Q2R s ^ 2 / 2 - Q2R s ^ 3 / 6.
Proof. unfold t3. rewrite Q2R_minus, Q2R_plus, Q2R_minus, !Q2R_mult, Q2R_1, !Q2R_frac. field. Qed.
Lemma shape_chasles a b c : 0 < a -> a <= b -> b <= c -> RInt synch_shape a c = RInt synch_shape a b + RInt synch_shape b c.
Proof.
  intros Ha Hb Hc. rewrite <- (RInt_Chasles synch_shape a b c); [reflexivity| |]; apply shape_ex; lra.
Qed.
Lemma last_cons (l : list Q) : forall z y, last (z :: l) y = last l z.
Proof. induction l as [|a l IH]; intros z y; [reflexivity|]. change (last (z :: a :: l) y) with (last (a :: l) y). rewrite !IH. reflexivity. Qed.
Lemma exp_step u v : exp (- v) = exp (- u) * exp (- (v - u)).
Proof. rewrite <- exp_plus. f_equal. ring. Qed.

Lemma sum_low_ok l : forall y e, 0 < Q2R y -> Q2R y <= 5 -> ascending y l = true -> 0 <= Q2R e -> Q2R e <= exp (- Q2R y ^ 3) ->
  let z := last l y in Q2R y <= Q2R z /\ Q2R (sum_low y e l) <= RInt synch_shape (Q2R y ^ 3) (Q2R z ^ 3).
Proof.
  induction l as [|z l IH]; intros y e Hy Hy5 Ha He Hee; cbv zeta.
  - cbn [last sum_low]. split; [lra|]. rewrite Q2R_0, RInt_point. apply Rle_refl.
  - cbn [ascending] in Ha. apply andb_prop in Ha. destruct Ha as [Ha Hl]. apply andb_prop in Ha. destruct Ha as [Ha Hg0]. apply andb_prop in Ha. destruct Ha as [Ha Ht2]. apply andb_prop in Ha. destruct Ha as [Ha Ht].
    apply Qle_bool_iff, Qle_Rle in Hg0. rewrite Q2R_0 in Hg0. apply Qle_bool_iff, Qle_Rle in Ht2. rewrite Q2R_1, t2_R, Q2R_minus, !cube_R in Ht2. apply andb_prop in Ha. destruct Ha as [Hyz Hz5].
    apply Qle_bool_iff, Qle_Rle in Hyz. apply Qle_bool_iff, Qle_Rle in Hz5. apply Qle_bool_iff, Qle_Rle in Ht. rewrite Q2R_0 in Ht.
    assert (E5 : Q2R 5 = 5) by (unfold Q2R; simpl; field). rewrite E5 in Hz5. rewrite t3_R, Q2R_minus, !cube_R in Ht.
    cbn [sum_low]. cbv zeta. set (s := Qred (cube z - cube y)). assert (Es : Q2R s = Q2R z ^ 3 - Q2R y ^ 3) by (unfold s; rewrite Q2R_red, Q2R_minus, !cube_R; auto).
    assert (H3 : Q2R y ^ 3 <= Q2R z ^ 3) by (apply pow_incr; lra). assert (Hs : 0 <= Q2R s) by lra. rewrite <- Es in Ht, Ht2.
    pose proof (exp_up2 _ Hs) as U2. pose proof (exp_low3 _ Hs) as L3. pose proof (exp_step (Q2R y ^ 3) (Q2R z ^ 3)) as ES. rewrite <- Es in ES.
    pose proof (exp_pos (- Q2R y ^ 3)) as P0. pose proof (exp_pos (- Q2R s)) as P1.
    assert (Hp : exp (- Q2R s) <= 1). { rewrite <- exp_0. destruct (Rle_lt_or_eq_dec (- Q2R s) 0); [lra| |rewrite e0; lra]. left. apply exp_increasing. auto. }
    assert (D : Q2R (down (e * t3 s)) <= exp (- Q2R z ^ 3)). { eapply Rle_trans; [apply down_le|]. rewrite Q2R_mult, t3_R, ES. apply Rmult_le_compat; lra. }
    assert (D0 : 0 <= Q2R (down (e * t3 s))).
    { unfold down. rewrite Q2R_frac. apply Rmult_le_pos; [|left; apply Rinv_0_lt_compat, IZR_lt; reflexivity]. apply IZR_le.
      change 0%Z with (Qfloor 0). apply Qfloor_resp_le. apply Rle_Qle. rewrite Q2R_0, !Q2R_mult, t3_R. apply Rmult_le_pos; [apply Rmult_le_pos; auto|]. unfold Q2R, inject_Z; cbn [Qnum Qden]. apply Rmult_le_pos; [left; exact scale_pos|left; apply Rinv_0_lt_compat; lra]. }
    destruct (IH z (down (e * t3 s)) ltac:(lra) Hz5 Hl D0 D) as [Hlast IHs]. replace (last (z :: l) y) with (last l z) by (symmetry; apply last_cons).
    split; [lra|]. rewrite (shape_chasles (Q2R y ^ 3) (Q2R z ^ 3) (Q2R (last l z) ^ 3)); [|apply pow_lt; lra|auto|apply pow_incr; lra].
    rewrite Q2R_red, Q2R_plus. apply Rplus_le_compat; auto. eapply Rle_trans; [apply down_le|]. eapply Rle_trans; [|apply cell_low; lra].
    rewrite !Q2R_mult, Q2R_minus, Q2R_1, t2_R, ES. pose proof (g_low_ok y ltac:(lra)) as G. pose proof (gy_nonneg (Q2R y) ltac:(lra)) as G0.
    set (T := 1 - Q2R s + Q2R s ^ 2 / 2) in *. replace (exp (- Q2R y ^ 3) - exp (- Q2R y ^ 3) * exp (- Q2R s)) with (exp (- Q2R y ^ 3) * (1 - exp (- Q2R s))) by ring.
    apply Rmult_le_compat; auto; [apply Rmult_le_pos; lra|]. apply Rmult_le_compat; lra.
Qed.
Lemma sum_up_ok l : forall y e b, 0 < Q2R y -> Q2R y <= 5 -> ascending y l = true -> exp (- Q2R y ^ 3) <= Q2R e -> Q2R (last l y) ^ 3 <= b ->
  Q2R y ^ 3 <= b /\ RInt synch_shape (Q2R y ^ 3) b <= Q2R (sum_up y e l).
Proof.
  induction l as [|z l IH]; intros y e b Hy Hy5 Ha He Hb.
  - cbn [last sum_up] in *. split; auto. rewrite Q2R_mult, Q2R_frac. eapply Rle_trans; [apply tail_up; split; auto; apply pow_lt; lra|]. lra.
  - cbn [ascending] in Ha. apply andb_prop in Ha. destruct Ha as [Ha Hl]. apply andb_prop in Ha. destruct Ha as [Ha Hg0]. apply andb_prop in Ha. destruct Ha as [Ha Ht2]. apply andb_prop in Ha. destruct Ha as [Ha Ht]. apply andb_prop in Ha. destruct Ha as [Hyz Hz5].
    apply Qle_bool_iff, Qle_Rle in Hyz. apply Qle_bool_iff, Qle_Rle in Hz5.
    assert (E5 : Q2R 5 = 5) by (unfold Q2R; simpl; field). rewrite E5 in Hz5.
    cbn [sum_up]. cbv zeta. set (s := Qred (cube z - cube y)). assert (Es : Q2R s = Q2R z ^ 3 - Q2R y ^ 3) by (unfold s; rewrite Q2R_red, Q2R_minus, !cube_R; auto).
    assert (H3 : Q2R y ^ 3 <= Q2R z ^ 3) by (apply pow_incr; lra). assert (Hs : 0 <= Q2R s) by lra.
    pose proof (exp_up2 _ Hs) as U2. pose proof (exp_low3 _ Hs) as L3. pose proof (exp_step (Q2R y ^ 3) (Q2R z ^ 3)) as ES. rewrite <- Es in ES.
    pose proof (exp_pos (- Q2R y ^ 3)) as P0. pose proof (exp_pos (- Q2R s)) as P1.
    assert (Hp : exp (- Q2R s) <= 1). { rewrite <- exp_0. destruct (Rle_lt_or_eq_dec (- Q2R s) 0); [lra| |rewrite e0; lra]. left. apply exp_increasing. auto. }
    assert (D : exp (- Q2R z ^ 3) <= Q2R (up (e * t2 s))). { eapply Rle_trans; [|apply up_ge]. rewrite Q2R_mult, t2_R, ES. apply Rmult_le_compat; lra. }
    replace (last (z :: l) y) with (last l z) in Hb by (symmetry; apply last_cons).
    destruct (IH z (up (e * t2 s)) b ltac:(lra) Hz5 Hl D Hb) as [Hzb IHs].
    split; [lra|]. rewrite (shape_chasles (Q2R y ^ 3) (Q2R z ^ 3) b); [|apply pow_lt; lra|auto|auto].
    rewrite Q2R_red, Q2R_plus. apply Rplus_le_compat; auto. eapply Rle_trans; [|apply up_ge]. eapply Rle_trans; [apply cell_up; lra|].
    rewrite !Q2R_mult, Q2R_minus, Q2R_1, t3_R, ES. pose proof (g_up_ok z ltac:(lra)) as G. pose proof (gy_nonneg (Q2R z) ltac:(lra)) as G0.
    replace (exp (- Q2R y ^ 3) - exp (- Q2R y ^ 3) * exp (- Q2R s)) with (exp (- Q2R y ^ 3) * (1 - exp (- Q2R s))) by ring.
    apply Rmult_le_compat; auto; [apply Rmult_le_pos; lra|]. apply Rmult_le_compat; lra.
Qed.

(** nodes 0.01, 0.02, ... 2.20 *)
Definition nodes : list Q := map (fun i => Qmake (Z.of_nat i) 100) (seq 2 219).
Definition y0 : Q := 1 # 100.
Definition e_low : Q := t3 (cube y0).
Definition e_up : Q := t2 (cube y0).
Lemma nodes_ok : ascending y0 nodes = true.
Proof. vm_compute. reflexivity. Qed.
Lemma low_value : Qle_bool (107025 # 100000) (sum_low y0 e_low nodes) = true.
Proof. vm_compute. reflexivity. Qed.
Lemma up_value : Qle_bool (sum_up y0 e_up nodes) (107807 # 100000) = true.
Proof. vm_compute. reflexivity. Qed.

Lemma last_node : last nodes y0 = (220 # 100)%Q.
Proof. reflexivity. Qed.
Lemma shape_mono a b c d : 0 < c -> c <= a -> a <= b -> b <= d -> RInt synch_shape a b <= RInt synch_shape c d.
Proof.
  intros Hc Ha Hb Hd. rewrite (shape_chasles c a d), (shape_chasles a b d) by lra.
  assert (P : forall u v, 0 < u -> u <= v -> 0 <= RInt synch_shape u v). { intros u v Hu Hv. apply RInt_ge_0; auto. { apply shape_ex; auto. } intros x _. left. apply shape_pos. }
  pose proof (P c a ltac:(lra) ltac:(lra)). pose proof (P b d ltac:(lra) ltac:(lra)). lra.
Qed.
(** the exact value would be 16 pi / (27 sqrt 3) = 1.0748... *)
Lemma shape_total_up a b : 0 < a -> a <= b -> RInt synch_shape a b <= 1.0782.
Proof.
  intros Ha Hb. assert (Ey : Q2R y0 = 0.01) by (unfold y0; rewrite Q2R_frac; lra). assert (E0 : 0 < Q2R y0 ^ 3) by (rewrite Ey; lra).
  assert (E3 : Q2R y0 ^ 3 <= 0.000001) by (rewrite Ey; lra).
  set (d := Rmax b (Q2R (last nodes y0) ^ 3)). assert (Hd1 : b <= d) by apply Rmax_l. assert (Hd2 : Q2R (last nodes y0) ^ 3 <= d) by apply Rmax_r.
  set (c := Rmin a (Q2R y0 ^ 3)). assert (Hc1 : c <= a) by apply Rmin_l. assert (Hc2 : c <= Q2R y0 ^ 3) by apply Rmin_r. assert (Hc : 0 < c) by (apply Rmin_glb_lt; lra).
  assert (He : exp (- Q2R y0 ^ 3) <= Q2R e_up) by (unfold e_up; rewrite t2_R, cube_R; apply exp_up2; lra).
  destruct (sum_up_ok nodes y0 e_up d ltac:(lra) ltac:(lra) nodes_ok He Hd2) as [Hy Hs].
  pose proof up_value as V. apply Qle_bool_iff, Qle_Rle in V. rewrite Q2R_frac in V.
  eapply Rle_trans; [apply (shape_mono a b c d); auto|]. rewrite (shape_chasles c (Q2R y0 ^ 3) d) by auto.
  pose proof (head_up c (Q2R y0) ltac:(lra) ltac:(lra)) as H. pose proof (gy_bound (Q2R y0) ltac:(lra)). pose proof (gy_nonneg (Q2R y0) ltac:(lra)). pose proof (exp_ge (- Q2R y0 ^ 3)).
  assert (gy (Q2R y0) * (1 - exp (- Q2R y0 ^ 3)) <= 1.7 * 0.000001); [|lra]. apply Rmult_le_compat; try lra.
  assert (exp (- Q2R y0 ^ 3) <= 1); [|lra]. rewrite <- exp_0. left. apply exp_increasing. lra.
Qed.
Lemma shape_total_low a b : 0 < a <= 0.000001 -> 10.648 <= b -> 1.0702 <= RInt synch_shape a b.
Proof.
  intros Ha Hb. assert (Ey : Q2R y0 = 0.01) by (unfold y0; rewrite Q2R_frac; lra). assert (E0 : 0 < Q2R y0 ^ 3) by (rewrite Ey; lra).
  assert (E3 : Q2R y0 ^ 3 = 0.000001) by (rewrite Ey; lra).
  assert (Hp : 0 <= Q2R e_low) by (unfold e_low; rewrite t3_R, cube_R, E3; lra).
  assert (He : Q2R e_low <= exp (- Q2R y0 ^ 3)) by (unfold e_low; rewrite t3_R, cube_R; apply exp_low3; lra).
  destruct (sum_low_ok nodes y0 e_low ltac:(lra) ltac:(lra) nodes_ok Hp He) as [_ Hs]. rewrite last_node in Hs.
  assert (E : Q2R (220 # 100) ^ 3 = 10.648) by (rewrite Q2R_frac; lra).
  pose proof low_value as V. apply Qle_bool_iff, Qle_Rle in V. rewrite Q2R_frac in V.
  apply Rle_trans with (RInt synch_shape (Q2R y0 ^ 3) (Q2R (220 # 100) ^ 3)); [lra|]. apply shape_mono; lra.
Qed.
