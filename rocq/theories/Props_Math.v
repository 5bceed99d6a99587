(** C58 to C61: integration helpers, broadcasting and conversions *)
From Verif Require Import Base NumpyInst MathUtils Conversion Spec_Math MathFacts MathFacts2.
From Coquelicot Require Import Coquelicot.
Import ListNotations.
Open Scope list_scope.
Open Scope R_scope.

(** ** C58 *)
Theorem C58_trapz_linear : forall a b x y z, length y = length x -> length z = length x ->
  trapz (map2 (fun u v => a * u + b * v) y z) x = a * trapz y x + b * trapz z x.
Proof. exact trapz_linear. Qed.
Print Assumptions C58_trapz_linear.

Theorem C58_trapz_monotone : forall x y z, incr x -> length y = length x -> Forall2 Rle y z -> trapz y x <= trapz z x.
Proof. exact (fun x y z Hx => trapz_mono x Hx y z). Qed.
Print Assumptions C58_trapz_monotone.

(** exact on straight lines: the integral over the whole grid *)
Theorem C58_trapz_affine : forall a b x0 x,
  is_RInt (fun g => a * g + b) x0 (last (x0 :: x) 0) (trapz (map (fun g => a * g + b) (x0 :: x)) (x0 :: x)).
Proof. exact (fun a b x0 x => trapz_affine a b x x0). Qed.
Print Assumptions C58_trapz_affine.

Theorem C58_loglog_nonnegative : forall x y, incr x -> (forall v, In v x -> 0 < v) -> List.Forall (fun v => 0 <= v) y ->
  0 <= trapz_loglog y x.
Proof. exact (fun x y Hx Hp => loglog_nonneg x Hx Hp y). Qed.
Print Assumptions C58_loglog_nonnegative.

(** exact for power laws A x^s on any increasing grid, unless 0 < |s+1| <= 1e-10 *)
Theorem C58_loglog_power_law : forall A s x0 x,
  0 < A -> (s = -1 \/ 1 / 10 ^ 10 < Rabs (s + 1)) -> incr (x0 :: x) ->
  (forall v, In v (x0 :: x) -> representable v /\ representable (A * Rpower v s)) ->
  (forall i u v, nth_error (x0 :: x) i = Some u -> nth_error (x0 :: x) (S i) = Some v -> representable (v / u)) ->
  is_RInt (fun g => A * Rpower g s) x0 (last (x0 :: x) 0) (trapz_loglog (map (fun g => A * Rpower g s) (x0 :: x)) (x0 :: x)).
Proof. exact (fun A s x0 x HA Hs => loglog_power A s x HA Hs x0). Qed.
Print Assumptions C58_loglog_power_law.

Lemma rep_small v : 1 / 1024 <= v <= 1024 -> representable v.
Proof.
  intros [H1 H2]. split.
  - apply Rle_trans with (2 := H1). unfold ftiny. replace (1 / 1024) with (/ 2 ^ 10) by (simpl; field).
    apply Rinv_le_contravar; [apply pow_lt; lra|]. apply Rle_pow; [lra|lia].
  - apply Rle_trans with (1 := H2). unfold fmax. replace 1024 with (1 * 2 ^ 10) by (simpl; ring). clear H1 H2.
    assert (0 < / 2 ^ 52 < 1).
    { split; [apply Rinv_0_lt_compat, pow_lt; lra|]. rewrite <- Rinv_1. apply Rinv_lt_contravar; [rewrite Rmult_1_l; apply pow_lt; lra|]. apply Rlt_pow_R1; [lra|lia]. }
    apply Rmult_le_compat; [lra|apply pow_le; lra|lra|apply Rle_pow; [lra|lia]].
Qed.
Lemma rpow2 x : 0 < x -> Rpower x 2 = x * x.
Proof. intros. replace 2 with (1 + 1) by ring. rewrite Rpower_plus, Rpower_1 by auto. reflexivity. Qed.

(** case: 3 x^2 on the grid 1, 2, 4, 8 *)
Example C58_case : is_RInt (fun g => 3 * Rpower g 2) 1 8 (trapz_loglog (map (fun g => 3 * Rpower g 2) [1; 2; 4; 8]%list) [1; 2; 4; 8]%list).
Proof.
  apply (C58_loglog_power_law 3 2 1 (2 :: 4 :: 8 :: nil)); try lra.
  - right. rewrite Rabs_right by lra. lra.
  - simpl. repeat split; lra.
  - intros v Hv. simpl in Hv. destruct Hv as [<-|[<-|[<-|[<-|[]]]]]; rewrite rpow2 by lra; split; apply rep_small; lra.
  - intros i u v Hu Hv. apply rep_small. destruct i as [|[|[|[|i]]]]; simpl in Hu, Hv; try discriminate; injection Hu as <-; injection Hv as <-; lra.
Qed.

Theorem C58_loglog_homogeneous : forall c x y, 0 < c -> (forall v, In v y -> v = 0 \/ (representable v /\ representable (c * v))) ->
  trapz_loglog (map (Rmult c) y) x = c * trapz_loglog y x.
Proof. exact (fun c x y Hc => loglog_scale c Hc x y). Qed.
Print Assumptions C58_loglog_homogeneous.

Theorem C58_additive : forall y1 x1 ym xm y2 x2, length y1 = length x1 ->
  trapz (y1 ++ ym :: y2) (x1 ++ xm :: x2) = trapz (y1 ++ ym :: nil) (x1 ++ xm :: nil) + trapz (ym :: y2) (xm :: x2) /\
  trapz_loglog (y1 ++ ym :: y2) (x1 ++ xm :: x2) = trapz_loglog (y1 ++ ym :: nil) (x1 ++ xm :: nil) + trapz_loglog (ym :: y2) (xm :: x2).
Proof. exact (fun y1 x1 ym xm y2 x2 H => conj (trapz_split y1 x1 ym xm y2 x2 H) (loglog_split y1 x1 ym xm y2 x2 H)). Qed.
Print Assumptions C58_additive.

(** negative integrands: a left Riemann sum, whatever the data *)
Theorem C58_loglog_negative : forall x y, incr x -> (forall v, In v x -> 0 < v) -> (forall v, In v y -> v < 0) ->
  trapz_loglog y x = left_riemann y x.
Proof. exact (fun x y Hx Hp => loglog_negative x Hx Hp y). Qed.
Print Assumptions C58_loglog_negative.

(** hence trapz_loglog is not odd *)
Theorem C58_loglog_not_odd : exists x y, incr x /\ (forall v, In v x -> 0 < v) /\ (forall v, In v y -> 0 < v) /\
  trapz_loglog (map Ropp y) x <> - trapz_loglog y x.
Proof.
  exists (1 :: 2 :: nil), (1 :: 4 :: nil).
  assert (P1 : forall v, In v (1 :: 2 :: nil) -> 0 < v) by (intros v [<-|[<-|[]]]; lra).
  assert (HI : incr (1 :: 2 :: nil)) by (simpl; lra).
  split; [exact HI|]. split; [exact P1|]. split; [intros v [<-|[<-|[]]]; lra|].
  rewrite C58_loglog_negative; auto.
  2:{ intros v [<-|[<-|[]]]; lra. }
  simpl left_riemann. rewrite loglog_cons2, loglog_one.
  assert (E1 : Rpower 1 2 = 1) by (rewrite rpow2; lra). assert (E2 : Rpower 2 2 = 4) by (rewrite rpow2; lra).
  assert (I : is_RInt (fun g => 1 * Rpower g 2) 1 2 (loglog_interval (1 * Rpower 1 2) (1 * Rpower 2 2) 1 2)).
  { apply interval_power; try (apply rep_small; rewrite ?E1, ?E2; lra); try lra. right. rewrite Rabs_right; lra. }
  assert (J : is_RInt (fun g => 1 * Rpower g 2) 1 2 (1 * (Rpower 2 (2 + 1) - Rpower 1 (2 + 1)) / (2 + 1))) by (apply power_RInt; lra).
  pose proof (is_RInt_unique (V:=R_CompleteNormedModule) _ _ _ _ I) as U. pose proof (is_RInt_unique (V:=R_CompleteNormedModule) _ _ _ _ J) as U'.
  rewrite U' in U. rewrite !Rpower_plus, !Rpower_1, E1, E2 in U by lra. rewrite !Rmult_1_l in U. rewrite <- U. lra.
Qed.
Print Assumptions C58_loglog_not_odd.

(** the logarithm of trapz_loglog is clipped at the ends of the range of normal
    float64 numbers m 2^e with 53-bit m: nothing representable is altered at the
    upper end, and only zero, negative and subnormal numbers at the lower end *)
Definition float64 (x : R) : Prop :=
  exists m e : Z, (Z.abs m < 2 ^ 53)%Z /\ (-1074 <= e <= 971)%Z /\ x = IZR m * powerRZ 2 e.
Definition normal64 (x : R) : Prop :=
  exists m e : Z, (2 ^ 52 <= Z.abs m < 2 ^ 53)%Z /\ (-1074 <= e <= 971)%Z /\ x = IZR m * powerRZ 2 e.
Lemma pow2_le (a b : Z) : (a <= b)%Z -> powerRZ 2 a <= powerRZ 2 b.
Proof.
  intros H. replace b with (a + (b - a))%Z by lia. rewrite powerRZ_add by lra.
  assert (P : 0 < powerRZ 2 a) by (apply powerRZ_lt; lra).
  assert (Q : 1 <= powerRZ 2 (b - a)).
  { destruct (b - a)%Z eqn:D; [simpl; lra| |lia]. simpl. apply pow_R1_Rle. lra. }
  rewrite <- (Rmult_1_r (powerRZ 2 a)) at 1. apply Rmult_le_compat_l; lra.
Qed.
Lemma fmax_is : fmax = IZR (2 ^ 53 - 1) * powerRZ 2 971.
Proof.
  unfold fmax. replace 1023%nat with (971 + 52)%nat by reflexivity. rewrite pow_add.
  change (powerRZ 2 971) with (2 ^ Pos.to_nat 971). replace (Pos.to_nat 971) with 971%nat by reflexivity.
  generalize (2 ^ 971). intros X. replace (2 ^ 53 - 1)%Z with (2 * 2 ^ 52 - 1)%Z by reflexivity.
  rewrite minus_IZR, mult_IZR. change (2 ^ 52)%Z with (2 ^ Z.of_nat 52)%Z. rewrite <- (pow_IZR 2 52).
  assert (Q : 2 ^ 52 <> 0) by (apply pow_nonzero; lra). generalize dependent (2 ^ 52). intros Y Q. field. auto.
Qed.
Lemma ftiny_is : ftiny = IZR (2 ^ 52) * powerRZ 2 (-1074).
Proof.
  unfold ftiny. change (powerRZ 2 (-1074)) with (/ 2 ^ Pos.to_nat 1074). replace (Pos.to_nat 1074) with (1022 + 52)%nat by reflexivity.
  rewrite pow_add. change (2 ^ 52)%Z with (2 ^ Z.of_nat 52)%Z. rewrite <- (pow_IZR 2 52). assert (Q : 2 ^ 52 <> 0) by (apply pow_nonzero; lra).
  assert (Q' : 2 ^ 1022 <> 0) by (apply pow_nonzero; lra). generalize dependent (2 ^ 52). generalize dependent (2 ^ 1022). intros X Q' Y Q. field. auto.
Qed.
Theorem C58_clip_range :
  (float64 fmax /\ forall x, float64 x -> x <= fmax) /\
  (normal64 ftiny /\ forall x, normal64 x -> 0 < x -> ftiny <= x) /\
  (forall x, float64 x -> ftiny <= x -> clog x = ln x) /\
  (forall x, x <= ftiny -> clog x = ln ftiny).
Proof.
  assert (U : forall x, float64 x -> x <= fmax).
  { intros x (m & e & M & E & ->). rewrite fmax_is. apply Rle_trans with (IZR (2 ^ 53 - 1) * powerRZ 2 e).
    - apply Rmult_le_compat_r; [left; apply powerRZ_lt; lra|]. apply IZR_le. lia.
    - apply Rmult_le_compat_l; [apply IZR_le; lia|]. apply pow2_le. lia. }
  repeat match goal with |- _ /\ _ => split end.
  - exists (2 ^ 53 - 1)%Z, 971%Z. split; [lia|]. split; [lia|]. apply fmax_is.
  - exact U.
  - exists (2 ^ 52)%Z, (-1074)%Z. split; [lia|]. split; [lia|]. apply ftiny_is.
  - intros x (m & e & M & E & ->) H. assert (Q : 0 < powerRZ 2 e) by (apply powerRZ_lt; lra).
    assert (0 < m)%Z. { apply lt_IZR. apply Rmult_lt_reg_r with (powerRZ 2 e); lra. }
    rewrite ftiny_is. apply Rle_trans with (IZR (2 ^ 52) * powerRZ 2 e).
    + apply Rmult_le_compat_l; [apply IZR_le; lia|]. apply pow2_le. lia.
    + apply Rmult_le_compat_r; [lra|]. apply IZR_le. lia.
  - intros x F L. apply clog_ln. split; auto.
  - apply clog_small.
Qed.
Print Assumptions C58_clip_range.

(** ** C59 *)
Theorem C59_exact : forall k p a b, 0 < a -> a <= b -> p = 1 \/ isclose_1 p = false ->
  is_RInt (fun g => k * Rpower g (- p)) a b (power_law_integral k p a b).
Proof. exact power_law_integral_exact. Qed.
Print Assumptions C59_exact.

(** np.isclose(p, 1.0) is true exactly within 1e-8 + 1e-5 of 1 *)
Theorem C59_isclose : forall p, isclose_1 p = true <-> Rabs (p - 1) <= 1 / 10 ^ 8 + 1 / 10 ^ 5.
Proof. exact (fun p => Rleb_true _ _). Qed.
Print Assumptions C59_isclose.

Example C59_case : is_RInt (fun g => 5 * Rpower g (- 2)) 10 1000 (power_law_integral 5 2 10 1000).
Proof. apply C59_exact; try lra. right. apply Bool.not_true_is_false. rewrite C59_isclose. rewrite Rabs_right; lra. Qed.

(** for Lorentz factors (>= 1) the value is wrong for every p that is close to but different from 1 *)
Theorem C59_inexact : forall k p a b v, 1 <= a -> a < b -> k <> 0 -> isclose_1 p = true -> p <> 1 ->
  is_RInt (fun g => k * Rpower g (- p)) a b v -> power_law_integral k p a b <> v.
Proof. exact power_law_integral_inexact. Qed.
Print Assumptions C59_inexact.

Example C59_inexact_case : exists p, p <> 1 /\ isclose_1 p = true /\ ex_RInt (fun g => 1 * Rpower g (- p)) 1 10.
Proof.
  exists (1 + 1 / 10 ^ 6). split; [lra|]. split. { apply C59_isclose. rewrite Rabs_right; lra. }
  eexists. apply power_RInt; lra.
Qed.

(** ** C60 *)
Theorem C60_shapes : forall args i a, nth_error args i = Some a ->
  length (axes_reshaper args) = length args /\
  exists r, nth_error (axes_reshaper args) i = Some r /\ length (shape_of r) = length args /\
    forall j, (j < length args)%nat -> nth_error (shape_of r) j = Some (if Nat.eqb j i then length a else 1%nat).
Proof.
  intros args i a H. split; [apply axes_reshaper_length|]. eexists. split; [apply axes_reshaper_nth; eauto|]. simpl.
  rewrite set_nth_length, repeat_length. split; auto. intros j Hj.
  rewrite set_nth_get by (rewrite repeat_length; apply nth_error_Some; congruence).
  destruct (Nat.eqb j i); auto. apply nth_error_repeat; auto.
Qed.
Print Assumptions C60_shapes.

Theorem C60_broadcast : forall args, bcast_shapes (length args) (map shape_of (axes_reshaper args)) = Some (map (@length R) args).
Proof. exact bcast_axes. Qed.
Print Assumptions C60_broadcast.

Theorem C60_elements : forall args i a idx, nth_error args i = Some a -> length idx = length args -> (nth i idx O < length a)%nat ->
  exists r, nth_error (axes_reshaper args) i = Some r /\ bcast_get r idx = nth_error a (nth i idx O).
Proof.
  intros args i a idx H Hl Hi. eexists. split; [apply axes_reshaper_nth; eauto|]. unfold bcast_get, nd_get. cbn [shape_of data_of].
  rewrite ravel_reshaped; auto. apply nth_error_Some. congruence.
Qed.
Print Assumptions C60_elements.

Example C60_case : exists r, nth_error (axes_reshaper [[1; 2]; [3; 4; 5]; [6; 7]]%list) 1 = Some r /\ bcast_get r [1; 2; 0]%nat%list = Some 5.
Proof. apply (C60_elements [[1; 2]; [3; 4; 5]; [6; 7]]%list 1 [3; 4; 5]%list [1; 2; 0]%nat%list); simpl; auto. Qed.

(** ** C61 *)
Theorem C61_nu_to_epsilon_prime : forall P nu z delta m, phys_ok P -> 0 < delta ->
  nu_to_epsilon_prime P nu z delta m
  = c_h P * nu * (1 + z) / (delta * (match m with Electron => c_me P | Proton => c_mp P end * (c_c P * c_c P))).
Proof.
  intros P nu z d m HP Hd. unfold nu_to_epsilon_prime, nu_to_eps, rest_energy, mass_of. destruct HP. destruct m; field; repeat split; lra.
Qed.
Print Assumptions C61_nu_to_epsilon_prime.

Theorem C61_linear_increasing : forall P z delta m, phys_ok P -> 0 < delta -> 0 <= z ->
  (forall nu, 0 <= nu -> 0 <= nu_to_epsilon_prime P nu z delta m) /\
  (forall a nu, nu_to_epsilon_prime P (a * nu) z delta m = a * nu_to_epsilon_prime P nu z delta m) /\
  (forall nu1 nu2, nu1 < nu2 -> nu_to_epsilon_prime P nu1 z delta m < nu_to_epsilon_prime P nu2 z delta m).
Proof.
  intros P z d m HP Hd Hz. destruct HP.
  set (q := c_h P * (1 + z) / (d * (match m with Electron => c_me P | Proton => c_mp P end * (c_c P * c_c P)))).
  assert (Hq : 0 < q).
  { unfold q. apply Rdiv_lt_0_compat; [apply Rmult_lt_0_compat; lra|]. apply Rmult_lt_0_compat; auto. destruct m; repeat apply Rmult_lt_0_compat; auto. }
  assert (E : forall nu, nu_to_epsilon_prime P nu z d m = q * nu).
  { intros nu. rewrite C61_nu_to_epsilon_prime by (auto; constructor; auto). unfold q. destruct m; field; repeat split; lra. }
  split; [|split]; intros; rewrite ?E.
  - apply Rmult_le_pos; lra.
  - ring.
  - apply Rmult_lt_compat_l; auto.
Qed.
Print Assumptions C61_linear_increasing.

Theorem C61_inverse : forall P nu eps z delta m, phys_ok P -> 0 < delta -> 0 <= z ->
  nu_to_epsilon_prime P nu z delta m = eps <->
  nu = eps * delta * (match m with Electron => c_me P | Proton => c_mp P end * (c_c P * c_c P)) / (c_h P * (1 + z)).
Proof.
  intros P nu eps z d m HP Hd Hz. rewrite C61_nu_to_epsilon_prime by auto. destruct HP.
  assert (0 < match m with Electron => c_me P | Proton => c_mp P end) by (destruct m; auto).
  set (M := match m with Electron => c_me P | Proton => c_mp P end) in *.
  split; intros E; [rewrite <- E|rewrite E]; field; repeat split; lra.
Qed.
Print Assumptions C61_inverse.

(** the two directions of epsilon_equivalency are inverse to each other *)
Theorem C61_equivalency : forall P m x, phys_ok P -> eps_to_nu P m (nu_to_eps P m x) = x /\ nu_to_eps P m (eps_to_nu P m x) = x.
Proof.
  intros P m x HP. destruct HP. unfold eps_to_nu, nu_to_eps, rest_energy, mass_of. split; destruct m; field; repeat split; lra.
Qed.
Print Assumptions C61_equivalency.

Theorem C61_R_g_and_B : forall P, phys_ok P ->
  (forall r M, 0 < M -> to_R_g_units P r M * (c_G P * M / (c_c P * c_c P)) = r) /\ (forall B, B_to_cgs B = B).
Proof. intros P HP. destruct HP. split; auto. intros r M HM. unfold to_R_g_units, R_g. field. repeat split; lra. Qed.
Print Assumptions C61_R_g_and_B.

Example C61_case : phys_ok codata /\ nu_to_epsilon_prime codata 1e18 1 10 Electron > 0.
Proof.
  split; [exact codata_ok|]. rewrite C61_nu_to_epsilon_prime by (try exact codata_ok; lra). apply Rdiv_lt_0_compat; simpl; lra.
Qed.
