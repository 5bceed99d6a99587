(** Property C110: the spectrum of the disk against the integral over its radii. *)
From Verif Require Import Base TEUtils ListFacts NumpyInst MathUtils Conversion Spectra Blob Geometry Targets Spec_Math Spec_Geom Spec_Beams Spec_Thermal MathFacts SpectraFacts BlobFacts SynchFacts TargetFacts Props_Targets Props_Beams Props_Thermal AbsorptionFacts Props_Opacity Props_Disk.
From Coquelicot Require Import Coquelicot.
From Coq Require Import String List.
Import ListNotations.
Open Scope list_scope.
Open Scope R_scope.

(** ** specification *)
(** [T] is the temperature of a black body that radiates the flux of the
    Shakura-Sunyaev disk *)
Definition disk_temperature (P : phys) (M m_dot R_in : R) (T : R -> R) : Prop :=
  forall r, R_in <= r -> 0 <= T r /\ c_sigmaSB P * T r ^ 4 = disk_flux P M m_dot R_in r.
(** [F] is the flux density at frequency [nu] that an observer at distance [dl]
    receives from a face-on annulus with temperature [T], times [dl]^2 *)
Definition annulus (P : phys) (nu : R) (T : R -> R) (a b F : R) : Prop := is_RInt (fun r => 2 * PI * r * planck P nu (T r)) a b F.

(** ** the trapezia of a function of bounded variation *)
Lemma cells_var (f F G : R -> R) h : forall xs, (forall i a b, nth_error xs i = Some a -> nth_error xs (S i) = Some b -> Rabs ((b - a) * (f a + f b) / 2 - (F b - F a)) <= h * (G b - G a)) ->
  forall a b, nth_error xs 0 = Some a -> nth_error xs (length xs - 1) = Some b -> Rabs (over xs f - (F b - F a)) <= h * (G b - G a).
Proof.
  induction xs as [|x l IH]; intros H a b Ha Hb; [discriminate|]. cbn [nth_error] in Ha. apply some_inj in Ha. subst a.
  destruct l as [|y l].
  - cbn in Hb. apply some_inj in Hb. subst b. unfold over. simpl. rewrite !Rminus_eq_0, Rmult_0_r, Rabs_R0. lra.
  - assert (IH' : Rabs (over (y :: l) f - (F b - F y)) <= h * (G b - G y)).
    { apply IH; auto. - intros i u v Hu Hv. apply (H (S i)); auto. - simpl in Hb |- *. rewrite Nat.sub_0_r. auto. }
    pose proof (H 0%nat x y eq_refl eq_refl) as H0. rewrite over_cons2. apply Rabs_le. apply Rabs_le_between in H0. apply Rabs_le_between in IH'. lra.
Qed.
Lemma variation_error (f G : R -> R) a b n : a < b -> (forall x, a <= x <= b -> continuous f x) -> (forall x y, a <= x -> x <= y -> y <= b -> Rabs (f y - f x) <= G y - G x) ->
  Rabs (over (linspace a b (S (S n))) f - RInt f a b) <= (b - a) / INR (S n) * (G b - G a).
Proof.
  intros Hab Hc HG. set (h := (b - a) / INR (S n)). assert (HS : 0 < INR (S n)) by (apply lt_0_INR; lia). assert (Hh : 0 < h) by (apply Rdiv_lt_0_compat; lra).
  assert (Hex : forall u v, a <= u <= b -> a <= v <= b -> ex_RInt f u v).
  { intros u v Hu Hv. apply (@ex_RInt_continuous R_CompleteNormedModule). intros x Hx. apply Hc. unfold Rmin, Rmax in Hx. destruct (Rle_dec u v); lra. }
  assert (K : Rabs (over (linspace a b (S (S n))) f - (RInt f a b - RInt f a a)) <= h * (G b - G a)).
  { apply (cells_var f (fun x => RInt f a x) G).
    - intros i u v Hu Hv. assert (Hi : (S i < S (S n))%nat) by (rewrite <- (linspace_length a b (S (S n))); apply nth_error_Some; congruence).
      assert (Iu : a <= u <= b) by (apply linspace_in with (S (S n)); [lra|]; apply nth_error_In with i; auto). assert (Iv : a <= v <= b) by (apply linspace_in with (S (S n)); [lra|]; apply nth_error_In with (S i); auto).
      rewrite linspace_nth in Hu, Hv by lia. apply some_inj in Hu. apply some_inj in Hv. replace (S (S n) - 1)%nat with (S n) in Hu, Hv by lia. fold h in Hu, Hv. rewrite (S_INR i) in Hv. assert (Huv : v - u = h) by (rewrite <- Hu, <- Hv; ring). clear Hu Hv.
      assert (C : RInt f a v - RInt f a u = RInt f u v). { rewrite <- (RInt_Chasles f a u v); [unfold plus; simpl; ring|apply Hex; lra|apply Hex; lra]. } rewrite C.
      set (D := G v - G u). assert (B : forall w, (w = u \/ w = v) -> (v - u) * (f w - D) <= RInt f u v <= (v - u) * (f w + D)).
      { intros w Hw. assert (HK : forall x, u < x < v -> Rabs (f x - f w) <= D).
        { intros x Hx. pose proof (HG u x ltac:(lra) ltac:(lra) ltac:(lra)) as X1. pose proof (HG x v ltac:(lra) ltac:(lra) ltac:(lra)) as X2. pose proof (Rabs_pos (f x - f u)). pose proof (Rabs_pos (f v - f x)). unfold D. destruct Hw; subst w; [lra|]. rewrite Rabs_minus_sym. lra. } split.
        - replace ((v - u) * (f w - D)) with (RInt (fun _ => f w - D) u v) by (rewrite RInt_const; unfold scal; simpl; unfold mult; simpl; ring).
          apply RInt_le; [lra|apply ex_RInt_const|apply Hex; lra|]. intros x Hx. specialize (HK x Hx). apply Rabs_le_between in HK. lra.
        - replace ((v - u) * (f w + D)) with (RInt (fun _ => f w + D) u v) by (rewrite RInt_const; unfold scal; simpl; unfold mult; simpl; ring).
          apply RInt_le; [lra|apply Hex; lra|apply ex_RInt_const|]. intros x Hx. specialize (HK x Hx). apply Rabs_le_between in HK. lra. }
      pose proof (B u ltac:(auto)) as Bu. pose proof (B v ltac:(auto)) as Bv. rewrite Huv in *. apply Rabs_le. split; lra.
    - apply linspace_first. lia.
    - rewrite linspace_length. apply linspace_last. lia. }
  rewrite RInt_point in K. unfold zero in K; simpl in K. rewrite Rminus_0_r in K. exact K.
Qed.

(** ** Planck's law as a function of the temperature *)
Section Planck.
Variable P : phys.
Hypothesis HP : phys_ok P.
Variable nu : R.
Hypothesis Hn : 0 < nu.
Let A := 2 * c_h P * nu ^ 3 / c_c P ^ 2.
Let X := c_h P * nu / c_kB P.
Lemma A_pos : 0 < A.
Proof. destruct HP. unfold A. apply Rdiv_lt_0_compat; [|apply pow_lt; auto]. apply Rmult_lt_0_compat; [lra|apply pow_lt; auto]. Qed.
Lemma X_pos : 0 < X.
Proof. destruct HP. unfold X. apply Rdiv_lt_0_compat; auto. apply Rmult_lt_0_compat; auto. Qed.
Lemma planck_at T : 0 < T -> planck P nu T = A / (exp (X / T) - 1).
Proof. intros HT. destruct HP. unfold planck. rewrite (proj2 (Reqb_false _ _)) by lra. unfold A, X. do 3 f_equal. field. split; lra. Qed.
Lemma planck_0 : planck P nu 0 = 0.
Proof. unfold planck. rewrite (proj2 (Reqb_true _ _) eq_refl). auto. Qed.
Lemma ex_gt y : 0 < y -> y < exp y - 1.
Proof. intros H. pose proof (exp_ineq1 y ltac:(lra)). lra. Qed.
Lemma planck_nonneg T : 0 <= T -> 0 <= planck P nu T.
Proof.
  intros [H|<-]; [|rewrite planck_0; lra]. rewrite planck_at by auto. pose proof A_pos. pose proof X_pos. assert (0 < X / T) by (apply Rdiv_lt_0_compat; auto). pose proof (ex_gt _ H2). left. apply Rdiv_lt_0_compat; lra.
Qed.
Lemma planck_mono T U : 0 <= T -> T <= U -> planck P nu T <= planck P nu U.
Proof.
  intros [HT|<-] HU; [|rewrite planck_0; apply planck_nonneg; auto]. rewrite !planck_at by lra. pose proof A_pos. pose proof X_pos.
  assert (L : X / U <= X / T) by (apply Rmult_le_compat_l; [lra|apply Rinv_le_contravar; auto]). assert (0 < X / U) by (apply Rdiv_lt_0_compat; lra). pose proof (ex_gt _ H1).
  apply Rmult_le_compat_l; [lra|]. apply Rinv_le_contravar; [lra|]. assert (exp (X / U) <= exp (X / T)); [|lra]. destruct L as [L|L]; [left; apply exp_increasing; auto|rewrite L; lra].
Qed.
Lemma planck_linear T : 0 <= T -> planck P nu T <= A / X * T.
Proof.
  intros [HT|<-]; [|rewrite planck_0; lra]. rewrite planck_at by auto. pose proof A_pos. pose proof X_pos. assert (H1 : 0 < X / T) by (apply Rdiv_lt_0_compat; auto). pose proof (ex_gt _ H1).
  replace (A / X * T) with (A / (X / T)) by (field; lra). apply Rmult_le_compat_l; [lra|]. apply Rinv_le_contravar; lra.
Qed.
Lemma planck_cont T : continuous (fun t => planck P nu (Rabs t)) T.
Proof.
  destruct (Req_dec T 0) as [->|N].
  - apply continuity_pt_filterlim. intros e He. pose proof A_pos. pose proof X_pos. assert (HK : 0 < A / X) by (apply Rdiv_lt_0_compat; auto). exists (e / (A / X)). split; [apply Rdiv_lt_0_compat; lra|].
    intros x [_ Hx]. simpl in Hx |- *. unfold R_dist in *. rewrite Rabs_R0, planck_0, Rminus_0_r in *. pose proof (planck_nonneg _ (Rabs_pos x)). rewrite Rabs_right by lra.
    eapply Rle_lt_trans; [apply planck_linear; apply Rabs_pos|]. apply Rmult_lt_compat_l with (r := A / X) in Hx; auto. replace (A / X * (e / (A / X))) with e in Hx by (field; split; lra). exact Hx.
  - apply Rabs_pos_lt in N. apply (continuous_ext_loc _ (fun t => A / (exp (X / Rabs t) - 1))).
    + assert (D : exists d : posreal, forall y, ball T d y -> 0 < Rabs y).
      { exists (mkposreal _ N). intros y Hy. unfold ball in Hy; simpl in Hy; unfold AbsRing_ball, abs, minus, plus, opp in Hy; simpl in Hy. pose proof (Rabs_triang_inv T y) as Q. rewrite (Rabs_minus_sym T y) in Q. unfold Rminus in Q. lra. }
      destruct D as [d Hd]. exists d. intros y Hy. rewrite planck_at; auto.
    + apply (continuous_comp Rabs (fun t => A / (exp (X / t) - 1))); [apply continuous_Rabs|]. apply (ex_derive_continuous (fun t => A / (exp (X / t) - 1))). pose proof X_pos as X0. assert (H0 : 0 < X / Rabs T) by (apply Rdiv_lt_0_compat; auto). pose proof (ex_gt _ H0). unfold Rdiv in *. auto_derive. repeat split; lra.
Qed.
(** a hotter body outshines a colder one without bound at high frequency *)
Lemma planck_ratio T U : 0 < T -> T < U -> X * (/ T - / U) * planck P nu T <= planck P nu U.
Proof.
  intros HT HU. pose proof A_pos. pose proof X_pos. rewrite !planck_at by lra. set (p := X / T). set (q := X / U). assert (H1 : 0 < q) by (apply Rdiv_lt_0_compat; lra).
  assert (H2 : X * (/ T - / U) = p - q) by (unfold p, q; field; lra). rewrite H2. assert (Hpq : q < p) by (apply Rmult_lt_compat_l; [lra|apply Rinv_lt_contravar; [apply Rmult_lt_0_compat|]; lra]).
  pose proof (ex_gt _ H1). assert (Hp : 0 < p) by lra. pose proof (ex_gt _ Hp). pose proof (ex_gt (p - q) ltac:(lra)). assert (E : exp p = exp (p - q) * exp q) by (rewrite <- exp_plus; f_equal; ring). pose proof (exp_pos q).
  apply Rmult_le_reg_r with ((exp p - 1) * (exp q - 1)); [apply Rmult_lt_0_compat; lra|].
  replace ((p - q) * (A / (exp p - 1)) * ((exp p - 1) * (exp q - 1))) with (A * ((p - q) * (exp q - 1))) by (field; lra). replace (A / (exp q - 1) * ((exp p - 1) * (exp q - 1))) with (A * (exp p - 1)) by (field; lra).
  apply Rmult_le_compat_l; [lra|]. apply Rle_trans with ((exp (p - q) - 1) * (exp q - 1)); [apply Rmult_le_compat_r; lra|]. rewrite E. lra.
Qed.
End Planck.

(** ** the temperature profile *)
Definition root4 (x : R) : R := sqrt (sqrt x).
Lemma root4_pow x : 0 <= x -> root4 x ^ 4 = x.
Proof. intros H. unfold root4. replace (sqrt (sqrt x) ^ 4) with ((sqrt (sqrt x) * sqrt (sqrt x)) * (sqrt (sqrt x) * sqrt (sqrt x))) by ring. rewrite sqrt_sqrt by apply sqrt_pos. apply sqrt_sqrt. auto. Qed.
Lemma root4_mono x y : x <= y -> root4 x <= root4 y.
Proof. intros H. unfold root4. apply sqrt_le_1_alt, sqrt_le_1_alt. auto. Qed.
Lemma root4_lt x y : 0 <= x -> x < y -> root4 x < root4 y.
Proof. intros H0 H. unfold root4. apply sqrt_lt_1_alt. split; [apply sqrt_pos|]. apply sqrt_lt_1_alt. lra. Qed.
Lemma root4_pos x : 0 < x -> 0 < root4 x.
Proof. intros H. unfold root4. apply sqrt_lt_R0, sqrt_lt_R0. auto. Qed.

Definition phi (a r : R) : R := (1 - sqrt (a / r)) / r ^ 3.
(** in terms of s = sqrt (a / r) *)
Definition poly (s : R) : R := s ^ 6 * (1 - s).
Lemma poly_up s t : 0 <= s -> s <= t -> t <= 6 / 7 -> poly s <= poly t.
Proof.
  intros H0 H1 H2. set (S5 := t ^ 5 + t ^ 4 * s + t ^ 3 * s ^ 2 + t ^ 2 * s ^ 3 + t * s ^ 4 + s ^ 5).
  assert (E : poly t - poly s = (t - s) * (S5 * (1 - t) - s ^ 6)) by (unfold poly, S5; ring). assert (S0 : 0 <= s ^ 5) by (apply pow_le; auto).
  assert (L : 6 * s ^ 5 <= S5).
  { assert (M : forall i, s ^ i <= t ^ i) by (intros i; apply pow_incr; lra). assert (N : forall i, 0 <= s ^ i) by (intros i; apply pow_le; auto).
    pose proof (M 5%nat). assert (s ^ 4 * s <= t ^ 4 * s) by (apply Rmult_le_compat_r; auto). assert (s ^ 3 * s ^ 2 <= t ^ 3 * s ^ 2) by (apply Rmult_le_compat_r; auto). assert (s ^ 2 * s ^ 3 <= t ^ 2 * s ^ 3) by (apply Rmult_le_compat_r; auto). assert (s * s ^ 4 <= t * s ^ 4) by (apply Rmult_le_compat_r; auto).
    unfold S5. replace (6 * s ^ 5) with (s ^ 5 + s ^ 4 * s + s ^ 3 * s ^ 2 + s ^ 2 * s ^ 3 + s * s ^ 4 + s ^ 5) by ring. lra. }
  assert (Q : 0 <= S5 * (1 - t) - s ^ 6). { assert (S5 * (1 / 7) <= S5 * (1 - t)) by (apply Rmult_le_compat_l; lra). assert (s ^ 6 <= 6 / 7 * s ^ 5) by (replace (s ^ 6) with (s * s ^ 5) by ring; apply Rmult_le_compat_r; lra). lra. }
  assert (0 <= (t - s) * (S5 * (1 - t) - s ^ 6)) by (apply Rmult_le_pos; lra). lra.
Qed.
Lemma poly_down s t : 6 / 7 <= s -> s <= t -> poly t <= poly s.
Proof.
  intros H1 H2. set (S5 := t ^ 5 + t ^ 4 * s + t ^ 3 * s ^ 2 + t ^ 2 * s ^ 3 + t * s ^ 4 + s ^ 5).
  assert (E : poly s - poly t = (t - s) * (t ^ 6 - S5 * (1 - s))) by (unfold poly, S5; ring). assert (S0 : 0 <= t ^ 5) by (apply pow_le; lra).
  assert (L : 0 <= S5 <= 6 * t ^ 5).
  { assert (M : forall i, s ^ i <= t ^ i) by (intros i; apply pow_incr; lra). assert (N : forall i, 0 <= s ^ i) by (intros i; apply pow_le; lra). assert (N' : forall i, 0 <= t ^ i) by (intros i; apply pow_le; lra).
    pose proof (M 5%nat). assert (t ^ 4 * s <= t ^ 4 * t) by (apply Rmult_le_compat_l; auto). assert (t ^ 3 * s ^ 2 <= t ^ 3 * t ^ 2) by (apply Rmult_le_compat_l; auto). assert (t ^ 2 * s ^ 3 <= t ^ 2 * t ^ 3) by (apply Rmult_le_compat_l; auto). assert (t * s ^ 4 <= t * t ^ 4) by (apply Rmult_le_compat_l; auto; lra).
    assert (0 <= t ^ 4 * s /\ 0 <= t ^ 3 * s ^ 2 /\ 0 <= t ^ 2 * s ^ 3 /\ 0 <= t * s ^ 4) by (repeat split; apply Rmult_le_pos; auto; lra).
    pose proof (N 5%nat). unfold S5. split; [lra|]. replace (6 * t ^ 5) with (t ^ 5 + t ^ 4 * t + t ^ 3 * t ^ 2 + t ^ 2 * t ^ 3 + t * t ^ 4 + t ^ 5) by ring. lra. }
  assert (Q : 0 <= t ^ 6 - S5 * (1 - s)). { assert (S5 * (1 - s) <= S5 * (1 / 7)) by (apply Rmult_le_compat_l; lra). assert (6 / 7 * t ^ 5 <= t ^ 6) by (replace (t ^ 6) with (t * t ^ 5) by ring; apply Rmult_le_compat_r; lra). lra. }
  assert (0 <= (t - s) * (t ^ 6 - S5 * (1 - s))) by (apply Rmult_le_pos; lra). lra.
Qed.
Section Profile.
Variable a : R.
Hypothesis Ha : 0 < a.
Lemma phi_poly r : 0 < r -> phi a r = poly (sqrt (a / r)) / a ^ 3.
Proof.
  intros Hr. unfold phi, poly. set (s := sqrt (a / r)). assert (E : s * s = a / r) by (apply sqrt_sqrt; left; apply Rdiv_lt_0_compat; auto).
  replace (s ^ 6) with ((s * s) ^ 3) by ring. rewrite E. field. split; lra.
Qed.
Lemma s_anti x y : 0 < x -> x <= y -> sqrt (a / y) <= sqrt (a / x).
Proof. intros Hx Hy. apply sqrt_le_1_alt. apply Rmult_le_compat_l; [lra|]. apply Rinv_le_contravar; auto. Qed.
Lemma s_peak : sqrt (a / (49 / 36 * a)) = 6 / 7.
Proof. replace (a / (49 / 36 * a)) with (6 / 7 * (6 / 7)) by (field; lra). apply sqrt_square. lra. Qed.
Lemma a3 : 0 < a ^ 3. Proof. apply pow_lt; auto. Qed.
Lemma phi_nonneg r : a <= r -> 0 <= phi a r.
Proof. intros Hr. pose proof (s_anti a r Ha Hr) as K. replace (a / a) with 1 in K by (field; lra). rewrite sqrt_1 in K. unfold phi. apply Rdiv_le_0_compat; [lra|apply pow_lt; lra]. Qed.
Lemma phi_edge : phi a a = 0.
Proof. unfold phi. replace (a / a) with 1 by (field; lra). rewrite sqrt_1. unfold Rdiv. ring. Qed.
Lemma phi_up x y : a <= x -> x <= y -> y <= 49 / 36 * a -> phi a x <= phi a y.
Proof.
  intros H1 H2 H3. rewrite !phi_poly by lra. apply Rmult_le_compat_r; [left; apply Rinv_0_lt_compat, a3|]. apply poly_down; [|apply s_anti; lra]. rewrite <- s_peak. apply s_anti; lra.
Qed.
Lemma phi_down x y : 49 / 36 * a <= x -> x <= y -> phi a y <= phi a x.
Proof.
  intros H1 H2. rewrite !phi_poly by lra. apply Rmult_le_compat_r; [left; apply Rinv_0_lt_compat, a3|]. apply poly_up; [apply sqrt_pos|apply s_anti; lra|]. rewrite <- s_peak. apply s_anti; lra.
Qed.
Lemma phi_peak r : a <= r -> phi a r <= phi a (49 / 36 * a).
Proof. intros H. destruct (Rle_dec r (49 / 36 * a)); [apply phi_up|apply phi_down]; lra. Qed.
Lemma phi_far r : 3 * a <= r -> phi a r <= / (27 * a ^ 3).
Proof.
  intros H. unfold phi. pose proof a3. pose proof (sqrt_pos (a / r)). assert (R3 : 27 * a ^ 3 <= r ^ 3) by (replace (27 * a ^ 3) with ((3 * a) ^ 3) by ring; apply pow_incr; lra).
  apply Rle_trans with (1 / r ^ 3); [apply Rmult_le_compat_r; [left; apply Rinv_0_lt_compat; lra|lra]|]. unfold Rdiv. rewrite Rmult_1_l. apply Rinv_le_contravar; lra.
Qed.
Lemma phi_hot r : 13 / 10 * a <= r <= 14 / 10 * a -> / (25 * a ^ 3) <= phi a r.
Proof.
  intros H. unfold phi. pose proof a3. assert (R3 : r ^ 3 <= (14 / 10 * a) ^ 3) by (apply pow_incr; lra). assert (R0 : 0 < r ^ 3) by (apply pow_lt; lra).
  assert (S : sqrt (a / r) <= 88 / 100). { rewrite <- (sqrt_square (88 / 100)) by lra. apply sqrt_le_1_alt. apply Rle_trans with (a / (13 / 10 * a)); [apply Rmult_le_compat_l; [lra|apply Rinv_le_contravar; lra]|]. replace (a / (13 / 10 * a)) with (10 / 13) by (field; lra). lra. }
  apply Rmult_le_reg_r with (25 * a ^ 3 * r ^ 3); [apply Rmult_lt_0_compat; lra|]. replace (/ (25 * a ^ 3) * (25 * a ^ 3 * r ^ 3)) with (r ^ 3) by (field; lra). replace ((1 - sqrt (a / r)) / r ^ 3 * (25 * a ^ 3 * r ^ 3)) with (25 * (1 - sqrt (a / r)) * a ^ 3) by (field; lra).
  eapply Rle_trans; [exact R3|]. replace ((14 / 10 * a) ^ 3) with (2744 / 1000 * a ^ 3) by field. apply Rmult_le_compat_r; lra.
Qed.
Lemma phi_cont r : 0 < r -> continuous (phi a) r.
Proof.
  intros Hr. assert (0 < a / r) by (apply Rdiv_lt_0_compat; lra). assert (0 < r ^ 3) by (apply pow_lt; auto). apply (ex_derive_continuous (phi a)). unfold phi. auto_derive. simpl in H0. repeat split; try lra; auto.
Qed.
End Profile.

Section Disk.
Variable P : phys.
Hypothesis HP : phys_ok P.
Variables M m a b nu : R.
Hypothesis HM : 0 < M.
Hypothesis Hm : 0 < m.
Hypothesis Ha : 0 < a.
Hypothesis Hab : a < b.
Hypothesis Hn : 0 < nu.
Variable T : R -> R.
Hypothesis HT : disk_temperature P M m a T.
Definition heat := 3 * c_G P * M * m / (8 * PI * c_sigmaSB P).
Lemma k_pos : 0 < heat.
Proof. destruct HP. pose proof PI_RGT_0. unfold heat. apply Rdiv_lt_0_compat; [|apply Rmult_lt_0_compat; lra]. apply Rmult_lt_0_compat; auto. apply Rmult_lt_0_compat; auto. lra. Qed.
Lemma T_root r : a <= r -> T r = root4 (heat * phi a r).
Proof.
  intros Hr. destruct (HT r Hr) as [H0 H4]. pose proof k_pos. pose proof (phi_nonneg a Ha r Hr) as Hp. assert (Q : 0 <= heat * phi a r) by (apply Rmult_le_pos; lra). apply pow4_eq; [auto|apply sqrt_pos|]. rewrite root4_pow by auto.
  destruct HP. pose proof PI_RGT_0. apply Rmult_eq_reg_l with (c_sigmaSB P); [|lra]. rewrite H4. unfold disk_flux, heat, phi. field. repeat split; lra.
Qed.
Lemma T_peak r : a <= r -> T r <= T (49 / 36 * a).
Proof. intros Hr. rewrite !T_root by lra. apply root4_mono. apply Rmult_le_compat_l; [left; apply k_pos|]. apply phi_peak; auto. Qed.
Definition glow (r : R) := planck P nu (Rabs (root4 (heat * phi a r))).
Definition hottest := glow (49 / 36 * a).
Lemma w_T r : a <= r -> glow r = planck P nu (T r).
Proof. intros Hr. unfold glow. rewrite T_root, Rabs_right by (auto; apply Rle_ge, sqrt_pos). auto. Qed.
Lemma w_mono x y : phi a x <= phi a y -> glow x <= glow y.
Proof. intros H. unfold glow. rewrite !Rabs_right by apply Rle_ge, sqrt_pos. apply planck_mono; auto; [apply sqrt_pos|]. apply root4_mono, Rmult_le_compat_l; auto. left; apply k_pos. Qed.
Lemma w_nonneg x : 0 <= glow x.
Proof. unfold glow. apply planck_nonneg; auto. apply Rabs_pos. Qed.
Lemma w_cont r : 0 < r -> continuous glow r.
Proof.
  intros Hr. unfold glow. apply (continuous_comp (fun r => root4 (heat * phi a r)) (fun t => planck P nu (Rabs t))); [|apply planck_cont; auto]. unfold root4.
  apply (continuous_comp (fun r => sqrt (heat * phi a r)) sqrt); [|apply continuous_sqrt]. apply (continuous_comp (fun r => heat * phi a r) sqrt); [|apply continuous_sqrt].
  apply (continuous_mult (fun _ => heat) (phi a)); [apply continuous_const|apply phi_cont; auto].
Qed.
Definition rise (r : R) := if Rle_dec r (49 / 36 * a) then glow r else 2 * hottest - glow r.
Lemma V_var x y : a <= x -> x <= y -> Rabs (glow y - glow x) <= rise y - rise x.
Proof.
  intros Hx Hy. unfold rise. pose proof (w_mono x (49 / 36 * a) (phi_peak a Ha x Hx)) as W1. pose proof (w_mono y (49 / 36 * a) (phi_peak a Ha y ltac:(lra))) as W2. fold hottest in W1, W2.
  destruct (Rle_dec y (49 / 36 * a)), (Rle_dec x (49 / 36 * a)); try lra.
  - assert (glow x <= glow y) by (apply w_mono, phi_up; auto; lra). rewrite Rabs_right; lra.
  - apply Rabs_le. lra.
  - assert (glow y <= glow x) by (apply w_mono, phi_down; auto; lra). rewrite Rabs_left1; lra.
Qed.
Definition annular (r : R) := r * glow r.
Definition vary (r : R) := hottest * r + b * rise r.
Lemma f_var x y : a <= x -> x <= y -> y <= b -> Rabs (annular y - annular x) <= vary y - vary x.
Proof.
  intros Hx Hy Hb. unfold annular, vary. replace (y * glow y - x * glow x) with ((y - x) * glow x + y * (glow y - glow x)) by ring. eapply Rle_trans; [apply Rabs_triang|]. pose proof (w_nonneg x). pose proof (V_var x y Hx Hy) as K. pose proof (Rabs_pos (glow y - glow x)).
  pose proof (w_mono x (49 / 36 * a) (phi_peak a Ha x Hx)) as W1. fold hottest in W1. rewrite !Rabs_mult, (Rabs_right (y - x)), (Rabs_right (glow x)), (Rabs_right y) by lra.
  assert ((y - x) * glow x <= (y - x) * hottest) by (apply Rmult_le_compat_l; lra). assert (y * Rabs (glow y - glow x) <= b * (rise y - rise x)) by (apply Rmult_le_compat; lra). lra.
Qed.
Lemma G_total : vary b - vary a <= 3 * (b * hottest).
Proof.
  assert (rise b - rise a <= 2 * hottest).
  { unfold rise. destruct (Rle_dec a (49 / 36 * a)) as [_|H]; [|lra]. pose proof (w_nonneg a). pose proof (w_nonneg b). pose proof (w_mono b (49 / 36 * a) (phi_peak a Ha b ltac:(lra))) as W1. fold hottest in W1. destruct (Rle_dec b (49 / 36 * a)); lra. }
  assert (HW : 0 <= hottest) by apply w_nonneg. assert (b * (rise b - rise a) <= b * (2 * hottest)) by (apply Rmult_le_compat_l; lra). assert (0 <= hottest * a) by (apply Rmult_le_pos; lra). unfold vary. lra.
Qed.
Lemma f_cont x : a <= x <= b -> continuous annular x.
Proof. intros Hx. unfold annular. apply (continuous_mult (fun r => r) glow); [apply continuous_id|apply w_cont; lra]. Qed.
Lemma f_error n : Rabs (over (linspace a b (S (S n))) annular - RInt annular a b) <= (b - a) / INR (S n) * (3 * (b * hottest)).
Proof.
  eapply Rle_trans; [apply (variation_error annular vary); auto; [apply f_cont|apply f_var]|]. apply Rmult_le_compat_l; [|apply G_total]. apply Rdiv_le_0_compat; [lra|apply lt_0_INR; lia].
Qed.
Lemma f_annulus : annulus P nu T a b (2 * PI * RInt annular a b).
Proof.
  red. apply (is_RInt_ext (fun r => scal (2 * PI) (annular r))).
  - intros x Hx. rewrite Rmin_left in Hx by lra. unfold scal; simpl; unfold mult; simpl. unfold annular. rewrite w_T by lra. ring.
  - apply (is_RInt_scal (V := R_NormedModule) annular a b (2 * PI) (RInt annular a b)). apply (RInt_correct annular a b). apply (@ex_RInt_continuous R_CompleteNormedModule). intros x Hx. apply f_cont. rewrite Rmin_left, Rmax_right in Hx by lra. auto.
Qed.
Lemma f_sum xs : (forall x, In x xs -> a <= x) -> over xs (fun r => 2 * PI * r * planck P nu (T r)) = 2 * PI * over xs annular.
Proof. intros H. rewrite over_scale. apply over_ext. intros x Hx. unfold annular. rewrite w_T by auto. ring. Qed.
(** the hot annular between 1.3 and 1.4 inner radii *)
Lemma f_integral_low : 14 / 10 * a <= b -> 13 / 100 * a ^ 2 * planck P nu (root4 (heat * / (25 * a ^ 3))) <= RInt annular a b.
Proof.
  intros Hb. set (B := planck P nu (root4 (heat * / (25 * a ^ 3)))). assert (Hex : forall u v, a <= u -> u <= v -> v <= b -> ex_RInt annular u v) by (intros u v H1 H2 H3; apply (@ex_RInt_continuous R_CompleteNormedModule); intros x Hx; rewrite Rmin_left, Rmax_right in Hx by lra; apply f_cont; lra).
  assert (HB : 0 <= B) by (apply planck_nonneg; auto; apply sqrt_pos).
  assert (f0 : forall x, a <= x -> 0 <= annular x) by (intros x Hx; apply Rmult_le_pos; [lra|apply w_nonneg]).
  assert (C1 : RInt annular a b = RInt annular a (13 / 10 * a) + RInt annular (13 / 10 * a) b) by (symmetry; apply (RInt_Chasles annular); apply Hex; lra). assert (C2 : RInt annular (13 / 10 * a) b = RInt annular (13 / 10 * a) (14 / 10 * a) + RInt annular (14 / 10 * a) b) by (symmetry; apply (RInt_Chasles annular); apply Hex; lra).
  assert (P1 : 0 <= RInt annular a (13 / 10 * a)) by (apply RInt_ge_0; [lra|apply Hex; lra|intros; apply f0; lra]). assert (P2 : 0 <= RInt annular (14 / 10 * a) b) by (apply RInt_ge_0; [lra|apply Hex; lra|intros; apply f0; lra]).
  assert (P3 : 13 / 100 * a ^ 2 * B <= RInt annular (13 / 10 * a) (14 / 10 * a)); [|lra].
  replace (13 / 100 * a ^ 2 * B) with (RInt (fun _ => 13 / 10 * a * B) (13 / 10 * a) (14 / 10 * a)) by (rewrite RInt_const; unfold scal; simpl; unfold mult; simpl; field).
  apply RInt_le; [lra|apply ex_RInt_const|apply Hex; lra|]. intros x Hx. unfold annular. apply Rmult_le_compat; try lra. unfold glow. rewrite Rabs_right by apply Rle_ge, sqrt_pos. apply planck_mono; auto; [apply sqrt_pos|]. apply root4_mono. apply Rmult_le_compat_l; [left; apply k_pos|]. apply phi_hot; lra.
Qed.
(** a hundred radii, the second of them beyond 3 inner radii *)
Lemma f_sum_high : 199 * a <= b -> over (linspace a b 100) annular <= (b - a) * (b * planck P nu (root4 (heat * / (27 * a ^ 3)))).
Proof.
  intros Hb. rewrite (Rmult_comm (b - a)). rewrite <- (over_const _ a b 100) by lia. apply over_le; [apply incr_nondecr, linspace_incr; lra|]. intros x Hx. pose proof (linspace_in a b 100 x ltac:(lra) Hx) as Ix.
  assert (C : glow x <= planck P nu (root4 (heat * / (27 * a ^ 3)))).
  { apply In_nth_error in Hx. destruct Hx as [i Hi]. assert (Li : (i < 100)%nat) by (rewrite <- (linspace_length a b 100); apply nth_error_Some; congruence). rewrite linspace_nth in Hi by auto. apply some_inj in Hi.
    unfold glow. rewrite Rabs_right by apply Rle_ge, sqrt_pos. apply planck_mono; auto; [apply sqrt_pos|]. apply root4_mono. apply Rmult_le_compat_l; [left; apply k_pos|]. destruct i as [|i].
    - simpl in Hi. assert (Ex : x = a) by lra. rewrite Ex, phi_edge by auto. left. apply Rinv_0_lt_compat. pose proof (a3 a Ha). lra.
    - apply phi_far; auto. change (100 - 1)%nat with 99%nat in Hi. rewrite S_INR in Hi. pose proof (pos_INR i) as Pi. replace (INR 99) with 99 in Hi by (simpl; lra). assert (0 <= INR i * ((b - a) / 99)) by (apply Rmult_le_pos; lra). lra. }
  unfold annular. apply Rmult_le_compat; try lra. apply w_nonneg.
Qed.
End Disk.

(** ** C110 *)
(** With n + 2 radii instead of 100 the sum over the radii tends to the
    integral, the error being at most of the order of 1/n. *)
Theorem C110_refinement : forall P M m_dot R_in R_out nu T, phys_ok P -> 0 < M -> 0 < m_dot -> 0 < R_in -> R_in < R_out -> 0 < nu -> disk_temperature P M m_dot R_in T ->
  exists F, annulus P nu T R_in R_out F /\
    forall n, Rabs (over (linspace R_in R_out (S (S n))) (fun r => 2 * PI * r * planck P nu (T r)) - F) <= (R_out - R_in) / INR (S n) * (6 * PI * R_out * planck P nu (T (49 / 36 * R_in))).
Proof.
  intros P M m a b nu T HP HM Hm Ha Hab Hn HT. pose proof PI_RGT_0. eexists. split; [apply (f_annulus P HP M m a b nu HM Hm Ha Hab Hn T HT)|]. intros n. rewrite (f_sum P HP M m a nu HM Hm Ha T HT) by (intros x Hx; apply linspace_in in Hx; lra).
  rewrite <- Rmult_minus_distr_l, Rabs_mult, (Rabs_right (2 * PI)) by lra. pose proof (f_error P HP M m a b nu HM Hm Ha Hab Hn n) as K. unfold hottest in K. rewrite (w_T P HP M m a nu HM Hm Ha T HT) in K by lra.
  replace ((b - a) / INR (S n) * (6 * PI * b * planck P nu (T (49 / 36 * a)))) with (2 * PI * ((b - a) / INR (S n) * (3 * (b * planck P nu (T (49 / 36 * a)))))) by ring. apply Rmult_le_compat_l; [lra|exact K].
Qed.
Print Assumptions C110_refinement.

(** Full statement: the SED of the disk is, at each frequency, the integral of
    the Planck spectra of its radii.  What holds of the code: the difference is
    at most a 99th of what the disk would show if all of it, three times over,
    were at the outer radius and as hot as its hottest radius.  Missing: a bound in
    terms of the SED itself; see the next theorem. *)
Theorem C110_disk_spectrum_partial : forall P nu z M m_dot R_in R_out dl mu_s T, phys_ok P -> 0 < M -> 0 < m_dot -> 0 < R_in -> R_in < R_out -> 0 < nu -> 0 < 1 + z -> 0 < dl -> 0 <= mu_s -> disk_temperature P M m_dot R_in T ->
  exists F, annulus P (nu * (1 + z)) T R_in R_out F /\ (forall r, R_in <= r -> T r <= T (49 / 36 * R_in)) /\
    Rabs (evaluate_multi_T_bb_sed P nu z M m_dot R_in R_out dl mu_s - mu_s * (nu * F) / dl ^ 2) <= / 99 * (mu_s * (nu * (3 * (2 * PI * R_out * (R_out - R_in) * planck P (nu * (1 + z)) (T (49 / 36 * R_in))))) / dl ^ 2).
Proof.
  intros P nu z M m a b dl mu T HP HM Hm Ha Hab Hn Hz Hd Hmu HT. assert (Hn' : 0 < nu * (1 + z)) by (apply Rmult_lt_0_compat; auto). assert (D2 : 0 < dl ^ 2) by (apply pow_lt; auto).
  destruct (C110_refinement P M m a b _ T HP HM Hm Ha Hab Hn' HT) as (F & HF & E). exists F. split; auto. split; [apply (T_peak P HP M m a HM Hm Ha T HT)|].
  specialize (E 98%nat). replace (INR 99) with 99 in E by (simpl; lra). set (S := over _ _) in E.
  assert (EQ : evaluate_multi_T_bb_sed P nu z M m a b dl mu = mu * (nu * S) / dl ^ 2).
  { unfold evaluate_multi_T_bb_sed. cbv zeta. rewrite trapz_over. unfold S. rewrite <- (over_ext (fun r => 2 * PI * dl ^ 2 * (r / dl ^ 2 * black_body P (nu * (1 + z)) (evaluate_T P r M m a))) (fun r => 2 * PI * r * planck P (nu * (1 + z)) (T r)) (linspace a b 100)).
    - rewrite <- (over_scale (2 * PI * dl ^ 2) (fun r => r / dl ^ 2 * black_body P (nu * (1 + z)) (evaluate_T P r M m a))). field. lra.
    - intros r Hr. apply linspace_in in Hr; [|lra]. rewrite black_body_planck by auto. destruct (HT r ltac:(lra)) as [T0 T4]. destruct (C79_disk_temperature P r _ _ _ HP HM Hm Ha ltac:(lra)) as [E0 E4].
      replace (evaluate_T P r M m a) with (T r); [field; lra|]. apply pow4_eq; auto. destruct HP. apply Rmult_eq_reg_l with (c_sigmaSB P); [congruence|lra]. }
  rewrite EQ. replace (mu * (nu * S) / dl ^ 2 - mu * (nu * F) / dl ^ 2) with (mu * nu / dl ^ 2 * (S - F)) by (field; lra). assert (C0 : 0 <= mu * nu / dl ^ 2) by (apply Rdiv_le_0_compat; auto; apply Rmult_le_pos; lra). rewrite Rabs_mult, (Rabs_right (mu * nu / dl ^ 2)) by lra.
  set (B := planck P (nu * (1 + z)) (T (49 / 36 * a))) in *. replace (/ 99 * (mu * (nu * (3 * (2 * PI * b * (b - a) * B))) / dl ^ 2)) with (mu * nu / dl ^ 2 * ((b - a) / 99 * (6 * PI * b * B))) by (field; lra). apply Rmult_le_compat_l; auto.
Qed.
Print Assumptions C110_disk_spectrum_partial.

(** The full statement is false: if the outer radius is 199 inner radii or more, the second of the hundred
    radii is beyond 3 inner radii, the hot part of the disk is not sampled, and at
    high frequency the SED falls below any fraction of the true one. *)
Theorem C110_disk_spectrum_refuted : forall P z M m_dot R_in R_out dl mu_s T c, phys_ok P -> 0 < M -> 0 < m_dot -> 0 < R_in -> 199 * R_in <= R_out -> 0 < 1 + z -> 0 < dl -> 0 < mu_s -> disk_temperature P M m_dot R_in T -> 0 < c ->
  exists nu0, 0 < nu0 /\ forall nu, nu0 <= nu -> exists F, annulus P (nu * (1 + z)) T R_in R_out F /\ 0 < F /\
    evaluate_multi_T_bb_sed P nu z M m_dot R_in R_out dl mu_s < c * (mu_s * (nu * F) / dl ^ 2).
Proof.
  intros P z M m a b dl mu T c HP HM Hm Ha Hb Hz Hd Hmu HT Hc. pose proof HP as HP'. destruct HP'. pose proof PI_RGT_0 as Hpi. assert (D2 : 0 < dl ^ 2) by (apply pow_lt; auto). assert (A3 : 0 < a ^ 3) by (apply pow_lt; auto). assert (A2 : 0 < a ^ 2) by (apply pow_lt; auto).
  pose proof (k_pos P HP M m HM Hm) as Hk. set (k := heat P M m) in *. set (Ts := root4 (k * / (27 * a ^ 3))). set (Th := root4 (k * / (25 * a ^ 3))).
  assert (I27 : 0 < / (27 * a ^ 3)) by (apply Rinv_0_lt_compat; lra). assert (HTs : 0 < Ts) by (apply root4_pos, Rmult_lt_0_compat; auto).
  assert (Hst : Ts < Th). { apply root4_lt; [apply Rmult_le_pos; lra|]. apply Rmult_lt_compat_l; auto. apply Rinv_lt_contravar; [apply Rmult_lt_0_compat|]; lra. }
  assert (Hdl : 0 < / Ts - / Th). { assert (/ Th < / Ts) by (apply Rinv_lt_contravar; [apply Rmult_lt_0_compat|]; lra). lra. }
  set (q := c_h P * (1 + z) / c_kB P * (/ Ts - / Th) * (13 / 100 * a ^ 2) * c). assert (Hq0 : 0 < c_h P * (1 + z) / c_kB P) by (apply Rdiv_lt_0_compat; auto; apply Rmult_lt_0_compat; auto).
  assert (Hq : 0 < q) by (unfold q; apply Rmult_lt_0_compat; auto; apply Rmult_lt_0_compat; [apply Rmult_lt_0_compat|]; lra).
  assert (Hbb : 0 < (b - a) * b) by (apply Rmult_lt_0_compat; lra).
  exists (2 * ((b - a) * b) / q). split; [apply Rdiv_lt_0_compat; lra|]. intros nu Hnu. assert (N0 : 0 < 2 * ((b - a) * b) / q) by (apply Rdiv_lt_0_compat; lra). assert (Hn : 0 < nu) by lra. set (nu' := nu * (1 + z)). assert (Hn' : 0 < nu') by (apply Rmult_lt_0_compat; auto). assert (Hab : a < b) by lra.
  exists (2 * PI * RInt (annular P M m a nu') a b). split; [apply (f_annulus P HP M m a b nu' HM Hm Ha Hab Hn' T HT)|].
  pose proof (f_integral_low P HP M m a b nu' HM Hm Ha Hab Hn' ltac:(lra)) as Lo. pose proof (f_sum_high P HP M m a b nu' HM Hm Ha Hab Hn' ltac:(lra)) as Hi. fold k in Lo, Hi. fold Ts in Hi. fold Th in Lo.
  pose proof (planck_ratio P HP nu' Hn' Ts Th HTs Hst) as Ra. cbv zeta in Ra. set (Bs := planck P nu' Ts) in *. set (Bh := planck P nu' Th) in *.
  assert (HBs : 0 < Bs). { unfold Bs. rewrite (planck_at P HP nu' Ts HTs). pose proof (A_pos P HP nu' Hn'). pose proof (X_pos P HP nu' Hn'). assert (Y : 0 < c_h P * nu' / c_kB P / Ts) by (apply Rdiv_lt_0_compat; auto). pose proof (ex_gt _ Y). apply Rdiv_lt_0_compat; auto; lra. }
  set (Rr := c_h P * nu' / c_kB P * (/ Ts - / Th)) in *.
  assert (Big : 2 * ((b - a) * b) <= c * (13 / 100 * a ^ 2 * Rr)).
  { replace (c * (13 / 100 * a ^ 2 * Rr)) with (nu * q) by (unfold q, Rr, nu'; field; lra). apply Rmult_le_compat_r with (r := q) in Hnu; [|lra]. replace (2 * ((b - a) * b) / q * q) with (2 * ((b - a) * b)) in Hnu by (field; lra). exact Hnu. }
  set (It := RInt (annular P M m a nu') a b) in *. set (S := over (linspace a b 100) (annular P M m a nu')) in *.
  assert (HRr : 0 < Rr). { unfold Rr. apply Rmult_lt_0_compat; auto. apply Rdiv_lt_0_compat; auto. apply Rmult_lt_0_compat; auto. }
  assert (Lt : 2 * ((b - a) * b * Bs) <= c * It).
  { apply Rle_trans with (c * (13 / 100 * a ^ 2 * Rr) * Bs); [replace (2 * ((b - a) * b * Bs)) with (2 * ((b - a) * b) * Bs) by ring; apply Rmult_le_compat_r; lra|]. replace (c * (13 / 100 * a ^ 2 * Rr) * Bs) with (c * (13 / 100 * a ^ 2 * (Rr * Bs))) by ring.
    apply Rmult_le_compat_l; [lra|]. eapply Rle_trans; [|exact Lo]. apply Rmult_le_compat_l; [lra|exact Ra]. }
  assert (Bp : 0 < (b - a) * b * Bs) by (apply Rmult_lt_0_compat; auto). assert (It0 : 0 < It) by (apply Rmult_lt_reg_l with c; auto; lra).
  split; [apply Rmult_lt_0_compat; lra|].
  assert (EQ : evaluate_multi_T_bb_sed P nu z M m a b dl mu = mu * (nu * (2 * PI * S)) / dl ^ 2).
  { unfold evaluate_multi_T_bb_sed. cbv zeta. rewrite trapz_over. unfold S. rewrite <- (f_sum P HP M m a nu' HM Hm Ha T HT) by (intros x Hx; apply linspace_in in Hx; lra).
    rewrite <- (over_ext (fun r => 2 * PI * dl ^ 2 * (r / dl ^ 2 * black_body P (nu * (1 + z)) (evaluate_T P r M m a))) (fun r => 2 * PI * r * planck P nu' (T r)) (linspace a b 100)).
    - rewrite <- (over_scale (2 * PI * dl ^ 2) (fun r => r / dl ^ 2 * black_body P (nu * (1 + z)) (evaluate_T P r M m a))). field. lra.
    - intros r Hr. apply linspace_in in Hr; [|lra]. rewrite black_body_planck by auto. fold nu'. destruct (HT r ltac:(lra)) as [T0 T4]. destruct (C79_disk_temperature P r _ _ _ HP HM Hm Ha ltac:(lra)) as [E0 E4].
      replace (evaluate_T P r M m a) with (T r); [field; lra|]. apply pow4_eq; auto. apply Rmult_eq_reg_l with (c_sigmaSB P); [congruence|lra]. }
  rewrite EQ. replace (mu * (nu * (2 * PI * S)) / dl ^ 2) with (mu * nu * (2 * PI) / dl ^ 2 * S) by (field; lra). replace (c * (mu * (nu * (2 * PI * It)) / dl ^ 2)) with (mu * nu * (2 * PI) / dl ^ 2 * (c * It)) by (field; lra).
  apply Rmult_lt_compat_l; [apply Rdiv_lt_0_compat; auto; apply Rmult_lt_0_compat; [apply Rmult_lt_0_compat|]; lra|]. lra.
Qed.
Print Assumptions C110_disk_spectrum_refuted.

(** The normalisation to L_disk cannot mend this: whatever factor [K] the exact
    spectrum is given, the SED of the disk falls below it. *)
Theorem C110_sed_flux_refuted : forall P d z dl mu_s T K, phys_ok P -> 0 < sd_L_disk d -> 0 < sd_M_BH d -> 0 < sd_m_dot d -> 0 < sd_R_in d -> 199 * sd_R_in d <= sd_R_out d -> 0 < 1 + z -> 0 < dl -> 0 < mu_s ->
  disk_temperature P (sd_M_BH d) (sd_m_dot d) (sd_R_in d) T -> 0 < K ->
  exists nu0, 0 < nu0 /\ forall nu, nu0 <= nu -> exists sed F, ssdisk_sed_flux P d (nu :: nil) z dl mu_s = Ok (sed :: nil) /\ annulus P (nu * (1 + z)) T (sd_R_in d) (sd_R_out d) F /\ sed < K * (nu * F).
Proof.
  intros P d z dl ms T K HP HL HM Hm Hi Ho Hz Hd Hs HT HK. pose proof PI_RGT_0. assert (D2 : 0 < dl ^ 2) by (apply pow_lt; auto).
  assert (Hio : sd_R_in d < sd_R_out d) by lra. pose proof (grid_integral_pos P z _ _ _ _ dl ms HP Hz HM Hm Hi Hio Hd Hs) as HI. set (I := trapz _ disk_nu_to_integrate) in *. assert (HA : 0 < 4 * PI * dl ^ 2) by pos. assert (HD : 0 < 2 * (I * (4 * PI * dl ^ 2))) by pos.
  set (nm := sd_L_disk d / (2 * (I * (4 * PI * dl ^ 2)))). assert (Hnm : 0 < nm) by (apply Rdiv_lt_0_compat; auto).
  assert (Hc : 0 < K * dl ^ 2 / (nm * ms)) by (apply Rdiv_lt_0_compat; apply Rmult_lt_0_compat; auto).
  destruct (C110_disk_spectrum_refuted P z _ _ _ _ dl ms T _ HP HM Hm Hi Ho Hz Hd Hs HT Hc) as (nu0 & N0 & H0). exists nu0. split; auto. intros nu Hnu. destruct (H0 nu Hnu) as (F & HF & F0 & L).
  eexists _, F. split; [|split; [exact HF|]].
  - unfold ssdisk_sed_flux, evaluate_multi_T_bb_norm_sed. cbv zeta. fold disk_nu_to_integrate. fold I. rewrite div_ok by lra. cbn [bind map]. fold nm. reflexivity.
  - apply Rmult_lt_compat_l with (r := nm) in L; auto. replace (nm * (K * dl ^ 2 / (nm * ms) * (ms * (nu * F) / dl ^ 2))) with (K * (nu * F)) in L by (field; repeat split; lra). exact L.
Qed.
Print Assumptions C110_sed_flux_refuted.

(** the disk of 1e8 solar masses between 6 and 2000 gravitational radii *)
Example C110_case : exists d T, ssdisk_init codata (1e8 * M_sun) 2e46 (1 / 12) (Plain 6) (Plain 2000) true = Ok d /\ 0 < sd_L_disk d /\ 0 < sd_M_BH d /\ 0 < sd_m_dot d /\ 0 < sd_R_in d /\ 199 * sd_R_in d <= sd_R_out d /\
  disk_temperature codata (sd_M_BH d) (sd_m_dot d) (sd_R_in d) T.
Proof.
  assert (HM : 0 < 1e8 * M_sun) by (unfold M_sun; lra). pose proof codata_ok as HP. pose proof HP as [].
  assert (Hg : 0 < R_g codata (1e8 * M_sun)). { unfold R_g. apply Rdiv_lt_0_compat; [apply Rmult_lt_0_compat; auto|apply pow_lt; auto]. }
  destruct (C52_argument_kinds codata (1e8 * M_sun) 2e46 (1 / 12) (Plain 6) (Plain 2000) true) as [_ K]. destruct K as [d Hd]; [left; eauto|].
  assert (E : sd_R_in d = 6 * R_g codata (1e8 * M_sun) /\ sd_R_out d = 2000 * R_g codata (1e8 * M_sun) /\ sd_L_disk d = 2e46 /\ sd_M_BH d = 1e8 * M_sun /\ sd_m_dot d = 2e46 / (1 / 12 * c_c codata ^ 2)).
  { unfold ssdisk_init in Hd. cbv zeta in Hd. assert (I : forall (x y : ssdisk), Ok x = Ok y -> x = y) by congruence. apply I in Hd; subst d; repeat split; reflexivity. }
  destruct E as (E1 & E2 & E3 & E4 & E5). assert (Hm : 0 < sd_m_dot d). { rewrite E5. apply Rdiv_lt_0_compat; [lra|]. apply Rmult_lt_0_compat; [lra|apply pow_lt; auto]. }
  exists d, (fun r => evaluate_T codata r (sd_M_BH d) (sd_m_dot d) (sd_R_in d)). repeat (split; [first [exact Hd | exact Hm | rewrite ?E1, ?E2, ?E3, ?E4; lra]|]).
  intros r Hr. apply C79_disk_temperature; auto; rewrite ?E4, ?E1; lra.
Qed.
