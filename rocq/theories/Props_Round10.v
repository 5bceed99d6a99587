(** C116: the disk seen from above in floating point arithmetic *)
From Flocq Require Import Core.
From Coquelicot Require Import Rcomplements.
From Flocq Require Import Relative.
From Verif Require Import Base NumpyInst MathUtils Conversion Blob Geometry Targets Clock ClockFacts Rounding RoundFacts Spec_Round MathFacts TargetFacts Props_Geometry Props_Round Props_Round2 Props_Round3 Props_Round4 Props_Round5 Props_Round6 Props_Round7 RoundGeometry Props_Round8 RoundBLR Props_Round9 RoundDisk.
From Coq Require Import List.
Import ListNotations.
Open Scope list_scope.
Open Scope R_scope.
#[local] Existing Instance prec53.

(** ** without rounding these are the functions of Targets.v *)
Lemma cosine_range R_ r : 0 < R_ -> 0 < r -> 0 < 1 / sqrt (1 + (R_ / r) ^ 2) < 1.
Proof.
  intros HR Hr. assert (Q : 0 < (R_ / r) ^ 2) by (apply pow_lt, Rdiv_lt_0_compat; auto). assert (S : 1 < sqrt (1 + (R_ / r) ^ 2)) by (rewrite <- sqrt_1 at 1; apply sqrt_lt_1_alt; lra). split; [apply Rdiv_lt_0_compat; lra|]. apply Rlt_div_l; lra.
Qed.
Lemma cosine_decr a b r : 0 < a -> a <= b -> 0 < r -> 1 / sqrt (1 + (b / r) ^ 2) <= 1 / sqrt (1 + (a / r) ^ 2).
Proof.
  intros Ha Hab Hr. unfold Rdiv at 1 3. rewrite !Rmult_1_l. assert (0 < (a / r) ^ 2) by (apply pow_lt, Rdiv_lt_0_compat; auto). apply Rinv_le_contravar; [apply sqrt_lt_R0; lra|]. apply sqrt_le_1_alt. apply Rplus_le_compat_l, pow_incr. split; [left; apply Rdiv_lt_0_compat; auto|]. apply Rmult_le_compat_r; [left; apply Rinv_0_lt_compat; auto|auto].
Qed.
Lemma tangent_pos m : 0 < m < 1 -> 0 < / m ^ 2 - 1.
Proof. intros H. assert (m ^ 2 < 1) by nra. assert (0 < m ^ 2) by (apply pow_lt; lra). assert (1 < / m ^ 2) by (rewrite <- Rinv_1; apply Rinv_lt_contravar; lra). lra. Qed.
Theorem C116_model : forall P d r b v, let r_tilde := r / sd_R_g d in
  let grid := evaluate_mu_from_r_tilde (sd_R_in_tilde d) (sd_R_out_tilde d) r_tilde 100 in
  let pre := 3 * sd_l_Edd d * sd_L_Edd d * sd_R_g d / (8 * PI * c_c P * sd_eta d * r ^ 3) in
  0 < sd_R_in_tilde d <= sd_R_out_tilde d -> 0 < r_tilde -> ssdisk_u P d r b = Ok v ->
  exists boost, (b = None -> boost = None) /\
    disk_density (fun v => v) (fun m => / m ^ 2) (fun t => npow t (- (3) / 2)) pre boost (sd_R_in_tilde d) r_tilde grid = Some v /\
    forall m, 0 < m < 1 -> disk_phi (fun v => v) (fun m => / m ^ 2) m (sd_R_in_tilde d) r_tilde = Some (evaluate_phi_disk_mu m (sd_R_in_tilde d) r_tilde).
Proof.
  intros P d r b v r_ grid pre HR Hr H.
  assert (PH : forall m, 0 < m < 1 -> disk_phi (fun v => v) (fun m => / m ^ 2) m (sd_R_in_tilde d) r_ = Some (evaluate_phi_disk_mu m (sd_R_in_tilde d) r_)).
  { intros m Hm. pose proof (tangent_pos m Hm) as T. unfold disk_phi, disk_radius, disk_tangent2, root, evaluate_phi_disk_mu. destruct (Rltb_spec (/ m ^ 2 - 1) 0); [lra|]. assert (X : 0 < r_ * sqrt (/ m ^ 2 - 1)) by (apply Rmult_lt_0_compat; [auto|apply sqrt_lt_R0; auto]). destruct (Reqb_spec (r_ * sqrt (/ m ^ 2 - 1)) 0); [lra|]. assert (0 < sd_R_in_tilde d / (r_ * sqrt (/ m ^ 2 - 1))) by (apply Rdiv_lt_0_compat; lra). destruct (Rltb_spec (sd_R_in_tilde d / (r_ * sqrt (/ m ^ 2 - 1))) 0); [lra|]. reflexivity. }
  assert (G : forall m, In m grid -> 0 < m < 1). { intros m Hm. unfold grid, evaluate_mu_from_r_tilde in Hm. pose proof (cosine_range (sd_R_in_tilde d) r_ ltac:(lra) Hr). pose proof (cosine_range (sd_R_out_tilde d) r_ ltac:(lra) Hr). pose proof (cosine_decr (sd_R_in_tilde d) (sd_R_out_tilde d) r_ ltac:(lra) ltac:(lra) Hr). apply linspace_in in Hm; lra. }
  assert (I : forall y z : R, Ok y = Ok z -> y = z) by congruence.
  unfold ssdisk_u in H. cbv zeta in H. fold r_ in H. fold grid in H. fold pre in H. destruct b as [bl|].
  - destruct (Beta bl) as [beta|]; [|discriminate]. cbn [bind] in H. apply I in H. subst v. exists (Some (fun m => 1 / (Gamma bl ^ 6 * (1 - beta * m) ^ 2 * (1 + beta * ((m - beta) / (1 - beta * m))) ^ 4))). split; [discriminate|]. split; auto. unfold disk_density.
    rewrite (map_ext_in _ (fun m => Some (1 / m * npow (/ m ^ 2 - 1) (- (3) / 2) * evaluate_phi_disk_mu m (sd_R_in_tilde d) r_ * (1 / (Gamma bl ^ 6 * (1 - beta * m) ^ 2 * (1 + beta * ((m - beta) / (1 - beta * m))) ^ 4))))).
    + rewrite nan_trapz_exact. reflexivity.
    + intros m Hm. unfold disk_integrand. rewrite PH by auto. reflexivity.
  - apply I in H. subst v. exists None. split; auto. split; auto. unfold disk_density. rewrite (map_ext_in _ (fun m => Some (1 / m * npow (/ m ^ 2 - 1) (- (3) / 2) * evaluate_phi_disk_mu m (sd_R_in_tilde d) r_))).
    + rewrite nan_trapz_exact. reflexivity.
    + intros m Hm. unfold disk_integrand. rewrite PH by auto. reflexivity.
Qed.
Print Assumptions C116_model.

(** ** at 2^27 inner radii and above the cosine of the inner edge is 1.0 and the density is not a number *)
Lemma one_plus e : 0 <= e < / 2 ^ 53 -> binary64 (1 + e) = 1.
Proof.
  intros H. assert (E : / 2 ^ 53 * 2 ^ 53 = 1) by (apply Rinv_l, pow_nonzero; lra). assert (H2 : e * 2 ^ 53 < / 2 ^ 53 * 2 ^ 53) by (apply Rmult_lt_compat_r; [apply pow_lt|]; lra). assert (D : 2 ^ 53 = 2 * 2 ^ 52) by (simpl; ring). assert (P52 : 1 <= 2 ^ 52) by (apply pow_R1_Rle; lra). assert (0 <= e * 2 ^ 52) by (apply Rmult_le_pos; lra).
  assert (Z : IZR (2 ^ 52) = 2 ^ 52) by (rewrite (pow_IZR 2 52); reflexivity).
  rewrite (round_to 52 (2 ^ 52)%Z (1 + e)); [|lia|lra|]. - rewrite Z. unfold Rdiv. apply Rinv_r. lra. - rewrite Z. apply Rabs_lt_between. lra.
Qed.
Theorem C116_far_refuted : forall fsq fm2 f32, accurate_sq fsq -> (forall v, 0 <= fsq v) -> fm2 1 = 1 ->
  forall R_in r, 0 < R_in -> 2 ^ 27 * R_in <= r ->
  disk_cosine binary64 fsq R_in r = 1 /\
  forall pre boost mu, In (disk_cosine binary64 fsq R_in r) mu -> (2 <= length mu)%nat ->
    disk_density binary64 fm2 f32 pre boost R_in r mu = None.
Proof.
  intros fsq fm2 f32 Hf Hp H1 R_in r HR Hr. assert (r0 : 0 < r). { assert (0 < 2 ^ 27 * R_in) by (apply Rmult_lt_0_compat; [apply pow_lt|]; lra). lra. }
  assert (E : disk_cosine binary64 fsq R_in r = 1).
  { unfold disk_cosine. assert (P27 : 0 < / 2 ^ 27) by (apply Rinv_0_lt_compat, pow_lt; lra). assert (D27 : is_double (/ 2 ^ 27)). { replace (/ 2 ^ 27) with (IZR 1 / 2 ^ 27) by (unfold Rdiv; ring). apply (pow2_double 1 27); lia. }
    set (q := binary64 (R_in / r)). assert (Q : 0 <= q <= / 2 ^ 27). { split. - apply b64_ge_double; [apply double_0|]. left. apply Rdiv_lt_0_compat; auto. - apply b64_le_double; auto. apply Rle_div_l; auto. apply Rmult_le_reg_l with (2 ^ 27); [apply pow_lt; lra|]. rewrite <- Rmult_assoc, Rinv_r by (apply pow_nonzero; lra). lra. }
    assert (F : 0 <= fsq q < / 2 ^ 53). { split; auto. assert (A : Rabs q <= 2 ^ 400). { rewrite Rabs_right by lra. apply Rle_trans with 1; [|apply pow_R1_Rle; lra]. apply Rle_trans with (/ 2 ^ 27); [lra|]. apply Rle_trans with (/ 2 ^ 0); [apply lo_le; lia|simpl; lra]. } pose proof (Rabs_le_inv _ _ (Hf q A)) as [_ B]. assert (q2 : q ^ 2 <= / 2 ^ 54). { replace (/ 2 ^ 54) with ((/ 2 ^ 27) ^ 2) by (rewrite pow_inv, <- pow_mult; reflexivity). apply pow_incr. auto. } assert (/ 2 ^ 1000 <= / 2 ^ 60) by (apply lo_le; lia). assert (/ 2 ^ 52 * q ^ 2 <= / 2 ^ 52 * / 2 ^ 54) by (apply Rmult_le_compat_l; [left; apply Rinv_0_lt_compat, pow_lt|]; lra).
      assert (/ 2 ^ 52 * / 2 ^ 54 <= / 2 ^ 60) by (rewrite <- Rinv_mult, <- pow_add; apply lo_le; lia). assert (/ 2 ^ 54 + / 2 ^ 60 + / 2 ^ 60 < / 2 ^ 53) by (simpl; lra). lra. }
    rewrite one_plus by auto. rewrite sqrt_1, (b64_id 1) by apply double_1. unfold Rdiv. rewrite Rmult_1_l, Rinv_1. apply b64_id, double_1. }
  split; auto. intros pre boost mu Hm Hl. unfold disk_density. rewrite nan_trapz_nan; auto; [|apply map_length|rewrite map_length; auto]. apply in_map_iff. exists 1. rewrite E in Hm. split; auto. unfold disk_integrand, disk_phi, disk_radius, disk_tangent2, root. rewrite H1.
  replace (1 - 1) with 0 by ring. rewrite (b64_id 0) by apply double_0. destruct (Rltb_spec 0 0); [lra|]. rewrite sqrt_0, (b64_id 0) by apply double_0. rewrite Rmult_0_r, (b64_id 0) by apply double_0. destruct (Reqb_spec 0 0); [reflexivity|contradiction].
Qed.
Print Assumptions C116_far_refuted.

(** ** the radius and the factor phi recovered from a cosine *)
Definition accurate_m2 (f : R -> R) : Prop := forall v, / 2 ^ 100 <= v <= 1 -> Rabs (f v - / v ^ 2) <= / 2 ^ 52 * / v ^ 2.
Section Phi.
Variable fm2 : R -> R.
Hypothesis m2_ok : accurate_m2 fm2.
Variable mu R_in r : R.
Hypothesis Hm : / 2 ^ 100 <= mu < 1.
Hypothesis Hr : / 2 ^ 100 <= r <= 2 ^ 100.
Hypothesis HR : / 2 ^ 100 <= R_in.
Let K := / (1 - mu ^ 2).
Hypothesis HK : K <= 10 ^ 9.
Let k := u64 * K.
Let t := / mu ^ 2 - 1.
Let x := r * sqrt t.
Hypothesis Hx : R_in <= x.
Lemma mu_pos : 0 < mu.
Proof. pose proof pos100. lra. Qed.
Lemma K_ge : 1 <= K /\ 0 < 1 - mu ^ 2.
Proof. pose proof mu_pos. assert (mu ^ 2 < 1) by nra. assert (0 < mu ^ 2) by (apply pow_lt; lra). split; [|lra]. unfold K. rewrite <- Rinv_1. apply Rinv_le_contravar; lra. Qed.
Lemma kk_range : u64 <= k <= 2 / 10 ^ 7.
Proof. pose proof K_ge. pose proof U_pos. unfold k. split. - assert (u64 * 1 <= u64 * K) by (apply Rmult_le_compat_l; lra). lra. - apply Rle_trans with (u64 * 10 ^ 9); [apply Rmult_le_compat_l; lra|rewrite u64_val; lra]. Qed.
Lemma t_eq : / mu ^ 2 = K * t /\ / 10 ^ 9 <= t.
Proof.
  pose proof mu_pos as M. destruct K_ge as [K1 m1]. assert (m2 : 0 < mu ^ 2) by (apply pow_lt; auto). split. - assert (E : t = (1 - mu ^ 2) * / mu ^ 2) by (unfold t; rewrite Rmult_minus_distr_r, Rinv_r by lra; ring). rewrite E. unfold K. rewrite <- Rmult_assoc, Rinv_l by lra. ring.
  - assert (E : t = (1 - mu ^ 2) / mu ^ 2) by (unfold t, Rdiv; rewrite Rmult_minus_distr_r, Rinv_r by lra; ring). assert (L : / 10 ^ 9 <= 1 - mu ^ 2) by (rewrite <- (Rinv_inv (1 - mu ^ 2)); apply Rinv_le_contravar; [apply Rinv_0_lt_compat; auto|exact HK]). rewrite E. apply Rle_div_r; auto. assert (/ 10 ^ 9 * mu ^ 2 <= / 10 ^ 9 * 1) by (apply Rmult_le_compat_l; [left; apply Rinv_0_lt_compat; lra|lra]). lra.
Qed.
Lemma T_rel : rel (302 / 100 * k) (disk_tangent2 binary64 fm2 mu) t.
Proof.
  pose proof U_pos as U. destruct t_eq as [E t0]. pose proof kk_range as KK. assert (T0 : 0 < t) by lra. assert (A : rel (2 * k) (fm2 mu - 1) t). { unfold rel. rewrite (Rabs_right t) by lra. pose proof (m2_ok mu ltac:(lra)) as B. rewrite u2, E in B. replace (fm2 mu - 1 - t) with (fm2 mu - K * t) by (rewrite <- E; unfold t; ring). unfold k. lra. }
  assert (uk : u64 * k <= 1 / 10 ^ 15 * k) by (apply Rmult_le_compat_r; lra). assert (tl : / 2 ^ 30 <= t) by (apply Rle_trans with (/ 10 ^ 9); [simpl; lra|auto]). pose proof (fl_rel _ (rel_lo _ _ _ _ A ltac:(lra) tl ltac:(lia))) as F. unfold disk_tangent2. eapply rel_weak; [|exact (rel_trans _ _ _ _ _ F A ltac:(lra))]. lra.
Qed.
Lemma radius_ok : exists x', disk_radius binary64 fm2 mu r = Some x' /\ rel (38 / 10 * k) x' x /\ / 2 ^ 100 <= x.
Proof.
  pose proof U_pos as U. pose proof pos100 as P. destruct t_eq as [E t0]. pose proof kk_range as KK. pose proof T_rel as A. assert (T0 : 0 < t) by lra. assert (uk : u64 * k <= 1 / 10 ^ 15 * k) by (apply Rmult_le_compat_r; lra). assert (kq : k * k <= 2 / 10 ^ 7 * k) by (apply Rmult_le_compat_r; lra).
  assert (TP : 0 < disk_tangent2 binary64 fm2 mu). { unfold rel in A. rewrite (Rabs_right t) in A by lra. apply Rabs_le_inv in A. assert (302 / 100 * k * t <= 1 / 2 * t) by (apply Rmult_le_compat_r; lra). lra. }
  assert (S0 : 0 < sqrt t) by (apply sqrt_lt_R0; auto). assert (A2 : rel (302 / 100 * k) (disk_tangent2 binary64 fm2 mu) (sqrt t ^ 2)) by (rewrite <- Rsqr_pow2, Rsqr_sqrt by lra; auto). pose proof (sqrt_rel _ _ _ A2 S0 ltac:(lra)) as S.
  assert (sl : / 2 ^ 15 <= sqrt t). { rewrite <- (sqrt_square (/ 2 ^ 15)) by (left; apply Rinv_0_lt_compat, pow_lt; lra). apply sqrt_le_1_alt. apply Rle_trans with (/ 10 ^ 9); [simpl; lra|auto]. }
  pose proof (fl_rel _ (rel_lo _ _ _ _ S ltac:(lra) sl ltac:(lia))) as F. pose proof (rel_trans _ _ _ _ _ F S ltac:(lra)) as G. apply (rel_scal _ r) in G. fold x in G. assert (G2 : rel (26 / 10 * k) (r * binary64 (sqrt (disk_tangent2 binary64 fm2 mu))) x) by (eapply rel_weak; [|exact G]; lra). assert (xl : / 2 ^ 100 <= x) by lra.
  unfold disk_radius, root. destruct (Rltb_spec (disk_tangent2 binary64 fm2 mu) 0); [lra|]. eexists. split; [reflexivity|]. split; auto. pose proof (fl_rel _ (rel_lo _ _ _ _ G2 ltac:(lra) xl ltac:(lia))) as F2. eapply rel_weak; [|exact (rel_trans _ _ _ _ _ F2 G2 ltac:(lra))]. lra.
Qed.
Lemma phi_ok : exists v, disk_phi binary64 fm2 mu R_in r = Some v /\ Rabs (v - (1 - sqrt (R_in / x))) <= 6 * k.
Proof.
  pose proof U_pos as U. pose proof pos100 as P. pose proof kk_range as KK. destruct radius_ok as (x' & E & A & xl). assert (x0 : 0 < x) by lra. assert (uk : u64 * k <= 1 / 10 ^ 15 * k) by (apply Rmult_le_compat_r; lra). assert (kq : k * k <= 2 / 10 ^ 7 * k) by (apply Rmult_le_compat_r; lra). unfold disk_phi. rewrite E.
  assert (x'p : 0 < x'). { unfold rel in A. rewrite (Rabs_right x) in A by lra. apply Rabs_le_inv in A. assert (38 / 10 * k * x <= 1 / 2 * x) by (apply Rmult_le_compat_r; lra). lra. } destruct (Reqb_spec x' 0); [lra|].
  pose proof (rel_inv _ _ _ A ltac:(lra) ltac:(lra)) as I. apply (rel_scal _ R_in) in I. fold (Rdiv R_in x') in I. fold (Rdiv R_in x) in I. set (Q := R_in / x) in *. assert (Q1 : Q <= 1) by (apply Rle_div_l; lra).
  assert (xh : x <= 2 ^ 200 /\ 0 < Q). { split; [|apply Rdiv_lt_0_compat; lra]. unfold x. replace (2 ^ 200) with (2 ^ 100 * 2 ^ 100) by (rewrite <- pow_add; reflexivity). apply Rmult_le_compat; try lra; [apply sqrt_pos|]. apply Rle_trans with (sqrt ((2 ^ 100) ^ 2)); [|rewrite sqrt_pow2 by (apply pow_le; lra); lra]. apply sqrt_le_1_alt. unfold t. assert (/ mu ^ 2 <= (2 ^ 100) ^ 2); [|lra]. rewrite <- pow_inv. apply pow_incr. pose proof mu_pos. split; [left; apply Rinv_0_lt_compat; auto|]. rewrite <- (Rinv_inv (2 ^ 100)). apply Rinv_le_contravar; lra. }
  destruct xh as [xh Q0]. assert (Ql : / 2 ^ 300 <= Q). { unfold Q, Rdiv. replace 300%nat with (100 + 200)%nat by lia. apply lo_mult; [lra|]. apply Rinv_le_contravar; auto. }
  pose proof (fl_rel _ (rel_lo _ _ _ _ I ltac:(lra) Ql ltac:(lia))) as F. assert (G : rel (52 / 10 * k) (binary64 (R_in / x')) Q) by (eapply rel_weak; [|exact (rel_trans _ _ _ _ _ F I ltac:(lra))]; lra).
  assert (BP : 0 <= binary64 (R_in / x')). { apply b64_ge_double; [apply double_0|]. left. apply Rdiv_lt_0_compat; lra. } unfold root. destruct (Rltb_spec (binary64 (R_in / x')) 0); [lra|]. eexists. split; [reflexivity|].
  assert (S0 : 0 < sqrt Q) by (apply sqrt_lt_R0; auto). assert (S1 : sqrt Q <= 1) by (rewrite <- sqrt_1; apply sqrt_le_1_alt; auto). assert (G2 : rel (52 / 10 * k) (binary64 (R_in / x')) (sqrt Q ^ 2)) by (rewrite <- Rsqr_pow2, Rsqr_sqrt by lra; auto). pose proof (sqrt_rel _ _ _ G2 S0 ltac:(lra)) as S.
  assert (sl : / 2 ^ 150 <= sqrt Q). { rewrite <- (sqrt_square (/ 2 ^ 150)) by (left; apply Rinv_0_lt_compat, pow_lt; lra). apply sqrt_le_1_alt. rewrite <- Rinv_mult, <- pow_add. exact Ql. } pose proof (fl_rel _ (rel_lo _ _ _ _ S ltac:(lra) sl ltac:(lia))) as F2. assert (H : rel (38 / 10 * k) (binary64 (sqrt (binary64 (R_in / x')))) (sqrt Q)) by (eapply rel_weak; [|exact (rel_trans _ _ _ _ _ F2 S ltac:(lra))]; lra).
  unfold rel in H. rewrite (Rabs_right (sqrt Q)) in H by lra. set (w := binary64 (sqrt (binary64 (R_in / x')))) in *. assert (38 / 10 * k * sqrt Q <= 38 / 10 * k * 1) by (apply Rmult_le_compat_l; lra). assert (W : Rabs ((1 - w) - (1 - sqrt Q)) <= 38 / 10 * k). { replace ((1 - w) - (1 - sqrt Q)) with (- (w - sqrt Q)) by ring. rewrite Rabs_Ropp. lra. }
  pose proof h0_small as [[e0 e1] _]. eapply Rle_trans; [apply (fl_up _ _ _ 1 W)|]. - apply Rabs_le. lra. - lra.
Qed.
End Phi.
(** relative error of the radius: 3.8 roundings times 1/(1 - mu^2) = 1 + (r/R)^2; error of phi: 6 of them.
    Missing from the full statement (every height): 1/(1 - mu^2) > 10^9; from 2^54 on C116_far_refuted
    shows that there is no number *)
Theorem C116_phi_partial : forall fm2, accurate_m2 fm2 -> forall mu R_in r,
  / 2 ^ 100 <= mu < 1 -> / 2 ^ 100 <= r <= 2 ^ 100 -> / 2 ^ 100 <= R_in ->
  let x := r * sqrt (/ mu ^ 2 - 1) in let e := / 2 ^ 53 * / (1 - mu ^ 2) in
  / (1 - mu ^ 2) <= 10 ^ 9 -> R_in <= x ->
  (exists x', disk_radius binary64 fm2 mu r = Some x' /\ Rabs (x' - x) <= 38 / 10 * e * x) /\
  exists v, disk_phi binary64 fm2 mu R_in r = Some v /\ Rabs (v - evaluate_phi_disk_mu mu R_in r) <= 6 * e.
Proof.
  intros fm2 Hf mu R_in r Hm Hr HR x e HK Hx. assert (E53 : / 2 ^ 53 = u64) by (rewrite u64_val, (pow_IZR 2 53); change (Z.of_nat 53) with 53%Z; simpl Z.pow; lra). unfold e. rewrite E53. split.
  - destruct (radius_ok fm2 Hf mu R_in r Hm HR HK Hx) as (x' & E & A & xl). exists x'. split; auto. unfold rel in A. fold x in A, xl. pose proof pos100. rewrite (Rabs_right x) in A by lra. lra.
  - destruct (phi_ok fm2 Hf mu R_in r Hm Hr HR HK Hx) as (v & E & A). exists v. split; auto.
Qed.
Print Assumptions C116_phi_partial.
(** a disk of inner radius 6, seen from 60 gravitational radii under mu = 1/2 *)
Example C116_case : let m2 := fun m => / m ^ 2 in
  exists v, disk_phi binary64 m2 (1 / 2) 6 60 = Some v /\ Rabs (v - (1 - sqrt (6 / (60 * sqrt 3)))) <= 8 * / 2 ^ 53.
Proof.
  intros m2. assert (Hf : accurate_m2 m2). { intros v Hv. unfold m2, Rminus. rewrite Rplus_opp_r, Rabs_R0. assert (0 < v) by (pose proof pos100; lra). apply Rmult_le_pos; left; apply Rinv_0_lt_compat, pow_lt; lra. }
  assert (L : forall v, 1 / 2 <= v -> / 2 ^ 100 <= v). { intros v Hv. apply Rle_trans with (/ 2 ^ 1); [apply lo_le; lia|simpl; lra]. } assert (H60 : 60 <= 2 ^ 100) by (apply Rle_trans with (2 ^ 6); [simpl; lra|apply Rle_pow; [lra|lia]]).
  assert (E : / (1 / 2) ^ 2 - 1 = 3) by (simpl; field). assert (S3 : 1 <= sqrt 3) by (rewrite <- sqrt_1; apply sqrt_le_1_alt; lra).
  destruct (C116_phi_partial m2 Hf (1 / 2) 6 60) as [_ (v & V & B)].
  - split; [apply L|]; lra.
  - split; [apply L|]; lra.
  - apply L; lra.
  - simpl; lra.
  - rewrite E. lra.
  - exists v. split; auto. unfold evaluate_phi_disk_mu in B. cbv zeta in B. rewrite E in B. eapply Rle_trans; [exact B|]. replace (/ (1 - (1 / 2) ^ 2)) with (4 / 3) by (simpl; field). lra.
Qed.
Example C116_far_case : let sq := fun v => v ^ 2 in let m2 := fun m => / m ^ 2 in forall f32 pre boost, 
  disk_density binary64 m2 f32 pre boost 6 (10 ^ 9) [1 / 2; disk_cosine binary64 sq 6 (10 ^ 9)] = None.
Proof.
  intros sq m2 f32 pre boost. apply (C116_far_refuted sq m2 f32).
  - intros v Hv. unfold sq, Rminus. rewrite Rplus_opp_r, Rabs_R0. pose proof (pow2_ge_0 v). assert (0 < / 2 ^ 1000) by (apply Rinv_0_lt_compat, pow_lt; lra). assert (0 <= / 2 ^ 52 * v ^ 2) by (apply Rmult_le_pos; [left; apply Rinv_0_lt_compat, pow_lt; lra|auto]). lra.
  - intros v. apply pow2_ge_0.
  - unfold m2. rewrite pow1. apply Rinv_1.
  - lra.
  - simpl. lra.
  - right. left. reflexivity.
  - simpl. lia.
Qed.
