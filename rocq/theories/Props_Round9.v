(** C115: the energy density of a broad line in floating point arithmetic *)
From Flocq Require Import Core.
From Coquelicot Require Import Rcomplements.
From Flocq Require Import Relative.
From Verif Require Import Base NumpyInst MathUtils Conversion Blob Geometry Targets Clock ClockFacts Rounding RoundFacts Spec_Round MathFacts TargetFacts Props_Geometry Props_Round Props_Round2 Props_Round3 Props_Round4 Props_Round5 Props_Round6 Props_Round7 RoundGeometry Props_Round8 RoundBLR.
From Coq Require Import List.
Import ListNotations.
Open Scope list_scope.
Open Scope R_scope.
#[local] Existing Instance prec53.

(** ** without rounding it is the function of Targets.v *)
Lemma nan_trapz_exact f : forall x, nan_trapz (fun v => v) (map (fun m => Some (f m)) x) x = Some (trapz (map f x) x).
Proof.
  induction x as [|x0 x IH]; [reflexivity|]. destruct x as [|x1 x]; [reflexivity|]. cbn [map] in *.
  change (match nan_trapz (fun v => v) (Some (f x1) :: map (fun m => Some (f m)) x) (x1 :: x) with Some t => Some ((x1 - x0) * (f x1 + f x0) / 2 + t) | None => None end = Some ((x1 - x0) * (f x0 + f x1) / 2 + trapz (f x1 :: map f x) (x1 :: x))).
  rewrite IH. f_equal. lra.
Qed.
Theorem C115_model : forall P t r b v, let R_ := blr_R_line t in let pre := blr_xi t * blr_L_disk t / (8 * PI * c_c P) in
  0 < R_ -> 0 < r -> r <> R_ -> blr_u P t r b = Ok v ->
  match b with
  | None => line_density (fun v => v) (fun v => v ^ 2) pre None R_ r (linspace (-1) 1 50) = Some v
  | Some bl => exists beta, Beta bl = Ok beta /\ line_density (fun v => v) (fun v => v ^ 2) pre (Some (beta, Gamma bl)) R_ r (linspace (-1) 1 50) = Some v
  end.
Proof.
  intros P t r b v R_ pre HR Hr Hne H. assert (X : forall m, In m (linspace (-1) 1 50) -> 0 < r ^ 2 + R_ ^ 2 - 2 * r * R_ * m /\ -1 <= m <= 1).
  { intros m Hm. apply linspace_in in Hm; [|lra]. split; auto. replace (r ^ 2 + R_ ^ 2 - 2 * r * R_ * m) with ((r - R_) ^ 2 + 2 * (r * R_ * (1 - m))) by ring. assert (0 < (r - R_) ^ 2) by (rewrite <- Rsqr_pow2; apply Rsqr_pos_lt; lra). assert (0 <= r * R_ * (1 - m)) by (apply Rmult_le_pos; [apply Rmult_le_pos|]; lra). lra. }
  assert (I : forall y z : R, Ok y = Ok z -> y = z) by congruence.
  unfold blr_u in H. cbv zeta in H. fold R_ in H. fold pre in H. destruct b as [bl|].
  - destruct (Beta bl) as [beta|] eqn:Eb; [|discriminate]. cbn [bind] in H. apply I in H. subst v. exists beta. split; auto. unfold line_density.
    rewrite (map_ext_in _ (fun m => Some (1 / (r ^ 2 + R_ ^ 2 - 2 * r * R_ * m) * (Gamma bl ^ 2 * (1 - beta * sqrt (1 - R_ ^ 2 / (r ^ 2 + R_ ^ 2 - 2 * r * R_ * m) * (1 - m ^ 2))) ^ 2)))).
    + rewrite nan_trapz_exact. reflexivity.
    + intros m Hm. destruct (X m Hm) as [Hx Hm1]. unfold line_integrand, line_boost, line_rest, line_radicand, line_square, root. cbn [fst snd]. set (x2 := r ^ 2 + R_ ^ 2 - 2 * r * R_ * m) in *. destruct (Reqb_spec x2 0) as [F|_]; [lra|].
      assert (A : 0 <= 1 - R_ ^ 2 / x2 * (1 - m ^ 2)). { replace (1 - R_ ^ 2 / x2 * (1 - m ^ 2)) with ((r - R_ * m) ^ 2 / x2). { apply Rmult_le_pos; [apply pow2_ge_0|left; apply Rinv_0_lt_compat; auto]. } apply Rmult_eq_reg_r with x2; [|lra]. replace ((r - R_ * m) ^ 2 / x2 * x2) with ((r - R_ * m) ^ 2) by (field; lra). replace ((1 - R_ ^ 2 / x2 * (1 - m ^ 2)) * x2) with (x2 - R_ ^ 2 * (1 - m ^ 2)) by (field; lra). unfold x2. ring. }
      destruct (Rltb_spec (1 - R_ ^ 2 / x2 * (1 - m ^ 2)) 0); [lra|]. reflexivity.
  - apply I in H. subst v. unfold line_density. rewrite (map_ext_in _ (fun m => Some (1 / (r ^ 2 + R_ ^ 2 - 2 * r * R_ * m)))).
    + rewrite nan_trapz_exact. reflexivity.
    + intros m Hm. destruct (X m Hm) as [Hx _]. unfold line_integrand, line_rest, line_square. destruct (Reqb_spec (r ^ 2 + R_ ^ 2 - 2 * r * R_ * m) 0) as [F|_]; [lra|]. reflexivity.
Qed.
Print Assumptions C115_model.

(** ** in the frame of the blob it may be nan: np.linspace(-1, 1) has the points i * (2 / 49) - 1, of which
    i = 42 is 5/7 up to rounding; a blob at 5/7 of the radius of a line of 1e17 cm has it at a right
    angle.  For every blob and every luminosity *)
Definition grid_mu (i : R) : R := binary64 (binary64 (i * binary64 (2 / 49)) - 1).
Definition grid_50 : list R := map (fun i => grid_mu (INR i)) (seq 0 49) ++ [1].
Theorem C115_comoving_refuted : let R_line := 10 ^ 17 in let r := binary64 (5 * 10 ^ 17 / 7) in
  double R_line /\ double r /\ 7142857142857142 * 10 < r < 7142857142857144 * 10 /\
  forall pre beta Gamma, line_density binary64 (fun v => binary64 (v * v)) pre (Some (beta, Gamma)) R_line r grid_50 = None.
Proof.
  intros R_line r. unfold R_line, r. clear R_line r.
  assert (R : forall x k n, (k <= 1074)%nat -> 4503599627370496 <= x * 2 ^ k < 9007199254740992 -> Rabs (x * 2 ^ k - IZR n) < 1 / 2 -> binary64 x = IZR n / 2 ^ k).
  { intros x k n Hk H1 H2. apply round_to; auto. replace (2 ^ 52) with 4503599627370496 by (simpl; lra). replace (2 ^ 53) with 9007199254740992 by (simpl; lra). auto. }
  assert (U : forall x k n, 4503599627370496 <= x / 2 ^ k < 9007199254740992 -> Rabs (x / 2 ^ k - IZR n) < 1 / 2 -> binary64 x = IZR n * 2 ^ k).
  { intros x k n H1 H2. apply round_up_to; auto. replace (2 ^ 52) with 4503599627370496 by (simpl; lra). replace (2 ^ 53) with 9007199254740992 by (simpl; lra). auto. }
  assert (E1 : binary64 (2 / 49) = (5882252574524729 / 2 ^ 57)) by (apply (R _ 57%nat 5882252574524729%Z); [lia|simpl; lra|apply Rabs_lt_between; simpl; lra]).
  assert (E2 : binary64 (42 * (5882252574524729 / 2 ^ 57)) = (7720456504063707 / 2 ^ 52)) by (apply (R _ 52%nat 7720456504063707%Z); [lia|simpl; lra|apply Rabs_lt_between; simpl; lra]).
  assert (E3 : binary64 ((7720456504063707 / 2 ^ 52) - 1) = (6433713753386422 / 2 ^ 53)) by (apply (R _ 53%nat 6433713753386422%Z); [lia|simpl; lra|apply Rabs_lt_between; simpl; lra]).
  assert (E4 : binary64 (5 * 10 ^ 17 / 7) = (8928571428571429 * 2 ^ 3)) by (apply (U _ 3%nat 8928571428571429%Z); [simpl; lra|apply Rabs_lt_between; simpl; lra]).
  assert (E5 : binary64 (10 ^ 17 * 10 ^ 17) = (8673617379884035 * 2 ^ 60)) by (apply (U _ 60%nat 8673617379884035%Z); [simpl; lra|apply Rabs_lt_between; simpl; lra]).
  assert (E6 : binary64 ((8928571428571429 * 2 ^ 3) * (8928571428571429 * 2 ^ 3)) = (8850629979473506 * 2 ^ 59)) by (apply (U _ 59%nat 8850629979473506%Z); [simpl; lra|apply Rabs_lt_between; simpl; lra]).
  assert (E7 : binary64 ((8850629979473506 * 2 ^ 59) + (8673617379884035 * 2 ^ 60)) = (6549466184810394 * 2 ^ 61)) by (apply (U _ 61%nat 6549466184810394%Z); [simpl; lra|apply Rabs_lt_between; simpl; lra]).
  assert (E8 : binary64 (2 * (8928571428571429 * 2 ^ 3)) = (8928571428571429 * 2 ^ 4)) by (apply (U _ 4%nat 8928571428571429%Z); [simpl; lra|apply Rabs_lt_between; simpl; lra]).
  assert (E9 : binary64 ((8928571428571429 * 2 ^ 4) * 10 ^ 17) = (6195440985631454 * 2 ^ 61)) by (apply (U _ 61%nat 6195440985631454%Z); [simpl; lra|apply Rabs_lt_between; simpl; lra]).
  assert (E10 : binary64 ((6195440985631454 * 2 ^ 61) * (6433713753386422 / 2 ^ 53)) = (8850629979473505 * 2 ^ 60)) by (apply (U _ 60%nat 8850629979473505%Z); [simpl; lra|apply Rabs_lt_between; simpl; lra]).
  assert (E11 : binary64 ((6549466184810394 * 2 ^ 61) - (8850629979473505 * 2 ^ 60)) = (8496604780294566 * 2 ^ 59)) by (apply (U _ 59%nat 8496604780294566%Z); [simpl; lra|apply Rabs_lt_between; simpl; lra]).
  assert (E14 : binary64 ((8673617379884035 * 2 ^ 60) / (8496604780294566 * 2 ^ 59)) = (4597424619607381 / 2 ^ 51)) by (apply (R _ 51%nat 4597424619607381%Z); [lia|simpl; lra|apply Rabs_lt_between; simpl; lra]).
  assert (E15 : binary64 ((6433713753386422 / 2 ^ 53) * (6433713753386422 / 2 ^ 53)) = (4595509823847444 / 2 ^ 53)) by (apply (R _ 53%nat 4595509823847444%Z); [lia|simpl; lra|apply Rabs_lt_between; simpl; lra]).
  assert (E16 : binary64 (1 - (4595509823847444 / 2 ^ 53)) = (8823378861787096 / 2 ^ 54)) by (apply (R _ 54%nat 8823378861787096%Z); [lia|simpl; lra|apply Rabs_lt_between; simpl; lra]).
  assert (E17 : binary64 ((4597424619607381 / 2 ^ 51) * (8823378861787096 / 2 ^ 54)) = (4503599627370497 / 2 ^ 52)) by (apply (R _ 52%nat 4503599627370497%Z); [lia|simpl; lra|apply Rabs_lt_between; simpl; lra]).
  split. { apply double_is. replace (10 ^ 17) with (IZR 762939453125 * 2 ^ 17) by (simpl; lra). apply exact_pow. reflexivity. }
  split. { apply double_is, b64_double. }
  split. { rewrite E4. simpl. lra. }
  intros pre beta Gam. unfold line_density. rewrite nan_trapz_nan; auto.
  - apply in_map_iff. exists (grid_mu 42). split.
    + assert (M : grid_mu 42 = (6433713753386422 / 2 ^ 53)) by (unfold grid_mu; rewrite E1, E2, E3; reflexivity). rewrite M, E4. unfold line_integrand, line_boost, root.
      assert (N : line_radicand binary64 (fun v => binary64 (v * v)) (6433713753386422 / 2 ^ 53) (10 ^ 17) (8928571428571429 * 2 ^ 3) < 0).
      { unfold line_radicand, line_square. rewrite E5, E6, E7, E8, E9, E10, E11, E14, E15, E16, E17. replace (1 - 4503599627370497 / 2 ^ 52) with (- (1 / 2 ^ 52)) by (simpl; lra). rewrite b64_id. - simpl. lra. - apply generic_format_opp. apply (pow2_double 1 52); lia. }
      destruct (Reqb _ 0); auto. destruct (Rltb_spec (line_radicand binary64 (fun v => binary64 (v * v)) (6433713753386422 / 2 ^ 53) (10 ^ 17) (8928571428571429 * 2 ^ 3)) 0); [auto|lra].
    + unfold grid_50. apply in_or_app. left. apply in_map_iff. exists 42%nat. split; [f_equal; rewrite INR_IZR_INZ; reflexivity|apply in_seq; lia].
  - rewrite map_length. unfold grid_50. rewrite app_length, map_length, seq_length. simpl. lia.
Qed.
Print Assumptions C115_comoving_refuted.

(** ** in the frame of the galaxy it is accurate *)
Lemma rel_within e j a b : rel e a b -> 0 < b -> 0 <= e <= 1 / 1000 -> 1002 / 1000 * e <= INR j * u64 -> within j a b.
Proof.
  intros A Hb He Hj. unfold rel in A. rewrite (Rabs_right b) in A by lra. apply Rabs_le_inv in A. pose proof U_pos as U. assert (E53 : / 2 ^ 53 = u64) by (rewrite u64_val, (pow_IZR 2 53); change (Z.of_nat 53) with 53%Z; simpl Z.pow; lra).
  unfold within. rewrite E53. pose proof (poly j u64 (proj1 U)) as B. set (p := (1 + u64) ^ j) in *. set (q := INR j * u64) in *. assert (P : 0 < p) by lra. split.
  - apply Rle_div_l; auto. assert (H1 : b * (1 - e) * (1 + q) <= a * p) by (apply Rmult_le_compat; try lra; apply Rmult_le_pos; lra). assert (H2 : 1 <= (1 - e) * (1 + q)). { assert (e * q <= 1 / 1000 * q) by (apply Rmult_le_compat_r; lra). lra. } assert (b * 1 <= b * ((1 - e) * (1 + q))) by (apply Rmult_le_compat_l; lra). lra.
  - assert (b * (1 + e) <= b * p) by (apply Rmult_le_compat_l; lra). lra.
Qed.
Lemma rest_rel fsq mu R_ r : accurate_sq fsq -> -1 <= mu <= 1 -> / 2 ^ 100 <= R_ <= 2 ^ 100 -> / 2 ^ 100 <= r <= 2 ^ 100 ->
  let x2 := R_ ^ 2 + r ^ 2 - 2 * r * R_ * mu in let kap := (R_ + r) ^ 2 / x2 in 0 < x2 -> kap <= 10 ^ 9 ->
  rel (54 / 10 * (u64 * kap)) (line_rest binary64 fsq mu R_ r) (1 / x2) /\ / 2 ^ 202 <= 1 / x2 /\ u64 <= u64 * kap <= 2 / 10 ^ 7 /\ 0 < line_square binary64 fsq mu R_ r.
Proof.
  intros Hf Hm HR Hr x2 kap Hx Hk. pose proof (W_rel fsq Hf mu R_ r Hm HR Hr Hx) as A. rewrite (x_sq mu R_ r Hx) in A. pose proof (k_range mu R_ r Hm HR Hr Hx Hk) as K. pose proof (x_range mu R_ r Hm HR Hr Hx Hk) as [_ X1]. pose proof (x_pos mu R_ r Hx) as X0. pose proof U_pos as U.
  pose proof (x_sq mu R_ r Hx) as X2. fold x2 in A, K, X0, X1, X2. fold kap in A, K. set (k := u64 * kap) in *.
  assert (EL : line_square binary64 fsq mu R_ r = shell_square binary64 fsq mu R_ r) by (unfold line_square, shell_square; rewrite (Rplus_comm (fsq r)); reflexivity).
  assert (LO : / 2 ^ 202 <= 1 / x2). { unfold Rdiv. rewrite Rmult_1_l. apply Rinv_le_contravar; auto. rewrite <- X2. replace (2 ^ 202) with ((2 ^ 101) ^ 2) by (rewrite <- pow_mult; f_equal; lia). apply pow_incr. lra. }
  assert (PW : 0 < shell_square binary64 fsq mu R_ r). { unfold rel in A. rewrite (Rabs_right x2) in A by lra. apply Rabs_le_inv in A. assert (42 / 10 * k * x2 <= 1 / 2 * x2) by (apply Rmult_le_compat_r; lra). lra. }
  split; [|rewrite EL; auto]. unfold line_rest. rewrite EL. pose proof (rel_inv _ _ _ A ltac:(lra) ltac:(lra)) as B. unfold Rdiv in *. rewrite !Rmult_1_l in *.
  pose proof (fl_rel _ (rel_lo _ _ _ _ B ltac:(lra) LO ltac:(lia))) as C. pose proof (rel_trans _ _ _ _ _ C B ltac:(lra)) as D. eapply rel_weak; [|exact D]. assert (uk : u64 * k <= 1 / 10 ^ 15 * k) by (apply Rmult_le_compat_r; lra). lra.
Qed.
(** the integral over any grid in [-1, 1], summed in any order: j + n + 2 roundings, where j is at
    least 6 (R + r)^2/d^2 for all distances d to the points of the grid *)
Theorem C115_rest : forall fsq, accurate_sq fsq -> forall R_line r mu j s,
  / 2 ^ 100 <= R_line <= 2 ^ 100 -> / 2 ^ 100 <= r <= 2 ^ 100 -> List.Forall double mu -> List.Forall (fun m => -1 <= m <= 1) mu ->
  (forall a b, neighbours mu a b -> / 2 ^ 500 <= b - a) ->
  let d2 m := R_line ^ 2 + r ^ 2 - 2 * r * R_line * m in
  (forall m, In m mu -> 0 < d2 m /\ (R_line + r) ^ 2 / d2 m <= 10 ^ 9 /\ 6 * ((R_line + r) ^ 2 / d2 m) <= INR j) ->
  summed binary64 (trapz_terms binary64 (map (fun m => line_rest binary64 fsq m R_line r) mu) mu) s ->
  (forall m, In m mu -> line_integrand binary64 fsq None R_line r m = Some (line_rest binary64 fsq m R_line r)) /\
  double s /\ within (j + length mu + 2) s (trapz (map (fun m => 1 / d2 m) mu) mu).
Proof.
  intros fsq Hf R_ r mu j s HR Hr Hd Hm Hg d2 Hj Hs. rewrite List.Forall_forall in Hm. pose proof U_pos as U.
  assert (Q : forall m, In m mu -> within j (line_rest binary64 fsq m R_ r) (1 / d2 m) /\ / 2 ^ 202 <= 1 / d2 m /\ / 2 ^ 203 <= line_rest binary64 fsq m R_ r /\ 0 < line_square binary64 fsq m R_ r).
  { intros m Hin. destruct (Hj m Hin) as (h1 & h2 & h3). destruct (rest_rel fsq m R_ r Hf (Hm m Hin) HR Hr h1 h2) as (A & B & C & D). fold (d2 m) in A, B, C. assert (P202 : 0 < / 2 ^ 202) by (apply Rinv_0_lt_compat, pow_lt; lra). split; [|split; auto; split; auto].
    - apply rel_within with (54 / 10 * (u64 * ((R_ + r) ^ 2 / d2 m))); auto; try lra. set (q := (R_ + r) ^ 2 / d2 m) in *. assert (u64 * (6 * q) <= u64 * INR j) by (apply Rmult_le_compat_l; lra). lra.
    - unfold rel in A. rewrite (Rabs_right (1 / d2 m)) in A by lra. apply Rabs_le_inv in A. assert (54 / 10 * (u64 * ((R_ + r) ^ 2 / d2 m)) * (1 / d2 m) <= 1 / 2 * (1 / d2 m)) by (apply Rmult_le_compat_r; lra). replace (/ 2 ^ 203) with (/ 2 ^ 202 * / 2) by (rewrite <- Rinv_mult; f_equal; replace 203%nat with (202 + 1)%nat by lia; rewrite pow_add; ring). lra. }
  split. { intros m Hin. destruct (Q m Hin) as (_ & _ & _ & D). unfold line_integrand. destruct (Reqb_spec (line_square binary64 fsq m R_ r) 0); [lra|auto]. }
  apply C105_integral with (y := map (fun m => line_rest binary64 fsq m R_ r) mu); auto.
  - apply map_length.
  - apply List.Forall_forall. intros y Hy. apply in_map_iff in Hy. destruct Hy as (m & <- & _). apply double_is, b64_double.
  - intros a b Hab. pose proof (Hg a b Hab). assert (0 < / 2 ^ 500) by (apply Rinv_0_lt_compat, pow_lt; lra). lra.
  - apply List.Forall_forall. intros y Hy. apply in_map_iff in Hy. destruct Hy as (m & <- & Hin). destruct (Q m Hin) as (_ & B & _). assert (0 < / 2 ^ 202) by (apply Rinv_0_lt_compat, pow_lt; lra). lra.
  - clear Hd Hg Hj Hm Hs. induction mu as [|m mu IH]; simpl; constructor. + apply Q. left. auto. + apply IH. intros v Hv. apply Q. right. auto.
  - intros x0 x1 y0 y1 (i & e0 & e1 & e2 & e3). right. assert (G : / 2 ^ 500 <= x1 - x0) by (apply Hg; exists i; auto). assert (Y : forall n y, nth_error (map (fun m => line_rest binary64 fsq m R_ r) mu) n = Some y -> / 2 ^ 203 <= y). { intros n y Hy. apply nth_error_In, in_map_iff in Hy. destruct Hy as (m & <- & Hin). apply Q. auto. }
    pose proof (Y _ _ e2) as y2. pose proof (Y _ _ e3) as y3. assert (0 < / 2 ^ 203) by (apply Rinv_0_lt_compat, pow_lt; lra). apply Rle_trans with (/ 2 ^ (500 + 203)); [apply lo_le; lia|]. apply lo_mult; lra.
Qed.
Print Assumptions C115_rest.

(** ** in the frame of the blob, away from right angles *)
Section Boost.
Variable fsq : R -> R.
Hypothesis sq_ok : accurate_sq fsq.
Variable mu R_ r : R.
Hypothesis Hm : -1 <= mu <= 1.
Hypothesis HR : / 2 ^ 100 <= R_ <= 2 ^ 100.
Hypothesis Hr : / 2 ^ 100 <= r <= 2 ^ 100.
Let x2 := R_ ^ 2 + r ^ 2 - 2 * r * R_ * mu.
Let kap := (R_ + r) ^ 2 / x2.
Hypothesis Hx : 0 < x2.
Hypothesis Hk : kap <= 10 ^ 9.
Let k := u64 * kap.
Let c2 := (r - mu * R_) ^ 2 / x2.
Let Q0 := R_ ^ 2 / x2.
Let Q := binary64 (fsq R_ / line_square binary64 fsq mu R_ r).
Lemma b_k : u64 <= k <= 2 / 10 ^ 7.
Proof. exact (k_range mu R_ r Hm HR Hr Hx Hk). Qed.
Lemma b_W : rel (42 / 10 * k) (line_square binary64 fsq mu R_ r) x2.
Proof. pose proof (W_rel fsq sq_ok mu R_ r Hm HR Hr Hx) as A. rewrite (x_sq mu R_ r Hx) in A. unfold line_square. rewrite (Rplus_comm (fsq r)). exact A. Qed.
Lemma b_Q0 : 0 < Q0 <= kap /\ / 2 ^ 402 <= Q0.
Proof.
  pose proof pos100 as P. assert (R0 : 0 < R_) by lra. pose proof (x_range mu R_ r Hm HR Hr Hx Hk) as [_ X1]. pose proof (x_sq mu R_ r Hx) as X2. fold x2 in X1, X2. assert (I : 0 < / x2) by (apply Rinv_0_lt_compat; auto). split; [split|].
  - apply Rmult_lt_0_compat; auto. apply pow_lt. auto.
  - unfold Q0, kap, Rdiv. apply Rmult_le_compat_r; [lra|]. apply pow_incr. lra.
  - unfold Q0, Rdiv. replace 402%nat with (200 + 202)%nat by lia. apply lo_mult. + replace 200%nat with (100 + 100)%nat by lia. replace (R_ ^ 2) with (R_ * R_) by ring. apply lo_mult; lra. + apply Rinv_le_contravar; auto. rewrite <- X2. replace (2 ^ 202) with ((2 ^ 101) ^ 2) by (rewrite <- pow_mult; f_equal; lia). apply pow_incr. split; [apply sqrt_pos|lra].
Qed.
Lemma b_Q : rel (8 * k) Q Q0.
Proof.
  pose proof b_k as K. pose proof U_pos as U. pose proof pos100 as P. destruct b_Q0 as [q0 q1]. assert (uk : u64 * k <= 1 / 10 ^ 15 * k) by (apply Rmult_le_compat_r; lra).
  assert (S : rel (201 / 100 * u64) (fsq R_) (R_ ^ 2)). { unfold rel. rewrite (Rabs_right (R_ ^ 2)) by (apply Rle_ge, pow2_ge_0). eapply Rle_trans; [apply (sq_at fsq sq_ok); apply in400; auto|]. assert (RR : / 2 ^ 200 <= R_ ^ 2) by (replace (R_ ^ 2) with (R_ * R_) by ring; replace 200%nat with (100 + 100)%nat by lia; apply lo_mult; lra). assert (E53 : / 2 ^ 53 = u64) by (rewrite u64_val, (pow_IZR 2 53); change (Z.of_nat 53) with 53%Z; simpl Z.pow; lra).
    assert (B : / 2 ^ 7 * (/ 2 ^ 53 * / 2 ^ 200) <= 1 / 100 * (u64 * R_ ^ 2)). { rewrite E53. assert (0 < / 2 ^ 200) by (apply Rinv_0_lt_compat, pow_lt; lra). apply Rmult_le_compat; [left; apply Rinv_0_lt_compat, pow_lt; lra|apply Rmult_le_pos; lra|simpl; lra|apply Rmult_le_compat_l; lra]. }
    assert (h0 <= / 2 ^ 7 * (/ 2 ^ 53 * / 2 ^ 200)). { unfold h0. rewrite <- !Rinv_mult, <- !pow_add. apply lo_le. lia. } lra. }
  pose proof (rel_inv _ _ _ b_W ltac:(lra) ltac:(lra)) as I. pose proof (rel_mul _ _ _ _ _ _ S I ltac:(lra)) as M. fold (Rdiv (fsq R_) (line_square binary64 fsq mu R_ r)) in M. fold (Rdiv (R_ ^ 2) x2) in M. fold Q0 in M.
  assert (M2 : rel (64 / 10 * k) (fsq R_ / line_square binary64 fsq mu R_ r) Q0). { eapply rel_weak; [|exact M]. lra. }
  pose proof (fl_rel _ (rel_lo _ _ _ _ M2 ltac:(lra) q1 ltac:(lia))) as F. fold Q in F. eapply rel_weak; [|exact (rel_trans _ _ _ _ _ F M2 ltac:(lra))]. lra.
Qed.
Lemma b_c : Q0 * (1 - mu ^ 2) = 1 - c2.
Proof. unfold Q0, c2. apply Rmult_eq_reg_r with x2; [|lra]. replace (R_ ^ 2 / x2 * (1 - mu ^ 2) * x2) with (R_ ^ 2 * (1 - mu ^ 2)) by (field; lra). replace ((1 - (r - mu * R_) ^ 2 / x2) * x2) with (x2 - (r - mu * R_) ^ 2) by (field; lra). unfold x2. ring. Qed.
Lemma b_rad : Rabs (line_radicand binary64 fsq mu R_ r - c2) <= 135 / 10 * k.
Proof.
  pose proof b_k as K. pose proof U_pos as U. pose proof h0_small as [[e0 e1] _]. destruct b_Q0 as [[qp q0] _]. pose proof b_c as C. pose proof b_Q as A. assert (c0 : 0 <= c2) by (apply Rmult_le_pos; [apply pow2_ge_0|left; apply Rinv_0_lt_compat; auto]). pose proof (pow2_ge_0 mu) as m0. assert (m1 : mu ^ 2 <= 1) by nra.
  assert (M : Rabs (binary64 (1 - fsq mu) - (1 - mu ^ 2)) <= 31 / 10 * u64). { assert (B : Rabs ((1 - fsq mu) - (1 - mu ^ 2)) <= 201 / 100 * u64). { replace ((1 - fsq mu) - (1 - mu ^ 2)) with (- (fsq mu - mu ^ 2)) by ring. rewrite Rabs_Ropp. eapply Rle_trans; [apply (sq_at fsq sq_ok)|]. - apply Rle_trans with 1; [apply Rabs_le; lra|apply Rle_trans with (2 ^ 0); [simpl; lra|apply Rle_pow; [lra|lia]]]. - assert (u64 * mu ^ 2 <= u64 * 1) by (apply Rmult_le_compat_l; lra). lra. }
    eapply Rle_trans; [apply (fl_up _ _ _ 1 B)|]. - apply Rabs_le. lra. - assert (u64 * u64 <= 1 / 10 ^ 15 * u64) by (apply Rmult_le_compat_r; lra). lra. }
  unfold line_radicand. fold Q. set (m := binary64 (1 - fsq mu)) in *. assert (QU : Q0 * u64 <= k) by (unfold k; rewrite (Rmult_comm u64); apply Rmult_le_compat_r; lra).
  assert (P : Rabs (Q * m - (1 - c2)) <= 112 / 10 * k).
  { rewrite <- C. replace (Q * m - Q0 * (1 - mu ^ 2)) with ((Q - Q0) * m + Q0 * (m - (1 - mu ^ 2))) by ring. eapply Rle_trans; [apply Rabs_triang|]. rewrite !Rabs_mult, (Rabs_right Q0) by lra. unfold rel in A. rewrite (Rabs_right Q0) in A by lra. assert (mm : Rabs m <= (1 - mu ^ 2) + 31 / 10 * u64) by (apply Rabs_le; apply Rabs_le_inv in M; lra).
    assert (E1 : Rabs (Q - Q0) * Rabs m <= 8 * k * Q0 * ((1 - mu ^ 2) + 31 / 10 * u64)) by (apply Rmult_le_compat; try apply Rabs_pos; auto). assert (E2 : Q0 * Rabs (m - (1 - mu ^ 2)) <= Q0 * (31 / 10 * u64)) by (apply Rmult_le_compat_l; lra).
    replace (8 * k * Q0 * ((1 - mu ^ 2) + 31 / 10 * u64)) with (8 * k * (Q0 * (1 - mu ^ 2) + 31 / 10 * (Q0 * u64))) in E1 by ring. rewrite C in E1. assert (8 * k * (1 - c2 + 31 / 10 * (Q0 * u64)) <= 8 * k * (1 + 1 / 10 ^ 5)) by (apply Rmult_le_compat_l; lra). lra. }
  assert (c1 : c2 <= 1). { assert (0 <= Q0 * (1 - mu ^ 2)) by (apply Rmult_le_pos; lra). lra. } assert (uk : u64 * k <= 1 / 10 ^ 15 * k) by (apply Rmult_le_compat_r; lra).
  assert (P2 : Rabs (binary64 (Q * m) - (1 - c2)) <= 123 / 10 * k). { eapply Rle_trans; [apply (fl_up _ _ _ 1 P)|]. - apply Rabs_le. lra. - lra. }
  assert (P3 : Rabs ((1 - binary64 (Q * m)) - c2) <= 123 / 10 * k). { replace ((1 - binary64 (Q * m)) - c2) with (- (binary64 (Q * m) - (1 - c2))) by ring. rewrite Rabs_Ropp. auto. }
  eapply Rle_trans; [apply (fl_up _ _ _ 1 P3)|]. - apply Rabs_le. lra. - lra.
Qed.
Lemma b_cosine : 14 * k <= c2 -> exists m, root binary64 (line_radicand binary64 fsq mu R_ r) = Some m /\ Rabs (m ^ 2 - c2) <= 16 * k /\ 0 <= m.
Proof.
  intros Hc. pose proof b_rad as A. pose proof b_k as K. pose proof U_pos as U. pose proof (Rabs_le_inv _ _ A) as A'. set (v := line_radicand binary64 fsq mu R_ r) in *. assert (V : 4 / 10 * k <= v) by lra. unfold root. destruct (Rltb_spec v 0); [lra|]. eexists. split; [reflexivity|].
  assert (c1 : c2 <= 1). { pose proof b_c. assert (0 <= Q0 * (1 - mu ^ 2)) by (apply Rmult_le_pos; [destruct b_Q0; lra|nra]). lra. } pose proof (sqrt_sqrt v ltac:(lra)) as S. pose proof (sqrt_pos v) as S0. assert (v2 : v <= 2) by lra. assert (SL : / 2 ^ 60 <= sqrt v). { assert (u60 : / 2 ^ 60 * / 2 ^ 60 <= v). { apply Rle_trans with (4 / 10 * u64); [|lra]. rewrite u64_val. simpl. lra. } rewrite <- (sqrt_square (/ 2 ^ 60)) by (left; apply Rinv_0_lt_compat, pow_lt; lra). apply sqrt_le_1_alt. auto. }
  assert (P60 : 0 < / 2 ^ 60) by (apply Rinv_0_lt_compat, pow_lt; lra). pose proof (fl_rel (sqrt v) ltac:(apply (lo_abs _ 60%nat); [auto|lia])) as F. pose proof (rel_mul _ _ _ _ _ _ F F ltac:(lra)) as M. rewrite S in M. set (w := binary64 (sqrt v)) in *. replace (w * w) with (w ^ 2) in M by ring. unfold rel in M, F. rewrite (Rabs_right v) in M by lra. rewrite (Rabs_right (sqrt v)) in F by lra. apply Rabs_le_inv in F. 
  assert (uu : u64 * u64 <= 1 / 10 ^ 15 * u64) by (apply Rmult_le_compat_r; lra). assert (M' : Rabs (w ^ 2 - v) <= 21 / 10 * k). { eapply Rle_trans; [exact M|]. apply Rle_trans with (203 / 100 * u64 * v); [apply Rmult_le_compat_r; lra|]. assert (v1 : v <= 1 + 3 / 10 ^ 6) by lra. assert (u64 * v <= u64 * (1 + 3 / 10 ^ 6)) by (apply Rmult_le_compat_l; lra). lra. }
  split. - replace (w ^ 2 - c2) with ((w ^ 2 - v) + (v - c2)) by ring. eapply Rle_trans; [apply Rabs_triang|]. lra.
  - assert (101 / 100 * u64 * sqrt v <= 1 * sqrt v) by (apply Rmult_le_compat_r; lra). lra.
Qed.
End Boost.
Lemma nan_trapz_some rnd : forall y x, (forall v, In v y -> v <> None) -> nan_trapz rnd y x <> None.
Proof.
  induction y as [|y0 y IH]; intros x H; [discriminate|]. destruct x as [|x0 x]; [discriminate|]. destruct y as [|y1 y]; [discriminate|]. destruct x as [|x1 x]; [discriminate|].
  change (match y0, y1, nan_trapz rnd (y1 :: y) (x1 :: x) with Some a, Some b, Some t => Some (rnd (rnd (rnd (rnd (x1 - x0) * rnd (b + a)) / 2) + t)) | _, _, _ => None end <> None).
  specialize (IH (x1 :: x) (fun v Hv => H v (or_intror Hv))). destruct y0 as [a|]; [|exfalso; apply (H None); [left|]; auto]. destruct y1 as [b|]; [|exfalso; apply (H None); [right; left|]; auto]. destruct (nan_trapz rnd (Some b :: y) (x1 :: x)); [discriminate|auto].
Qed.
(** a number when no direction of the grid is closer to a right angle than c^2 = 14 * 2^-53 (R + r)^2/d^2,
    and the cosine used is |c| to 16 of these units.  Missing from the full statement: the directions closer to a right
    angle, where C115_comoving_refuted shows that the density may be nan *)
Theorem C115_comoving_partial : forall fsq, accurate_sq fsq -> forall R_line r mu,
  / 2 ^ 100 <= R_line <= 2 ^ 100 -> / 2 ^ 100 <= r <= 2 ^ 100 -> List.Forall (fun m => -1 <= m <= 1) mu ->
  let d2 m := R_line ^ 2 + r ^ 2 - 2 * r * R_line * m in
  let unit m := / 2 ^ 53 * ((R_line + r) ^ 2 / d2 m) in
  let c2 m := (r - m * R_line) ^ 2 / d2 m in
  (forall m, In m mu -> 0 < d2 m /\ (R_line + r) ^ 2 / d2 m <= 10 ^ 9 /\ 14 * unit m <= c2 m) ->
  (forall pre blob, exists v, line_density binary64 fsq pre (Some blob) R_line r mu = Some v) /\
  forall m, In m mu -> exists c, root binary64 (line_radicand binary64 fsq m R_line r) = Some c /\ Rabs (c ^ 2 - c2 m) <= 16 * unit m /\ 0 <= c.
Proof.
  intros fsq Hf R_ r mu HR Hr Hm d2 unit c2 H. rewrite List.Forall_forall in Hm. assert (E53 : / 2 ^ 53 = u64) by (rewrite u64_val, (pow_IZR 2 53); change (Z.of_nat 53) with 53%Z; simpl Z.pow; lra).
  assert (Q : forall m, In m mu -> exists c, root binary64 (line_radicand binary64 fsq m R_ r) = Some c /\ Rabs (c ^ 2 - c2 m) <= 16 * unit m /\ 0 <= c).
  { intros m Hin. destruct (H m Hin) as (h1 & h2 & h3). unfold unit in *. rewrite E53 in *. exact (b_cosine fsq Hf m R_ r (Hm m Hin) HR Hr h1 h2 h3). }
  split; auto. intros pre b. unfold line_density. destruct (nan_trapz binary64 (map (line_integrand binary64 fsq (Some b) R_ r) mu) mu) eqn:E; [eauto|]. exfalso. revert E. apply nan_trapz_some. intros v Hv. apply in_map_iff in Hv. destruct Hv as (m & <- & Hin). destruct (Q m Hin) as (c & Ec & _). destruct (H m Hin) as (h1 & h2 & _). destruct (rest_rel fsq m R_ r Hf (Hm m Hin) HR Hr h1 h2) as (_ & _ & _ & D).
  unfold line_integrand, line_boost. rewrite Ec. destruct (Reqb_spec (line_square binary64 fsq m R_ r) 0); [lra|discriminate].
Qed.
Print Assumptions C115_comoving_partial.

(** a line of 1e17 cm seen from 3e17 cm on a grid of three points *)
Example C115_case : let sq := fun v => v ^ 2 in forall s, 
  summed binary64 (trapz_terms binary64 (map (fun m => line_rest binary64 sq m (10 ^ 17) (3 * 10 ^ 17)) [-1; 0; 1]) [-1; 0; 1]) s ->
  within (24 + 3 + 2) s ((1 / 16 + 2 / 10 + 1 / 4) / (2 * (10 ^ 17) ^ 2)).
Proof.
  intros sq s Hs. assert (Hf : accurate_sq sq). { intros v Hv. unfold sq, Rminus. rewrite Rplus_opp_r, Rabs_R0. pose proof (pow2_ge_0 v). assert (0 < / 2 ^ 1000) by (apply Rinv_0_lt_compat, pow_lt; lra). assert (0 <= / 2 ^ 52 * v ^ 2) by (apply Rmult_le_pos; [left; apply Rinv_0_lt_compat, pow_lt; lra|auto]). lra. }
  assert (B : forall v, 1 <= v <= 2 ^ 60 -> / 2 ^ 100 <= v <= 2 ^ 100). { intros v Hv. split; [apply Rle_trans with (/ 2 ^ 0); [apply lo_le; lia|simpl; lra]|apply Rle_trans with (2 ^ 60); [lra|apply Rle_pow; [lra|lia]]]. }
  assert (B1 : 1 <= 10 ^ 17 <= 2 ^ 60) by (simpl; lra). assert (B2 : 1 <= 3 * 10 ^ 17 <= 2 ^ 60) by (simpl; lra).
  assert (Dm : forall z, (Z.abs z < 2)%Z -> double (IZR z)). { intros z Hz. exists z, 0%Z. repeat split; try lia. simpl. ring. }
  destruct (C115_rest sq Hf (10 ^ 17) (3 * 10 ^ 17) [-1; 0; 1] 24%nat s (B _ B1) (B _ B2)) as (_ & _ & W); auto.
  - repeat constructor; apply Dm; reflexivity.
  - repeat (constructor; [lra|]). constructor.
  - intros a b ([|[|i]] & H1 & H2); simpl in H1, H2; try (injection H1 as <-; injection H2 as <-); try (assert (/ 2 ^ 500 <= / 2 ^ 0) by (apply lo_le; lia); simpl (2 ^ 0) in *; lra). destruct i; discriminate.
  - intros m [<-|[<-|[<-|[]]]]; replace (INR 24) with 24 by (rewrite INR_IZR_INZ; reflexivity); simpl; repeat split; lra.
  - cbn [length] in W. eapply eq_ind; [exact W|]. cbn [map trapz]. simpl. lra.
Qed.
Example C115_comoving_case : let sq := fun v => v ^ 2 in forall pre blob, exists v, line_density binary64 sq pre (Some blob) (10 ^ 17) (3 * 10 ^ 17) [-1; 0; 1] = Some v.
Proof.
  intros sq. assert (Hf : accurate_sq sq). { intros v Hv. unfold sq, Rminus. rewrite Rplus_opp_r, Rabs_R0. pose proof (pow2_ge_0 v). assert (0 < / 2 ^ 1000) by (apply Rinv_0_lt_compat, pow_lt; lra). assert (0 <= / 2 ^ 52 * v ^ 2) by (apply Rmult_le_pos; [left; apply Rinv_0_lt_compat, pow_lt; lra|auto]). lra. }
  assert (B : forall v, 1 <= v <= 2 ^ 60 -> / 2 ^ 100 <= v <= 2 ^ 100). { intros v Hv. split; [apply Rle_trans with (/ 2 ^ 0); [apply lo_le; lia|simpl; lra]|apply Rle_trans with (2 ^ 60); [lra|apply Rle_pow; [lra|lia]]]. }
  assert (B1 : 1 <= 10 ^ 17 <= 2 ^ 60) by (simpl; lra). assert (B2 : 1 <= 3 * 10 ^ 17 <= 2 ^ 60) by (simpl; lra).
  destruct (C115_comoving_partial sq Hf (10 ^ 17) (3 * 10 ^ 17) [-1; 0; 1] (B _ B1) (B _ B2)) as [W _]; auto.
  - repeat (constructor; [lra|]). constructor.
  - intros m [<-|[<-|[<-|[]]]]; simpl; repeat split; lra.
Qed.
