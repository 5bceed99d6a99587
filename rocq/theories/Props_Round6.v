(** C112: trapz_loglog in floating point arithmetic *)
From Coq Require Import Permutation.
From Coquelicot Require Import Coquelicot.
From Flocq Require Import Core.
From Flocq Require Import Relative.
From Verif Require Import Base NumpyInst MathUtils Spec_Math Clock ClockFacts Rounding RoundFacts Spec_Round MathFacts Props_Round Props_Round2 Props_Round3 Props_Round4 Props_Round5 RoundLog.
Import ListNotations.
Open Scope list_scope.
Open Scope R_scope.
#[local] Existing Instance prec53.

(** ** without rounding it is the function of MathUtils.v *)
Lemma loglog_terms_exact y : forall x, total (loglog_terms (fun v => v) clog npow y x) = trapz_loglog y x.
Proof.
  induction y as [|y0 y IH]; intros [|x0 x]; try reflexivity. cbn [loglog_terms trapz_loglog]. destruct y as [|y1 y], x as [|x1 x]; try reflexivity.
  cbn [total]. rewrite IH. reflexivity.
Qed.
Theorem C112_model : forall y x s, summed (fun v => v) (loglog_terms (fun v => v) clog npow y x) s -> s = trapz_loglog y x.
Proof.
  intros y x s H. rewrite <- loglog_terms_exact. induction H as [|v|l l1 l2 a b P S1 IH1 S2 IH2]; simpl; try lra.
  rewrite (total_perm _ _ P), total_app. lra.
Qed.
Print Assumptions C112_model.

(** the integral of the power law through two points, exactly *)
Definition through (x0 y0 x1 y1 x : R) : R := y0 * Rpower (x / x0) (ln (y1 / y0) / ln (x1 / x0)).
Definition exact_cell (x0 y0 x1 y1 : R) : R := if Req_EM_T y0 0 then 0 else if Req_EM_T y1 0 then 0 else RInt (through x0 y0 x1 y1) x0 x1.
(** the sum over the intervals of a table *)
Fixpoint exact_sum (y x : list R) : R :=
  match y, x with
  | y0 :: y', x0 :: x' =>
      match y', x' with
      | y1 :: _, x1 :: _ => exact_cell x0 y0 x1 y1 + exact_sum y' x'
      | _, _ => 0
      end
  | _, _ => 0
  end.

(** ** the area as a function of the slope *)
Definition area (y0 x0 x1 m : R) : R := RInt (fun x => y0 * Rpower (x / x0) m) x0 x1.
Lemma shift_power y0 x0 x m : 0 < x0 -> 0 < x -> y0 * Rpower x0 (- m) * Rpower x m = y0 * Rpower (x / x0) m.
Proof. intros H0 H. unfold Rpower. rewrite ln_div by auto. rewrite Rmult_assoc, <- exp_plus. do 2 f_equal. ring. Qed.
Lemma area_int y0 x0 x1 m : 0 < x0 < x1 -> is_RInt (fun x => y0 * Rpower (x / x0) m) x0 x1 (area y0 x0 x1 m) /\
  (m + 1 <> 0 -> area y0 x0 x1 m = y0 * x0 * (exp ((m + 1) * ln (x1 / x0)) - 1) / (m + 1)) /\ (m + 1 = 0 -> area y0 x0 x1 m = y0 * x0 * ln (x1 / x0)).
Proof.
  intros H. assert (Hx : forall x, Rmin x0 x1 < x < Rmax x0 x1 -> y0 * Rpower x0 (- m) * Rpower x m = y0 * Rpower (x / x0) m) by (intros x Hx; rewrite Rmin_left, Rmax_right in Hx by lra; apply shift_power; lra).
  assert (K : exists v, is_RInt (fun x => y0 * Rpower (x / x0) m) x0 x1 v /\ (m + 1 <> 0 -> v = y0 * x0 * (exp ((m + 1) * ln (x1 / x0)) - 1) / (m + 1)) /\ (m + 1 = 0 -> v = y0 * x0 * ln (x1 / x0))).
  { destruct (Req_dec (m + 1) 0) as [E|E].
    - exists (y0 * x0 * ln (x1 / x0)). split; [|split]; try tauto. assert (Em : m = -1) by lra. pose proof (inverse_RInt (y0 * Rpower x0 (- m)) x0 x1 ltac:(lra) ltac:(lra)) as I. rewrite <- Em in I.
      replace (y0 * x0) with (y0 * Rpower x0 (- m)). 2: { f_equal. replace (- m) with 1 by lra. apply Rpower_1. lra. } eapply is_RInt_ext; [|exact I]. exact Hx.
    - exists (y0 * x0 * (exp ((m + 1) * ln (x1 / x0)) - 1) / (m + 1)). split; [|split]; try tauto. pose proof (power_RInt (y0 * Rpower x0 (- m)) m x0 x1 ltac:(lra) ltac:(lra) ltac:(lra)) as I.
      replace (y0 * x0 * (exp ((m + 1) * ln (x1 / x0)) - 1) / (m + 1)) with (y0 * Rpower x0 (- m) * (Rpower x1 (m + 1) - Rpower x0 (m + 1)) / (m + 1)). { eapply is_RInt_ext; [|exact I]. exact Hx. }
      assert (P : Rpower x0 (- m) * Rpower x0 (m + 1) = x0) by (rewrite <- Rpower_plus; replace (- m + (m + 1)) with 1 by ring; apply Rpower_1; lra).
      assert (Q : Rpower x1 (m + 1) = Rpower x0 (m + 1) * exp ((m + 1) * ln (x1 / x0))). { unfold Rpower. rewrite <- exp_plus. f_equal. rewrite ln_div by lra. ring. }
      rewrite Q. set (e := exp _). transitivity (y0 * (Rpower x0 (- m) * Rpower x0 (m + 1)) * (e - 1) / (m + 1)); [field; auto|rewrite P; reflexivity]. }
  destruct K as (v & I & A & B). assert (E : area y0 x0 x1 m = v) by (apply is_RInt_unique; exact I). rewrite E. auto.
Qed.
Lemma area_pos y0 x0 x1 m : 0 < y0 -> 0 < x0 < x1 -> 0 < area y0 x0 x1 m.
Proof.
  intros Hy H. destruct (area_int y0 x0 x1 m H) as (I & _). assert (E : ex_RInt (fun x => y0 * Rpower (x / x0) m) x0 x1) by (eexists; exact I). unfold area. apply RInt_gt_0; [lra| |].
  - intros x Hx. apply Rmult_lt_0_compat; auto. apply exp_pos.
  - intros x Hx. apply (ex_derive_continuous (fun x => y0 * exp (m * ln (x / x0)))). auto_derive. repeat split; try lra. apply Rdiv_lt_0_compat; lra.
Qed.
Lemma area_shift y0 x0 x1 m m' : 0 < y0 -> 0 < x0 < x1 -> area y0 x0 x1 m' <= exp (Rabs (m' - m) * ln (x1 / x0)) * area y0 x0 x1 m.
Proof.
  intros Hy H. destruct (area_int y0 x0 x1 m H) as (I & _). destruct (area_int y0 x0 x1 m' H) as (I' & _). set (k := exp (Rabs (m' - m) * ln (x1 / x0))).
  apply (is_RInt_le (fun x => y0 * Rpower (x / x0) m') (fun x => k * (y0 * Rpower (x / x0) m)) x0 x1); [lra|exact I'|apply (is_RInt_scal (V := R_NormedModule)); exact I|].
  intros x Hx. replace (k * (y0 * Rpower (x / x0) m)) with (y0 * (Rpower (x / x0) m * k)) by ring. apply Rmult_le_compat_l; [lra|]. unfold Rpower, k. rewrite <- exp_plus. apply Raux.exp_le.
  assert (L0 : 0 <= ln (x / x0) <= ln (x1 / x0)). { split. - rewrite <- ln_1. apply Rcomplements.ln_le; [lra|]. apply Rmult_le_reg_r with x0; [lra|]. unfold Rdiv. rewrite Rmult_assoc, Rinv_l; lra. - apply Rcomplements.ln_le; [apply Rdiv_lt_0_compat; lra|]. apply Rmult_le_compat_r; [left; apply Rinv_0_lt_compat|]; lra. }
  set (l := ln (x / x0)) in *. set (L := ln (x1 / x0)) in *. assert ((m' - m) * l <= Rabs (m' - m) * L); [|lra]. apply Rle_trans with (Rabs (m' - m) * l); [apply Rmult_le_compat_r; [lra|apply RRle_abs]|apply Rmult_le_compat_l; [apply Rabs_pos|lra]].
Qed.
Lemma exp_small t : 0 <= t <= 1 / 100 -> exp t <= 1 + 102 / 100 * t.
Proof.
  intros H. pose proof (exp_ineq1_le (- t)) as K. assert (E : exp t * exp (- t) = 1) by (rewrite <- exp_plus, Rplus_opp_r, exp_0; auto). pose proof (exp_pos t) as P.
  assert (exp t * (1 - t) <= 1) by (rewrite <- E; apply Rmult_le_compat_l; lra). assert (1 <= (1 + 102 / 100 * t) * (1 - t)) by nra. apply Rmult_le_reg_r with (1 - t); lra.
Qed.
Lemma area_rel y0 x0 x1 m m' t : 0 < y0 -> 0 < x0 < x1 -> Rabs (m' - m) * ln (x1 / x0) <= t -> t <= 1 / 100 -> Rabs (area y0 x0 x1 m' - area y0 x0 x1 m) <= 102 / 100 * t * area y0 x0 x1 m.
Proof.
  intros Hy H Ht Ht1. pose proof (area_shift y0 x0 x1 m m' Hy H) as A. pose proof (area_shift y0 x0 x1 m' m Hy H) as B. rewrite (Rabs_minus_sym m m') in B. pose proof (area_pos y0 x0 x1 m Hy H) as P. pose proof (area_pos y0 x0 x1 m' Hy H) as P'.
  assert (L : 0 <= ln (x1 / x0)). { rewrite <- ln_1. apply Rcomplements.ln_le; [lra|]. apply Rmult_le_reg_r with x0; [lra|]. unfold Rdiv. rewrite Rmult_assoc, Rinv_l; lra. }
  set (w := Rabs (m' - m) * ln (x1 / x0)) in *. assert (W : 0 <= w) by (apply Rmult_le_pos; [apply Rabs_pos|auto]). pose proof (exp_small w ltac:(lra)) as E. set (a := area y0 x0 x1 m) in *. set (a' := area y0 x0 x1 m') in *.
  assert (A1 : a' <= (1 + 102 / 100 * t) * a) by (eapply Rle_trans; [exact A|]; apply Rmult_le_compat_r; lra). assert (B1 : a <= (1 + 102 / 100 * t) * a') by (eapply Rle_trans; [exact B|]; apply Rmult_le_compat_r; lra).
  apply Rabs_le. split; [|lra]. destruct (Rle_dec a a') as [L1|L1]; [assert (0 <= 102 / 100 * t * a) by (apply Rmult_le_pos; lra); lra|]. assert (102 / 100 * t * a' <= 102 / 100 * t * a) by (apply Rmult_le_compat_l; lra). lra.
Qed.

(** ** relative errors *)
Definition rel (e a b : R) : Prop := Rabs (a - b) <= e * Rabs b.
Lemma rel_mul e d a b a' b' : rel e a' a -> rel d b' b -> 0 <= e -> rel (e + d + e * d) (a' * b') (a * b).
Proof.
  unfold rel. intros A B He. rewrite Rabs_mult. replace (a' * b' - a * b) with ((a' - a) * b + a' * (b' - b)) by ring. eapply Rle_trans; [apply Rabs_triang|]. rewrite !Rabs_mult.
  assert (Ra : Rabs a' <= (1 + e) * Rabs a). { replace a' with (a + (a' - a)) by ring. eapply Rle_trans; [apply Rabs_triang|]. lra. }
  assert (K1 : Rabs (a' - a) * Rabs b <= e * Rabs a * Rabs b) by (apply Rmult_le_compat_r; [apply Rabs_pos|auto]). assert (K2 : Rabs a' * Rabs (b' - b) <= (1 + e) * Rabs a * (d * Rabs b)) by (apply Rmult_le_compat; try apply Rabs_pos; auto). lra.
Qed.
Lemma rel_trans e d a b c : rel e a b -> rel d b c -> 0 <= e -> rel (e + d + e * d) a c.
Proof.
  unfold rel. intros A B He. replace (a - c) with ((a - b) + (b - c)) by ring. eapply Rle_trans; [apply Rabs_triang|]. assert (Rb : Rabs b <= (1 + d) * Rabs c). { replace b with (c + (b - c)) by ring. eapply Rle_trans; [apply Rabs_triang|]. lra. }
  assert (e * Rabs b <= e * ((1 + d) * Rabs c)) by (apply Rmult_le_compat_l; auto). lra.
Qed.
Lemma rel_scal e c a b : rel e a b -> rel e (c * a) (c * b).
Proof. unfold rel. intros A. rewrite <- Rmult_minus_distr_l, !Rabs_mult. replace (e * (Rabs c * Rabs b)) with (Rabs c * (e * Rabs b)) by ring. apply Rmult_le_compat_l; [apply Rabs_pos|auto]. Qed.
Lemma rel_weak e d a b : e <= d -> rel e a b -> rel d a b.
Proof. unfold rel. intros H A. eapply Rle_trans; [exact A|]. apply Rmult_le_compat_r; [apply Rabs_pos|auto]. Qed.
Lemma rel_inv e a b : rel e a b -> b <> 0 -> 0 <= e <= 1 / 100 -> rel (102 / 100 * e) (/ a) (/ b).
Proof.
  unfold rel. intros A Hb He. assert (B : 0 < Rabs b) by (apply Rabs_pos_lt; auto). assert (Ra : (1 - e) * Rabs b <= Rabs a). { pose proof (Rabs_triang a (- (a - b))) as T. replace (a + - (a - b)) with b in T by ring. rewrite Rabs_Ropp in T. lra. }
  assert (Ha : a <> 0). { intros ->. rewrite Rabs_R0 in Ra. assert (0 < (1 - e) * Rabs b) by (apply Rmult_lt_0_compat; lra). lra. }
  replace (/ a - / b) with (- (a - b) * / a * / b) by (field; auto). rewrite !Rabs_mult, Rabs_Ropp. apply Rmult_le_compat_r; [apply Rabs_pos|]. rewrite Rabs_inv. assert (P : 0 < Rabs a) by (apply Rabs_pos_lt; auto).
  apply Rmult_le_reg_r with (Rabs a); auto. rewrite Rmult_assoc, Rinv_l, Rmult_1_r by lra. eapply Rle_trans; [exact A|]. apply Rle_trans with (102 / 100 * e * ((1 - e) * Rabs b)).
  - assert (1 <= 102 / 100 * (1 - e)) by lra. assert (e * Rabs b * 1 <= e * Rabs b * (102 / 100 * (1 - e))) by (apply Rmult_le_compat_l; [apply Rmult_le_pos|]; lra). lra.
  - apply Rmult_le_compat_l; lra.
Qed.
Lemma fl_rel x : / 2 ^ 900 <= Rabs x -> rel (101 / 100 * u64) (binary64 x) x.
Proof.
  intros H. unfold rel. pose proof (fl_err x) as K. assert (h0 <= / 2 ^ 60 * / 2 ^ 900). { unfold h0. rewrite <- !Rinv_mult, <- !pow_add. apply lo_le. lia. }
  assert (E : / 2 ^ 60 * / 2 ^ 900 <= / 2 ^ 60 * Rabs x) by (apply Rmult_le_compat_l; lra).
  assert (/ 2 ^ 60 * Rabs x <= 1 / 100 * u64 * Rabs x) by (apply Rmult_le_compat_r; [apply Rabs_pos|rewrite u64_val; lra]). lra.
Qed.
Lemma exp_rel t : Rabs t <= 1 / 100 -> Rabs (exp t - 1) <= 102 / 100 * Rabs t.
Proof.
  intros H. destruct (Rle_dec 0 t) as [P|P].
  - rewrite (Rabs_right t) in * by lra. pose proof (exp_small t ltac:(lra)). pose proof (exp_ineq1_le t). apply Rabs_le. lra.
  - rewrite (Rabs_left t) in * by lra. pose proof (exp_ineq1_le t). assert (exp t <= 1) by (rewrite <- exp_0; apply Raux.exp_le; lra). apply Rabs_le. lra.
Qed.

(** ** one interval *)
(** numpy's logarithm and power are accurate to one unit in the last place *)
Definition accurate_ln (f : R -> R) : Prop := forall x, / 2 ^ 200 <= x <= 2 ^ 401 -> Rabs (f x - ln x) <= / 2 ^ 52 * Rabs (ln x) + / 2 ^ 1000.
Definition accurate_pow (f : R -> R -> R) : Prop := forall x m, 1 <= x -> / 2 ^ 500 <= Rpower x m <= 2 ^ 500 -> Rabs (f x m - Rpower x m) <= / 2 ^ 52 * Rpower x m.
(** the numbers in the tables: not extremely small or large *)
Definition moderate (v : R) : Prop := / 2 ^ 200 <= v <= 2 ^ 200.

Lemma moderate_ln v : moderate v -> 0 < v /\ Rabs (ln v) <= 140.
Proof.
  intros [A B]. assert (P : 0 < / 2 ^ 200) by (apply Rinv_0_lt_compat, pow_lt; lra). assert (V : 0 < v) by lra. split; [exact V|]. pose proof (ln_pow2 200) as L. replace (INR 200) with 200 in L by (rewrite INR_IZR_INZ; reflexivity).
  apply Rcomplements.ln_le in A; auto. apply Rcomplements.ln_le in B; auto. rewrite ln_Rinv in A by (apply pow_lt; lra). apply Rabs_le. lra.
Qed.
Section Cell.
Variable flog : R -> R.
Variable fpow : R -> R -> R.
Hypothesis log_ok : accurate_ln flog.
Hypothesis pow_ok : accurate_pow fpow.
Variable x0 x1 y0 y1 : R.
Hypothesis Mx0 : moderate x0.
Hypothesis Mx1 : moderate x1.
Hypothesis My0 : moderate y0.
Hypothesis My1 : moderate y1.
Hypothesis x0_double : is_double x0.
Definition ell := ln (x1 / x0).
Hypothesis ell_ok : / 1000 <= ell.
Definition M0 := ln (y1 / y0) / ell.
Lemma pos4 : 0 < x0 /\ 0 < x1 /\ 0 < y0 /\ 0 < y1.
Proof. repeat split; apply moderate_ln; auto. Qed.
Lemma ell_top : ell <= 280.
Proof. pose proof pos4 as (P0 & P1 & _). unfold ell. rewrite ln_div by auto. destruct (moderate_ln _ Mx0) as [_ A]. destruct (moderate_ln _ Mx1) as [_ B]. apply Rabs_le_inv in A. apply Rabs_le_inv in B. lra. Qed.
Lemma x_lt : x0 < x1.
Proof. pose proof pos4 as (P0 & P1 & _). apply ln_lt_inv; auto. pose proof ell_ok as E. unfold ell in E. rewrite ln_div in E by auto. lra. Qed.
Lemma M0_ell : M0 * ell = ln (y1 / y0) /\ Rabs (M0 * ell) <= 280.
Proof.
  pose proof pos4 as (P0 & P1 & Q0 & Q1). assert (E : M0 * ell = ln (y1 / y0)) by (unfold M0; field; lra). split; auto. rewrite E, ln_div by auto. destruct (moderate_ln _ My0) as [_ A]. destruct (moderate_ln _ My1) as [_ B]. apply Rabs_le_inv in A. apply Rabs_le_inv in B. apply Rabs_le. lra.
Qed.
Lemma flog_err v : moderate v -> Rabs (flog v - ln v) <= 281 * u64.
Proof.
  intros Hv. destruct (moderate_ln v Hv) as [_ L]. assert (R0 : / 2 ^ 200 <= v <= 2 ^ 401). { destruct Hv. split; auto. apply Rle_trans with (2 ^ 200); auto. apply Rle_pow; [lra|lia]. }
  pose proof (log_ok v R0) as K. fold h0 in K. rewrite u2 in K. pose proof h0_small as [[h1 h2] _]. assert (u64 * Rabs (ln v) <= u64 * 140) by (apply Rmult_le_compat_l; [rewrite u64_val|]; lra). rewrite u64_val in *. lra.
Qed.
Lemma diff_err a b : moderate a -> moderate b -> Rabs (binary64 (flog a - flog b) - (ln a - ln b)) <= 845 * u64.
Proof.
  intros Ha Hb. pose proof (flog_err a Ha) as A. pose proof (flog_err b Hb) as B. pose proof h0_small as [[h1 h2] _]. destruct (moderate_ln a Ha) as [_ La]. destruct (moderate_ln b Hb) as [_ Lb].
  assert (D : Rabs ((flog a - flog b) - (ln a - ln b)) <= 562 * u64). { replace ((flog a - flog b) - (ln a - ln b)) with ((flog a - ln a) + - (flog b - ln b)) by ring. eapply Rle_trans; [apply Rabs_triang|]. rewrite Rabs_Ropp. lra. }
  eapply Rle_trans; [apply (fl_up _ _ _ 280 D)|]. - apply Rabs_le_inv in La. apply Rabs_le_inv in Lb. apply Rabs_le. lra. - rewrite u64_val in *. lra.
Qed.
Definition mm := log_slope binary64 flog y0 y1 x0 x1.
Definition TT := 240000 * u64 * (1 + / ell).
Lemma iv_ok : 0 < / ell <= 1000 /\ ell * / ell = 1.
Proof. split; [|apply Rinv_r; lra]. split; [apply Rinv_0_lt_compat; lra|]. replace 1000 with (/ / 1000) by lra. apply Rinv_le_contravar; lra. Qed.
Lemma TT_ok : 0 < TT <= 3 / 10 ^ 8.
Proof. pose proof iv_ok as [I _]. unfold TT. rewrite u64_val. lra. Qed.
Lemma M0_size : Rabs M0 <= 280 * / ell.
Proof. pose proof iv_ok as [I E]. destruct M0_ell as [_ K]. rewrite Rabs_mult, (Rabs_right ell) in K by lra. replace (Rabs M0) with (Rabs M0 * ell * / ell) by (field; lra). apply Rmult_le_compat_r; lra. Qed.
Lemma slope_err : Rabs (mm - M0) * ell <= TT.
Proof.
  pose proof pos4 as (P0 & P1 & Q0 & Q1). pose proof iv_ok as [I IE]. pose proof ell_top as Et. destruct M0_ell as [ME MB]. pose proof M0_size as MS. pose proof h0_small as [[h1 h2] _]. pose proof (diff_err y0 y1 My0 My1) as Dn. pose proof (diff_err x0 x1 Mx0 Mx1) as Dd.
  unfold mm, log_slope. set (n1 := binary64 (flog y0 - flog y1)) in *. set (d1 := binary64 (flog x0 - flog x1)) in *.
  replace (ln y0 - ln y1) with (- (M0 * ell)) in Dn by (rewrite ME, ln_div by auto; ring). replace (ln x0 - ln x1) with (- ell) in Dd by (unfold ell; rewrite ln_div by auto; ring).
  assert (D0 : d1 < 0 /\ 99 / 100 * ell <= - d1). { apply Rabs_le_inv in Dd. rewrite u64_val in *. lra. }
  assert (U0 : 0 < u64) by (rewrite u64_val; lra). pose proof (Rabs_pos M0) as MP.
  assert (N : Rabs (n1 - M0 * d1) <= 845 * u64 * (1 + Rabs M0)). { replace (n1 - M0 * d1) with ((n1 - - (M0 * ell)) + - (M0 * (d1 - - ell))) by ring. eapply Rle_trans; [apply Rabs_triang|]. rewrite Rabs_Ropp, (Rabs_mult M0). assert (Rabs M0 * Rabs (d1 - - ell) <= Rabs M0 * (845 * u64)) by (apply Rmult_le_compat_l; lra). lra. }
  assert (Q : Rabs (n1 / d1 - M0) * ell <= 854 * u64 * (1 + Rabs M0)).
  { replace (n1 / d1 - M0) with ((n1 - M0 * d1) * / d1) by (field; lra). rewrite Rabs_mult, Rabs_inv, (Rabs_left d1) by lra. apply Rmult_le_reg_r with (- d1); [lra|]. replace (Rabs (n1 - M0 * d1) * / - d1 * ell * - d1) with (Rabs (n1 - M0 * d1) * ell) by (field; lra).
    apply Rle_trans with (845 * u64 * (1 + Rabs M0) * ell); [apply Rmult_le_compat_r; lra|]. assert (W : 0 <= u64 * (1 + Rabs M0)) by (apply Rmult_le_pos; lra). replace (845 * u64 * (1 + Rabs M0) * ell) with (u64 * (1 + Rabs M0) * (845 * ell)) by ring. replace (854 * u64 * (1 + Rabs M0) * - d1) with (u64 * (1 + Rabs M0) * (854 * - d1)) by ring. apply Rmult_le_compat_l; lra. }
  assert (Mu : u64 * Rabs M0 <= u64 * (280 * / ell)) by (apply Rmult_le_compat_l; lra).
  assert (Q2 : Rabs (n1 / d1) * ell <= 281). { replace (n1 / d1) with (M0 + (n1 / d1 - M0)) by ring. apply Rle_trans with ((Rabs M0 + Rabs (n1 / d1 - M0)) * ell); [apply Rmult_le_compat_r; [lra|apply Rabs_triang]|]. rewrite Rmult_plus_distr_r. rewrite Rabs_mult, (Rabs_right ell) in MB by lra. rewrite u64_val in *. lra. }
  pose proof (fl_err (n1 / d1)) as F. set (q := n1 / d1) in *. assert (F2 : Rabs (binary64 q - q) * ell <= 282 * u64).
  { apply Rle_trans with ((u64 * Rabs q + h0) * ell); [apply Rmult_le_compat_r; lra|]. assert (h0 * ell <= h0 * 280) by (apply Rmult_le_compat_l; lra). assert (u64 * (Rabs q * ell) <= u64 * 281) by (apply Rmult_le_compat_l; lra). rewrite u64_val in *. lra. }
  replace (binary64 q - M0) with ((binary64 q - q) + (q - M0)) by ring. apply Rle_trans with ((Rabs (binary64 q - q) + Rabs (q - M0)) * ell); [apply Rmult_le_compat_r; [lra|apply Rabs_triang]|]. unfold TT. rewrite u64_val in *. lra.
Qed.
Lemma mm_size : Rabs mm <= 281 * / ell /\ Rabs (mm - M0) <= TT * / ell.
Proof.
  pose proof iv_ok as [I IE]. pose proof slope_err as S. pose proof TT_ok as T. pose proof M0_size as M. assert (D : Rabs (mm - M0) <= TT * / ell). { replace (Rabs (mm - M0)) with (Rabs (mm - M0) * ell * / ell) by (field; lra). apply Rmult_le_compat_r; lra. } split; auto.
  replace mm with (M0 + (mm - M0)) by ring. eapply Rle_trans; [apply Rabs_triang|]. assert (TT * / ell <= 1 * / ell) by (apply Rmult_le_compat_r; lra). lra.
Qed.
Lemma mm_double : is_double mm.
Proof. apply b64_double. Qed.
Definition rr := binary64 (x1 / x0).
Lemma r_ge : 1 <= x1 / x0 <= 2 ^ 400.
Proof.
  pose proof pos4 as (P0 & P1 & _). pose proof x_lt as L. split. { apply Rmult_le_reg_r with x0; auto. unfold Rdiv. rewrite Rmult_assoc, Rinv_l by lra. lra. }
  apply Rmult_le_reg_r with x0; auto. unfold Rdiv. rewrite Rmult_assoc, Rinv_l, Rmult_1_r by lra. destruct Mx0 as [A _], Mx1 as [_ B]. eapply Rle_trans; [exact B|]. apply Rle_trans with (2 ^ 400 * / 2 ^ 200); [|apply Rmult_le_compat_l; [left; apply pow_lt; lra|exact A]].
  right. replace 400%nat with (200 + 200)%nat by lia. rewrite pow_add. field; try (apply pow_nonzero; lra).
Qed.
Lemma rr_ok : 1 <= rr <= 2 ^ 401 /\ Rabs (ln rr - ell) <= u64.
Proof.
  pose proof r_ge as [R0 R1]. assert (N : near 1 rr (x1 / x0)). { apply fl_near. apply Rle_trans with 1; auto. change 1 with (bpow radix2 0). apply bpow_le. lia. }
  split; [split|]. - apply b64_ge_double; auto. apply double_1. - destruct N as [N _]. rewrite pow_1 in N. eapply Rle_trans; [exact N|]. change 401%nat with (1 + 400)%nat. rewrite pow_add, pow_1. rewrite (Rmult_comm 2). pose proof u64_pos. assert (0 < 2 ^ 400) by (apply pow_lt; lra). apply Rmult_le_compat; lra.
  - assert (P : 0 < x1 / x0) by lra. pose proof (near_ln _ _ _ P N) as E. simpl INR in E. rewrite Rmult_1_l in E. exact E.
Qed.

(** ** the power law branch *)
Lemma grow_pos : Rpower (x1 / x0) mm = y1 / y0 * exp ((mm - M0) * ell) /\ x1 * Rpower (x1 / x0) mm = x0 * exp ((mm + 1) * ell).
Proof.
  pose proof pos4 as (P0 & P1 & Q0 & Q1). destruct M0_ell as [ME _]. split.
  - unfold Rpower. fold ell. replace (mm * ell) with (M0 * ell + (mm - M0) * ell) by ring. rewrite exp_plus, ME, exp_ln; auto. apply Rdiv_lt_0_compat; auto.
  - unfold Rpower. fold ell. rewrite Rmult_plus_distr_r, Rmult_1_l, exp_plus. unfold ell at 3. rewrite exp_ln by (apply Rdiv_lt_0_compat; auto). field. lra.
Qed.
Lemma y_ratio : / 2 ^ 400 <= y1 / y0 <= 2 ^ 400.
Proof.
  pose proof pos4 as (P0 & P1 & Q0 & Q1). destruct My0 as [A0 B0], My1 as [A1 B1]. assert (Z : 0 < 2 ^ 200) by (apply pow_lt; lra). assert (Y0 : / y0 <= 2 ^ 200). { rewrite <- (Rinv_inv (2 ^ 200)). apply Rinv_le_contravar; auto. apply Rinv_0_lt_compat; auto. } assert (Y1 : / 2 ^ 200 <= / y0) by (apply Rinv_le_contravar; auto).
  replace 400%nat with (200 + 200)%nat by lia. split. - apply lo_mult; auto. - rewrite pow_add. assert (0 < / y0) by (apply Rinv_0_lt_compat; auto). apply Rmult_le_compat; lra.
Qed.
Lemma exp_near t : Rabs t <= 1 / 100 -> / 2 <= exp t <= 2.
Proof. intros H. pose proof (exp_rel t H) as E. apply Rabs_le_inv in E. lra. Qed.
Definition PP := fpow rr mm.
Definition eta := (103 / 100 * Rabs mm + 32 / 10) * u64.
Lemma mm_u : Rabs mm * u64 <= 1 / 10 ^ 9 /\ 0 <= Rabs mm.
Proof. destruct mm_size as [S _]. pose proof iv_ok as [I _]. pose proof (Rabs_pos mm). assert (Rabs mm <= 281000) by lra. split; auto. rewrite u64_val. lra. Qed.
Lemma pow_rel : rel (102 / 100 * (Rabs mm * u64)) (Rpower rr mm) (Rpower (x1 / x0) mm) /\ / 2 ^ 500 <= Rpower rr mm <= 2 ^ 500 /\ / 2 ^ 402 <= Rpower (x1 / x0) mm.
Proof.
  destruct rr_ok as [_ L]. destruct mm_u as [U U0]. destruct grow_pos as [G _]. pose proof slope_err as S. pose proof TT_ok as T. pose proof y_ratio as Y. set (d := mm * (ln rr - ell)).
  assert (D : Rabs d <= Rabs mm * u64). { unfold d. rewrite Rabs_mult. apply Rmult_le_compat_l; auto. }
  assert (E : Rpower rr mm = Rpower (x1 / x0) mm * exp d). { unfold Rpower. fold ell. rewrite <- exp_plus. f_equal. unfold d. ring. }
  assert (W : / 2 <= exp ((mm - M0) * ell) <= 2). { apply exp_near. rewrite Rabs_mult, (Rabs_right ell) by lra. lra. } assert (W2 : / 2 <= exp d <= 2) by (apply exp_near; lra).
  assert (Z : 0 < / 2 ^ 400) by (apply Rinv_0_lt_compat, pow_lt; lra). assert (V : / 2 ^ 401 <= Rpower (x1 / x0) mm <= 2 ^ 401). { rewrite G. split. - replace 401%nat with (400 + 1)%nat by lia. apply lo_mult; [apply Y|rewrite pow_1; lra]. - replace 401%nat with (400 + 1)%nat by lia. rewrite pow_add, pow_1. apply Rmult_le_compat; lra. }
  split; [|split].
  - unfold rel. rewrite E. replace (Rpower (x1 / x0) mm * exp d - Rpower (x1 / x0) mm) with ((exp d - 1) * Rpower (x1 / x0) mm) by ring. rewrite Rabs_mult. apply Rmult_le_compat_r; [apply Rabs_pos|]. eapply Rle_trans; [apply exp_rel; lra|]. lra.
  - rewrite E. assert (0 < / 2 ^ 401) by (apply Rinv_0_lt_compat, pow_lt; lra). split. + apply Rle_trans with (/ 2 ^ (401 + 1)); [apply lo_le; lia|]. apply lo_mult; [apply V|rewrite pow_1; lra]. + apply Rle_trans with (2 ^ (401 + 1)); [|apply Rle_pow; [lra|lia]]. rewrite pow_add, pow_1. apply Rmult_le_compat; lra.
  - apply Rle_trans with (/ 2 ^ 401); [apply lo_le; lia|apply V].
Qed.
Definition AA := binary64 (x1 * PP).
Lemma A_rel : rel eta AA (x0 * exp ((mm + 1) * ell)).
Proof.
  pose proof pos4 as (P0 & P1 & Q0 & Q1). destruct pow_rel as (A & B & C). destruct rr_ok as [[R1 _] _]. pose proof (pow_ok rr mm R1 B) as D. fold PP in D. rewrite u2 in D. destruct mm_u as [U U0]. destruct grow_pos as [_ G]. assert (U1 : 0 < u64) by (rewrite u64_val; lra).
  assert (D1 : rel (2 * u64) PP (Rpower rr mm)). { unfold rel. rewrite (Rabs_right (Rpower rr mm)); [exact D|]. left. apply exp_pos. }
  pose proof (rel_trans _ _ _ _ _ D1 A ltac:(lra)) as F. set (e1 := 2 * u64 + _ + _) in F. assert (E1 : 0 <= e1 <= 102 / 100 * (Rabs mm * u64) + 201 / 100 * u64). { unfold e1. set (w := Rabs mm * u64) in *. assert (0 <= w) by (apply Rmult_le_pos; lra). assert (2 * u64 * (102 / 100 * w) <= 2 * u64 * (1 / 10 ^ 8)) by (apply Rmult_le_compat_l; lra). assert (0 <= 2 * u64 * (102 / 100 * w)) by (apply Rmult_le_pos; lra). lra. }
  assert (F2 : rel e1 (x1 * PP) (x0 * exp ((mm + 1) * ell))). { rewrite <- G. unfold rel in *. rewrite <- Rmult_minus_distr_l, !Rabs_mult, (Rabs_right x1) by lra. replace (e1 * (x1 * Rabs (Rpower (x1 / x0) mm))) with (x1 * (e1 * Rabs (Rpower (x1 / x0) mm))) by ring. apply Rmult_le_compat_l; lra. }
  assert (L : / 2 ^ 900 <= Rabs (x1 * PP)).
  { unfold rel in F. rewrite (Rabs_right (Rpower (x1 / x0) mm)) in F by (left; apply exp_pos). apply Rabs_le_inv in F. assert (0 < Rpower (x1 / x0) mm) by apply exp_pos. assert (e1 * Rpower (x1 / x0) mm <= 1 / 2 * Rpower (x1 / x0) mm) by (apply Rmult_le_compat_r; [lra|rewrite u64_val in *; lra]).
    assert (V : / 2 ^ 403 <= PP). { apply Rle_trans with (/ 2 ^ (402 + 1)); [right; reflexivity|]. rewrite pow_add, Rinv_mult, pow_1. assert (/ 2 ^ 402 * / 2 <= Rpower (x1 / x0) mm * / 2) by (apply Rmult_le_compat_r; lra). lra. }
    rewrite Rabs_right. - apply Rle_trans with (/ 2 ^ (200 + 403)); [apply lo_le; lia|]. apply lo_mult; auto. apply Mx1. - left. apply Rmult_lt_0_compat; auto. eapply Rlt_le_trans; [|exact V]. apply Rinv_0_lt_compat, pow_lt. lra. }
  pose proof (rel_trans _ _ _ _ _ (fl_rel _ L) F2 ltac:(lra)) as H. eapply rel_weak; [|exact H]. unfold eta. set (w := Rabs mm * u64) in *. assert (101 / 100 * u64 * e1 <= 101 / 100 * u64 * (1 / 10 ^ 8)) by (apply Rmult_le_compat_l; [lra|rewrite u64_val in *; lra]). replace ((103 / 100 * Rabs mm + 32 / 10) * u64) with (103 / 100 * w + 32 / 10 * u64) by (unfold w; ring). assert (0 <= w) by (unfold w; apply Rmult_le_pos; lra). lra.
Qed.
(** the cancellation in A - x0 *)
Lemma exp_gap a : a <> 0 -> exp a <= (1 + / Rabs a) * Rabs (exp a - 1).
Proof.
  intros H. pose proof (exp_pos a) as P. destruct (Rle_dec 0 a) as [A|A].
  - assert (A1 : 0 < a) by lra. rewrite (Rabs_right a) by lra. pose proof (exp_ineq1_le a). rewrite Rabs_right by lra. apply Rmult_le_reg_r with a; auto. replace ((1 + / a) * (exp a - 1) * a) with ((a + 1) * (exp a - 1)) by (field; lra). lra.
  - rewrite (Rabs_left a) by lra. assert (E : exp a <= 1) by (rewrite <- exp_0; apply Raux.exp_le; lra). rewrite Rabs_minus_sym, Rabs_right by lra. apply Rmult_le_reg_r with (- a); [lra|]. replace ((1 + / - a) * (1 - exp a) * - a) with ((1 - a) * (1 - exp a)) by (field; lra).
    pose proof (exp_ineq1_le (- a)) as K. assert (Q : exp a * exp (- a) = 1) by (rewrite <- exp_plus, Rplus_opp_r; apply exp_0). assert (X : exp a * (1 + - a) <= 1) by (apply Rle_trans with (exp a * exp (- a)); [apply Rmult_le_compat_l; lra|lra]). assert (X2 : exp a * (1 + - a) * (1 + - a) <= 1 * (1 + - a)) by (apply Rmult_le_compat_r; lra). assert (0 <= exp a * a ^ 2) by (apply Rmult_le_pos; [lra|apply pow2_ge_0]). lra.
Qed.
Definition aa := (mm + 1) * ell.
Definition DD := binary64 (AA - x0).
Definition cc := eta * (1 + / Rabs aa).
Lemma cc_pos : 0 <= eta /\ (aa <> 0 -> 0 <= cc).
Proof. assert (E : 0 <= eta). { unfold eta. pose proof (Rabs_pos mm). apply Rmult_le_pos; [lra|rewrite u64_val; lra]. } split; auto. intros H. apply Rmult_le_pos; auto. assert (0 < / Rabs aa) by (apply Rinv_0_lt_compat, Rabs_pos_lt; auto). lra. Qed.
Lemma D_rel : aa <> 0 -> rel (u64 + cc + u64 * cc) DD (x0 * (exp aa - 1)).
Proof.
  intros Ha. pose proof pos4 as (P0 & _). pose proof A_rel as A. unfold rel in A. fold aa in A. destruct cc_pos as [Ep Cp]. specialize (Cp Ha).
  assert (D : rel cc (AA - x0) (x0 * (exp aa - 1))). { unfold rel. replace (AA - x0 - x0 * (exp aa - 1)) with (AA - x0 * exp aa) by ring. eapply Rle_trans; [exact A|]. rewrite !Rabs_mult, (Rabs_right x0), (Rabs_right (exp aa)) by (try (left; apply exp_pos); lra).
    pose proof (exp_gap aa Ha) as G. unfold cc. replace (eta * (1 + / Rabs aa) * (x0 * Rabs (exp aa - 1))) with (eta * (x0 * ((1 + / Rabs aa) * Rabs (exp aa - 1)))) by ring. apply Rmult_le_compat_l; auto. apply Rmult_le_compat_l; lra. }
  destruct (b64_minus AA x0 (b64_double _) x0_double) as (e & He & E). assert (F : rel u64 DD (AA - x0)). { unfold rel, DD. rewrite E. replace ((AA - x0) * (1 + e) - (AA - x0)) with (e * (AA - x0)) by ring. rewrite Rabs_mult. apply Rmult_le_compat_r; auto. apply Rabs_pos. }
  apply (rel_trans _ _ _ _ _ F D). rewrite u64_val. lra.
Qed.
Definition kk := binary64 (mm + 1).
Lemma k_rel : rel u64 kk (mm + 1).
Proof. destruct (b64_plus mm 1 mm_double double_1) as (e & He & E). unfold rel, kk. rewrite E. replace ((mm + 1) * (1 + e) - (mm + 1)) with (e * (mm + 1)) by ring. rewrite Rabs_mult. apply Rmult_le_compat_r; auto. apply Rabs_pos. Qed.
Definition power_case := binary64 (binary64 (y0 / kk) * DD).
Lemma area_low : / 2 ^ 899 <= area y0 x0 x1 mm.
Proof.
  pose proof pos4 as (P0 & P1 & Q0 & Q1). pose proof x_lt as XL. destruct (area_int y0 x0 x1 mm ltac:(lra)) as (I & _). destruct pow_rel as (_ & _ & B). assert (B0 : 0 < / 2 ^ 402) by (apply Rinv_0_lt_compat, pow_lt; lra).
  assert (C : x0 * / 1000 <= x1 - x0). { pose proof ell_ok as E. pose proof r_ge as [R1 _]. assert (K : ln (x1 / x0) <= x1 / x0 - 1) by (pose proof (exp_ineq1_le (ln (x1 / x0))) as K; rewrite exp_ln in K; lra). fold ell in K. replace (x1 - x0) with (x0 * (x1 / x0 - 1)) by (field; lra). apply Rmult_le_compat_l; lra. }
  apply Rle_trans with ((x1 - x0) * (y0 * / 2 ^ 402)).
  - assert (Z1 : / 2 ^ 210 <= x1 - x0). { eapply Rle_trans; [|exact C]. replace 210%nat with (200 + 10)%nat by lia. apply lo_mult; [apply Mx0|]. apply Rinv_le_contravar; lra. } apply Rle_trans with (/ 2 ^ (210 + (200 + 402))); [apply lo_le; lia|]. apply lo_mult; auto. apply lo_mult; [apply My0|lra].
  - apply (is_RInt_le (fun _ => y0 * / 2 ^ 402) (fun x => y0 * Rpower (x / x0) mm) x0 x1); [lra|apply (is_RInt_const (V := R_NormedModule))|exact I|]. intros x Hx. apply Rmult_le_compat_l; [lra|].
    assert (L : 0 <= ln (x / x0) <= ell). { split. - rewrite <- ln_1. apply Rcomplements.ln_le; [lra|]. apply Rmult_le_reg_r with x0; [lra|]. unfold Rdiv. rewrite Rmult_assoc, Rinv_l; lra. - apply Rcomplements.ln_le; [apply Rdiv_lt_0_compat; lra|]. apply Rmult_le_compat_r; [left; apply Rinv_0_lt_compat|]; lra. }
    unfold Rpower in *. fold ell in B. destruct (Rle_dec 0 mm) as [m0|m0].
    + apply Rle_trans with 1. * apply Rle_trans with (/ 2 ^ 0); [apply lo_le; lia|simpl; lra]. * rewrite <- exp_0. apply Raux.exp_le. apply Rmult_le_pos; lra.
    + eapply Rle_trans; [exact B|]. apply Raux.exp_le. assert (- mm * ln (x / x0) <= - mm * ell) by (apply Rmult_le_compat_l; lra). lra.
Qed.
Lemma power_rel : mm + 1 <> 0 -> cc <= 1 / 100 -> rel (103 / 100 * cc + 6 * u64) power_case (area y0 x0 x1 mm).
Proof.
  intros Hk Hc. pose proof pos4 as (P0 & P1 & Q0 & Q1). pose proof x_lt as XL. assert (U1 : 0 < u64) by (rewrite u64_val; lra). assert (U2 : u64 <= 1 / 10 ^ 15) by (rewrite u64_val; lra).
  assert (Ha : aa <> 0). { unfold aa. apply Rmult_integral_contrapositive_currified; lra. } destruct cc_pos as [_ Cp]. specialize (Cp Ha). pose proof (D_rel Ha) as D. pose proof k_rel as K.
  pose proof (rel_inv _ _ _ K Hk ltac:(lra)) as KI. assert (Y : rel (102 / 100 * u64) (y0 / kk) (y0 / (mm + 1))). { apply (rel_scal _ y0 _ _ KI). }
  assert (YL : / 2 ^ 900 <= Rabs (y0 / kk)).
  { destruct mm_size as [S _]. pose proof iv_ok as [I _]. assert (KB : Rabs kk <= 2 ^ 20). { unfold rel in K. replace kk with ((mm + 1) + (kk - (mm + 1))) by ring. eapply Rle_trans; [apply Rabs_triang|]. assert (KM : Rabs (mm + 1) <= 281001) by (eapply Rle_trans; [apply Rabs_triang|]; rewrite Rabs_R1; lra). assert (u64 * Rabs (mm + 1) <= 1 * Rabs (mm + 1)) by (apply Rmult_le_compat_r; [apply Rabs_pos|lra]). lra. }
    assert (K0 : kk <> 0). { intros Z. unfold rel in K. rewrite Z in K. replace (0 - (mm + 1)) with (- (mm + 1)) in K by ring. rewrite Rabs_Ropp in K. assert (0 < Rabs (mm + 1)) by (apply Rabs_pos_lt; auto). assert (u64 * Rabs (mm + 1) <= 1 / 2 * Rabs (mm + 1)) by (apply Rmult_le_compat_r; lra). lra. }
    unfold Rdiv. rewrite Rabs_mult, (Rabs_right y0), Rabs_inv by lra. apply Rle_trans with (/ 2 ^ (200 + 20)); [apply lo_le; lia|]. apply lo_mult; [apply My0|]. apply Rinv_le_contravar; auto. apply Rabs_pos_lt; auto. }
  pose proof (rel_trans _ _ _ _ _ (fl_rel _ YL) Y ltac:(lra)) as Y2. assert (Y3 : rel (21 / 10 * u64) (binary64 (y0 / kk)) (y0 / (mm + 1))). { eapply rel_weak; [|exact Y2]. assert (u64 * u64 <= u64 * (1 / 10 ^ 15)) by (apply Rmult_le_compat_l; lra). lra. }
  pose proof (rel_mul _ _ _ _ _ _ Y3 D ltac:(lra)) as W. destruct (area_int y0 x0 x1 mm ltac:(lra)) as (_ & AE & _). specialize (AE Hk). fold ell in AE. fold aa in AE. replace (y0 / (mm + 1) * (x0 * (exp aa - 1))) with (area y0 x0 x1 mm) in W by (rewrite AE; field; auto).
  set (e1 := u64 + cc + u64 * cc) in W. set (z := u64 * cc) in *. assert (Z : 0 <= z <= u64 * (1 / 100)). { unfold z. split; [apply Rmult_le_pos; lra|apply Rmult_le_compat_l; lra]. } assert (Z2 : 21 / 10 * u64 * e1 <= 21 / 10 * u64 * (11 / 1000)) by (apply Rmult_le_compat_l; [lra|unfold e1; lra]). assert (Z3 : 0 <= 21 / 10 * u64 * e1) by (apply Rmult_le_pos; unfold e1; lra).
  set (e2 := 21 / 10 * u64 + e1 + 21 / 10 * u64 * e1) in W. assert (E2 : 0 <= e2 <= cc + 32 / 10 * u64) by (unfold e2, e1 in *; lra). pose proof (area_pos y0 x0 x1 mm Q0 ltac:(lra)) as Ap. pose proof area_low as AL.
  assert (WL : / 2 ^ 900 <= Rabs (binary64 (y0 / kk) * DD)). { unfold rel in W. rewrite (Rabs_right (area y0 x0 x1 mm)) in W by lra. assert (e2 * area y0 x0 x1 mm <= 1 / 2 * area y0 x0 x1 mm) by (apply Rmult_le_compat_r; lra). apply Rabs_le_inv in W. eapply Rle_trans; [|apply RRle_abs]. change 900%nat with (1 + 899)%nat. rewrite pow_add, pow_1, Rinv_mult. lra. }
  pose proof (rel_trans _ _ _ _ _ (fl_rel _ WL) W ltac:(lra)) as F. eapply rel_weak; [|exact F]. assert (101 / 100 * u64 * e2 <= 101 / 100 * u64 * (2 / 100)) by (apply Rmult_le_compat_l; lra). lra.
Qed.
(** ** the logarithm branch *)
Definition log_case := binary64 (binary64 (x0 * y0) * flog rr).
Lemma log_rel : rel (5 * u64 + 2 * u64 * / ell) log_case (area y0 x0 x1 (-1)).
Proof.
  pose proof pos4 as (P0 & P1 & Q0 & Q1). pose proof x_lt as XL. destruct rr_ok as [[R1 R2] L]. pose proof iv_ok as [I IE]. pose proof ell_top as Et. assert (U1 : 0 < u64) by (rewrite u64_val; lra). assert (U2 : u64 <= 1 / 10 ^ 15) by (rewrite u64_val; lra). pose proof h0_small as [[h1 h2] _].
  destruct (area_int y0 x0 x1 (-1) ltac:(lra)) as (_ & _ & AE). specialize (AE ltac:(lra)). fold ell in AE.
  assert (Z : / 2 ^ 200 <= rr). { apply Rle_trans with 1; auto. apply Rle_trans with (/ 2 ^ 0); [apply lo_le; lia|simpl; lra]. }
  pose proof (log_ok rr (conj Z R2)) as K. fold h0 in K. rewrite u2 in K. apply Rabs_le_inv in L. assert (Lr : Rabs (ln rr) <= ell + u64) by (apply Rabs_le; lra). assert (K1 : 2 * u64 * Rabs (ln rr) <= 2 * u64 * (ell + u64)) by (apply Rmult_le_compat_l; lra). assert (K2 : 2 * u64 * u64 <= 2 * u64 * (1 / 10 ^ 15)) by (apply Rmult_le_compat_l; lra).
  assert (G : rel (2 * u64 + 11 / 10 * u64 * / ell) (flog rr) ell). { unfold rel. rewrite (Rabs_right ell) by lra. replace ((2 * u64 + 11 / 10 * u64 * / ell) * ell) with (2 * u64 * ell + 11 / 10 * u64) by (field; lra). apply Rabs_le_inv in K. apply Rabs_le. lra. }
  set (w := u64 * / ell). assert (W : 0 < w <= u64 * 1000). { split; [apply Rmult_lt_0_compat; lra|apply Rmult_le_compat_l; lra]. } replace (11 / 10 * u64 * / ell) with (11 / 10 * w) in G by (unfold w; ring). replace (2 * u64 * / ell) with (2 * w) by (unfold w; ring).
  assert (XL0 : / 2 ^ 400 <= x0 * y0) by (replace 400%nat with (200 + 200)%nat by lia; apply lo_mult; [apply Mx0|apply My0]).
  assert (X : rel (101 / 100 * u64) (binary64 (x0 * y0)) (x0 * y0)). { apply fl_rel. eapply Rle_trans; [|apply RRle_abs]. eapply Rle_trans; [|exact XL0]. apply lo_le. lia. }
  pose proof (rel_mul _ _ _ _ _ _ X G ltac:(lra)) as T. set (e2 := 2 * u64 + 11 / 10 * w) in *. set (e1 := 101 / 100 * u64 + e2 + 101 / 100 * u64 * e2) in T.
  assert (B2 : 101 / 100 * u64 * e2 <= 101 / 100 * u64 * (1 / 1000)) by (apply Rmult_le_compat_l; [lra|unfold e2; rewrite u64_val in *; lra]). assert (B3 : 0 <= 101 / 100 * u64 * e2) by (apply Rmult_le_pos; unfold e2; lra).
  assert (B1 : 0 <= e1 <= 305 / 100 * u64 + 11 / 10 * w) by (unfold e1, e2 in *; lra). replace (x0 * y0 * ell) with (area y0 x0 x1 (-1)) in T by (rewrite AE; ring).
  assert (WL : / 2 ^ 900 <= Rabs (binary64 (x0 * y0) * flog rr)).
  { assert (E1 : e1 <= 1 / 2) by (rewrite u64_val in *; lra). assert (AL : / 2 ^ 410 <= area y0 x0 x1 (-1)). { rewrite AE. replace 410%nat with (400 + 10)%nat by lia. apply lo_mult; [rewrite Rmult_comm; exact XL0|]. eapply Rle_trans; [|exact ell_ok]. apply Rinv_le_contravar; lra. }
    assert (0 < / 2 ^ 410) by (apply Rinv_0_lt_compat, pow_lt; lra). unfold rel in T. rewrite (Rabs_right (area y0 x0 x1 (-1))) in T by lra. assert (e1 * area y0 x0 x1 (-1) <= 1 / 2 * area y0 x0 x1 (-1)) by (apply Rmult_le_compat_r; lra). apply Rabs_le_inv in T. eapply Rle_trans; [|apply RRle_abs].
    apply Rle_trans with (/ 2 ^ (1 + 410)); [apply lo_le; lia|]. rewrite pow_add, pow_1, Rinv_mult. lra. }
  pose proof (rel_trans _ _ _ _ _ (fl_rel _ WL) T ltac:(lra)) as F. eapply rel_weak; [|exact F]. assert (101 / 100 * u64 * e1 <= 101 / 100 * u64 * (1 / 1000)) by (apply Rmult_le_compat_l; [lra|rewrite u64_val in *; lra]). lra.
Qed.
(** ** both branches *)
Lemma cc_bound q : 0 < q -> q <= Rabs (mm + 1) -> cc <= u64 * (300 + 43 / 10 * / q) * (1 + / ell).
Proof.
  intros Hq Hk. pose proof iv_ok as [I IE]. destruct mm_size as [S _]. assert (U1 : 0 < u64) by (rewrite u64_val; lra). set (k := Rabs (mm + 1)) in *. assert (K0 : 0 < k) by lra.
  assert (Km : Rabs mm <= k + 1). { unfold k. replace mm with ((mm + 1) + - (1)) at 1 by ring. eapply Rle_trans; [apply Rabs_triang|]. rewrite Rabs_Ropp, Rabs_R1. lra. }
  assert (Kt : k <= 1 + 281 * / ell). { unfold k. eapply Rle_trans; [apply Rabs_triang|]. rewrite Rabs_R1. lra. }
  assert (A : / Rabs aa = / k * / ell) by (unfold aa; rewrite Rabs_mult, (Rabs_right ell), Rinv_mult by lra; reflexivity).
  assert (E : eta <= u64 * (103 / 100 * k + 423 / 100)). { unfold eta. rewrite Rmult_comm. apply Rmult_le_compat_l; lra. } assert (Ik : 0 < / k <= / q) by (split; [apply Rinv_0_lt_compat|apply Rinv_le_contravar]; lra).
  assert (Pe : 0 < / k * / ell) by (apply Rmult_lt_0_compat; lra). unfold cc. rewrite A. apply Rle_trans with (u64 * (103 / 100 * k + 423 / 100) * (1 + / k * / ell)); [apply Rmult_le_compat_r; lra|].
  replace (u64 * (103 / 100 * k + 423 / 100) * (1 + / k * / ell)) with (u64 * (103 / 100 * k + 423 / 100 + 103 / 100 * / ell + 423 / 100 * (/ k * / ell))) by (field; lra). rewrite Rmult_assoc. apply Rmult_le_compat_l; [lra|].
  assert (/ k * / ell <= / q * / ell) by (apply Rmult_le_compat_r; lra). assert (0 < / q * / ell) by (apply Rmult_lt_0_compat; lra). lra.
Qed.
Lemma exact_area : exact_cell x0 y0 x1 y1 = area y0 x0 x1 M0.
Proof. pose proof pos4 as (P0 & P1 & Q0 & Q1). unfold exact_cell. destruct (Req_EM_T y0 0); [lra|]. destruct (Req_EM_T y1 0); [lra|]. reflexivity. Qed.
Lemma cell_split : log_cell binary64 flog fpow y0 y1 x0 x1 = if Rltb (binary64 (1 / 10 ^ 10)) (Rabs kk) then power_case else log_case.
Proof.
  pose proof pos4 as (P0 & P1 & Q0 & Q1). pose proof x_lt as XL. unfold log_cell. assert (E : Reqb y0 0 || Reqb y1 0 || Reqb x0 x1 = false). { unfold Reqb. destruct (Req_EM_T y0 0); [lra|]. destruct (Req_EM_T y1 0); [lra|]. destruct (Req_EM_T x0 x1); [lra|]. reflexivity. } rewrite E. reflexivity.
Qed.
Lemma lit_near : 9999 / 10 ^ 14 <= binary64 (1 / 10 ^ 10) <= 10001 / 10 ^ 14.
Proof. pose proof (fl_err (1 / 10 ^ 10)) as F. pose proof h0_small as [[h1 h2] _]. rewrite (Rabs_right (1 / 10 ^ 10)) in F by lra. apply Rabs_le_inv in F. rewrite u64_val in *. lra. Qed.
Lemma to_exact : rel (102 / 100 * TT) (area y0 x0 x1 mm) (area y0 x0 x1 M0).
Proof.
  pose proof pos4 as (P0 & P1 & Q0 & Q1). pose proof x_lt as XL. pose proof slope_err as S. pose proof TT_ok as T. unfold rel. pose proof (area_pos y0 x0 x1 M0 Q0 ltac:(lra)). rewrite (Rabs_right (area y0 x0 x1 M0)) by lra. apply area_rel; auto; lra.
Qed.
Lemma power_final q e : 0 < q -> q <= Rabs (mm + 1) -> u64 * (300 + 43 / 10 * / q) <= e -> e <= 49 / 10 ^ 7 -> rel (104 / 100 * e * (1 + / ell) + 11 / 10 * TT) power_case (area y0 x0 x1 M0).
Proof.
  intros Hq Hk He He2. pose proof iv_ok as [I IE]. pose proof TT_ok as T. assert (U1 : 0 < u64) by (rewrite u64_val; lra). pose proof (cc_bound q Hq Hk) as C. assert (C2 : cc <= e * (1 + / ell)) by (eapply Rle_trans; [exact C|]; apply Rmult_le_compat_r; lra).
  assert (B : e * (1 + / ell) <= 49 / 10 ^ 7 * (1 + / ell)) by (apply Rmult_le_compat_r; lra). assert (K0 : mm + 1 <> 0). { intros Z. rewrite Z, Rabs_R0 in Hk. lra. }
  assert (Ha : aa <> 0). { unfold aa. apply Rmult_integral_contrapositive_currified; lra. } destruct cc_pos as [_ Cp]. specialize (Cp Ha). pose proof (power_rel K0 ltac:(lra)) as P. pose proof (rel_trans _ _ _ _ _ P to_exact ltac:(lra)) as F. eapply rel_weak; [|exact F].
  assert (X : (103 / 100 * cc + 6 * u64) * (102 / 100 * TT) <= 1 / 100 * (102 / 100 * TT)) by (apply Rmult_le_compat_r; [lra|rewrite u64_val in *; lra]). assert (U3 : 6 * u64 <= TT / 40). { unfold TT. assert (0 < u64 * / ell) by (apply Rmult_lt_0_compat; lra). lra. } lra.
Qed.
Lemma cell_final : rel (5 / 10 ^ 6 * (1 + / ell)) (log_cell binary64 flog fpow y0 y1 x0 x1) (exact_cell x0 y0 x1 y1).
Proof.
  rewrite exact_area, cell_split. pose proof lit_near as Lt. pose proof k_rel as K. unfold rel in K. pose proof iv_ok as [I IE]. pose proof TT_ok as T. pose proof ell_top as Et. assert (U1 : 0 < u64) by (rewrite u64_val; lra). assert (Ui : 0 < u64 * / ell) by (apply Rmult_lt_0_compat; lra). set (k := mm + 1) in *.
  assert (Kd : Rabs kk <= Rabs k + u64 * Rabs k /\ Rabs k <= Rabs kk + u64 * Rabs k). { split. - replace kk with (k + (kk - k)) at 1 by ring. eapply Rle_trans; [apply Rabs_triang|]. lra. - replace k with (kk + - (kk - k)) at 1 by ring. eapply Rle_trans; [apply Rabs_triang|]. rewrite Rabs_Ropp. lra. }
  pose proof (Rabs_pos k) as Kp. assert (Ku : u64 * Rabs k <= 1 / 10 ^ 10 * Rabs k) by (apply Rmult_le_compat_r; [auto|rewrite u64_val; lra]). assert (TE : TT <= 3 / 10 ^ 11 * (1 + / ell)) by (unfold TT; rewrite u64_val; lra).
  unfold Rltb. destruct (Rlt_dec (binary64 (1 / 10 ^ 10)) (Rabs kk)) as [B|B].
  - assert (Q : 9998 / 10 ^ 14 <= Rabs k) by lra. assert (Q2 : u64 * (300 + 43 / 10 * / (9998 / 10 ^ 14)) <= 478 / 10 ^ 8) by (rewrite u64_val; lra). pose proof (power_final (9998 / 10 ^ 14) (478 / 10 ^ 8) ltac:(lra) Q Q2 ltac:(lra)) as F. eapply rel_weak; [|exact F]. lra.
  - assert (Q : Rabs k <= 10002 / 10 ^ 14) by lra. pose proof pos4 as (P0 & P1 & Q0 & Q1). pose proof x_lt as XL. pose proof slope_err as S. pose proof (area_pos y0 x0 x1 M0 Q0 ltac:(lra)) as Ap. set (t := 10002 / 10 ^ 14 * ell + TT).
    assert (T1 : Rabs (-1 - M0) * ln (x1 / x0) <= t). { fold ell. replace (-1 - M0) with (- k + (mm - M0)) by (unfold k; ring). apply Rle_trans with ((Rabs k + Rabs (mm - M0)) * ell); [apply Rmult_le_compat_r; [lra|]; rewrite <- (Rabs_Ropp k); apply Rabs_triang|]. unfold t. assert (Rabs k * ell <= 10002 / 10 ^ 14 * ell) by (apply Rmult_le_compat_r; lra). lra. }
    assert (T2 : 0 <= t <= 6 / 10 ^ 8) by (unfold t; lra). pose proof (area_rel y0 x0 x1 M0 (-1) t Q0 ltac:(lra) T1 ltac:(lra)) as R0. assert (R1 : rel (102 / 100 * t) (area y0 x0 x1 (-1)) (area y0 x0 x1 M0)) by (unfold rel; rewrite (Rabs_right (area y0 x0 x1 M0)) by lra; exact R0).
    assert (LE : 0 <= 5 * u64 + 2 * u64 * / ell <= 1 / 10 ^ 10) by (rewrite u64_val in *; lra). pose proof (rel_trans _ _ _ _ _ log_rel R1 ltac:(lra)) as F. eapply rel_weak; [|exact F].
    assert ((5 * u64 + 2 * u64 * / ell) * (102 / 100 * t) <= 1 / 10 ^ 10 * (102 / 100 * t)) by (apply Rmult_le_compat_r; lra). lra.
Qed.
Lemma cell_away : 1 / 100 <= Rabs (M0 + 1) -> rel (3 / 10 ^ 11 * (1 + / ell)) (log_cell binary64 flog fpow y0 y1 x0 x1) (exact_cell x0 y0 x1 y1).
Proof.
  intros HM. rewrite exact_area, cell_split. pose proof lit_near as Lt. pose proof k_rel as K. unfold rel in K. pose proof iv_ok as [I IE]. pose proof TT_ok as T. assert (U1 : 0 < u64) by (rewrite u64_val; lra). assert (Ui : 0 < u64 * / ell) by (apply Rmult_lt_0_compat; lra). destruct mm_size as [_ MD].
  assert (TI : TT * / ell <= TT * 1000) by (apply Rmult_le_compat_l; lra). set (k := mm + 1) in *.
  assert (Q : 9 / 1000 <= Rabs k). { assert (Rabs (M0 + 1) <= Rabs k + Rabs (mm - M0)); [|lra]. replace (M0 + 1) with (k + - (mm - M0)) by (unfold k; ring). eapply Rle_trans; [apply Rabs_triang|]. rewrite Rabs_Ropp. lra. }
  assert (Kd : Rabs k <= Rabs kk + u64 * Rabs k). { replace k with (kk + - (kk - k)) at 1 by ring. eapply Rle_trans; [apply Rabs_triang|]. rewrite Rabs_Ropp. lra. }
  assert (Ku : u64 * Rabs k <= 1 / 10 ^ 10 * Rabs k) by (apply Rmult_le_compat_r; [lra|rewrite u64_val; lra]). unfold Rltb. destruct (Rlt_dec (binary64 (1 / 10 ^ 10)) (Rabs kk)) as [B|B]; [|lra].
  assert (Q2 : u64 * (300 + 43 / 10 * / (9 / 1000)) <= 800 * u64) by lra. pose proof (power_final (9 / 1000) (800 * u64) ltac:(lra) Q Q2 ltac:(rewrite u64_val; lra)) as F. eapply rel_weak; [|exact F]. unfold TT. rewrite u64_val in *. lra.
Qed.
End Cell.

(** ** C112: one interval *)
Theorem C112_cell : forall flog fpow x0 x1 y0 y1, accurate_ln flog -> accurate_pow fpow ->
  moderate x0 -> moderate x1 -> moderate y0 -> moderate y1 -> double x0 -> / 1000 <= ln (x1 / x0) ->
  0 < exact_cell x0 y0 x1 y1 /\
  Rabs (log_cell binary64 flog fpow y0 y1 x0 x1 - exact_cell x0 y0 x1 y1) <= 5 / 10 ^ 6 * (1 + / ln (x1 / x0)) * exact_cell x0 y0 x1 y1.
Proof.
  intros flog fpow x0 x1 y0 y1 HL HP X0 X1 Y0 Y1 D L. apply double_is in D. assert (P : 0 < exact_cell x0 y0 x1 y1). { rewrite exact_area by auto. apply area_pos; [apply moderate_ln; auto|]. split; [apply moderate_ln; auto|apply (x_lt x0 x1 y0 y1); auto]. }
  split; auto. pose proof (cell_final flog fpow HL HP x0 x1 y0 y1 X0 X1 Y0 Y1 D L) as F. unfold rel in F. rewrite (Rabs_right (exact_cell x0 y0 x1 y1)) in F by lra. exact F.
Qed.
Print Assumptions C112_cell.
(** not close to a slope of -1 *)
Theorem C112_away : forall flog fpow x0 x1 y0 y1, accurate_ln flog -> accurate_pow fpow ->
  moderate x0 -> moderate x1 -> moderate y0 -> moderate y1 -> double x0 -> / 1000 <= ln (x1 / x0) ->
  1 / 100 <= Rabs (ln (y1 / y0) / ln (x1 / x0) + 1) ->
  Rabs (log_cell binary64 flog fpow y0 y1 x0 x1 - exact_cell x0 y0 x1 y1) <= 3 / 10 ^ 11 * (1 + / ln (x1 / x0)) * exact_cell x0 y0 x1 y1.
Proof.
  intros flog fpow x0 x1 y0 y1 HL HP X0 X1 Y0 Y1 D L HM. destruct (C112_cell flog fpow x0 x1 y0 y1 HL HP X0 X1 Y0 Y1 D L) as [P _]. apply double_is in D.
  pose proof (cell_away flog fpow HL HP x0 x1 y0 y1 X0 X1 Y0 Y1 D L HM) as F. unfold rel in F. rewrite (Rabs_right (exact_cell x0 y0 x1 y1)) in F by lra. exact F.
Qed.
Print Assumptions C112_away.

(** ** C112: a whole table *)
Lemma cell_zero flog fpow x0 x1 y0 y1 : y0 = 0 \/ y1 = 0 -> log_cell binary64 flog fpow y0 y1 x0 x1 = 0 /\ exact_cell x0 y0 x1 y1 = 0.
Proof.
  intros H. unfold log_cell, exact_cell, Reqb. destruct (Req_EM_T y0 0) as [A|A]; [split; reflexivity|]. destruct (Req_EM_T y1 0) as [B|B]; [split; reflexivity|tauto].
Qed.
Lemma terms_near flog fpow lam e : / 1000 <= lam -> 0 <= e ->
  (forall x0 x1 y0 y1, moderate x0 -> moderate x1 -> moderate y0 -> moderate y1 -> double x0 -> lam <= ln (x1 / x0) ->
     0 < exact_cell x0 y0 x1 y1 /\ Rabs (log_cell binary64 flog fpow y0 y1 x0 x1 - exact_cell x0 y0 x1 y1) <= e * exact_cell x0 y0 x1 y1) -> e <= 1 ->
  forall y x, Forall moderate x -> Forall double x -> Forall (fun v => v = 0 \/ moderate v) y -> (forall a b, neighbours x a b -> lam <= ln (b / a)) ->
  Forall is_double (loglog_terms binary64 flog fpow y x) /\ Forall (fun v => 0 <= v) (loglog_terms binary64 flog fpow y x) /\ 0 <= exact_sum y x /\ (length (loglog_terms binary64 flog fpow y x) <= length x)%nat /\
  Rabs (total (loglog_terms binary64 flog fpow y x) - exact_sum y x) <= e * exact_sum y x.
Proof.
  intros Hl He C He1. assert (Z : forall w, Rabs (0 - 0) <= w * 0) by (intros w; rewrite Rminus_diag_eq, Rabs_R0 by auto; lra).
  induction y as [|y0 y IH]; intros x Mx Dx My N. { destruct x; cbn; repeat split; auto; try lra; try lia. }
  destruct x as [|x0 x]. { cbn; repeat split; auto; try lra; try lia. } cbn [loglog_terms exact_sum]. destruct y as [|y1 y]. { cbn; repeat split; auto; try lra; try lia. } destruct x as [|x1 x]. { cbn; repeat split; auto; try lra; try lia. }
  assert (N' : forall a b, neighbours (x1 :: x) a b -> lam <= ln (b / a)). { intros a b (i & A & B). apply N. exists (S i). split; auto. }
  inversion Mx as [|? ? M0 Mx']; subst. inversion Dx as [|? ? D0 Dx']; subst. inversion My as [|? ? Y0 My']; subst. destruct (IH (x1 :: x) Mx' Dx' My' N') as (A & B & P & L & E). inversion Mx' as [|? ? M1 _]; subst. inversion My' as [|? ? Y1 _]; subst.
  set (T := loglog_terms binary64 flog fpow (y1 :: y) (x1 :: x)) in *. set (S0 := exact_sum (y1 :: y) (x1 :: x)) in *.
  assert (K : is_double (log_cell binary64 flog fpow y0 y1 x0 x1) /\ 0 <= log_cell binary64 flog fpow y0 y1 x0 x1 /\ 0 <= exact_cell x0 y0 x1 y1 /\ Rabs (log_cell binary64 flog fpow y0 y1 x0 x1 - exact_cell x0 y0 x1 y1) <= e * exact_cell x0 y0 x1 y1).
  { assert (V : (y0 = 0 \/ y1 = 0) \/ (moderate y0 /\ moderate y1)) by tauto. destruct V as [V|[V0 V1]].
    - destruct (cell_zero flog fpow x0 x1 y0 y1 V) as [-> ->]. repeat split; try lra; [apply double_0|apply Z].
    - destruct (C x0 x1 y0 y1 M0 M1 V0 V1 D0) as [Q R]. { apply N. exists O. split; reflexivity. } repeat split; auto; try lra.
      + unfold log_cell. destruct (_ || _); [apply double_0|]. destruct (Rltb _ _); apply b64_double.
      + assert (e * exact_cell x0 y0 x1 y1 <= 1 * exact_cell x0 y0 x1 y1) by (apply Rmult_le_compat_r; lra). apply Rabs_le_inv in R. lra. }
  destruct K as (K1 & K2 & K3 & K4). repeat split. - constructor; auto. - constructor; auto. - lra. - cbn [length] in *. lia.
  - cbn [total]. set (c := log_cell _ _ _ _ _ _ _) in *. set (c' := exact_cell _ _ _ _) in *. replace (c + total T - (c' + S0)) with ((c - c') + (total T - S0)) by ring. eapply Rle_trans; [apply Rabs_triang|]. lra.
Qed.
Theorem C112_sum : forall flog fpow lam y x s, accurate_ln flog -> accurate_pow fpow -> / 1000 <= lam ->
  Forall moderate x -> Forall double x -> Forall (fun v => v = 0 \/ moderate v) y -> (forall a b, neighbours x a b -> lam <= ln (b / a)) ->
  INR (length x) <= 10 ^ 9 -> summed binary64 (loglog_terms binary64 flog fpow y x) s ->
  Rabs (s - exact_sum y x) <= 6 / 10 ^ 6 * (1 + / lam) * exact_sum y x.
Proof.
  intros flog fpow lam y x s HL HP Hl Mx Dx My N Ln S. assert (I : 0 < / lam <= 1000). { split; [apply Rinv_0_lt_compat; lra|]. replace 1000 with (/ / 1000) by lra. apply Rinv_le_contravar; lra. } set (e := 5 / 10 ^ 6 * (1 + / lam)).
  destruct (terms_near flog fpow lam e Hl ltac:(unfold e; lra)) with (y := y) (x := x) as (A & B & P & L & E); auto.
  { intros x0 x1 y0 y1 X0 X1 Y0 Y1 D Le. assert (Q : / ln (x1 / x0) <= / lam) by (apply Rinv_le_contravar; lra). destruct (C112_cell flog fpow x0 x1 y0 y1 HL HP X0 X1 Y0 Y1 D ltac:(lra)) as [C1 C2]. split; auto. eapply Rle_trans; [exact C2|]. apply Rmult_le_compat_r; unfold e; lra. }
  { unfold e; lra. }
  destruct (summed_near _ _ S A B) as [_ G]. apply within_near in G. set (T := total _) in *. set (X := exact_sum y x) in *. assert (e1 : e <= 1) by (unfold e; lra). assert (T0 : 0 <= T <= 2 * X). { apply Rabs_le_inv in E. assert (e * X <= 1 * X) by (apply Rmult_le_compat_r; lra). lra. }
  assert (K : INR (length (loglog_terms binary64 flog fpow y x) - 1) <= 10 ^ 9) by (eapply Rle_trans; [apply le_INR|exact Ln]; lia). set (n := (length (loglog_terms binary64 flog fpow y x) - 1)%nat) in *. pose proof (C105_size n s T ltac:(lra) ltac:(lra) G) as F.
  assert (F2 : 12 / 10 ^ 17 * INR n * T <= 12 / 10 ^ 8 * (2 * X)) by (apply Rmult_le_compat; try lra; apply Rmult_le_pos; [lra|apply pos_INR]).
  replace (s - X) with ((s - T) + (T - X)) by ring. eapply Rle_trans; [apply Rabs_triang|]. assert (0 <= / lam * X) by (apply Rmult_le_pos; lra). unfold e in E. lra.
Qed.
Print Assumptions C112_sum.

(** ** a table with a slope of -1 and an empty interval *)
Example C112_case :
  accurate_ln ln /\ accurate_pow Rpower /\ exact_sum [1; 1 / 2; 0] [1; 2; 4] = ln 2 /\
  (forall s, summed binary64 (loglog_terms binary64 ln Rpower [1; 1 / 2; 0] [1; 2; 4]) s -> Rabs (s - ln 2) <= 18 / 10 ^ 6 * ln 2) /\
  (exists s, summed binary64 (loglog_terms binary64 ln Rpower [1; 1 / 2; 0] [1; 2; 4]) s).
Proof.
  assert (HL : accurate_ln ln). { intros x _. rewrite Rminus_diag_eq, Rabs_R0 by auto. pose proof h0_small as [[h _] _]. unfold h0 in h. assert (0 <= / 2 ^ 52 * Rabs (ln x)) by (apply Rmult_le_pos; [lra|apply Rabs_pos]). lra. }
  assert (HP : accurate_pow Rpower). { intros x m _ _. rewrite Rminus_diag_eq, Rabs_R0 by auto. apply Rmult_le_pos; [lra|left; apply exp_pos]. }
  assert (L2 : 1 / 2 <= ln 2). { pose proof (exp_ineq1_le (- ln 2)) as K. rewrite exp_Ropp, exp_ln in K by lra. lra. }
  assert (E : exact_sum [1; 1 / 2; 0] [1; 2; 4] = ln 2).
  { cbn [exact_sum]. unfold exact_cell at 2. destruct (Req_EM_T (1 / 2) 0); [lra|]. destruct (Req_EM_T 0 0) as [_|Q]; [|tauto]. unfold exact_cell. destruct (Req_EM_T 1 0); [lra|]. destruct (Req_EM_T (1 / 2) 0); [lra|].
    assert (M : ln (1 / 2 / 1) / ln (2 / 1) = -1). { replace (1 / 2 / 1) with (/ 2) by lra. replace (2 / 1) with 2 by lra. rewrite ln_Rinv by lra. field. lra. } unfold through. rewrite M. fold (area 1 1 2 (-1)). destruct (area_int 1 1 2 (-1) ltac:(lra)) as (_ & _ & A). rewrite A by lra. replace (2 / 1) with 2 by lra. lra. }
  assert (B : 4 <= 2 ^ 200). { replace 4 with (2 ^ 2) by lra. apply Rle_pow; [lra|lia]. } assert (B' : / 2 ^ 200 <= 1 / 2). { apply Rle_trans with (/ 2 ^ 1); [apply lo_le; lia|lra]. }
  split; auto. split; auto. split; auto. split.
  - intros s S. rewrite <- E. replace (18 / 10 ^ 6) with (6 / 10 ^ 6 * (1 + / (1 / 2))) by lra. apply (C112_sum ln Rpower); auto; try lra.
    + repeat constructor; lra.
    + repeat constructor. * exists 1%Z, 0%Z. split; [reflexivity|split; [lia|simpl; lra]]. * exists 2%Z, 0%Z. split; [reflexivity|split; [lia|simpl; lra]]. * exists 4%Z, 0%Z. split; [reflexivity|split; [lia|simpl; lra]].
    + apply Forall_cons; [right; split; lra|]. apply Forall_cons; [right; split; lra|]. apply Forall_cons; [left; reflexivity|apply Forall_nil].
    + intros a b ([|[|[|[|i]]]] & A & B0); simpl in A, B0; try discriminate; inversion A; inversion B0; subst. * replace (2 / 1) with 2 by lra. auto. * replace (4 / 2) with 2 by lra. auto.
    + simpl. lra.
  - cbn [loglog_terms]. match goal with |- exists s, summed _ (?a :: ?b :: nil) s => exists (binary64 (a + b)); apply (sum_more binary64 _ (a :: nil) (b :: nil)); [apply Permutation_refl| |]; apply sum_one end.
Qed.
