(** C111: the pair production cross section in floating point arithmetic *)
From Coquelicot Require Import Coquelicot.
From Flocq Require Import Core.
From Flocq Require Import Relative.
From Verif Require Import Base NumpyInst MathUtils Conversion Spectra Blob Synchrotron Targets Absorption Spec_Blob Clock ClockFacts RoundFacts Spec_Round Calculus MathFacts AbsorptionFacts Props_Round Props_Round2 Props_Round3 Props_Round4 RoundSigma.
Open Scope R_scope.
#[local] Existing Instance prec53.

(** ** without rounding it is the function of Absorption.v *)
Theorem C111_model : forall P s, cross (fun x => x) (fun x => x ^ 2) (fun x => x ^ 4) clog (c_sigmaT P) s = sigma P s.
Proof.
  intros P s. unfold cross, sigma. destruct (Rltb_spec s 1) as [H|H]; auto. unfold cross_at, log_ratio, cm_speed. cbv zeta. destruct (beta_range s ltac:(lra)) as [B0 B1].
  rewrite (proj2 (Reqb_false (1 - sqrt (1 - 1 / s)) 0)); [reflexivity|lra].
Qed.
Print Assumptions C111_model.

(** the exact cross section, Breit and Wheeler, as a function of the velocity in the
    centre of momentum frame *)
Definition bw (b : R) : R := (1 - b ^ 2) * ((3 - b ^ 4) * ln ((1 + b) / (1 - b)) - 2 * b * (2 - b ^ 2)).
Definition exact_cross (sT s : R) : R := if Rlt_dec s 1 then 0 else 3 / 16 * sT * bw (sqrt (1 - 1 / s)).

(** ** the shape of the exact cross section *)
Definition lg (x : R) : R := ln ((1 + x) / (1 - x)).
Lemma lg_low x : 0 <= x < 1 -> 2 * x <= lg x.
Proof. apply ln_ratio. Qed.
Lemma lg_mono x y : 0 <= x <= y -> y < 1 -> lg x <= lg y.
Proof.
  intros H H1. unfold lg. apply Rcomplements.ln_le. { apply Rdiv_lt_0_compat; lra. } unfold Rdiv. apply Rmult_le_compat; try lra. { left. apply Rinv_0_lt_compat. lra. } apply Rinv_le_contravar; lra.
Qed.
Lemma exp_twice x a : 0 <= a -> a <= exp x -> a * a <= exp (2 * x).
Proof. intros H0 H. replace (2 * x) with (x + x) by ring. rewrite exp_plus. apply Rmult_le_compat; auto. Qed.
Lemma ln2_up : ln 2 <= 7 / 10.
Proof.
  rewrite <- (ln_exp (7 / 10)). apply Rcomplements.ln_le; [lra|]. pose proof (exp_ineq1_le (7 / 640)) as H.
  apply exp_twice in H; [|lra]. apply exp_twice in H; [|lra]. apply exp_twice in H; [|lra]. apply exp_twice in H; [|lra]. apply exp_twice in H; [|lra]. apply exp_twice in H; [|lra].
  replace (2 * (2 * (2 * (2 * (2 * (2 * (7 / 640))))))) with (7 / 10) in H by lra. eapply Rle_trans; [|exact H]. lra.
Qed.
Lemma ln_pow2 n : ln (2 ^ n) <= 7 / 10 * INR n.
Proof. rewrite <- Rpower_pow by lra. unfold Rpower. rewrite ln_exp. pose proof ln2_up. pose proof (pos_INR n). rewrite Rmult_comm. apply Rmult_le_compat_r; lra. Qed.
Lemma lg_top x : 0 <= x <= 1 - u64 -> lg x <= 38.
Proof.
  intros H. unfold lg. pose proof u64_pos as U. apply Rle_trans with (ln (2 ^ 54)). 2: { eapply Rle_trans; [apply ln_pow2|]. simpl INR. lra. }
  apply Rcomplements.ln_le; [apply Rdiv_lt_0_compat; lra|]. apply Rmult_le_reg_r with (1 - x); [lra|]. unfold Rdiv. rewrite Rmult_assoc, Rinv_l, Rmult_1_r by lra.
  apply Rle_trans with (2 ^ 54 * u64); [rewrite u64_val; lra|]. apply Rmult_le_compat_l; lra.
Qed.
Lemma lg_half x : 0 <= x <= 6 / 10 -> lg x <= 14 / 10.
Proof.
  intros H. apply Rle_trans with (ln (2 ^ 2)). 2: { eapply Rle_trans; [apply ln_pow2|]. simpl INR. lra. }
  apply Rcomplements.ln_le; [apply Rdiv_lt_0_compat; lra|]. apply Rmult_le_reg_r with (1 - x); [lra|]. unfold Rdiv. rewrite Rmult_assoc, Rinv_l, Rmult_1_r by lra. lra.
Qed.
Lemma bw_low x : 0 <= x < 1 -> 2 * x * (1 - x ^ 2) <= bw x.
Proof.
  intros H. pose proof (lg_low x H) as L. unfold bw. fold (lg x). set (q := lg x) in *. clearbody q. assert (0 <= x ^ 2 <= 1) by nra. assert (0 <= x ^ 4 <= x ^ 2) by (replace (x ^ 4) with (x ^ 2 * x ^ 2) by ring; nra).
  rewrite Rmult_comm. apply Rmult_le_compat_l; [lra|]. assert ((3 - x ^ 4) * (2 * x) <= (3 - x ^ 4) * q) by (apply Rmult_le_compat_l; lra). assert (0 <= 2 * x * (x ^ 2 - x ^ 4)) by (apply Rmult_le_pos; lra). lra.
Qed.
Definition dbw (x : R) : R := 2 + 18 * x ^ 2 - 12 * x ^ 4 - (6 * x + 4 * x ^ 3 - 6 * x ^ 5) * lg x.
Lemma bw_derive x : 0 <= x < 1 -> is_derive bw x (dbw x).
Proof.
  intros H. unfold bw, dbw, lg. assert (0 < 1 - x) by lra. assert (0 < 1 + x) by lra. auto_derive. { repeat split; try lra. apply Rdiv_lt_0_compat; lra. } unfold Rdiv. set (l := ln ((1 + x) * / (1 - x))). replace (ln ((1 + x) * / (1 + - x))) with l by reflexivity. field. split; lra.
Qed.
Lemma dbw_bound x q : 0 <= x < 1 -> lg x <= q -> 14 / 10 <= q -> Rabs (dbw x) <= 7 * q.
Proof.
  intros H Hq Hq1. pose proof (lg_low x H) as L. unfold dbw. set (l := lg x) in *. clearbody l.
  assert (S : 0 <= x ^ 2 <= 1) by nra. assert (Q : x ^ 4 = x ^ 2 * x ^ 2) by ring.
  assert (A : 2 <= 2 + 18 * x ^ 2 - 12 * x ^ 4 <= 9) by (rewrite Q; set (t := x ^ 2) in *; clearbody t; assert (0 <= t * (1 - t)) by (apply Rmult_le_pos; lra); assert (0 <= (t - 3 / 4) ^ 2) by apply pow2_ge_0; lra).
  assert (B : 0 <= 6 * x + 4 * x ^ 3 - 6 * x ^ 5 <= 7).
  { assert (W : 0 <= x ^ 3 <= 1) by (replace (x ^ 3) with (x * x ^ 2) by ring; split; [apply Rmult_le_pos; lra|]; rewrite <- (Rmult_1_r 1); apply Rmult_le_compat; lra).
    assert (W5 : 0 <= x ^ 3 * (1 - x ^ 2)) by (apply Rmult_le_pos; lra). assert (W6 : 0 <= x * (1 - x ^ 2 * x ^ 2)) by (apply Rmult_le_pos; [lra|]; assert (x ^ 2 * x ^ 2 <= 1 * 1) by (apply Rmult_le_compat; lra); lra).
    split; [replace (6 * x + 4 * x ^ 3 - 6 * x ^ 5) with (6 * (x * (1 - x ^ 2 * x ^ 2)) + 4 * x ^ 3) by ring; lra|].
    assert (V : x * (x ^ 2 - 1 / 3) ^ 2 * 6 = 6 * x ^ 5 - 4 * x ^ 3 + 2 / 3 * x) by field. assert (V0 : 0 <= x * (x ^ 2 - 1 / 3) ^ 2) by (apply Rmult_le_pos; [lra|apply pow2_ge_0]).
    lra. }
  assert (C : 0 <= (6 * x + 4 * x ^ 3 - 6 * x ^ 5) * l <= 7 * q) by (split; [apply Rmult_le_pos; lra|apply Rmult_le_compat; lra]). apply Rabs_le. lra.
Qed.
Lemma bw_lip_le x y q : 0 <= x <= y -> y < 1 -> lg y <= q -> 14 / 10 <= q -> Rabs (bw y - bw x) <= 7 * q * Rabs (y - x).
Proof.
  intros Hx Hy Ly Hq. destruct (MVT_gen bw x y dbw) as (c & Hc & E); rewrite Rmin_left, Rmax_right in * by lra.
  - intros t Ht. apply bw_derive. lra.
  - intros t Ht. apply continuity_pt_filterlim. apply (ex_derive_continuous bw). exists (dbw t). apply bw_derive. lra.
  - rewrite E, Rabs_mult. apply Rmult_le_compat_r; [apply Rabs_pos|]. apply dbw_bound; [lra| |lra]. apply Rle_trans with (lg y); auto. apply lg_mono; lra.
Qed.
Lemma bw_lip x y q : 0 <= x < 1 -> 0 <= y < 1 -> lg x <= q -> lg y <= q -> 14 / 10 <= q -> Rabs (bw x - bw y) <= 7 * q * Rabs (x - y).
Proof.
  intros Hx Hy Lx Ly Hq. destruct (Rle_dec x y) as [L|L]; [rewrite Rabs_minus_sym, (Rabs_minus_sym x)|]; apply bw_lip_le; lra.
Qed.

(** ** the computed velocity *)
Lemma double_1 : is_double 1.
Proof. replace 1 with (IZR 1 / 2 ^ 0) by (simpl; lra). apply pow2_double; lia. Qed.
Lemma top_double b : is_double b -> b < 1 -> b <= 1 - u64.
Proof.
  intros Db H. assert (E : pred radix2 (FLT_exp (-1074) 53) (bpow radix2 0) = 1 - u64).
  { rewrite pred_bpow. replace (FLT_exp (-1074) 53 0) with (-53)%Z by reflexivity. rewrite u64_val. simpl. lra. }
  rewrite <- E. apply pred_ge_gt; try typeclasses eauto; auto. change (is_double (bpow radix2 0)). simpl. apply double_1.
Qed.
Lemma u_num : u64 <= 1111 / 10 ^ 19.
Proof. rewrite u64_val. lra. Qed.
Lemma inv_range s : 1 <= s -> 0 < 1 / s <= 1.
Proof. intros H. split; [apply Rdiv_lt_0_compat; lra|]. apply Rmult_le_reg_r with s; [lra|]. unfold Rdiv. rewrite Rmult_assoc, Rinv_l by lra. lra. Qed.
Definition speed2 (s : R) : R := binary64 (1 - binary64 (1 / s)).
Lemma speed2_range s : 1 <= s -> 0 <= speed2 s <= 1.
Proof.
  intros H. pose proof (inv_range s H) as I. pose proof (b64_le_double _ _ double_1 (proj2 I)) as A. pose proof (b64_ge_double _ _ double_0 (Rlt_le _ _ (proj1 I))) as B. unfold speed2. split.
  - apply b64_ge_double; [apply double_0|lra].
  - apply b64_le_double; [apply double_1|lra].
Qed.
Lemma speed2_err s : 1 <= s -> Rabs (speed2 s - (1 - 1 / s)) <= 101 / 100 * u64.
Proof.
  intros H. pose proof (inv_range s H) as I. pose proof h0_small as [[h1 h2] _]. pose proof (fl_err (1 / s)) as A. rewrite (Rabs_right (1 / s)) in A by lra. set (x := 1 / s) in *.
  assert (D : Rabs ((1 - binary64 x) - (1 - x)) <= u64 * x + h0) by (replace ((1 - binary64 x) - (1 - x)) with (- (binary64 x - x)) by ring; rewrite Rabs_Ropp; exact A).
  pose proof (fl_of _ _ _ D) as F. rewrite (Rabs_right (1 - x)) in F by lra. eapply Rle_trans; [exact F|]. rewrite u64_val in *. lra.
Qed.
Lemma speed_range s : 1 <= s -> 0 <= cm_speed binary64 s <= 1.
Proof.
  intros H. destruct (speed2_range s H) as [A B]. unfold cm_speed. fold (speed2 s). split.
  - apply b64_ge_double; [apply double_0|apply sqrt_pos].
  - apply b64_le_double; [apply double_1|]. apply Rle_trans with (sqrt 1); [apply sqrt_le_1_alt; auto|rewrite sqrt_1; lra].
Qed.
Lemma root_err s : 1 <= s -> Rabs (cm_speed binary64 s - sqrt (speed2 s)) <= 101 / 100 * u64.
Proof.
  intros H. destruct (speed2_range s H) as [A B]. pose proof h0_small as [[h1 h2] _]. unfold cm_speed. fold (speed2 s). eapply Rle_trans; [apply fl_err|].
  assert (Q : 0 <= sqrt (speed2 s) <= 1) by (split; [apply sqrt_pos|]; apply Rle_trans with (sqrt 1); [apply sqrt_le_1_alt; auto|rewrite sqrt_1; lra]). rewrite Rabs_right by lra.
  assert (u64 * sqrt (speed2 s) <= u64 * 1) by (apply Rmult_le_compat_l; [rewrite u64_val|]; lra). rewrite u64_val in *. lra.
Qed.
Lemma sqrt_diff_sq a b : 0 <= a -> 0 <= b -> (sqrt a - sqrt b) ^ 2 <= Rabs (a - b) /\ Rabs (sqrt a - sqrt b) * sqrt b <= Rabs (a - b).
Proof.
  intros Ha Hb. pose proof (sqrt_pos a) as A. pose proof (sqrt_pos b) as B. assert (E : a - b = (sqrt a - sqrt b) * (sqrt a + sqrt b)) by (rewrite <- (sqrt_sqrt a Ha) at 1; rewrite <- (sqrt_sqrt b Hb) at 1; ring).
  rewrite E, Rabs_mult, (Rabs_right (sqrt a + sqrt b)) by lra. pose proof (Rabs_pos (sqrt a - sqrt b)). split.
  - rewrite <- pow2_abs. replace (Rabs (sqrt a - sqrt b) ^ 2) with (Rabs (sqrt a - sqrt b) * Rabs (sqrt a - sqrt b)) by ring. apply Rmult_le_compat_l; auto. apply Rabs_le. lra.
  - apply Rmult_le_compat_l; auto. lra.
Qed.
Lemma speed_any s : 1 <= s -> Rabs (cm_speed binary64 s - sqrt (1 - 1 / s)) <= 108 / 10 ^ 10.
Proof.
  intros H. pose proof (inv_range s H) as I. destruct (speed2_range s H) as [A B]. pose proof (root_err s H) as R0. pose proof (speed2_err s H) as E. destruct (sqrt_diff_sq (speed2 s) (1 - 1 / s)) as [Q _]; [lra|lra|].
  pose proof u_num. assert (K : Rabs (sqrt (speed2 s) - sqrt (1 - 1 / s)) <= 107 / 10 ^ 10). { destruct (Rle_or_lt (Rabs (sqrt (speed2 s) - sqrt (1 - 1 / s))) (107 / 10 ^ 10)) as [L|L]; auto. exfalso. rewrite <- pow2_abs in Q. set (w := Rabs (sqrt _ - sqrt _)) in *. assert (107 / 10 ^ 10 * (107 / 10 ^ 10) <= w * w) by (apply Rmult_le_compat; lra). replace (w ^ 2) with (w * w) in Q by ring. lra. }
  replace (cm_speed binary64 s - sqrt (1 - 1 / s)) with ((cm_speed binary64 s - sqrt (speed2 s)) + (sqrt (speed2 s) - sqrt (1 - 1 / s))) by ring. eapply Rle_trans; [apply Rabs_triang|]. lra.
Qed.
Lemma speed_mid s : 1 <= s -> Rabs (cm_speed binary64 s - sqrt (1 - 1 / s)) * sqrt (1 - 1 / s) <= 202 / 100 * u64.
Proof.
  intros H. pose proof (inv_range s H) as I. destruct (speed2_range s H) as [A B]. pose proof (root_err s H) as R0. pose proof (speed2_err s H) as E. destruct (sqrt_diff_sq (speed2 s) (1 - 1 / s)) as [_ Q]; [lra|lra|].
  destruct (beta_range s H) as [b0 b1]. set (b := sqrt (1 - 1 / s)) in *. apply Rle_trans with ((Rabs (cm_speed binary64 s - sqrt (speed2 s)) + Rabs (sqrt (speed2 s) - b)) * b).
  - apply Rmult_le_compat_r; auto. replace (cm_speed binary64 s - b) with ((cm_speed binary64 s - sqrt (speed2 s)) + (sqrt (speed2 s) - b)) by ring. apply Rabs_triang.
  - rewrite Rmult_plus_distr_r. assert (Rabs (cm_speed binary64 s - sqrt (speed2 s)) * b <= 101 / 100 * u64 * 1) by (apply Rmult_le_compat; try lra; apply Rabs_pos). lra.
Qed.

(** ** the formula at the computed velocity *)
(** numpy's powers and logarithm are accurate to one unit in the last place *)
Definition accurate_power (n : nat) (f : R -> R) : Prop := forall x, 0 <= x <= 1 -> Rabs (f x - x ^ n) <= / 2 ^ 52 * x ^ n + / 2 ^ 1000.
Definition accurate_log (f : R -> R) : Prop := forall x, 1 / 2 <= x <= fmax -> Rabs (f x - ln x) <= / 2 ^ 52 * Rabs (ln x) + / 2 ^ 1000.

Lemma near_ln k a b : 0 < b -> near k a b -> Rabs (ln a - ln b) <= INR k * u64.
Proof.
  intros Hb N. pose proof (near_pos _ _ _ N Hb) as Ha. destruct N as [A B]. pose proof u64_pos as U. pose proof (up_pos k) as P.
  assert (T : ln ((1 + u64) ^ k) <= INR k * u64). { rewrite <- Rpower_pow by lra. unfold Rpower. rewrite ln_exp. apply Rmult_le_compat_l; [apply pos_INR|]. left. rewrite <- (ln_exp u64) at 2. apply ln_increasing; [lra|]. apply exp_ineq1. lra. }
  apply Rcomplements.ln_le in A; auto. apply Rcomplements.ln_le in B; auto. rewrite ln_mult in A, B by auto. apply Rabs_le. lra.
Qed.
Lemma mul_err x x' y y' dx dy X Y : Rabs (x' - x) <= dx -> Rabs (y' - y) <= dy -> Rabs x <= X -> Rabs y <= Y -> Rabs (x' * y' - x * y) <= dx * (Y + dy) + X * dy.
Proof.
  intros Hx Hy HX HY. replace (x' * y' - x * y) with ((x' - x) * y' + x * (y' - y)) by ring. eapply Rle_trans; [apply Rabs_triang|]. rewrite !Rabs_mult. apply Rplus_le_compat; apply Rmult_le_compat; try apply Rabs_pos; auto.
  replace y' with (y + (y' - y)) by ring. eapply Rle_trans; [apply Rabs_triang|]. lra.
Qed.
(** rounding a number of bounded size *)
Lemma fl_up x y d X : Rabs (y - x) <= d -> Rabs x <= X -> Rabs (binary64 y - x) <= d + u64 * (X + d) + h0.
Proof. intros H HX. eapply Rle_trans; [apply fl_of; exact H|]. assert (u64 * (Rabs x + d) <= u64 * (X + d)) by (apply Rmult_le_compat_l; [rewrite u64_val|]; lra). lra. Qed.

Lemma fmax_big : 2 ^ 60 <= fmax <= 2 ^ 1024.
Proof.
  unfold fmax. assert (E : 0 < / 2 ^ 52 < 1) by lra. assert (A : 2 ^ 60 <= 2 ^ 1023) by (apply Rle_pow; [lra|lia]). change (2 ^ 1024) with (2 * 2 ^ 1023). set (x := 2 ^ 1023) in *. clearbody x. assert (P : 1 <= 2 ^ 60) by lra. set (y := 2 ^ 60) in *. clearbody y. set (e := / 2 ^ 52) in *. clearbody e. nra.
Qed.
Section At.
Variable fsq fqu flog : R -> R.
Hypothesis sq_ok : accurate_power 2 fsq.
Hypothesis qu_ok : accurate_power 4 fqu.
Hypothesis log_ok : accurate_log flog.
Variable sT b : R.
Hypothesis sT_ok : / 2 ^ 200 <= sT.
Hypothesis b_ok : 0 <= b <= 1.
Definition C0 := 3 / 16 * sT.
Lemma C0_ok : 0 < C0 /\ h0 <= u64 / 10 ^ 10 * C0.
Proof.
  assert (0 < / 2 ^ 200) by (apply Rinv_0_lt_compat, pow_lt; lra). unfold C0. split; [lra|].
  apply Rle_trans with (/ 2 ^ 100 * (3 / 16 * / 2 ^ 200)).
  - unfold h0. apply Rle_trans with (/ 2 ^ 303); [apply lo_le; lia|]. replace 303%nat with (100 + (200 + 3))%nat by lia. rewrite pow_add, pow_add, !Rinv_mult. apply Rmult_le_compat_l; [left; apply Rinv_0_lt_compat, pow_lt; lra|]. rewrite Rmult_comm. apply Rmult_le_compat_r; lra.
  - apply Rmult_le_compat; [left; apply Rinv_0_lt_compat, pow_lt; lra|lra|rewrite u64_val; lra|lra].
Qed.
Lemma b_pows : 0 <= b ^ 2 <= 1 /\ 0 <= b ^ 4 <= 1.
Proof. assert (0 <= b ^ 2 <= 1) by nra. split; auto. replace (b ^ 4) with (b ^ 2 * b ^ 2) by ring. nra. Qed.
Lemma sq_err : Rabs (fsq b - b ^ 2) <= 201 / 100 * u64.
Proof. pose proof b_pows. pose proof h0_small as [[] _]. pose proof (sq_ok b ltac:(lra)) as K. fold h0 in K. rewrite u2 in K. assert (u64 * b ^ 2 <= u64 * 1) by (apply Rmult_le_compat_l; [rewrite u64_val|]; lra). rewrite u64_val in *. lra. Qed.
Lemma qu_err : Rabs (fqu b - b ^ 4) <= 201 / 100 * u64.
Proof. pose proof b_pows. pose proof h0_small as [[] _]. pose proof (qu_ok b ltac:(lra)) as K. fold h0 in K. rewrite u2 in K. assert (u64 * b ^ 4 <= u64 * 1) by (apply Rmult_le_compat_l; [rewrite u64_val|]; lra). rewrite u64_val in *. lra. Qed.
Lemma const_minus k v v' : 1 <= k <= 3 -> 0 <= v <= 1 -> Rabs (v' - v) <= 201 / 100 * u64 -> Rabs (binary64 (k - v') - (k - v)) <= (k + 202 / 100) * u64.
Proof.
  intros Hk Hv H. pose proof h0_small as [[] _]. assert (D : Rabs ((k - v') - (k - v)) <= 201 / 100 * u64) by (replace ((k - v') - (k - v)) with (- (v' - v)) by ring; rewrite Rabs_Ropp; auto).
  eapply Rle_trans; [apply (fl_up _ _ _ k D); rewrite Rabs_right; lra|]. rewrite u64_val in *. lra.
Qed.
Lemma pre_err : Rabs (binary64 (binary64 (3 / 16 * sT) * binary64 (1 - fsq b)) - C0 * (1 - b ^ 2)) <= 51 / 10 * u64 * C0.
Proof.
  pose proof b_pows as [B2 _]. pose proof C0_ok as [C1 C2]. pose proof (const_minus 1 _ _ ltac:(lra) B2 sq_err) as A. fold C0. pose proof (fl_err C0) as E. rewrite (Rabs_right C0) in E by lra.
  assert (E' : Rabs (binary64 C0 - C0) <= 101 / 100 * u64 * C0) by (rewrite u64_val in *; lra).
  pose proof (mul_err _ _ _ _ _ _ C0 1 E' A ltac:(rewrite Rabs_right; lra) ltac:(rewrite Rabs_right; lra)) as M.
  eapply Rle_trans; [apply (fl_up _ _ _ C0 M)|].
  - rewrite Rabs_mult, (Rabs_right C0), (Rabs_right (1 - b ^ 2)) by lra. rewrite <- (Rmult_1_r C0) at 2. apply Rmult_le_compat_l; lra.
  - rewrite u64_val in *. lra.
Qed.
Hypothesis b_double : is_double b.
Hypothesis b_lt : b < 1.
Lemma lg_b : 0 <= lg b <= 38.
Proof. pose proof (lg_low b (conj (proj1 b_ok) b_lt)). split; [lra|]. apply lg_top. split; [lra|]. apply top_double; auto. Qed.
Lemma log_err : Rabs (log_ratio binary64 flog b - lg b) <= 82 * u64.
Proof.
  pose proof lg_b as L. pose proof (top_double b b_double b_lt) as T. pose proof u64_pos as U. pose proof h0_small as [[h1 h2] _]. pose proof double_1 as D1.
  assert (N1 : near 1 (binary64 (1 - b)) (1 - b)) by (apply fl_near_minus; auto; lra). assert (N2 : near 1 (binary64 (1 + b)) (1 + b)) by (apply fl_near_plus; auto; lra).
  unfold log_ratio. pose proof (near_pos _ _ _ N1 ltac:(lra)) as P1. rewrite (proj2 (Reqb_false (binary64 (1 - b)) 0)) by lra.
  assert (b1 : 0 <= 1 + b) by lra. assert (b2 : 0 < 1 - b) by lra. pose proof (near_div _ _ _ _ _ _ b1 b2 N2 N1) as N3. set (q := binary64 (1 + b) / binary64 (1 - b)) in *. set (Q := (1 + b) / (1 - b)) in *. simpl Nat.add in N3.
  assert (Q1 : 1 <= Q <= 2 ^ 54). { unfold Q. split; apply Rmult_le_reg_r with (1 - b); try lra; unfold Rdiv; rewrite Rmult_assoc, Rinv_l, Rmult_1_r by lra; [lra|]. apply Rle_trans with (2 ^ 54 * u64); [rewrite u64_val; lra|]. apply Rmult_le_compat_l; lra. }
  assert (q1 : 1 <= q). { unfold q. apply Rmult_le_reg_r with (binary64 (1 - b)); auto. unfold Rdiv. rewrite Rmult_assoc, Rinv_l, Rmult_1_r, Rmult_1_l by lra. apply b64_le. lra. }
  assert (N4 : near 1 (binary64 q) q). { apply fl_near. apply Rle_trans with 1; auto. change 1 with (bpow radix2 0). apply bpow_le. lia. }
  pose proof (near_trans _ _ _ _ _ N4 N3) as N. simpl Nat.add in N. assert (Qp : 0 < Q) by lra. pose proof (near_ln _ _ _ Qp N) as E. simpl INR in E. fold Q in E. change (ln Q) with (lg b) in E.
  assert (q2 : 1 <= binary64 q) by (apply b64_ge_double; auto). assert (q3 : binary64 q <= 2 ^ 60). { destruct N as [N _]. eapply Rle_trans; [exact N|]. apply Rle_trans with (2 ^ 54 * 2 ^ 3); [|lra]. apply Rmult_le_compat; try lra; [left; apply up_pos|]. apply pow_incr. lra. }
  pose proof fmax_big as FM. pose proof (log_ok (binary64 q) ltac:(lra)) as K. fold h0 in K. rewrite u2 in K.
  assert (A : Rabs (ln (binary64 q)) <= 39). { replace (ln (binary64 q)) with (lg b + (ln (binary64 q) - lg b)) by ring. eapply Rle_trans; [apply Rabs_triang|]. rewrite (Rabs_right (lg b)) by lra. rewrite u64_val in *. lra. }
  replace (flog (binary64 q) - lg b) with ((flog (binary64 q) - ln (binary64 q)) + (ln (binary64 q) - lg b)) by ring. eapply Rle_trans; [apply Rabs_triang|]. rewrite u64_val in *. lra.
Qed.
Definition bracket : R := (3 - b ^ 4) * lg b - 2 * b * (2 - b ^ 2).
Lemma bracket_ok : 0 <= bracket <= 114.
Proof.
  pose proof b_pows as [B2 B4]. pose proof lg_b as L. pose proof (lg_low b (conj (proj1 b_ok) b_lt)) as L2. unfold bracket. assert (0 <= 2 * b * (2 - b ^ 2)) by (apply Rmult_le_pos; lra). split.
  - assert ((3 - b ^ 4) * (2 * b) <= (3 - b ^ 4) * lg b) by (apply Rmult_le_compat_l; lra). assert (0 <= 2 * b * (1 + b ^ 2 - b ^ 4)) by (apply Rmult_le_pos; lra). lra.
  - assert ((3 - b ^ 4) * lg b <= 3 * 38) by (apply Rmult_le_compat; lra). lra.
Qed.
Lemma bracket_err : Rabs (binary64 (binary64 (binary64 (3 - fqu b) * log_ratio binary64 flog b) + binary64 (binary64 (- (2) * b) * binary64 (2 - fsq b))) - bracket) <= 690 * u64.
Proof.
  pose proof b_pows as [B2 B4]. pose proof lg_b as L. pose proof h0_small as [[h1 h2] _]. pose proof bracket_ok as K.
  pose proof (const_minus 3 _ _ ltac:(lra) B4 qu_err) as A3. pose proof (const_minus 2 _ _ ltac:(lra) B2 sq_err) as A2.
  pose proof (mul_err _ _ _ _ _ _ 3 38 A3 log_err ltac:(rewrite Rabs_right; lra) ltac:(rewrite Rabs_right; lra)) as M1.
  assert (T1 : Rabs (binary64 (binary64 (3 - fqu b) * log_ratio binary64 flog b) - (3 - b ^ 4) * lg b) <= 556 * u64).
  { eapply Rle_trans; [apply (fl_up _ _ _ 114 M1)|]. - rewrite Rabs_mult, (Rabs_right (3 - b ^ 4)), (Rabs_right (lg b)) by lra. assert ((3 - b ^ 4) * lg b <= 3 * 38) by (apply Rmult_le_compat; lra). lra. - rewrite u64_val in *. lra. }
  assert (A1 : Rabs (binary64 (- (2) * b) - - (2) * b) <= 201 / 100 * u64). { eapply Rle_trans; [apply fl_err|]. rewrite Rabs_mult, (Rabs_right b), Rabs_Ropp, (Rabs_right 2) by lra. assert (u64 * (2 * b) <= u64 * 2) by (apply Rmult_le_compat_l; [rewrite u64_val|]; lra). rewrite u64_val in *. lra. }
  assert (B1 : Rabs (- (2) * b) <= 2) by (rewrite Rabs_mult, (Rabs_right b), Rabs_Ropp, (Rabs_right 2) by lra; lra).
  pose proof (mul_err _ _ _ _ _ _ 2 2 A1 A2 B1 ltac:(rewrite Rabs_right; lra)) as M2.
  assert (T2 : Rabs (binary64 (binary64 (- (2) * b) * binary64 (2 - fsq b)) - - (2) * b * (2 - b ^ 2)) <= 18 * u64).
  { eapply Rle_trans; [apply (fl_up _ _ _ 4 M2)|]. - rewrite Rabs_mult, (Rabs_right (2 - b ^ 2)) by lra. assert (Rabs (- (2) * b) * (2 - b ^ 2) <= 2 * 2) by (apply Rmult_le_compat; try lra; apply Rabs_pos). lra. - rewrite u64_val in *. lra. }
  set (t1 := binary64 (binary64 (3 - fqu b) * _)) in *. set (t2 := binary64 (binary64 (- (2) * b) * _)) in *.
  assert (D : Rabs ((t1 + t2) - bracket) <= 574 * u64). { unfold bracket. replace (t1 + t2 - ((3 - b ^ 4) * lg b - 2 * b * (2 - b ^ 2))) with ((t1 - (3 - b ^ 4) * lg b) + (t2 - - (2) * b * (2 - b ^ 2))) by ring. eapply Rle_trans; [apply Rabs_triang|]. lra. }
  eapply Rle_trans; [apply (fl_up _ _ _ 114 D); rewrite Rabs_right; lra|]. rewrite u64_val in *. lra.
Qed.
Lemma cross_at_err : Rabs (cross_at binary64 fsq fqu flog sT b - C0 * bw b) <= 1500 * u64 * C0.
Proof.
  pose proof b_pows as [B2 B4]. pose proof bracket_ok as K. pose proof C0_ok as [C1 C2]. unfold cross_at. cbv zeta. replace (C0 * bw b) with (C0 * (1 - b ^ 2) * bracket) by (unfold bw, bracket, lg; ring).
  assert (P : 0 <= C0 * (1 - b ^ 2) <= C0) by (split; [apply Rmult_le_pos; lra|]; rewrite <- (Rmult_1_r C0) at 2; apply Rmult_le_compat_l; lra).
  pose proof (mul_err _ _ _ _ _ _ C0 114 pre_err bracket_err ltac:(rewrite Rabs_right; lra) ltac:(rewrite Rabs_right; lra)) as M.
  eapply Rle_trans; [apply (fl_up _ _ _ (C0 * 114) M)|].
  - rewrite Rabs_mult, (Rabs_right bracket), (Rabs_right (C0 * (1 - b ^ 2))) by lra. apply Rmult_le_compat; lra.
  - rewrite u64_val in *. lra.
Qed.
End At.

(** when the velocity rounds to 1 *)
Lemma cross_at_1 fsq fqu flog sT : accurate_power 2 fsq -> accurate_power 4 fqu -> accurate_log flog -> / 2 ^ 200 <= sT ->
  Rabs (cross_at binary64 fsq fqu flog sT 1) <= 12000 * u64 * (3 / 16 * sT).
Proof.
  intros Hs Hq Hl HT. assert (B1 : 0 <= 1 <= 1) by lra. pose proof (C0_ok sT HT) as [C1 C2]. pose proof (pre_err fsq Hs sT 1 HT B1) as A. replace (C0 sT * (1 - 1 ^ 2)) with 0 in A by ring. rewrite Rminus_0_r in A. pose proof h0_small as [[h1 h2] _].
  unfold cross_at. cbv zeta. set (pre := binary64 (binary64 (3 / 16 * sT) * _)) in *. unfold C0 in *. set (C := 3 / 16 * sT) in *.
  assert (Z0 : binary64 0 = 0) by apply fl_0. assert (LR : Rabs (log_ratio binary64 flog 1) <= 720).
  { unfold log_ratio. rewrite Rminus_eq_0, Z0, (proj2 (Reqb_true 0 0)) by auto. pose proof fmax_big as F. assert (P : 1 / 2 <= fmax <= fmax) by lra. pose proof (Hl fmax P) as K. fold h0 in K. rewrite u2 in K.
    assert (L0 : 0 <= ln fmax <= 717). { split. - rewrite <- ln_1. apply Rcomplements.ln_le; lra. - apply Rle_trans with (ln (2 ^ 1024)); [apply Rcomplements.ln_le; lra|]. eapply Rle_trans; [apply ln_pow2|]. rewrite INR_IZR_INZ. simpl IZR. lra. }
    rewrite (Rabs_right (ln fmax)) in K by lra. replace (flog fmax) with (ln fmax + (flog fmax - ln fmax)) by ring. eapply Rle_trans; [apply Rabs_triang|]. rewrite (Rabs_right (ln fmax)) by lra. rewrite u64_val in *. lra. }
  assert (S2 : Rabs (fsq 1 - 1) <= 201 / 100 * u64). { pose proof (sq_err fsq Hs 1 B1) as K. rewrite pow1 in K. exact K. }
  assert (S4 : Rabs (fqu 1 - 1) <= 201 / 100 * u64). { pose proof (qu_err fqu Hq 1 B1) as K. rewrite pow1 in K. exact K. }
  assert (O : 0 <= 1 <= 1) by lra. assert (K3 : 1 <= 3 <= 3) by lra. assert (K2 : 1 <= 2 <= 3) by lra.
  pose proof (const_minus 3 1 _ K3 O S4) as F3. pose proof (const_minus 2 1 _ K2 O S2) as F2.
  assert (Up : forall x X, Rabs x <= X -> 1 <= X -> Rabs (binary64 x) <= X * (1001 / 1000)).
  { intros x X H1 H2. assert (D : Rabs (x - x) <= 0) by (rewrite Rminus_eq_0, Rabs_R0; lra). pose proof (fl_up _ _ _ X D H1) as K. replace (binary64 x) with (x + (binary64 x - x)) by ring. eapply Rle_trans; [apply Rabs_triang|]. rewrite u64_val in *. lra. }
  assert (G3 : Rabs (binary64 (3 - fqu 1)) <= 21 / 10). { replace (binary64 (3 - fqu 1)) with (2 + (binary64 (3 - fqu 1) - (3 - 1))) by ring. eapply Rle_trans; [apply Rabs_triang|]. rewrite (Rabs_right 2) by lra. rewrite u64_val in *. lra. }
  assert (G2 : Rabs (binary64 (2 - fsq 1)) <= 11 / 10). { replace (binary64 (2 - fsq 1)) with (1 + (binary64 (2 - fsq 1) - (2 - 1))) by ring. eapply Rle_trans; [apply Rabs_triang|]. rewrite (Rabs_right 1) by lra. rewrite u64_val in *. lra. }
  assert (G1 : Rabs (binary64 (- (2) * 1)) <= 2 * (1001 / 1000)). { apply Up; [|lra]. rewrite Rmult_1_r, Rabs_Ropp, Rabs_right; lra. }
  assert (T1 : Rabs (binary64 (binary64 (3 - fqu 1) * log_ratio binary64 flog 1)) <= 21 / 10 * 720 * (1001 / 1000)) by (apply Up; [|lra]; rewrite Rabs_mult; apply Rmult_le_compat; try apply Rabs_pos; auto).
  assert (T2 : Rabs (binary64 (binary64 (- (2) * 1) * binary64 (2 - fsq 1))) <= 2 * (1001 / 1000) * (11 / 10) * (1001 / 1000)) by (apply Up; [|lra]; rewrite Rabs_mult; apply Rmult_le_compat; try apply Rabs_pos; auto).
  set (t1 := binary64 (binary64 (3 - fqu 1) * _)) in *. set (t2 := binary64 (binary64 (- (2) * 1) * _)) in *.
  assert (T : Rabs (binary64 (t1 + t2)) <= 1530 * (1001 / 1000)) by (apply Up; [|lra]; eapply Rle_trans; [apply Rabs_triang|lra]).
  assert (M : Rabs (pre * binary64 (t1 + t2) - 0) <= 51 / 10 * u64 * C * (1530 * (1001 / 1000))) by (rewrite Rminus_0_r, Rabs_mult; apply Rmult_le_compat; try apply Rabs_pos; auto).
  pose proof (fl_of _ _ _ M) as F. rewrite Rminus_0_r, Rabs_R0, Rplus_0_l in F. eapply Rle_trans; [exact F|]. rewrite u64_val in *. lra.
Qed.

(** ** far above the threshold *)
Lemma bw_tail s : 2 ^ 48 <= s -> 0 <= bw (sqrt (1 - 1 / s)) <= 8 / 10 ^ 10.
Proof.
  intros H. assert (H1 : 1 <= s) by lra. destruct (beta_range s H1) as [B0 B1]. pose proof (inv_range s H1) as I. assert (B2 : sqrt (1 - 1 / s) ^ 2 = 1 - 1 / s) by (rewrite pow2_sqrt; lra).
  pose proof (bw_low _ (conj B0 B1)) as L. rewrite B2 in L. set (b := sqrt (1 - 1 / s)) in *. split. { eapply Rle_trans; [|exact L]. apply Rmult_le_pos; lra. }
  assert (B4 : 0 <= b ^ 4) by (replace (b ^ 4) with (b ^ 2 * b ^ 2) by ring; apply Rmult_le_pos; lra). pose proof (lg_low b (conj B0 B1)) as G.
  assert (Q : (1 + b) / (1 - b) <= 4 * s). { apply Rmult_le_reg_r with ((1 - b) * (1 + b)); [apply Rmult_lt_0_compat; lra|]. replace ((1 + b) / (1 - b) * ((1 - b) * (1 + b))) with ((1 + b) ^ 2) by (field; lra). replace (4 * s * ((1 - b) * (1 + b))) with (4 * s * (1 - b ^ 2)) by ring. rewrite B2. replace (4 * s * (1 - (1 - 1 / s))) with 4 by (field; lra). nra. }
  set (w := sqrt (sqrt (4 * s))). assert (W4 : w ^ 4 = 4 * s). { unfold w. replace (sqrt (sqrt (4 * s)) ^ 4) with ((sqrt (sqrt (4 * s)) ^ 2) ^ 2) by ring. rewrite pow2_sqrt by apply sqrt_pos. apply pow2_sqrt. lra. }
  assert (W0 : 2 ^ 12 <= w). { unfold w. replace (2 ^ 12) with (sqrt (sqrt (2 ^ 48))). - apply sqrt_le_1_alt, sqrt_le_1_alt. lra. - replace (2 ^ 48) with (2 ^ 24 * 2 ^ 24) by ring. rewrite sqrt_square by lra. replace (2 ^ 24) with (2 ^ 12 * 2 ^ 12) by ring. apply sqrt_square. lra. }
  assert (Lw : lg b <= 4 * w). { unfold lg. apply Rle_trans with (ln (4 * s)). { apply Rcomplements.ln_le; auto. apply Rdiv_lt_0_compat; lra. } rewrite <- W4. rewrite <- (Rpower_pow 4 w) by lra. unfold Rpower. rewrite ln_exp. replace (INR 4) with 4 by (simpl; lra). apply Rmult_le_compat_l; [lra|]. left. pose proof (exp_ineq1 w ltac:(lra)) as X. rewrite <- (ln_exp w) at 2. apply ln_increasing; lra. }
  unfold bw. fold (lg b). rewrite B2. replace (1 - (1 - 1 / s)) with (1 / s) by ring. apply Rle_trans with (1 / s * (3 * (4 * w))).
  - apply Rmult_le_compat_l; [lra|]. assert ((3 - b ^ 4) * lg b <= 3 * lg b) by (apply Rmult_le_compat_r; lra). assert (0 <= 2 * b * (2 - (1 - 1 / s))) by (apply Rmult_le_pos; lra). lra.
  - replace (1 / s) with (4 / w ^ 4) by (rewrite W4; field; lra). replace (4 / w ^ 4 * (3 * (4 * w))) with (48 * / (w ^ 3)) by (field; lra). assert (W3 : 2 ^ 12 * (2 ^ 12 * 2 ^ 12) <= w ^ 3). { replace (w ^ 3) with (w * (w * w)) by ring. assert (2 ^ 12 * 2 ^ 12 <= w * w) by (apply Rmult_le_compat; lra). apply Rmult_le_compat; lra. }
    apply Rle_trans with (48 * / (2 ^ 12 * (2 ^ 12 * 2 ^ 12))); [|lra]. apply Rmult_le_compat_l; [lra|]. apply Rinv_le_contravar; lra.
Qed.

(** ** the computed velocity against 1 *)
Lemma below_1 s : 1 <= s <= 2 ^ 48 -> sqrt (1 - 1 / s) <= 1 - u64 /\ cm_speed binary64 s < 1.
Proof.
  intros [H1 H2]. destruct (beta_range s H1) as [B0 B1]. pose proof (inv_range s H1) as I. assert (B2 : sqrt (1 - 1 / s) ^ 2 = 1 - 1 / s) by (rewrite pow2_sqrt; lra). pose proof (speed_any s H1) as A. pose proof (speed_mid s H1) as M. set (b := sqrt (1 - 1 / s)) in *. set (a := cm_speed binary64 s) in *.
  assert (D : / 2 ^ 49 <= 1 - b). { apply Rle_trans with (/ 2 * (1 / s)). - replace (/ 2 * (1 / s)) with (/ (2 * s)) by (field; lra). apply Rinv_le_contravar; lra. - assert (1 / s = (1 - b) * (1 + b)) by (replace ((1 - b) * (1 + b)) with (1 - b ^ 2) by ring; rewrite B2; ring). assert ((1 - b) * (1 + b) <= (1 - b) * 2) by (apply Rmult_le_compat_l; lra). lra. }
  pose proof u64_val as U. split; [lra|]. destruct (Rle_dec b (1 / 2)) as [L|L].
  - apply Rabs_le_inv in A. lra.
  - assert (M2 : Rabs (a - b) * (1 / 2) <= Rabs (a - b) * b) by (apply Rmult_le_compat_l; [apply Rabs_pos|lra]). assert (A2 : Rabs (a - b) <= 5 * u64) by lra. apply Rabs_le_inv in A2. lra.
Qed.

(** ** the theorems *)
Lemma cross_split fsq fqu flog sT s q : accurate_power 2 fsq -> accurate_power 4 fqu -> accurate_log flog -> / 2 ^ 200 <= sT -> 1 <= s <= 2 ^ 48 ->
  lg (cm_speed binary64 s) <= q -> lg (sqrt (1 - 1 / s)) <= q -> 14 / 10 <= q ->
  Rabs (cross binary64 fsq fqu flog sT s - exact_cross sT s) <= 3 / 16 * sT * (1500 * u64 + 7 * q * Rabs (cm_speed binary64 s - sqrt (1 - 1 / s))).
Proof.
  intros Hs Hq Hl HT H Q1 Q2 Q3. destruct (below_1 s H) as [B1 A1]. destruct (speed_range s (proj1 H)) as [A0 _]. destruct (beta_range s (proj1 H)) as [b0 b1]. pose proof (C0_ok sT HT) as [C1 _]. unfold C0 in C1.
  unfold cross, exact_cross. rewrite (proj2 (Rltb_false s 1)) by lra. destruct (Rlt_dec s 1) as [K|_]; [lra|].
  pose proof (cross_at_err fsq fqu flog Hs Hq Hl sT (cm_speed binary64 s) HT ltac:(lra) (b64_double _) A1) as E. unfold C0 in E.
  pose proof (bw_lip (cm_speed binary64 s) (sqrt (1 - 1 / s)) q ltac:(lra) ltac:(lra) Q1 Q2 Q3) as L. set (a := cm_speed binary64 s) in *. set (b := sqrt (1 - 1 / s)) in *. set (X := cross_at _ _ _ _ _ a) in *. set (C := 3 / 16 * sT) in *.
  replace (X - C * bw b) with ((X - C * bw a) + C * (bw a - bw b)) by ring. eapply Rle_trans; [apply Rabs_triang|]. rewrite (Rabs_mult C), (Rabs_right C) by lra.
  assert (C * Rabs (bw a - bw b) <= C * (7 * q * Rabs (a - b))) by (apply Rmult_le_compat_l; lra). lra.
Qed.

(** relative accuracy from the threshold up: it degrades only next to the threshold and far above it *)
Theorem C111_relative : forall fsq fqu flog sT s, accurate_power 2 fsq -> accurate_power 4 fqu -> accurate_log flog -> / 2 ^ 200 <= sT -> 1 < s <= 2 ^ 48 ->
  0 < exact_cross sT s /\ Rabs (cross binary64 fsq fqu flog sT s - exact_cross sT s) <= 1100 / 2 ^ 53 * (s ^ 2 / (s - 1)) * exact_cross sT s.
Proof.
  intros fsq fqu flog sT s Hs Hq Hl HT H. assert (H1 : 1 <= s <= 2 ^ 48) by lra. destruct (beta_range s (proj1 H1)) as [b0 b1]. pose proof (inv_range s (proj1 H1)) as I. pose proof (C0_ok sT HT) as [C1 _]. unfold C0 in C1.
  assert (I1 : 1 / s < 1). { apply Rmult_lt_reg_r with s; [lra|]. unfold Rdiv. rewrite Rmult_assoc, Rinv_l by lra. lra. }
  assert (B2 : sqrt (1 - 1 / s) ^ 2 = 1 - 1 / s) by (rewrite pow2_sqrt; lra). pose proof (speed_any s (proj1 H1)) as A. pose proof (speed_mid s (proj1 H1)) as M. destruct (below_1 s H1) as [B1 A1]. destruct (speed_range s (proj1 H1)) as [A0 _].
  pose proof (fun q => cross_split fsq fqu flog sT s q Hs Hq Hl HT H1) as S. pose proof (bw_low _ (conj b0 b1)) as L. rewrite B2 in L.
  assert (bp : 0 < sqrt (1 - 1 / s)) by (apply sqrt_lt_R0; lra).
  assert (X : exact_cross sT s = 3 / 16 * sT * bw (sqrt (1 - 1 / s))) by (unfold exact_cross; destruct (Rlt_dec s 1); [lra|reflexivity]). rewrite X in *.
  assert (F : s ^ 2 / (s - 1) = s * / (sqrt (1 - 1 / s) * sqrt (1 - 1 / s))). { replace (sqrt (1 - 1 / s) * sqrt (1 - 1 / s)) with (1 - 1 / s) by (transitivity (sqrt (1 - 1 / s) ^ 2); [symmetry; exact B2|ring]). field. split; lra. }
  rewrite F. set (b := sqrt (1 - 1 / s)) in *. set (a := cm_speed binary64 s) in *. set (C := 3 / 16 * sT) in *.
  assert (G : 0 < bw b) by (eapply Rlt_le_trans; [|exact L]; apply Rmult_lt_0_compat; lra). split; [apply Rmult_lt_0_compat; lra|].
  assert (N : 1500 * u64 * b + 7 * 38 * (202 / 100 * u64) <= 2200 * u64 * 1) by (assert (u64 * b <= u64 * 1) by (apply Rmult_le_compat_l; [rewrite u64_val|]; lra); rewrite u64_val in *; lra).
  assert (T : lg a <= 38) by (apply lg_top; split; [lra|]; apply top_double; [apply b64_double|auto]). assert (T' : lg b <= 38) by (apply lg_top; lra).
  specialize (S 38 T T' ltac:(lra)). eapply Rle_trans; [exact S|]. change (1100 / 2 ^ 53) with (1100 * u64).
  replace (1100 * u64 * (s * / (b * b)) * (C * bw b)) with (C * (1100 * u64 * (s * / (b * b)) * bw b)) by ring. apply Rmult_le_compat_l; [lra|].
  apply Rle_trans with (2200 * u64 * / b).
  - apply Rmult_le_reg_r with b; auto. rewrite (Rmult_assoc (2200 * u64)), Rinv_l by lra. rewrite Rmult_plus_distr_r. assert (7 * 38 * Rabs (a - b) * b <= 7 * 38 * (202 / 100 * u64)) by lra. lra.
  - apply Rle_trans with (1100 * u64 * (s * / (b * b)) * (2 * b * (1 - (1 - 1 / s)))).
    + right. field. split; lra.
    + apply Rmult_le_compat_l; auto. apply Rmult_le_pos; [rewrite u64_val; lra|]. apply Rmult_le_pos; [lra|]. left. apply Rinv_0_lt_compat. apply Rmult_lt_0_compat; lra.
Qed.
Print Assumptions C111_relative.

Theorem C111_digits : forall fsq fqu flog sT s, accurate_power 2 fsq -> accurate_power 4 fqu -> accurate_log flog -> / 2 ^ 200 <= sT -> 1001 / 1000 <= s <= 10 ^ 5 ->
  Rabs (cross binary64 fsq fqu flog sT s - exact_cross sT s) <= 2 / 10 ^ 8 * exact_cross sT s.
Proof.
  intros fsq fqu flog sT s Hs Hq Hl HT H. destruct (C111_relative fsq fqu flog sT s Hs Hq Hl HT ltac:(lra)) as [P K]. eapply Rle_trans; [exact K|]. apply Rmult_le_compat_r; [lra|].
  assert (G : s ^ 2 / (s - 1) <= 101000). { apply Rmult_le_reg_r with (s - 1); [lra|]. unfold Rdiv. rewrite Rmult_assoc, Rinv_l by lra. rewrite Rmult_1_r. nra. }
  change (1100 / 2 ^ 53) with (1100 * u64). apply Rle_trans with (1100 * u64 * 101000); [apply Rmult_le_compat_l; [rewrite u64_val; lra|auto]|rewrite u64_val; lra].
Qed.
Print Assumptions C111_digits.

(** one number for every s *)
Theorem C111_uniform : forall fsq fqu flog sT s, accurate_power 2 fsq -> accurate_power 4 fqu -> accurate_log flog -> / 2 ^ 200 <= sT ->
  Rabs (cross binary64 fsq fqu flog sT s - exact_cross sT s) <= 2 / 10 ^ 8 * sT.
Proof.
  intros fsq fqu flog sT s Hs Hq Hl HT. pose proof (C0_ok sT HT) as [C1 _]. unfold C0 in C1. destruct (Rlt_dec s 1) as [Lt|Ge].
  { unfold cross, exact_cross. rewrite (proj2 (Rltb_true s 1) Lt). destruct (Rlt_dec s 1); [|lra]. rewrite Rminus_0_r, Rabs_R0. lra. }
  assert (H1 : 1 <= s) by lra. destruct (beta_range s H1) as [b0 b1]. destruct (speed_range s H1) as [A0 A1]. pose proof (speed_any s H1) as A. pose proof (speed_mid s H1) as M. pose proof u_num as Un. pose proof u64_pos as Up.
  destruct (Rle_dec s (2 ^ 48)) as [Lo|Hi].
  - assert (H2 : 1 <= s <= 2 ^ 48) by lra. destruct (below_1 s H2) as [B1 A2]. pose proof (fun q => cross_split fsq fqu flog sT s q Hs Hq Hl HT H2) as S. destruct (Rle_dec (sqrt (1 - 1 / s)) (1 / 2)) as [L|L].
    + set (b := sqrt (1 - 1 / s)) in *. set (a := cm_speed binary64 s) in *. assert (La : lg a <= 14 / 10) by (apply lg_half; apply Rabs_le_inv in A; lra). assert (Lb : lg b <= 14 / 10) by (apply lg_half; lra).
      specialize (S (14 / 10) La Lb ltac:(lra)). eapply Rle_trans; [exact S|]. apply Rle_trans with (3 / 16 * sT * (1500 * u64 + 7 * (14 / 10) * (108 / 10 ^ 10))); [apply Rmult_le_compat_l; lra|]. rewrite u64_val. lra.
    + set (b := sqrt (1 - 1 / s)) in *. set (a := cm_speed binary64 s) in *. assert (T : lg a <= 38) by (apply lg_top; split; [lra|]; apply top_double; [apply b64_double|auto]). assert (T' : lg b <= 38) by (apply lg_top; lra).
      assert (M2 : Rabs (a - b) * (1 / 2) <= Rabs (a - b) * b) by (apply Rmult_le_compat_l; [apply Rabs_pos|lra]). specialize (S 38 T T' ltac:(lra)). eapply Rle_trans; [exact S|]. apply Rle_trans with (3 / 16 * sT * (1500 * u64 + 7 * 38 * (5 * u64))); [apply Rmult_le_compat_l; lra|]. rewrite u64_val. lra.
  - apply Rnot_le_lt in Hi. pose proof (bw_tail s (Rlt_le _ _ Hi)) as W. pose proof (inv_range s H1) as I. assert (I2 : 1 / s <= / 2 ^ 48) by (unfold Rdiv; rewrite Rmult_1_l; apply Rinv_le_contravar; lra).
    assert (B2 : sqrt (1 - 1 / s) ^ 2 = 1 - 1 / s) by (rewrite pow2_sqrt; lra).
    assert (X : exact_cross sT s = 3 / 16 * sT * bw (sqrt (1 - 1 / s))) by (unfold exact_cross; destruct (Rlt_dec s 1); [lra|reflexivity]). rewrite X. unfold cross. rewrite (proj2 (Rltb_false s 1)) by lra.
    assert (K : Rabs (cross_at binary64 fsq fqu flog sT (cm_speed binary64 s)) <= 3 / 16 * sT * (2 / 10 ^ 11)).
    { destruct (Req_dec (cm_speed binary64 s) 1) as [E1|E1].
      - rewrite E1. eapply Rle_trans; [apply cross_at_1; auto|]. rewrite u64_val. lra.
      - assert (A2 : cm_speed binary64 s < 1) by lra. pose proof (cross_at_err fsq fqu flog Hs Hq Hl sT (cm_speed binary64 s) HT (conj A0 A1) (b64_double _) A2) as E. unfold C0 in E.
        pose proof (bracket_ok (cm_speed binary64 s) (conj A0 A1) (b64_double _) A2) as Br. set (b := sqrt (1 - 1 / s)) in *. set (a := cm_speed binary64 s) in *.
        assert (Bg : 1 / 2 <= b) by (destruct (Rle_dec (1 / 2) b); auto; exfalso; assert (b ^ 2 <= 1 / 4) by nra; lra). assert (M2 : Rabs (a - b) * (1 / 2) <= Rabs (a - b) * b) by (apply Rmult_le_compat_l; [apply Rabs_pos|lra]). assert (A3 : Rabs (a - b) <= 5 * u64) by lra. apply Rabs_le_inv in A3.
        assert (Bh : 1 - b <= 1 / s). { assert (1 / s = (1 - b) * (1 + b)) by (replace ((1 - b) * (1 + b)) with (1 - b ^ 2) by ring; rewrite B2; ring). assert ((1 - b) * 1 <= (1 - b) * (1 + b)) by (apply Rmult_le_compat_l; lra). lra. }
        assert (Wa : 0 <= bw a <= 9000 * u64). { replace (bw a) with ((1 - a ^ 2) * bracket a) by (unfold bw, bracket, lg; ring). assert (0 <= 1 - a ^ 2 <= 75 * u64) by (rewrite u64_val in *; split; nra). split; [apply Rmult_le_pos; lra|]. apply Rle_trans with (75 * u64 * 114); [apply Rmult_le_compat; lra|rewrite u64_val; lra]. }
        set (Y := cross_at _ _ _ _ _ a) in *. set (C := 3 / 16 * sT) in *. replace Y with ((Y - C * bw a) + C * bw a) by ring. eapply Rle_trans; [apply Rabs_triang|]. rewrite (Rabs_right (C * bw a)) by (apply Rle_ge, Rmult_le_pos; lra). assert (C * bw a <= C * (9000 * u64)) by (apply Rmult_le_compat_l; lra). rewrite u64_val in *. lra. }
    set (C := 3 / 16 * sT) in *. assert (C * bw (sqrt (1 - 1 / s)) <= C * (8 / 10 ^ 10)) by (apply Rmult_le_compat_l; lra). assert (0 <= C * bw (sqrt (1 - 1 / s))) by (apply Rmult_le_pos; lra). apply Rabs_le_inv in K. apply Rabs_le. unfold C in *. lra.
Qed.
Print Assumptions C111_uniform.

(** the computed cross section is exactly 0 far above the threshold, where the exact one is positive *)
Theorem C111_vanishes : forall fsq fqu flog sT s, fsq 1 = 1 -> 0 < sT -> 2 ^ 55 <= s ->
  cross binary64 fsq fqu flog sT s = 0 /\ 0 < exact_cross sT s.
Proof.
  intros fsq fqu flog sT s H1 HT H. assert (Hs : 1 <= s) by lra. pose proof (inv_range s Hs) as I. destruct (beta_range s Hs) as [b0 b1]. assert (I1 : 1 / s <= / 2 ^ 55) by (unfold Rdiv; rewrite Rmult_1_l; apply Rinv_le_contravar; lra). split.
  - unfold cross. rewrite (proj2 (Rltb_false s 1)) by lra. assert (E : cm_speed binary64 s = 1).
    { unfold cm_speed. assert (D : is_double (/ 2 ^ 55)) by (replace (/ 2 ^ 55) with (IZR 1 / 2 ^ 55) by (unfold Rdiv; ring); apply pow2_double; lia). pose proof (b64_le_double _ _ D I1) as A. pose proof (b64_ge_double _ _ double_0 (Rlt_le _ _ (proj1 I))) as B. set (i := binary64 (1 / s)) in *.
      assert (S1 : binary64 (1 - i) = 1). { destruct (Req_dec i 0) as [->|Hi]; [rewrite Rminus_0_r; apply b64_id, double_1|]. apply snap; try lra; [apply double_1|]. replace (1 - i - 1) with (- i) by ring. rewrite Rabs_Ropp, Rabs_right by lra. rewrite u64_val. lra. }
      rewrite S1, sqrt_1. apply b64_id, double_1. }
    rewrite E. unfold cross_at. cbv zeta. rewrite H1. replace (1 - 1) with 0 by ring. rewrite fl_0, Rmult_0_r, fl_0, Rmult_0_l. apply fl_0.
  - unfold exact_cross. destruct (Rlt_dec s 1); [lra|]. apply Rmult_lt_0_compat; [lra|]. eapply Rlt_le_trans; [|apply bw_low; lra]. assert (B2 : sqrt (1 - 1 / s) ^ 2 = 1 - 1 / s) by (rewrite pow2_sqrt; lra). rewrite B2. assert (0 < sqrt (1 - 1 / s)) by (apply sqrt_lt_R0; lra). apply Rmult_lt_0_compat; lra.
Qed.
Print Assumptions C111_vanishes.

(** the oracles exist: the correctly rounded powers and logarithm *)
Lemma rounded_power n : accurate_power n (fun x => binary64 (x ^ n)).
Proof.
  intros x Hx. pose proof (fl_err (x ^ n)) as K. assert (0 <= x ^ n) by (apply pow_le; lra). rewrite (Rabs_right (x ^ n)) in K by lra. fold h0. rewrite u2. assert (0 <= u64 * x ^ n) by (apply Rmult_le_pos; [rewrite u64_val|]; lra). lra.
Qed.
Lemma rounded_log : accurate_log (fun x => binary64 (clog x)).
Proof.
  intros x Hx. assert (E : clog x = ln x). { unfold clog. pose proof ftiny_lt_1. assert (ftiny <= 1 / 2). { unfold ftiny. apply Rle_trans with (/ 2 ^ 1); [|lra]. apply lo_le. lia. } rewrite Rmax_left, Rmin_left by lra. reflexivity. }
  rewrite E. pose proof (fl_err (ln x)) as K. fold h0. rewrite u2. assert (0 <= u64 * Rabs (ln x)) by (apply Rmult_le_pos; [rewrite u64_val; lra|apply Rabs_pos]). lra.
Qed.
Example C111_case : let f := cross binary64 (fun x => binary64 (x ^ 2)) (fun x => binary64 (x ^ 4)) (fun x => binary64 (clog x)) (6652 / 10 ^ 28) in
  let e := exact_cross (6652 / 10 ^ 28) in
  Rabs (f 2 - e 2) <= 5 / 10 ^ 13 * e 2 /\ Rabs (f (10 ^ 5) - e (10 ^ 5)) <= 2 / 10 ^ 8 * e (10 ^ 5) /\ f (1 / 2) = 0 /\ f (2 ^ 60) = 0 /\ 0 < e (2 ^ 60).
Proof.
  cbv zeta. assert (T : / 2 ^ 200 <= 6652 / 10 ^ 28) by (apply Rle_trans with (/ 2 ^ 100); [apply lo_le; lia|lra]). assert (S1 : binary64 (1 ^ 2) = 1) by (rewrite pow1; apply b64_id, double_1).
  assert (H2 : 1 < 2 <= 2 ^ 48) by lra. assert (T0 : 0 < 6652 / 10 ^ 28) by lra. assert (H60 : 2 ^ 55 <= 2 ^ 60) by (apply Rle_pow; [lra|lia]).
  pose proof (C111_vanishes (fun x => binary64 (x ^ 2)) (fun x => binary64 (x ^ 4)) (fun x => binary64 (clog x)) _ _ S1 T0 H60) as [V1 V2]. repeat split; auto.
  - destruct (C111_relative _ _ _ _ 2 (rounded_power 2) (rounded_power 4) rounded_log T H2) as [P K]. eapply Rle_trans; [exact K|]. apply Rmult_le_compat_r; [lra|]. change (1100 / 2 ^ 53) with (1100 * u64). rewrite u64_val. lra.
  - apply (C111_digits _ _ _ _ _ (rounded_power 2) (rounded_power 4) rounded_log T). lra.
  - unfold cross. rewrite (proj2 (Rltb_true (1 / 2) 1)); auto. lra.
Qed.
