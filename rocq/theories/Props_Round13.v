(** C119: the angle dependent Compton kernel in double precision *)
From Coquelicot Require Import Coquelicot.
From Flocq Require Import Core.
From Flocq Require Import Relative.
From Verif Require Import Base NumpyInst MathUtils Geometry Kernels Clock ClockFacts Rounding RoundFacts Spec_Round Props_Round Props_Round2 Props_Round3 Props_Round4 Props_Round5 Props_Round6 Props_Round7 RoundCompton.
Import ListNotations.
Open Scope list_scope.
Open Scope R_scope.
#[local] Existing Instance prec53.

(** the kernel of Dermer and Menon in [y], [K] = 1/y and [a] = es / (g ebar y) *)
Definition exact_angle (g es e d : R) : R :=
  let y := 1 - es / g in let a := es / (g * (g * e * d) * y) in y + / y - 2 * a + a ^ 2.
Theorem C119_model : forall g es e mu_s mu phi, 0 < g -> 0 < e -> 0 < es -> cos_psi mu_s mu phi <= 1 -> 
  let d := 1 - cos_psi mu_s mu phi in
  angle_kernel (fun v => v) (fun v => v ^ 2) g es e d = Some (compton_kernel g es e mu_s mu phi) /\
  (compton_kernel g es e mu_s mu phi <> 0 -> compton_kernel g es e mu_s mu phi = exact_angle g es e d).
Proof.
  intros g es e mu_s mu phi Hg He Hs Hc d. unfold angle_kernel, least_gamma, compton_kernel, get_gamma_min. fold d. assert (D : 0 <= d) by (unfold d; lra).
  destruct (Reqb_spec (e * es * d) 0) as [Z|Z]; [split; [reflexivity|tauto]|]. assert (D0 : 0 < d). { destruct D as [D|D]; auto. rewrite <- D in Z. exfalso. apply Z. ring. }
  destruct (Rleb_spec (es / 2 * (1 + sqrt (1 + 2 / (e * es * d)))) g) as [L|L]; [|split; [reflexivity|tauto]].
  assert (P : 0 < e * es * d) by (repeat apply Rmult_lt_0_compat; auto). assert (Q : 1 < sqrt (1 + 2 / (e * es * d))). { rewrite <- sqrt_1 at 1. apply sqrt_lt_1; try lra; [|]; assert (0 < 2 / (e * es * d)) by (apply Rdiv_lt_0_compat; lra); lra. }
  assert (es < g). { assert (es / 2 * 2 < es / 2 * (1 + sqrt (1 + 2 / (e * es * d)))) by (apply Rmult_lt_compat_l; lra). lra. }
  assert (Y : 0 < 1 - es / g). { assert (es / g < 1); [|lra]. apply Rmult_lt_reg_r with g; auto. unfold Rdiv. rewrite Rmult_assoc, Rinv_l; lra. }
  assert (T : 0 < g * (g * e * d) * (1 - es / g)) by (repeat apply Rmult_lt_0_compat; auto). unfold angle_sum, angle_y, angle_ebar, exact_angle. cbv zeta. set (t := g * (g * e * d) * (1 - es / g)) in *. set (y := 1 - es / g) in *. split.
  - destruct (Reqb_spec t 0); [lra|]. destruct (Reqb_spec (t ^ 2) 0) as [E|E]; [exfalso; apply (pow_nonzero t 2) in E; lra|]. cbn [orb]. f_equal.
  - intros _. field. lra.
Qed.
Print Assumptions C119_model.

(** ** steps *)
Lemma fl_step r a b : rel r a b -> 0 <= r <= 1 / 1000 -> / 2 ^ 800 <= b -> rel (r + 102 / 100 * u64) (binary64 a) b.
Proof.
  intros H Hr Hb. assert (L : / 2 ^ 900 <= Rabs a) by (apply (rel_lo a b r 800); auto; [lra|lia]). pose proof (fl_rel a L) as F. eapply rel_weak; [|apply (rel_trans (101 / 100 * u64) r _ a); auto; rewrite u64_val; lra]. assert (u64 * r <= u64 * (1 / 1000)) by (apply Rmult_le_compat_l; [rewrite u64_val|]; lra). rewrite u64_val in *. lra.
Qed.
Lemma mul_step r s a b a' b' : rel r a' a -> rel s b' b -> 0 <= r -> 0 <= s <= 1 / 1000 -> rel (1001 / 1000 * r + s) (a' * b') (a * b).
Proof. intros A B Hr Hs. eapply rel_weak; [|apply (rel_mul r s); auto]. assert (r * s <= r * (1 / 1000)) by (apply Rmult_le_compat_l; lra). lra. Qed.
Lemma rel_refl a : rel 0 a a.
Proof. unfold rel, Rminus. rewrite Rplus_opp_r, Rabs_R0. lra. Qed.
Lemma near_sqrt k a b : 0 < b -> near k a b -> near k (sqrt a) (sqrt b).
Proof.
  intros Hb N. pose proof (near_pos k a b N Hb) as Ha. destruct N as [A B]. pose proof (up_ge1 k) as U. assert (S : forall x y, 0 <= x -> 0 <= y -> x <= y * (1 + u64) ^ k -> sqrt x <= sqrt y * (1 + u64) ^ k). { intros x y Hx Hy H. apply Rle_trans with (sqrt (y * (1 + u64) ^ k)); [apply sqrt_le_1_alt; auto|]. rewrite sqrt_mult by lra. apply Rmult_le_compat_l; [apply sqrt_pos|]. rewrite <- (sqrt_Rsqr ((1 + u64) ^ k)) at 2 by lra. apply sqrt_le_1_alt. unfold Rsqr. assert (1 * (1 + u64) ^ k <= (1 + u64) ^ k * (1 + u64) ^ k) by (apply Rmult_le_compat_r; lra). lra. }
  split; apply S; auto; lra.
Qed.
Lemma fl_abs x M : Rabs x <= M -> 1 <= M -> Rabs (binary64 x - x) <= 101 / 100 * u64 * M.
Proof.
  intros H HM. pose proof (fl_err x) as F. pose proof (proj1 h0_small) as S. assert (u64 * Rabs x <= u64 * M) by (apply Rmult_le_compat_l; [rewrite u64_val; lra|auto]). assert (u64 * 1 <= u64 * M) by (apply Rmult_le_compat_l; [rewrite u64_val; lra|auto]). assert (h0 <= 1 / 100 * u64) by (rewrite u64_val in *; lra). lra.
Qed.

Section Value.
Variable fsq : R -> R.
Hypothesis sq_ok : accurate_square fsq.
Variable g es e d : R.
Hypothesis Hg : 1 <= g <= 2 ^ 60.
Hypothesis Hs : / 2 ^ 100 <= es <= 2 ^ 60.
Hypothesis He : / 2 ^ 100 <= e <= 2 ^ 60.
Hypothesis Hd : / 2 ^ 60 <= d <= 2.
Let y := 1 - es / g.
Let K := / y.
Let t := g * (g * e * d) * y.
Let a := es / t.
Hypothesis Hy : / 10 ^ 9 <= y.
Hypothesis Ha : a <= 3.
Let rho := u64 * K.

Lemma pos_inv n : 0 < / 2 ^ n.
Proof. apply Rinv_0_lt_compat, pow_lt. lra. Qed.
Lemma e_s_d : 0 < es /\ 0 < e /\ 0 < d.
Proof. pose proof (pos_inv 100). pose proof (pos_inv 60). lra. Qed.
Lemma y_le : 0 < y < 1.
Proof. destruct e_s_d as (S & _). assert (0 < / 10 ^ 9) by (apply Rinv_0_lt_compat, pow_lt; lra). split; [lra|]. unfold y. assert (0 < es / g) by (apply Rdiv_lt_0_compat; lra). lra. Qed.
Lemma K_ge : 1 <= K <= 10 ^ 9.
Proof. pose proof y_le. unfold K. split; [rewrite <- Rinv_1; apply Rinv_le_contravar; lra|]. rewrite <- (Rinv_inv (10 ^ 9)). apply Rinv_le_contravar; auto. apply Rinv_0_lt_compat, pow_lt. lra. Qed.
Lemma rho_small : u64 <= rho <= 1 / 10 ^ 6.
Proof.
  pose proof K_ge as [A B]. unfold rho. assert (P : 0 < u64) by (rewrite u64_val; lra). split; [assert (u64 * 1 <= u64 * K) by (apply Rmult_le_compat_l; lra); lra|]. apply Rle_trans with (u64 * 10 ^ 9); [apply Rmult_le_compat_l; lra|]. rewrite u64_val. lra.
Qed.
Lemma mul_lo m n k x z : / 2 ^ m <= x -> / 2 ^ n <= z -> (m + n <= k)%nat -> / 2 ^ k <= x * z.
Proof. intros X Z H. apply Rle_trans with (/ 2 ^ (m + n)); [apply lo_le; lia|]. rewrite pow_add, Rinv_mult. pose proof (pos_inv m). pose proof (pos_inv n). apply Rmult_le_compat; lra. Qed.
Lemma inv_lo n x : 0 < x <= 2 ^ n -> / 2 ^ n <= / x.
Proof. intros H. apply Rinv_le_contravar; lra. Qed.
Lemma lo_w n k x : / 2 ^ n <= x -> (n <= k)%nat -> / 2 ^ k <= x.
Proof. intros H L. eapply Rle_trans; [apply (lo_le k n); auto|auto]. Qed.
Lemma g_lo : / 2 ^ 0 <= g.
Proof. simpl. rewrite Rinv_1. lra. Qed.
Lemma ge_lo : / 2 ^ 100 <= g * e.
Proof. apply (mul_lo 0 100); [apply g_lo|lra|lia]. Qed.
Lemma eb_lo : / 2 ^ 160 <= g * e * d.
Proof. apply (mul_lo 100 60); [apply ge_lo|lra|lia]. Qed.
Lemma gb_lo : / 2 ^ 160 <= g * (g * e * d).
Proof. apply (mul_lo 0 160); [apply g_lo|apply eb_lo|lia]. Qed.
Lemma y_lo : / 2 ^ 40 <= y.
Proof. apply Rle_trans with (/ 10 ^ 9); auto. apply Rinv_le_contravar; lra. Qed.
Lemma t_lo : / 2 ^ 200 <= t.
Proof. apply (mul_lo 160 40); [apply gb_lo|apply y_lo|lia]. Qed.
Lemma t_hi : t <= 2 ^ 260.
Proof.
  destruct e_s_d as (S & E & D). pose proof y_le as Y. unfold t. apply Rle_trans with (2 ^ 60 * (2 ^ 60 * 2 ^ 60 * 2 ^ 1) * 2 ^ 0). { repeat apply Rmult_le_compat; try (repeat apply Rmult_le_pos); try lra; simpl (2 ^ 0); simpl (2 ^ 1); lra. }
  rewrite <- !pow_add. apply Rle_pow; [lra|]. lia.
Qed.
Lemma t_pos : 0 < t.
Proof. pose proof t_lo. pose proof (pos_inv 200). lra. Qed.
Lemma a_pos : 0 < a.
Proof. destruct e_s_d as (S & _). apply Rdiv_lt_0_compat; auto. apply t_pos. Qed.

Lemma w_rel : rel (102 / 100 * u64) (binary64 (es / g)) (es / g).
Proof. eapply rel_weak; [|apply (fl_step 0); [apply rel_refl|lra|]]; [lra|]. apply (mul_lo 100 60); [lra|apply inv_lo; lra|lia]. Qed.
Lemma y_rel : rel (205 / 100 * rho) (angle_y binary64 g es) y.
Proof.
  pose proof rho_small as R. assert (U : 0 < u64) by (rewrite u64_val; lra). pose proof K_ge as KG. pose proof y_le as Y. destruct e_s_d as (S & _). unfold angle_y. assert (B : rel (102 / 100 * rho) (1 - binary64 (es / g)) y).
  { unfold rel. replace (1 - binary64 (es / g) - y) with (- (binary64 (es / g) - es / g)) by (unfold y; ring). rewrite Rabs_Ropp. pose proof w_rel as W. unfold rel in W. assert (W0 : 0 < es / g < 1). { split; [apply Rdiv_lt_0_compat; lra|]. unfold y in Y. lra. } rewrite (Rabs_right (es / g)) in W by lra. rewrite (Rabs_right y) by lra. eapply Rle_trans; [exact W|]. unfold rho, K. replace (102 / 100 * (u64 * / y) * y) with (102 / 100 * u64) by (field; lra). assert (102 / 100 * u64 * (es / g) <= 102 / 100 * u64 * 1); [|lra]. apply Rmult_le_compat_l; [rewrite u64_val; lra|lra]. }
  eapply rel_weak; [|apply (fl_step (102 / 100 * rho)); auto]; [lra|lra|]. apply (lo_w 40); [apply y_lo|lia].
Qed.
Lemma ge_rel : rel (102 / 100 * rho) (binary64 (g * e)) (g * e).
Proof. pose proof rho_small as R. eapply rel_weak; [|apply (fl_step 0); [apply rel_refl|lra|]]; [lra|]. apply (lo_w 100); [apply ge_lo|lia]. Qed.
Lemma eb_rel : rel (205 / 100 * rho) (angle_ebar binary64 g e d) (g * e * d).
Proof.
  pose proof rho_small as R. unfold angle_ebar. assert (0 < u64) by (rewrite u64_val; lra). eapply rel_weak; [|apply (fl_step (1001 / 1000 * (102 / 100 * rho) + 0)); [apply mul_step; [apply ge_rel|apply rel_refl|lra|lra]|lra|]]; [lra|]. apply (lo_w 160); [apply eb_lo|lia].
Qed.
Lemma gb_rel : rel (308 / 100 * rho) (binary64 (g * angle_ebar binary64 g e d)) (g * (g * e * d)).
Proof.
  pose proof rho_small as R. assert (0 < u64) by (rewrite u64_val; lra). eapply rel_weak; [|apply (fl_step (205 / 100 * rho)); [apply rel_scal, eb_rel|lra|]]; [lra|]. apply (lo_w 160); [apply gb_lo|lia].
Qed.
Let t' := binary64 (binary64 (g * angle_ebar binary64 g e d) * angle_y binary64 g es).
Lemma t_rel : rel (62 / 10 * rho) t' t.
Proof.
  pose proof rho_small as R. assert (0 < u64) by (rewrite u64_val; lra). eapply rel_weak; [|apply (fl_step (1001 / 1000 * (308 / 100 * rho) + 205 / 100 * rho)); [apply mul_step; [apply gb_rel|apply y_rel|lra|lra]|lra|]]; [lra|]. apply (lo_w 200); [apply t_lo|lia].
Qed.
Lemma t'_range : t / 2 <= t' <= 2 * t.
Proof.
  pose proof t_rel as T. pose proof t_pos as P. pose proof rho_small as R. assert (0 < u64) by (rewrite u64_val; lra). unfold rel in T. rewrite (Rabs_right t) in T by lra. apply Rabs_le_inv in T. assert (62 / 10 * rho * t <= 1 / 2 * t) by (apply Rmult_le_compat_r; lra). lra.
Qed.
Lemma iy_rel : rel (312 / 100 * rho) (binary64 (1 / angle_y binary64 g es)) K.
Proof.
  pose proof rho_small as R. assert (0 < u64) by (rewrite u64_val; lra). pose proof y_le as Y. pose proof K_ge as KG. unfold Rdiv. rewrite Rmult_1_l. eapply rel_weak; [|apply (fl_step (102 / 100 * (205 / 100 * rho))); [apply rel_inv; [apply y_rel|lra|lra]|lra|]]; [lra|]. apply (lo_w 0); [simpl; lra|lia].
Qed.
Lemma a_lo : / 2 ^ 400 <= a.
Proof. apply (mul_lo 100 260); [lra| |lia]. apply inv_lo. split; [apply t_pos|apply t_hi]. Qed.
Lemma y1_rel : rel (85 / 10 * rho) (binary64 (- binary64 (2 * es) / t')) (- (2 * a)).
Proof.
  pose proof rho_small as R. assert (0 < u64) by (rewrite u64_val; lra). destruct e_s_d as (S & _). pose proof t_pos as P. pose proof a_lo as A.
  assert (B : rel (102 / 100 * rho) (binary64 (2 * es)) (2 * es)) by (eapply rel_weak; [|apply (fl_step 0); [apply rel_refl|lra|apply (lo_w 100); [lra|lia]]]; lra).
  assert (C : rel (1001 / 1000 * (102 / 100 * rho) + 102 / 100 * (62 / 10 * rho)) (binary64 (2 * es) * / t') (2 * es * / t)) by (apply mul_step; [exact B|apply rel_inv; [apply t_rel|lra|lra]|lra|lra]).
  assert (E : binary64 (- binary64 (2 * es) / t') = - binary64 (binary64 (2 * es) * / t')). { replace (- binary64 (2 * es) / t') with (- (binary64 (2 * es) * / t')) by (unfold Rdiv; ring). unfold binary64. apply round_NE_opp. }
  rewrite E. replace (2 * es * / t) with (2 * a) in C by (unfold a, Rdiv; ring). assert (F : rel (85 / 10 * rho) (binary64 (binary64 (2 * es) * / t')) (2 * a)). { eapply rel_weak; [|eapply fl_step; [exact C|lra|]]; [lra|]. apply (lo_w 400); [|lia]. pose proof a_pos. lra. }
  unfold rel in *. replace (- binary64 (binary64 (2 * es) * / t') - - (2 * a)) with (- (binary64 (binary64 (2 * es) * / t') - 2 * a)) by ring. rewrite !Rabs_Ropp. exact F.
Qed.
Lemma fsq_rel v : / 2 ^ 400 <= v <= 2 ^ 400 -> rel (2 * rho) (fsq v) (v ^ 2).
Proof.
  intros H. pose proof rho_small as R. pose proof (sq_ok v H) as Q. unfold rel. rewrite (Rabs_right (v ^ 2)) by (apply Rle_ge, pow2_ge_0). eapply Rle_trans; [exact Q|]. apply Rmult_le_compat_r; [apply pow2_ge_0|]. replace (/ 2 ^ 52) with (2 * u64); [lra|]. unfold u64. rewrite (pow_add 2 52 1 : 2 ^ 53 = _). field.
Qed.
Lemma t'_sq : / 2 ^ 400 <= t' <= 2 ^ 400.
Proof.
  pose proof t'_range as [A B]. pose proof t_lo as L. pose proof t_hi as H. split.
  - apply Rle_trans with (/ 2 ^ 201); [apply lo_le; lia|]. replace (/ 2 ^ 201) with (/ 2 ^ 200 / 2); [lra|]. rewrite (pow_add 2 200 1 : 2 ^ 201 = _). field.
  - apply Rle_trans with (2 ^ 1 * 2 ^ 260); [rewrite pow_1; lra|]. rewrite <- pow_add. apply Rle_pow; [lra|lia].
Qed.
Lemma ft_rel : rel (145 / 10 * rho) (fsq t') (t ^ 2).
Proof.
  pose proof rho_small as R. assert (0 < u64) by (rewrite u64_val; lra). assert (A : rel (1001 / 1000 * (62 / 10 * rho) + 62 / 10 * rho) (t' ^ 2) (t ^ 2)). { replace (t' ^ 2) with (t' * t') by ring. replace (t ^ 2) with (t * t) by ring. apply mul_step; [apply t_rel|apply t_rel|lra|lra]. }
  eapply rel_weak; [|apply (rel_trans (2 * rho) _ _ _ _ (fsq_rel t' t'_sq) A); lra]. assert (2 * rho * (1001 / 1000 * (62 / 10 * rho) + 62 / 10 * rho) <= 2 * rho * (1 / 1000)) by (apply Rmult_le_compat_l; lra). lra.
Qed.
Lemma y2_rel : rel (18 * rho) (binary64 (fsq es / fsq t')) (a ^ 2).
Proof.
  pose proof rho_small as R. assert (0 < u64) by (rewrite u64_val; lra). destruct e_s_d as (S & _). pose proof t_pos as P. pose proof a_lo as A. assert (T2 : 0 < t ^ 2) by (apply pow_lt; auto).
  assert (C : rel (1001 / 1000 * (2 * rho) + 102 / 100 * (145 / 10 * rho)) (fsq es * / fsq t') (es ^ 2 * / t ^ 2)). { apply mul_step; [apply fsq_rel|apply rel_inv; [apply ft_rel|lra|lra]|lra|lra]. split; [apply (lo_w 100); [lra|lia]|]. apply Rle_trans with (2 ^ 60); [lra|apply Rle_pow; [lra|lia]]. }
  replace (es ^ 2 * / t ^ 2) with (a ^ 2) in C by (unfold a; field; lra). eapply rel_weak; [|apply (fl_step _ _ _ C); [lra|]]; [lra|]. replace (a ^ 2) with (a * a) by ring. apply (mul_lo 400 400); auto; lia.
Qed.
Lemma angle_value : exists k, angle_sum binary64 fsq g es e d = Some k /\ Rabs (k - exact_angle g es e d) <= 6 / 10 ^ 14 * K * exact_angle g es e d.
Proof.
  pose proof rho_small as R. assert (U : 0 < u64) by (rewrite u64_val; lra). pose proof y_le as Y. pose proof K_ge as KG. pose proof a_pos as A0. pose proof t'_range as TR. pose proof t_pos as T0.
  pose proof y_rel as Q1. pose proof iy_rel as Q2. pose proof y1_rel as Q3. pose proof y2_rel as Q4. pose proof ft_rel as Q5. unfold rel in Q1, Q2, Q3, Q4, Q5.
  assert (A9 : 0 < a ^ 2 <= 9). { split; [apply pow_lt; auto|]. replace 9 with (3 ^ 2) by ring. apply pow_incr. lra. }
  rewrite (Rabs_right y) in Q1 by lra. rewrite (Rabs_right K) in Q2 by lra. rewrite Rabs_Ropp, (Rabs_right (2 * a)) in Q3 by lra. rewrite (Rabs_right (a ^ 2)) in Q4 by lra. assert (T2 : 0 < t ^ 2) by (apply pow_lt; auto). rewrite (Rabs_right (t ^ 2)) in Q5 by lra.
  unfold angle_sum. fold t'. destruct (Reqb_spec t' 0); [lra|]. destruct (Reqb_spec (fsq t') 0) as [Z|_]. { exfalso. rewrite Z in Q5. apply Rabs_le_inv in Q5. assert (145 / 10 * rho * t ^ 2 <= 1 / 2 * t ^ 2) by (apply Rmult_le_compat_r; lra). lra. }
  cbn [orb]. eexists. split; [reflexivity|]. set (y' := angle_y binary64 g es) in *. set (i' := binary64 (1 / y')) in *. set (p := binary64 (- binary64 (2 * es) / t')) in *. set (q := binary64 (fsq es / fsq t')) in *.
  unfold exact_angle. fold y. fold t. fold a. fold K. cbv zeta. set (v := y + K - 2 * a + a ^ 2).
  assert (B1 : 205 / 100 * rho * y <= 205 / 100 * rho * K) by (apply Rmult_le_compat_l; lra). assert (B3 : 85 / 10 * rho * (2 * a) <= 85 / 10 * rho * (6 * K)) by (apply Rmult_le_compat_l; lra). assert (B4 : 18 * rho * a ^ 2 <= 18 * rho * (9 * K)) by (apply Rmult_le_compat_l; lra).
  assert (RK : 0 < rho * K) by (apply Rmult_lt_0_compat; lra). assert (RK1 : rho * K <= 1 / 10 ^ 6 * K) by (apply Rmult_le_compat_r; lra). assert (UK : u64 * K <= rho * K) by (apply Rmult_le_compat_r; lra).
  apply Rabs_le_inv in Q1, Q2, Q3, Q4.
  set (s1 := binary64 (y' + i')). assert (E1 : Rabs (s1 - (y' + i')) <= 101 / 100 * u64 * (3 * K)) by (apply fl_abs; [apply Rabs_le; lra|lra]). apply Rabs_le_inv in E1.
  set (s2 := binary64 (s1 + p)). assert (E2 : Rabs (s2 - (s1 + p)) <= 101 / 100 * u64 * (9 * K)) by (apply fl_abs; [apply Rabs_le; lra|lra]). apply Rabs_le_inv in E2.
  assert (E3 : Rabs (binary64 (s2 + q) - (s2 + q)) <= 101 / 100 * u64 * (18 * K)) by (apply fl_abs; [apply Rabs_le; lra|lra]). apply Rabs_le_inv in E3.
  assert (V : K / 2 <= v). { unfold v. assert (0 <= (1 - a) ^ 2) by apply pow2_ge_0. assert (S2 : 0 <= (K - 1) ^ 2) by apply pow2_ge_0. assert (YK : y * K = 1) by (unfold K; field; lra). assert (1 <= y + K / 2); [|lra]. assert (S3 : 0 <= (1 - y) ^ 2 * K) by (apply Rmult_le_pos; [apply pow2_ge_0|lra]). replace ((1 - y) ^ 2 * K) with (K - 2 * (y * K) + y * (y * K)) in S3 by ring. rewrite YK in S3.
    destruct (Rle_dec K 2) as [L|L]; [|lra]. assert (0 <= (1 - K / 2) ^ 2 * y) by (apply Rmult_le_pos; [apply pow2_ge_0|lra]). replace ((1 - K / 2) ^ 2 * y) with (y - y * K + K / 4 * (y * K)) in H0 by field. rewrite YK in H0. lra. }
  assert (W : 6 / 10 ^ 14 * K * (K / 2) <= 6 / 10 ^ 14 * K * v) by (apply Rmult_le_compat_l; [apply Rmult_le_pos; lra|auto]). eapply Rle_trans; [|exact W].
  assert (UR : rho * K = u64 * (K * K)) by (unfold rho; ring). assert (KK : 0 < K * K) by (apply Rmult_lt_0_compat; lra). replace (6 / 10 ^ 14 * K * (K / 2)) with (3 / 10 ^ 14 * (K * K)) by field. assert (G : 265 * (rho * K) <= 3 / 10 ^ 14 * (K * K)). { rewrite UR, u64_val. lra. }
  apply Rabs_le. unfold v. lra.
Qed.
End Value.

(** ** the threshold *)
Definition exact_threshold (es e d : R) : R := es / 2 * (1 + sqrt (1 + 2 / (e * es * d))).
Definition usual_range (g es e d : R) : Prop :=
  1 <= g <= 2 ^ 60 /\ / 2 ^ 100 <= es <= 2 ^ 60 /\ / 2 ^ 100 <= e <= 2 ^ 60 /\ / 2 ^ 60 <= d <= 2.
Lemma least_near g es e d : usual_range g es e d -> exists m, least_gamma binary64 es e d = Some m /\ near 8 m (exact_threshold es e d).
Proof.
  intros (Hg & Hs & He & Hd). destruct (e_s_d es e d Hs He Hd) as (S & E & D). assert (L1 : / 2 ^ 200 <= e * es) by (apply (mul_lo 100 100); [lra|lra|lia]). assert (L2 : / 2 ^ 260 <= e * es * d) by (apply (mul_lo 200 60); [auto|lra|lia]). pose proof (pos_inv 260) as P260. pose proof (pos_inv 200) as P200.
  assert (N1 : near 1 (binary64 (e * es)) (e * es)) by (apply (fl_near_lo 200); [lia|auto]). assert (N2 : near 1 (binary64 (e * es) * d) (e * es * d)) by (apply (near_mult 1 0); try lra; [auto|apply near_refl]). 
  assert (L3 : / 2 ^ 262 <= binary64 (e * es) * d). { destruct N2 as [_ B]. assert (W : (1 + u64) ^ 1 <= 2) by (rewrite pow_1, u64_val; lra). pose proof (near_pos 1 _ _ N1 ltac:(lra)) as Q. assert (0 < binary64 (e * es) * d) by (apply Rmult_lt_0_compat; lra). assert (binary64 (e * es) * d * (1 + u64) ^ 1 <= binary64 (e * es) * d * 2) by (apply Rmult_le_compat_l; lra). assert (/ 2 ^ 262 <= / 2 ^ 260 / 2); [|lra]. replace (/ 2 ^ 260 / 2) with (/ 2 ^ 261) by (rewrite (pow_add 2 260 1 : 2 ^ 261 = _); field). apply lo_le. lia. }
  assert (N3 : near 2 (binary64 (binary64 (e * es) * d)) (e * es * d)) by (apply (near_trans 1 1 _ _ _ (fl_near_lo 262 _ ltac:(lia) L3) N2)).
  pose proof (near_pos _ _ _ N3 ltac:(lra)) as T0. unfold least_gamma. set (t := binary64 (binary64 (e * es) * d)) in *. destruct (Reqb_spec t 0); [lra|].
  assert (N4 : near 2 (2 / t) (2 / (e * es * d))) by (apply (near_div 0 2); try lra; [apply near_refl|auto]).
  assert (H4 : e * es * d <= 2 ^ 121). { replace 121%nat with (60 + 60 + 1)%nat by reflexivity. rewrite !pow_add, pow_1. repeat apply Rmult_le_compat; lra. }
  assert (L4 : / 2 ^ 300 <= 2 / t). { destruct N3 as [B _]. assert (W : (1 + u64) ^ 2 <= 2) by (rewrite u64_val; lra). assert (e * es * d * (1 + u64) ^ 2 <= e * es * d * 2) by (apply Rmult_le_compat_l; lra). assert (U : t <= 2 ^ 300). { apply Rle_trans with (2 ^ 121 * 2 ^ 1); [rewrite pow_1; lra|]. rewrite <- pow_add. apply Rle_pow; [lra|lia]. } pose proof (inv_lo 300 t (conj T0 U)). unfold Rdiv. assert (0 < / t) by (apply Rinv_0_lt_compat; lra). lra. }
  assert (N5 : near 3 (binary64 (2 / t)) (2 / (e * es * d))) by (apply (near_trans 1 2 _ _ _ (fl_near_lo 300 _ ltac:(lia) L4) N4)). set (x := 2 / (e * es * d)) in *. assert (X : 0 < x) by (apply Rdiv_lt_0_compat; lra).
  assert (ONE : forall k z w, 0 < w -> near k z w -> near (1 + k) (binary64 (1 + z)) (1 + w)). { intros k z w Hw N. pose proof (near_pos _ _ _ N Hw). apply (near_trans 1 k _ (1 + z)); [apply (fl_near_lo 0); [lia|simpl; lra]|]. apply near_plus; auto. apply (near_weak 0 k); [lia|lra|apply near_refl]. }
  pose proof (ONE _ _ _ X N5) as N6. assert (N7 : near 4 (sqrt (binary64 (1 + binary64 (2 / t)))) (sqrt (1 + x))) by (apply near_sqrt; auto; lra). assert (Q : 1 <= sqrt (1 + x)) by (rewrite <- sqrt_1 at 1; apply sqrt_le_1_alt; lra).
  pose proof (near_pos _ _ _ N5 X) as X5. assert (L8 : / 2 ^ 0 <= sqrt (binary64 (1 + binary64 (2 / t)))). { rewrite pow_O, Rinv_1. rewrite <- sqrt_1 at 1. apply sqrt_le_1_alt, b64_ge_double; [apply double_1|lra]. }
  assert (N8 : near 5 (binary64 (sqrt (binary64 (1 + binary64 (2 / t))))) (sqrt (1 + x))) by (apply (near_trans 1 4 _ _ _ (fl_near_lo 0 _ ltac:(lia) L8) N7)).
  assert (N9 : near 6 (binary64 (1 + binary64 (sqrt (binary64 (1 + binary64 (2 / t)))))) (1 + sqrt (1 + x))) by (apply (ONE 5%nat); [lra|auto]).
  assert (M1 : near 1 (binary64 (es / 2)) (es / 2)). { apply (fl_near_lo 101); [lia|]. replace (/ 2 ^ 101) with (/ 2 ^ 100 / 2) by (rewrite (pow_add 2 100 1 : 2 ^ 101 = _); field). lra. }
  eexists. split; [reflexivity|]. unfold exact_threshold. fold x. set (s := binary64 (1 + binary64 (sqrt (binary64 (1 + binary64 (2 / t)))))) in *.
  assert (M2 : near 7 (binary64 (es / 2) * s) (es / 2 * (1 + sqrt (1 + x)))) by (apply (near_mult 1 6); auto; lra). apply (near_trans 1 7 _ (binary64 (es / 2) * s)); auto. apply (fl_near_lo 110); [lia|].
  assert (S1 : 1 <= s). { unfold s. apply b64_ge_double; [apply double_1|]. pose proof (near_pos _ _ _ N8 ltac:(lra)). lra. } assert (E1 : es / 4 <= binary64 (es / 2)). { destruct M1 as [_ B]. assert (W : (1 + u64) ^ 1 <= 2) by (rewrite pow_1, u64_val; lra). pose proof (near_pos 1 (binary64 (es / 2)) (es / 2) ltac:(apply (fl_near_lo 101); [lia|]; replace (/ 2 ^ 101) with (/ 2 ^ 100 / 2) by (rewrite (pow_add 2 100 1 : 2 ^ 101 = _); field); lra) ltac:(lra)). assert (binary64 (es / 2) * (1 + u64) ^ 1 <= binary64 (es / 2) * 2) by (apply Rmult_le_compat_l; lra). lra. }
  apply Rle_trans with (es / 4 * 1); [|apply Rmult_le_compat; lra]. assert (/ 2 ^ 110 <= / 2 ^ 100 / 4); [|lra]. replace (/ 2 ^ 100 / 4) with (/ 2 ^ 102) by (rewrite (pow_add 2 100 2 : 2 ^ 102 = _); field). apply lo_le. lia.
Qed.
(** beyond the threshold a <= 2, and not much more within the roundings of it *)
Lemma threshold_square es e d h : 0 < es -> 0 < e -> 0 < d -> exact_threshold es e d <= h -> es <= 2 * h * (h - es) * e * d.
Proof.
  intros S E D H. unfold exact_threshold in H. assert (P : 0 < e * es * d) by (repeat apply Rmult_lt_0_compat; auto). set (x := 2 / (e * es * d)) in *. assert (X : 0 < x) by (apply Rdiv_lt_0_compat; lra). pose proof (sqrt_sqrt (1 + x) ltac:(lra)) as Q. pose proof (sqrt_pos (1 + x)) as Q0. set (s := sqrt (1 + x)) in *.
  assert (A : es * s <= 2 * h - es) by lra. assert (B : 0 <= es * s) by (apply Rmult_le_pos; lra). assert (C : (es * s) * (es * s) <= (2 * h - es) * (2 * h - es)) by (apply Rmult_le_compat; lra). replace ((es * s) * (es * s)) with (es * es * (s * s)) in C by ring. rewrite Q in C. replace (es * es * (1 + x)) with (es * es + es * es * x) in C by ring.
  assert (F : es * es * x <= 4 * h * (h - es)) by lra. assert (G : es * es * x * (e * d) = 2 * es) by (unfold x; field; lra). assert (es * es * x * (e * d) <= 4 * h * (h - es) * (e * d)) by (apply Rmult_le_compat_r; auto; left; apply Rmult_lt_0_compat; auto). lra.
Qed.
Lemma threshold_a g es e d : usual_range g es e d -> / 10 ^ 9 <= 1 - es / g -> exact_threshold es e d <= g * (1 + u64) ^ 8 -> es / (g * (g * e * d) * (1 - es / g)) <= 3.
Proof.
  intros (Hg & Hs & He & Hd) Hy H. destruct (e_s_d es e d Hs He Hd) as (S & E & D). apply threshold_square in H; auto. set (q := (1 + u64) ^ 8) in *. assert (Q : 1 <= q <= 1 + 1 / 10 ^ 14). { split; [apply up_ge1|]. apply up_small; simpl INR; rewrite u64_val; lra. }
  assert (G : g * (1 - es / g) = g - es) by (field; lra). assert (Y : g * / 10 ^ 9 <= g - es) by (rewrite <- G; apply Rmult_le_compat_l; lra). assert (Z : g <= 10 ^ 9 * (g - es)) by lra. assert (Z0 : 0 < g - es) by lra.
  assert (A : g * q - es <= (g - es) * (1001 / 1000)). { assert ((q - 1) * g <= 1 / 10 ^ 14 * g) by (apply Rmult_le_compat_r; lra). lra. } assert (A0 : 0 <= g * q - es). { assert (g * 1 <= g * q) by (apply Rmult_le_compat_l; lra). lra. }
  assert (B : g * q <= g * (1001 / 1000)) by (apply Rmult_le_compat_l; lra). assert (B0 : 0 <= g * q) by (apply Rmult_le_pos; lra). assert (C : g * q * (g * q - es) <= g * (1001 / 1000) * ((g - es) * (1001 / 1000))) by (apply Rmult_le_compat; auto).
  assert (ED : 0 < e * d) by (apply Rmult_lt_0_compat; auto). assert (F : g * q * (g * q - es) * (e * d) <= g * (1001 / 1000) * ((g - es) * (1001 / 1000)) * (e * d)) by (apply Rmult_le_compat_r; lra).
  replace (g * (g * e * d) * (1 - es / g)) with (g * (g - es) * (e * d)) by (rewrite <- G; ring). assert (T : 0 < g * (g - es) * (e * d)) by (repeat apply Rmult_lt_0_compat; lra). apply Rmult_le_reg_r with (g * (g - es) * (e * d)); auto. unfold Rdiv at 1. rewrite Rmult_assoc, Rinv_l by lra. lra.
Qed.

(** ** the theorems *)
(** below the threshold by more than eight roundings the result is 0 *)
Theorem C119_below : forall fsq g es e d, usual_range g es e d -> g * (1 + / 2 ^ 53) ^ 8 < exact_threshold es e d -> angle_kernel binary64 fsq g es e d = Some 0.
Proof.
  intros fsq g es e d H L. destruct (least_near g es e d H) as (m & E & [_ N]). fold u64 in L. unfold angle_kernel. rewrite E. destruct (Rleb_spec m g) as [M|M]; auto. exfalso. assert (m * (1 + u64) ^ 8 <= g * (1 + u64) ^ 8) by (apply Rmult_le_compat_r; [left; apply up_pos|auto]). lra.
Qed.
Print Assumptions C119_below.
(** with 1 / y of at most 10^9 the result is a number, 0 or within 6 / 10^14 / y of
    the formula; it is the latter beyond the threshold by more than eight roundings *)
Theorem C119_kernel_partial : forall fsq g es e d, accurate_square fsq -> usual_range g es e d -> / 10 ^ 9 <= 1 - es / g ->
  exists k, angle_kernel binary64 fsq g es e d = Some k /\
    let accurate := Rabs (k - exact_angle g es e d) <= 6 / 10 ^ 14 / (1 - es / g) * exact_angle g es e d in
    (k = 0 /\ g < exact_threshold es e d * (1 + / 2 ^ 53) ^ 8 \/ accurate /\ exact_threshold es e d <= g * (1 + / 2 ^ 53) ^ 8).
Proof.
  intros fsq g es e d Hf H Hy. destruct (least_near g es e d H) as (m & E & [M N]). fold u64. unfold angle_kernel. rewrite E. destruct (Rleb_spec m g) as [L|L].
  - assert (T : exact_threshold es e d <= g * (1 + u64) ^ 8). { eapply Rle_trans; [exact N|]. apply Rmult_le_compat_r; [left; apply up_pos|auto]. }
    pose proof (threshold_a g es e d H Hy T) as A. destruct H as (Hg & Hs & He & Hd). destruct (angle_value fsq Hf g es e d Hg Hs He Hd Hy A) as (k & K1 & K2). exists k. split; [exact K1|]. cbv zeta. right. split; [exact K2|exact T].
  - exists 0. split; [reflexivity|]. cbv zeta. left. split; [reflexivity|lra].
Qed.
Print Assumptions C119_kernel_partial.
(** 1 / y is at most 1 + 2 epsilon_bar: the hypothesis on y holds whenever epsilon_bar
    is below 4 10^8 *)
Theorem C119_spread : forall g es e d, 0 < g -> 0 < es < g -> 0 < e -> 0 < d -> exact_threshold es e d <= g -> / (1 - es / g) <= 1 + 2 * (g * e * d).
Proof.
  intros g es e d Hg Hs He Hd H. apply threshold_square in H; try lra. assert (ED : 0 < e * d) by (apply Rmult_lt_0_compat; auto). replace (/ (1 - es / g)) with (g / (g - es)) by (field; lra). apply Rmult_le_reg_r with (g - es); [lra|]. unfold Rdiv. rewrite Rmult_assoc, Rinv_l by lra. lra.
Qed.
Print Assumptions C119_spread.

(** ** not always a number *)
Lemma power_double n : (n <= 52)%nat -> is_double (2 ^ n).
Proof. intros H. rewrite (pow_IZR 2 n). replace (IZR (2 ^ Z.of_nat n)) with (IZR (2 ^ Z.of_nat n) / 2 ^ 0) by (simpl; field). apply pow2_double; [|lia]. rewrite Z.abs_eq by lia. apply Z.pow_lt_mono_r; lia. Qed.
Theorem C119_number_refuted : exists g es e d, is_double g /\ is_double es /\ is_double e /\ is_double d /\ usual_range g es e d /\
  g < exact_threshold es e d /\ forall fsq, angle_kernel binary64 fsq g es e d = None.
Proof.
  exists (2 ^ 40), (2 ^ 40), (2 ^ 20), 1. assert (D20 : is_double (2 ^ 20)) by (apply power_double; lia). assert (D40 : is_double (2 ^ 40)) by (apply power_double; lia). split; auto. split; auto. split; auto. split; [apply double_1|].
  assert (U : usual_range (2 ^ 40) (2 ^ 40) (2 ^ 20) 1). { assert (I : forall n, / 2 ^ n <= 1) by (intros n; rewrite <- Rinv_1; apply Rinv_le_contravar; [lra|apply pow_R1_Rle; lra]). pose proof (I 100%nat). pose proof (I 60%nat). unfold usual_range. repeat split; try lra. }
  split; auto. split.
  - unfold exact_threshold. assert (1 < sqrt (1 + 2 / (2 ^ 20 * 2 ^ 40 * 1))) by (rewrite <- sqrt_1 at 1; apply sqrt_lt_1; lra). lra.
  - intros fsq. assert (D60 : is_double (2 ^ 20 * 2 ^ 40)). { apply double_is. exists 1%Z, 60%Z. split; [reflexivity|]. split; [lia|]. rewrite <- pow_add. simpl. lra. }
    assert (A : binary64 (2 ^ 20 * 2 ^ 40) = 2 ^ 20 * 2 ^ 40) by (apply b64_id; auto). assert (B : binary64 (2 ^ 20 * 2 ^ 40 * 1) = 2 ^ 20 * 2 ^ 40) by (rewrite Rmult_1_r; auto).
    assert (C : binary64 (2 / (2 ^ 20 * 2 ^ 40)) = / 2 ^ 59). { replace (2 / (2 ^ 20 * 2 ^ 40)) with (IZR 1 / 2 ^ 59) by (simpl; lra). rewrite b64_id by (apply pow2_double; lia). lra. }
    assert (E : binary64 (1 + / 2 ^ 59) = 1). { rewrite (round_to 52 4503599627370496); [simpl; lra|lia|simpl; lra|apply Rabs_def1; simpl; lra]. }
    assert (F : binary64 1 = 1) by (apply b64_id, double_1). assert (G : binary64 (1 + 1) = 2). { replace (1 + 1) with 2 by ring. apply b64_id. pose proof (power_double 1 ltac:(lia)) as D2. rewrite pow_1 in D2. exact D2. }
    assert (H : binary64 (2 ^ 40 / 2) = 2 ^ 39). { replace (2 ^ 40 / 2) with (2 ^ 39) by (simpl; lra). apply b64_id, power_double. lia. } assert (I : binary64 (2 ^ 39 * 2) = 2 ^ 40). { replace (2 ^ 39 * 2) with (2 ^ 40) by (simpl; lra). apply b64_id; auto. }
    unfold angle_kernel, least_gamma. cbv zeta. rewrite A, B. destruct (Reqb_spec (2 ^ 20 * 2 ^ 40) 0); [lra|]. rewrite C, E, sqrt_1, F, G, H, I. destruct (Rleb_spec (2 ^ 40) (2 ^ 40)); [|lra].
    unfold angle_sum, angle_y. cbv zeta. assert (W : binary64 (1 - binary64 (2 ^ 40 / 2 ^ 40)) = 0). { replace (2 ^ 40 / 2 ^ 40) with 1 by (field; apply pow_nonzero; lra). rewrite F. replace (1 - 1) with 0 by ring. apply fl_0. }
    rewrite W, Rmult_0_r, fl_0. destruct (Reqb_spec 0 0); [reflexivity|lra].
Qed.
Print Assumptions C119_number_refuted.

(** a case: gamma = 10^4, an optical photon (epsilon = 2^-18) head on, scattered to 100 *)
Example C119_case : usual_range 10000 100 (/ 2 ^ 18) 2 /\ / 10 ^ 9 <= 1 - 100 / 10000 /\ exact_threshold 100 (/ 2 ^ 18) 2 * (1 + / 2 ^ 53) ^ 8 <= 10000 /\ accurate_square (fun v => binary64 (v ^ 2)).
Proof.
  split. { assert (I : forall n, (18 <= n)%nat -> / 2 ^ n <= / 2 ^ 18) by (intros n H; apply lo_le; auto). pose proof (I 100%nat ltac:(lia)). pose proof (I 60%nat ltac:(lia)). unfold usual_range. repeat split; try lra. }
  split; [lra|]. split.
  - unfold exact_threshold. assert (Q : sqrt (1 + 2 / (/ 2 ^ 18 * 100 * 2)) <= 100). { apply Rle_trans with (sqrt (Rsqr 100)); [|rewrite sqrt_Rsqr; lra]. apply sqrt_le_1_alt. unfold Rsqr. replace (2 / (/ 2 ^ 18 * 100 * 2)) with (2 ^ 18 / 100) by field. lra. }
    fold u64. assert (W : (1 + u64) ^ 8 <= 3 / 2). { apply Rle_trans with (1 + 1 / 2); [|lra]. apply up_small; simpl INR; rewrite u64_val; lra. } pose proof (up_pos 8) as P. set (s := sqrt _) in *. apply Rle_trans with (100 / 2 * (1 + 100) * (3 / 2)); [|lra]. apply Rle_trans with (100 / 2 * (1 + 100) * (1 + u64) ^ 8); [apply Rmult_le_compat_r; lra|apply Rmult_le_compat_l; lra].
  - intros v H. destruct H as [H1 H2]. assert (L : / 2 ^ 900 <= Rabs (v ^ 2)). { apply (lo_abs _ 800); [|lia]. replace (v ^ 2) with (v * v) by ring. apply (mul_lo 400 400); auto; lia. } pose proof (fl_rel _ L) as F. unfold rel in F. rewrite (Rabs_right (v ^ 2)) in F by (apply Rle_ge, pow2_ge_0). eapply Rle_trans; [exact F|]. apply Rmult_le_compat_r; [apply pow2_ge_0|]. rewrite u64_val. replace (/ 2 ^ 52) with (/ 4503599627370496) by (rewrite (pow_IZR 2 52); reflexivity). lra.
Qed.
