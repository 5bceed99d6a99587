(** C109: the self absorption factor in floating point arithmetic *)
From Coquelicot Require Import Coquelicot.
From Flocq Require Import Core.
From Flocq Require Import Relative.
From Verif Require Import Base NumpyInst MathUtils Conversion Spectra Blob Synchrotron Spec_Blob Clock ClockFacts RoundFacts Spec_Round Calculus SynchFacts Props_Synch Props_Round2 RoundSSA.
Open Scope R_scope.
#[local] Existing Instance prec53.

(** ** without rounding it is the function of Synchrotron.v *)
Theorem C109_model : forall tau, attenuated (fun x => x) exp (fun x => x ^ 2) tau = tau_to_attenuation tau.
Proof. reflexivity. Qed.
Print Assumptions C109_model.

(** the factor of a homogeneous sphere, exactly *)
Definition exact_factor (tau : R) : R := 3 / tau * (1 / 2 + exp (- tau) / tau - (1 - exp (- tau)) / tau ^ 2).

(** ** one rounding *)
Definition h0 : R := / 2 ^ 1000.
Lemma h0_small : 0 < h0 <= u64 / 10 ^ 10 /\ h0 * 2 ^ 401 <= u64 / 10 ^ 10.
Proof.
  assert (P : 0 < 2 ^ 1000) by (apply pow_lt; lra). assert (K : / 2 ^ 599 <= u64 / 10 ^ 10).
  { apply Rle_trans with (/ 2 ^ 90). - apply Rinv_le_contravar; [apply pow_lt; lra|]. apply Rle_pow; [lra|lia]. - rewrite u64_val. lra. }
  assert (E : h0 * 2 ^ 401 = / 2 ^ 599). { unfold h0. replace 1000%nat with (599 + 401)%nat by lia. rewrite pow_add, Rinv_mult, Rmult_assoc, Rinv_l; [ring|]. apply pow_nonzero. lra. }
  rewrite E. split; auto. split; [unfold h0; apply Rinv_0_lt_compat; auto|]. eapply Rle_trans; [|exact K]. unfold h0. apply Rinv_le_contravar; [apply pow_lt; lra|]. apply Rle_pow; [lra|lia].
Qed.
Lemma fl_err x : Rabs (binary64 x - x) <= u64 * Rabs x + h0.
Proof.
  destruct (error_N_FLT radix2 (-1074) 53 ltac:(lia) (fun n => negb (Z.even n)) x) as (e & eta & He & Hn & _ & E). unfold binary64. rewrite E. replace (x * (1 + e) + eta - x) with (e * x + eta) by ring.
  eapply Rle_trans; [apply Rabs_triang|]. rewrite Rabs_mult. apply Rplus_le_compat.
  - apply Rmult_le_compat_r; [apply Rabs_pos|]. replace u64 with (/ 2 * bpow radix2 (- 53 + 1)) by (rewrite u64_val; simpl; lra). exact He.
  - eapply Rle_trans; [exact Hn|]. assert (B : bpow radix2 (-1074) <= h0) by (change (-1074)%Z with (- Z.of_nat 1074)%Z; rewrite bpow_inv; apply lo_le; lia).
    pose proof (bpow_gt_0 radix2 (-1074)). lra.
Qed.
Lemma fl_of x y d : Rabs (y - x) <= d -> Rabs (binary64 y - x) <= d + u64 * (Rabs x + d) + h0.
Proof.
  intros H. pose proof (fl_err y) as K. pose proof u64_pos as U. assert (Rabs y <= Rabs x + d). { replace y with (x + (y - x)) by ring. eapply Rle_trans; [apply Rabs_triang|]. lra. }
  assert (u64 * Rabs y <= u64 * (Rabs x + d)) by (apply Rmult_le_compat_l; lra). replace (binary64 y - x) with ((binary64 y - y) + (y - x)) by ring. eapply Rle_trans; [apply Rabs_triang|]. lra.
Qed.

(** ** the exact factor is not small *)
Lemma factor_att t : 0 < t -> exact_factor t = att t.
Proof. intros H. unfold exact_factor, att, att_num. field. lra. Qed.
Lemma att_num_low t : 0 < t -> t ^ 3 < 3 * (1 + t) * att_num t.
Proof.
  intros H. assert (0 * (att_num 0) - 0 < 3 * (1 + t) * att_num t - t ^ 3); [|lra].
  replace (0 * att_num 0 - 0) with (3 * (1 + 0) * att_num 0 - 0 ^ 3) by (rewrite att_num_0; ring).
  apply (strict_incr (fun t => 3 * (1 + t) * att_num t - t ^ 3) (fun t => 3 * att_num t + 3 * (1 + t) * (t * (1 - exp (- t))) - 3 * t ^ 2)); auto.
  - intros x _. unfold att_num. auto_derive; auto. field.
  - intros x [Hx _]. pose proof (att_num_pos x Hx). pose proof (exp_gt x ltac:(lra)) as G. assert (P : (1 + x) * exp (- x) < 1).
    { rewrite exp_Ropp. apply (Rmult_lt_reg_r (exp x)); [apply exp_pos|]. rewrite Rmult_assoc, Rinv_l by (pose proof (exp_pos x); lra). lra. }
    replace (3 * att_num x + 3 * (1 + x) * (x * (1 - exp (- x))) - 3 * x ^ 2) with (3 * att_num x + 3 * x * (1 - (1 + x) * exp (- x))) by ring.
    assert (0 < x * (1 - (1 + x) * exp (- x))) by (apply Rmult_lt_0_compat; lra). lra.
Qed.
Lemma factor_low t : 0 < t -> / (1 + t) <= exact_factor t <= 1.
Proof.
  intros H. rewrite factor_att by auto. split; [|left; apply att_range; auto]. pose proof (att_num_low t H). assert (0 < t ^ 3) by (apply pow_lt; auto). unfold att.
  apply (Rmult_le_reg_r (t ^ 3 * (1 + t))); [apply Rmult_lt_0_compat; lra|]. replace (/ (1 + t) * (t ^ 3 * (1 + t))) with (t ^ 3) by (field; lra). replace (3 * att_num t / t ^ 3 * (t ^ 3 * (1 + t))) with (3 * (1 + t) * att_num t) by (field; lra). lra.
Qed.

(** ** error of the formula *)
Section Factor.
Variable fexp fsq : R -> R.
Variable t : R.
Hypothesis exp_ok : Rabs (fexp (- t) - exp (- t)) <= 2 * u64 * exp (- t) + h0.
Hypothesis sq_ok : Rabs (fsq t - t ^ 2) <= 2 * u64 * t ^ 2.
Hypothesis t_ok : 999 / 10 ^ 6 <= t <= 2 ^ 400.
Let X := / t.
Let E := exp (- t).
Let e := fexp (- t).
Lemma X_ok : 0 < X <= 1002.
Proof. unfold X. split; [apply Rinv_0_lt_compat; lra|]. apply Rmult_le_reg_r with t; [lra|]. rewrite Rinv_l by lra. lra. Qed.
Lemma E_ok : 0 < E < 1.
Proof. unfold E. split; [apply exp_pos|apply exp_neg_lt_1; lra]. Qed.
Lemma e_ok : Rabs (e - E) <= 201 / 100 * u64.
Proof. pose proof E_ok. pose proof h0_small as [[] _]. pose proof u64_pos. eapply Rle_trans; [exact exp_ok|]. fold E. assert (u64 * E <= u64 * 1) by (apply Rmult_le_compat_l; lra). lra. Qed.
Lemma stage_a : Rabs (binary64 (e / t) - E * X) <= u64 * (302 / 100 * X + 1 / 1000).
Proof.
  pose proof E_ok. pose proof X_ok. pose proof h0_small as [[] _]. pose proof u64_pos. pose proof e_ok as K.
  assert (D : Rabs (e / t - E * X) <= 201 / 100 * u64 * X). { unfold X. replace (e / t - E * / t) with ((e - E) * / t) by (field; lra). rewrite Rabs_mult. rewrite (Rabs_right (/ t)) by (unfold X in *; lra). apply Rmult_le_compat_r; [unfold X in *; lra|exact K]. }
  pose proof (fl_of _ _ _ D) as F. assert (0 <= E * X <= X) by (split; [apply Rmult_le_pos; lra|]; rewrite <- (Rmult_1_l X) at 2; apply Rmult_le_compat_r; lra). rewrite (Rabs_right (E * X)) in F by lra. rewrite u64_val in *. lra.
Qed.
Lemma stage_b : Rabs (binary64 (1 / 2 + binary64 (e / t)) - (1 / 2 + E * X)) <= u64 * (405 / 100 * X + 52 / 100).
Proof.
  pose proof E_ok. pose proof X_ok. pose proof h0_small as [[] _]. pose proof stage_a as A. assert (D : Rabs ((1 / 2 + binary64 (e / t)) - (1 / 2 + E * X)) <= u64 * (302 / 100 * X + 1 / 1000)) by (replace ((1 / 2 + binary64 (e / t)) - (1 / 2 + E * X)) with (binary64 (e / t) - E * X) by ring; exact A).
  pose proof (fl_of _ _ _ D) as F. assert (0 <= E * X <= X) by (split; [apply Rmult_le_pos; lra|]; rewrite <- (Rmult_1_l X) at 2; apply Rmult_le_compat_r; lra). rewrite (Rabs_right (1 / 2 + E * X)) in F by lra. rewrite u64_val in *. lra.
Qed.
Lemma stage_w : Rabs (binary64 (1 - e) - (1 - E)) <= 302 / 100 * u64.
Proof.
  pose proof E_ok. pose proof h0_small as [[] _]. pose proof e_ok as K. assert (D : Rabs ((1 - e) - (1 - E)) <= 201 / 100 * u64) by (replace ((1 - e) - (1 - E)) with (- (e - E)) by ring; rewrite Rabs_Ropp; exact K).
  pose proof (fl_of _ _ _ D) as F. rewrite (Rabs_right (1 - E)) in F by lra. rewrite u64_val in *. lra.
Qed.
Lemma stage_c : Rabs (binary64 (binary64 (1 - e) / fsq t) - (1 - E) * (X * X)) <= u64 * (61 / 10 * (X * X) + 1 / 1000).
Proof.
  pose proof E_ok. pose proof X_ok. pose proof h0_small as [[] _]. pose proof stage_w as W. set (w := binary64 (1 - e)) in *. assert (Wr : Rabs w <= 101 / 100). { replace w with ((1 - E) + (w - (1 - E))) by ring. eapply Rle_trans; [apply Rabs_triang|]. rewrite (Rabs_right (1 - E)) by lra. rewrite u64_val in *. lra. }
  assert (T : 0 < t ^ 2) by (apply pow_lt; lra). pose proof (Rabs_le_inv _ _ sq_ok) as Q. assert (Q0 : 999 / 1000 * t ^ 2 <= fsq t) by (rewrite u64_val in *; lra).
  assert (XX : X * X = / t ^ 2) by (unfold X; field; lra). assert (X2 : 0 < X * X) by (apply Rmult_lt_0_compat; lra).
  assert (D1 : Rabs (w / fsq t - w * (X * X)) <= 205 / 100 * u64 * (X * X)).
  { rewrite XX. replace (w / fsq t - w * / t ^ 2) with (w * ((t ^ 2 - fsq t) * (/ fsq t * / t ^ 2))) by (field; split; lra). rewrite !Rabs_mult. rewrite (Rabs_right (/ fsq t)) by (left; apply Rinv_0_lt_compat; lra). rewrite (Rabs_right (/ t ^ 2)) by (left; apply Rinv_0_lt_compat; lra).
    rewrite (Rabs_minus_sym (t ^ 2)). assert (I : / fsq t <= / (999 / 1000 * t ^ 2)) by (apply Rinv_le_contravar; lra). assert (I0 : 0 < / fsq t) by (apply Rinv_0_lt_compat; lra). assert (I1 : 0 < / t ^ 2) by (apply Rinv_0_lt_compat; lra).
    apply Rle_trans with (101 / 100 * ((2 * u64 * t ^ 2) * (/ (999 / 1000 * t ^ 2) * / t ^ 2))).
    - apply Rmult_le_compat; auto; try apply Rabs_pos. { apply Rmult_le_pos; [apply Rabs_pos|apply Rmult_le_pos; lra]. } apply Rmult_le_compat; auto; [apply Rabs_pos|apply Rmult_le_pos; lra|]. apply Rmult_le_compat_r; lra.
    - replace (101 / 100 * (2 * u64 * t ^ 2 * (/ (999 / 1000 * t ^ 2) * / t ^ 2))) with (101 / 100 * 2 * (1000 / 999) * u64 * / t ^ 2) by (field; lra). apply Rmult_le_compat_r; [lra|]. apply Rmult_le_compat_r; [pose proof u64_pos; lra|]. lra. }
  assert (D2 : Rabs (w * (X * X) - (1 - E) * (X * X)) <= 302 / 100 * u64 * (X * X)).
  { replace (w * (X * X) - (1 - E) * (X * X)) with ((w - (1 - E)) * (X * X)) by ring. rewrite Rabs_mult, (Rabs_right (X * X)) by lra. apply Rmult_le_compat_r; [lra|exact W]. }
  assert (D : Rabs (w / fsq t - (1 - E) * (X * X)) <= 507 / 100 * u64 * (X * X)). { replace (w / fsq t - (1 - E) * (X * X)) with ((w / fsq t - w * (X * X)) + (w * (X * X) - (1 - E) * (X * X))) by ring. eapply Rle_trans; [apply Rabs_triang|]. lra. }
  pose proof (fl_of _ _ _ D) as F. assert (0 <= (1 - E) * (X * X) <= X * X) by (split; [apply Rmult_le_pos; lra|]; rewrite <- (Rmult_1_l (X * X)) at 2; apply Rmult_le_compat_r; lra). rewrite (Rabs_right ((1 - E) * (X * X))) in F by lra. rewrite u64_val in *. lra.
Qed.
Lemma stage_u : Rabs (binary64 (binary64 (1 / 2 + binary64 (e / t)) - binary64 (binary64 (1 - e) / fsq t)) - exact_factor t * t / 3) <= u64 * (62 / 10 * (X * X) + 41 / 10 * X + 11 / 10).
Proof.
  pose proof E_ok. pose proof X_ok. pose proof h0_small as [[] _]. pose proof stage_b as B. pose proof stage_c as C. set (b := binary64 (1 / 2 + _)) in *. set (c := binary64 (_ / fsq t)) in *.
  assert (U : exact_factor t * t / 3 = (1 / 2 + E * X) - (1 - E) * (X * X)) by (unfold exact_factor, X, E; field; lra).
  assert (X2 : 0 < X * X) by (apply Rmult_lt_0_compat; lra).
  assert (D : Rabs ((b - c) - exact_factor t * t / 3) <= u64 * (61 / 10 * (X * X) + 405 / 100 * X + 53 / 100)).
  { rewrite U. replace (b - c - (1 / 2 + E * X - (1 - E) * (X * X))) with ((b - (1 / 2 + E * X)) + - (c - (1 - E) * (X * X))) by ring. eapply Rle_trans; [apply Rabs_triang|]. rewrite Rabs_Ropp. rewrite u64_val in *. lra. }
  pose proof (fl_of _ _ _ D) as F.
  assert (V : 0 <= exact_factor t * t / 3 <= 1 / 2). { rewrite factor_att by lra. pose proof (att_num_pos t ltac:(lra)) as P. split; [pose proof (att_range t ltac:(lra)); apply Rmult_le_pos; [apply Rmult_le_pos; lra|lra]|].
    assert (T : 0 < t ^ 2) by (apply pow_lt; lra). replace (att t * t / 3) with (att_num t / t ^ 2) by (unfold att; field; lra). apply Rmult_le_reg_r with (t ^ 2); auto. unfold Rdiv at 1. rewrite Rmult_assoc, Rinv_l by lra. unfold att_num. pose proof (exp_gt t ltac:(lra)) as G.
    assert (Q : (1 + t) * exp (- t) < 1). { rewrite exp_Ropp. apply (Rmult_lt_reg_r (exp t)); [apply exp_pos|]. rewrite Rmult_assoc, Rinv_l by (pose proof (exp_pos t); lra). lra. } lra. }
  rewrite (Rabs_right (exact_factor t * t / 3)) in F by lra. rewrite u64_val in *. lra.
Qed.
Lemma stage_f : Rabs (slab binary64 fexp fsq t - exact_factor t) <= u64 * (19 * (X * (X * X)) + 31 * (X * X) + 16 * X + 6) * exact_factor t.
Proof.
  pose proof X_ok as HX. pose proof h0_small as [[H0 H1] H2]. pose proof stage_u as S. unfold slab. cbv zeta. fold e. set (u := binary64 (_ - _)) in *. set (F := exact_factor t) in *. set (Q := 62 / 10 * (X * X) + 41 / 10 * X + 11 / 10) in *.
  destruct (factor_low t ltac:(lra)) as [L1 L2]. fold F in L1, L2. assert (X2 : 0 < X * X) by (apply Rmult_lt_0_compat; lra).
  assert (HF : 0 < F) by (eapply Rlt_le_trans; [|exact L1]; apply Rinv_0_lt_compat; lra).
  assert (One : 1 <= F * (1 + t)). { apply Rmult_le_compat_r with (r := 1 + t) in L1; [|lra]. rewrite Rinv_l in L1 by lra. exact L1. }
  assert (Tx : t * X = 1) by (unfold X; field; lra).
  assert (XF : X <= F * (X + 1)). { apply Rle_trans with (X * (F * (1 + t))); [|right; replace (X * (F * (1 + t))) with (F * (X + t * X)) by ring; rewrite Tx; ring]. rewrite <- (Rmult_1_r X) at 1. apply Rmult_le_compat_l; lra. }
  assert (hF : h0 <= u64 / 10 ^ 10 * F).
  { apply Rle_trans with (h0 * (F * (1 + t))); [rewrite <- (Rmult_1_r h0) at 1; apply Rmult_le_compat_l; lra|]. apply Rle_trans with (h0 * 2 ^ 401 * F); [|apply Rmult_le_compat_r; lra].
    replace (h0 * (F * (1 + t))) with (h0 * (1 + t) * F) by ring. apply Rmult_le_compat_r; [lra|]. apply Rmult_le_compat_l; [lra|]. change 401%nat with (1 + 400)%nat. rewrite pow_add, pow_1. assert (1 <= 2 ^ 400) by (apply pow_R1_Rle; lra). lra. }
  assert (D1 : Rabs (3 * u - 3 * (F * t / 3)) <= 3 * (u64 * Q)). { replace (3 * u - 3 * (F * t / 3)) with (3 * (u - F * t / 3)) by ring. rewrite Rabs_mult, (Rabs_right 3) by lra. apply Rmult_le_compat_l; [lra|exact S]. }
  pose proof (fl_of _ _ _ D1) as G1. set (y := binary64 (3 * u)) in *. replace (3 * (F * t / 3)) with (F * t) in G1 by field. rewrite (Rabs_right (F * t)) in G1 by (apply Rle_ge, Rmult_le_pos; lra).
  set (g := 3 * (u64 * Q) + u64 * (F * t + 3 * (u64 * Q)) + h0) in *.
  assert (D2 : Rabs (y / t - F) <= g * X). { replace (y / t - F) with ((y - F * t) * X) by (unfold X; field; lra). rewrite Rabs_mult, (Rabs_right X) by lra. apply Rmult_le_compat_r; lra. }
  pose proof (fl_of _ _ _ D2) as G2. rewrite (Rabs_right F) in G2 by lra. eapply Rle_trans; [exact G2|].
  assert (HQ : 0 <= Q) by (unfold Q; lra). assert (QX : Q * X <= Q * (F * (X + 1))) by (apply Rmult_le_compat_l; auto). assert (hX : h0 * X <= h0 * 1002) by (apply Rmult_le_compat_l; lra).
  assert (gX : g * X = (1 + u64) * 3 * u64 * (Q * X) + u64 * F + h0 * X). { unfold g. transitivity ((1 + u64) * 3 * u64 * (Q * X) + u64 * F * (t * X) + h0 * X); [ring|]. rewrite Tx. ring. }
  rewrite gX. replace (u64 * (19 * (X * (X * X)) + 31 * (X * X) + 16 * X + 6) * F) with (u64 * (3 * (Q * (F * (X + 1))) + (4 / 10 * (X * (X * X) * F) + 1 / 10 * (X * X * F) + 4 / 10 * (X * F) + 27 / 10 * F))) by (unfold Q; field).
  assert (M0 : 0 <= X * F) by (apply Rmult_le_pos; lra). assert (M1 : 0 <= X * X * F) by (apply Rmult_le_pos; lra). assert (M2 : 0 <= X * (X * X) * F) by (apply Rmult_le_pos; [apply Rmult_le_pos|]; lra).
  assert (Em : Q * (F * (X + 1)) = 62 / 10 * (X * (X * X) * F) + 103 / 10 * (X * X * F) + 52 / 10 * (X * F) + 11 / 10 * F) by (unfold Q; field).
  set (m2 := X * (X * X) * F) in *. set (m1 := X * X * F) in *. set (m0 := X * F) in *. set (qx := Q * X) in *. set (M := Q * (F * (X + 1))) in *. clearbody qx M m0 m1 m2. rewrite u64_val in *. lra.
Qed.
End Factor.

(** ** the theorems *)
(** np.exp is accurate to one unit in the last place (and may underflow), np.power(x, 2) too *)
Definition accurate_exp (fexp : R -> R) : Prop := forall x, Rabs (fexp x - exp x) <= / 2 ^ 52 * exp x + / 2 ^ 1000.
Definition accurate_square (fsq : R -> R) : Prop := forall x, / 2 ^ 400 <= Rabs x <= 2 ^ 400 -> Rabs (fsq x - x ^ 2) <= / 2 ^ 52 * x ^ 2.
Lemma u2 : / 2 ^ 52 = 2 * u64.
Proof. rewrite u64_val. rewrite (pow_IZR 2 52). change (Z.of_nat 52) with 52%Z. simpl Z.pow. lra. Qed.
Lemma milli : 999 / 10 ^ 6 <= binary64 (1 / 10 ^ 3) <= 1001 / 10 ^ 6.
Proof. pose proof (fl_err (1 / 10 ^ 3)) as K. pose proof h0_small as [[] _]. rewrite (Rabs_right (1 / 10 ^ 3)) in K by lra. apply Rabs_le_inv in K. rewrite u64_val in *. lra. Qed.

Theorem C109_accuracy : forall fexp fsq tau, accurate_exp fexp -> accurate_square fsq -> 0 < tau <= 2 ^ 400 ->
  (tau < binary64 (1 / 10 ^ 3) -> attenuated binary64 fexp fsq tau = 1 /\ Rabs (1 - exact_factor tau) <= 3 / 8 * tau) /\
  (binary64 (1 / 10 ^ 3) <= tau -> Rabs (attenuated binary64 fexp fsq tau - exact_factor tau) <= / 2 ^ 53 * (19 / tau ^ 3 + 31 / tau ^ 2 + 16 / tau + 6) * exact_factor tau).
Proof.
  intros fexp fsq t He Hs Ht. split; intros H.
  - split; [unfold attenuated; rewrite (proj2 (Rltb_true _ _) H); auto|]. destruct C40_factor_from_1 as (_ & K & _). destruct (K t (proj1 Ht)) as [K1 K2]. fold (exact_factor t) in K1, K2. apply Rabs_le. lra.
  - unfold attenuated. rewrite (proj2 (Rltb_false _ _) H). pose proof milli. change (/ 2 ^ 53) with u64.
    replace (19 / t ^ 3 + 31 / t ^ 2 + 16 / t + 6) with (19 * (/ t * (/ t * / t)) + 31 * (/ t * / t) + 16 * / t + 6) by (field; lra). apply stage_f; [| |lra].
    + rewrite <- u2. apply He.
    + rewrite <- u2. apply Hs. rewrite Rabs_right by lra. split; [|lra]. apply Rle_trans with (/ 2 ^ 10); [apply lo_le; lia|lra].
Qed.
Print Assumptions C109_accuracy.

(** one number for every opacity: four parts in ten thousand, and three in a million above the threshold *)
Theorem C109_uniform : forall fexp fsq tau, accurate_exp fexp -> accurate_square fsq -> 0 < tau <= 2 ^ 400 ->
  Rabs (attenuated binary64 fexp fsq tau - exact_factor tau) <= 4 / 10 ^ 4 * exact_factor tau /\
  (binary64 (1 / 10 ^ 3) <= tau -> Rabs (attenuated binary64 fexp fsq tau - exact_factor tau) <= 3 / 10 ^ 6 * exact_factor tau).
Proof.
  intros fexp fsq t He Hs Ht. destruct (C109_accuracy fexp fsq t He Hs Ht) as [A B]. pose proof milli as M.
  assert (HF : 0 < exact_factor t). { destruct (factor_low t ltac:(lra)) as [L _]. eapply Rlt_le_trans; [|exact L]. apply Rinv_0_lt_compat; lra. }
  assert (Above : binary64 (1 / 10 ^ 3) <= t -> Rabs (attenuated binary64 fexp fsq t - exact_factor t) <= 3 / 10 ^ 6 * exact_factor t).
  { intros H. eapply Rle_trans; [apply B; auto|]. apply Rmult_le_compat_r; [lra|]. assert (HX : 0 < / t <= 1002) by (split; [apply Rinv_0_lt_compat; lra|]; apply Rle_trans with (/ (999 / 10 ^ 6)); [apply Rinv_le_contravar; lra|lra]).
    replace (19 / t ^ 3 + 31 / t ^ 2 + 16 / t + 6) with (19 * (/ t * (/ t * / t)) + 31 * (/ t * / t) + 16 * / t + 6) by (field; lra). set (x := / t) in *.
    assert (X2 : 0 <= x * x <= 1002 * 1002) by (split; [apply Rmult_le_pos|apply Rmult_le_compat]; lra). assert (X3 : x * (x * x) <= 1002 * (1002 * 1002)) by (apply Rmult_le_compat; lra).
    change (/ 2 ^ 53) with u64. apply Rle_trans with (u64 * (19 * (1002 * (1002 * 1002)) + 31 * (1002 * 1002) + 16 * 1002 + 6)); [apply Rmult_le_compat_l; [rewrite u64_val|]; lra|rewrite u64_val; lra]. }
  split; auto. destruct (Rlt_le_dec t (binary64 (1 / 10 ^ 3))) as [H|H].
  - destruct (A H) as [-> D]. apply Rabs_le_inv in D. apply Rabs_le. lra.
  - eapply Rle_trans; [apply Above; auto|]. apply Rmult_le_compat_r; lra.
Qed.
Print Assumptions C109_uniform.

(** without the threshold: an accurate exponential rounds exp(- 2^-60) to 1, and the slab expression is then larger than 10^30 although the exact factor is below 1 *)
Theorem C109_threshold_needed : forall fexp fsq, fexp (- / 2 ^ 60) = 1 -> fsq (/ 2 ^ 60) = (/ 2 ^ 60) ^ 2 ->
  10 ^ 30 <= slab binary64 fexp fsq (/ 2 ^ 60) /\ exact_factor (/ 2 ^ 60) <= 1 /\ attenuated binary64 fexp fsq (/ 2 ^ 60) = 1.
Proof.
  intros fexp fsq H1 H2. pose proof h0_small as [[h1 h2] _]. rewrite u64_val in h2. set (t := / 2 ^ 60) in *. assert (T : 0 < t <= / 10 ^ 15) by (unfold t; lra). split; [|split].
  - unfold slab. cbv zeta. rewrite H1. replace (1 - 1) with 0 by ring. assert (Z0 : binary64 0 = 0) by apply round_0, valid_rnd_N. rewrite !Z0. replace (0 / fsq t) with 0 by (unfold Rdiv; ring). rewrite Z0, Rminus_0_r.
    assert (K1 : 1 / t = 2 ^ 60) by (unfold t; field; apply pow_nonzero; lra). rewrite K1.
    pose proof (fl_err (2 ^ 60)) as A. rewrite (Rabs_right (2 ^ 60)), u64_val in A by lra. apply Rabs_le_inv in A. set (a := binary64 (2 ^ 60)) in *. assert (10 ^ 17 <= a) by lra.
    pose proof (fl_err (1 / 2 + a)) as B. rewrite (Rabs_right (1 / 2 + a)), u64_val in B by lra. apply Rabs_le_inv in B. set (b := binary64 (1 / 2 + a)) in *. assert (10 ^ 17 <= 2 * b) by lra.
    pose proof (fl_err b) as C. rewrite (Rabs_right b), u64_val in C by lra. apply Rabs_le_inv in C. set (c := binary64 b) in *. assert (10 ^ 17 <= 4 * c) by lra.
    pose proof (fl_err (3 * c)) as D. rewrite (Rabs_right (3 * c)), u64_val in D by lra. apply Rabs_le_inv in D. set (d := binary64 (3 * c)) in *. assert (10 ^ 17 <= 4 * d) by lra.
    assert (Q : d / t = d * 2 ^ 60) by (unfold t; field; apply pow_nonzero; lra). rewrite Q. pose proof (fl_err (d * 2 ^ 60)) as G. rewrite (Rabs_right (d * 2 ^ 60)), u64_val in G by lra. apply Rabs_le_inv in G. lra.
  - apply factor_low. lra.
  - unfold attenuated. rewrite (proj2 (Rltb_true _ _)); auto. pose proof milli. lra.
Qed.
Print Assumptions C109_threshold_needed.

(** the oracles exist: the correctly rounded exponential and square *)
Lemma rounded_exp : accurate_exp (fun x => binary64 (exp x)).
Proof. intros x. pose proof (fl_err (exp x)) as K. pose proof (exp_pos x). rewrite (Rabs_right (exp x)) in K by lra. fold h0. rewrite u2. pose proof u64_val as U. assert (0 <= u64 * exp x) by (apply Rmult_le_pos; [rewrite U|]; lra). lra. Qed.
Lemma rounded_square : accurate_square (fun x => binary64 (x ^ 2)).
Proof.
  intros x Hx. pose proof (fl_err (x ^ 2)) as K. assert (S0 : 0 <= x ^ 2) by apply pow2_ge_0. rewrite (Rabs_right (x ^ 2)) in K by lra. rewrite u2. assert (H : h0 <= u64 * x ^ 2); [|lra].
  apply Rle_trans with (u64 * (/ 2 ^ 400 * / 2 ^ 400)).
  - unfold h0, u64. rewrite <- !Rinv_mult, <- !pow_add. apply lo_le. lia.
  - apply Rmult_le_compat_l; [rewrite u64_val; lra|]. rewrite <- (pow2_abs x). replace (Rabs x ^ 2) with (Rabs x * Rabs x) by ring. assert (0 < / 2 ^ 400) by (apply Rinv_0_lt_compat, pow_lt; lra). apply Rmult_le_compat; lra.
Qed.
Example C109_case : let f := attenuated binary64 (fun x => binary64 (exp x)) (fun x => binary64 (x ^ 2)) in
  Rabs (f 1 - exact_factor 1) <= 72 / 2 ^ 53 * exact_factor 1 /\ Rabs (f (1 / 10) - exact_factor (1 / 10)) <= 3 / 10 ^ 12 * exact_factor (1 / 10) /\ f (/ 10 ^ 5) = 1.
Proof.
  cbv zeta. assert (B : 10 <= 2 ^ 400) by (apply Rle_trans with (2 ^ 4); [lra|apply Rle_pow; [lra|lia]]). pose proof milli as M.
  pose proof (fun t H => C109_accuracy _ _ t rounded_exp rounded_square H) as A. repeat split.
  - destruct (A 1 ltac:(lra)) as [_ K]. eapply Rle_trans; [apply K; lra|]. right. field. try (apply pow_nonzero; lra).
  - destruct (A (1 / 10) ltac:(lra)) as [_ K]. eapply Rle_trans; [apply K; lra|]. apply Rmult_le_compat_r; [|lra]. destruct (factor_low (1 / 10) ltac:(lra)). lra.
  - destruct (A (/ 10 ^ 5) ltac:(lra)) as [K _]. apply (proj1 (K ltac:(lra))).
Qed.
(** an accurate exponential that meets the hypothesis of C109_threshold_needed *)
Example C109_threshold_case : exists fexp, accurate_exp fexp /\ accurate_square (fun x => x ^ 2) /\ fexp (- / 2 ^ 60) = 1 /\
  10 ^ 30 <= slab binary64 fexp (fun x => x ^ 2) (/ 2 ^ 60) /\ exact_factor (/ 2 ^ 60) <= 1.
Proof.
  exists (fun x => if Reqb x (- / 2 ^ 60) then 1 else exp x). assert (P : 0 < / 2 ^ 1000) by (apply Rinv_0_lt_compat, pow_lt; lra). repeat split.
  - intros x. cbv beta. pose proof (exp_pos x). destruct (Reqb x (- / 2 ^ 60)) eqn:Hx.
    + apply Reqb_true in Hx. pose proof (exp_ineq1_le x). assert (exp x <= 1) by (rewrite <- exp_0; apply Raux.exp_le; lra). rewrite Rabs_right by lra. rewrite Hx in *. lra.
    + rewrite Rminus_eq_0, Rabs_R0. assert (0 < / 2 ^ 52 * exp x) by (apply Rmult_lt_0_compat; lra). lra.
  - intros x _. cbv beta. rewrite Rminus_eq_0, Rabs_R0. apply Rmult_le_pos; [lra|apply pow2_ge_0].
  - cbv beta. rewrite (proj2 (Reqb_true _ _) eq_refl). auto.
  - apply C109_threshold_needed; cbv beta; [rewrite (proj2 (Reqb_true _ _) eq_refl)|]; auto.
  - apply factor_low. lra.
Qed.
