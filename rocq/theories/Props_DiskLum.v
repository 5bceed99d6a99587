(** Property C85: the disk as a whole radiates the luminosity it is given. *)
From Coq Require Import Reals Lra.
From Coquelicot Require Import Coquelicot.
From Verif Require Import Base Conversion Targets Spec_Thermal Spec_Beams TargetFacts Props_Targets Props_Thermal.
Open Scope R_scope.

(** ** specification *)
(** [L] is what both faces of an annular black body between [a] and [b]
    radiate, its temperature at radius r being [T r] *)
Definition radiates (P : phys) (T : R -> R) (a b L : R) : Prop :=
  is_RInt (fun r => 2 * (2 * PI * r) * (c_sigmaSB P * T r ^ 4)) a b L.
(** the part of the power of a thin disk that is emitted inside of the radius
    R_in / x, torque vanishing at R_in *)
Definition part_inside (x : R) : R := 1 - 3 * x + 2 * (x * sqrt x).

Lemma part_bounds x : 0 <= x <= 1 -> 0 <= part_inside x <= 1.
Proof.
  intros [H0 H1]. unfold part_inside. set (s := sqrt x). assert (Hs : s * s = x) by (apply sqrt_sqrt; auto). assert (0 <= s) by apply sqrt_pos.
  assert (s <= 1). { rewrite <- sqrt_1. apply sqrt_le_1_alt. auto. } rewrite <- Hs. split; [|nra].
  replace (1 - 3 * (s * s) + 2 * (s * s * s)) with ((1 - s) * (1 - s) * (1 + 2 * s)) by ring. apply Rmult_le_pos; nra.
Qed.

Lemma flux_integral A R_in R_out : 0 < R_in -> R_in <= R_out ->
  is_RInt (fun r => A * / (r * r) * (1 - sqrt (R_in / r))) R_in R_out (A / (3 * R_in) * part_inside (R_in / R_out)).
Proof.
  intros Hi Ho. set (F := fun r => A * (- / r + 2 / 3 * (sqrt (R_in / r) * / r))).
  replace (A / (3 * R_in) * part_inside (R_in / R_out)) with (minus (F R_out) (F R_in)).
  - apply (is_RInt_derive F).
    + intros x Hx. rewrite Rmin_left, Rmax_right in Hx by auto. assert (Hr : 0 < R_in / x) by (apply Rdiv_lt_0_compat; lra). unfold F. auto_derive; [repeat split; lra|].
      set (s := sqrt (R_in * / x)). assert (Hs : 0 < s) by (apply sqrt_lt_R0; exact Hr). assert (Es : s * s = R_in * / x) by (apply sqrt_sqrt; left; exact Hr).
      change (sqrt (R_in / x)) with s. replace R_in with (s * s * x) by (rewrite Es; field; lra). field. split; lra.
    + intros x Hx. rewrite Rmin_left, Rmax_right in Hx by auto. assert (Hr : 0 < R_in / x) by (apply Rdiv_lt_0_compat; lra). apply (ex_derive_continuous (fun r => A * / (r * r) * (1 - sqrt (R_in / r))) x). auto_derive. repeat split; try lra. apply Rmult_integral_contrapositive; lra.
  - unfold F, part_inside, minus, plus, opp. simpl. replace (R_in / R_in) with 1 by (field; lra). rewrite sqrt_1. field. lra.
Qed.

(** ** C85 *)
(** integrated over its surface, the flux that T(R) gives is the power released
    by the accretion rate down to R_in, except for what lies outside of R_out *)
Theorem C85_power : forall P M m_dot R_in R_out, phys_ok P -> 0 < M -> 0 < m_dot -> 0 < R_in -> R_in <= R_out ->
  radiates P (fun r => evaluate_T P r M m_dot R_in) R_in R_out (c_G P * M * m_dot / (2 * R_in) * part_inside (R_in / R_out)).
Proof.
  intros P M m R_in R_out HP HM Hm Hi Ho. pose proof HP as []. pose proof PI_RGT_0. red.
  replace (c_G P * M * m / (2 * R_in)) with (3 * c_G P * M * m / 2 / (3 * R_in)) by (field; lra).
  eapply is_RInt_ext; [|apply flux_integral; auto]. intros x Hx. rewrite Rmin_left in Hx by auto. simpl.
  destruct (C79_disk_temperature P x M m R_in HP HM Hm Hi ltac:(lra)) as [_ E]. simpl in E. rewrite E. unfold Spec_Beams.disk_flux. field. lra.
Qed.
Print Assumptions C85_power.

(** In terms of the disk's attributes: this is the fraction R_g / (2 eta R_in)
    of L_disk, times the part inside R_out.  With eta R_in = R_g / 2 (as for
    eta = 1/12 and an inner edge at 6 R_g) the disk radiates L_disk but for
    what is outside of R_out, at most 3 R_in / R_out of it. *)
Theorem C85_luminosity : forall P M L eta a b units d, phys_ok P -> 0 < M -> 0 < L -> 0 < eta -> ssdisk_init P M L eta a b units = Ok d -> 0 < sd_R_in d -> sd_R_in d <= sd_R_out d ->
  exists power, radiates P (fun r => evaluate_T P r (sd_M_BH d) (sd_m_dot d) (sd_R_in d)) (sd_R_in d) (sd_R_out d) power /\
    power = sd_L_disk d * (R_g P M / (2 * eta * sd_R_in d)) * part_inside (sd_R_in d / sd_R_out d) /\
    (eta * sd_R_in d = R_g P M / 2 -> L * (1 - 3 * (sd_R_in d / sd_R_out d)) <= power <= L).
Proof.
  intros P M L eta a b units d HP HM HL He Hd Hi Ho. pose proof HP as [].
  assert (E : sd_L_disk d = L /\ sd_M_BH d = M /\ sd_m_dot d = L / (eta * c_c P ^ 2)).
  { unfold ssdisk_init in Hd. cbv zeta in Hd. assert (I : forall (x y : ssdisk), Ok x = Ok y -> x = y) by congruence. destruct units, a, b; try congruence; apply I in Hd; subst d; repeat split. }
  destruct E as (E1 & E2 & E3). assert (Hc2 : 0 < c_c P ^ 2) by (apply pow_lt; auto). assert (Hm : 0 < sd_m_dot d) by (rewrite E3; apply Rdiv_lt_0_compat; auto; apply Rmult_lt_0_compat; auto).
  eexists. split; [|split; [reflexivity|]].
  - rewrite E2. replace (sd_L_disk d * (R_g P M / (2 * eta * sd_R_in d))) with (c_G P * M * sd_m_dot d / (2 * sd_R_in d)); [apply C85_power; auto|].
    rewrite E1, E3. unfold R_g. field. repeat split; lra.
  - intros Eta. rewrite E1. replace (R_g P M / (2 * eta * sd_R_in d)) with 1.
    + rewrite Rmult_1_r. set (x := sd_R_in d / sd_R_out d). assert (Hx : 0 <= x <= 1). { unfold x. split; [apply Rlt_le, Rdiv_lt_0_compat; lra|]. apply Rmult_le_reg_r with (sd_R_out d); [lra|]. unfold Rdiv. rewrite Rmult_assoc, Rinv_l; lra. }
      destruct (part_bounds x Hx) as [B1 B2]. assert (B3 : 1 - 3 * x <= part_inside x). { unfold part_inside. pose proof (sqrt_pos x). assert (0 <= x * sqrt x) by (apply Rmult_le_pos; lra). lra. }
      split; [apply Rmult_le_compat_l; lra|]. rewrite <- (Rmult_1_r L) at 2. apply Rmult_le_compat_l; lra.
    + replace (2 * eta * sd_R_in d) with (2 * (eta * sd_R_in d)) by ring. rewrite Eta. field. unfold R_g.
      assert (0 < c_G P * M / c_c P ^ 2) by (apply Rdiv_lt_0_compat; auto; apply Rmult_lt_0_compat; auto). lra.
Qed.
Print Assumptions C85_luminosity.

(** 1e8 solar masses, 2e46 erg/s, eta = 1/12, 6 R_g to 200 R_g: between 91% and 100% *)
Example C85_case : exists d power, ssdisk_init codata (1e8 * M_sun) 2e46 (1 / 12) (Plain 6) (Plain 200) true = Ok d /\
  radiates codata (fun r => evaluate_T codata r (sd_M_BH d) (sd_m_dot d) (sd_R_in d)) (sd_R_in d) (sd_R_out d) power /\ 0.91 * 2e46 <= power <= 2e46.
Proof.
  assert (Hg : 0 < R_g codata (1e8 * M_sun)). { pose proof codata_ok as []. unfold R_g. assert (0 < 1e8 * M_sun) by (unfold M_sun; lra). apply Rdiv_lt_0_compat; [apply Rmult_lt_0_compat; auto|apply pow_lt; auto]. }
  destruct (C52_argument_kinds codata (1e8 * M_sun) 2e46 (1 / 12) (Plain 6) (Plain 200) true) as [_ K]. destruct K as [d Hd]; [left; eauto|].
  assert (E : sd_R_in d = 6 * R_g codata (1e8 * M_sun) /\ sd_R_out d = 200 * R_g codata (1e8 * M_sun)).
  { unfold ssdisk_init in Hd. cbv zeta in Hd. assert (I : forall (x y : ssdisk), Ok x = Ok y -> x = y) by congruence. apply I in Hd; subst d; split; reflexivity. }
  destruct E as [E1 E2].
  destruct (C85_luminosity codata (1e8 * M_sun) 2e46 (1 / 12) _ _ _ d codata_ok ltac:(unfold M_sun; lra) ltac:(lra) ltac:(lra) Hd ltac:(lra) ltac:(lra)) as (p & H1 & _ & H3).
  exists d, p. split; auto. split; auto. destruct H3 as [H3 H4]; [rewrite E1; lra|]. split; auto. eapply Rle_trans; [|exact H3].
  rewrite E1, E2. set (g := R_g codata (1e8 * M_sun)) in *. replace (6 * g / (200 * g)) with (6 / 200) by (field; lra). lra.
Qed.
