(** Facts about the photon targets *)
From Verif Require Import Base TEUtils ListFacts NumpyInst MathUtils Conversion Spectra Blob Geometry Targets Spec_Math MathFacts SpectraFacts BlobFacts Calculus SynchFacts.
From Coquelicot Require Import Coquelicot.
Import ListNotations.
Open Scope list_scope.
Open Scope R_scope.

Ltac pos := lazymatch goal with
  | |- 0 < ?a * ?b => apply Rmult_lt_0_compat; pos
  | |- 0 < ?a / ?b => apply Rdiv_lt_0_compat; pos
  | |- 0 < / ?a => apply Rinv_0_lt_compat; pos
  | |- 0 < ?a ^ _ => apply pow_lt; pos
  | |- 0 < PI => apply PI_RGT_0
  | |- 0 < sqrt _ => apply sqrt_lt_R0; pos
  | |- 0 < npow _ _ => apply npow_pos
  | |- 0 < _ => first [assumption | lra | idtac]
  | |- 0 <= ?a * ?b => apply Rmult_le_pos; pos
  | |- 0 <= ?a / ?b => apply Rdiv_le_0_compat; pos
  | |- 0 <= ?a ^ 2 => apply pow2_ge_0
  | |- 0 <= ?a ^ _ => apply pow_le; pos
  | |- 0 <= PI => left; apply PI_RGT_0
  | |- 0 <= sqrt _ => apply sqrt_pos
  | |- 0 <= npow _ _ => left; apply npow_pos
  | |- 0 <= _ => first [assumption | lra | idtac]
  end.
Lemma linspace_in a b n x : a <= b -> In x (linspace a b n) -> a <= x <= b.
Proof.
  intros H Hx. apply In_nth_error in Hx. destruct Hx as [i Hi]. assert (L : (i < n)%nat). { rewrite <- (linspace_length a b n). apply nth_error_Some. congruence. }
  rewrite linspace_nth in Hi by auto. apply some_inj in Hi. subst x. destruct n as [|[|n]]; [lia| |].
  - replace i with 0%nat by lia. simpl. rewrite Rmult_0_l. lra.
  - assert (0 < INR (S (S n) - 1)) by (apply lt_0_INR; lia). assert (INR i <= INR (S (S n) - 1)) by (apply le_INR; lia). pose proof (pos_INR i).
    set (k := INR (S (S n) - 1)) in *. assert (E : INR i * ((b - a) / k) = (INR i / k) * (b - a)) by (field; lra). rewrite E.
    assert (0 <= INR i / k <= 1). { split. apply Rdiv_le_0_compat; auto. apply Rmult_le_reg_r with k; auto. unfold Rdiv. rewrite Rmult_assoc, Rinv_l by lra. lra. } nra.
Qed.
Lemma linspace_first a b n : (0 < n)%nat -> nth_error (linspace a b n) 0 = Some a.
Proof. intros H. rewrite linspace_nth by auto. f_equal. simpl. ring. Qed.
Lemma linspace_last a b n : (1 < n)%nat -> nth_error (linspace a b n) (n - 1) = Some b.
Proof. intros H. rewrite linspace_nth by lia. f_equal. assert (0 < INR (n - 1)) by (apply lt_0_INR; lia). field. lra. Qed.

(** ** zenith angles of the disk *)
Definition mu_of (r R_ : R) : R := 1 / sqrt (1 + (R_ / r) ^ 2).
Lemma mu_of_eq r R_ : 0 < r -> mu_of r R_ = r / sqrt (r ^ 2 + R_ ^ 2).
Proof.
  intros Hr. unfold mu_of. replace (r ^ 2 + R_ ^ 2) with (r ^ 2 * (1 + (R_ / r) ^ 2)) by (field; lra).
  pose proof (pow2_ge_0 (R_ / r)). rewrite sqrt_mult_alt by apply pow2_ge_0. rewrite sqrt_pow2 by lra. assert (0 < sqrt (1 + (R_ / r) ^ 2)) by (apply sqrt_lt_R0; lra). field. lra.
Qed.
Lemma mu_of_range r R_ : 0 < r -> 0 < R_ -> 0 < mu_of r R_ < 1.
Proof.
  intros Hr HR. unfold mu_of. assert (0 < R_ / r) by (apply Rdiv_lt_0_compat; auto). assert (0 < (R_ / r) ^ 2) by (apply pow_lt; auto).
  assert (1 < sqrt (1 + (R_ / r) ^ 2)). { rewrite <- sqrt_1 at 1. apply sqrt_lt_1; lra. }
  split; [apply Rdiv_lt_0_compat; lra|]. apply Rmult_lt_reg_r with (sqrt (1 + (R_ / r) ^ 2)); [lra|]. unfold Rdiv at 1. rewrite Rmult_assoc, Rinv_l by lra. lra.
Qed.
Lemma mu_of_decr r R1 R2 : 0 < r -> 0 < R1 -> R1 < R2 -> mu_of r R2 < mu_of r R1.
Proof.
  intros Hr H1 H2. unfold mu_of. assert (0 < / r) by (apply Rinv_0_lt_compat; auto). assert (0 < R1 / r) by (apply Rdiv_lt_0_compat; auto). assert (R1 / r < R2 / r) by (unfold Rdiv; nra).
  assert (0 < (R1 / r) ^ 2) by (apply pow_lt; auto). assert ((R1 / r) ^ 2 < (R2 / r) ^ 2) by nra.
  unfold Rdiv at 1 3. apply Rmult_lt_compat_l; [lra|]. assert (0 < sqrt (1 + (R1 / r) ^ 2)) by (apply sqrt_lt_R0; lra).
  assert (sqrt (1 + (R1 / r) ^ 2) < sqrt (1 + (R2 / r) ^ 2)) by (apply sqrt_lt_1; lra). apply Rinv_lt_contravar; auto. nra.
Qed.
Definition radius_of (r mu : R) : R := r * sqrt (/ mu ^ 2 - 1).
Lemma radius_mu r R_ : 0 < r -> 0 < R_ -> radius_of r (mu_of r R_) = R_.
Proof.
  intros Hr HR. unfold radius_of. pose proof (pow2_ge_0 (R_ / r)). assert (E : / mu_of r R_ ^ 2 - 1 = (R_ / r) ^ 2).
  { unfold mu_of. unfold Rdiv at 1. rewrite Rmult_1_l. rewrite pow_inv, Rinv_inv, pow2_sqrt by lra. ring. }
  rewrite E. rewrite sqrt_pow2. { field. lra. } left. apply Rdiv_lt_0_compat; auto.
Qed.
Lemma mu_radius r mu : 0 < r -> 0 < mu < 1 -> mu_of r (radius_of r mu) = mu /\ 0 < radius_of r mu.
Proof.
  intros Hr Hm. unfold mu_of, radius_of. assert (0 < mu ^ 2 < 1) by (split; [apply pow_lt; lra|nra]). assert (1 < / mu ^ 2). { rewrite <- Rinv_1 at 1. apply Rinv_lt_contravar; lra. }
  split; [|apply Rmult_lt_0_compat; auto; apply sqrt_lt_R0; lra].
  replace (r * sqrt (/ mu ^ 2 - 1) / r) with (sqrt (/ mu ^ 2 - 1)) by (field; lra). rewrite pow2_sqrt by lra. replace (1 + (/ mu ^ 2 - 1)) with ((/ mu) ^ 2) by (rewrite pow_inv; ring).
  rewrite sqrt_pow2. { field. lra. } left. apply Rinv_0_lt_compat. lra.
Qed.
Lemma radius_decr r m1 m2 : 0 < r -> 0 < m1 -> m1 <= m2 -> m2 < 1 -> radius_of r m2 <= radius_of r m1.
Proof.
  intros Hr H1 H2 H3. unfold radius_of. apply Rmult_le_compat_l; [lra|]. assert (0 < m1 ^ 2) by (apply pow_lt; auto). assert (m1 ^ 2 <= m2 ^ 2) by nra. assert (m2 ^ 2 < 1) by nra.
  apply sqrt_le_1_alt. assert (/ m2 ^ 2 <= / m1 ^ 2) by (apply Rinv_le_contravar; auto). lra.
Qed.
(** elements of the grid *)
Lemma mu_grid_in ri ro rt n m : 0 < rt -> 0 < ri -> ri < ro -> In m (evaluate_mu_from_r_tilde ri ro rt n) ->
  0 < m < 1 /\ mu_of rt ro <= m <= mu_of rt ri /\ ri <= radius_of rt m <= ro.
Proof.
  intros Hr Hi Ho Hm. unfold evaluate_mu_from_r_tilde in Hm. cbv zeta in Hm. fold (mu_of rt ri) in Hm. fold (mu_of rt ro) in Hm.
  pose proof (mu_of_decr rt ri ro Hr Hi Ho). apply linspace_in in Hm; [|lra]. pose proof (mu_of_range rt ri Hr Hi). pose proof (mu_of_range rt ro Hr ltac:(lra)).
  split; [lra|]. split; auto. pose proof (radius_mu rt ri Hr Hi) as E1. pose proof (radius_mu rt ro Hr ltac:(lra)) as E2.
  pose proof (radius_decr rt m (mu_of rt ri)). pose proof (radius_decr rt (mu_of rt ro) m). rewrite E1 in *. rewrite E2 in *. split; lra.
Qed.
Lemma mu_grid_incr ri ro rt n : 0 < rt -> 0 < ri -> ri < ro -> incr (evaluate_mu_from_r_tilde ri ro rt n).
Proof. intros. apply linspace_incr. apply (mu_of_decr rt ri ro); auto. Qed.
Lemma phi_range ri R_ : 0 < ri -> ri <= R_ -> 0 <= 1 - sqrt (ri / R_) < 1.
Proof.
  intros Hi HR. assert (0 < ri / R_ <= 1). { split; [apply Rdiv_lt_0_compat; lra|]. apply Rmult_le_reg_r with R_; [lra|]. unfold Rdiv. rewrite Rmult_assoc, Rinv_l by lra. lra. }
  assert (0 < sqrt (ri / R_)) by (apply sqrt_lt_R0; lra). assert (sqrt (ri / R_) <= 1). { rewrite <- sqrt_1. apply sqrt_le_1_alt. lra. } lra.
Qed.
Lemma phi_pos ri R_ : 0 < ri -> ri < R_ -> 0 < 1 - sqrt (ri / R_).
Proof.
  intros Hi HR. assert (0 < ri / R_ < 1). { split; [apply Rdiv_lt_0_compat; lra|]. apply Rmult_lt_reg_r with R_; [lra|]. unfold Rdiv. rewrite Rmult_assoc, Rinv_l by lra. lra. }
  assert (sqrt (ri / R_) < 1); [|lra]. rewrite <- sqrt_1. apply sqrt_lt_1; lra.
Qed.

(** ** Lorentz factors *)
Lemma beta_props b beta : Beta b = Ok beta -> 1 <= Gamma b -> 0 <= beta < 1 /\ Gamma b ^ 2 * (1 - beta ^ 2) = 1.
Proof.
  intros H HG. unfold Beta in H. assert (G2 : 1 <= Gamma b ^ 2) by nra. unfold div_res in H. rewrite (proj2 (Reqb_false _ 0)) in H by lra. cbn [bind] in H.
  assert (I : 0 < 1 / Gamma b ^ 2 <= 1). { split; [apply Rdiv_lt_0_compat; lra|]. apply Rmult_le_reg_r with (Gamma b ^ 2); [lra|]. unfold Rdiv. rewrite Rmult_assoc, Rinv_l by lra. lra. }
  unfold sqrt_res in H. destruct (Rltb_spec (1 - 1 / Gamma b ^ 2) 0) as [L|L]; [lra|]. assert (E : beta = sqrt (1 - 1 / Gamma b ^ 2)) by congruence. subst beta.
  split. { split; [apply sqrt_pos|]. apply Rlt_le_trans with (sqrt 1); [apply sqrt_lt_1; lra|rewrite sqrt_1; lra]. } rewrite pow2_sqrt by lra. field. lra.
Qed.
Lemma Beta_exists b : 1 <= Gamma b -> exists beta, Beta b = Ok beta.
Proof.
  intros HG. unfold Beta. assert (G2 : 1 <= Gamma b ^ 2) by nra. unfold div_res. rewrite (proj2 (Reqb_false _ 0)) by lra. cbn [bind].
  assert (I : 0 < 1 / Gamma b ^ 2 <= 1). { split; [apply Rdiv_lt_0_compat; lra|]. apply Rmult_le_reg_r with (Gamma b ^ 2); [lra|]. unfold Rdiv. rewrite Rmult_assoc, Rinv_l by lra. lra. }
  unfold sqrt_res. destruct (Rltb_spec (1 - 1 / Gamma b ^ 2) 0) as [L|L]; [lra|]. eauto.
Qed.

(** strict monotonicity of trapz at the last point *)
Lemma trapz_strict_last x : forall y z, incr x -> length y = length x -> Forall2 Rle y z -> (2 <= length x)%nat -> last y 0 < last z 0 -> trapz y x < trapz z x.
Proof.
  induction x as [|x0 x IH]; intros y z Hx Hl HF H2 HL; [simpl in H2; lia|]. destruct y as [|y0 y]; [discriminate|]. inversion HF as [|? z0 ? z' Hyz HF']; subst.
  destruct x as [|x1 x]; [simpl in H2; lia|]. destruct y as [|y1 y]; [discriminate|]. inversion HF' as [|? z1 ? z'' Hyz' HF'']; subst. rewrite !trapz_cons2. destruct Hx as [Hx0 Hx].
  destruct x as [|x2 x].
  - destruct y; [|discriminate]. inversion HF''; subst. simpl in HL. rewrite !trapz_one. nra.
  - assert (trapz (y1 :: y) (x1 :: x2 :: x) < trapz (z1 :: z'') (x1 :: x2 :: x)). { apply IH; auto. simpl; lia. } nra.
Qed.

(** ** thermal spectra *)
Lemma bb_nonneg P nu T : phys_ok P -> 0 < nu -> 0 <= T -> 0 <= black_body P nu T.
Proof.
  intros [] Hn HT. unfold black_body. destruct (Reqb_spec T 0) as [E|E]; [lra|].
  assert (0 < c_h P * nu / (c_kB P * T)) by (apply Rdiv_lt_0_compat; apply Rmult_lt_0_compat; auto; lra).
  pose proof (exp_gt (c_h P * nu / (c_kB P * T)) ltac:(lra)). assert (0 < c_c P ^ 2) by (apply pow_lt; auto). assert (0 < nu ^ 3) by (apply pow_lt; auto).
  left. apply Rdiv_lt_0_compat. { apply Rmult_lt_0_compat; auto. lra. } apply Rmult_lt_0_compat; auto. lra.
Qed.
Lemma bb_pos P nu T : phys_ok P -> 0 < nu -> 0 < T -> 0 < black_body P nu T.
Proof.
  intros [] Hn HT. unfold black_body. rewrite (proj2 (Reqb_false T 0)) by lra.
  assert (0 < c_h P * nu / (c_kB P * T)) by (apply Rdiv_lt_0_compat; apply Rmult_lt_0_compat; auto; lra).
  pose proof (exp_gt (c_h P * nu / (c_kB P * T)) ltac:(lra)). assert (0 < c_c P ^ 2) by (apply pow_lt; auto). assert (0 < nu ^ 3) by (apply pow_lt; auto).
  apply Rdiv_lt_0_compat. { apply Rmult_lt_0_compat; auto. lra. } apply Rmult_lt_0_compat; auto. lra.
Qed.
Lemma T_nonneg P r M md ri : 0 <= evaluate_T P r M md ri.
Proof. unfold evaluate_T. cbv zeta. destruct (Reqb _ 0); [lra|]. left. apply npow_pos. Qed.
Lemma T_pos P r M md ri : phys_ok P -> 0 < M -> 0 < md -> 0 < ri -> ri < r -> 0 < evaluate_T P r M md ri.
Proof.
  intros [] HM Hm Hi Hr. unfold evaluate_T. cbv zeta. pose proof (phi_pos ri r Hi Hr). rewrite (proj2 (Reqb_false _ 0)); [apply npow_pos|].
  apply Rgt_not_eq. red. pos.
Qed.
Lemma trapz_pos_second x0 x1 x y0 y1 y : incr (x0 :: x1 :: x) -> (forall v, In v (y0 :: y1 :: y) -> 0 <= v) -> 0 < y1 -> 0 < trapz (y0 :: y1 :: y) (x0 :: x1 :: x).
Proof.
  intros Hi Hy H1. apply trapz_pos; auto. { apply List.Forall_forall. auto. } specialize (Hy y0 (or_introl eq_refl)). lra.
Qed.
Lemma multi_T_pos P nu z M md ri ro dl ms : phys_ok P -> 0 < nu -> 0 < 1 + z -> 0 < M -> 0 < md -> 0 < ri -> ri < ro -> 0 < dl -> 0 < ms ->
  0 < evaluate_multi_T_bb_sed P nu z M md ri ro dl ms.
Proof.
  intros HP Hn Hz HM Hm Hi Ho Hd Hs. unfold evaluate_multi_T_bb_sed. cbv zeta. pose proof PI_RGT_0. assert (Hd2 : 0 < dl ^ 2) by (apply pow_lt; auto). assert (Hnz : 0 < nu * (1 + z)) by nra.
  apply Rmult_lt_0_compat; auto. apply Rmult_lt_0_compat; auto. apply Rmult_lt_0_compat; [lra|].
  set (f := fun r => r / dl ^ 2 * black_body P (nu * (1 + z)) (evaluate_T P r M md ri)).
  assert (Hf : forall r, In r (linspace ri ro 100) -> 0 <= f r). { intros r Hr. apply linspace_in in Hr; [|lra]. unfold f. apply Rmult_le_pos. apply Rdiv_le_0_compat; lra. apply bb_nonneg; auto. apply T_nonneg. }
  pose proof (linspace_incr ri ro 100 Ho) as Hinc.
  assert (E0 := linspace_first ri ro 100 ltac:(lia)). assert (E1 := linspace_nth ri ro 100 1 ltac:(lia)).
  destruct (linspace ri ro 100) as [|x0 [|x1 x]]; [discriminate|discriminate|]. cbn [nth_error] in E0, E1. apply some_inj in E0, E1. subst x0.
  cbn [map]. apply trapz_pos_second; auto.
  - intros v Hv. change (In v (map f (ri :: x1 :: x))) in Hv. apply in_map_iff in Hv. destruct Hv as (r & <- & Hr). auto.
  - assert (ri < x1) by (destruct Hinc; auto). unfold f. apply Rmult_lt_0_compat. apply Rdiv_lt_0_compat; lra. apply bb_pos; auto. apply T_pos; auto.
Qed.
