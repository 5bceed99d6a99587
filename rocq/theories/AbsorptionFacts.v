(** Facts about the pair-production cross section and the integration paths *)
From Verif Require Import Base TEUtils ListFacts NumpyInst MathUtils Conversion Spectra Blob Synchrotron Geometry Targets Absorption Spec_Math Spec_Spectra Spec_Blob Spec_Rad Spec_Geom MathFacts SpectraFacts SpectraFacts2 BlobFacts Calculus SynchFacts SynchFacts2 Props_Synch ComptonFacts Props_Geometry TargetFacts Props_Targets Props_EC.
From Coquelicot Require Import Coquelicot.
From Coq Require Import List.
Import ListNotations.
Open Scope list_scope.
Open Scope R_scope.

(** ** cross section *)
Lemma ln_fmax_gt : 2 < ln fmax.
Proof.
  assert (E : exp 1 <= 3) by apply exp_le_3. assert (F : 16 < fmax).
  { unfold fmax. assert (0 < / 2 ^ 52 < 1). { split. apply Rinv_0_lt_compat. apply pow_lt; lra. rewrite <- Rinv_1. apply Rinv_lt_contravar. rewrite Rmult_1_l. apply pow_lt; lra. apply Rlt_pow_R1; [lra|lia]. }
    assert (2 ^ 5 <= 2 ^ 1023) by (apply Rle_pow; [lra|lia]). assert (2 ^ 5 = 32) by ring. set (b := 2 ^ 1023) in *. clearbody b. set (a := / 2 ^ 52) in *. clearbody a. nra. }
  rewrite <- (ln_exp 2). apply ln_increasing. apply exp_pos. apply Rle_lt_trans with 9; [|lra]. replace 2 with (1 + 1) by ring. rewrite exp_plus. pose proof (exp_pos 1). nra.
Qed.
(** ln((1+b)/(1-b)) >= 2 b *)
Lemma ln_ratio b : 0 <= b < 1 -> 2 * b <= ln ((1 + b) / (1 - b)).
Proof.
  intros [H0 H1]. set (f := fun x : R => ln ((1 + x) / (1 - x)) - 2 * x).
  assert (K : f 0 <= f b).
  { apply mono_incr with (df := fun x => 2 * x ^ 2 / (1 - x ^ 2)); auto.
    - intros x Hx. unfold f. assert (0 < 1 - x) by lra. assert (0 < 1 + x) by lra. auto_derive. { repeat split; try lra. apply Rdiv_lt_0_compat; lra. } field. repeat split; nra.
    - intros x Hx. assert (0 < 1 - x ^ 2) by nra. assert (0 <= x ^ 2) by apply pow2_ge_0. pos. }
  unfold f in K. replace ((1 + 0) / (1 - 0)) with 1 in K by field. rewrite ln_1 in K. lra.
Qed.
Lemma clog_ratio b : 0 <= b < 1 -> 2 * b <= clog ((1 + b) / (1 - b)).
Proof.
  intros H. pose proof (ln_ratio b H) as L. assert (R1 : 1 <= (1 + b) / (1 - b)). { apply Rmult_le_reg_r with (1 - b); [lra|]. unfold Rdiv. rewrite Rmult_assoc, Rinv_l by lra. lra. }
  pose proof ftiny_lt_1. destruct (Rle_dec ((1 + b) / (1 - b)) fmax) as [Hf|Hf].
  - rewrite clog_ln; auto. split; lra.
  - unfold clog. rewrite Rmax_left by lra. rewrite Rmin_right by lra. pose proof ln_fmax_gt. lra.
Qed.
Lemma beta_range s : 1 <= s -> 0 <= sqrt (1 - 1 / s) < 1.
Proof.
  intros H. assert (0 < 1 / s <= 1). { split; [pos|]. apply Rmult_le_reg_r with s; [lra|]. unfold Rdiv. rewrite Rmult_assoc, Rinv_l by lra. lra. } split; [apply sqrt_pos|].
  apply Rlt_le_trans with (sqrt 1). apply sqrt_lt_1_alt; lra. rewrite sqrt_1. lra.
Qed.
Lemma bracket_lower b : 0 <= b < 1 -> 2 * b * (1 + b ^ 2 - b ^ 4) <= (3 - b ^ 4) * clog ((1 + b) / (1 - b)) + - (2) * b * (2 - b ^ 2).
Proof.
  intros H. pose proof (clog_ratio b H) as L. set (q := clog ((1 + b) / (1 - b))) in *. clearbody q. assert (0 <= b ^ 2 <= 1) by nra. assert (0 <= b ^ 4 <= 1) by (replace (b ^ 4) with (b ^ 2 * b ^ 2) by ring; nra).
  apply Rle_trans with ((3 - b ^ 4) * (2 * b) + - (2) * b * (2 - b ^ 2)); [right; ring|]. apply Rplus_le_compat_r. apply Rmult_le_compat_l; lra.
Qed.
Lemma sigma_nonneg P s : phys_ok P -> 0 <= sigma P s.
Proof.
  intros []. unfold sigma. destruct (Rltb_spec s 1) as [Hs|Hs]; [lra|]. apply Rnot_lt_le in Hs. cbv zeta. pose proof (beta_range s Hs) as B. set (b := sqrt (1 - 1 / s)) in *. clearbody b.
  pose proof (bracket_lower b B) as L. assert (0 <= b ^ 2 <= 1) by nra. assert (0 <= b ^ 4 <= b ^ 2) by (replace (b ^ 4) with (b ^ 2 * b ^ 2) by ring; nra).
  apply Rmult_le_pos. { apply Rmult_le_pos; [pos|lra]. } eapply Rle_trans; [|exact L]. apply Rmult_le_pos; lra.
Qed.
Lemma sigma_pos P s : phys_ok P -> 1 < s -> 0 < sigma P s.
Proof.
  intros [] Hs. unfold sigma. destruct (Rltb_spec s 1) as [K|_]; [lra|]. cbv zeta. pose proof (beta_range s (Rlt_le _ _ Hs)) as B.
  assert (B0 : 0 < sqrt (1 - 1 / s)). { apply sqrt_lt_R0. assert (1 / s < 1); [|lra]. apply Rmult_lt_reg_r with s; [lra|]. unfold Rdiv. rewrite Rmult_assoc, Rinv_l by lra. lra. }
  set (b := sqrt (1 - 1 / s)) in *. clearbody b.
  pose proof (bracket_lower b B) as L. assert (0 <= b ^ 2 < 1) by nra. assert (0 <= b ^ 4 <= b ^ 2) by (replace (b ^ 4) with (b ^ 2 * b ^ 2) by ring; nra).
  apply Rmult_lt_0_compat. { apply Rmult_lt_0_compat; [pos|lra]. } eapply Rlt_le_trans; [|exact L]. apply Rmult_lt_0_compat; lra.
Qed.
Lemma sigma_below P s : s < 1 -> sigma P s = 0.
Proof. intros H. unfold sigma. destruct (Rltb_spec s 1); auto. lra. Qed.

(** ** trapezoids over paths that are only non-decreasing *)
Fixpoint nondecr (l : list R) : Prop := match l with a :: l' => match l' with b :: _ => a <= b /\ nondecr l' | [] => True end | [] => True end.
Lemma incr_nondecr l : incr l -> nondecr l.
Proof. induction l as [|a [|b l] IH]; simpl; auto. intros [H1 H2]. split; [lra|]. apply IH. auto. Qed.
Lemma trapz_nonneg_nd f x : nondecr x -> (forall v, In v x -> 0 <= f v) -> 0 <= trapz (map f x) x.
Proof.
  induction x as [|x0 x IH]; intros Hx Hf. { simpl. lra. } destruct x as [|x1 x]. { simpl. lra. } destruct Hx as [H1 H2]. cbn [map]. rewrite trapz_cons2.
  assert (0 <= f x0) by (apply Hf; left; auto). assert (0 <= f x1) by (apply Hf; right; left; auto). apply Rplus_le_le_0_compat. { unfold Rdiv. apply Rmult_le_pos; [|lra]. apply Rmult_le_pos; lra. } apply (IH H2). intros v Hv. apply Hf. right; auto.
Qed.
Lemma insert_nondecr x l : nondecr l -> nondecr (insert_sorted x l).
Proof.
  induction l as [|y l IH]; intros H. { simpl; auto. } cbn [insert_sorted]. destruct (Rleb_spec x y) as [K|K]. { split; auto. } apply Rnot_le_lt in K.
  destruct l as [|z l]. { simpl. split; [lra|auto]. } destruct H as [H1 H2]. specialize (IH H2). cbn [insert_sorted] in *. destruct (Rleb_spec x z). { split; [lra|]. auto. } split; auto.
Qed.
Lemma sort_nondecr l : nondecr (np_sort l).
Proof. induction l as [|x l IH]; [simpl; auto|]. apply insert_nondecr. exact IH. Qed.
Lemma path_nondecr R_line r ms n : 0 < r -> nondecr (blr_path_mu_s R_line r ms n).
Proof.
  intros Hr. unfold blr_path_mu_s. cbv zeta. destruct (existsb _ _). { apply sort_nondecr. } apply incr_nondecr. apply incr_map. { intros x y Hxy. nra. } apply logspace_incr. lra.
Qed.
Lemma path_incr a b n r : a < b -> 0 < r -> incr (map (fun x => x * r) (np_logspace a b n)).
Proof. intros Hab Hr. apply incr_map. { intros x y Hxy. nra. } apply logspace_incr. lra. Qed.
Lemma path_pos a b n r x : 0 < r -> In x (map (fun x => x * r) (np_logspace a b n)) -> 0 < x.
Proof. intros Hr H. apply in_map_iff in H. destruct H as (y & <- & Hy). apply logspace_pos in Hy. nra. Qed.

(** ** the path of tau_blr stays ordered with at most 10001 points *)
Lemma pow10_step d : 0 <= d -> 1 + d <= pow10 d.
Proof.
  intros H. unfold pow10, Rpower. pose proof (exp_ge (d * ln 10)). pose proof ln10_ge1. nra.
Qed.
Lemma blr_path_incr R_line r n : 1 <= R_line -> 0 < r -> (Z.of_nat n <= 10001)%Z -> incr (blr_path R_line r n).
Proof.
  intros HR Hr Hn. unfold blr_path. apply incr_nth. intros i a b Ha Hb. rewrite !nth_error_map in Ha, Hb.
  assert (Hi : (S i < n)%nat). { destruct (Nat.lt_ge_cases (S i) n); auto. exfalso. assert (K : nth_error (np_logspace 0 5 n) (S i) = None) by (apply nth_error_None; rewrite logspace_length; lia). rewrite K in Hb. discriminate. }
  rewrite logspace_nth in Ha by lia. rewrite logspace_nth in Hb by lia. cbn [option_map] in Ha, Hb. apply some_inj in Ha, Hb.
  set (d := (5 - 0) / INR (n - 1)) in *. assert (Hd : 5 / 10000 <= d).
  { unfold d. replace (5 - 0) with 5 by ring. unfold Rdiv. apply Rmult_le_compat_l; [lra|]. apply Rinv_le_contravar. apply lt_0_INR; lia. rewrite INR_IZR_INZ. apply IZR_le. lia. }
  assert (E : pow10 (0 + INR (S i) * d) = pow10 (0 + INR i * d) * pow10 d). { rewrite S_INR. unfold pow10. rewrite <- exp_plus. f_equal. ring. } rewrite E in Hb. clear E.
  pose proof (pow10_step d ltac:(lra)) as Hq. set (q := pow10 d) in *. pose proof (pow10_pos (0 + INR i * d)) as Hp. set (p := pow10 (0 + INR i * d)) in *. clearbody p q.
  set (l := p * r) in *. assert (Hl : 0 < l) by (unfold l; nra). replace (p * q * r) with (l * q) in Hb by (unfold l; ring). clearbody l. clear Hp p.
  assert (Hm : l < l * q) by (rewrite <- (Rmult_1_r l) at 1; apply Rmult_lt_compat_l; lra). subst a b. unfold moved, isclose_line. rewrite (Rabs_right R_line) by lra. set (m := min_rel_distance) in *. assert (Em : m = 1 / 10000) by (unfold m, min_rel_distance; field). clearbody m. 
  destruct (Rleb_spec (Rabs (l - R_line)) (1 / 10 ^ 8 + m * R_line)) as [K|K]; destruct (Rleb_spec (Rabs (l * q - R_line)) (1 / 10 ^ 8 + m * R_line)) as [K'|K']; try (assert (0 <= m * R_line) by nra; lra).
  assert (K2 : R_line * 99 / 100 <= l). { assert (l >= R_line \/ l < R_line) as [G|G] by lra; [lra|]. rewrite Rabs_left in K by lra. subst m. lra. }
  apply Rlt_le_trans with (l * (1 + 5 / 10000)); [subst m; lra|]. apply Rmult_le_compat_l; lra.
Qed.
