(** Facts about the integration helpers of MathUtils.v *)
From Verif Require Import Base ListFacts NumpyInst MathUtils Spec_Math.
From Coquelicot Require Import Coquelicot.
Import ListNotations.
Notation Forall := List.Forall (only parsing).
Open Scope list_scope.
Open Scope R_scope.

Lemma some_inj (A : Type) (a b : A) : Some a = Some b -> a = b.
Proof. congruence. Qed.

(** ** grids *)
Lemma linspace_length a b n : length (linspace a b n) = n.
Proof. unfold linspace. rewrite map_length, seq_length. reflexivity. Qed.
Lemma linspace_nth a b n i : (i < n)%nat -> nth_error (linspace a b n) i = Some (a + INR i * ((b - a) / INR (n - 1))).
Proof.
  intros H. unfold linspace. rewrite nth_error_map.
  assert (E : nth_error (seq 0 n) i = Some i).
  { rewrite (nth_error_nth' _ 0%nat) by (rewrite seq_length; auto). rewrite seq_nth by auto. reflexivity. }
  rewrite E. reflexivity.
Qed.
Lemma logspace_length a b n : length (np_logspace a b n) = n.
Proof. unfold np_logspace. rewrite map_length. apply linspace_length. Qed.
Lemma logspace_nth a b n i : (i < n)%nat -> nth_error (np_logspace a b n) i = Some (pow10 (a + INR i * ((b - a) / INR (n - 1)))).
Proof. intros H. unfold np_logspace. rewrite nth_error_map, linspace_nth by auto. reflexivity. Qed.
Lemma pow10_pos x : 0 < pow10 x.
Proof. apply exp_pos. Qed.
Lemma pow10_lt x y : x < y -> pow10 x < pow10 y.
Proof. intros. apply exp_increasing. apply Rmult_lt_compat_r; auto. apply ln10_pos. Qed.
Lemma logspace_pos a b n x : In x (np_logspace a b n) -> 0 < x.
Proof. unfold np_logspace. rewrite in_map_iff. intros (y & <- & _). apply pow10_pos. Qed.

(** ** strictly increasing abscissae, pointwise on neighbours *)

Lemma incr_nth l : (forall i a b, nth_error l i = Some a -> nth_error l (S i) = Some b -> a < b) -> incr l.
Proof.
  induction l as [|a l IH]; simpl; auto. intros H. destruct l as [|b l]; auto. split.
  - apply (H 0%nat); reflexivity.
  - apply IH. intros i. apply (H (S i)).
Qed.
Lemma linspace_incr a b n : a < b -> incr (linspace a b n).
Proof.
  intros Hab. apply incr_nth. intros i x y Hx Hy.
  assert (Hi : (S i < n)%nat). { pose proof (nth_error_Some (linspace a b n) (S i)) as T. rewrite linspace_length in T. apply T. congruence. }
  rewrite linspace_nth in Hx by lia. rewrite linspace_nth in Hy by lia. apply some_inj in Hx. apply some_inj in Hy. subst x y.
  assert (0 < INR (n - 1)) by (apply lt_0_INR; lia).
  assert (0 < (b - a) / INR (n - 1)) by (apply Rdiv_lt_0_compat; lra).
  rewrite S_INR. lra.
Qed.
Lemma incr_map f l : (forall x y, x < y -> f x < f y) -> incr l -> incr (map f l).
Proof. intros Hf. induction l as [|a l IH]; simpl; auto. destruct l as [|b l]; simpl; auto. intros [H1 H2]. split; auto. apply IH; auto. Qed.
Lemma logspace_incr a b n : a < b -> incr (np_logspace a b n).
Proof. intros. apply incr_map; [apply pow10_lt|apply linspace_incr; auto]. Qed.

(** ** trapz *)
Lemma trapz_cons2 y0 y1 y x0 x1 x : trapz (y0 :: y1 :: y) (x0 :: x1 :: x) = (x1 - x0) * (y0 + y1) / 2 + trapz (y1 :: y) (x1 :: x).
Proof. reflexivity. Qed.
Lemma trapz_nil_l x : trapz [] x = 0.
Proof. destruct x; reflexivity. Qed.
Lemma trapz_nil_r y : trapz y [] = 0.
Proof. destruct y; reflexivity. Qed.
Lemma trapz_one y x0 : trapz y (x0 :: nil) = 0.
Proof. destruct y as [|? [|? ?]]; reflexivity. Qed.

Lemma trapz_add x : forall y z, length y = length x -> length z = length x ->
  trapz (map2 Rplus y z) x = trapz y x + trapz z x.
Proof.
  induction x as [|x0 x IH]; intros y z Hy Hz. { rewrite !trapz_nil_r. ring. }
  destruct y as [|y0 y]; [discriminate|]. destruct z as [|z0 z]; [discriminate|].
  simpl in Hy, Hz. injection Hy as Hy. injection Hz as Hz.
  destruct x as [|x1 x]. { rewrite !trapz_one. ring. }
  destruct y as [|y1 y]; [discriminate|]. destruct z as [|z1 z]; [discriminate|].
  change (map2 Rplus (y0 :: y1 :: y) (z0 :: z1 :: z)) with ((y0 + z0) :: (y1 + z1) :: map2 Rplus y z).
  rewrite !trapz_cons2.
  change ((y1 + z1) :: map2 Rplus y z) with (map2 Rplus (y1 :: y) (z1 :: z)). rewrite IH by (simpl in *; lia). field.
Qed.
Lemma trapz_scale c x : forall y, trapz (map (Rmult c) y) x = c * trapz y x.
Proof.
  induction x as [|x0 x IH]; intros y. { rewrite !trapz_nil_r. ring. }
  destruct y as [|y0 y]. { simpl. ring. }
  destruct x as [|x1 x]. { rewrite !trapz_one. ring. }
  destruct y as [|y1 y]. { simpl. ring. }
  change (map (Rmult c) (y0 :: y1 :: y)) with (c * y0 :: c * y1 :: map (Rmult c) y).
  rewrite !trapz_cons2. change (c * y1 :: map (Rmult c) y) with (map (Rmult c) (y1 :: y)). rewrite IH. field.
Qed.
Lemma trapz_mono x : incr x -> forall y z, length y = length x -> Forall2 Rle y z -> trapz y x <= trapz z x.
Proof.
  induction x as [|x0 x IH]; intros Hx y z Hl H. { rewrite !trapz_nil_r. lra. }
  destruct H as [|y0 z0 y z H0 H]; [discriminate|].
  destruct x as [|x1 x]. { rewrite !trapz_one. lra. }
  destruct Hx as [Hx01 Hx].
  destruct H as [|y1 z1 y z H1 H]; [discriminate|].
  rewrite !trapz_cons2. apply Rplus_le_compat.
  - apply Rmult_le_compat_r; [lra|]. apply Rmult_le_compat_l; lra.
  - apply IH; auto.
Qed.
Lemma trapz_nonneg x : incr x -> forall y, Forall (fun v => 0 <= v) y -> 0 <= trapz y x.
Proof.
  induction x as [|x0 x IH]; intros Hx y H. { rewrite !trapz_nil_r. lra. }
  destruct H as [|y0 y H0 H]. { simpl. lra. }
  destruct x as [|x1 x]. { rewrite !trapz_one. lra. }
  destruct Hx as [Hx01 Hx].
  destruct H as [|y1 y H1 H]. { simpl; lra. }
  rewrite !trapz_cons2. apply Rplus_le_le_0_compat; [|apply IH; auto].
  unfold Rdiv. apply Rmult_le_pos; [|lra]. apply Rmult_le_pos; lra.
Qed.
Lemma trapz_pos x0 x1 x y0 y1 y : incr (x0 :: x1 :: x) -> Forall (fun v => 0 <= v) (y0 :: y1 :: y) -> 0 < y0 + y1 -> 0 < trapz (y0 :: y1 :: y) (x0 :: x1 :: x).
Proof.
  intros Hx H Hp. rewrite trapz_cons2. destruct Hx as [Hx01 Hx]. inversion H; subst.
  apply Rplus_lt_le_0_compat; [|apply trapz_nonneg; auto].
  unfold Rdiv. apply Rmult_lt_0_compat; [|lra]. apply Rmult_lt_0_compat; lra.
Qed.

(** ** additivity over adjacent intervals *)
Lemma trapz_split y1 : forall x1 ym xm y2 x2, length y1 = length x1 ->
  trapz (y1 ++ ym :: y2) (x1 ++ xm :: x2) = trapz (y1 ++ (ym :: nil)) (x1 ++ (xm :: nil)) + trapz (ym :: y2) (xm :: x2).
Proof.
  induction y1 as [|a y1 IH]; intros [|b x1] ym xm y2 x2 H; try discriminate.
  - simpl app. rewrite (trapz_one (ym :: nil)). ring.
  - simpl in H. injection H as H.
    destruct y1 as [|a' y1], x1 as [|b' x1]; try discriminate.
    + simpl app. rewrite !trapz_cons2. rewrite (trapz_one (ym :: nil)). ring.
    + specialize (IH (b' :: x1) ym xm y2 x2 H). simpl app in *. rewrite !trapz_cons2. rewrite IH. ring.
Qed.
Lemma loglog_cons2 y0 y1 y x0 x1 x : trapz_loglog (y0 :: y1 :: y) (x0 :: x1 :: x) = loglog_interval y0 y1 x0 x1 + trapz_loglog (y1 :: y) (x1 :: x).
Proof. reflexivity. Qed.
Lemma loglog_one y x0 : trapz_loglog y (x0 :: nil) = 0.
Proof. destruct y as [|? [|? ?]]; reflexivity. Qed.
Lemma loglog_nil_r y : trapz_loglog y [] = 0.
Proof. destruct y; reflexivity. Qed.
Lemma loglog_split y1 : forall x1 ym xm y2 x2, length y1 = length x1 ->
  trapz_loglog (y1 ++ ym :: y2) (x1 ++ xm :: x2) = trapz_loglog (y1 ++ (ym :: nil)) (x1 ++ (xm :: nil)) + trapz_loglog (ym :: y2) (xm :: x2).
Proof.
  induction y1 as [|a y1 IH]; intros [|b x1] ym xm y2 x2 H; try discriminate.
  - simpl app. rewrite (loglog_one (ym :: nil)). ring.
  - simpl in H. injection H as H.
    destruct y1 as [|a' y1], x1 as [|b' x1]; try discriminate.
    + simpl app. rewrite !loglog_cons2. rewrite (loglog_one (ym :: nil)). ring.
    + specialize (IH (b' :: x1) ym xm y2 x2 H). simpl app in *. rewrite !loglog_cons2. rewrite IH. ring.
Qed.

(** ** the clipped logarithm *)
Lemma ftiny_pos : 0 < ftiny.
Proof. unfold ftiny. apply Rinv_0_lt_compat, pow_lt. lra. Qed.
Lemma ftiny_lt_1 : ftiny < 1.
Proof. unfold ftiny. rewrite <- Rinv_1. apply Rinv_lt_contravar; [rewrite Rmult_1_l; apply pow_lt; lra|]. apply Rlt_pow_R1; [lra|lia]. Qed.
Lemma fmax_gt_1 : 1 < fmax.
Proof.
  unfold fmax. assert (A : 1 < 2 ^ 1023) by (apply Rlt_pow_R1; [lra|lia]).
  assert (B : / 2 ^ 52 < 1). { rewrite <- Rinv_1. apply Rinv_lt_contravar; [rewrite Rmult_1_l; apply pow_lt; lra|]. apply Rlt_pow_R1; [lra|lia]. }
  assert (1 < 2 - / 2 ^ 52) by lra.
  apply Rlt_trans with (2 ^ 1023); auto. rewrite <- (Rmult_1_l (2 ^ 1023)) at 1. apply Rmult_lt_compat_r; lra.
Qed.
Lemma representable_pos x : representable x -> 0 < x.
Proof. intros [H _]. pose proof ftiny_pos. lra. Qed.
Lemma clog_ln x : representable x -> clog x = ln x.
Proof. intros [H1 H2]. unfold clog. rewrite Rmax_left by auto. rewrite Rmin_left by auto. reflexivity. Qed.
Lemma clog_small x : x <= ftiny -> clog x = ln ftiny.
Proof. intros H. unfold clog. rewrite Rmax_right by auto. rewrite Rmin_left; auto. pose proof ftiny_lt_1. pose proof fmax_gt_1. lra. Qed.
Lemma clog_mono x y : x <= y -> clog x <= clog y.
Proof.
  intros H. unfold clog.
  assert (A : 0 < Rmin (Rmax x ftiny) fmax). { apply Rmin_pos. { apply Rlt_le_trans with ftiny; [apply ftiny_pos|apply Rmax_r]. } pose proof fmax_gt_1; lra. }
  assert (B : Rmin (Rmax x ftiny) fmax <= Rmin (Rmax y ftiny) fmax).
  { apply Rle_min_compat_r, Rle_max_compat_r; auto. }
  destruct B as [B|B]; [left; apply ln_increasing; auto|rewrite B; right; reflexivity].
Qed.

(** ** one interval of trapz_loglog *)
Lemma rpow_split x0 x1 m : 0 < x0 -> 0 < x1 -> x1 * Rpower (x1 / x0) m = x0 * Rpower (x1 / x0) (m + 1).
Proof.
  intros H0 H1. rewrite Rpower_plus, Rpower_1 by (apply Rdiv_lt_0_compat; auto). field. lra.
Qed.
Lemma clog_lt_1 x : 1 < x -> 0 < clog x.
Proof.
  intros H. unfold clog. rewrite <- ln_1. apply ln_increasing; [lra|]. pose proof ftiny_lt_1. pose proof fmax_gt_1.
  rewrite Rmax_left by lra. apply Rmin_glb_lt; auto.
Qed.
Lemma interval_nonneg y0 y1 x0 x1 : 0 <= y0 -> 0 < x0 -> x0 < x1 -> 0 <= loglog_interval y0 y1 x0 x1.
Proof.
  intros Hy Hx0 Hx. unfold loglog_interval. destruct (Reqb y0 0 || Reqb y1 0 || Reqb x0 x1); [lra|].
  set (m := slope y0 y1 x0 x1). cbv zeta.
  assert (Hr : 1 < x1 / x0). { apply (Rmult_lt_reg_r x0); auto. unfold Rdiv. rewrite Rmult_assoc, Rinv_l by lra. lra. }
  destruct (Rltb_spec (1 / 10 ^ 10) (Rabs (m + 1))) as [Hm|Hm].
  - unfold npow. rewrite rpow_split by lra.
    replace (y0 / (m + 1) * (x0 * Rpower (x1 / x0) (m + 1) - x0)) with (y0 * x0 * ((Rpower (x1 / x0) (m + 1) - 1) / (m + 1))).
    2:{ field. intros E. rewrite E, Rabs_R0 in Hm. lra. }
    apply Rmult_le_pos; [apply Rmult_le_pos; lra|].
    destruct (Rtotal_order (m + 1) 0) as [H|[H|H]].
    + left. replace ((Rpower (x1 / x0) (m + 1) - 1) / (m + 1)) with ((1 - Rpower (x1 / x0) (m + 1)) / - (m + 1)) by (field; lra).
      apply Rdiv_lt_0_compat; [|lra].
      assert (Rpower (x1 / x0) (m + 1) < Rpower (x1 / x0) 0) by (apply Rpower_lt; auto). rewrite Rpower_O in H0 by lra. lra.
    + rewrite H, Rabs_R0 in Hm. lra.
    + left. apply Rdiv_lt_0_compat; auto.
      assert (Rpower (x1 / x0) 0 < Rpower (x1 / x0) (m + 1)) by (apply Rpower_lt; auto). rewrite Rpower_O in H0 by lra. lra.
  - apply Rmult_le_pos; [apply Rmult_le_pos; lra|]. left. apply clog_lt_1; auto.
Qed.
Lemma loglog_nonneg x : incr x -> (forall v, In v x -> 0 < v) -> forall y, Forall (fun v => 0 <= v) y -> 0 <= trapz_loglog y x.
Proof.
  induction x as [|x0 x IH]; intros Hx Hp y H. { rewrite loglog_nil_r. lra. }
  destruct H as [|y0 y H0 H]. { simpl. lra. }
  destruct x as [|x1 x]. { rewrite loglog_one. lra. }
  destruct Hx as [Hx01 Hx].
  destruct H as [|y1 y H1 H]. { simpl; lra. }
  rewrite loglog_cons2. apply Rplus_le_le_0_compat.
  - apply interval_nonneg; auto. apply Hp; left; reflexivity.
  - apply IH; auto. intros v Hv. apply Hp. right; auto.
Qed.

(** the slope of a power law *)
Lemma slope_power A s x0 x1 : representable x0 -> representable x1 -> x0 <> x1 -> 0 < A ->
  representable (A * Rpower x0 s) -> representable (A * Rpower x1 s) ->
  slope (A * Rpower x0 s) (A * Rpower x1 s) x0 x1 = s.
Proof.
  intros H0 H1 Hne HA R0 R1. unfold slope. rewrite !clog_ln by auto.
  pose proof (representable_pos _ H0). pose proof (representable_pos _ H1).
  rewrite !ln_mult by (auto; apply exp_pos). unfold Rpower. rewrite !ln_exp.
  assert (ln x0 <> ln x1). { intros E. apply Hne. apply ln_inv; auto. }
  field. lra.
Qed.

(** exact power-law primitive *)
Lemma power_RInt A s x0 x1 : 0 < x0 -> x0 <= x1 -> s <> -1 ->
  is_RInt (fun x => A * Rpower x s) x0 x1 (A * (Rpower x1 (s + 1) - Rpower x0 (s + 1)) / (s + 1)).
Proof.
  intros H0 H1 Hs.
  replace (A * (Rpower x1 (s + 1) - Rpower x0 (s + 1)) / (s + 1))
    with (minus (A * Rpower x1 (s + 1) / (s + 1)) (A * Rpower x0 (s + 1) / (s + 1))).
  2:{ unfold minus, plus, opp; simpl. field. lra. }
  apply (is_RInt_derive (fun x => A * Rpower x (s + 1) / (s + 1))).
  - intros x Hx. rewrite Rmin_left, Rmax_right in Hx by auto. unfold Rpower. auto_derive.
    + repeat split; lra.
    + replace ((s + 1) * ln x) with (s * ln x + ln x) by ring. rewrite exp_plus, exp_ln by lra. field. split; lra.
  - intros x Hx. rewrite Rmin_left, Rmax_right in Hx by auto. unfold Rpower.
    apply (ex_derive_continuous (fun x => A * exp (s * ln x))). auto_derive. lra.
Qed.
Lemma inverse_RInt A x0 x1 : 0 < x0 -> x0 <= x1 -> is_RInt (fun x => A * Rpower x (-1)) x0 x1 (A * ln (x1 / x0)).
Proof.
  intros H0 H1. rewrite ln_div by lra.
  replace (A * (ln x1 - ln x0)) with (minus (A * ln x1) (A * ln x0)) by (unfold minus, plus, opp; simpl; ring).
  apply (is_RInt_derive (fun x => A * ln x)).
  - intros x Hx. rewrite Rmin_left, Rmax_right in Hx by auto. auto_derive; [lra|].
    replace (-1) with (- (1)) by ring. rewrite Rpower_Ropp, Rpower_1 by lra. field. lra.
  - intros x Hx. rewrite Rmin_left, Rmax_right in Hx by auto. unfold Rpower.
    apply (ex_derive_continuous (fun x => A * exp (-1 * ln x))). auto_derive. lra.
Qed.

Lemma interval_power A s x0 x1 : representable x0 -> representable x1 -> x0 < x1 -> representable (x1 / x0) -> 0 < A ->
  representable (A * Rpower x0 s) -> representable (A * Rpower x1 s) -> (s = -1 \/ 1 / 10 ^ 10 < Rabs (s + 1)) ->
  is_RInt (fun x => A * Rpower x s) x0 x1 (loglog_interval (A * Rpower x0 s) (A * Rpower x1 s) x0 x1).
Proof.
  intros H0 H1 Hlt Hq HA R0 R1 Hs. unfold loglog_interval.
  pose proof (representable_pos _ H0). pose proof (representable_pos _ H1).
  pose proof (representable_pos _ R0). pose proof (representable_pos _ R1).
  assert (E1 : Reqb (A * Rpower x0 s) 0 = false) by (apply Reqb_false; lra).
  assert (E2 : Reqb (A * Rpower x1 s) 0 = false) by (apply Reqb_false; lra).
  assert (E3 : Reqb x0 x1 = false) by (apply Reqb_false; lra).
  rewrite E1, E2, E3. cbv zeta. simpl orb. cbv iota.
  rewrite slope_power by (auto; lra).
  destruct (Rltb_spec (1 / 10 ^ 10) (Rabs (s + 1))) as [Hm|Hm].
  - assert (Hs1 : s + 1 <> 0). { intros E. rewrite E, Rabs_R0 in Hm. lra. }
    replace (A * Rpower x0 s / (s + 1) * (x1 * npow (x1 / x0) s - x0)) with (A * (Rpower x1 (s + 1) - Rpower x0 (s + 1)) / (s + 1)).
    + apply power_RInt; lra.
    + unfold npow. rewrite rpow_split by auto. rewrite !Rpower_plus, !Rpower_1 by (auto; apply Rdiv_lt_0_compat; auto).
      assert (Ed : Rpower (x1 / x0) s = Rpower x1 s / Rpower x0 s).
      { unfold Rpower. rewrite ln_div by auto. rewrite Rmult_minus_distr_l. unfold Rminus. rewrite exp_plus, exp_Ropp. reflexivity. }
      rewrite Ed. pose proof (exp_pos (s * ln x0)). fold (Rpower x0 s) in H5. field. split; [|split]; lra.
  - destruct Hs as [->|Hs]; [|contradiction].
    rewrite clog_ln by auto.
    replace (x0 * (A * Rpower x0 (-1)) * ln (x1 / x0)) with (A * ln (x1 / x0)).
    + apply inverse_RInt; lra.
    + replace (-1) with (- (1)) by ring. rewrite Rpower_Ropp, Rpower_1 by lra. field. lra.
Qed.

(** sum over a grid *)
Lemma last_ge l : forall a, incr (a :: l) -> a <= last (a :: l) 0.
Proof.
  induction l as [|b l IH]; intros a H. { simpl; lra. }
  destruct H as [H1 H2]. specialize (IH b H2). change (last (a :: b :: l) 0) with (last (b :: l) 0). lra.
Qed.
Lemma loglog_power A s x : 0 < A -> (s = -1 \/ 1 / 10 ^ 10 < Rabs (s + 1)) -> forall a,
  incr (a :: x) -> (forall v, In v (a :: x) -> representable v /\ representable (A * Rpower v s)) ->
  (forall i u v, nth_error (a :: x) i = Some u -> nth_error (a :: x) (S i) = Some v -> representable (v / u)) ->
  is_RInt (fun g => A * Rpower g s) a (last (a :: x) 0) (trapz_loglog (map (fun g => A * Rpower g s) (a :: x)) (a :: x)).
Proof.
  intros HA Hs. induction x as [|b x IH]; intros a Hi Hr Hq.
  - simpl. apply (is_RInt_point (fun g => A * Rpower g s) a).
  - destruct Hi as [Hab Hi].
    change (last (a :: b :: x) 0) with (last (b :: x) 0).
    change (map (fun g => A * Rpower g s) (a :: b :: x)) with (A * Rpower a s :: A * Rpower b s :: map (fun g => A * Rpower g s) x).
    rewrite loglog_cons2.
    apply (is_RInt_Chasles (fun g => A * Rpower g s) a b (last (b :: x) 0)).
    + destruct (Hr a) as [Ra Ra']; [simpl; auto|]. destruct (Hr b) as [Rb Rb']; [simpl; auto|].
      apply interval_power; auto. apply (Hq 0%nat); reflexivity.
    + apply IH; auto. { intros v Hv. apply Hr. right; auto. } intros i. apply (Hq (S i)).
Qed.

(** positive factors *)
Lemma slope_scale c y0 y1 x0 x1 : 0 < c -> representable y0 -> representable y1 -> representable (c * y0) -> representable (c * y1) ->
  slope (c * y0) (c * y1) x0 x1 = slope y0 y1 x0 x1.
Proof.
  intros Hc H0 H1 R0 R1. unfold slope. rewrite (clog_ln (c * y0)), (clog_ln (c * y1)), (clog_ln y0), (clog_ln y1) by auto.
  rewrite !ln_mult by (auto; apply representable_pos; auto). unfold Rdiv. apply Rmult_eq_compat_r. ring.
Qed.
Lemma interval_scale c y0 y1 x0 x1 : 0 < c -> (y0 = 0 \/ (representable y0 /\ representable (c * y0))) -> (y1 = 0 \/ (representable y1 /\ representable (c * y1))) ->
  loglog_interval (c * y0) (c * y1) x0 x1 = c * loglog_interval y0 y1 x0 x1.
Proof.
  intros Hc H0 H1. unfold loglog_interval.
  destruct (Reqb_spec y0 0) as [->|E0]. { rewrite Rmult_0_r. rewrite (proj2 (Reqb_true 0 0) eq_refl). simpl. ring. }
  rewrite (proj2 (Reqb_false (c * y0) 0)) by (apply Rmult_integral_contrapositive; split; lra).
  destruct (Reqb_spec y1 0) as [->|E1]. { rewrite Rmult_0_r. rewrite (proj2 (Reqb_true 0 0) eq_refl). simpl. ring. }
  rewrite (proj2 (Reqb_false (c * y1) 0)) by (apply Rmult_integral_contrapositive; split; lra).
  destruct H0 as [?|[H0 R0]]; [contradiction|]. destruct H1 as [?|[H1 R1]]; [contradiction|].
  simpl orb. destruct (Reqb x0 x1); [ring|]. cbv zeta. rewrite slope_scale by auto.
  destruct (Rltb (1 / 10 ^ 10) (Rabs (slope y0 y1 x0 x1 + 1))); [|ring]. unfold Rdiv. ring.
Qed.
Lemma loglog_scale c : 0 < c -> forall x y, (forall v, In v y -> v = 0 \/ (representable v /\ representable (c * v))) ->
  trapz_loglog (map (Rmult c) y) x = c * trapz_loglog y x.
Proof.
  intros Hc. induction x as [|x0 x IH]; intros y H. { rewrite !loglog_nil_r. ring. }
  destruct y as [|y0 y]. { simpl. ring. }
  destruct x as [|x1 x]. { rewrite !loglog_one. ring. }
  destruct y as [|y1 y]. { simpl. ring. }
  change (map (Rmult c) (y0 :: y1 :: y)) with (c * y0 :: c * y1 :: map (Rmult c) y).
  rewrite !loglog_cons2. change (c * y1 :: map (Rmult c) y) with (map (Rmult c) (y1 :: y)).
  rewrite IH by (intros v Hv; apply H; right; auto).
  rewrite interval_scale; [ring|auto| |]; apply H; simpl; auto.
Qed.

(** negative integrands: a left Riemann sum *)
Lemma interval_negative y0 y1 x0 x1 : y0 < 0 -> y1 < 0 -> 0 < x0 -> x0 < x1 -> loglog_interval y0 y1 x0 x1 = y0 * (x1 - x0).
Proof.
  intros H0 H1 Hx0 Hx. unfold loglog_interval.
  rewrite (proj2 (Reqb_false y0 0)), (proj2 (Reqb_false y1 0)), (proj2 (Reqb_false x0 x1)) by lra.
  simpl orb. cbv zeta iota.
  assert (E : slope y0 y1 x0 x1 = 0).
  { unfold slope. pose proof ftiny_pos. rewrite !clog_small by lra. unfold Rdiv. rewrite Rminus_diag_eq by auto. ring. }
  rewrite E. rewrite (proj2 (Rltb_true _ _)) by (rewrite Rplus_0_l, Rabs_R1; lra).
  unfold npow. rewrite Rpower_O by (apply Rdiv_lt_0_compat; lra). field.
Qed.
Lemma loglog_negative x : incr x -> (forall v, In v x -> 0 < v) -> forall y, (forall v, In v y -> v < 0) ->
  trapz_loglog y x = left_riemann y x.
Proof.
  induction x as [|x0 x IH]; intros Hx Hp y H. { destruct y; reflexivity. }
  destruct y as [|y0 y]. { reflexivity. }
  destruct x as [|x1 x]. { destruct y; reflexivity. }
  destruct y as [|y1 y]. { reflexivity. }
  destruct Hx as [Hx01 Hx]. rewrite loglog_cons2.
  change (left_riemann (y0 :: y1 :: y) (x0 :: x1 :: x)) with (y0 * (x1 - x0) + left_riemann (y1 :: y) (x1 :: x)).
  rewrite IH; auto.
  - rewrite interval_negative; auto; [apply H; simpl; auto|apply H; simpl; auto|apply Hp; simpl; auto].
  - intros v Hv. apply Hp. right; auto.
  - intros v Hv. apply H. right; auto.
Qed.

(** trapz on affine data *)
Lemma affine_RInt a b x0 x1 : is_RInt (fun x => a * x + b) x0 x1 ((x1 - x0) * ((a * x0 + b) + (a * x1 + b)) / 2).
Proof.
  replace ((x1 - x0) * ((a * x0 + b) + (a * x1 + b)) / 2) with (minus (a * x1 ^ 2 / 2 + b * x1) (a * x0 ^ 2 / 2 + b * x0)).
  2:{ unfold minus, plus, opp; simpl. field. }
  apply (is_RInt_derive (fun x => a * x ^ 2 / 2 + b * x)).
  - intros x _. auto_derive; auto. field.
  - intros x _. apply (ex_derive_continuous (fun x => a * x + b)). auto_derive. auto.
Qed.
Lemma trapz_affine a b x : forall x0,
  is_RInt (fun g => a * g + b) x0 (last (x0 :: x) 0) (trapz (map (fun g => a * g + b) (x0 :: x)) (x0 :: x)).
Proof.
  induction x as [|x1 x IH]; intros x0.
  - simpl. apply (is_RInt_point (fun g => a * g + b) x0).
  - change (last (x0 :: x1 :: x) 0) with (last (x1 :: x) 0).
    change (map (fun g => a * g + b) (x0 :: x1 :: x)) with ((a * x0 + b) :: (a * x1 + b) :: map (fun g => a * g + b) x).
    rewrite trapz_cons2. apply (is_RInt_Chasles (fun g => a * g + b) x0 x1 (last (x1 :: x) 0)); [apply affine_RInt|apply IH].
Qed.
Lemma trapz_linear a b x y z : length y = length x -> length z = length x ->
  trapz (map2 (fun u v => a * u + b * v) y z) x = a * trapz y x + b * trapz z x.
Proof.
  intros Hy Hz. rewrite <- !trapz_scale. rewrite <- trapz_add by (rewrite map_length; auto). f_equal.
  clear. revert z. induction y as [|u y IH]; intros [|v z]; simpl; auto. rewrite IH. reflexivity.
Qed.
