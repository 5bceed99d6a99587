(** Convergence of the recursion of Spec_Move.v to the solution of the kinetic
    equation along its characteristics (for C101). *)
From Coquelicot Require Import Coquelicot.
From Verif Require Import Base TimeEvolution Spec_Move.
Open Scope R_scope.

Definition dl : R := 1 / 10000.

(** ** tools *)
Lemma accumulate (e : nat -> R) C t kap k : 0 <= C -> 0 <= t -> 0 <= kap -> e 0%nat <= 0 ->
  (forall j, (j < k)%nat -> 0 <= e j -> e j <= kap * (INR j * t) * exp (C * (INR j * t)) -> e (S j) <= (1 + C * t) * e j + kap * t) -> (forall j, 0 <= e j) ->
  forall j, (j <= k)%nat -> e j <= kap * (INR j * t) * exp (C * (INR j * t)).
Proof.
  intros HC Ht Hk H0 Hs Hp. induction j as [|j IH]; intros Hj.
  - simpl. lra.
  - specialize (IH ltac:(lia)). eapply Rle_trans; [apply Hs; auto; lia|].
    rewrite S_INR. replace (C * ((INR j + 1) * t)) with (C * (INR j * t) + C * t) by ring. rewrite exp_plus. set (x := exp (C * (INR j * t))) in *. set (y := exp (C * t)).
    assert (P0 : 0 <= C * t) by (apply Rmult_le_pos; auto). assert (Y : 1 + C * t <= y). { unfold y. destruct (Rle_lt_or_eq_dec _ _ P0) as [K|K]; [left; apply exp_ineq1; lra|rewrite <- K, exp_0; lra]. }
    assert (X : 1 <= x). { unfold x. rewrite <- exp_0. assert (0 <= C * (INR j * t)) by (apply Rmult_le_pos; auto; apply Rmult_le_pos; auto; apply pos_INR). destruct (Rle_lt_or_eq_dec _ _ H) as [K|K]; [left; apply exp_increasing; auto|rewrite <- K; lra]. }
    assert (Q : 0 <= kap * (INR j * t)) by (apply Rmult_le_pos; auto; apply Rmult_le_pos; auto; apply pos_INR). assert (Q2 : 0 <= kap * t) by (apply Rmult_le_pos; auto).
    assert (XY : 1 <= x * y) by nra.
    apply Rle_trans with (kap * (INR j * t) * x * y + kap * t * (x * y)); [|right; ring].
    apply Rplus_le_compat.
    + rewrite (Rmult_comm (1 + C * t)). apply Rle_trans with (kap * (INR j * t) * x * (1 + C * t)); [apply Rmult_le_compat_r; lra|]. apply Rmult_le_compat_l; auto. apply Rmult_le_pos; lra.
    + rewrite <- (Rmult_1_r (kap * t)) at 1. apply Rmult_le_compat_l; auto.
Qed.
Lemma bounded_on (f : R -> R) lo hi : lo <= hi -> (forall x, lo <= x <= hi -> continuity_pt f x) -> exists M, 0 <= M /\ forall x, lo <= x <= hi -> Rabs (f x) <= M.
Proof.
  intros H Hc. destruct (continuity_ab_maj (fun x => Rabs (f x)) lo hi H) as (z & Hz & _).
  { intros x Hx. apply (continuity_pt_comp f Rabs); auto. apply Rcontinuity_abs. }
  exists (Rabs (f z)). split; [apply Rabs_pos|auto].
Qed.
Lemma uniform_on (f : R -> R) lo hi eps : 0 < eps -> (forall x, lo <= x <= hi -> continuity_pt f x) ->
  exists delta, 0 < delta /\ forall x y, lo <= x <= hi -> lo <= y <= hi -> Rabs (x - y) < delta -> Rabs (f x - f y) < eps.
Proof.
  intros He Hc. destruct (Heine f (fun c => lo <= c <= hi) (compact_P3 lo hi) Hc (mkposreal eps He)) as (dd & Hd). exists dd. split; [apply cond_pos|]. intros x y Hx Hy Hxy. apply (Hd x y); auto.
Qed.
Lemma derive_mean (f f' : R -> R) s t : 0 <= t -> (forall u, s <= u <= s + t -> is_derive f u (f' u)) -> exists u, s <= u <= s + t /\ f (s + t) - f s = t * f' u.
Proof.
  intros Ht Hd. destruct (MVT_gen f s (s + t) f') as (u & Hu & E).
  - intros x Hx. rewrite Rmin_left, Rmax_right in Hx by lra. apply Hd. lra.
  - intros x Hx. rewrite Rmin_left, Rmax_right in Hx by lra. apply continuity_pt_filterlim. apply (ex_derive_continuous f). exists (f' x). apply Hd. lra.
  - rewrite Rmin_left, Rmax_right in Hu by lra. exists u. split; auto. rewrite E. ring.
Qed.

(** true of all sufficiently short steps *)
Definition small (P : R -> Prop) : Prop := exists t0, 0 < t0 /\ forall t, 0 < t -> t <= t0 -> P t.
Lemma small_and P Q : small P -> small Q -> small (fun t => P t /\ Q t).
Proof. intros (s & Hs & P1) (u & Hu & Q1). exists (Rmin s u). split; [apply Rmin_glb_lt; auto|]. intros t H0 H. pose proof (Rmin_l s u). pose proof (Rmin_r s u). split; [apply P1|apply Q1]; lra. Qed.
Lemma small_imp (P Q : R -> Prop) : (forall t, 0 < t -> P t -> Q t) -> small P -> small Q.
Proof. intros H (s & Hs & P1). exists s. split; auto. Qed.
Lemma small_lin c eps : 0 < eps -> small (fun t => c * t <= eps).
Proof.
  intros He. exists (eps / (Rabs c + 1)). pose proof (Rabs_pos c). split; [apply Rdiv_lt_0_compat; lra|]. intros t H0 Ht. apply Rle_trans with ((Rabs c + 1) * t); [apply Rmult_le_compat_r; [lra|pose proof (Rle_abs c); lra]|].
  apply Rmult_le_reg_r with (/ (Rabs c + 1)); [apply Rinv_0_lt_compat; lra|]. replace ((Rabs c + 1) * t * / (Rabs c + 1)) with t by (field; lra). exact Ht.
Qed.

Section Kinetic.
Variables (E r q : R -> R) (m T a lo hi b L : R) (me : method_t).
Hypotheses (Hm : 0 < m) (HT : 0 < T) (Ha : 0 < a) (Hlo : a < lo) (Hlh : lo <= hi) (Hhi : hi < b) (HL0 : 0 <= L).
Hypothesis HL : forall x y, a <= x <= b * (1 + dl) -> a <= y <= b * (1 + dl) -> Rabs (E x - E y) <= L * Rabs (x - y).
Hypothesis Hr : forall x, a < x < b -> continuity_pt r x.
Hypothesis Hq : forall x, a < x < b -> continuity_pt q x.
Hypothesis Hq0 : forall x, a < x < b -> 0 <= q x.

(** the slope of the rate between the edges of the narrow bin above [x] *)
Definition slope (x : R) : R := (E (x * (1 + dl)) - E x) / (x * dl) / m.
Definition mu : R := Rmin (lo - a) (b - hi) / 2.
Lemma mu_pos : 0 < mu /\ a < lo - mu /\ hi + mu < b.
Proof. unfold mu. pose proof (Rmin_l (lo - a) (b - hi)). pose proof (Rmin_r (lo - a) (b - hi)). assert (0 < Rmin (lo - a) (b - hi)) by (apply Rmin_glb_lt; lra). lra. Qed.
Definition inner (x : R) : Prop := lo - mu <= x <= hi + mu.
Lemma inner_ab x : inner x -> a < x < b.
Proof. pose proof mu_pos. unfold inner. lra. Qed.
Lemma dl_pos : 0 < dl < 1.
Proof. unfold dl. lra. Qed.
Lemma E_bound : exists M, 0 <= M /\ forall x, a <= x <= b * (1 + dl) -> Rabs (E x / m) <= M.
Proof.
  exists ((Rabs (E a) + L * (b * (1 + dl) - a)) / m). assert (B : a <= b * (1 + dl)) by (unfold dl; lra). split.
  - apply Rdiv_le_0_compat; auto. apply Rplus_le_le_0_compat; [apply Rabs_pos|]. apply Rmult_le_pos; lra.
  - intros x Hx. unfold Rdiv. rewrite Rabs_mult, (Rabs_right (/ m)) by (left; apply Rinv_0_lt_compat; auto). apply Rmult_le_compat_r; [left; apply Rinv_0_lt_compat; auto|].
    replace (E x) with (E a + (E x - E a)) by ring. eapply Rle_trans; [apply Rabs_triang|]. apply Rplus_le_compat_l. eapply Rle_trans; [apply HL; lra|]. apply Rmult_le_compat_l; auto. rewrite Rabs_right; lra.
Qed.
Lemma E_continuous x : a < x < b * (1 + dl) -> continuity_pt E x.
Proof.
  intros Hx eps He. exists (Rmin (Rmin (x - a) (b * (1 + dl) - x)) (eps / (L + 1))). assert (0 < eps / (L + 1)) by (apply Rdiv_lt_0_compat; lra).
  split. { apply Rmin_glb_lt; auto. apply Rmin_glb_lt; lra. }
  intros y (_ & Hy). simpl in *. unfold R_dist in *. pose proof (Rmin_l (Rmin (x - a) (b * (1 + dl) - x)) (eps / (L + 1))). pose proof (Rmin_r (Rmin (x - a) (b * (1 + dl) - x)) (eps / (L + 1))). pose proof (Rmin_l (x - a) (b * (1 + dl) - x)). pose proof (Rmin_r (x - a) (b * (1 + dl) - x)).
  assert (Hy' : Rabs (y - x) < eps / (L + 1)) by lra. assert (Q : - (Rmin (x - a) (b * (1 + dl) - x)) < y - x < Rmin (x - a) (b * (1 + dl) - x)) by (apply Rabs_def2 in Hy; lra).
  eapply Rle_lt_trans; [apply HL; lra|]. apply Rle_lt_trans with ((L + 1) * Rabs (y - x)); [apply Rmult_le_compat_r; [apply Rabs_pos|lra]|]. apply Rmult_lt_reg_r with (/ (L + 1)); [apply Rinv_0_lt_compat; lra|]. replace ((L + 1) * Rabs (y - x) * / (L + 1)) with (Rabs (y - x)) by (field; lra). exact Hy'.
Qed.
Lemma slope_bound x : a <= x <= b -> Rabs (slope x) <= L / m.
Proof.
  intros Hx. pose proof dl_pos. unfold slope, Rdiv. rewrite !Rabs_mult. rewrite (Rabs_right (/ m)) by (left; apply Rinv_0_lt_compat; auto). rewrite (Rabs_right (/ (x * dl))) by (left; apply Rinv_0_lt_compat; apply Rmult_lt_0_compat; lra).
  apply Rmult_le_compat_r; [left; apply Rinv_0_lt_compat; auto|]. apply Rmult_le_reg_r with (x * dl); [apply Rmult_lt_0_compat; lra|]. rewrite Rmult_assoc, Rinv_l, Rmult_1_r by (apply Rgt_not_eq, Rmult_lt_0_compat; lra).
  eapply Rle_trans; [apply HL; nra|]. apply Rmult_le_compat_l; auto. rewrite Rabs_right; nra.
Qed.
Lemma slope_continuous x : a < x < b -> continuity_pt slope x.
Proof.
  intros Hx. pose proof dl_pos. unfold slope.
  apply (continuity_pt_mult (fun x => (E (x * (1 + dl)) - E x) / (x * dl)) (fun _ => / m)); [|apply continuity_pt_const; intros ? ?; reflexivity].
  apply (continuity_pt_div (fun x => E (x * (1 + dl)) - E x) (fun x => x * dl)).
  - apply (continuity_pt_minus (fun x => E (x * (1 + dl))) E); [|apply E_continuous; nra].
    apply (continuity_pt_comp (fun x => x * (1 + dl)) E); [|apply E_continuous; split; nra]. apply (continuity_pt_mult (fun x => x) (fun _ => 1 + dl)); [apply derivable_continuous_pt, derivable_pt_id|apply continuity_pt_const; intros ? ?; reflexivity].
  - apply (continuity_pt_mult (fun x => x) (fun _ => dl)); [apply derivable_continuous_pt, derivable_pt_id|apply continuity_pt_const; intros ? ?; reflexivity].
  - apply Rgt_not_eq, Rmult_lt_0_compat; lra.
Qed.

(** ** one step *)
Section Step.
Variables (M : R).
Hypothesis HM0 : 0 <= M.
Hypothesis HM : forall x, a <= x <= b * (1 + dl) -> Rabs (E x / m) <= M.
Variable t : R.
Hypotheses (Ht : 0 < t) (Ht1 : M * t <= mu) .
Lemma pred_in x : inner x -> a <= x + E x * t / m <= b /\ Rabs (E x * t / m) <= M * t.
Proof.
  intros Hx. pose proof mu_pos. pose proof (inner_ab x Hx). unfold inner in Hx. assert (B : Rabs (E x * t / m) <= M * t).
  { replace (E x * t / m) with (E x / m * t) by (field; lra). rewrite Rabs_mult, (Rabs_right t) by lra. apply Rmult_le_compat_r; [lra|]. apply HM. unfold dl. lra. }
  split; auto. pose proof (Rabs_le_between (E x * t / m) (M * t)) as [Q _]. specialize (Q B). unfold mu in *. pose proof (Rmin_l (lo - a) (b - hi)). pose proof (Rmin_r (lo - a) (b - hi)). lra.
Qed.
Lemma pred_top x : inner x -> let y := x * (1 + dl) in a <= y <= b * (1 + dl) /\ a <= y + E y * t / m <= b * (1 + dl) /\ Rabs (E y * t / m) <= M * t.
Proof.
  intros Hx y. pose proof mu_pos. pose proof (inner_ab x Hx). unfold inner in Hx. pose proof dl_pos. assert (Y : a <= y <= b * (1 + dl)) by (unfold y; split; nra). split; auto. assert (B : Rabs (E y * t / m) <= M * t).
  { replace (E y * t / m) with (E y / m * t) by (field; lra). rewrite Rabs_mult, (Rabs_right t) by lra. apply Rmult_le_compat_r; [lra|]. apply HM. auto. }
  split; auto. pose proof (Rabs_le_between (E y * t / m) (M * t)) as [Q _]. specialize (Q B). unfold mu in *. pose proof (Rmin_l (lo - a) (b - hi)). pose proof (Rmin_r (lo - a) (b - hi)). unfold y in *. split; nra.
Qed.
(** the step differs from Euler's by little *)
Lemma moved_euler x : a <= x <= b * (1 + dl) -> a <= x + E x * t / m <= b * (1 + dl) -> Rabs (E x * t / m) <= M * t ->
  Rabs (moved me E m t x - (x + t * (E x / m))) <= L * M / m * t ^ 2.
Proof.
  intros Hx Hy B. assert (P : 0 <= L * M / m * t ^ 2) by (apply Rmult_le_pos; [apply Rdiv_le_0_compat; auto; apply Rmult_le_pos; auto|apply pow2_ge_0]). unfold moved. destruct me.
  - replace (x + E x * t / m - (x + t * (E x / m))) with 0 by (field; lra). rewrite Rabs_R0. auto.
  - replace (x + (E x + E (x + E x * t / m)) / 2 * t / m - (x + t * (E x / m))) with ((E (x + E x * t / m) - E x) * (t / (2 * m))) by (field; lra).
    rewrite Rabs_mult, (Rabs_right (t / (2 * m))) by (apply Rle_ge, Rdiv_le_0_compat; lra).
    assert (Q : Rabs (E (x + E x * t / m) - E x) <= L * (M * t)). { eapply Rle_trans; [apply HL; auto|]. apply Rmult_le_compat_l; auto. replace (x + E x * t / m - x) with (E x * t / m) by ring. auto. }
    apply Rle_trans with (L * (M * t) * (t / (2 * m))); [apply Rmult_le_compat_r; auto; apply Rdiv_le_0_compat; lra|].
    replace (L * (M * t) * (t / (2 * m))) with (L * M / m * t ^ 2 / 2) by (field; lra). lra.
Qed.
Lemma moved_inner x : inner x -> Rabs (moved me E m t x - (x + t * (E x / m))) <= L * M / m * t ^ 2.
Proof. intros Hx. destruct (pred_in x Hx) as [P B]. pose proof (inner_ab x Hx). pose proof dl_pos. apply moved_euler; auto; split; nra. Qed.
(** order is kept *)
Lemma moved_incr x y : L / m * t * (1 + L / m * t) < 1 -> a <= x -> x < y -> y <= b * (1 + dl) ->
  a <= x + E x * t / m <= b * (1 + dl) -> a <= y + E y * t / m <= b * (1 + dl) -> moved me E m t x < moved me E m t y.
Proof.
  intros Hs Hx Hxy Hy Px Py. assert (X : Rabs (E y - E x) <= L * (y - x)). { rewrite <- (Rabs_right (y - x)) by lra. apply HL; lra. }
  assert (Lm : 0 <= L / m) by (apply Rdiv_le_0_compat; auto). set (l := L / m * t) in *. assert (l0 : 0 <= l) by (apply Rmult_le_pos; lra).
  assert (Z : Rabs ((E y - E x) * t / m) <= l * (y - x)). { replace ((E y - E x) * t / m) with ((E y - E x) * (t / m)) by (field; lra). rewrite Rabs_mult, (Rabs_right (t / m)) by (apply Rle_ge, Rdiv_le_0_compat; lra). apply Rle_trans with (L * (y - x) * (t / m)); [apply Rmult_le_compat_r; auto; apply Rdiv_le_0_compat; lra|]. right. unfold l. field. lra. }
  pose proof (proj1 (Rabs_le_between _ _) Z) as Z'. unfold moved. destruct me.
  - assert (E y * t / m = E x * t / m + (E y - E x) * t / m) by (field; lra). nra.
  - set (px := x + E x * t / m) in *. set (py := y + E y * t / m) in *.
    assert (D : Rabs (py - px) <= (1 + l) * (y - x)). { replace (py - px) with ((y - x) + (E y - E x) * t / m) by (unfold py, px; field; lra). eapply Rle_trans; [apply Rabs_triang|]. rewrite (Rabs_right (y - x)) by lra. lra. }
    assert (W : Rabs ((E py - E px) * t / m) <= l * ((1 + l) * (y - x))).
    { replace ((E py - E px) * t / m) with ((E py - E px) * (t / m)) by (field; lra). rewrite Rabs_mult, (Rabs_right (t / m)) by (apply Rle_ge, Rdiv_le_0_compat; lra).
      apply Rle_trans with (L * Rabs (py - px) * (t / m)); [apply Rmult_le_compat_r; [apply Rdiv_le_0_compat; lra|apply HL; lra]|].
      replace (L * Rabs (py - px) * (t / m)) with (l * Rabs (py - px)) by (unfold l; field; lra). apply Rmult_le_compat_l; auto. }
    pose proof (proj1 (Rabs_le_between _ _) W) as W'.
    assert (Q : (E y + E py) / 2 * t / m = (E x + E px) / 2 * t / m + ((E y - E x) * t / m + (E py - E px) * t / m) / 2) by (field; lra).
    assert (K : l * (y - x) <= l * ((1 + l) * (y - x))). { apply Rmult_le_compat_l; auto. nra. }
    assert (K2 : l * ((1 + l) * (y - x)) < y - x) by nra. nra.
Qed.
(** the width of the moved bin *)
Definition c1 : R := L * M / m.
Definition c3 : R := 2 * c1 / (a * dl).
Definition c2 : R := 2 * (c3 + (L / m + c3) * (L / m)).
Lemma c_pos : 0 <= c1 /\ 0 <= c3 /\ 0 <= c2 /\ 0 <= L / m.
Proof.
  pose proof dl_pos. assert (A1 : 0 <= c1) by (unfold c1; apply Rdiv_le_0_compat; auto; apply Rmult_le_pos; auto). assert (A2 : 0 <= L / m) by (apply Rdiv_le_0_compat; auto).
  assert (A3 : 0 <= c3) by (unfold c3; apply Rdiv_le_0_compat; [lra|apply Rmult_lt_0_compat; lra]). assert (0 <= (L / m + c3) * (L / m)) by (apply Rmult_le_pos; lra). unfold c2. lra.
Qed.
Lemma width x : inner x -> t <= 1 -> (L / m + c3) * t <= 1 / 2 ->
  let W := (x * (1 + dl) - x) / (moved me E m t (x * (1 + dl)) - moved me E m t x) in
  0 < moved me E m t (x * (1 + dl)) - moved me E m t x /\ Rabs (W - (1 - t * slope x)) <= c2 * t ^ 2 /\ 1 / 2 <= W.
Proof.
  intros Hx T1 Hs W. pose proof dl_pos as D. pose proof (inner_ab x Hx) as Hab. destruct c_pos as (A1 & A3 & A2 & A4).
  destruct (pred_in x Hx) as [P0 B0]. destruct (pred_top x Hx) as (Y & P1 & B1).
  assert (M0 : Rabs (moved me E m t x - (x + t * (E x / m))) <= c1 * t ^ 2) by (apply moved_inner; auto).
  assert (M1 : Rabs (moved me E m t (x * (1 + dl)) - (x * (1 + dl) + t * (E (x * (1 + dl)) / m))) <= c1 * t ^ 2) by (apply moved_euler; auto).
  set (th0 := moved me E m t x - (x + t * (E x / m))) in *. set (th1 := moved me E m t (x * (1 + dl)) - (x * (1 + dl) + t * (E (x * (1 + dl)) / m))) in *.
  assert (Hxd : 0 < x * dl) by (apply Rmult_lt_0_compat; lra). assert (Had : 0 < a * dl) by (apply Rmult_lt_0_compat; lra).
  set (eta := (th1 - th0) / (x * dl)).
  assert (He : Rabs eta <= c3 * t ^ 2).
  { unfold eta, Rdiv. rewrite Rabs_mult, (Rabs_right (/ (x * dl))) by (left; apply Rinv_0_lt_compat; auto).
    assert (Q1 : Rabs (th1 - th0) <= 2 * c1 * t ^ 2). { unfold Rminus at 1. eapply Rle_trans; [apply Rabs_triang|]. rewrite Rabs_Ropp. lra. }
    assert (Q2 : / (x * dl) <= / (a * dl)) by (apply Rinv_le_contravar; auto; apply Rmult_le_compat_r; lra).
    apply Rle_trans with (2 * c1 * t ^ 2 * / (a * dl)); [|right; unfold c3; field; lra]. apply Rmult_le_compat; auto; [apply Rabs_pos|left; apply Rinv_0_lt_compat; auto]. }
  set (sl := t * slope x). assert (Hsl : Rabs sl <= L / m * t). { unfold sl. rewrite Rabs_mult, (Rabs_right t) by lra. rewrite Rmult_comm. apply Rmult_le_compat_r; [lra|]. apply slope_bound. lra. }
  assert (Ew : moved me E m t (x * (1 + dl)) - moved me E m t x = x * dl * (1 + (sl + eta))). { unfold sl, eta, slope, th1, th0. field. lra. }
  assert (t2 : t ^ 2 <= t) by nra. assert (c3t : c3 * t ^ 2 <= c3 * t) by (apply Rmult_le_compat_l; auto).
  set (y := sl + eta) in *. assert (Hy : Rabs y <= (L / m + c3) * t). { unfold y. eapply Rle_trans; [apply Rabs_triang|]. lra. }
  pose proof (proj1 (Rabs_le_between _ _) Hy) as Hy'. assert (Y1 : 1 / 2 <= 1 + y <= 3 / 2) by lra.
  assert (EW : W = / (1 + y)). { unfold W. rewrite Ew. field. split; lra. }
  split. { rewrite Ew. apply Rmult_lt_0_compat; lra. } split.
  - rewrite EW. fold sl. replace (/ (1 + y) - (1 - sl)) with ((y * sl - eta) * / (1 + y)). 2: { replace eta with (y - sl) by (unfold y; ring). field. lra. }
    rewrite Rabs_mult, (Rabs_right (/ (1 + y))) by (left; apply Rinv_0_lt_compat; lra).
    assert (I2 : / (1 + y) <= 2). { replace 2 with (/ (1 / 2)) by lra. apply Rinv_le_contravar; lra. }
    assert (Q : Rabs (y * sl - eta) <= (L / m + c3) * (L / m) * t ^ 2 + c3 * t ^ 2).
    { unfold Rminus. eapply Rle_trans; [apply Rabs_triang|]. rewrite Rabs_Ropp, Rabs_mult. apply Rplus_le_compat; auto. replace ((L / m + c3) * (L / m) * t ^ 2) with ((L / m + c3) * t * (L / m * t)) by ring. apply Rmult_le_compat; auto; apply Rabs_pos. }
    apply Rle_trans with (((L / m + c3) * (L / m) * t ^ 2 + c3 * t ^ 2) * 2); [|right; unfold c2; ring]. apply Rmult_le_compat; auto; [apply Rabs_pos|left; apply Rinv_0_lt_compat; lra].
  - rewrite EW. replace (1 / 2) with (/ 2) by lra. apply Rinv_le_contravar; lra.
Qed.
Lemma step_sign x w : inner x -> t <= 1 -> (L / m + c3) * t <= 1 / 2 -> Rabs (r x) * t <= 1 / 4 -> 0 <= w ->
  let w' := snd (after_step me E r q m t (x, w)) in 0 <= w' /\ (0 < w \/ 0 < q x -> 0 < w').
Proof.
  intros Ij S3 S2 S4 Hw w'. destruct (width x Ij S3 S2) as (_ & _ & W1). set (W := (x * (1 + dl) - x) / (moved me E m t (x * (1 + dl)) - moved me E m t x)) in *.
  assert (Ew : w' = w * (W + r x * t) + q x * t) by (unfold w', after_step, W, dl; simpl; ring).
  assert (In : a < x < b) by (apply inner_ab in Ij; lra). pose proof (Hq0 x In). pose proof (Rle_abs (- r x)) as Rx. rewrite Rabs_Ropp in Rx.
  assert (F : 1 / 4 <= W + r x * t). { assert (- (Rabs (r x) * t) <= r x * t) by (replace (- (Rabs (r x) * t)) with ((- Rabs (r x)) * t) by ring; apply Rmult_le_compat_r; lra). lra. }
  assert (Q0 : 0 <= q x * t) by (apply Rmult_le_pos; lra). assert (F0 : 0 <= w * (W + r x * t)) by (apply Rmult_le_pos; lra). rewrite Ew. split; [lra|]. intros [V|V]; [assert (0 < w * (W + r x * t)) by (apply Rmult_lt_0_compat; lra)|assert (0 < q x * t) by (apply Rmult_lt_0_compat; lra)]; lra.
Qed.
End Step.

(** ** one grid point *)
Section Point.
Variables (G N : R -> R) (g v : R).
Hypotheses (HG0 : G 0 = g) (HGi : forall s, 0 <= s <= T -> lo <= G s <= hi) (HGd : forall s, 0 <= s <= T -> is_derive G s (E (G s) / m)).
Let N' (s : R) : R := N s * (r (G s) - slope (G s)) + q (G s).
Hypotheses (HN0 : N 0 = v) (HNd : forall s, 0 <= s <= T -> is_derive N s (N' s)).
Variable M : R.
Hypothesis HM0 : 0 <= M.
Hypothesis HM : forall x, a <= x <= b * (1 + dl) -> Rabs (E x / m) <= M.

Definition pos (t : R) (j : nat) : R := fst (after_steps j me E r q m t (g, v)).
Definition den (t : R) (j : nat) : R := snd (after_steps j me E r q m t (g, v)).
Lemma pos_S t j : pos t (S j) = moved me E m t (pos t j).
Proof. unfold pos, after_steps. cbn [Nat.iter nat_rect]. unfold after_step at 1. destruct (Nat.iter j _ _) as [x w] eqn:Q. cbn [Nat.iter nat_rect] in *. simpl. unfold Nat.iter in *. rewrite Q. reflexivity. Qed.
Lemma den_S t j : den t (S j) = den t j * ((pos t j * (1 + dl) - pos t j) / (moved me E m t (pos t j * (1 + dl)) - moved me E m t (pos t j))) + (den t j * r (pos t j) + q (pos t j)) * t.
Proof. unfold pos, den, after_steps, dl. cbn [Nat.iter nat_rect]. unfold Nat.iter. destruct (nat_rect _ _ _ j) as [x w] eqn:Q. reflexivity. Qed.

Lemma G_step s t : 0 <= s -> 0 < t -> s + t <= T -> Rabs (G (s + t) - (G s + t * (E (G s) / m))) <= c1 M * t ^ 2.
Proof.
  intros Hs Ht Hst. pose proof dl_pos.
  assert (mean : forall u, s <= u <= s + t -> Rabs (G u - G s) <= M * t).
  { intros u Hu. destruct (derive_mean G (fun s => E (G s) / m) s (u - s)) as (w & Hw & Ew); [lra| |]. { intros w Hw. apply HGd. lra. }
    replace (s + (u - s)) with u in Ew by ring. rewrite Ew, Rabs_mult, (Rabs_right (u - s)) by lra. pose proof (HGi w ltac:(lra)). pose proof (HM (G w) ltac:(split; nra)). pose proof (Rabs_pos (E (G w) / m)). nra. }
  destruct (derive_mean G (fun s => E (G s) / m) s t) as (w & Hw & Ew); [lra| |]. { intros w Hw. apply HGd. lra. }
  replace (G (s + t) - (G s + t * (E (G s) / m))) with ((E (G w) - E (G s)) * (t / m)). 2: { replace (G (s + t)) with (G s + t * (E (G w) / m)) by lra. field. lra. }
  rewrite Rabs_mult, (Rabs_right (t / m)) by (apply Rle_ge, Rdiv_le_0_compat; lra). pose proof (HGi w ltac:(lra)). pose proof (HGi s ltac:(lra)).
  apply Rle_trans with (L * (M * t) * (t / m)). { apply Rmult_le_compat_r; [apply Rdiv_le_0_compat; lra|]. eapply Rle_trans; [apply HL; split; nra|]. apply Rmult_le_compat_l; auto. }
  right. unfold c1. field. lra.
Qed.

Lemma position : exists X, 0 <= X /\ small (fun t => forall k, INR k * t = T -> forall j, (j <= k)%nat -> inner (pos t j) /\ Rabs (pos t j - G (INR j * t)) <= X * t).
Proof.
  set (X := 2 * c1 M * T * exp (L / m * T)). destruct (c_pos M HM0) as (A1 & _ & _ & A4). assert (X0 : 0 <= X) by (unfold X; apply Rmult_le_pos; [apply Rmult_le_pos; lra|left; apply exp_pos]).
  exists X. split; auto. destruct mu_pos as (U1 & U2 & U3).
  apply (small_imp (fun t => M * t <= mu /\ X * t <= mu)). 2: { apply small_and; apply small_lin; auto. }
  intros t Ht [S1 S2] k Ek.
  assert (tj : forall j, (j <= k)%nat -> 0 <= INR j * t <= T). { intros j Hj. split; [apply Rmult_le_pos; [apply pos_INR|lra]|]. rewrite <- Ek. apply Rmult_le_compat_r; [lra|]. apply le_INR; auto. }
  assert (bd : forall j, (j <= k)%nat -> 2 * c1 M * t * (INR j * t) * exp (L / m * (INR j * t)) <= X * t).
  { intros j Hj. specialize (tj j Hj). replace (X * t) with (2 * c1 M * t * T * exp (L / m * T)) by (unfold X; ring). apply Rmult_le_compat; [apply Rmult_le_pos; [apply Rmult_le_pos; lra|lra]|left; apply exp_pos|apply Rmult_le_compat_l; [apply Rmult_le_pos; lra|lra]|].
    assert (L / m * (INR j * t) <= L / m * T) by (apply Rmult_le_compat_l; lra). destruct (Rle_lt_or_eq_dec _ _ H) as [K|K]; [left; apply exp_increasing; auto|rewrite K; lra]. }
  assert (inn : forall j, (j <= k)%nat -> Rabs (pos t j - G (INR j * t)) <= X * t -> inner (pos t j)).
  { intros j Hj B. pose proof (HGi _ (tj j Hj)). pose proof (proj1 (Rabs_le_between _ _) B). unfold inner. lra. }
  assert (Acc : forall j, (j <= k)%nat -> Rabs (pos t j - G (INR j * t)) <= 2 * c1 M * t * (INR j * t) * exp (L / m * (INR j * t))).
  { apply (accumulate (fun j => Rabs (pos t j - G (INR j * t))) (L / m) t (2 * c1 M * t) k); auto; try lra.
    - apply Rmult_le_pos; lra.
    - simpl. rewrite Rmult_0_l, HG0. unfold pos. simpl. rewrite Rminus_diag_eq by auto. rewrite Rabs_R0. lra.
    - intros j Hj _ B. assert (Ij : inner (pos t j)) by (apply inn; [lia|]; eapply Rle_trans; [exact B|apply bd; lia]).
      pose proof (tj j ltac:(lia)) as T1. pose proof (tj (S j) ltac:(lia)) as T2. rewrite S_INR in T2 |- *. replace ((INR j + 1) * t) with (INR j * t + t) in * by ring.
      pose proof (G_step (INR j * t) t ltac:(lra) Ht ltac:(lra)) as K1. pose proof (moved_inner M HM0 HM t Ht S1 (pos t j) Ij) as K2. fold (c1 M) in K2.
      rewrite pos_S. set (x := pos t j) in *. set (y := G (INR j * t)) in *.
      assert (K3 : Rabs ((x + t * (E x / m)) - (y + t * (E y / m))) <= (1 + L / m * t) * Rabs (x - y)).
      { replace ((x + t * (E x / m)) - (y + t * (E y / m))) with ((x - y) + (E x - E y) * (t / m)) by (field; lra). eapply Rle_trans; [apply Rabs_triang|]. rewrite Rabs_mult, (Rabs_right (t / m)) by (apply Rle_ge, Rdiv_le_0_compat; lra).
        pose proof (inner_ab x Ij). pose proof (HGi _ T1) as HGy. fold y in HGy. pose proof dl_pos. pose proof (HL x y ltac:(split; nra) ltac:(split; nra)).
        apply Rle_trans with (Rabs (x - y) + L * Rabs (x - y) * (t / m)); [apply Rplus_le_compat_l, Rmult_le_compat_r; [apply Rdiv_le_0_compat; lra|auto]|right; field; lra]. }
      replace (moved me E m t x - G (INR j * t + t)) with ((moved me E m t x - (x + t * (E x / m))) + ((x + t * (E x / m)) - (y + t * (E y / m))) - (G (INR j * t + t) - (y + t * (E y / m)))) by ring.
      unfold Rminus at 1. eapply Rle_trans; [apply Rabs_triang|]. rewrite Rabs_Ropp. eapply Rle_trans; [apply Rplus_le_compat_r, Rabs_triang|]. nra.
    - intros j. apply Rabs_pos. }
  intros j Hj. assert (B : Rabs (pos t j - G (INR j * t)) <= X * t) by (eapply Rle_trans; [apply Acc; auto|apply bd; auto]). split; auto.
Qed.

Let rho (x : R) : R := r x - slope x.
Lemma inside x : lo - mu <= x <= hi + mu -> a < x < b.
Proof. intros H. destruct mu_pos as (U1 & U2 & U3). apply inner_ab in H. lra. Qed.
Lemma rho_continuous x : lo - mu <= x <= hi + mu -> continuity_pt rho x.
Proof. intros H. apply continuity_pt_minus; [apply Hr, inside; auto|apply slope_continuous, inside; auto]. Qed.
Lemma G_continuous s : 0 <= s <= T -> continuity_pt G s.
Proof. intros H. apply continuity_pt_filterlim. apply (ex_derive_continuous G). eexists. apply HGd; auto. Qed.
Lemma N_continuous s : 0 <= s <= T -> continuity_pt N s.
Proof. intros H. apply continuity_pt_filterlim. apply (ex_derive_continuous N). eexists. apply HNd; auto. Qed.
Lemma G_inner s : 0 <= s <= T -> lo - mu <= G s <= hi + mu.
Proof. intros H. pose proof (HGi s H). destruct mu_pos. lra. Qed.
Lemma N'_continuous s : 0 <= s <= T -> continuity_pt N' s.
Proof.
  intros H. pose proof (G_inner s H). apply continuity_pt_plus; [apply continuity_pt_mult; [apply N_continuous; auto|]|].
  - apply (continuity_pt_comp G rho); [apply G_continuous; auto|apply rho_continuous; auto].
  - apply (continuity_pt_comp G q); [apply G_continuous; auto|apply Hq, inside; auto].
Qed.

Lemma density eps : 0 < eps -> small (fun t => forall k, INR k * t = T -> forall j, (j <= k)%nat -> Rabs (den t j - N (INR j * t)) <= eps).
Proof.
  intros He. destruct mu_pos as (U1 & U2 & U3). assert (Hlm : lo - mu <= hi + mu) by lra.
  destruct position as (X & X0 & HX). destruct (c_pos M HM0) as (A1 & A3 & A2 & A4).
  destruct (bounded_on rho (lo - mu) (hi + mu) Hlm rho_continuous) as (R1 & HR0 & HR). destruct (bounded_on N 0 T ltac:(lra) N_continuous) as (N0 & HN00 & HNb).
  set (C := R1 + c2 M). set (kap := eps / (T * exp (C * T))). pose proof (exp_pos (C * T)) as Ep. assert (Hk : 0 < kap) by (unfold kap; apply Rdiv_lt_0_compat; auto; apply Rmult_lt_0_compat; auto).
  set (k4 := kap / 4). assert (Hk4 : 0 < k4) by (unfold k4; lra).
  destruct (uniform_on N' 0 T k4 Hk4 N'_continuous) as (d1 & Hd1 & UN). destruct (uniform_on rho (lo - mu) (hi + mu) (k4 / (N0 + 1)) ltac:(apply Rdiv_lt_0_compat; lra) rho_continuous) as (d2 & Hd2 & Ur).
  destruct (uniform_on q (lo - mu) (hi + mu) k4 Hk4 (fun x Hx => Hq x (inside x Hx))) as (d3 & Hd3 & Uq).
  apply (small_imp (fun t => ((M * t <= mu /\ (L / m + c3 M) * t <= 1 / 2) /\ (1 * t <= 1 /\ N0 * c2 M * t <= k4)) /\ ((1 * t <= d1 / 2 /\ X * t <= d2 / 2) /\ (X * t <= d3 / 2 /\ (forall k, INR k * t = T -> forall j, (j <= k)%nat -> inner (pos t j) /\ Rabs (pos t j - G (INR j * t)) <= X * t))))).
  2: { repeat apply small_and; try (apply small_lin; lra); exact HX. }
  intros t Ht (((S1 & S2) & (S3 & S4)) & ((S5 & S6) & (S7 & HP))) k Ek. specialize (HP k Ek).
  assert (tj : forall j, (j <= k)%nat -> 0 <= INR j * t <= T). { intros j Hj. split; [apply Rmult_le_pos; [apply pos_INR|lra]|]. rewrite <- Ek. apply Rmult_le_compat_r; [lra|]. apply le_INR; auto. }
  assert (Cp : 0 <= C) by (unfold C; lra).
  assert (Acc : forall j, (j <= k)%nat -> Rabs (den t j - N (INR j * t)) <= kap * (INR j * t) * exp (C * (INR j * t))).
  { apply (accumulate (fun j => Rabs (den t j - N (INR j * t))) C t kap k); auto; try lra.
    - simpl. rewrite Rmult_0_l, HN0. unfold den. simpl. rewrite Rminus_diag_eq by auto. rewrite Rabs_R0. lra.
    - intros j Hj _ _. destruct (HP j ltac:(lia)) as (Ij & Bj). pose proof (tj j ltac:(lia)) as T1. pose proof (tj (S j) ltac:(lia)) as T2. rewrite S_INR in T2 |- *. replace ((INR j + 1) * t) with (INR j * t + t) in * by ring.
      destruct (width M HM0 HM t Ht S1 (pos t j) Ij ltac:(lra) S2) as (_ & W1 & _). rewrite den_S. set (x := pos t j) in *. set (w := den t j) in *. set (s := INR j * t) in *.
      set (W := (x * (1 + dl) - x) / (moved me E m t (x * (1 + dl)) - moved me E m t x)) in *.
      destruct (derive_mean N N' s t) as (u & Hu & Eu); [lra| |]. { intros z Hz. apply HNd. lra. }
      assert (D1 : Rabs (N' u - N' s) < k4) by (apply UN; try lra; rewrite Rabs_right; lra).
      pose proof (G_inner s T1) as Gi. assert (D2 : Rabs (rho x - rho (G s)) < k4 / (N0 + 1)) by (apply Ur; auto; lra). assert (D3 : Rabs (q x - q (G s)) < k4) by (apply Uq; auto; lra).
      pose proof (HR x Ij) as Rx. pose proof (HNb s T1) as Ns.
      replace (w * W + (w * r x + q x) * t - N (s + t)) with ((w - N s) * (1 + t * rho x + (W - (1 - t * slope x))) + (N s * (t * (rho x - rho (G s))) + N s * (W - (1 - t * slope x)) + t * (q x - q (G s)) - t * (N' u - N' s))).
      2: { replace (N (s + t)) with (N s + t * N' u) by lra. unfold rho, N'. ring. }
      eapply Rle_trans; [apply Rabs_triang|]. apply Rplus_le_compat.
      + rewrite Rabs_mult, Rmult_comm. apply Rmult_le_compat_r; [apply Rabs_pos|]. eapply Rle_trans; [apply Rabs_triang|]. eapply Rle_trans; [apply Rplus_le_compat_r, Rabs_triang|]. rewrite Rabs_R1, Rabs_mult, (Rabs_right t) by lra.
        assert (t * Rabs (rho x) <= t * R1) by (apply Rmult_le_compat_l; lra). assert (c2 M * t ^ 2 <= c2 M * t) by (apply Rmult_le_compat_l; [auto|nra]). unfold C. lra.
      + assert (Z1 : Rabs (N s * (t * (rho x - rho (G s)))) <= t * k4).
        { rewrite !Rabs_mult, (Rabs_right t) by lra. replace (Rabs (N s) * (t * Rabs (rho x - rho (G s)))) with (t * (Rabs (N s) * Rabs (rho x - rho (G s)))) by ring. apply Rmult_le_compat_l; [lra|].
          apply Rle_trans with (N0 * (k4 / (N0 + 1))); [apply Rmult_le_compat; auto; try apply Rabs_pos; lra|]. apply Rmult_le_reg_r with (N0 + 1); [lra|]. replace (N0 * (k4 / (N0 + 1)) * (N0 + 1)) with (N0 * k4) by (field; lra). nra. }
        assert (Z2 : Rabs (N s * (W - (1 - t * slope x))) <= t * k4).
        { rewrite Rabs_mult. apply Rle_trans with (N0 * (c2 M * t ^ 2)); [apply Rmult_le_compat; auto; apply Rabs_pos|]. replace (N0 * (c2 M * t ^ 2)) with (t * (N0 * c2 M * t)) by ring. apply Rmult_le_compat_l; lra. }
        assert (Z3 : Rabs (t * (q x - q (G s))) <= t * k4) by (rewrite Rabs_mult, (Rabs_right t) by lra; apply Rmult_le_compat_l; lra).
        assert (Z4 : Rabs (t * (N' u - N' s)) <= t * k4) by (rewrite Rabs_mult, (Rabs_right t) by lra; apply Rmult_le_compat_l; lra).
        unfold Rminus at 1. eapply Rle_trans; [apply Rabs_triang|]. rewrite Rabs_Ropp. eapply Rle_trans; [apply Rplus_le_compat_r, Rabs_triang|]. eapply Rle_trans; [apply Rplus_le_compat_r, Rplus_le_compat_r, Rabs_triang|].
        replace (kap * t) with (t * k4 + t * k4 + t * k4 + t * k4) by (unfold k4; field). lra.
    - intros j. apply Rabs_pos. }
  intros j Hj. eapply Rle_trans; [apply Acc; auto|]. specialize (tj j Hj).
  apply Rle_trans with (kap * T * exp (C * T)); [|right; unfold kap; field; split; lra].
  assert (C * (INR j * t) <= C * T) by (apply Rmult_le_compat_l; lra).
  apply Rmult_le_compat; [apply Rmult_le_pos; lra|left; apply exp_pos|apply Rmult_le_compat_l; lra|]. destruct (Rle_lt_or_eq_dec _ _ H) as [K|K]; [left; apply exp_increasing; auto|rewrite K; lra].
Qed.


(** all there is to say of one point *)
Definition good (eps t : R) : Prop := forall k, INR k * t = T -> forall j, (j <= k)%nat ->
  inner (pos t j) /\ Rabs (pos t j - G (INR j * t)) <= eps /\ Rabs (den t j - N (INR j * t)) <= eps /\
  0 <= den t j /\ (0 < v -> 0 < den t j).
Lemma point_good eps : 0 < eps -> 0 <= v -> small (good eps).
Proof.
  intros He Hv. destruct mu_pos as (U1 & U2 & U3). assert (Hlm : lo - mu <= hi + mu) by lra. destruct position as (X & X0 & HX). pose proof (density eps He) as HD.
  destruct (bounded_on r (lo - mu) (hi + mu) Hlm (fun x Hx => Hr x (inside x Hx))) as (R1 & HR0 & HR).
  apply (small_imp (fun t => ((M * t <= mu /\ (L / m + c3 M) * t <= 1 / 2) /\ (1 * t <= 1 /\ R1 * t <= 1 / 4)) /\ (X * t <= eps /\
    ((forall k, INR k * t = T -> forall j, (j <= k)%nat -> inner (pos t j) /\ Rabs (pos t j - G (INR j * t)) <= X * t) /\
     (forall k, INR k * t = T -> forall j, (j <= k)%nat -> Rabs (den t j - N (INR j * t)) <= eps))))).
  2: { repeat apply small_and; try (apply small_lin; lra); auto. }
  intros t Ht (((S1 & S2) & (S3 & S4)) & (S5 & HP & HQ)) k Ek. specialize (HP k Ek). specialize (HQ k Ek).
  assert (Sg : forall j, (j <= k)%nat -> 0 <= den t j /\ (0 < v -> 0 < den t j)).
  { induction j as [|j IH]; intros Hj; [unfold den; simpl; auto|]. destruct (IH ltac:(lia)) as [I1 I2]. destruct (HP j ltac:(lia)) as (Ij & _).
    pose proof (HR _ Ij). assert (Rabs (r (pos t j)) * t <= R1 * t) by (apply Rmult_le_compat_r; lra).
    pose proof (step_sign M HM0 HM t Ht S1 (pos t j) (den t j) Ij ltac:(lra) S2 ltac:(lra) I1) as [Z1 Z2].
    assert (Ed : den t (S j) = snd (after_step me E r q m t (pos t j, den t j))). { rewrite den_S. reflexivity. }
    rewrite Ed. auto. }
  intros j Hj. destruct (HP j Hj) as [P1 P2]. split; auto. split; [lra|]. auto.
Qed.
End Point.
End Kinetic.

(** ** all points of the grid *)
Lemma small_true (P : R -> Prop) : (forall t, 0 < t -> P t) -> small P.
Proof. intros H. exists 1. split; [lra|auto]. Qed.
Lemma small_list {A} (l : list A) : forall (P : nat -> A -> R -> Prop), (forall i p, nth_error l i = Some p -> small (P i p)) -> small (fun t => forall i p, nth_error l i = Some p -> P i p t).
Proof.
  induction l as [|x l IH]; intros P H.
  - apply small_true. intros t _ [|i] p Q; discriminate.
  - apply (small_imp (fun t => P O x t /\ (forall i p, nth_error l i = Some p -> P (S i) p t))).
    + intros t _ [H0 H1] [|i] p Q; simpl in Q; [injection Q as <-; auto|auto].
    + apply small_and; [apply (H O x); auto|]. apply (IH (fun i => P (S i))). intros i p Q. apply (H (S i) p Q).
Qed.
Lemma count_le {A B} (f : A -> bool) (g : B -> bool) (h : A -> B) l : (forall x, In x l -> f x = true -> g (h x) = true) -> (length (filter f l) <= length (filter g (map h l)))%nat.
Proof.
  induction l as [|x l IH]; intros H; simpl; auto. specialize (IH (fun y Hy => H y (or_intror Hy))). pose proof (H x (or_introl eq_refl)) as Hx. destruct (f x); [rewrite Hx by auto; simpl; lia|]. destruct (g (h x)); simpl; lia.
Qed.
