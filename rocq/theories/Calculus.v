(** Monotonicity from derivatives *)
From Verif Require Import Base.
From Coquelicot Require Import Coquelicot.
Open Scope R_scope.

Lemma mono_incr (f df : R -> R) a b : a <= b -> (forall x, a <= x <= b -> is_derive f x (df x)) -> (forall x, a <= x <= b -> 0 <= df x) -> f a <= f b.
Proof.
  intros Hab Hd Hp. destruct (MVT_gen f a b df) as (c & Hc & E).
  - intros x Hx. rewrite Rmin_left, Rmax_right in Hx by auto. apply Hd; lra.
  - intros x Hx. rewrite Rmin_left, Rmax_right in Hx by auto.
    apply continuity_pt_filterlim. apply (ex_derive_continuous f). exists (df x). apply Hd; auto.
  - rewrite Rmin_left, Rmax_right in Hc by auto. specialize (Hp c Hc). nra.
Qed.
Lemma mono_decr (f df : R -> R) a b : a <= b -> (forall x, a <= x <= b -> is_derive f x (df x)) -> (forall x, a <= x <= b -> df x <= 0) -> f b <= f a.
Proof.
  intros Hab Hd Hp. destruct (MVT_gen f a b df) as (c & Hc & E).
  - intros x Hx. rewrite Rmin_left, Rmax_right in Hx by auto. apply Hd; lra.
  - intros x Hx. rewrite Rmin_left, Rmax_right in Hx by auto.
    apply continuity_pt_filterlim. apply (ex_derive_continuous f). exists (df x). apply Hd; auto.
  - rewrite Rmin_left, Rmax_right in Hc by auto. specialize (Hp c Hc). nra.
Qed.
(** strict versions: derivative of one sign in the interior *)
Lemma strict_incr (f df : R -> R) a b : a < b -> (forall x, a <= x <= b -> is_derive f x (df x)) -> (forall x, a < x < b -> 0 < df x) -> f a < f b.
Proof.
  intros Hab Hd Hp.
  assert (C : forall x, a <= x <= b -> continuity_pt f x).
  { intros x Hx. apply continuity_pt_filterlim. apply (ex_derive_continuous f). exists (df x). apply Hd; auto. }
  destruct (MVT_cor2 f df a b Hab) as (c & E & Hc).
  - intros x Hx. apply is_derive_Reals. apply Hd; auto.
  - specialize (Hp c Hc). nra.
Qed.
Lemma strict_decr (f df : R -> R) a b : a < b -> (forall x, a <= x <= b -> is_derive f x (df x)) -> (forall x, a < x < b -> df x < 0) -> f b < f a.
Proof.
  intros Hab Hd Hp. destruct (MVT_cor2 f df a b Hab) as (c & E & Hc).
  - intros x Hx. apply is_derive_Reals. apply Hd; auto.
  - specialize (Hp c Hc). nra.
Qed.
Lemma exp_gt x : x <> 0 -> 1 + x < exp x.
Proof.
  intros H. destruct (Rtotal_order x 0) as [L|[E|G]]; [|contradiction|].
  - assert (exp x - (1 + x) > exp 0 - (1 + 0)); [|rewrite exp_0 in *; lra].
    apply (strict_decr (fun t => exp t - (1 + t)) (fun t => exp t - 1)); auto.
    + intros t _. auto_derive; auto. ring.
    + intros t Ht. assert (exp t < exp 0) by (apply exp_increasing; lra). rewrite exp_0 in *. lra.
  - apply exp_ineq1. auto.
Qed.
Lemma exp_ge x : 1 + x <= exp x.
Proof. destruct (Req_dec x 0) as [->|H]; [rewrite exp_0; lra|left; apply exp_gt; auto]. Qed.
Lemma ln_le_sub1 x : 0 < x -> ln x <= x - 1.
Proof. intros H. pose proof (exp_ge (x - 1)). rewrite <- (ln_exp (x - 1)). apply Rcomplements.ln_le; auto. lra. Qed.
Lemma ln_ge_1inv x : 0 < x -> 1 - / x <= ln x.
Proof.
  intros H. pose proof (ln_le_sub1 (/ x) (Rinv_0_lt_compat _ H)). rewrite ln_Rinv in H0 by auto. lra.
Qed.
