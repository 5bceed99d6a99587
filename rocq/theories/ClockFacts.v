(** Facts about the clock in floating point arithmetic *)
From Coq Require Import Sorting.Sorted.
From Verif Require Import Base Clock Spec_TE.
From Flocq Require Import Core.
From Flocq Require Import Relative Sterbenz Plus_error.
Open Scope R_scope.

#[local] Instance prec53 : Prec_gt_0 53.
Proof. unfold Prec_gt_0. lia. Qed.
Definition u64 : R := / 2 ^ 53.
Lemma u64_pos : 0 < u64 <= / 2 ^ 27.
Proof. unfold u64. split; [apply Rinv_0_lt_compat; apply pow_lt; lra|]. apply Rinv_le_contravar; [apply pow_lt; lra|]. apply Rle_pow; [lra|lia]. Qed.
Lemma u_ro_64 : u_ro radix2 53 = u64.
Proof. unfold u_ro, u64. rewrite bpow_powerRZ. change (powerRZ (IZR radix2) (- (53) + 1)) with (/ 2 ^ 52). rewrite <- Rinv_mult. reflexivity. Qed.

Lemma b64_double x : is_double (binary64 x).
Proof. apply generic_format_round; typeclasses eauto. Qed.
Lemma b64_id x : is_double x -> binary64 x = x.
Proof. intros H. apply round_generic; [typeclasses eauto|exact H]. Qed.
Lemma b64_le x y : x <= y -> binary64 x <= binary64 y.
Proof. apply round_le; typeclasses eauto. Qed.
Lemma b64_le_double x y : is_double y -> x <= y -> binary64 x <= y.
Proof. intros Hy H. rewrite <- (b64_id y Hy). apply b64_le. auto. Qed.
Lemma b64_ge_double x y : is_double y -> y <= x -> y <= binary64 x.
Proof. intros Hy H. rewrite <- (b64_id y Hy). apply b64_le. auto. Qed.
Lemma double_0 : is_double 0.
Proof. apply generic_format_0. Qed.
Lemma b64_plus x y : is_double x -> is_double y -> exists e, Rabs e <= u64 /\ binary64 (x + y) = (x + y) * (1 + e).
Proof.
  intros Hx Hy. destruct (FLT_plus_error_N_ex radix2 (-1074) 53 (fun n => negb (Z.even n)) x y Hx Hy) as (e & He & E). exists e. split; [|exact E].
  rewrite u_ro_64 in He. pose proof u64_pos. eapply Rle_trans; [exact He|]. apply (Rmult_le_reg_r (1 + u64)); [lra|]. unfold Rdiv. rewrite Rmult_assoc, Rinv_l by lra. nra.
Qed.
Lemma b64_minus x y : is_double x -> is_double y -> exists e, Rabs e <= u64 /\ binary64 (x - y) = (x - y) * (1 + e).
Proof. intros Hx Hy. apply b64_plus; auto. apply generic_format_opp. auto. Qed.
Lemma abs_bounds e : Rabs e <= u64 -> - u64 <= e <= u64.
Proof. intros H. apply Rabs_le_inv in H. auto. Qed.
Lemma u64_small : 0 < u64 < 1 / 100.
Proof. pose proof u64_pos. split; [lra|]. eapply Rle_lt_trans; [apply H|]. apply Rlt_le_trans with (/ 2 ^ 7); [|lra]. apply Rinv_lt_contravar; [|apply Rlt_pow; [lra|lia]]. apply Rmult_lt_0_compat; apply pow_lt; lra. Qed.
Lemma double_2 t : is_double t -> is_double (2 * t).
Proof.
  intros H. apply FLT_format_generic in H; [|typeclasses eauto]. destruct H as [[m e] E Hm He]. cbn [Fnum Fexp] in *. apply generic_format_FLT. exists (Float radix2 m (e + 1)); cbn [Fnum Fexp]; auto; [|lia].
  rewrite E. unfold F2R. cbn [Fnum Fexp]. rewrite bpow_plus. change (bpow radix2 1) with 2. ring.
Qed.
(** Sterbenz: the rest is exact in the second half *)
Lemma rest_exact T t : is_double T -> is_double t -> T / 2 <= t <= T -> binary64 (T - t) = T - t.
Proof. intros HT Ht H. apply b64_id. apply sterbenz; try typeclasses eauto; auto. lra. Qed.
Lemma u64_ulp T : 0 < T -> T * u64 <= ulp radix2 (FLT_exp (-1074) 53) T.
Proof.
  intros H. rewrite ulp_neq_0 by lra. unfold cexp. set (m := mag radix2 T).
  apply Rle_trans with (bpow radix2 (m + - (53))).
  - rewrite bpow_plus. replace (bpow radix2 (- (53))) with u64. 2: { unfold u64. rewrite bpow_powerRZ. reflexivity. }
    apply Rmult_le_compat_r; [pose proof u64_pos; lra|]. pose proof (bpow_mag_gt radix2 T) as K. rewrite Rabs_right in K by lra. fold m in K. lra.
  - apply bpow_le. unfold FLT_exp. lia.
Qed.

Section Any.
Variables (T : R) (proposed : nat -> R).
Hypotheses (HT : is_double T) (T0 : 0 < T) (Hd : forall i, is_double (proposed i)) (Hp : forall i, 0 < proposed i).
Lemma step_double i t : is_double (step_time binary64 T proposed i t).
Proof. unfold step_time. destruct (Rltb _ _); [apply b64_double|apply Hd]. Qed.
Lemma left_nonneg t : t <= T -> 0 <= binary64 (T - t).
Proof. intros H. apply b64_ge_double; [apply double_0|lra]. Qed.
Lemma tick_ge i t : is_double t -> t <= T -> t <= tick binary64 T proposed i t.
Proof.
  intros Ht H. unfold tick. apply b64_ge_double; auto. unfold step_time. destruct (Rltb _ _); [pose proof (left_nonneg t H); lra|specialize (Hp i); lra].
Qed.
Lemma step_le_left i t : step_time binary64 T proposed i t <= binary64 (T - t).
Proof. unfold step_time. destruct (Rltb_spec (binary64 (T - t)) (proposed i)); lra. Qed.
Lemma tick_over i t x : is_double t -> 0 <= t <= T -> is_double x -> T < x -> tick binary64 T proposed i t <= x.
Proof.
  intros Ht H Hx Hxt. unfold tick. apply b64_le_double; auto.
  assert (K : T + ulp radix2 (FLT_exp (-1074) 53) T <= x). { rewrite <- succ_eq_pos by lra. apply succ_le_lt; auto; typeclasses eauto. }
  pose proof (step_le_left i t). destruct (b64_minus T t HT Ht) as (e & He & E). apply abs_bounds in He. pose proof (u64_ulp T T0). pose proof u64_pos. rewrite E in *. nra.
Qed.
Lemma ticks_any fuel : forall i t ts e, is_double t -> 0 <= t -> t < T -> ticks binary64 T proposed fuel i t = (ts, e) ->
  (forall x y, is_double y -> T < y -> In x ts -> x <= y) /\
  (e = true -> exists pre l, ts = pre ++ [l] /\ T <= l).
Proof.
  induction fuel as [|fuel IH]; intros i t ts e Ht H0 H E; cbn [ticks] in E; rewrite (proj2 (Rltb_true _ _) H) in E.
  - injection E as <- <-. split; [intros ? ? ? ? []|discriminate].
  - set (t' := tick binary64 T proposed i t) in *. destruct (ticks binary64 T proposed fuel (S i) t') as [ts' e'] eqn:E'. injection E as <- <-.
    assert (Hb : forall y, is_double y -> T < y -> t' <= y) by (intros y Hy Hty; apply tick_over; auto; lra).
    assert (Ht' : is_double t') by apply b64_double. assert (Hge : t <= t') by (apply tick_ge; auto; lra).
    destruct (Rlt_le_dec t' T) as [L|L].
    + destruct (IH (S i) t' ts' e' Ht' ltac:(lra) L E') as [I1 I2]. split.
      * intros x y Hy Hty [<-|Hx]; eauto.
      * intros He. destruct (I2 He) as (pre & l & -> & Hl). exists (t' :: pre), l. auto.
    + assert (Ee : ts' = [] /\ e' = true). { destruct fuel; cbn [ticks] in E'; rewrite (proj2 (Rltb_false _ _) L) in E'; injection E' as <- <-; auto. }
      destruct Ee as [-> ->]. split. { intros x y Hy Hty [<-|[]]. auto. } intros _. exists [], t'. auto.
Qed.
End Any.

Section Fixed.
Variables (T s : R).
Hypotheses (HT : is_double T) (T0 : 0 < T) (Hs : is_double s) (s0 : 0 < s).
Let prop := fun _ : nat => s.
(** the elapsed times that occur *)
Definition clocked (t : R) : Prop := is_double t /\ 0 <= t <= T /\ (t = 0 \/ s <= t \/ t = T).
Lemma tick_fixed i t : clocked t -> t < T ->
  clocked (tick binary64 T prop i t) /\ t <= tick binary64 T prop i t /\
  (T <= t + s /\ tick binary64 T prop i t = T \/ s < binary64 (T - t) /\ tick binary64 T prop i t = binary64 (t + s)).
Proof.
  intros (Ht & (H0 & HtT) & Hc) L.
  assert (Hge : t <= tick binary64 T prop i t) by (apply tick_ge; auto; lra).
  destruct (Rle_lt_dec (binary64 (T - t)) s) as [A|A].
  - assert (E : step_time binary64 T prop i t = binary64 (T - t)). { unfold step_time, prop. destruct (Rltb_spec (binary64 (T - t)) s); [auto|lra]. }
    assert (ET : T <= t + s /\ tick binary64 T prop i t = T).
    { unfold tick. rewrite E. destruct Hc as [->|[Hc|Hc]]; [| |lra]. { rewrite Rminus_0_r, (b64_id T HT) in *. split; [lra|]. rewrite Rplus_0_l. apply b64_id. auto. }
      assert (T / 2 <= t).
      { destruct (Rle_lt_dec (T / 2) t); auto. exfalso. assert (Hl : t <= binary64 (T - t)) by (apply b64_ge_double; auto; lra). assert (Hst : binary64 (T - t) = t) by lra.
        assert (K : 2 * t + ulp radix2 (FLT_exp (-1074) 53) (2 * t) <= T). { rewrite <- succ_eq_pos by lra. apply succ_le_lt; auto; try typeclasses eauto; [apply double_2; auto|lra]. }
        pose proof (u64_ulp (2 * t) ltac:(lra)). destruct (b64_minus T t HT Ht) as (e & He & Ee). apply abs_bounds in He. pose proof u64_small. rewrite Hst in Ee. nra. }
      rewrite rest_exact in * by (auto; lra). split; [lra|]. rewrite b64_id; [lra|]. replace (t + (T - t)) with T by lra. auto. }
    destruct ET as [EL ET]. rewrite ET. split; [|split; [lra|left; auto]]. split; [auto|]. split; [lra|auto].
  - assert (E : step_time binary64 T prop i t = s). { unfold step_time, prop. destruct (Rltb_spec (binary64 (T - t)) s); [lra|auto]. }
    assert (ET : tick binary64 T prop i t = binary64 (t + s)) by (unfold tick; rewrite E; auto).
    split; [|split; [auto|right; auto]]. rewrite ET. split; [apply b64_double|]. rewrite ET in Hge. split.
    + split; [lra|]. apply b64_le_double; auto. destruct Hc as [->|[Hc|Hc]]; [| |lra].
      * rewrite Rminus_0_r, (b64_id T HT) in A. lra.
      * destruct (Rle_lt_dec (T / 2) t); [|lra]. rewrite rest_exact in A by (auto; lra). lra.
    + right. left. apply b64_ge_double; auto. lra.
Qed.
Lemma ticks_done fuel i t : T <= t -> ticks binary64 T prop fuel i t = ([], true).
Proof. intros H. destruct fuel; cbn [ticks]; rewrite (proj2 (Rltb_false _ _) H); reflexivity. Qed.
(** weakly increasing, never above T, ends at T only *)
Lemma ticks_fixed fuel : forall i t ts e, clocked t -> t < T -> ticks binary64 T prop fuel i t = (ts, e) ->
  (forall x, In x ts -> t <= x <= T) /\ Sorted Rle (t :: ts) /\ (e = true -> exists pre, ts = pre ++ [T] /\ forall x, In x pre -> x < T).
Proof.
  induction fuel as [|fuel IH]; intros i t ts e Ht H E; cbn [ticks] in E; rewrite (proj2 (Rltb_true _ _) H) in E.
  - injection E as <- <-. split; [intros ? []|]. split; [repeat constructor|discriminate].
  - destruct (tick_fixed i t Ht H) as (Hc & Hge & _). set (t' := tick binary64 T prop i t) in *.
    destruct (ticks binary64 T prop fuel (S i) t') as [ts' e'] eqn:E'. injection E as <- <-. destruct (proj1 (proj2 Hc)) as [P1 P2].
    destruct (Rlt_le_dec t' T) as [L|L].
    + destruct (IH (S i) t' ts' e' Hc L E') as (I1 & I2 & I3). split. { intros x [<-|Hx]; [lra|]. specialize (I1 x Hx). lra. }
      split. { constructor; auto. } intros He. destruct (I3 He) as (pre & -> & Hpre). exists (t' :: pre). split; auto. intros x [<-|Hx]; auto.
    + rewrite ticks_done in E' by auto. injection E' as <- <-. split. { intros x [<-|[]]. lra. } split; [constructor; [repeat constructor|constructor; exact Hge]|].
      intros _. exists []. assert (Et : t' = T) by lra. split; [cbn [app]; rewrite Et; reflexivity|intros ? []].
Qed.
(** the k-th elapsed time against k s *)
Lemma ticks_upper fuel : forall i t ts k, clocked t -> t < T -> t <= INR k * s * (1 + u64) ^ k -> ticks binary64 T prop fuel i t = (ts, true) ->
  T <= INR (k + length ts) * s * (1 + u64) ^ (k + length ts).
Proof.
  induction fuel as [|fuel IH]; intros i t ts k Ht H B E; cbn [ticks] in E; rewrite (proj2 (Rltb_true _ _) H) in E; [discriminate|].
  destruct (tick_fixed i t Ht H) as (Hc & Hge & Hcase). set (t' := tick binary64 T prop i t) in *.
  assert (B' : t' <= INR (S k) * s * (1 + u64) ^ S k).
  { pose proof u64_small as U. assert (P1 : 1 <= (1 + u64) ^ k) by (apply pow_R1_Rle; lra). rewrite S_INR. cbn [pow].
    assert (Q : (t + s) * (1 + u64) <= (INR k + 1) * s * ((1 + u64) * (1 + u64) ^ k)) by (assert (s <= s * (1 + u64) ^ k) by nra; nra).
    eapply Rle_trans; [|exact Q]. destruct Ht as (Ht & Ht0 & _). destruct Hcase as [[A ->]|[A ->]].
    - nra.
    - destruct (b64_plus t s Ht Hs) as (e & He & Ee). apply abs_bounds in He. rewrite Ee. nra. }
  destruct (ticks binary64 T prop fuel (S i) t') as [ts' e'] eqn:E'. injection E as <- ->. cbn [length].
  destruct (Rlt_le_dec t' T) as [L|L].
  - replace (k + S (length ts'))%nat with (S k + length ts')%nat by lia. apply (IH (S i) t' ts' (S k)); auto.
  - rewrite ticks_done in E' by auto. injection E' as <-. cbn [length]. replace (k + 1)%nat with (S k) by lia. lra.
Qed.
Lemma pow_lower k : 1 - INR k * u64 <= (1 - u64) ^ k.
Proof. pose proof u64_small. induction k as [|k IH]; [simpl; lra|]. rewrite S_INR. cbn [pow]. pose proof (pos_INR k). nra. Qed.
Lemma pow_le1 k : (1 - u64) ^ k <= 1.
Proof. pose proof u64_small. induction k as [|k IH]; [simpl; lra|]. cbn [pow]. assert (0 <= (1 - u64) ^ k) by (apply pow_le; lra). nra. Qed.
Lemma ticks_lower n fuel : T <= INR n * s -> INR n <= 2 ^ 26 -> forall i t ts e k, clocked t -> t < T -> (k <= n)%nat -> INR k * s * (1 - u64) ^ k <= t -> (n < k + fuel)%nat -> ticks binary64 T prop fuel i t = (ts, e) ->
  e = true /\ increasing (t :: ts).
Proof.
  intros Hn N26. assert (Hu : INR n * u64 <= / 2 ^ 27). { unfold u64. replace (/ 2 ^ 27) with (2 ^ 26 * / 2 ^ 53) by (simpl; field). apply Rmult_le_compat_r; [|auto]. left. apply Rinv_0_lt_compat, pow_lt. lra. }
  assert (U27 : 2 ^ 26 * / 2 ^ 27 = 1 / 2) by (simpl; field). assert (S27 : / 2 ^ 27 <= 1 / 100). { apply Rle_trans with (/ 2 ^ 7); [|lra]. apply Rinv_le_contravar; [lra|]. apply Rle_pow; [lra|lia]. }
  pose proof u64_small as U. pose proof (pos_INR n) as P0.
  assert (Hns : INR n * s * (INR n * u64) <= s / 2). { apply Rle_trans with (INR n * s * / 2 ^ 27); [apply Rmult_le_compat_l; nra|]. apply Rle_trans with (2 ^ 26 * s * / 2 ^ 27); [|nra]. apply Rmult_le_compat_r; [left; apply Rinv_0_lt_compat, pow_lt; lra|]. nra. }
  induction fuel as [|fuel IH]; intros i t ts e k Ht H Hk B Hf E; [lia|]. cbn [ticks] in E; rewrite (proj2 (Rltb_true _ _) H) in E.
  destruct (tick_fixed i t Ht H) as (Hc & Hge & Hcase). set (t' := tick binary64 T prop i t) in *.
  destruct (ticks binary64 T prop fuel (S i) t') as [ts' e'] eqn:E'. injection E as <- <-. destruct Ht as (Ht & (Ht0 & HtT) & _).
  assert (Hinc : forall l, increasing (t' :: l) -> t < t' -> increasing (t :: t' :: l)). { intros l Hl Hlt [|j] a b Hj. { destruct Hj as [Ha Hb]. simpl in Ha, Hb. injection Ha as <-. injection Hb as <-. auto. } apply (Hl j). exact Hj. }
  destruct (Rlt_le_dec t' T) as [L|L].
  2: { rewrite ticks_done in E' by auto. injection E' as <- <-. split; auto. apply Hinc; [|lra]. intros [|j] a b [Ha Hb]; simpl in Hb; try discriminate; destruct j; discriminate. }
  destruct Hcase as [[_ A]|[A A']]; [lra|].
  destruct (b64_plus t s Ht Hs) as (d & Hd & Ed). apply abs_bounds in Hd.
  assert (Hlt : t < t'). { rewrite A', Ed. assert (t * u64 <= s / 2). { apply Rle_trans with (INR n * s * u64); [nra|]. apply Rle_trans with (s * / 2 ^ 27); nra. } nra. }
  destruct (Nat.eq_dec k n) as [->|Hkn].
  - exfalso. pose proof (pow_lower n) as PL. assert (T - t <= s / 2). { assert (INR n * s * (1 - INR n * u64) <= t). { eapply Rle_trans; [|exact B]. apply Rmult_le_compat_l; [nra|lra]. } nra. }
    assert (binary64 (T - t) <= s) by (apply b64_le_double; auto; lra). lra.
  - destruct (IH (S i) t' ts' e' (S k) Hc L ltac:(lia)) as [I1 I2]; auto; try lia.
    rewrite A', Ed, S_INR. cbn [pow]. pose proof (pow_le1 k). assert (0 <= (1 - u64) ^ k) by (apply pow_le; lra). assert (s * (1 - u64) ^ k <= s) by nra.
    apply Rle_trans with ((t + s) * (1 - u64)); [|apply Rmult_le_compat_l; lra]. replace ((INR k + 1) * s * ((1 - u64) * (1 - u64) ^ k)) with ((INR k * s * (1 - u64) ^ k + s * (1 - u64) ^ k) * (1 - u64)) by ring. apply Rmult_le_compat_r; lra.
Qed.
End Fixed.
