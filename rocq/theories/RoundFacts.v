(** Facts about rounded sums and rounded moves of bins *)
From Coq Require Import Permutation.
From Verif Require Import Base TEUtils MathUtils Clock ClockFacts Rounding Spec_Math.
From Flocq Require Import Core.
From Flocq Require Import Relative Sterbenz Plus_error.
Open Scope R_scope.

#[local] Existing Instance prec53.
(** a and b agree up to k roundings *)
Definition near (k : nat) (a b : R) : Prop := a <= b * (1 + u64) ^ k /\ b <= a * (1 + u64) ^ k.

Lemma u64_val : u64 = / 9007199254740992.
Proof. unfold u64. rewrite (pow_IZR 2 53). reflexivity. Qed.
Lemma up_ge1 k : 1 <= (1 + u64) ^ k.
Proof. apply pow_R1_Rle. pose proof u64_pos. lra. Qed.
Lemma up_pos k : 0 < (1 + u64) ^ k.
Proof. pose proof (up_ge1 k). lra. Qed.
Lemma near_refl a : near 0 a a.
Proof. split; simpl; lra. Qed.
Lemma near_sym k a b : near k a b -> near k b a.
Proof. intros [A B]. split; auto. Qed.
Lemma near_trans k j a b c : near k a b -> near j b c -> near (k + j) a c.
Proof.
  intros [A B] [C D]. split; rewrite pow_add.
  - eapply Rle_trans; [exact A|]. replace (c * ((1 + u64) ^ k * (1 + u64) ^ j)) with (c * (1 + u64) ^ j * (1 + u64) ^ k) by ring.
    apply Rmult_le_compat_r; auto. left; apply up_pos.
  - eapply Rle_trans; [exact D|]. replace (a * ((1 + u64) ^ k * (1 + u64) ^ j)) with (a * (1 + u64) ^ k * (1 + u64) ^ j) by ring.
    apply Rmult_le_compat_r; auto. left; apply up_pos.
Qed.
Lemma near_nonneg k a b : near k a b -> 0 <= b -> 0 <= a.
Proof. intros [A B] H. pose proof (up_pos k). apply (Rmult_le_reg_r ((1 + u64) ^ k)); lra. Qed.
Lemma near_pos k a b : near k a b -> 0 < b -> 0 < a.
Proof. intros [A B] H. pose proof (up_pos k). apply (Rmult_lt_reg_r ((1 + u64) ^ k)); lra. Qed.
Lemma near_weak k j a b : (k <= j)%nat -> 0 <= b -> near k a b -> near j a b.
Proof.
  intros H Hb N. pose proof (near_nonneg _ _ _ N Hb) as Ha. destruct N as [A B].
  assert (E : (1 + u64) ^ k <= (1 + u64) ^ j) by (apply Rle_pow; auto; pose proof u64_pos; lra).
  split; [eapply Rle_trans; [exact A|]|eapply Rle_trans; [exact B|]]; apply Rmult_le_compat_l; auto.
Qed.
Lemma near_mult k j a b c d : 0 <= b -> 0 <= d -> near k a b -> near j c d -> near (k + j) (a * c) (b * d).
Proof.
  intros Hb Hd N M. pose proof (near_nonneg _ _ _ N Hb) as Ha. pose proof (near_nonneg _ _ _ M Hd) as Hc.
  destruct N as [A B], M as [C D]. split; rewrite pow_add.
  - replace (b * d * ((1 + u64) ^ k * (1 + u64) ^ j)) with (b * (1 + u64) ^ k * (d * (1 + u64) ^ j)) by ring. apply Rmult_le_compat; auto.
  - replace (a * c * ((1 + u64) ^ k * (1 + u64) ^ j)) with (a * (1 + u64) ^ k * (c * (1 + u64) ^ j)) by ring. apply Rmult_le_compat; auto.
Qed.
Lemma near_inv k a b : 0 < b -> near k a b -> near k (/ a) (/ b).
Proof.
  intros Hb N. pose proof (near_pos _ _ _ N Hb) as Ha. destruct N as [A B]. pose proof (up_pos k) as U.
  split; apply (Rmult_le_reg_r (a * b)); try (apply Rmult_lt_0_compat; auto).
  - replace (/ a * (a * b)) with b by (field; lra). replace (/ b * (1 + u64) ^ k * (a * b)) with (a * (1 + u64) ^ k) by (field; lra). auto.
  - replace (/ b * (a * b)) with a by (field; lra). replace (/ a * (1 + u64) ^ k * (a * b)) with (b * (1 + u64) ^ k) by (field; lra). auto.
Qed.
Lemma near_div k j a b c d : 0 <= b -> 0 < d -> near k a b -> near j c d -> near (k + j) (a / c) (b / d).
Proof. intros Hb Hd N M. apply near_mult; auto. { left. apply Rinv_0_lt_compat; auto. } apply near_inv; auto. Qed.
Lemma near_plus k a b c d : near k a b -> near k c d -> near k (a + c) (b + d).
Proof. intros [A B] [C D]. split; rewrite Rmult_plus_distr_r; lra. Qed.
Lemma near_scale k a b c : 0 <= c -> near k a b -> near k (c * a) (c * b).
Proof. intros H [A B]. split; rewrite Rmult_assoc; apply Rmult_le_compat_l; auto. Qed.

(** one rounding *)
Lemma eps_near x e : 0 <= x -> Rabs e <= u64 / (1 + u64) -> near 1 (x * (1 + e)) x.
Proof.
  intros Hx He. apply Rabs_le_inv in He. pose proof u64_pos as U.
  assert (E : u64 / (1 + u64) <= u64). { apply (Rmult_le_reg_r (1 + u64)); [lra|]. unfold Rdiv. rewrite Rmult_assoc, Rinv_l by lra. nra. }
  assert (F : (1 - u64 / (1 + u64)) * (1 + u64) = 1) by (field; lra).
  split; rewrite pow_1.
  - apply Rmult_le_compat_l; lra.
  - rewrite Rmult_assoc. rewrite <- (Rmult_1_r x) at 1. apply Rmult_le_compat_l; auto. apply Rle_trans with ((1 - u64 / (1 + u64)) * (1 + u64)); [lra|]. apply Rmult_le_compat_r; lra.
Qed.
Lemma fl_near x : bpow radix2 (-1022) <= x -> near 1 (binary64 x) x.
Proof.
  intros H. pose proof (bpow_gt_0 radix2 (-1022)) as P.
  destruct (relative_error_N_FLX'_ex radix2 53 prec53 (fun n => negb (Z.even n)) x) as (e & He & E).
  unfold binary64. rewrite round_FLT_FLX. 2: { rewrite Rabs_right by lra. exact H. }
  rewrite E. rewrite u_ro_64 in He. apply eps_near; auto. lra.
Qed.
Lemma fl_near_plus x y : is_double x -> is_double y -> 0 <= x + y -> near 1 (binary64 (x + y)) (x + y).
Proof.
  intros Hx Hy H. destruct (FLT_plus_error_N_ex radix2 (-1074) 53 (fun n => negb (Z.even n)) x y Hx Hy) as (e & He & E).
  unfold binary64. rewrite E. rewrite u_ro_64 in He. apply eps_near; auto.
Qed.
Lemma fl_near_minus x y : is_double x -> is_double y -> y <= x -> near 1 (binary64 (x - y)) (x - y).
Proof. intros Hx Hy H. apply fl_near_plus; auto; [apply generic_format_opp; auto|lra]. Qed.
Lemma fl_0 : binary64 0 = 0.
Proof. apply b64_id, double_0. Qed.

(** sums in any order *)
Fixpoint total (l : list R) : R := match l with [] => 0 | x :: l' => x + total l' end.
Lemma total_app a b : total (a ++ b) = total a + total b.
Proof. induction a as [|x a IH]; simpl; [lra|]. rewrite IH. lra. Qed.
Lemma total_perm a b : Permutation a b -> total a = total b.
Proof. induction 1; simpl; lra. Qed.
Lemma total_nonneg l : Forall (fun v => 0 <= v) l -> 0 <= total l.
Proof. induction 1; simpl; lra. Qed.
Lemma summed_near l s : summed binary64 l s -> Forall is_double l -> Forall (fun v => 0 <= v) l ->
  is_double s /\ near (length l - 1) s (total l).
Proof.
  intros H. induction H as [|x|l l1 l2 a b P S1 IH1 S2 IH2]; intros D N.
  - split; [apply double_0|apply near_refl].
  - inversion_clear D. split; auto. simpl. rewrite Rplus_0_r. apply near_refl.
  - assert (Q : forall Q : R -> Prop, Forall Q l -> Forall Q l1 /\ Forall Q l2). { intros Q F. apply Forall_app. eapply Permutation_Forall; eauto. }
    destruct (Q _ D) as [D1 D2]. destruct (Q _ N) as [N1 N2].
    destruct (IH1 D1 N1) as [A1 B1]. destruct (IH2 D2 N2) as [A2 B2]. split; [apply b64_double|].
    rewrite (total_perm _ _ P), total_app. apply Permutation_length in P. rewrite app_length in P.
    assert (T1 := total_nonneg _ N1). assert (T2 := total_nonneg _ N2).
    destruct l1 as [|x1 l1].
    { assert (a = 0) as ->. { destruct B1 as [B1 B1']. simpl in B1, B1'. lra. }
      rewrite Rplus_0_l. rewrite b64_id by auto. simpl total at 1. rewrite Rplus_0_l. replace (length l) with (length l2) by (simpl in P; auto). exact B2. }
    destruct l2 as [|x2 l2].
    { assert (b = 0) as ->. { destruct B2 as [B2 B2']. simpl in B2, B2'. lra. }
      rewrite Rplus_0_r. rewrite b64_id by auto. simpl (total []). rewrite Rplus_0_r. replace (length l) with (length (x1 :: l1)) by (simpl in *; lia). exact B1. }
    apply (near_weak _ (length l - 2)) in B1; auto; [|simpl in *; lia]. apply (near_weak _ (length l - 2)) in B2; auto; [|simpl in *; lia].
    replace (length l - 1)%nat with (1 + (length l - 2))%nat by (simpl in *; lia).
    apply near_trans with (a + b); [|apply near_plus; auto].
    apply fl_near_plus; auto. pose proof (near_nonneg _ _ _ B1 T1). pose proof (near_nonneg _ _ _ B2 T2). lra.
Qed.

(** a difference of two nearly equal numbers *)
Lemma diff_near a1 a2 b1 b2 B c K : 0 <= c -> 0 < B ->
  Rabs (a1 - b1) <= c * B -> Rabs (a2 - b2) <= c * B -> 0 < b2 - b1 ->
  2 * c * B <= (b2 - b1) / 1000 -> 2004 / 1000 * c * B <= INR K * u64 * (b2 - b1) -> near K (a2 - a1) (b2 - b1).
Proof.
  intros Hc HB H1 H2 Hb Hx HK. apply Rabs_le_inv in H1. apply Rabs_le_inv in H2.
  set (w := b2 - b1) in *. assert (D : w - 2 * c * B <= a2 - a1 <= w + 2 * c * B) by (unfold w; lra).
  assert (P : 1 + INR K * u64 <= (1 + u64) ^ K) by (apply poly; pose proof u64_pos; lra).
  assert (cB : 0 <= c * B) by (apply Rmult_le_pos; lra).
  split.
  - apply Rle_trans with (w * (1 + INR K * u64)); [|apply Rmult_le_compat_l; lra]. lra.
  - apply Rle_trans with ((w - 2 * c * B) * (1 + INR K * u64)).
    + set (k := INR K * u64) in *.
      assert (k0 : 0 <= k) by (unfold k; apply Rmult_le_pos; [apply pos_INR|pose proof u64_pos; lra]).
      assert (2 * c * B * k <= w / 1000 * k) by (apply Rmult_le_compat_r; auto). lra.
    + apply Rmult_le_compat; try lra. assert (0 <= INR K * u64) by (apply Rmult_le_pos; [apply pos_INR|pose proof u64_pos; lra]). lra.
Qed.
Lemma near_abs k c a b : 0 <= b -> near k a b -> (1 + u64) ^ k <= 1 + c -> Rabs (a - b) <= c * b.
Proof.
  intros Hb N Hc. pose proof (near_nonneg _ _ _ N Hb) as Ha. destruct N as [A B]. pose proof (up_ge1 k) as U. apply Rabs_le.
  assert (b * (1 + u64) ^ k <= b * (1 + c)) by (apply Rmult_le_compat_l; auto).
  split; [|lra]. assert (a * (1 + u64) ^ k <= a * (1 + c)) by (apply Rmult_le_compat_l; auto).
  destruct (Rle_or_lt a b); [|nra]. nra.
Qed.
