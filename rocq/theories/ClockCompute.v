(** Binary64 rounding computed with integers, for concrete runs of the clock *)
From Verif Require Import Base Clock ClockFacts.
From Flocq Require Import Core.
Open Scope R_scope.

(** n / d to the nearest integer, ties to even *)
Definition nearest (n d : Z) : Z :=
  let q := (n / d)%Z in
  match (2 * (n mod d) ?= d)%Z with Lt => q | Gt => (q + 1)%Z | Eq => if Z.even q then q else (q + 1)%Z end.
Lemma nearest_correct n d : (0 < d)%Z -> ZnearestE (IZR n / IZR d) = nearest n d.
Proof.
  intros Hd. assert (Hd' : 0 < IZR d) by (apply IZR_lt; auto). unfold nearest. set (q := (n / d)%Z).
  assert (E : n = (d * q + n mod d)%Z) by (apply Z.div_mod; lia). pose proof (Z.mod_pos_bound n d Hd) as [M1 M2]. set (m := (n mod d)%Z) in *.
  assert (V : IZR n / IZR d = IZR q + IZR m / IZR d). { rewrite E, plus_IZR, mult_IZR. field. lra. }
  assert (Hm : 0 <= IZR m / IZR d < 1). { split. { apply Rmult_le_pos; [apply IZR_le; auto|left; apply Rinv_0_lt_compat; auto]. } apply Rmult_lt_reg_r with (IZR d); auto. unfold Rdiv. rewrite Rmult_assoc, Rinv_l, Rmult_1_r, Rmult_1_l by lra. apply IZR_lt; auto. }
  assert (F : Zfloor (IZR n / IZR d) = q). { apply Zfloor_imp. rewrite V, plus_IZR. lra. }
  assert (X : IZR n / IZR d - IZR q = IZR m / IZR d) by lra.
  unfold Znearest. rewrite F, X.
  assert (C : Rcompare (IZR m / IZR d) (/ 2) = (2 * m ?= d)%Z).
  { rewrite <- (Rcompare_mult_r (2 * IZR d)) by lra. replace (IZR m / IZR d * (2 * IZR d)) with (IZR (2 * m)) by (rewrite mult_IZR; field; lra). replace (/ 2 * (2 * IZR d)) with (IZR d) by field. apply Rcompare_IZR. }
  rewrite C. destruct (2 * m ?= d)%Z eqn:K; auto.
  - apply Z.compare_eq in K. assert (m <> 0%Z) by lia. assert (Hc : Zceil (IZR n / IZR d) = (q + 1)%Z). { rewrite Zceil_floor_neq; [rewrite F; auto|]. rewrite F. intros Q. assert (IZR m / IZR d = 0) by lra. assert (0 < IZR m / IZR d); [|lra]. apply Rmult_lt_0_compat; [apply IZR_lt; lia|apply Rinv_0_lt_compat; auto]. }
    rewrite Hc. destruct (Z.even q); reflexivity.
  - assert (K' : (d < 2 * m)%Z) by (apply Z.compare_gt_iff in K; auto). rewrite Zceil_floor_neq; [rewrite F; auto|]. rewrite F. intros Q. assert (IZR m / IZR d = 0) by lra. assert (0 < IZR m / IZR d); [|lra]. apply Rmult_lt_0_compat; [apply IZR_lt; lia|apply Rinv_0_lt_compat; auto].
Qed.

(** rounding of n units *)
Definition units (n : Z) : Z := let k := (Z.log2 n - 52)%Z in if (k <=? 0)%Z then n else (nearest n (2 ^ k) * 2 ^ k)%Z.
Lemma units_correct n e : (0 <= n)%Z -> (-1074 <= e)%Z -> binary64 (IZR n * bpow radix2 e) = IZR (units n) * bpow radix2 e.
Proof.
  intros Hn He. unfold units. cbv zeta. destruct (Z.leb_spec (Z.log2 n - 52) 0) as [K|K].
  - apply b64_id. apply generic_format_FLT. exists (Float radix2 n e); auto. cbn [Fnum]. rewrite Z.abs_eq by auto. destruct (Z.eq_dec n 0) as [->|H0]; [reflexivity|].
    apply Z.lt_le_trans with (2 ^ (Z.succ (Z.log2 n)))%Z; [apply Z.log2_spec; lia|]. change (radix_val radix2) with 2%Z. apply Z.pow_le_mono_r; lia.
  - set (k := (Z.log2 n - 52)%Z) in *. assert (H0 : (0 < n)%Z). { destruct (Z.eq_dec n 0) as [E|E]; [|lia]. exfalso. unfold k in K. rewrite E in K. simpl in K. lia. }
    destruct (Z.log2_spec n H0) as [L1 L2].
    assert (M : mag radix2 (IZR n * bpow radix2 e) = (Z.log2 n + 1 + e)%Z :> Z).
    { apply mag_unique. rewrite Rabs_right by (apply Rle_ge, Rmult_le_pos; [apply IZR_le; auto|apply bpow_ge_0]).
      replace (Z.log2 n + 1 + e - 1)%Z with (Z.log2 n + e)%Z by lia. rewrite !(bpow_plus radix2 _ e). split.
      - apply Rmult_le_compat_r; [apply bpow_ge_0|]. rewrite <- IZR_Zpower by (apply Z.log2_nonneg). apply IZR_le. exact L1.
      - apply Rmult_lt_compat_r; [apply bpow_gt_0|]. rewrite <- IZR_Zpower by (pose proof (Z.log2_nonneg n); lia). apply IZR_lt. exact L2. }
    assert (C : cexp radix2 (FLT_exp (-1074) 53) (IZR n * bpow radix2 e) = (k + e)%Z). { unfold cexp. rewrite M. unfold FLT_exp, k. lia. }
    assert (P : (0 < 2 ^ k)%Z) by (apply Z.pow_pos_nonneg; lia).
    unfold binary64, round, scaled_mantissa, F2R. cbn [Fnum Fexp]. rewrite C.
    assert (S : IZR n * bpow radix2 e * bpow radix2 (- (k + e)) = IZR n / IZR (2 ^ k)).
    { rewrite Rmult_assoc, <- bpow_plus. replace (e + - (k + e))%Z with (- k)%Z by lia. rewrite bpow_opp. unfold Rdiv. f_equal. f_equal. symmetry. apply (IZR_Zpower radix2). lia. }
    rewrite S, nearest_correct by auto. rewrite bpow_plus, mult_IZR. rewrite <- (IZR_Zpower radix2 k) by lia. change (radix_val radix2) with 2%Z. ring.
Qed.

(** the clock in whole units *)
Section Z.
Variables (T : Z) (p : nat -> Z).
Definition zstep (i : nat) (t : Z) : Z := let left := units (T - t) in if (left <? p i)%Z then left else p i.
Fixpoint zticks (fuel i : nat) (t : Z) : list Z * bool :=
  if (t <? T)%Z then match fuel with O => ([], false) | S fuel' => let t' := units (t + zstep i t) in let (ts, e) := zticks fuel' (S i) t' in (t' :: ts, e) end else ([], true).
Variable e : Z.
Hypotheses (He : (-1074 <= e)%Z) (Hp : forall i, (0 < p i)%Z).
Let val (n : Z) : R := IZR n * bpow radix2 e.
Lemma val_lt a b : Rltb (val a) (val b) = (a <? b)%Z.
Proof.
  unfold val. destruct (Z.ltb_spec a b) as [H|H].
  - apply (proj2 (Rltb_true _ _)). apply Rmult_lt_compat_r; [apply bpow_gt_0|apply IZR_lt; auto].
  - apply (proj2 (Rltb_false _ _)). apply Rmult_le_compat_r; [apply bpow_ge_0|apply IZR_le; auto].
Qed.
Lemma units_nonneg n : (0 <= n)%Z -> (0 <= units n)%Z.
Proof.
  intros H. unfold units. cbv zeta. destruct (Z.leb_spec (Z.log2 n - 52) 0) as [K|K]; auto. assert (0 < 2 ^ (Z.log2 n - 52))%Z by (apply Z.pow_pos_nonneg; lia). apply Z.mul_nonneg_nonneg; [|lia].
  unfold nearest. cbv zeta. assert (0 <= n / 2 ^ (Z.log2 n - 52))%Z by (apply Z.div_pos; lia). destruct (_ ?= _)%Z; [destruct (Z.even _)| |]; lia.
Qed.
Lemma val_units n : (0 <= n)%Z -> binary64 (val n) = val (units n).
Proof. intros H. apply units_correct; auto. Qed.
Lemma val_plus a b : val (a + b) = val a + val b.
Proof. unfold val. rewrite plus_IZR. ring. Qed.
Lemma ticks_units fuel : forall i t, (0 <= t)%Z -> ticks binary64 (val T) (fun i => val (p i)) fuel i (val t) = (map val (fst (zticks fuel i t)), snd (zticks fuel i t)).
Proof.
  induction fuel as [|fuel IH]; intros i t Ht; cbn [ticks zticks]; rewrite val_lt; destruct (Z.ltb_spec t T) as [H|H]; auto.
  assert (E : tick binary64 (val T) (fun i => val (p i)) i (val t) = val (units (t + zstep i t))).
  { unfold tick, step_time. cbv zeta. replace (val T - val t) with (val (T - t)) by (unfold val; rewrite minus_IZR; ring). rewrite val_units by lia. rewrite val_lt. unfold zstep. cbv zeta.
    pose proof (units_nonneg (T - t) ltac:(lia)). pose proof (Hp i).
    destruct (units (T - t) <? p i)%Z; rewrite <- val_plus, val_units by lia; reflexivity. }
  rewrite E. assert (0 <= units (t + zstep i t))%Z. { apply units_nonneg. unfold zstep. cbv zeta. pose proof (units_nonneg (T - t) ltac:(lia)). pose proof (Hp i). destruct (_ <? _)%Z; lia. }
  rewrite IH by auto. destruct (zticks fuel (S i) (units (t + zstep i t))) as [ts b]. reflexivity.
Qed.
End Z.
