(** C105: the integral of np.trapz in floating point arithmetic *)
From Coq Require Import Permutation.
From Verif Require Import Base TEUtils MathUtils Clock ClockFacts Rounding RoundFacts Spec_Math Spec_Round.
From Flocq Require Import Core.
Import ListNotations.
Open Scope list_scope.
Open Scope R_scope.

Lemma within_near k a b : within k a b <-> near k a b.
Proof.
  unfold within, near. fold u64. pose proof (up_pos k) as U. split; intros [A B]; split; auto.
  - apply (Rmult_le_reg_r (/ (1 + u64) ^ k)); [apply Rinv_0_lt_compat; auto|]. rewrite Rmult_assoc, Rinv_r, Rmult_1_r by lra. exact A.
  - apply (Rmult_le_reg_r ((1 + u64) ^ k)); auto. unfold Rdiv. rewrite Rmult_assoc, Rinv_l, Rmult_1_r by lra. exact B.
Qed.
Lemma double_is x : double x <-> is_double x.
Proof.
  split.
  - intros (m & e & M & E & ->). apply generic_format_FLT. exists (Float radix2 m e); auto. unfold F2R. cbn [Fnum Fexp]. rewrite bpow_powerRZ. reflexivity.
  - intros H. apply FLT_format_generic in H; [|exact prec53]. destruct H as [[m e] E M F]. cbn [Fnum Fexp] in *. exists m, e. split; auto. split; auto.
    rewrite E. unfold F2R. cbn [Fnum Fexp]. rewrite bpow_powerRZ. reflexivity.
Qed.

(** with exact arithmetic every order of summation gives the integral of MathUtils.v *)
Lemma terms_exact y : forall x, total (trapz_terms (fun v => v) y x) = trapz y x.
Proof.
  induction y as [|y0 y IH]; intros [|x0 x]; try reflexivity. cbn [trapz_terms trapz]. destruct y as [|y1 y], x as [|x1 x]; try reflexivity.
  cbn [total]. rewrite IH. lra.
Qed.
Theorem C105_model : forall y x s, summed (fun v => v) (trapz_terms (fun v => v) y x) s -> s = trapz y x.
Proof.
  intros y x s H. rewrite <- terms_exact. induction H as [|v|l l1 l2 a b P S1 IH1 S2 IH2]; simpl; try lra.
  rewrite (total_perm _ _ P), total_app. lra.
Qed.
Print Assumptions C105_model.

Section Terms.
Variable k : nat.
Lemma term_near x0 x1 y0 y1 z0 z1 : is_double x0 -> is_double x1 -> is_double y0 -> is_double y1 -> x0 <= x1 ->
  0 <= y0 -> 0 <= y1 -> 0 <= z0 -> 0 <= z1 -> near k y0 z0 -> near k y1 z1 -> (x1 - x0) * (y0 + y1) = 0 \/ / 2 ^ 1000 <= (x1 - x0) * (y0 + y1) ->
  near (k + 4) (binary64 (binary64 (binary64 (x1 - x0) * binary64 (y1 + y0)) / 2)) ((x1 - x0) * (z0 + z1) / 2).
Proof.
  intros X0 X1 Y0 Y1 X y0p y1p z0p z1p N0 N1 U.
  pose proof (fl_near_minus _ _ X1 X0 X) as D. pose proof (fl_near_plus _ _ Y1 Y0 ltac:(lra)) as S.
  set (d := binary64 (x1 - x0)) in *. set (s := binary64 (y1 + y0)) in *.
  assert (P : near 2 (d * s) ((x1 - x0) * (y1 + y0))) by (apply (near_mult 1 1); auto; lra).
  assert (Z : near k ((x1 - x0) * (y1 + y0)) ((x1 - x0) * (z0 + z1))).
  { apply near_scale; [lra|]. rewrite (Rplus_comm z0). apply near_plus; auto. }
  assert (Zn : 0 <= (x1 - x0) * (z0 + z1)) by (apply Rmult_le_pos; lra).
  destruct U as [U|U].
  - assert (E : d * s = 0). { destruct P as [P P']. rewrite (Rplus_comm y1), U in P, P'. pose proof (up_pos 2). apply Rle_antisym; [lra|]. apply (Rmult_le_reg_r ((1 + u64) ^ 2)); lra. }
    rewrite E, fl_0. replace (0 / 2) with 0 by lra. rewrite fl_0. rewrite (Rplus_comm y1), U in Z.
    assert (E' : (x1 - x0) * (z0 + z1) = 0). { destruct Z as [_ Z]. lra. } rewrite E'. split; lra.
  - assert (T : bpow radix2 (-1000) = / 2 ^ 1000). { rewrite bpow_powerRZ. reflexivity. }
    assert (B : bpow radix2 (-1002) <= d * s).
    { destruct P as [_ P]. apply (Rmult_le_reg_r ((1 + u64) ^ 2)); [apply up_pos|]. eapply Rle_trans; [|exact P]. rewrite (Rplus_comm y1).
      eapply Rle_trans; [|exact U]. rewrite <- T. change (-1000)%Z with (2 + -1002)%Z. rewrite bpow_plus. change (bpow radix2 2) with 4. rewrite Rmult_comm.
      apply Rmult_le_compat_r; [left; apply bpow_gt_0|]. pose proof u64_small. nra. }
    pose proof (bpow_le radix2 (-1022) (-1002) ltac:(lia)) as L. pose proof (bpow_gt_0 radix2 (-1002)) as L'.
    assert (P3 : near 1 (binary64 (d * s)) (d * s)) by (apply fl_near; lra).
    set (q := binary64 (d * s)) in *.
    assert (B2 : bpow radix2 (-1022) <= q / 2).
    { destruct P3 as [_ P3]. rewrite pow_1 in P3. pose proof u64_small. apply Rle_trans with (bpow radix2 (-1004)); [apply bpow_le; lia|].
      assert (bpow radix2 (-1002) = 4 * bpow radix2 (-1004)) by (change (-1002)%Z with (2 + -1004)%Z; rewrite bpow_plus; reflexivity).
      pose proof (bpow_gt_0 radix2 (-1004)). nra. }
    replace (k + 4)%nat with (1 + (1 + (2 + k)))%nat by lia.
    apply near_trans with (q / 2); [apply fl_near; auto|].
    unfold Rdiv. rewrite (Rmult_comm q), (Rmult_comm _ (/ 2)). apply near_scale; [lra|].
    apply near_trans with (d * s); auto. apply near_trans with ((x1 - x0) * (y1 + y0)); auto.
Qed.
End Terms.

Lemma interval_S x y x0 x1 y0 y1 a b : interval x y x0 x1 y0 y1 -> interval (a :: x) (b :: y) x0 x1 y0 y1.
Proof. intros (i & H). exists (S i). exact H. Qed.
Lemma terms_near k : forall x y z, length y = length x -> Forall double x -> Forall double y ->
  (forall a b, neighbours x a b -> a <= b) -> Forall (fun v => 0 <= v) y -> Forall (fun v => 0 <= v) z -> Forall2 (near k) y z ->
  (forall x0 x1 y0 y1, interval x y x0 x1 y0 y1 -> (x1 - x0) * (y0 + y1) = 0 \/ / 2 ^ 1000 <= (x1 - x0) * (y0 + y1)) ->
  near (k + 4) (total (trapz_terms binary64 y x)) (trapz z x) /\ Forall is_double (trapz_terms binary64 y x) /\
  Forall (fun v => 0 <= v) (trapz_terms binary64 y x) /\ length (trapz_terms binary64 y x) = (length x - 1)%nat /\ 0 <= trapz z x.
Proof.
  assert (Z0 : forall j, near j 0 0) by (intros j; split; lra).
  induction x as [|x0 x IH]; intros y z L X Y I P Q N U.
  { destruct y; [|discriminate]. inversion N; subst. cbn [trapz_terms trapz total]. repeat split; auto; simpl; try lra; apply Z0. }
  destruct y as [|y0 y]; [discriminate|]. inversion N as [|? z0 ? z' N0 N']; subst. rename z' into z.
  destruct x as [|x1 x].
  { destruct y; [|discriminate]. inversion N'; subst. cbn [trapz_terms trapz total length]. repeat split; auto; try lra; try apply Z0. }
  destruct y as [|y1 y]; [discriminate|]. inversion N' as [|? z1 ? z' N1 N'']; subst. rename z' into z.
  inversion_clear X as [|? ? X0 X']. inversion_clear X' as [|? ? X1 X'']. inversion_clear Y as [|? ? Y0 Y']. inversion_clear Y' as [|? ? Y1 Y''].
  inversion_clear P as [|? ? P0 P']. inversion_clear P' as [|? ? P1 P'']. inversion_clear Q as [|? ? Q0 Q']. inversion_clear Q' as [|? ? Q1 Q''].
  assert (H01 : x0 <= x1) by (apply I; exists O; auto).
  destruct (IH (y1 :: y) (z1 :: z)) as (A & B & C & D & E); auto.
  { intros a b (i & Hi). apply I. exists (S i). exact Hi. }
  { intros a b c d Hi. apply U. apply interval_S. auto. }
  pose proof (term_near k x0 x1 y0 y1 z0 z1) as T. rewrite double_is in X0, X1, Y0, Y1. specialize (T X0 X1 Y0 Y1 H01 P0 P1 Q0 Q1 N0 N1).
  assert (T' : near (k + 4) (binary64 (binary64 (binary64 (x1 - x0) * binary64 (y1 + y0)) / 2)) ((x1 - x0) * (z0 + z1) / 2)).
  { apply T. apply U. exists O. repeat split; auto. } clear T.
  assert (Zt : 0 <= (x1 - x0) * (z0 + z1) / 2). { apply Rmult_le_pos; [|lra]. apply Rmult_le_pos; lra. }
  change (trapz_terms binary64 (y0 :: y1 :: y) (x0 :: x1 :: x)) with
    (binary64 (binary64 (binary64 (x1 - x0) * binary64 (y1 + y0)) / 2) :: trapz_terms binary64 (y1 :: y) (x1 :: x)).
  change (trapz (z0 :: z1 :: z) (x0 :: x1 :: x)) with ((x1 - x0) * (z0 + z1) / 2 + trapz (z1 :: z) (x1 :: x)).
  split; [|split; [|split; [|split]]].
  - cbn [total]. apply near_plus; auto.
  - constructor; auto. apply b64_double.
  - constructor; auto. apply (near_nonneg _ _ _ T'). auto.
  - cbn [length]. rewrite D. simpl. lia.
  - lra.
Qed.

(** the values y may themselves be off by j roundings from the true z *)
Theorem C105_integral : forall j x y z s, length y = length x -> Forall double x -> Forall double y ->
  (forall a b, neighbours x a b -> a <= b) -> Forall (fun v => 0 <= v) z -> Forall2 (within j) y z ->
  (forall x0 x1 y0 y1, interval x y x0 x1 y0 y1 -> (x1 - x0) * (y0 + y1) = 0 \/ / 2 ^ 1000 <= (x1 - x0) * (y0 + y1)) ->
  summed binary64 (trapz_terms binary64 y x) s -> double s /\ within (j + length x + 2) s (trapz z x).
Proof.
  intros j x y z s L X Y I Q N U S.
  assert (N' : Forall2 (near j) y z). { clear -N. induction N; constructor; auto. apply within_near; auto. }
  assert (P : Forall (fun v => 0 <= v) y). { clear -N' Q. induction N'; inversion_clear Q; constructor; auto. eapply near_nonneg; eauto. }
  destruct (terms_near j x y z L X Y I P Q N' U) as (A & B & C & D & E).
  destruct (summed_near _ _ S B C) as [F G]. split; [apply double_is; auto|]. apply within_near.
  destruct (trapz_terms binary64 y x) as [|t ts] eqn:W.
  { assert (s = 0) as -> by (destruct G as [G G']; simpl in G, G'; lra). assert (trapz z x = 0) as -> by (destruct A as [_ A]; simpl in A; lra). split; lra. }
  rewrite <- W in *. assert (K : (0 < length (trapz_terms binary64 y x))%nat) by (rewrite W; simpl; lia).
  replace (j + length x + 2)%nat with (length (trapz_terms binary64 y x) - 1 + (j + 4))%nat by lia.
  apply near_trans with (total (trapz_terms binary64 y x)); auto.
Qed.
Print Assumptions C105_integral.

(** the integral over one variable of an integral over another, e.g. over the
    azimuth and the cosine: [Y] has a row of values for each point of [phi] *)
Theorem C105_repeated : forall j mu phi Y Z rows s, Forall double mu -> Forall double phi ->
  (forall a b, neighbours mu a b -> a <= b) -> (forall a b, neighbours phi a b -> a <= b) ->
  length Y = length phi -> Forall (fun y => length y = length mu /\ Forall double y) Y -> Forall (Forall (fun v => 0 <= v)) Z ->
  Forall2 (Forall2 (within j)) Y Z ->
  (forall y, In y Y -> forall x0 x1 y0 y1, interval mu y x0 x1 y0 y1 -> (x1 - x0) * (y0 + y1) = 0 \/ / 2 ^ 1000 <= (x1 - x0) * (y0 + y1)) ->
  (forall x0 x1 y0 y1, interval phi rows x0 x1 y0 y1 -> (x1 - x0) * (y0 + y1) = 0 \/ / 2 ^ 1000 <= (x1 - x0) * (y0 + y1)) ->
  Forall2 (fun y r => summed binary64 (trapz_terms binary64 y mu) r) Y rows ->
  summed binary64 (trapz_terms binary64 rows phi) s ->
  within (j + length mu + length phi + 4) s (trapz (map (fun z => trapz z mu) Z) phi).
Proof.
  intros j mu phi Y Z rows s M P IM IP L D Q N U V HR HS.
  assert (W : Forall double rows /\ Forall2 (within (j + length mu + 2)) rows (map (fun z => trapz z mu) Z) /\ Forall (fun v => 0 <= v) (map (fun z => trapz z mu) Z)).
  { clear HS V L IP P. revert rows HR. induction N as [|y z Y Z N0 N IH]; intros rows HR; inversion HR as [|? r ? rows' R0 R']; subst.
    - repeat split; constructor.
    - inversion_clear D as [|? ? [D0 D1] D2]. inversion_clear Q as [|? ? Q0 Q1].
      destruct (IH D2 Q1 (fun y' H => U y' (or_intror H)) rows' R') as (A & B & C).
      destruct (C105_integral j mu y z r D0 M D1 IM Q0 N0 (U y (or_introl eq_refl)) R0) as [E F].
      repeat split; simpl; constructor; auto.
      assert (NN : Forall2 (near j) y z). { clear -N0. induction N0; constructor; auto. apply within_near; auto. }
      assert (PP : Forall (fun v => 0 <= v) y). { clear -NN Q0. induction NN; inversion_clear Q0; constructor; auto. eapply near_nonneg; eauto. }
      destruct (terms_near j mu y z D0 M D1 IM PP Q0 NN (U y (or_introl eq_refl))) as (_ & _ & _ & _ & G). exact G. }
  destruct W as (A & B & C).
  replace (j + length mu + length phi + 4)%nat with (j + length mu + 2 + length phi + 2)%nat by lia.
  apply (C105_integral (j + length mu + 2) phi rows _ s); auto.
  rewrite <- L. clear -HR. induction HR; simpl; auto.
Qed.
Print Assumptions C105_repeated.

(** what this is for the sizes in use: k roundings are a relative error of at
    most 1.2 10^-16 k, up to k = 10^12 *)
Theorem C105_size : forall k a b, (INR k <= 10 ^ 12) -> 0 <= b -> within k a b -> Rabs (a - b) <= 12 / 10 ^ 17 * INR k * b.
Proof.
  intros k a b K B N. apply within_near in N. apply (near_abs k); auto.
  assert (H : forall n : nat, INR n * u64 <= 1 / 200 -> (1 + u64) ^ n <= 1 + (101 / 100) * (INR n * u64)).
  { induction n as [|n IH]; [simpl; lra|]. intros H. rewrite S_INR in *. pose proof u64_pos as U. pose proof (pos_INR n) as I.
    assert (I' : 0 <= INR n * u64) by (apply Rmult_le_pos; lra). simpl pow. specialize (IH ltac:(lra)).
    apply Rle_trans with ((1 + u64) * (1 + 101 / 100 * (INR n * u64))); [apply Rmult_le_compat_l; lra|]. replace ((INR n + 1) * u64) with (INR n * u64 + u64) in * by ring. set (v := INR n * u64) in *. assert (u64 * v <= u64 * (1 / 200)) by (apply Rmult_le_compat_l; lra). lra. }
  assert (V : INR k * u64 <= 1 / 200).
  { rewrite u64_val. apply Rle_trans with (1000000000000 * / 9007199254740992); [apply Rmult_le_compat_r; [lra|]|lra]. eapply Rle_trans; [exact K|]. right. rewrite (pow_IZR 10 12). reflexivity. }
  eapply Rle_trans; [apply H; auto|]. replace (12 / 10 ^ 17) with (12 / 100000000000000000). 2: { rewrite (pow_IZR 10 17). reflexivity. }
  rewrite u64_val. pose proof (pos_INR k). lra.
Qed.
Print Assumptions C105_size.

(** a concrete integral: two intervals, in either order of summation *)
Example C105_case :
  let x := [1; 2; 4] in let y := [3; 5; 1] in
  Forall double x /\ Forall double y /\ (forall a b, neighbours x a b -> a <= b) /\
  (forall x0 x1 y0 y1, interval x y x0 x1 y0 y1 -> (x1 - x0) * (y0 + y1) = 0 \/ / 2 ^ 1000 <= (x1 - x0) * (y0 + y1)) /\
  trapz y x = 10 /\ exists s, summed binary64 (trapz_terms binary64 y x) s /\ within 5 s 10.
Proof.
  assert (D : forall n : Z, (Z.abs n < 2 ^ 53)%Z -> double (IZR n)). { intros n H. exists n, 0%Z. split; auto. split; [lia|]. simpl. ring. }
  assert (small : / 2 ^ 1000 <= 1). { apply Rle_trans with (/ 1); [|lra]. apply Rinv_le_contravar; [lra|]. apply pow_R1_Rle. lra. }
  cbv zeta. assert (X : Forall double [1; 2; 4]) by (repeat constructor; apply D; lia). assert (Y : Forall double [3; 5; 1]) by (repeat constructor; apply D; lia).
  assert (I : forall a b, neighbours [1; 2; 4] a b -> a <= b).
  { intros a b (i & A & B). destruct i as [|[|[|i]]]; simpl in A, B; try discriminate; injection A as <-; injection B as <-; lra. }
  assert (U : forall x0 x1 y0 y1, interval [1; 2; 4] [3; 5; 1] x0 x1 y0 y1 -> (x1 - x0) * (y0 + y1) = 0 \/ / 2 ^ 1000 <= (x1 - x0) * (y0 + y1)).
  { intros x0 x1 y0 y1 (i & A & B & C & E). right. destruct i as [|[|[|i]]]; simpl in A, B, C, E; try discriminate;
      injection A as <-; injection B as <-; injection C as <-; injection E as <-; lra. }
  repeat (split; [auto; try (simpl; lra)|]).
  assert (S : exists s, summed binary64 (trapz_terms binary64 [3; 5; 1] [1; 2; 4]) s).
  { eexists. eapply (sum_more _ _ (_ :: nil) (_ :: nil)); [apply perm_swap|apply sum_one|apply sum_one]. }
  destruct S as [s S]. exists s. split; auto. replace 10 with (trapz [3; 5; 1] [1; 2; 4]) by (simpl; lra).
  apply (C105_integral 0 [1; 2; 4] [3; 5; 1] [3; 5; 1] s); auto.
  - repeat constructor; lra.
  - repeat (apply Forall2_cons; [apply within_near; apply near_refl|]). apply Forall2_nil.
Qed.
