(** C100: the clock of a run in floating point arithmetic *)
From Coq Require Import Sorting.Sorted.
From Flocq Require Import Core.
From Verif Require Import Base TEUtils TimeEvolution Spec_TE NumpyInst TEExamples TEThm1 TELoopFacts TEInitFacts Clock ClockFacts ClockCompute.
Open Scope R_scope.

(** *** with exact numbers this is the clock of the time evolution *)
Lemma ticks_ext rnd T p q fuel : forall i t, (forall j, (i <= j)%nat -> p j = q j) -> ticks rnd T p fuel i t = ticks rnd T q fuel i t.
Proof.
  induction fuel as [|fuel IH]; intros i t H; cbn [ticks]; [reflexivity|]. destruct (Rltb t T); auto.
  assert (E : tick rnd T p i t = tick rnd T q i t) by (unfold tick, step_time; rewrite (H i) by lia; reflexivity). rewrite E, (IH (S i) _); [reflexivity|]. intros j Hj. apply H. lia.
Qed.
Section Run.
Variables (np : numpy) (c : cfg).
Lemma loop_ticks fuel : forall i s ne ne' tr sf, loop np c fuel s ne = (ne', tr, Ok sf) ->
  exists p, (forall st, stepd c = Fixed st -> forall j, p j = st) /\ ticks (fun x => x) (total c) p fuel i (st_elapsed s) = (map st_elapsed tr, true).
Proof.
  assert (P0 : exists p : nat -> R, forall st, stepd c = Fixed st -> forall j, p j = st).
  { exists (fun _ => match stepd c with Fixed st => st | Auto => 0 end). intros st ->. reflexivity. }
  induction fuel as [|fuel IH]; intros i s ne ne' tr sf H; cbn [loop ticks] in *.
  - destruct (Rltb (st_elapsed s) (total c)); [discriminate|]. injection H as <- <- <-. destruct P0 as [p Hp]. exists p. auto.
  - destruct (Rltb (st_elapsed s) (total c)). 2: { injection H as <- <- <-. destruct P0 as [p Hp]. exists p. auto. }
    destruct (step np c s ne) as [ne1 [s1|e]] eqn:Es; [|discriminate].
    destruct (loop np c fuel s1 ne1) as [[ne2 tr2] r2] eqn:El. injection H as <- <- ->.
    destruct (IH (S i) s1 ne1 ne2 tr2 sf El) as (p & Hp & E).
    apply step_Ok in Es as (eng & inj & left0 & t & b & n & sg & m & left' & mask & pen & pab & prel & Hc & _ & _ & _ & _ & _ & _ & _ & _ & _ & Ht & _).
    assert (Q : exists q, (forall st, stepd c = Fixed st -> q = st) /\ t = if Rltb (total c - st_elapsed s) q then total c - st_elapsed s else q).
    { apply choose_step_Ok in Hc as (ken & krel & kabs & dr & step0 & _ & _ & _ & Hc). cbv zeta in Hc. destruct Hc as (_ & _ & _ & Hd & Hs).
      exists (match step0 with None => total c - st_elapsed s | Some q => q end). split.
      - intros st Hst. rewrite Hst in Hd. destruct Hd as [_ ->]. reflexivity.
      - destruct step0 as [q|]; auto. destruct (Rltb (total c - st_elapsed s) (total c - st_elapsed s)); auto. }
    destruct Q as (q & Hq & Et). exists (fun j => if Nat.eqb j i then q else p j). split.
    { intros st Hst j. destruct (Nat.eqb j i); [apply Hq|apply Hp]; auto. }
    assert (K : tick (fun x => x) (total c) (fun j => if Nat.eqb j i then q else p j) i (st_elapsed s) = st_elapsed s1).
    { unfold tick, step_time. rewrite Nat.eqb_refl. rewrite Ht, Et. reflexivity. }
    rewrite K. rewrite (ticks_ext _ _ _ p). 2: { intros j Hj. destruct (Nat.eqb_spec j i); [lia|reflexivity]. } rewrite E. reflexivity.
Qed.

Theorem C100_model fuel ne ne' recs r : evaluate np c fuel ne = (ne', recs, Ok r) ->
  exists proposed, (forall s, stepd c = Fixed s -> forall i, proposed i = s) /\
    clock (fun x => x) (total c) proposed fuel = (map r_time recs, true).
Proof.
  unfold evaluate. destruct (initial_values np c ne) as [s|e] eqn:Ei; [|discriminate].
  destruct (loop np c fuel s ne) as [[ne2 tr2] r2] eqn:El. intros E. injection E as <- <- E. destruct r2 as [sf|e]; [|discriminate].
  assert (H0 : st_elapsed s = 0). { apply (initial_Ok np c) in Ei. destruct Ei as (sg & _ & Ei). destruct (dist_call np ne (g0 c)). tauto. }
  destruct (loop_ticks fuel 0 s ne ne2 tr2 sf El) as (p & Hp & Ht). exists p. split; auto. unfold clock. rewrite <- H0 at 1. rewrite Ht. rewrite map_map. reflexivity.
Qed.
End Run.
Print Assumptions C100_model.

(** *** a fixed step: never beyond the total, and exactly the total at the end *)
Section Fixed.
Variables (T s : R).
Hypotheses (HT : is_double T) (T0 : 0 < T) (Hs : is_double s) (s0 : 0 < s).
Lemma clocked_0 : clocked T s 0.
Proof. unfold clocked. split; [apply double_0|]. split; [lra|auto]. Qed.

Theorem C100_fixed fuel ts e : clock binary64 T (fun _ => s) fuel = (ts, e) ->
  Sorted Rle (0 :: ts) /\ (forall t, In t ts -> 0 <= t <= T) /\
  (e = true -> (exists before, ts = before ++ [T] /\ forall t, In t before -> t < T) /\
               T <= INR (length ts) * s * (1 + / 2 ^ 53) ^ length ts).
Proof.
  intros E. unfold clock in E. destruct (ticks_fixed T s HT T0 Hs s0 fuel 0 0 ts e clocked_0 T0 E) as (A & B & C). split; auto. split; auto.
  intros ->. split; [auto|]. apply (ticks_upper T s HT T0 Hs s0 fuel 0 0 ts 0 clocked_0 T0); auto. simpl. lra.
Qed.

(** *** the number of passes *)
Theorem C100_passes n : T <= INR n * s -> (n <= 2 ^ 26)%nat -> forall more, exists ts,
  clock binary64 T (fun _ => s) (S n + more) = (ts, true) /\ increasing (0 :: ts) /\ (length ts <= S n)%nat.
Proof.
  intros Hn N26. assert (N : INR n <= 2 ^ 26). { apply le_INR in N26. rewrite pow_INR in N26. simpl (INR 2) in N26. exact N26. }
  assert (L : forall fuel i t ts e, ticks binary64 T (fun _ => s) fuel i t = (ts, e) -> (length ts <= fuel)%nat).
  { induction fuel as [|fuel IH]; intros i t ts e E; cbn [ticks] in E; destruct (Rltb t T); try (injection E as <- _; simpl; lia).
    destruct (ticks binary64 T (fun _ => s) fuel (S i) _) as [ts' e'] eqn:E'. injection E as <- _. apply IH in E'. simpl. lia. }
  assert (M : forall more fuel i t ts, ticks binary64 T (fun _ => s) fuel i t = (ts, true) -> ticks binary64 T (fun _ => s) (fuel + more) i t = (ts, true)).
  { intros more. induction fuel as [|fuel IH]; intros i t ts E; cbn [ticks Nat.add] in *.
    - destruct (Rltb t T) eqn:B; [discriminate|]. destruct more; cbn [ticks]; rewrite B; auto.
    - destruct (Rltb t T); auto. destruct (ticks binary64 T (fun _ => s) fuel (S i) _) as [ts' e'] eqn:E'. injection E as <- ->. rewrite (IH _ _ _ E'). reflexivity. }
  intros more. unfold clock. destruct (ticks binary64 T (fun _ => s) (S n) 0 0) as [ts e] eqn:E.
  destruct (ticks_lower T s HT T0 Hs s0 n (S n) Hn N 0 0 ts e 0 clocked_0 T0) as [-> I]; auto; try lia; [simpl; lra|].
  exists ts. split; [apply M; auto|]. split; auto. apply (L _ _ _ _ _ E).
Qed.
End Fixed.
Print Assumptions C100_fixed.
Print Assumptions C100_passes.

(** *** any steps: no further than the next double above the total *)
Theorem C100_any T proposed fuel ts e : is_double T -> 0 < T -> (forall i, 0 < proposed i) -> clock binary64 T proposed fuel = (ts, e) ->
  (forall t above, In t ts -> is_double above -> T < above -> t <= above) /\
  (e = true -> exists before l, ts = before ++ [l] /\ T <= l).
Proof.
  intros HT T0 Hp E. destruct (ticks_any T proposed HT T0 Hp fuel 0 0 ts e double_0 (Rle_refl 0) T0 E) as [A B].
  split; [|exact B]. intros t y Ht Hy Hty. exact (A t y Hy Hty Ht).
Qed.
Print Assumptions C100_any.

(** *** concrete runs *)
Lemma units_double n e : (Z.abs n < 2 ^ 53)%Z -> (-1074 <= e)%Z -> is_double (IZR n * bpow radix2 e).
Proof. intros H He. apply generic_format_FLT. exists (Float radix2 n e); auto. Qed.
Lemma unit_1 n : IZR n * bpow radix2 0 = IZR n.
Proof. cbn [bpow]. ring. Qed.

(** 0.1, as a program reads it *)
Lemma tenth : binary64 (1 / 10) = IZR 3602879701896397 * bpow radix2 (-55).
Proof.
  assert (M : mag radix2 (1 / 10) = (-3)%Z :> Z). { apply mag_unique. rewrite Rabs_right by lra. cbn. lra. }
  assert (C : cexp radix2 (FLT_exp (-1074) 53) (1 / 10) = (-56)%Z). { unfold cexp. rewrite M. reflexivity. }
  unfold binary64, round, scaled_mantissa, F2R. cbn [Fnum Fexp]. rewrite C. change (- -56)%Z with 56%Z.
  assert (B : bpow radix2 56 = 72057594037927936) by reflexivity. rewrite B.
  replace (1 / 10 * 72057594037927936) with (IZR 72057594037927936 / IZR 10) by lra. rewrite nearest_correct by lia.
  replace (nearest 72057594037927936 10) with (2 * 3602879701896397)%Z by reflexivity. rewrite mult_IZR.
  replace (bpow radix2 (-55)) with (2 * bpow radix2 (-56)). 2: { change (-55)%Z with (1 + -56)%Z. rewrite bpow_plus. reflexivity. } ring.
Qed.

Lemma unit_55 : IZR (2 ^ 55) * bpow radix2 (-55) = 1.
Proof. cbn [bpow]. rewrite <- (Rinv_r (IZR (2 ^ 55))) by (apply not_0_IZR; discriminate). reflexivity. Qed.
Lemma clock_units T p e fuel zs b : (-1074 <= e)%Z -> (forall i, (0 < p i)%Z) -> zticks T p fuel 0 0 = (zs, b) ->
  clock binary64 (IZR T * bpow radix2 e) (fun i => IZR (p i) * bpow radix2 e) fuel = (map (fun n => IZR n * bpow radix2 e) zs, b).
Proof.
  intros He Hp E. unfold clock. pose proof (ticks_units T p e He Hp fuel 0 0 (Z.le_refl 0)) as H. cbv zeta beta in H; rewrite Rmult_0_l in H. rewrite H, E. reflexivity.
Qed.

(** one second in steps of 0.1 s takes eleven passes, the tenth ends at 0.9999999999999999 s *)
Theorem C100_extra_pass :
  snd (clock binary64 1 (fun _ => binary64 (1 / 10)) 10) = false /\
  exists ts, clock binary64 1 (fun _ => binary64 (1 / 10)) 11 = (ts, true) /\ length ts = 11%nat /\ nth 9 ts 0 = 1 - / 2 ^ 53 /\ nth 10 ts 0 = 1.
Proof.
  rewrite tenth, <- unit_55. split.
  - erewrite (clock_units (2 ^ 55) (fun _ => 3602879701896397%Z)); [reflexivity|lia|intros; lia|vm_compute; reflexivity].
  - eexists. split; [apply (clock_units (2 ^ 55) (fun _ => 3602879701896397%Z)); [lia|intros; lia|vm_compute; reflexivity]|].
    cbn [map nth length]. split; [reflexivity|]. split; [|reflexivity].
    assert (B : bpow radix2 (-55) = / 2 ^ 55). { rewrite bpow_powerRZ. reflexivity. } rewrite B.
    replace (/ 2 ^ 53) with (4 * / 2 ^ 55) by (simpl; field). change (2 ^ 55)%Z with 36028797018963968%Z. replace 36028797018963964 with (36028797018963968 - 4) by (rewrite <- minus_IZR; reflexivity). ring.
Qed.
Print Assumptions C100_extra_pass.

(** a run whose steps are not fixed can end beyond its total *)
Theorem C100_beyond : exists T proposed ts,
  is_double T /\ 0 < T /\ (forall i, is_double (proposed i) /\ 0 < proposed i) /\
  clock binary64 T proposed 2 = (ts, true) /\ T < nth 1 ts 0.
Proof.
  exists (IZR 13510798882111490 * bpow radix2 (-53)), (fun i => IZR (if Nat.eqb i 0 then 3 else 13510798882111488) * bpow radix2 (-53)). eexists.
  split. { replace (IZR 13510798882111490 * bpow radix2 (-53)) with (IZR 6755399441055745 * bpow radix2 (-52)). { apply units_double; lia. } change (-52)%Z with (1 + -53)%Z. rewrite bpow_plus. change 13510798882111490%Z with (6755399441055745 * 2)%Z. rewrite mult_IZR. change (bpow radix2 1) with 2. ring. }
  split. { apply Rmult_lt_0_compat; [apply IZR_lt; lia|apply bpow_gt_0]. }
  split. { intros i. destruct (Nat.eqb i 0); (split; [|apply Rmult_lt_0_compat; [apply IZR_lt; lia|apply bpow_gt_0]]). { apply units_double; lia. }
    replace (IZR 13510798882111488 * bpow radix2 (-53)) with (IZR 6755399441055744 * bpow radix2 (-52)). { apply units_double; lia. } change (-52)%Z with (1 + -53)%Z. rewrite bpow_plus. change 13510798882111488%Z with (6755399441055744 * 2)%Z. rewrite mult_IZR. change (bpow radix2 1) with 2. ring. }
  split. { apply (clock_units 13510798882111490 (fun i => if Nat.eqb i 0 then 3 else 13510798882111488)%Z); [lia| |vm_compute; reflexivity]. intros i. destruct (Nat.eqb i 0); lia. }
  cbn [map nth]. apply Rmult_lt_compat_r; [apply bpow_gt_0|]. apply IZR_lt. lia.
Qed.
Print Assumptions C100_beyond.

(** a step below half a unit in the last place of the elapsed time is lost, and the run does not end *)
Theorem C100_never_ends : exists T s, is_double T /\ is_double s /\ 0 < s < T /\
  forall fuel, snd (clock binary64 T (fun _ => s) fuel) = false.
Proof.
  exists (IZR (2 ^ 53 + 2)), 1.
  assert (D1 : is_double 1). { rewrite <- (unit_1 1). apply units_double; lia. }
  assert (DT : is_double (IZR (2 ^ 53 + 2))). { change (2 ^ 53 + 2)%Z with ((2 ^ 52 + 1) * 2)%Z. rewrite mult_IZR. rewrite Rmult_comm. apply double_2. rewrite <- unit_1. apply units_double; [|lia]. reflexivity. }
  split; auto. split; auto. split. { split; [lra|]. apply IZR_lt. reflexivity. }
  assert (R1 : binary64 (IZR (2 ^ 53 + 1)) = IZR (2 ^ 53)). { rewrite <- (unit_1 (2 ^ 53 + 1)), units_correct by lia. rewrite unit_1. f_equal. }
  assert (A : forall fuel i t, t <= IZR (2 ^ 53) -> snd (ticks binary64 (IZR (2 ^ 53 + 2)) (fun _ => 1) fuel i t) = false).
  { induction fuel as [|fuel IH]; intros i t Ht; cbn [ticks]; (rewrite (proj2 (Rltb_true _ _)) by (rewrite plus_IZR; lra)); [reflexivity|].
    specialize (IH (S i) (tick binary64 (IZR (2 ^ 53 + 2)) (fun _ => 1) i t)). destruct (ticks _ _ _ fuel _ _) as [ts e]. apply IH.
    rewrite <- R1. unfold tick. apply b64_le. unfold step_time. cbv zeta. rewrite (plus_IZR (2 ^ 53) 1). destruct (Rltb_spec (binary64 (IZR (2 ^ 53 + 2) - t)) 1); lra. }
  intros fuel. apply A. apply IZR_le. lia.
Qed.
Print Assumptions C100_never_ends.

(** *** the hypotheses of the general theorems hold of one day in steps of a quarter of an hour *)
Example C100_case : is_double 86400 /\ is_double 900 /\ 86400 <= INR 96 * 900 /\
  exists ts, clock binary64 86400 (fun _ => 900) 97 = (ts, true) /\ increasing (0 :: ts) /\ nth 0 ts 0 = 900.
Proof.
  assert (D1 : is_double 86400). { rewrite <- (unit_1 86400). apply units_double; lia. }
  assert (D2 : is_double 900). { rewrite <- (unit_1 900). apply units_double; lia. }
  split; auto. split; auto. split; [simpl; lra|].
  destruct (C100_passes 86400 900 D1 ltac:(lra) D2 ltac:(lra) 96 ltac:(simpl; lra)) with (more := 0%nat) as (ts & E & I & _).
  { change 96%nat with (Z.to_nat 96). rewrite <- (Nat2Z.id (2 ^ 26)). apply Z2Nat.inj_le; [lia|lia|]. rewrite Nat2Z.inj_pow. cbv. discriminate. }
  exists ts. split; auto. split; auto.
  pose proof (clock_units 86400 (fun _ => 900%Z) 0 97) as C. rewrite !unit_1 in C. destruct (zticks 86400 (fun _ => 900%Z) 97 0 0) as [zs b] eqn:Ez. specialize (C zs b ltac:(lia) ltac:(intros; lia) eq_refl).
  rewrite Nat.add_0_r in E; change (clock binary64 86400 (fun _ => 900) 97 = (ts, true)) in E. rewrite C in E. injection E as <- _. vm_compute in Ez. injection Ez as <- _. cbn [map nth]. apply unit_1.
Qed.
