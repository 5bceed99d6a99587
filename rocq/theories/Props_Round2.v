(** C106: the move of a bin in floating point arithmetic *)
From Coq Require Import Permutation.
From Coquelicot Require Import Rcomplements.
From Flocq Require Import Core.
From Verif Require Import Base TEUtils TimeEvolution TEStageFacts TEStepFacts TELoopFacts TEMove Cooling Spec_TE Spec_Move Clock ClockFacts Rounding RoundFacts Spec_Round Props_Round NumpyInst MathUtils Conversion Losses TEExamples Props_Move.
Import ListNotations.
Open Scope list_scope.
Open Scope R_scope.

(** *** the exact model *)
Lemma recalc_one m bins : forall changes (dens : list R) new incr, recalc_energy_bins_and_density_increase changes (to_erg m bins) = Ok (new, incr) ->
  forall i l u al au d, nth_error bins i = Some (l, u) -> nth_error changes i = Some (al, au) -> nth_error dens i = Some d ->
  nth_error new i = Some (l * m + al, u * m + au) /\ nth_error incr i = Some ((u * m - l * m) / (u * m + au - (l * m + al))).
Proof.
  intros changes dens new incr. unfold recalc_energy_bins_and_density_increase.
  destruct (existsb _ _); [discriminate|]. destruct (existsb _ _); [discriminate|]. destruct (existsb _ _); [discriminate|]. intros E. injection E as <- <-.
  clear. revert changes dens. induction bins as [|[l0 u0] bins IH]; intros changes dens i l u al au d Hb Hc Hd; [destruct i; discriminate|].
  destruct changes as [|[a0 b0] changes]; [destruct i; discriminate|]. destruct dens as [|d0 dens]; [destruct i; discriminate|].
  destruct i as [|i]; simpl in Hb, Hc, Hd.
  - injection Hb as <- <-. injection Hc as <- <-. split; reflexivity.
  - simpl. apply (IH changes dens i l u al au d); auto.
Qed.
Lemma fermi_exact m acc dt g v : 0 < m -> 0 < acc -> 0 <= dt -> 0 < g ->
  fermi_pass (fun x => x) m acc dt (g, v) = (g * (1 + dt / acc), v / (1 + dt / acc)).
Proof.
  intros Hm Ha Hd Hg. unfold fermi_pass, moved_bin, fermi_change, energy, upper_edge, bin_size_factor. cbn [fst snd].
  assert (Q : 0 <= dt / acc) by (apply Rdiv_le_0_compat; auto). f_equal.
  - field. lra.
  - replace (g * (1 + 1 / 10000) * m + g * (1 + 1 / 10000) * m / acc * dt - (g * m + g * m / acc * dt)) with ((g * (1 + 1 / 10000) * m - g * m) * (1 + dt / acc)) by (field; lra).
    assert (W : g * (1 + 1 / 10000) * m - g * m <> 0). { replace (g * (1 + 1 / 10000) * m - g * m) with (g * m / 10000) by field. pose proof (Rmult_lt_0_compat g m Hg Hm). lra. }
    generalize dependent (g * (1 + 1 / 10000) * m - g * m). intros W HW. field. split; [lra|]. split; auto. replace (acc + dt) with (acc * (1 + dt / acc)) by (field; lra). apply Rmult_integral_contrapositive_currified; lra.
Qed.
Lemma step_exact m acc dt g v : 0 < m -> 0 < acc -> 0 <= dt -> 0 < g ->
  after_step Euler (fun g => g * m / acc) (fun _ => 0) (fun _ => 0) m dt (g, v) = (g * (1 + dt / acc), v / (1 + dt / acc)).
Proof.
  intros Hm Ha Hd Hg. unfold after_step, moved. assert (Q : 0 <= dt / acc) by (apply Rdiv_le_0_compat; auto).
  replace (g + g * m / acc * dt / m) with (g * (1 + dt / acc)) by (field; lra).
  replace (g * (1 + 1 / 10000) + g * (1 + 1 / 10000) * m / acc * dt / m) with (g * (1 + 1 / 10000) * (1 + dt / acc)) by (field; lra).
  f_equal. generalize dependent (dt / acc). intros q Hq.
  replace (g * (1 + 1 / 10000) * (1 + q) - g * (1 + q)) with (g * (1 + q) / 10000) by field. field. split; lra.
Qed.
Lemma fermi_runs m acc dt n : 0 < m -> 0 < acc -> 0 <= dt -> forall g v, 0 < g ->
  fermi_run (fun x => x) m acc dt n (g, v) = (g * (1 + dt / acc) ^ n, v / (1 + dt / acc) ^ n).
Proof.
  intros Hm Ha Hd. assert (Q : 0 <= dt / acc) by (apply Rdiv_le_0_compat; auto). induction n as [|n IH]; intros g v Hg.
  - cbn [fermi_run pow]. f_equal; field.
  - cbn [fermi_run]. rewrite fermi_exact by auto. rewrite IH. 2: { apply Rmult_lt_0_compat; lra. } cbn [pow].
    assert ((1 + dt / acc) ^ n <> 0) by (apply pow_nonzero; lra). clear IH. generalize dependent ((1 + dt / acc) ^ n). generalize dependent (dt / acc). intros q Hq w Hw. apply f_equal2; [ring|field; split; lra].
Qed.

(** with exact numbers: the move of one bin is that of TEUtils.v, the upper edge
    that of update_bin_ub, and a run of evaluate with fermi_acceleration alone
    consists of these passes *)
Theorem C106_model : (forall m bins changes dens bins' dens', recalc_gamma_bins_and_density m (to_erg m bins) changes dens = Ok (bins', dens') ->
    forall i l u al au d, nth_error bins i = Some (l, u) -> nth_error changes i = Some (al, au) -> nth_error dens i = Some d ->
    exists b d', nth_error bins' i = Some b /\ nth_error dens' i = Some d' /\ moved_bin (fun x => x) m l u al au d = (b, d')) /\
  (forall g x, update_bin_ub [(g, x)] [true] = [(g, upper_edge (fun x => x) g)]).
Proof.
  split; [|reflexivity]. intros m bins changes dens bins' dens' H i l u al au d Hb Hc Hd. unfold recalc_gamma_bins_and_density in H.
  destruct (recalc_energy_bins_and_density_increase changes (to_erg m bins)) as [[new incr]|] eqn:E; [|discriminate]. injection H as <- <-.
  destruct (recalc_one m bins changes dens new incr E i l u al au d Hb Hc Hd) as [A B].
  exists ((l * m + al) / m, (u * m + au) / m), (d * ((u * m - l * m) / (u * m + au - (l * m + al)))).
  split; [|split; [|reflexivity]].
  - rewrite nth_error_map, A. reflexivity.
  - clear -B Hd. revert incr i B Hd. induction dens as [|d0 dens IH]; intros incr i B Hd; [destruct i; discriminate|].
    destruct incr as [|c incr]; [destruct i; discriminate|]. destruct i as [|i]; simpl in *; [injection B as <-; injection Hd as <-; reflexivity|]. apply IH; auto.
Qed.
Print Assumptions C106_model.

Theorem C106_exact_run np P ta T t k gs ns ne name : numpy_ok np -> (forall x y, 0 < x -> x < y -> lg np x < lg np y) -> phys_ok P ->
  0 < ta -> 0 < t -> T = INR k * t -> gs <> [] -> (forall g, In g gs -> 0 < g) -> increasing gs -> dist_call np ne gs = (gs, ns) -> nonneg ns -> populated ns ->
  let after p := fermi_run (fun x => x) (mec2_erg P) ta t k p in
  exists d recs x, evaluate np (energy_cfg T t [(name, fermi_acceleration P ta)] (mec2_erg P) gs Euler) k ne = (d, recs, Ok x) /\
    r_gamma x = map (fun p => fst (after p)) (combine gs ns) /\ r_dens x = map (fun p => snd (after p)) (combine gs ns) /\
    forall g v, 0 < g -> after (g, v) = (g * (1 + t / ta) ^ k, v / (1 + t / ta) ^ k).
Proof.
  intros Hnp Hlg HP Hta Ht ET Hne Pg Inc En Nn Po after.
  assert (Hm : 0 < mec2_erg P). { destruct HP. unfold mec2_erg, rest_energy, mass_of. apply Rmult_lt_0_compat; auto. apply pow_lt; auto. }
  assert (Q : 0 < t / ta) by (apply Rdiv_lt_0_compat; auto).
  set (m := mec2_erg P) in *. set (E := fun g => g * m / ta).
  assert (IT : forall i g v, 0 < g -> after_steps i Euler E (fun _ => 0) (fun _ => 0) m t (g, v) = (g * (1 + t / ta) ^ i, v / (1 + t / ta) ^ i)).
  { intros i g v Hg. unfold after_steps. induction i as [|i IH]; [simpl; f_equal; field|]. cbn [Nat.iter nat_rect]. unfold Nat.iter in IH. rewrite IH. unfold E. rewrite step_exact; auto; try lra.
    2: { apply Rmult_lt_0_compat; auto. apply pow_lt. lra. } cbn [pow].
    assert ((1 + t / ta) ^ i <> 0) by (apply pow_nonzero; lra). clear IH. generalize dependent ((1 + t / ta) ^ i). generalize dependent (t / ta). intros q Hq w Hw. apply f_equal2; [ring|field; split; lra]. }
  set (good := fun pts : list (R * R) => (forall g v, In (g, v) pts -> 0 < g /\ 0 <= v) /\
    (forall i g g', nth_error (map fst pts) i = Some g -> nth_error (map fst pts) (S i) = Some g' -> g < g') /\ populated (map snd pts)).
  assert (ST : forall pts, good pts -> legitimate np Euler E (fun _ => 0) (fun _ => 0) m t pts /\ good (map (after_step Euler E (fun _ => 0) (fun _ => 0) m t) pts)).
  { intros pts (G1 & G2 & G3).
    assert (EQ : map (after_step Euler E (fun _ => 0) (fun _ => 0) m t) pts = map (fun p => (fst p * (1 + t / ta), snd p / (1 + t / ta))) pts).
    { apply map_ext_in. intros [g v] Hin. destruct (G1 g v Hin) as [Pg' _]. unfold E. rewrite step_exact by (auto; lra). reflexivity. }
    assert (N1 : forall g v, In (g, v) (map (fun p => (fst p * (1 + t / ta), snd p / (1 + t / ta))) pts) -> 0 < g /\ 0 <= v).
    { intros g v Hin. apply in_map_iff in Hin as ([g0 v0] & E0 & Hin). simpl in E0. injection E0 as <- <-. destruct (G1 g0 v0 Hin) as [A B].
      split; [apply Rmult_lt_0_compat; lra|]. apply Rdiv_le_0_compat; lra. }
    assert (N2 : forall i g g', nth_error (map fst (map (fun p => (fst p * (1 + t / ta), snd p / (1 + t / ta))) pts)) i = Some g ->
       nth_error (map fst (map (fun p => (fst p * (1 + t / ta), snd p / (1 + t / ta))) pts)) (S i) = Some g' -> g < g').
    { intros i g g' A B. rewrite map_map in A, B. simpl in A, B. rewrite nth_error_map in A. specialize (G2 i).
      change (nth_error (map (fun x : R * R => fst x * (1 + t / ta)) pts) (S i) = Some g') in B. rewrite nth_error_map in B. rewrite !nth_error_map in G2.
      destruct (nth_error pts i) as [[a b]|]; [|discriminate]. destruct (nth_error pts (S i)) as [[c e]|]; [|discriminate]. simpl in A, B. injection A as <-. injection B as <-.
      apply Rmult_lt_compat_r; [lra|]. apply (G2 a c); reflexivity. }
    assert (N3 : populated (map snd (map (fun p => (fst p * (1 + t / ta), snd p / (1 + t / ta))) pts))).
    { apply populated_map; auto. intros [g v] Hin. simpl. split; [|intros ->; unfold Rdiv; ring]. intros Y. apply Rmult_integral in Y. destruct Y as [Y|Y]; auto.
      exfalso. apply (Rinv_neq_0_compat (1 + t / ta)); [lra|exact Y]. }
    split; [|rewrite EQ; split; [|split]; auto]. unfold legitimate. rewrite EQ. split; [|split; [|split]]; auto.
    - intros g v Hin. destruct (G1 g v Hin) as [Pg' _]. unfold moved, E.
      replace (g + g * m / ta * t / m) with (g * (1 + t / ta)) by (field; lra).
      replace (g * (1 + 1 / 10000) + g * (1 + 1 / 10000) * m / ta * t / m) with (g * (1 + t / ta) * (1 + 1 / 10000)) by (field; lra).
      assert (0 < g * (1 + t / ta)) by (apply Rmult_lt_0_compat; lra). lra.
    - intros i g g' A B. pose proof (N2 i g g' A B). apply Hlg; auto.
      apply nth_error_In in A. apply in_map_iff in A as ([a b] & <- & Hin). apply (N1 a b Hin).
    - intros g v Hin. apply (N1 g v Hin). }
  assert (Ln : length ns = length gs). { pose proof (dist_call_length np ne gs) as Y. rewrite En in Y. simpl in Y. apply Y. }
  assert (F1 : map fst (combine gs ns) = gs) by (clear - Ln; revert ns Ln; induction gs as [|g l IH]; intros [|v ns] Ln; try discriminate; auto; simpl; f_equal; apply IH; simpl in Ln; congruence).
  assert (F2 : map snd (combine gs ns) = ns) by (clear - Ln; revert ns Ln; induction gs as [|g l IH]; intros [|v ns] Ln; try discriminate; auto; simpl; f_equal; apply IH; simpl in Ln; congruence).
  assert (S0 : good (combine gs ns)).
  { split; [|rewrite F1, F2; split; auto].
    - intros g v Hin. pose proof (in_combine_l _ _ _ _ Hin). pose proof (in_combine_r _ _ _ _ Hin). split; auto.
    - intros i a b Ha Hb. apply (Inc i). split; auto. }
  assert (Si : forall i, good (map (after_steps i Euler E (fun _ => 0) (fun _ => 0) m t) (combine gs ns))).
  { induction i as [|i IH]; [unfold after_steps; simpl; rewrite map_id; auto|].
    replace (map (after_steps (S i) Euler E (fun _ => 0) (fun _ => 0) m t) (combine gs ns)) with
      (map (after_step Euler E (fun _ => 0) (fun _ => 0) m t) (map (after_steps i Euler E (fun _ => 0) (fun _ => 0) m t) (combine gs ns))); [apply ST; auto|].
    rewrite map_map. reflexivity. }
  assert (EE : total_rate [(name, E)] = fun g => E g + 0) by reflexivity.
  assert (EX : forall j p, after_steps j Euler (fun g => E g + 0) (fun _ => 0) (fun _ => 0) m t p = after_steps j Euler E (fun _ => 0) (fun _ => 0) m t p).
  { assert (One : forall p, after_step Euler (fun g => E g + 0) (fun _ => 0) (fun _ => 0) m t p = after_step Euler E (fun _ => 0) (fun _ => 0) m t p).
    { intros [g v]. unfold after_step, moved. rewrite !Rplus_0_r. reflexivity. }
    intros j p. unfold after_steps. induction j as [|j IH]; [reflexivity|].
    change (Nat.iter (S j) (after_step Euler (fun g => E g + 0) (fun _ => 0) (fun _ => 0) m t) p) with (after_step Euler (fun g => E g + 0) (fun _ => 0) (fun _ => 0) m t (Nat.iter j (after_step Euler (fun g => E g + 0) (fun _ => 0) (fun _ => 0) m t) p)).
    rewrite IH, One. reflexivity. }
  assert (LX : forall pts, legitimate np Euler E (fun _ => 0) (fun _ => 0) m t pts -> legitimate np Euler (fun g => E g + 0) (fun _ => 0) (fun _ => 0) m t pts).
  { intros pts H. unfold legitimate in *. assert (One : map (after_step Euler (fun g => E g + 0) (fun _ => 0) (fun _ => 0) m t) pts = map (after_step Euler E (fun _ => 0) (fun _ => 0) m t) pts).
    { apply map_ext. intros p. apply (EX 1%nat p). } rewrite One. destruct H as (A & B). split; auto. intros g v Hin. specialize (A g v Hin). unfold moved in *. rewrite !Rplus_0_r. exact A. }
  destruct (C91_recursion np T t m [(name, E)] [] [] gs Euler ne k ns) as (d & recs & x & H1 & H2 & H3 & H4 & H5 & H6); auto.
  { intros i Hi. rewrite EE. change (total_rate []) with (fun _ : R => 0). rewrite (map_ext _ _ (EX i)). split; apply LX; apply ST; apply Si. }
  rewrite EE in H4, H5. change (total_rate []) with (fun _ : R => 0) in H4, H5. rewrite (map_ext _ _ (EX k)), map_map in H4, H5.
  assert (AF : forall g v, 0 < g -> after (g, v) = (g * (1 + t / ta) ^ k, v / (1 + t / ta) ^ k)) by (intros g v Hg; apply fermi_runs; auto; lra).
  exists d, recs, x. split; [exact H1|]. split; [|split; [|exact AF]].
  - rewrite H4. apply map_ext_in. intros [g v] Hin. pose proof (in_combine_l _ _ _ _ Hin). rewrite IT, AF; auto.
  - rewrite H5. apply map_ext_in. intros [g v] Hin. pose proof (in_combine_l _ _ _ _ Hin). rewrite IT, AF; auto.
Qed.
Print Assumptions C106_exact_run.

(** *** in binary64 *)
Lemma up_small k c : INR k * u64 <= / 2000000 -> INR k * u64 * (1000001 / 1000000) <= c -> (1 + u64) ^ k <= 1 + c.
Proof.
  intros H Hc. apply Rle_trans with (1 + INR k * u64 * (1000001 / 1000000)); [|lra]. clear Hc c. induction k as [|k IH]; [simpl; lra|].
  rewrite S_INR in *. pose proof u64_pos as U. pose proof (pos_INR k) as I. assert (I' : 0 <= INR k * u64) by (apply Rmult_le_pos; lra).
  replace ((INR k + 1) * u64) with (INR k * u64 + u64) in * by ring. simpl pow. specialize (IH ltac:(lra)). set (v := INR k * u64) in *.
  apply Rle_trans with ((1 + u64) * (1 + v * (1000001 / 1000000))); [apply Rmult_le_compat_l; lra|].
  assert (u64 * v <= u64 * / 2000000) by (apply Rmult_le_compat_l; lra). lra.
Qed.
Lemma u64_tiny : u64 * 9007199254740992 = 1.
Proof. rewrite u64_val. field. Qed.
Lemma up1 : (1 + u64) ^ 1 <= 1 + u64. Proof. rewrite pow_1. lra. Qed.
Lemma up4 : (1 + u64) ^ 4 <= 1 + 4001 / 1000 * u64.
Proof. pose proof u64_tiny. apply up_small; simpl INR; lra. Qed.
Lemma bpow_lo z x : (-1022 <= z)%Z -> bpow radix2 z <= x -> bpow radix2 (-1022) <= x.
Proof. intros H L. eapply Rle_trans; [|exact L]. apply bpow_le. auto. Qed.
Lemma bpow_inv n : bpow radix2 (- Z.of_nat n) = / 2 ^ n.
Proof.
  rewrite bpow_opp. f_equal. rewrite bpow_powerRZ. change (IZR radix2) with 2. rewrite <- pow_powerRZ. reflexivity.
Qed.
Lemma fl_near_lo n x : (n <= 1022)%nat -> / 2 ^ n <= x -> near 1 (binary64 x) x.
Proof. intros H L. apply fl_near. apply (bpow_lo (- Z.of_nat n)); [lia|]. rewrite bpow_inv. auto. Qed.
Lemma lo_le a b : (b <= a)%nat -> / 2 ^ a <= / 2 ^ b.
Proof. intros H. apply Rinv_le_contravar; [apply pow_lt; lra|]. apply Rle_pow; [lra|auto]. Qed.
Lemma lo_mult a b x y : / 2 ^ a <= x -> / 2 ^ b <= y -> / 2 ^ (a + b) <= x * y.
Proof.
  intros A B. rewrite pow_add, Rinv_mult. apply Rmult_le_compat; auto; left; apply Rinv_0_lt_compat; apply pow_lt; lra.
Qed.
Lemma lo_pos a x : / 2 ^ a <= x -> 0 < x.
Proof. intros H. eapply Rlt_le_trans; [|exact H]. apply Rinv_0_lt_compat, pow_lt. lra. Qed.

(** the upper edge *)
Lemma edge_range g : is_double g -> 1 / 2 <= g ->
  is_double (upper_edge binary64 g) /\ g * (1 + 999 / 10000000) <= upper_edge binary64 g <= g * (1 + 1001 / 10000000).
Proof.
  intros Dg Hg. split; [apply b64_double|]. unfold upper_edge, bin_size_factor. pose proof u64_tiny as U. pose proof u64_small as U'.
  assert (N1 : near 1 (binary64 (1 / 10000)) (1 / 10000)). { apply (fl_near_lo 20); [lia|]. simpl. lra. }
  assert (D1 : is_double 1). { apply double_is. exists 1%Z, 0%Z. split; [lia|]. split; [lia|]. simpl. ring. }
  set (f := binary64 (1 / 10000)) in *. destruct N1 as [A B]. rewrite pow_1 in A, B.
  assert (F : 9999 / 100000000 <= f <= 10001 / 100000000) by (split; nra).
  assert (N2 : near 1 (binary64 (1 + f)) (1 + f)) by (apply fl_near_plus; auto; [apply b64_double|lra]).
  set (h := binary64 (1 + f)) in *. destruct N2 as [C D]. rewrite pow_1 in C, D.
  assert (Hh : 1 + 9995 / 100000000 <= h <= 1 + 10005 / 100000000) by (split; nra).
  assert (N3 : near 1 (binary64 (g * h)) (g * h)) by (apply (fl_near_lo 2); [lia|]; simpl; nra).
  destruct N3 as [E F']. rewrite pow_1 in E, F'. assert (G0 : 0 <= g * h) by nra. split.
  - apply (Rmult_le_reg_r (1 + u64)); [lra|]. eapply Rle_trans; [|exact F']. rewrite Rmult_assoc. apply Rmult_le_compat_l; [lra|]. nra.
  - eapply Rle_trans; [exact E|]. rewrite Rmult_assoc. apply Rmult_le_compat_l; [lra|]. nra.
Qed.

(** roundings in a width: the edges differ by 1/10000 only *)
Definition kw : nat := Z.to_nat 20150.
Lemma kw_INR : INR kw = 20150.
Proof. unfold kw. rewrite INR_IZR_INZ, Z2Nat.id by lia. reflexivity. Qed.
Section Bin.
Variables (m l u : R).
Hypotheses (Dm : is_double m) (Hm : / 2 ^ 200 <= m) (Dl : is_double l) (Hl : 1 / 2 <= l) (Du : is_double u)
  (Hu : l * (1 + 999 / 10000000) <= u <= l * (1 + 1001 / 10000000)).
Let el := energy binary64 m l.
Let eu := energy binary64 m u.
Lemma m_pos : 0 < m. Proof. eapply lo_pos; eauto. Qed.
Lemma energy_near g : 1 / 2 <= g -> near 1 (energy binary64 m g) (g * m).
Proof. intros Hg. apply (fl_near_lo (1 + 200)); [lia|]. apply lo_mult; auto. simpl. lra. Qed.
Lemma gap : 998 / 10000000 * (u * m) <= u * m - l * m.
Proof. pose proof m_pos. replace (u * m - l * m) with ((u - l) * m) by ring. rewrite <- Rmult_assoc. apply Rmult_le_compat_r; lra. Qed.
Lemma um_pos : 0 < u * m. Proof. pose proof m_pos. apply Rmult_lt_0_compat; lra. Qed.
Lemma lm_le : 0 < l * m <= u * m. Proof. pose proof m_pos. split; [apply Rmult_lt_0_compat; lra|]. apply Rmult_le_compat_r; lra. Qed.
Lemma old_width : el <= eu /\ near (S kw) (binary64 (eu - el)) (u * m - l * m).
Proof.
  pose proof m_pos as M. pose proof gap as G. pose proof um_pos as P. pose proof lm_le as L. pose proof u64_tiny as U. pose proof u64_pos as U0.
  assert (N : near kw (eu - el) (u * m - l * m)).
  { apply (diff_near el eu (l * m) (u * m) (u * m) u64); try lra.
    - eapply Rle_trans; [apply (near_abs 1 u64); [lra|apply energy_near; auto|apply up1]|]. apply Rmult_le_compat_l; lra.
    - apply (near_abs 1 u64); [lra|apply energy_near; lra|apply up1].
    - set (B := u * m) in *. assert (u64 * B <= / 1000000000000 * B) by (apply Rmult_le_compat_r; lra). lra.
    - set (B := u * m) in *. set (w := B - l * m) in *. rewrite kw_INR.
      replace (2004 / 1000 * u64 * B) with (u64 * (2004 / 1000 * B)) by ring. replace (20150 * u64 * w) with (u64 * (20150 * w)) by ring.
      apply Rmult_le_compat_l; lra. }
  assert (W : 0 < u * m - l * m) by lra. pose proof (near_pos _ _ _ N W) as W'. split; [lra|].
  change (S kw) with (1 + kw)%nat. apply near_trans with (eu - el); auto. apply fl_near_minus; try apply b64_double. lra.
Qed.

(** any energies [al'], [au'] of the moved edges that are close to [b1], [b2] *)
Lemma ratio_near el' eu' b1 b2 c K d : is_double el' -> is_double eu' -> / 2 ^ 1002 <= d -> INR K <= 1000000 -> 0 <= c -> c <= 4001 / 1000 * u64 ->
  Rabs (el' - b1) <= c * (2 * (u * m)) -> Rabs (eu' - b2) <= c * (2 * (u * m)) -> 
  (u * m - l * m) / 2 <= b2 - b1 -> b2 - b1 <= 4 * (u * m) ->
  2004 / 1000 * c * (2 * (u * m)) <= INR K * u64 * (b2 - b1) ->
  let w := binary64 (eu - el) in let w' := binary64 (eu' - el') in
  near (S kw + S K + 2) (binary64 (d * binary64 (w / w'))) (d * ((u * m - l * m) / (b2 - b1))).
Proof.
  intros D1 D2 Hd HK2 Hc Hc' A1 A2 B1 B2 HK w w'. pose proof m_pos as M. pose proof gap as G. pose proof um_pos as P. pose proof lm_le as L. pose proof u64_tiny as U. pose proof u64_pos as U0.
  destruct old_width as [_ OW]. fold w in OW.
  assert (N : near K (eu' - el') (b2 - b1)).
  { apply (diff_near el' eu' b1 b2 (2 * (u * m)) c); try lra.
    set (B := u * m) in *. assert (c * B <= / 1000000000000 * B) by (apply Rmult_le_compat_r; lra). lra. }
  assert (W : 0 < b2 - b1) by lra. pose proof (near_pos _ _ _ N W) as W'.
  assert (NW : near (S K) w' (b2 - b1)).
  { change (S K) with (1 + K)%nat. apply near_trans with (eu' - el'); auto. apply fl_near_minus; auto. lra. }
  pose proof (near_pos _ _ _ NW W) as Pw'. assert (W0 : 0 < u * m - l * m) by lra. pose proof (near_pos _ _ _ OW W0) as Pw.
  assert (NR : near (S kw + S K) (w / w') ((u * m - l * m) / (b2 - b1))) by (apply near_div; auto; lra).
  assert (UW : (1 + u64) ^ S kw <= 1 + 1 / 4) by (apply up_small; rewrite S_INR, kw_INR; lra).
  assert (UK : (1 + u64) ^ S K <= 1 + 1 / 4) by (apply up_small; rewrite S_INR; nra).
  assert (RP : / 2 ^ 18 <= w / w').
  { apply (Rmult_le_reg_r w'); auto. unfold Rdiv. rewrite Rmult_assoc, Rinv_l, Rmult_1_r by lra.
    assert (Q1 : w' <= (b2 - b1) * 2).
    { destruct NW as [NW _]. eapply Rle_trans; [exact NW|]. apply Rmult_le_compat_l; lra. }
    assert (Q2 : (u * m - l * m) / 2 <= w).
    { destruct OW as [_ OW]. assert (w * (1 + u64) ^ S kw <= w * (1 + 1 / 4)) by (apply Rmult_le_compat_l; lra). lra. }
    apply Rle_trans with (/ 2 ^ 18 * (8 * (u * m))); [apply Rmult_le_compat_l; [left; apply Rinv_0_lt_compat, pow_lt; lra|lra]|]. simpl. lra. }
  assert (N1 : near 1 (binary64 (w / w')) (w / w')) by (apply (fl_near_lo 18); auto; lia).
  assert (Pr : 0 < w / w') by (apply Rdiv_lt_0_compat; auto).
  assert (RP' : / 2 ^ 19 <= binary64 (w / w')).
  { destruct N1 as [_ N1]. rewrite pow_1 in N1.
    apply (Rmult_le_reg_r (1 + u64)); [lra|]. eapply Rle_trans; [|exact N1]. eapply Rle_trans; [|exact RP]. simpl. lra. }
  assert (Pd := lo_pos _ _ Hd).
  replace (S kw + S K + 2)%nat with (1 + (1 + (S kw + S K)))%nat by lia.
  apply near_trans with (d * binary64 (w / w')).
  - apply (fl_near_lo (1002 + 19)); [lia|]. apply lo_mult; auto.
  - apply near_scale; [lra|]. apply near_trans with (w / w'); auto.
Qed.
End Bin.

(** the number of particles between the two edges, whatever the energy changes *)
Theorem C106_conserved : forall m l u al au d, double d ->
  let el := energy binary64 m l in let eu := energy binary64 m u in
  let el' := binary64 (el + al) in let eu' := binary64 (eu + au) in
  let d' := snd (moved_bin binary64 m l u al au d) in
  el < eu -> el' < eu' -> 0 < d -> / 2 ^ 1000 <= (eu - el) / (eu' - el') -> / 2 ^ 1000 <= d * ((eu - el) / (eu' - el')) ->
  within 4 (d' * (eu' - el')) (d * (eu - el)).
Proof.
  intros m l u al au d Dd el eu el' eu' d' H1 H2 H3 U1 U2. apply within_near. pose proof u64_small as U.
  assert (N1 : near 1 (binary64 (eu - el)) (eu - el)) by (apply fl_near_minus; try apply b64_double; lra).
  assert (N2 : near 1 (binary64 (eu' - el')) (eu' - el')) by (apply fl_near_minus; try apply b64_double; lra).
  set (w := binary64 (eu - el)) in *. set (w' := binary64 (eu' - el')) in *. change d' with (binary64 (d * binary64 (w / w'))).
  assert (N3 : near 2 (w / w') ((eu - el) / (eu' - el'))) by (apply (near_div 1 1); auto; lra).
  assert (P : 0 < (eu - el) / (eu' - el')) by (apply Rdiv_lt_0_compat; lra).
  assert (lo : forall k x y, (k <= 4)%nat -> / 2 ^ 1000 <= y -> near k x y -> / 2 ^ 1001 <= x).
  { intros k x y Hk Hy [_ N]. assert (P0 : 0 < / 2 ^ 1000) by (apply Rinv_0_lt_compat, pow_lt; lra).
    assert (Hx : 0 <= x). { apply (Rmult_le_reg_r ((1 + u64) ^ k)); [apply up_pos|]. lra. }
    assert (B : (1 + u64) ^ k <= 2). { apply Rle_trans with ((1 + u64) ^ 4); [apply Rle_pow; auto; lra|]. pose proof up4. lra. }
    replace (/ 2 ^ 1001) with (/ 2 ^ 1000 / 2). 2: { change (2 ^ 1001) with (2 * 2 ^ 1000). rewrite Rinv_mult. unfold Rdiv. ring. }
    assert (x * (1 + u64) ^ k <= x * 2) by (apply Rmult_le_compat_l; auto). lra. }
  assert (N4 : near 3 (binary64 (w / w')) ((eu - el) / (eu' - el'))).
  { apply (near_trans 1 2) with (w / w'); auto. apply (fl_near_lo 1001); [lia|]. apply (lo 2%nat _ _ ltac:(lia) U1 N3). }
  assert (N5 : near 4 (binary64 (d * binary64 (w / w'))) (d * ((eu - el) / (eu' - el')))).
  { assert (N6 : near 3 (d * binary64 (w / w')) (d * ((eu - el) / (eu' - el')))) by (apply near_scale; auto; lra).
    apply (near_trans 1 3) with (d * binary64 (w / w')); auto. apply (fl_near_lo 1001); [lia|]. apply (lo 3%nat _ _ ltac:(lia) U2 N6). }
  replace (d * (eu - el)) with (d * ((eu - el) / (eu' - el')) * (eu' - el')) by (field; lra).
  rewrite !(Rmult_comm _ (eu' - el')). apply near_scale; auto. lra.
Qed.
Print Assumptions C106_conserved.

(** one pass with fermi_acceleration *)
Definition ka : nat := Z.to_nat 80400.
Lemma ka_INR : INR ka = 80400.
Proof. unfold ka. rewrite INR_IZR_INZ, Z2Nat.id by lia. reflexivity. Qed.
Definition kf : nat := S kw + S ka + 2.
Section Fermi.
Variables (m acc dt : R).
Hypotheses (Dm : is_double m) (Hm : / 2 ^ 200 <= m) (Ha : 0 < acc <= 2 ^ 200) (Hdt : / 2 ^ 200 <= dt) (Hq : dt <= acc).
Let q := dt / acc.
Lemma q_range : 0 < q <= 1.
Proof.
  pose proof (lo_pos _ _ Hdt). split; [apply Rdiv_lt_0_compat; lra|]. unfold q. apply (Rmult_le_reg_r acc); [lra|]. unfold Rdiv. rewrite Rmult_assoc, Rinv_l by lra. lra.
Qed.
Lemma change_near g : 1 / 2 <= g -> near 3 (fermi_change binary64 m acc dt g) (g * m * q).
Proof.
  intros Hg. unfold fermi_change. pose proof (energy_near m Hm g Hg) as N1. set (e := energy binary64 m g) in *. pose proof (lo_pos _ _ Hm) as M. pose proof (lo_pos _ _ Hdt) as T.
  pose proof u64_small as U. assert (E : / 2 ^ 202 <= e).
  { destruct N1 as [_ N1]. rewrite pow_1 in N1. apply (Rmult_le_reg_r (1 + u64)); [lra|]. eapply Rle_trans; [|exact N1].
    apply Rle_trans with (/ 2 ^ (1 + 200)); [|apply lo_mult; auto; simpl; lra]. replace (/ 2 ^ 202) with (/ 2 ^ (1 + 200) / 2). 2: { change (2 ^ 202) with (2 * 2 ^ (1 + 200)). rewrite Rinv_mult. unfold Rdiv. ring. }
    assert (0 < / 2 ^ (1 + 200)) by (apply Rinv_0_lt_compat, pow_lt; lra). nra. }
  assert (A : / 2 ^ 200 <= / acc) by (apply Rinv_le_contravar; lra).
  assert (N2 : near 1 (binary64 (e / acc)) (e / acc)) by (apply (fl_near_lo (202 + 200)); [lia|apply lo_mult; auto]).
  assert (E2 : / 2 ^ 403 <= binary64 (e / acc)).
  { destruct N2 as [_ N2]. rewrite pow_1 in N2. apply (Rmult_le_reg_r (1 + u64)); [lra|]. eapply Rle_trans; [|exact N2].
    apply Rle_trans with (/ 2 ^ (202 + 200)); [|apply lo_mult; auto]. replace (/ 2 ^ 403) with (/ 2 ^ (202 + 200) / 2). 2: { change (2 ^ 403) with (2 * 2 ^ (202 + 200)). rewrite Rinv_mult. unfold Rdiv. ring. }
    assert (0 < / 2 ^ (202 + 200)) by (apply Rinv_0_lt_compat, pow_lt; lra). nra. }
  assert (N3 : near 1 (binary64 (binary64 (e / acc) * dt)) (binary64 (e / acc) * dt)) by (apply (fl_near_lo (403 + 200)); [lia|apply lo_mult; auto]).
  apply (near_trans 1 2) with (binary64 (e / acc) * dt); auto.
  replace (g * m * q) with (dt * (g * m / acc)) by (unfold q; field; lra). rewrite (Rmult_comm _ dt). apply near_scale; [lra|].
  apply (near_trans 1 1) with (e / acc); auto. unfold Rdiv. rewrite !(Rmult_comm _ (/ acc)). apply near_scale; auto. left. apply Rinv_0_lt_compat. lra.
Qed.
Lemma gained_near g : 1 / 2 <= g -> near 4 (binary64 (energy binary64 m g + fermi_change binary64 m acc dt g)) (g * m * (1 + q)).
Proof.
  intros Hg. pose proof (energy_near m Hm g Hg) as N1. pose proof (change_near g Hg) as N2. pose proof (lo_pos _ _ Hm) as M. pose proof q_range as Q.
  assert (P1 : 0 <= g * m) by (apply Rmult_le_pos; lra). assert (P2 : 0 <= g * m * q) by (apply Rmult_le_pos; lra).
  apply (near_weak 1 3) in N1; auto. assert (N3 : near 3 (energy binary64 m g + fermi_change binary64 m acc dt g) (g * m * (1 + q))).
  { replace (g * m * (1 + q)) with (g * m + g * m * q) by ring. apply near_plus; auto. }
  apply (near_trans 1 3) with (energy binary64 m g + fermi_change binary64 m acc dt g); auto.
  apply fl_near_plus; try apply b64_double. pose proof (near_nonneg _ _ _ N1 P1). pose proof (near_nonneg _ _ _ N2 P2). lra.
Qed.
Lemma pass_near g d : is_double g -> 1 / 2 <= g -> / 2 ^ 1002 <= d ->
  let p := fermi_pass binary64 m acc dt (g, d) in
  is_double (fst p) /\ near 5 (fst p) (g * (1 + q)) /\ near kf (snd p) (d / (1 + q)).
Proof.
  intros Dg Hg Hd p. pose proof q_range as Q. pose proof (lo_pos _ _ Hm) as M. destruct (edge_range g Dg Hg) as [Du Hu].
  set (u := upper_edge binary64 g) in *. assert (Hu2 : 1 / 2 <= u) by lra.
  pose proof (gained_near g Hg) as Ng. pose proof (gained_near u Hu2) as Nu.
  set (el' := binary64 (energy binary64 m g + fermi_change binary64 m acc dt g)) in *. set (eu' := binary64 (energy binary64 m u + fermi_change binary64 m acc dt u)) in *.
  change p with (binary64 (el' / m), binary64 (d * binary64 (binary64 (energy binary64 m u - energy binary64 m g) / binary64 (eu' - el')))). cbn [fst snd]. clear p.
  assert (Pg : 0 < g * m) by (apply Rmult_lt_0_compat; lra). pose proof u64_small as U. pose proof u64_tiny as U1.
  split; [apply b64_double|]. split.
  - assert (N1 : near 4 (el' / m) (g * (1 + q))).
    { replace (g * (1 + q)) with (/ m * (g * m * (1 + q))) by (field; lra). unfold Rdiv. rewrite (Rmult_comm el'). apply near_scale; auto. left. apply Rinv_0_lt_compat. auto. }
    apply (near_trans 1 4) with (el' / m); auto. apply (fl_near_lo 2); [lia|]. destruct N1 as [_ N1]. pose proof up4 as U4.
    assert (0 < el' / m). { apply Rdiv_lt_0_compat; auto. apply (near_pos _ _ _ Ng). apply Rmult_lt_0_compat; lra. }
    assert (el' / m * (1 + u64) ^ 4 <= el' / m * 2) by (apply Rmult_le_compat_l; lra). simpl (/ 2 ^ 2). nra.
  - pose proof (gap m g u Hm Hu) as G. assert (Q0 : 0 <= q) by lra.
    assert (W0 : 0 < u * m - g * m). { pose proof (um_pos m g u Hm Hg Hu). lra. }
    replace (d / (1 + q)) with (d * ((u * m - g * m) / (u * m * (1 + q) - g * m * (1 + q)))).
    2: { replace (u * m * (1 + q) - g * m * (1 + q)) with ((u * m - g * m) * (1 + q)) by ring. field. split; lra. }
    unfold kf. pose proof (um_pos m g u Hm Hg Hu) as PB. pose proof (lm_le m g u Hm Hg Hu) as PL.
    assert (D : u * m * (1 + q) - g * m * (1 + q) = (u * m - g * m) * (1 + q)) by ring.
    apply (ratio_near m g u Hm Hg Hu el' eu' (g * m * (1 + q)) (u * m * (1 + q)) (4001 / 1000 * u64 * ((1 + q) / 2)) ka d); try apply b64_double; auto.
    + rewrite ka_INR. lra.
    + apply Rmult_le_pos; nra.
    + nra.
    + eapply Rle_trans; [apply (near_abs 4 (4001 / 1000 * u64)); [nra|exact Ng|apply up4]|].
      replace (4001 / 1000 * u64 * ((1 + q) / 2) * (2 * (u * m))) with (4001 / 1000 * u64 * (u * m * (1 + q))) by field. apply Rmult_le_compat_l; [lra|]. apply Rmult_le_compat_r; lra.
    + eapply Rle_trans; [apply (near_abs 4 (4001 / 1000 * u64)); [nra|exact Nu|apply up4]|]. right. field.
    + rewrite D. nra.
    + rewrite D. assert ((u * m - g * m) * (1 + q) <= (u * m) * 2) by (apply Rmult_le_compat; lra). lra.
    + rewrite D, ka_INR. set (B := u * m) in *. set (w := B - g * m) in *.
      replace (2004 / 1000 * (4001 / 1000 * u64 * ((1 + q) / 2)) * (2 * B)) with (u64 * (1 + q) * (2004 / 1000 * (4001 / 1000) * B)) by field.
      replace (80400 * u64 * (w * (1 + q))) with (u64 * (1 + q) * (80400 * w)) by ring. apply Rmult_le_compat_l; [nra|]. lra.
Qed.
End Fermi.
Lemma up_frac k : INR k * u64 < 1 -> (1 + u64) ^ k <= / (1 - INR k * u64).
Proof.
  intros H. apply (Rmult_le_reg_r (1 - INR k * u64)); [lra|]. rewrite Rinv_l by lra. pose proof u64_pos as U.
  induction k as [|k IH]; [simpl; lra|]. rewrite S_INR in *. pose proof (pos_INR k) as P. specialize (IH ltac:(nra)). simpl pow.
  replace ((1 + u64) * (1 + u64) ^ k * (1 - (INR k + 1) * u64)) with ((1 + u64) ^ k * ((1 - INR k * u64) - (INR k + 1) * u64 * u64)) by ring.
  eapply Rle_trans; [|exact IH]. apply Rmult_le_compat_l; [left; apply up_pos|]. assert (0 <= (INR k + 1) * u64 * u64) by (apply Rmult_le_pos; nra). lra.
Qed.
Lemma up_two k : INR k * u64 <= 1 / 2 -> (1 + u64) ^ k <= 2.
Proof. intros H. eapply Rle_trans; [apply up_frac; lra|]. replace 2 with (/ (1 / 2)) by field. apply Rinv_le_contravar; lra. Qed.
Lemma near_size k a b e : 0 < b -> near k a b -> INR k * u64 <= 1 / 2 -> INR k * u64 <= e * (1 - INR k * u64) -> Rabs (a - b) <= e * b.
Proof.
  intros Hb N H1 H2. pose proof u64_pos as U. pose proof (pos_INR k) as I. assert (V : 0 <= INR k * u64) by (apply Rmult_le_pos; lra).
  apply (near_abs k); [lra|auto|]. eapply Rle_trans; [apply up_frac; lra|]. set (v := INR k * u64) in *.
  apply (Rmult_le_reg_r (1 - v)); [lra|]. rewrite Rinv_l by lra. lra.
Qed.
Lemma kf_INR : INR kf = 100554.
Proof. unfold kf. rewrite !plus_INR, !S_INR, kw_INR, ka_INR. simpl. lra. Qed.
Lemma fermi_run_S rnd m acc dt n s : fermi_run rnd m acc dt (S n) s = fermi_pass rnd m acc dt (fermi_run rnd m acc dt n s).
Proof. revert s. induction n as [|n IH]; intros s; [reflexivity|]. change (fermi_run rnd m acc dt (S (S n)) s) with (fermi_run rnd m acc dt (S n) (fermi_pass rnd m acc dt s)). rewrite IH. reflexivity. Qed.

Theorem C106_fermi : forall m acc dt g d n, double m -> double g ->
  / 2 ^ 200 <= m -> 0 < acc <= 2 ^ 200 -> / 2 ^ 200 <= dt -> dt <= acc -> 1 <= g -> 0 < d -> INR n <= 1000000000 ->
  / 2 ^ 1000 <= d / (1 + dt / acc) ^ n ->
  let p := fermi_run binary64 m acc dt n (g, d) in
  let g' := g * (1 + dt / acc) ^ n in let d' := d / (1 + dt / acc) ^ n in
  Rabs (fst p - g') <= 6 / 10 ^ 16 * INR n * g' /\ Rabs (snd p - d') <= 12 / 10 ^ 12 * INR n * d'.
Proof.
  intros m acc dt g d n Dm Dg Hm Ha Hdt Hq Hg Hd Hn Hlo p g' d'. apply double_is in Dm, Dg.
  pose proof (q_range acc dt Ha Hdt Hq) as Q. set (q := dt / acc) in *. pose proof u64_tiny as U1. pose proof u64_pos as U. pose proof (pos_INR n) as Pn.
  assert (R : forall k, (k <= n)%nat -> let s := fermi_run binary64 m acc dt k (g, d) in
    is_double (fst s) /\ near (5 * k) (fst s) (g * (1 + q) ^ k) /\ near (kf * k) (snd s) (d / (1 + q) ^ k)).
  { intros k. induction k as [|k IH]; intros Hk s.
    - subst s. cbn [fermi_run fst snd]. rewrite !Nat.mul_0_r. cbn [pow]. split; auto. split; [rewrite Rmult_1_r; apply near_refl; lra|].
      replace (d / 1) with d by field. apply near_refl; lra.
    - specialize (IH ltac:(lia)). cbn zeta in IH. subst s. rewrite fermi_run_S. set (s := fermi_run binary64 m acc dt k (g, d)) in *. destruct IH as (I1 & I2 & I3).
      assert (Ik : INR k <= 1000000000) by (apply le_INR in Hk; rewrite S_INR in Hk; lra). pose proof (pos_INR k) as Pk.
      assert (P1 : 1 <= (1 + q) ^ k) by (apply pow_R1_Rle; lra). assert (Pd : 0 < d / (1 + q) ^ k) by (apply Rdiv_lt_0_compat; lra).
      assert (G1 : 1 / 2 <= fst s).
      { destruct I2 as [_ I2]. assert (T : (1 + u64) ^ (5 * k) <= 2) by (apply up_two; rewrite mult_INR; simpl (INR 5); nra).
        assert (0 < fst s). { apply (Rmult_lt_reg_r ((1 + u64) ^ (5 * k))); [apply up_pos|]. nra. }
        assert (fst s * (1 + u64) ^ (5 * k) <= fst s * 2) by (apply Rmult_le_compat_l; lra). nra. }
      assert (D1 : / 2 ^ 1002 <= snd s).
      { assert (T : (1 + u64) ^ (kf * k) <= 2) by (apply up_two; rewrite mult_INR, kf_INR; nra).
        pose proof (near_pos _ _ _ I3 Pd) as Ps. destruct I3 as [_ I3].
        assert (snd s * (1 + u64) ^ (kf * k) <= snd s * 2) by (apply Rmult_le_compat_l; lra).
        assert (L : / 2 ^ 1000 <= d / (1 + q) ^ k). { eapply Rle_trans; [exact Hlo|]. unfold Rdiv. apply Rmult_le_compat_l; [lra|]. apply Rinv_le_contravar; [lra|]. apply Rle_pow; [lra|lia]. }
        replace (/ 2 ^ 1002) with (/ 2 ^ 1000 / 4). 2: { change (2 ^ 1002) with (2 * (2 * 2 ^ 1000)). rewrite !Rinv_mult. field; try (apply pow_nonzero; lra). }
        assert (0 < / 2 ^ 1000) by (apply Rinv_0_lt_compat, pow_lt; lra). lra. }
      pose proof (pass_near m acc dt Hm Ha Hdt Hq (fst s) (snd s) I1 G1 D1) as Hp. cbn zeta in Hp. fold q in Hp. destruct s as [gs ds]. cbn [fst snd] in Hp, I1, I2, I3, G1, D1. destruct Hp as (H1 & H2 & H3). split; auto.
      replace (5 * S k)%nat with (5 + 5 * k)%nat by lia. replace (kf * S k)%nat with (kf + kf * k)%nat by lia. split.
      + apply near_trans with (gs * (1 + q)); auto. replace (g * (1 + q) ^ S k) with ((1 + q) * (g * (1 + q) ^ k)) by (simpl; ring). rewrite (Rmult_comm gs). apply near_scale; auto. lra.
      + apply near_trans with (ds / (1 + q)); auto. replace (d / (1 + q) ^ S k) with (/ (1 + q) * (d / (1 + q) ^ k)) by (simpl; field; split; [apply pow_nonzero|]; lra).
        unfold Rdiv at 1. rewrite (Rmult_comm ds). apply near_scale; auto. left. apply Rinv_0_lt_compat. lra. }
  destruct (R n (le_n n)) as (_ & R2 & R3). fold p in R2, R3. assert (P1 : 1 <= (1 + q) ^ n) by (apply pow_R1_Rle; lra).
  split.
  - apply (near_size (5 * n)); auto; try (rewrite mult_INR; simpl (INR 5)); [unfold g'; nra|nra|].
    set (N := INR n) in *. assert (E : N * u64 <= / 9000000) by nra. replace ((1 + 1 + 1 + 1 + 1) * N * u64) with (5 * (N * u64)) by ring.
    assert (N * u64 * (54 / 10) <= 6 / 10 ^ 16 * N). { replace (6 / 10 ^ 16 * N) with (N * (6 / 10 ^ 16)) by ring. rewrite Rmult_assoc. apply Rmult_le_compat_l; lra. }
    assert (0 <= N * u64) by nra. assert (6 / 10 ^ 16 * N * (5 * (N * u64)) <= 6 / 10 ^ 16 * N * (5 / 9000000)) by (apply Rmult_le_compat_l; lra). lra.
  - apply (near_size (kf * n)); auto; try (rewrite mult_INR, kf_INR); [unfold d'; apply Rdiv_lt_0_compat; lra|nra|].
    set (N := INR n) in *. assert (E : N * u64 <= / 9000000) by nra. replace (100554 * N * u64) with (100554 * (N * u64)) by ring.
    assert (N * u64 * 108000 <= 12 / 10 ^ 12 * N). { replace (12 / 10 ^ 12 * N) with (N * (12 / 10 ^ 12)) by ring. rewrite Rmult_assoc. apply Rmult_le_compat_l; lra. }
    assert (0 <= N * u64) by nra. assert (12 / 10 ^ 12 * N * (100554 * (N * u64)) <= 12 / 10 ^ 12 * N * (100554 * / 9000000)) by (apply Rmult_le_compat_l; lra). lra.
Qed.
Print Assumptions C106_fermi.

(** one pass with any energy changes *)
Definition kg : nat := Z.to_nat 104600.
Lemma kg_INR : INR kg = 104600.
Proof. unfold kg. rewrite INR_IZR_INZ, Z2Nat.id by lia. reflexivity. Qed.
Lemma fl_abs x : / 2 ^ 1000 <= x -> Rabs (binary64 x - x) <= u64 * x.
Proof. intros H. apply (near_abs 1 u64); [pose proof (lo_pos _ _ H); lra|apply (fl_near_lo 1000); auto; lia|apply up1]. Qed.

Theorem C106_step : forall m l al au d, double l -> / 2 ^ 200 <= m -> 1 <= l -> / 2 ^ 1000 <= d ->
  let u := upper_edge binary64 l in
  let r := moved_bin binary64 m l u al au d in
  Rabs al <= l * m / 2 -> Rabs au <= u * m / 2 -> (u * m - l * m) / 2 <= (u * m + au) - (l * m + al) ->
  let d' := d * (u * m - l * m) / ((u * m + au) - (l * m + al)) in
  Rabs (fst (fst r) - (l + al / m)) <= 5 / 10 ^ 16 * l /\ Rabs (snd r - d') <= 14 / 10 ^ 12 * d'.
Proof.
  intros m l al au d Dl Hm Hl Hd u r Hal Hau HW d'. apply double_is in Dl. destruct (edge_range l Dl ltac:(lra)) as [Du Hu]. fold u in Du, Hu.
  assert (Hl2 : 1 / 2 <= l) by lra. assert (Hu2 : 1 / 2 <= u) by lra. pose proof (lo_pos _ _ Hm) as M. pose proof u64_tiny as U1. pose proof u64_pos as U.
  pose proof (gap m l u Hm Hu) as G. pose proof (um_pos m l u Hm Hl2 Hu) as PU. pose proof (lm_le m l u Hm Hl2 Hu) as PL.
  assert (A : forall g a, 1 / 2 <= g -> Rabs a <= g * m / 2 -> let e := energy binary64 m g in let e' := binary64 (e + a) in Rabs (e' - (g * m + a)) <= 2501 / 1000 * u64 * (g * m) /\ 0 < g * m).
  { intros g a Hg Ha e e'. assert (Pg : / 2 ^ 201 <= g * m) by (apply (lo_mult 1 200); auto; simpl; lra). pose proof (lo_pos _ _ Pg) as Pg0. split; auto.
    assert (E1 : Rabs (e - g * m) <= u64 * (g * m)) by (apply (near_abs 1 u64); [lra|apply energy_near; auto|apply up1]).
    assert (u64 * (g * m) <= / 1000000 * (g * m)) by (apply Rmult_le_compat_r; lra).
    assert (S1 : / 2 ^ 1000 <= e + a).
    { apply Rle_trans with (/ 2 ^ 204).
      - apply Rinv_le_contravar; [apply pow_lt; lra|]. apply Rle_pow; [lra|lia].
      - replace (/ 2 ^ 204) with (/ 2 ^ 201 / 8). 2: { change (2 ^ 204) with (2 * (2 * (2 * 2 ^ 201))). rewrite !Rinv_mult. field; try (apply pow_nonzero; lra). }
        apply Rabs_le_between in E1. apply Rabs_le_between in Ha. lra. }
    pose proof (fl_abs _ S1) as E2. fold e' in E2.
    assert (E3 : u64 * (e + a) <= u64 * (15001 / 10000 * (g * m))).
    { apply Rmult_le_compat_l; [lra|]. apply Rabs_le_between in E1. apply Rabs_le_between in Ha. lra. }
    apply Rabs_le_between in E1. apply Rabs_le_between in E2. apply Rabs_le. lra. }
  destruct (A l al Hl2 Hal) as [El Pl]. destruct (A u au Hu2 Hau) as [Eu _].
  set (el' := binary64 (energy binary64 m l + al)) in *. set (eu' := binary64 (energy binary64 m u + au)) in *.
  change r with ((binary64 (el' / m), binary64 (eu' / m)), binary64 (d * binary64 (binary64 (energy binary64 m u - energy binary64 m l) / binary64 (eu' - el')))). cbn [fst snd]. clear r A.
  assert (Im : 0 < / m) by (apply Rinv_0_lt_compat; auto).
  split.
  - assert (Z1 : Rabs (al / m) <= l / 2).
    { unfold Rdiv at 1. rewrite Rabs_mult, (Rabs_pos_eq (/ m)) by lra. apply (Rmult_le_reg_r m); auto. rewrite Rmult_assoc, Rinv_l by lra. lra. }
    assert (Z2 : Rabs (el' / m - (l + al / m)) <= 2501 / 1000 * u64 * l).
    { replace (el' / m - (l + al / m)) with ((el' - (l * m + al)) * / m) by (field; lra). rewrite Rabs_mult, (Rabs_pos_eq (/ m)) by lra.
      apply (Rmult_le_reg_r m); auto. rewrite Rmult_assoc, Rinv_l by lra. lra. }
    assert (u64 * l <= / 1000000 * l) by (apply Rmult_le_compat_r; lra). set (x := el' / m) in *. clearbody x.
    assert (X : / 2 ^ 1000 <= x).
    { apply Rle_trans with (/ 2 ^ 2); [apply Rinv_le_contravar; [apply pow_lt; lra|apply Rle_pow; [lra|lia]]|]. apply Rabs_le_between in Z1. apply Rabs_le_between in Z2. simpl. lra. }
    pose proof (fl_abs _ X) as Z3. assert (Z4 : u64 * x <= u64 * (15001 / 10000 * l)).
    { apply Rmult_le_compat_l; [lra|]. apply Rabs_le_between in Z1. apply Rabs_le_between in Z2. lra. }
    apply Rabs_le_between in Z3. apply Rabs_le_between in Z2. assert (u64 * l * 41 / 10 <= 5 / 10 ^ 16 * l).
    { assert (u64 * l <= 12 / 10 ^ 17 * l) by (apply Rmult_le_compat_r; lra). lra. }
    apply Rabs_le. lra.
  - assert (W0 : 0 < u * m - l * m) by lra. assert (W1 : 0 < u * m + au - (l * m + al)) by lra.
    assert (Hd2 : / 2 ^ 1002 <= d). { eapply Rle_trans; [|exact Hd]. apply Rinv_le_contravar; [apply pow_lt; lra|apply Rle_pow; [lra|lia]]. }
    pose proof (lo_pos _ _ Hd) as Pd. set (B := u * m) in *. set (C := l * m) in *.
    assert (Hc : forall z, z <= 2501 / 1000 * u64 * C \/ z <= 2501 / 1000 * u64 * B -> z <= 1251 / 1000 * u64 * (2 * B)).
    { intros z Hz. assert (u64 * C <= u64 * B) by (apply Rmult_le_compat_l; lra). assert (0 <= u64 * B) by nra. destruct Hz; lra. }
    pose proof (ratio_near m l u Hm Hl2 Hu el' eu' (C + al) (B + au) (1251 / 1000 * u64) kg d) as RN.
    specialize (RN ltac:(apply b64_double) ltac:(apply b64_double) Hd2 ltac:(rewrite kg_INR; lra) ltac:(lra) ltac:(lra)).
    specialize (RN (Hc _ (or_introl El)) (Hc _ (or_intror Eu)) HW).
    assert (H4 : B + au - (C + al) <= 4 * B) by (apply Rabs_le_between in Hal; apply Rabs_le_between in Hau; lra). specialize (RN H4).
    assert (HK : 2004 / 1000 * (1251 / 1000 * u64) * (2 * B) <= INR kg * u64 * (B + au - (C + al))).
    { rewrite kg_INR. replace (2004 / 1000 * (1251 / 1000 * u64) * (2 * B)) with (u64 * (2004 / 1000 * (1251 / 1000) * 2 * B)) by ring.
      replace (104600 * u64 * (B + au - (C + al))) with (u64 * (104600 * (B + au - (C + al)))) by ring. apply Rmult_le_compat_l; lra. }
    specialize (RN HK). cbn zeta in RN.
    assert (ED : d * ((u * m - l * m) / (B + au - (C + al))) = d') by (unfold d', B, C, Rdiv; ring). rewrite ED in RN.
    assert (NK : INR (S kw + S kg + 2) = 124754) by (rewrite !plus_INR, !S_INR, kw_INR, kg_INR; simpl; lra).
    apply (near_size (S kw + S kg + 2)).
    + unfold d'. apply Rdiv_lt_0_compat; auto. apply Rmult_lt_0_compat; auto.
    + exact RN.
    + rewrite NK. lra.
    + rewrite NK. lra.
Qed.
Print Assumptions C106_step.

(** without energy changes no density is lost to rounding, not even the last digit *)
Theorem C106_still : forall m l u d, double d -> energy binary64 m l < energy binary64 m u ->
  snd (moved_bin binary64 m l u 0 0 d) = d.
Proof.
  intros m l u d Dd H. apply double_is in Dd. unfold moved_bin. cbn [snd]. rewrite !Rplus_0_r. rewrite !(b64_id (energy binary64 _ _)) by apply b64_double.
  set (w := binary64 (energy binary64 m u - energy binary64 m l)).
  assert (P : 0 < w). { pose proof (fl_near_minus (energy binary64 m u) (energy binary64 m l) ltac:(apply b64_double) ltac:(apply b64_double) ltac:(lra)) as N. apply (near_pos _ _ _ N). lra. }
  assert (D1 : is_double 1). { apply double_is. exists 1%Z, 0%Z. split; [lia|]. split; [lia|]. simpl. ring. }
  replace (w / w) with 1 by (field; lra). rewrite (b64_id 1) by auto. rewrite Rmult_1_r. apply b64_id; auto.
Qed.
Print Assumptions C106_still.

Example C106_case :
  (let p := fermi_run binary64 1 2 1 3 (100, 8) in Rabs (fst p - 675 / 2) <= / 10 ^ 12 /\ Rabs (snd p - 64 / 27) <= / 10 ^ 9) /\
  (let r := moved_bin binary64 1 1 2 1 2 5 in within 4 (snd r * 2) 5) /\
  (let r := moved_bin binary64 1 100 (upper_edge binary64 100) 25 (upper_edge binary64 100 / 4) 8 in
   Rabs (fst (fst r) - 125) <= / 10 ^ 13 /\ Rabs (snd r - 64 / 10) <= / 10 ^ 10) /\
  energy binary64 1 1 < energy binary64 1 2.
Proof.
  assert (D : forall n : Z, (Z.abs n < 2 ^ 53)%Z -> double (IZR n)). { intros n H. exists n, 0%Z. split; auto. split; [lia|]. simpl. ring. }
  assert (F : forall n : Z, (Z.abs n < 2 ^ 53)%Z -> binary64 (IZR n) = IZR n). { intros n H. apply b64_id, double_is, D. auto. }
  assert (small : forall n, / 2 ^ n <= 1). { intros n. apply Rle_trans with (/ 1); [|lra]. apply Rinv_le_contravar; [lra|]. apply pow_R1_Rle. lra. }
  assert (big : 2 <= 2 ^ 200). { replace 2 with (2 ^ 1) at 1 by ring. apply Rle_pow; [lra|lia]. }
  assert (half : / 2 ^ 1000 <= 1 / 2). { replace (1 / 2) with (/ 2 ^ 1) by (simpl; field). apply Rinv_le_contravar; [lra|]. apply Rle_pow; [lra|lia]. }
  split; [|split; [|split]].
  - intros p. destruct (C106_fermi 1 2 1 100 8 3) as [A B]; try apply D; try apply small; try lra; try lia; [simpl; lra|]. fold p in A, B.
    simpl (INR 3) in *. replace (100 * (1 + 1 / 2) ^ 3) with (675 / 2) in A by (simpl; field). replace (8 / (1 + 1 / 2) ^ 3) with (64 / 27) in B by (simpl; field). lra.
  - intros r. pose proof (C106_conserved 1 1 2 1 2 5 (D 5%Z ltac:(lia))) as H. cbn zeta in H. unfold energy in H. fold r in H.
    rewrite (Rmult_1_l 1), (Rmult_1_r 2), (F 1%Z ltac:(lia)), (F 2%Z ltac:(lia)) in H. replace (1 + 1) with 2 in H by ring. replace (2 + 2) with 4 in H by ring.
    rewrite (F 2%Z ltac:(lia)), (F 4%Z ltac:(lia)) in H. replace (4 - 2) with 2 in H by ring. replace (2 - 1) with 1 in H by ring. rewrite Rmult_1_r in H. apply H; try lra.
  - intros r. destruct (edge_range 100 (proj1 (double_is _) (D 100%Z ltac:(lia))) ltac:(lra)) as [_ E].
    assert (K := C106_step 1 100 25 (upper_edge binary64 100 / 4) 8 (D 100%Z ltac:(lia)) (small _) ltac:(lra) ltac:(pose proof (small 1000%nat); lra)). cbn zeta in K. fold r in K.
    set (u := upper_edge binary64 100) in *. destruct K as [A B].
    + rewrite Rabs_pos_eq by lra. lra.
    + rewrite Rabs_pos_eq by lra. lra.
    + lra.
    + replace (8 * (u * 1 - 100 * 1) / (u * 1 + u / 4 - (100 * 1 + 25))) with (64 / 10) in B by (field; lra). replace (100 + 25 / 1) with 125 in A by field. lra.
  - unfold energy. rewrite !Rmult_1_r. rewrite (F 1%Z ltac:(lia)), (F 2%Z ltac:(lia)). lra.
Qed.
