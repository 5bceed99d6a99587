(** C92: acceleration against synchrotron losses. *)
From Coquelicot Require Import Rcomplements.
From Verif Require Import Base MathUtils Conversion Spectra Blob Synchrotron SSC Losses Props_Blob.
From Verif Require Import TEUtils TimeEvolution ListFacts TEIndexFacts TEStageFacts TEStepFacts TELoopFacts TEInv TEForward TEZero Spec_TE NumpyInst TEShift TEExamples Spec_Move TEMove Cooling Props_Move.

(** energy changes that keep the order and the range (0, X] of the Lorentz factors *)
Section Flow.
Variable np : numpy.
Hypothesis Hlg : forall x y, 0 < x -> x < y -> lg np x < lg np y.
Variables (E : R -> R) (m t X : R).
Hypothesis Mono : forall me x y, 0 < x -> x < y -> y <= X * (1 + 1 / 10000) -> moved me E m t x < moved me E m t y.
Hypothesis Pos : forall me x, 0 < x -> x <= X -> 0 < moved me E m t x <= X.
Let zero : R -> R := fun _ => 0.

Definition in_flow (pts : list (R * R)) : Prop :=
  (forall g v, In (g, v) pts -> 0 < g <= X /\ 0 <= v) /\ adj Rlt (map fst pts) /\ populated (map snd pts).

Lemma flow_step me pts : in_flow pts -> in_flow (map (after_step me E zero zero m t) pts) /\ legitimate np me E zero zero m t pts.
Proof.
  intros (S1 & S2 & S3).
  assert (Mo : forall g v, In (g, v) pts -> 0 < moved me E m t g < moved me E m t (g * (1 + 1 / 10000))).
  { intros g v Hin. destruct (S1 g v Hin) as ([G1 G2] & G3). split; [apply Pos; auto|]. apply Mono; auto; [lra|]. apply Rmult_le_compat_r; lra. }
  assert (St : forall g v, In (g, v) pts -> exists w, 0 < w /\ after_step me E zero zero m t (g, v) = (moved me E m t g, v * w)).
  { intros g v Hin. destruct (S1 g v Hin) as ([G1 G2] & G3). specialize (Mo g v Hin). eexists. split; [|unfold after_step, zero; f_equal; rewrite Rmult_0_r, Rplus_0_r, Rmult_0_l, Rplus_0_r; reflexivity].
    apply Rdiv_lt_0_compat; lra. }
  assert (Or : adj Rlt (map fst (map (after_step me E zero zero m t) pts))).
  { intros i a b Ha Hb. rewrite map_map, nth_error_map in Ha, Hb.
    destruct (nth_error pts i) as [[ga va]|] eqn:Ea; [|discriminate]. destruct (nth_error pts (S i)) as [[gb vb]|] eqn:Eb; [|discriminate].
    pose proof (nth_error_In _ _ Ea) as Ia. pose proof (nth_error_In _ _ Eb) as Ib. simpl in Ha, Hb. injection Ha as <-. injection Hb as <-.
    destruct (S1 ga va Ia) as ([G1 G2] & _). destruct (S1 gb vb Ib) as ([G3 G4] & _).
    apply Mono; auto; [|lra]. apply (S2 i); rewrite nth_error_map; [rewrite Ea|rewrite Eb]; auto. }
  assert (Po : populated (map snd (map (after_step me E zero zero m t) pts))).
  { apply populated_map; auto. intros [g v] Hin. destruct (St g v Hin) as (w & Hw & ->). simpl. split; [|intros ->; ring]. intros Y. apply Rmult_integral in Y. destruct Y; lra. }
  assert (Nn : forall g v, In (g, v) (map (after_step me E zero zero m t) pts) -> 0 < g <= X /\ 0 <= v).
  { intros g v Hin. apply in_map_iff in Hin as ([g0 v0] & Eq & Hin). destruct (St g0 v0 Hin) as (w & Hw & Es). rewrite Es in Eq. injection Eq as <- <-.
    destruct (S1 g0 v0 Hin) as ([G1 G2] & G3). split; [apply Pos; auto|apply Rmult_le_pos; lra]. }
  split; [split; auto|]. split; [|split; [|split]]; auto.
  - intros i g g' Hg Hg'. apply Hlg; [|apply (Or i); auto]. apply nth_error_In in Hg. apply in_map_iff in Hg as ([x v] & <- & Hin). simpl. apply (Nn x v Hin).
  - intros g v Hin. apply (Nn g v Hin).
Qed.
Lemma flow_steps me i pts : in_flow pts -> in_flow (map (after_steps i me E zero zero m t) pts).
Proof.
  intros H. unfold after_steps. induction i as [|i IH]; [simpl; rewrite map_id; auto|].
  replace (map (Nat.iter (S i) (after_step me E zero zero m t)) pts) with (map (after_step me E zero zero m t) (map (Nat.iter i (after_step me E zero zero m t)) pts)).
  - apply flow_step. auto.
  - rewrite map_map. auto.
Qed.
Lemma fst_steps me i g v : fst (after_steps i me E zero zero m t (g, v)) = Nat.iter i (moved me E m t) g.
Proof.
  unfold after_steps. induction i as [|i IH]; auto.
  change (Nat.iter (S i) (after_step me E zero zero m t) (g, v)) with (after_step me E zero zero m t (Nat.iter i (after_step me E zero zero m t) (g, v))).
  change (Nat.iter (S i) (moved me E m t) g) with (moved me E m t (Nat.iter i (moved me E m t) g)). rewrite <- IH.
  destruct (Nat.iter i (after_step me E zero zero m t) (g, v)) as [x y]. reflexivity.
Qed.
End Flow.

(** a run with energy changes only *)
Lemma flow_run np E m t X T k gs ns ne me ens : numpy_ok np -> (forall x y, 0 < x -> x < y -> lg np x < lg np y) -> 0 < m -> 0 < t -> T = INR k * t ->
  (forall me x y, 0 < x -> x < y -> y <= X * (1 + 1 / 10000) -> moved me E m t x < moved me E m t y) ->
  (forall me x, 0 < x -> x <= X -> 0 < moved me E m t x <= X) -> total_rate ens = E ->
  gs <> [] -> (forall g, In g gs -> 0 < g <= X) -> increasing gs -> dist_call np ne gs = (gs, ns) -> nonneg ns -> populated ns ->
  exists d recs x, evaluate np (rates_cfg T t ens [] [] m gs me) k ne = (d, recs, Ok x) /\ length recs = k /\ r_time x = T /\
    r_gamma x = map (Nat.iter k (moved me E m t)) gs /\
    (forall i y, nth_error recs i = Some y -> r_time y = INR (S i) * t /\ r_gamma y = map (Nat.iter (S i) (moved me E m t)) gs).
Proof.
  intros Hnp Hlg Hm Ht ET Mono Pos EE Hne Pg Inc En Nn Po.
  assert (Ln : length ns = length gs). { pose proof (dist_call_length np ne gs) as Y. rewrite En in Y. simpl in Y. apply Y. }
  assert (F1 : map fst (combine gs ns) = gs) by (clear - Ln; revert ns Ln; induction gs as [|g l IH]; intros [|v ns] Ln; try discriminate; auto; simpl; f_equal; apply IH; simpl in Ln; congruence).
  assert (F2 : map snd (combine gs ns) = ns) by (clear - Ln; revert ns Ln; induction gs as [|g l IH]; intros [|v ns] Ln; try discriminate; auto; simpl; f_equal; apply IH; simpl in Ln; congruence).
  assert (S0 : in_flow X (combine gs ns)).
  { split; [|rewrite F1, F2; split; auto].
    - intros g v Hin. pose proof (in_combine_l _ _ _ _ Hin). pose proof (in_combine_r _ _ _ _ Hin). split; auto.
    - intros i a b Ha Hb. apply (Inc i). split; auto. }
  destruct (C91_recursion np T t m ens [] [] gs me ne k ns) as (d & recs & x & H1 & H2 & H3 & H4 & H5 & H6); auto.
  { intros g Hg. apply Pg. auto. }
  { rewrite EE. intros i Hi. pose proof (flow_steps np Hlg E m t X Mono Pos me i _ S0) as Si. split; eapply (flow_step np Hlg E m t X Mono Pos); exact Si. }
  assert (G : forall j, map fst (map (after_steps j me E (fun _ => 0) (fun _ => 0) m t) (combine gs ns)) = map (Nat.iter j (moved me E m t)) gs).
  { intros j. rewrite <- F1 at 2. rewrite !map_map. apply map_ext. intros [g v]. simpl. apply fst_steps. }
  exists d, recs, x. split; auto. split; auto. split; auto. split.
  - rewrite H4, EE. apply G.
  - intros i y Hy. destruct (H6 i y Hy) as (Q1 & Q2 & _). split; auto. rewrite Q2, EE. apply G.
Qed.

Section Balance.
Variables (a k m t : R) (E : R -> R) (X : R).
(** per step: relative gain [a], relative loss [k x] *)
Hypothesis HE : forall g, E g * t / m = a * g - k * g ^ 2.
Hypothesis Ha : 0 < a <= 1 / 4.
Hypothesis Hk : 0 < k.
Hypothesis HX : a / k <= X.
Hypothesis HkX : k * X <= 1 / 4.

Definition pull (me : method_t) (x : R) : R := match me with Euler => k * x | Heun => k * (x + x * (1 + a - k * x) * (1 - k * x)) / 2 end.
Lemma E_over g : E g / 2 * t / m = (a * g - k * g ^ 2) / 2.
Proof. rewrite <- HE. unfold Rdiv. ring. Qed.
Lemma balance_moved me x : moved me E m t x = x + (a / k - x) * pull me x.
Proof.
  unfold moved, pull. destruct me.
  - rewrite HE. field. lra.
  - set (y := x + E x * t / m). assert (Ey : y = x * (1 + a - k * x)) by (unfold y; rewrite HE; ring).
    replace ((E x + E y) / 2 * t / m) with ((E x * t / m + E y * t / m) / 2) by (unfold Rdiv; ring). rewrite !HE, Ey. field. lra.
Qed.
Lemma pull_range me x : 0 < x <= X -> 3 / 4 * (k * x) <= pull me x < 1.
Proof.
  intros [H1 H2]. assert (Z : 0 < k * x <= 1 / 4). { split; [apply Rmult_lt_0_compat; lra|]. apply Rle_trans with (k * X); auto. apply Rmult_le_compat_l; lra. }
  unfold pull. destruct me; [lra|]. replace (k * (x + x * (1 + a - k * x) * (1 - k * x)) / 2) with (k * x * (1 + (1 + a - k * x) * (1 - k * x)) / 2) by field.
  set (z := k * x) in *. assert (9 / 16 <= (1 + a - z) * (1 - z) <= 5 / 4) by nra. split; nra.
Qed.
Lemma balance_drawn me x : 0 < x <= X -> drawn_to (a / k) (1 - 3 / 4 * (k * x)) x (moved me E m t x).
Proof.
  intros H. pose proof (pull_range me x H) as [P1 P2]. rewrite balance_moved. set (e := a / k). set (p := pull me x) in *.
  assert (Z : 0 < k * x) by (apply Rmult_lt_0_compat; lra). split; [|split].
  - intros. nra.
  - intros. nra.
  - replace (x + (e - x) * p - e) with ((1 - p) * (x - e)) by ring. rewrite Rabs_mult, (Rabs_right (1 - p)) by lra. apply Rmult_le_compat_r; [apply Rabs_pos|lra].
Qed.
Lemma balance_pos me x : 0 < x -> x <= X -> 0 < moved me E m t x <= X.
Proof.
  intros H1 H2. assert (He : 0 < a / k) by (apply Rdiv_lt_0_compat; lra). destruct (balance_drawn me x (conj H1 H2)) as (D1 & D2 & _).
  destruct (Rle_dec x (a / k)) as [L|L]; [specialize (D1 L)|specialize (D2 ltac:(lra))]; lra.
Qed.
Lemma balance_mono me x y : 0 < x -> x < y -> y <= X * (1 + 1 / 10000) -> moved me E m t x < moved me E m t y.
Proof.
  intros Hx Hxy Hy. assert (Zy : k * y <= 2501 / 10000). { apply Rle_trans with (k * (X * (1 + 1 / 10000))); [apply Rmult_le_compat_l; lra|lra]. }
  assert (Zx : 0 < k * x < k * y) by (split; [apply Rmult_lt_0_compat; lra|apply Rmult_lt_compat_l; lra]).
  assert (Ef : forall g, E g * t / m = a * g - k * g ^ 2) by exact HE. apply Rminus_gt_0_lt. unfold moved. destruct me.
  - rewrite !HE. replace (y + (a * y - k * y ^ 2) - (x + (a * x - k * x ^ 2))) with ((y - x) * (1 + a - (k * x + k * y))) by ring. apply Rmult_lt_0_compat; lra.
  - set (y1 := y + E y * t / m). set (x1 := x + E x * t / m). assert (Ey : y1 = y * (1 + a - k * y)) by (unfold y1; rewrite HE; ring). assert (Ex : x1 = x * (1 + a - k * x)) by (unfold x1; rewrite HE; ring).
    replace ((E y + E y1) / 2 * t / m) with ((E y * t / m + E y1 * t / m) / 2) by (unfold Rdiv; ring).
    replace ((E x + E x1) / 2 * t / m) with ((E x * t / m + E x1 * t / m) / 2) by (unfold Rdiv; ring). rewrite !HE.
    set (s := a - (k * x + k * y)). set (s1 := a - (k * x1 + k * y1)).
    replace (y + (a * y - k * y ^ 2 + (a * y1 - k * y1 ^ 2)) / 2 - (x + (a * x - k * x ^ 2 + (a * x1 - k * x1 ^ 2)) / 2)) with ((y - x) * (1 + s / 2 + (1 + s) * s1 / 2)).
    2: { unfold s, s1. rewrite Ey, Ex. field. }
    apply Rmult_lt_0_compat; [lra|]. assert (Hs : - (1 / 2 + 1 / 100) <= s <= 1 / 4) by (unfold s; lra).
    assert (Hy1 : k * y1 <= 32 / 100). { rewrite Ey. replace (k * (y * (1 + a - k * y))) with (k * y * (1 + a - k * y)) by ring. nra. }
    assert (Hx1 : k * x1 <= 32 / 100). { rewrite Ex. replace (k * (x * (1 + a - k * x))) with (k * x * (1 + a - k * x)) by ring. nra. }
    assert (Hs1 : - (64 / 100) <= s1) by (unfold s1; lra). nra.
Qed.

Lemma balance_iter me i x : 0 < x <= X ->
  let y := Nat.iter i (moved me E m t) x in
  0 < y <= X /\ drawn_to (a / k) ((1 - 3 / 4 * (k * Rmin x (a / k))) ^ i) x y /\ drawn_to (a / k) 1 y (moved me E m t y).
Proof.
  intros H. assert (He : 0 < a / k) by (apply Rdiv_lt_0_compat; lra). set (e := a / k) in *. set (c := 1 - 3 / 4 * (k * Rmin x e)).
  assert (Hc : 0 <= c). { assert (k * Rmin x e <= 1 / 4); [|unfold c; lra]. apply Rle_trans with (k * X); auto. apply Rmult_le_compat_l; [lra|]. eapply Rle_trans; [apply Rmin_l|lra]. }
  assert (D1 : forall y, 0 < y <= X -> drawn_to e 1 y (moved me E m t y)).
  { intros y Hy. destruct (balance_drawn me y Hy) as (B1 & B2 & B3). split; auto. split; auto. eapply Rle_trans; [exact B3|]. apply Rmult_le_compat_r; [apply Rabs_pos|]. assert (0 < k * y) by (apply Rmult_lt_0_compat; lra). lra. }
  induction i as [|i IH].
  - simpl. split; auto. split; auto. split; [lra|]. split; [lra|]. lra.
  - change (Nat.iter (S i) (moved me E m t) x) with (moved me E m t (Nat.iter i (moved me E m t) x)). cbv zeta in *. set (y := Nat.iter i (moved me E m t) x) in *.
    destruct IH as (Y1 & (Y2 & Y3 & Y4) & _). pose proof (balance_pos me y (proj1 Y1) (proj2 Y1)) as P. split; auto. split; auto.
    destruct (balance_drawn me y Y1) as (B1 & B2 & B3). fold e in B1, B2, B3. split; [|split].
    + intros L. specialize (Y2 L). specialize (B1 ltac:(lra)). lra.
    + intros L. specialize (Y3 L). specialize (B2 ltac:(lra)). lra.
    + simpl pow. eapply Rle_trans; [exact B3|]. rewrite Rmult_assoc. apply Rmult_le_compat; auto; [|apply Rabs_pos|].
      * assert (k * y <= 1 / 4). { apply Rle_trans with (k * X); auto. apply Rmult_le_compat_l; lra. } lra.
      * unfold c. assert (k * Rmin x e <= k * y); [|lra]. apply Rmult_le_compat_l; [lra|].
        destruct (Rle_dec x e) as [L|L]; [specialize (Y2 L); eapply Rle_trans; [apply Rmin_l|lra]|specialize (Y3 ltac:(lra)); eapply Rle_trans; [apply Rmin_r|lra]].
Qed.
End Balance.

Lemma pow2_pos x : x <> 0 -> 0 < x ^ 2.
Proof. intros H. pose proof (pow2_ge_0 x). pose proof (pow_nonzero x 2 H). lra. Qed.
Lemma some_inj {A} (x y : A) : Some x = Some y -> x = y.
Proof. congruence. Qed.

(** ** C92 *)
(** the two functions cancel at one Lorentz factor only *)
Theorem C92_balance_point P sy ta ne g : phys_ok P -> 0 < ta -> B_field (sy_blob sy) <> 0 -> 0 < g ->
  let K := 4 / 3 * c_sigmaT P * c_c P * (B_field (sy_blob sy) ^ 2 / (8 * PI)) / mec2_erg P in
  let p := {| fp_gamma := (g :: nil); fp_densities := []; fp_subgroups := [] |} in
  exists gain loss, fermi_acceleration P ta ne p = Ok (gain :: nil) /\ synchrotron_loss P sy ne p = Ok (loss :: nil) /\
    (g < 1 / (K * ta) -> gain + loss > 0) /\ (g = 1 / (K * ta) -> gain + loss = 0) /\ (g > 1 / (K * ta) -> gain + loss < 0).
Proof.
  intros HP Hta HB Hg K p. pose proof PI_RGT_0.
  assert (Hm : 0 < mec2_erg P). { destruct HP. unfold mec2_erg, rest_energy, mass_of. apply Rmult_lt_0_compat; auto. apply pow_lt; auto. }
  assert (HB2 : 0 < B_field (sy_blob sy) ^ 2) by (apply pow2_pos; auto).
  assert (HK : 0 < K). { destruct HP. unfold K. apply Rdiv_lt_0_compat; auto. apply Rmult_lt_0_compat; [apply Rmult_lt_0_compat; lra|]. apply Rdiv_lt_0_compat; lra. }
  exists (g * mec2_erg P / ta), (synch_loss_rate P sy g * -1). split; [reflexivity|]. split; [reflexivity|].
  assert (El : synch_loss_rate P sy g = K * mec2_erg P * g ^ 2).
  { unfold synch_loss_rate, U_B, B_cgs, B_to_cgs, K. field. split; lra. }
  rewrite El. assert (HKt : 0 < K * ta) by (apply Rmult_lt_0_compat; auto).
  replace (g * mec2_erg P / ta + K * mec2_erg P * g ^ 2 * -1) with (mec2_erg P * g / ta * (1 - K * ta * g)) by (field; lra).
  assert (Q : 0 < mec2_erg P * g / ta) by (apply Rdiv_lt_0_compat; auto; apply Rmult_lt_0_compat; auto).
  assert (Kg : K * ta * (1 / (K * ta)) = 1) by (field; lra).
  split; [|split]; intros C.
  - apply Rmult_lt_0_compat; auto. assert (K * ta * g < K * ta * (1 / (K * ta))) by (apply Rmult_lt_compat_l; auto). lra.
  - rewrite C, Kg. ring.
  - assert (K * ta * (1 / (K * ta)) < K * ta * g) by (apply Rmult_lt_compat_l; auto). nra.
Qed.
Print Assumptions C92_balance_point.

Theorem C92_drawn_to_balance np P sy ta T t k gs ns ne me n1 n2 : numpy_ok np -> (forall x y, 0 < x -> x < y -> lg np x < lg np y) -> phys_ok P ->
  B_field (sy_blob sy) <> 0 -> 0 < t -> t <= ta / 4 -> T = INR k * t ->
  gs <> [] -> (forall g, In g gs -> 0 < g) -> increasing gs -> dist_call np ne gs = (gs, ns) -> nonneg ns -> populated ns ->
  let K := 4 / 3 * c_sigmaT P * c_c P * (B_field (sy_blob sy) ^ 2 / (8 * PI)) / mec2_erg P in
  let e := 1 / (K * ta) in
  (forall g, In g gs -> K * g * t <= 1 / 4) ->
  exists d recs x, evaluate np (energy_cfg T t [(n1, fermi_acceleration P ta); (n2, synchrotron_loss P sy)] (mec2_erg P) gs me) k ne = (d, recs, Ok x) /\
    length recs = k /\ length (r_gamma x) = length gs /\
    (forall i g g', nth_error gs i = Some g -> nth_error (r_gamma x) i = Some g' -> drawn_to e ((1 - 3 / 4 * (K * t * Rmin g e)) ^ k) g g') /\
    (forall j y, nth_error recs j = Some y -> r_time y = INR (S j) * t /\ length (r_gamma y) = length gs /\
       (forall i g g', nth_error gs i = Some g -> nth_error (r_gamma y) i = Some g' -> drawn_to e ((1 - 3 / 4 * (K * t * Rmin g e)) ^ S j) g g') /\
       (forall y' i g' g'', nth_error recs (S j) = Some y' -> nth_error (r_gamma y) i = Some g' -> nth_error (r_gamma y') i = Some g'' -> drawn_to e 1 g' g'')).
Proof.
  intros Hnp Hlg HP HB Ht Hta ET Hne Pg Inc En Nn Po K e HKg. pose proof PI_RGT_0.
  assert (Hm : 0 < mec2_erg P). { destruct HP. unfold mec2_erg, rest_energy, mass_of. apply Rmult_lt_0_compat; auto. apply pow_lt; auto. }
  assert (HB2 : 0 < B_field (sy_blob sy) ^ 2) by (apply pow2_pos; auto).
  assert (HK : 0 < K). { destruct HP. unfold K. apply Rdiv_lt_0_compat; auto. apply Rmult_lt_0_compat; [apply Rmult_lt_0_compat; lra|]. apply Rdiv_lt_0_compat; lra. }
  assert (Hta0 : 0 < ta) by lra.
  set (ens := [(n1, fun g => g * mec2_erg P / ta); (n2, fun g => synch_loss_rate P sy g * -1)] : list named).
  set (a := t / ta). set (k' := K * t).
  assert (Hk' : 0 < k') by (apply Rmult_lt_0_compat; auto).
  assert (Ha : 0 < a <= 1 / 4). { unfold a. split; [apply Rdiv_lt_0_compat; lra|]. apply (proj2 (Rle_div_l _ _ _ Hta0)). lra. }
  assert (HE : forall g, total_rate ens g * t / mec2_erg P = a * g - k' * g ^ 2).
  { intros g. unfold total_rate, ens, a, k', K, synch_loss_rate, U_B, B_cgs, B_to_cgs. simpl. field. split; [lra|split; lra]. }
  set (X := 1 / (4 * k')). 
  assert (HkX : k' * X <= 1 / 4) by (right; unfold X; field; lra).
  assert (Eak : a / k' = e) by (unfold a, k', e; field; lra).
  assert (HX : a / k' <= X). { unfold X. apply (proj2 (Rle_div_l _ _ _ Hk')). replace (1 / (4 * k') * k') with (1 / 4) by (field; lra). lra. }
  assert (PgX : forall g, In g gs -> 0 < g <= X).
  { intros g Hg. split; auto. unfold X. assert (0 < 4 * k') by lra. apply (proj1 (Rle_div_r g 1 (4 * k') H0)). specialize (HKg g Hg). unfold k'. lra. }
  destruct (flow_run np (total_rate ens) (mec2_erg P) t X T k gs ns ne me ens) as (d & recs & x & H1 & H2 & H3 & H4 & H5); auto.
  { intros. eapply (balance_mono a k'); eauto. }
  { intros. eapply (balance_pos a k'); eauto. }
  assert (IT : forall j g, In g gs -> let y := Nat.iter j (moved me (total_rate ens) (mec2_erg P) t) g in
     drawn_to e ((1 - 3 / 4 * (K * t * Rmin g e)) ^ j) g y /\ drawn_to e 1 y (moved me (total_rate ens) (mec2_erg P) t y)).
  { intros j g Hg. pose proof (balance_iter a k' (mec2_erg P) t (total_rate ens) X HE Ha Hk' HX HkX me j g (PgX g Hg)) as (_ & D1 & D2). rewrite Eak in D1, D2. split; auto. }
  exists d, recs, x. split; [exact H1|]. split; auto. split; [rewrite H4; apply map_length|]. split.
  - intros i g g' Hg Hg'. rewrite H4, nth_error_map, Hg in Hg'. cbn [option_map] in Hg'. apply some_inj in Hg'. subst g'. apply IT. eapply nth_error_In; eauto.
  - intros j y Hy. destruct (H5 j y Hy) as [Q1 Q2]. split; auto. split; [rewrite Q2; apply map_length|]. split.
    + intros i g g' Hg Hg'. rewrite Q2, nth_error_map, Hg in Hg'. cbn [option_map] in Hg'. apply some_inj in Hg'. subst g'. apply IT. eapply nth_error_In; eauto.
    + intros y' i g' g'' Hy' Hg' Hg''. destruct (H5 (S j) y' Hy') as [_ Q3]. rewrite Q2, nth_error_map in Hg'. rewrite Q3, nth_error_map in Hg''.
      destruct (nth_error gs i) as [g|] eqn:Eg; [|discriminate]. cbn [option_map] in Hg', Hg''. apply some_inj in Hg'. apply some_inj in Hg''. subst g' g''. apply (IT (S j) g). eapply nth_error_In; eauto.
Qed.
Print Assumptions C92_drawn_to_balance.

(** acceleration time 10^6 s in a field of 1 G, twenty steps of 10^4 s *)
Example C92_case me : let sy := {| sy_blob := ex_blob; sy_ssa := false; sy_integ := trapz |} in
  exists d recs x, evaluate np0 (energy_cfg 200000 10000 [("gain"%string, fermi_acceleration codata 1000000); ("loss"%string, synchrotron_loss codata sy)] (mec2_erg codata) [10; 100; 1000] me) 20 ex_ne = (d, recs, Ok x) /\
    length recs = 20%nat /\ length (r_gamma x) = 3%nat.
Proof.
  intros sy. destruct (C92_drawn_to_balance np0 codata sy 1000000 200000 10000 20 [10; 100; 1000] [1; 1; 1] ex_ne me "gain"%string "loss"%string) as (d & recs & x & H1 & H2 & H3 & _).
  - apply np0_ok.
  - intros. apply log10_lt; auto.
  - apply codata_ok.
  - simpl. lra.
  - lra.
  - lra.
  - simpl. lra.
  - discriminate.
  - intros g H; simpl in H; intuition; subst; lra.
  - intros [|[|[|i]]] u v [A B]; simpl in A, B; try discriminate; try (destruct i; discriminate); injection A as <-; injection B as <-; lra.
  - simpl. unfold correct_bounds, correct_first, correct_last. decide_R. simpl. decide_R. simpl. decide_R. reflexivity.
  - intros v H; simpl in H; intuition; subst; lra.
  - right. simpl. decide_R. simpl. lia.
  - apply case_rate.
  - exists d, recs, x. auto.
Qed.
