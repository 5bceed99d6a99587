(** C91 and C92: runs whose rates depend on the Lorentz factor. *)
From Coquelicot Require Import Rcomplements.
From Verif Require Import Base MathUtils Conversion Spectra Blob Synchrotron SSC Losses Props_Blob.
From Verif Require Import TEUtils TimeEvolution ListFacts TEIndexFacts TEStageFacts TEStepFacts TELoopFacts TEInv TEForward TEZero Spec_TE NumpyInst TEShift TEExamples Spec_Move TEMove Cooling.

Section Bridge.
Variable np : numpy.
Variables (ens rels abss : list named) (m : R) (me : method_t).
Notation E := (total_rate ens).
Notation r := (total_rate rels).
Notation q := (total_rate abss).

Lemma mv_g_moved u g : mv_g m ens me u g = moved me E m u g.
Proof. unfold mv_g, pass_g, lo_rate, moved, pass_g. destruct me; rewrite !Rplus_0_l; auto. Qed.
Lemma mv_h_moved u g : pass_h m u (up_rate m ens me u) g = moved me E m u (g * (1 + 1 / 10000)).
Proof. unfold pass_h, up_rate, moved, pass_h, bin_size_factor. destruct me; rewrite !Rplus_0_l; auto. Qed.
Lemma mv_n_after u g v : mv_n m ens rels abss me u g v = snd (after_step me E r q m u (g, v)).
Proof. unfold mv_n, pass_n. fold (mv_g m ens me u g). rewrite mv_h_moved, mv_g_moved. reflexivity. Qed.

Definition unz (pts : list (R * R)) : list R * list R := (map fst pts, map snd pts).
Lemma evolve_unz u pts : evolve m ens rels abss me u (unz pts) = unz (map (after_step me E r q m u) pts).
Proof.
  unfold evolve, unz. simpl. rewrite !map_map. f_equal.
  - apply map_ext. intros [g v]. simpl. apply mv_g_moved.
  - rewrite TEShift.map2_map_l, map2_map_r, map2_diag. apply map_ext. intros [g v]. simpl fst. simpl snd. apply mv_n_after.
Qed.
Lemma run_unz t i pts : run t m ens rels abss me i (unz pts) = unz (map (after_steps i me E r q m t) pts).
Proof.
  unfold run, after_steps. induction i as [|i IH].
  - unfold unz. simpl. rewrite map_id. auto.
  - change (Nat.iter (S i) (evolve m ens rels abss me t) (unz pts)) with (evolve m ens rels abss me t (Nat.iter i (evolve m ens rels abss me t) (unz pts))).
    rewrite IH, evolve_unz, map_map. auto.
Qed.
End Bridge.

Lemma legit_passes np ens rels abss m me u pts : legitimate np me (total_rate ens) (total_rate rels) (total_rate abss) m u pts ->
  passes np m rels abss u (lo_rate m ens me u) (up_rate m ens me u) (map fst pts) (map snd pts).
Proof.
  intros (H1 & H2 & H3 & H4). unfold passes.
  assert (Eg : map (pass_g m u (lo_rate m ens me u)) (map fst pts) = map fst (map (after_step me (total_rate ens) (total_rate rels) (total_rate abss) m u) pts)).
  { rewrite !map_map. apply map_ext. intros [g v]. apply mv_g_moved. }
  assert (En : map2 (pass_n m rels abss u (lo_rate m ens me u) (up_rate m ens me u)) (map fst pts) (map snd pts) = map snd (map (after_step me (total_rate ens) (total_rate rels) (total_rate abss) m u) pts)).
  { rewrite TEShift.map2_map_l, map2_map_r, map2_diag, map_map. apply map_ext. intros [g v]. apply mv_n_after. }
  rewrite Eg, En. split; [|split; [|split]]; auto.
  - intros g Hg. apply in_map_iff in Hg as ([g0 v0] & <- & Hin). simpl fst. fold (mv_g m ens me u g0). rewrite mv_g_moved, mv_h_moved. eapply H1; eauto.
  - intros v Hv. apply in_map_iff in Hv as ([g0 v0] & <- & Hin). simpl. eapply H3; eauto.
Qed.

(** ** C91: the run is the stated recursion, grid point by grid point *)
Theorem C91_recursion np T t m ens rels abss gs me ne k ns : numpy_ok np -> 0 < m -> 0 < t -> T = INR k * t ->
  gs <> [] -> (forall g, In g gs -> 0 < g) -> dist_call np ne gs = (gs, ns) ->
  let E := total_rate ens in let r := total_rate rels in let q := total_rate abss in
  let points i := map (after_steps i me E r q m t) (combine gs ns) in
  (forall i, (i < k)%nat -> legitimate np Euler E r q m t (points i) /\ legitimate np me E r q m t (points i)) ->
  exists d recs x, evaluate np (rates_cfg T t ens rels abss m gs me) k ne = (d, recs, Ok x) /\ length recs = k /\
    r_time x = T /\ r_gamma x = map fst (points k) /\ r_dens x = map snd (points k) /\
    (forall i y, nth_error recs i = Some y -> r_time y = INR (S i) * t /\ r_gamma y = map fst (points (S i)) /\ r_dens y = map snd (points (S i))).
Proof.
  intros Hnp Hm Ht ET Hne P En E r q points HG.
  assert (Ln : length ns = length gs). { pose proof (dist_call_length np ne gs) as X. rewrite En in X. simpl in X. apply X. }
  assert (Eu : (gs, ns) = unz (combine gs ns)).
  { unfold unz. clear - Ln. revert ns Ln. induction gs as [|g l IH]; intros [|v ns] Ln; try discriminate; auto. simpl. simpl in Ln. specialize (IH ns ltac:(congruence)). injection IH as <- <-. auto. }
  destruct (mv_run np Hnp T t m ens rels abss gs me Hm Ht k ne ns) as (d & recs & x & H1 & H2 & H3 & H4 & H5 & H6); auto.
  - intros i Hi. destruct (HG i Hi) as [G1 G2]. rewrite Eu, run_unz. fold E r q. change (map (after_steps i me E r q m t) (combine gs ns)) with (points i). split.
    + apply (legit_passes np ens rels abss m Euler t (points i)). auto.
    + apply legit_passes. auto.
  - rewrite Eu, run_unz in H4, H5. fold E r q in H4, H5. exists d, recs, x. split; [auto|]. split; [auto|]. split; [auto|]. rewrite H4, H5.
    split; [auto|]. split; [auto|]. intros i y Hy. destruct (H6 i y Hy) as (A & B & C). split; auto. rewrite Eu, run_unz in B, C. rewrite B, C. auto.
Qed.
Print Assumptions C91_recursion.

(** ** C91: synchrotron cooling *)
Section Cool.
Variables (A m t : R) (me : method_t).
Hypothesis HA : 0 <= A.
Hypothesis Hm : 0 < m.
Hypothesis Ht : 0 < t.
Variable E : R -> R.
Hypothesis HE : forall g, E g = - (A * g ^ 2).
Let K := A / m.
Let zero : R -> R := fun _ => 0.

Lemma K_pos : 0 <= K.
Proof. unfold K. apply Rdiv_le_0_compat; auto. Qed.
Lemma cool_moved x : moved me E m t x = x * shrink me (K * t * x).
Proof. unfold moved, shrink, K. destruct me; rewrite !HE; field; lra. Qed.
Lemma cool_step x v : 0 < x -> K * t * x <= 1 / 4 ->
  after_step me E zero zero m t (x, v) = (x * shrink me (K * t * x), v * / spread me (K * t * x)).
Proof.
  intros Hx Hz. unfold after_step. rewrite !cool_moved. f_equal. unfold zero. rewrite Rmult_0_r, Rplus_0_r, Rmult_0_l, Rplus_0_r. f_equal.
  assert (Z : 0 <= K * t * x) by (apply Rmult_le_pos; [apply Rmult_le_pos; [apply K_pos|]|]; lra). destruct (spread_low me (K * t * x) ltac:(lra)) as [S _].
  replace (K * t * (x * (1 + 1 / 10000))) with (K * t * x * (1 + dl)) by (unfold dl; ring).
  set (f1 := shrink me (K * t * x * (1 + dl))) in *. set (f0 := shrink me (K * t * x)) in *.
  replace (spread me (K * t * x)) with (((1 + dl) * f1 - f0) / dl) in * by reflexivity.
  assert (D : (1 + dl) * f1 - f0 <> 0). { intros X. rewrite X in S. unfold Rdiv in S. rewrite Rmult_0_l in S. lra. }
  unfold dl in *. field. split; [lra|]. intros X. apply D. apply Rmult_eq_reg_l with x; [|lra]. lra.
Qed.

Definition elo (z : R) : R := match me with Euler => 0 | Heun => 3 * z ^ 2 end.
Definition ehi (z : R) : R := match me with Euler => 3 * (z + dl) | Heun => 3 * dl end.
Lemma density_step z z0 : 0 <= z <= z0 -> z0 <= 1 / 4 ->
  exp (- (elo z0 * - ln (shrink me z))) <= / spread me z * shrink me z ^ 2 <= exp (ehi z0 * - ln (shrink me z)).
Proof.
  intros H H0. unfold elo, ehi. destruct me; [|apply density_heun; auto].
  rewrite Rmult_0_l, Ropp_0, exp_0. apply density_euler; auto.
Qed.

Lemma cool_steps i x0 v0 : 0 < x0 -> 0 <= v0 -> K * t * x0 <= 1 / 4 ->
  let '(x, v) := after_steps i me E zero zero m t (x0, v0) in
  0 < x <= x0 /\ 0 <= v /\ (0 < v0 -> 0 < v) /\
  match me with
  | Euler => / x0 + INR i * (K * t) <= / x <= / x0 + INR i * (K * t) / (1 - K * t * x0)
  | Heun => / x0 + INR i * (K * t) * (1 - (K * t * x0) ^ 2 / 2) <= / x <= / x0 + INR i * (K * t)
  end /\
  v0 * x0 ^ 2 * exp (- (elo (K * t * x0) * (ln x0 - ln x))) <= v * x ^ 2 <= v0 * x0 ^ 2 * exp (ehi (K * t * x0) * (ln x0 - ln x)).
Proof.
  intros Hx Hv Hz. pose proof K_pos as HK. assert (Hk : 0 <= K * t) by (apply Rmult_le_pos; lra). set (k := K * t) in *.
  induction i as [|i IH].
  - simpl. replace (ln x0 - ln x0) with 0 by ring. rewrite !Rmult_0_r, Ropp_0, exp_0, !Rmult_0_l. unfold Rdiv. rewrite Rmult_0_l. split; [lra|]. split; [auto|]. split; [auto|]. split; [destruct me; lra|lra].
  - unfold after_steps in *. change (Nat.iter (S i) (after_step me E zero zero m t) (x0, v0)) with (after_step me E zero zero m t (Nat.iter i (after_step me E zero zero m t) (x0, v0))).
    destruct (Nat.iter i (after_step me E zero zero m t) (x0, v0)) as [x v]. destruct IH as ([I1 I1'] & I2 & I3 & I4 & I5).
    assert (Hzx : 0 <= k * x <= k * x0) by (split; [apply Rmult_le_pos; lra|apply Rmult_le_compat_l; auto]).
    rewrite cool_step by (auto; fold k; lra). fold k.
    destruct (spread_low me (k * x) ltac:(lra)) as [S _]. pose proof (shrink_bounds me (k * x) ltac:(lra)) as [F1 F2].
    assert (Hsi : 0 < / spread me (k * x)) by (apply Rinv_0_lt_compat; lra).
    destruct (density_step (k * x) (k * x0) Hzx Hz) as [D1 D2].
    set (f := shrink me (k * x)) in *. set (w := / spread me (k * x)) in *.
    assert (Hlx : ln (x * f) = ln x + ln f) by (apply ln_mult; lra).
    split; [split; [apply Rmult_lt_0_compat; lra|apply Rle_trans with (x * 1); [apply Rmult_le_compat_l; lra|lra]]|].
    split; [apply Rmult_le_pos; lra|]. split; [intros H; apply Rmult_lt_0_compat; auto|]. split.
    + rewrite S_INR. pose proof (pos_INR i) as Hi. unfold f. destruct me.
      * rewrite inverse_euler by lra. 
        assert (k <= k / (1 - k * x) <= k / (1 - k * x0)).
        { unfold Rdiv. assert (/ 1 <= / (1 - k * x) <= / (1 - k * x0)) by (split; apply Rinv_le_contravar; lra). rewrite Rinv_1 in *. nra. }
        unfold Rdiv in *. lra.
      * destruct (inverse_heun k x Hk I1 ltac:(lra)) as [V1 V2].
        assert (k * (1 - (k * x0) ^ 2 / 2) <= k * (1 - (k * x) ^ 2 / 2)). { apply Rmult_le_compat_l; auto. assert ((k * x) ^ 2 <= (k * x0) ^ 2) by (apply pow_incr; lra). lra. }
        lra.
    + replace (v * w * (x * f) ^ 2) with (v * x ^ 2 * (w * f ^ 2)) by ring. rewrite Hlx.
      replace (- (elo (k * x0) * (ln x0 - (ln x + ln f)))) with (- (elo (k * x0) * (ln x0 - ln x)) + - (elo (k * x0) * - ln f)) by ring.
      replace (ehi (k * x0) * (ln x0 - (ln x + ln f))) with (ehi (k * x0) * (ln x0 - ln x) + ehi (k * x0) * - ln f) by ring.
      rewrite !exp_plus, <- !Rmult_assoc.
      assert (P0 : 0 <= v0 * x0 ^ 2) by (apply Rmult_le_pos; auto; apply pow2_ge_0).
      assert (Pv : 0 <= v * x ^ 2) by (apply Rmult_le_pos; auto; apply pow2_ge_0).
      split.
      * assert (0 <= v0 * x0 ^ 2 * exp (- (elo (k * x0) * (ln x0 - ln x)))) by (apply Rmult_le_pos; auto; left; apply exp_pos).
        pose proof (exp_pos (- (elo (k * x0) * - ln f))). rewrite !Rmult_assoc in *. rewrite <- (Rmult_assoc v), <- (Rmult_assoc v0), <- (Rmult_assoc (v0 * x0 ^ 2)) in *.
        apply Rmult_le_compat; lra.
      * pose proof (exp_pos (- (elo (k * x0) * - ln f))). rewrite !Rmult_assoc in *. rewrite <- (Rmult_assoc v), <- (Rmult_assoc v0), <- (Rmult_assoc (v0 * x0 ^ 2)) in *.
        apply Rmult_le_compat; lra.
Qed.

Lemma cool_near i x0 v0 : 0 < x0 -> 0 <= v0 -> K * t * x0 <= 1 / 4 ->
  let '(x, v) := after_steps i me E zero zero m t (x0, v0) in near_cooled me K (INR i * t) t x0 v0 x v.
Proof.
  intros Hx Hv Hz. pose proof (cool_steps i x0 v0 Hx Hv Hz) as H. destruct (after_steps i me E zero zero m t (x0, v0)) as [x v].
  destruct H as ([H1 H1'] & H2 & _ & H3 & H4). pose proof K_pos as HK. pose proof (pos_INR i) as Hi.
  assert (Hkt : 0 <= K * t) by (apply Rmult_le_pos; lra).
  assert (Zp : 0 <= K * t * x0) by (apply Rmult_le_pos; lra).
  set (w := 1 + K * x0 * (INR i * t)). assert (Hw : 1 <= w). { assert (0 <= K * t * x0 * INR i) by (apply Rmult_le_pos; auto). unfold w. lra. }
  assert (Ex : / x0 + INR i * (K * t) = w / x0) by (unfold w; field; lra).
  assert (Ec : cooled K (INR i * t) x0 = x0 / w) by reflexivity.
  assert (Hxi : x * / x = 1) by (field; lra). assert (Hix : 0 < / x) by (apply Rinv_0_lt_compat; auto).
  assert (Cp : 0 < x0 / w) by (apply Rdiv_lt_0_compat; lra).
  assert (Hs : 0 < x0 / x) by (apply Rdiv_lt_0_compat; lra).
  assert (Er : forall e, Rpower (x0 / x) e = exp (e * (ln x0 - ln x))). { intros e. unfold Rpower. rewrite ln_div by auto. auto. }
  assert (Hx2 : 0 < x ^ 2) by (apply pow_lt; auto).
  assert (Ev : forall y, v0 * (x0 / x) ^ 2 * y = v0 * x0 ^ 2 * y / x ^ 2) by (intros y; field; lra).
  assert (Ev1 : v0 * (x0 / x) ^ 2 = v0 * x0 ^ 2 * 1 / x ^ 2) by (field; lra).
  replace (K * x0 * t) with (K * t * x0) by ring.
  unfold near_cooled. replace (K * x0 * t) with (K * t * x0) by ring. rewrite Ec. set (z := K * t * x0) in *. unfold elo, ehi in H4. destruct me.
  - split; [split|].
    + (* / x <= w/x0/(1-z) *) assert (U : / x <= w / x0 / (1 - z)).
      { eapply Rle_trans; [apply H3|]. rewrite <- Ex. unfold Rdiv. rewrite Rmult_plus_distr_r. apply Rplus_le_compat_r.
        assert (0 < / x0) by (apply Rinv_0_lt_compat; auto). assert (/ 1 <= / (1 - z)) by (apply Rinv_le_contravar; lra). rewrite Rinv_1 in *. nra. }
      apply Rmult_le_reg_r with (/ x); auto. rewrite Hxi. eapply Rle_trans; [apply Rmult_le_compat_l; [|exact U]|].
      * apply Rmult_le_pos; lra.
      * right. field. lra.
    + apply Rmult_le_reg_r with (/ x); auto. rewrite Hxi. apply Rle_trans with (x0 / w * (w / x0)); [right; field; lra|]. apply Rmult_le_compat_l; [lra|]. rewrite <- Ex. apply H3.
    + rewrite Ev, Ev1, Er. rewrite Rmult_0_l, Ropp_0, exp_0 in H4. unfold dl in H4. split.
      * apply (proj2 (Rle_div_l _ _ _ Hx2)). lra.
      * apply (proj1 (Rle_div_r _ _ _ Hx2)). apply H4.
  - assert (Z2 : 0 <= z ^ 2 <= 1 / 16) by nra. split; [split|].
    + apply Rmult_le_reg_r with (/ x); auto. rewrite Hxi. apply Rle_trans with (x0 / w * (w / x0)); [|right; field; lra]. apply Rmult_le_compat_l; [lra|]. rewrite <- Ex. apply H3.
    + assert (U : w / x0 * (1 - z ^ 2 / 2) <= / x).
      { eapply Rle_trans; [|apply H3]. rewrite <- Ex. rewrite Rmult_plus_distr_r. apply Rplus_le_compat_r.
        assert (0 < / x0) by (apply Rinv_0_lt_compat; auto). nra. }
      apply Rmult_le_reg_r with (/ x); auto. rewrite Hxi. eapply Rle_trans; [|apply Rmult_le_compat_l; [|exact U]].
      * right. field. repeat split; lra.
      * apply Rlt_le. apply Rdiv_lt_0_compat; lra.
    + rewrite !Ev, !Er. unfold dl in H4. split.
      * apply (proj2 (Rle_div_l _ _ _ Hx2)). replace (- (3 * z ^ 2) * (ln x0 - ln x)) with (- (3 * z ^ 2 * (ln x0 - ln x))) by ring. apply H4.
      * apply (proj1 (Rle_div_r _ _ _ Hx2)). apply H4.
Qed.
End Cool.

Section CoolRun.
Variable np : numpy.
Hypothesis Hnp : numpy_ok np.
Hypothesis Hlg : forall x y, 0 < x -> x < y -> lg np x < lg np y.
Variables (A m t : R).
Hypothesis HA : 0 <= A.
Hypothesis Hm : 0 < m.
Hypothesis Ht : 0 < t.
Variable E : R -> R.
Hypothesis HE : forall g, E g = - (A * g ^ 2).
Let K := A / m.
Let zero : R -> R := fun _ => 0.

Definition sane (pts : list (R * R)) : Prop :=
  (forall g v, In (g, v) pts -> 0 < g /\ K * t * g <= 1 / 4 /\ 0 <= v) /\ adj Rlt (map fst pts) /\ populated (map snd pts).

Lemma filter_zero (l l' : list R) : length l = length l' -> (forall i a b, nth_error l i = Some a -> nth_error l' i = Some b -> (a = 0 <-> b = 0)) ->
  length (filter (fun v => negb (Reqb v 0)) l) = length (filter (fun v => negb (Reqb v 0)) l').
Proof.
  revert l'. induction l as [|a l IH]; intros [|b l'] L H; try discriminate; auto. simpl. pose proof (H 0%nat a b eq_refl eq_refl) as H0.
  assert (Er : Reqb a 0 = Reqb b 0). { destruct (Reqb_spec a 0), (Reqb_spec b 0); auto; tauto. }
  rewrite Er. assert (X : length (filter (fun v => negb (Reqb v 0)) l) = length (filter (fun v => negb (Reqb v 0)) l')).
  { apply IH; [simpl in L; congruence|]. intros i c d Hc Hd. apply (H (S i)); auto. }
  destruct (negb (Reqb b 0)); simpl; auto.
Qed.
Lemma populated_map (f : R * R -> R * R) pts : (forall p, In p pts -> (snd (f p) = 0 <-> snd p = 0)) -> populated (map snd pts) -> populated (map snd (map f pts)).
Proof.
  intros H [P|P].
  - left. intros v Hv. rewrite map_map in Hv. apply in_map_iff in Hv as (p & <- & Hp). apply H; auto. apply P. apply in_map; auto.
  - right. rewrite (filter_zero (map snd (map f pts)) (map snd pts)); auto; [rewrite !map_length; auto|].
    intros i a b Ha Hb. rewrite map_map, nth_error_map in Ha. rewrite nth_error_map in Hb. destruct (nth_error pts i) as [p|] eqn:Ep; [|discriminate].
    simpl in Ha, Hb. injection Ha as <-. injection Hb as <-. apply H. eapply nth_error_In; eauto.
Qed.

Lemma sane_step me pts : sane pts -> sane (map (after_step me E zero zero m t) pts) /\ legitimate np me E zero zero m t pts.
Proof.
  intros (S1 & S2 & S3). pose proof (K_pos A m HA Hm) as HK. fold K in HK. assert (Hk : 0 <= K * t) by (apply Rmult_le_pos; lra).
  assert (St : forall g v, In (g, v) pts -> after_step me E zero zero m t (g, v) = (g * shrink me (K * t * g), v * / spread me (K * t * g)) /\
     0 < g * shrink me (K * t * g) <= g /\ 0 < / spread me (K * t * g)).
  { intros g v Hin. destruct (S1 g v Hin) as (G1 & G2 & G3). assert (Z : 0 <= K * t * g) by (apply Rmult_le_pos; lra).
    split; [apply (cool_step A m t me HA Hm Ht E HE); auto|]. pose proof (shrink_bounds me (K * t * g) ltac:(lra)). split.
    - split; [apply Rmult_lt_0_compat; lra|]. apply Rle_trans with (g * 1); [apply Rmult_le_compat_l; lra|lra].
    - apply Rinv_0_lt_compat. destruct (spread_low me (K * t * g) ltac:(lra)). lra. }
  assert (Or : adj Rlt (map fst (map (after_step me E zero zero m t) pts))).
  { intros i a b Ha Hb. rewrite map_map, nth_error_map in Ha, Hb.
    destruct (nth_error pts i) as [[ga va]|] eqn:Ea; [|discriminate]. destruct (nth_error pts (S i)) as [[gb vb]|] eqn:Eb; [|discriminate].
    pose proof (nth_error_In _ _ Ea) as Ia. pose proof (nth_error_In _ _ Eb) as Ib.
    cbn [option_map] in Ha, Hb. destruct (St ga va Ia) as (Ea' & _). destruct (St gb vb Ib) as (Eb' & _). rewrite Ea' in Ha. rewrite Eb' in Hb. simpl in Ha, Hb. injection Ha as <-. injection Hb as <-.
    destruct (S1 ga va Ia) as (G1 & G2 & _). destruct (S1 gb vb Ib) as (G3 & G4 & _).
    apply step_incr; auto; [|lra]. apply (S2 i); rewrite nth_error_map; [rewrite Ea|rewrite Eb]; auto. }
  assert (Po : populated (map snd (map (after_step me E zero zero m t) pts))).
  { apply populated_map; auto. intros [g v] Hin. destruct (St g v Hin) as (-> & _ & Hw). simpl. split; [|intros ->; ring]. intros X. apply Rmult_integral in X. destruct X; lra. }
  assert (Nn : forall g v, In (g, v) (map (after_step me E zero zero m t) pts) -> 0 < g /\ K * t * g <= 1 / 4 /\ 0 <= v).
  { intros g v Hin. apply in_map_iff in Hin as ([g0 v0] & Eq & Hin). destruct (St g0 v0 Hin) as (Es & [Hg Hg'] & Hw). rewrite Es in Eq. injection Eq as <- <-.
    destruct (S1 g0 v0 Hin) as (G1 & G2 & G3). split; [auto|]. split; [|apply Rmult_le_pos; lra]. eapply Rle_trans; [apply Rmult_le_compat_l; [auto|exact Hg']|auto]. }
  split; [split; auto|]. split; [|split; [|split]]; auto.
  - intros g v Hin. destruct (S1 g v Hin) as (G1 & G2 & G3). rewrite !(cool_moved A m t me Hm E HE). fold K. split; [apply (St g v Hin)|].
    apply step_incr; auto; [lra|]. replace (K * t * (g * (1 + 1 / 10000))) with (K * t * g * (1 + 1 / 10000)) by ring. assert (0 <= K * t * g) by (apply Rmult_le_pos; lra). lra.
  - intros i g g' Hg Hg'. apply Hlg; [|apply (Or i); auto]. apply nth_error_In in Hg. apply in_map_iff in Hg as ([x v] & <- & Hin). simpl. apply (Nn x v Hin).
  - intros g v Hin. apply (Nn g v Hin).
Qed.

Lemma sane_steps me i pts : sane pts -> sane (map (after_steps i me E zero zero m t) pts).
Proof.
  intros H. unfold after_steps. induction i as [|i IH]; [simpl; rewrite map_id; auto|].
  replace (map (Nat.iter (S i) (after_step me E zero zero m t)) pts) with (map (after_step me E zero zero m t) (map (Nat.iter i (after_step me E zero zero m t)) pts)).
  - apply sane_step. auto.
  - rewrite map_map. auto.
Qed.
End CoolRun.

Theorem C91_cooling np P sy T t k gs ns ne me name : numpy_ok np -> (forall x y, 0 < x -> x < y -> lg np x < lg np y) -> phys_ok P ->
  0 < t -> T = INR k * t ->
  gs <> [] -> (forall g, In g gs -> 0 < g) -> increasing gs -> dist_call np ne gs = (gs, ns) -> nonneg ns -> populated ns ->
  let K := 4 / 3 * c_sigmaT P * c_c P * (B_field (sy_blob sy) ^ 2 / (8 * PI)) / mec2_erg P in
  (forall g, In g gs -> K * g * t <= 1 / 4) ->
  let follows (s : R) (y : result) := r_time y = s /\ length (r_gamma y) = length gs /\ length (r_dens y) = length gs /\
    forall i g v g' v', nth_error gs i = Some g -> nth_error ns i = Some v ->
      nth_error (r_gamma y) i = Some g' -> nth_error (r_dens y) i = Some v' -> near_cooled me K s t g v g' v' in
  exists d recs x, evaluate np (energy_cfg T t [(name, synchrotron_loss P sy)] (mec2_erg P) gs me) k ne = (d, recs, Ok x) /\
    length recs = k /\ follows T x /\ (forall i y, nth_error recs i = Some y -> follows (INR (S i) * t) y).
Proof.
  intros Hnp Hlg HP Ht ET Hne Pg Inc En Nn Po K HK follows.
  set (A := 4 / 3 * c_sigmaT P * c_c P * (B_field (sy_blob sy) ^ 2 / (8 * PI))). 
  assert (Hm : 0 < mec2_erg P). { destruct HP. unfold mec2_erg, rest_energy, mass_of. apply Rmult_lt_0_compat; auto. apply pow_lt; auto. }
  assert (HA : 0 <= A). { destruct HP. unfold A. pose proof PI_RGT_0. apply Rmult_le_pos; [apply Rmult_le_pos; [lra|lra]|]. apply Rdiv_le_0_compat; [apply pow2_ge_0|lra]. }
  set (e := fun g => synch_loss_rate P sy g * -1).
  assert (HE : forall g, total_rate [(name, e)] g = - (A * g ^ 2)).
  { intros g. unfold total_rate, e, A, synch_loss_rate, U_B, B_cgs, B_to_cgs. simpl. ring. }
  assert (Ln : length ns = length gs). { pose proof (dist_call_length np ne gs) as X. rewrite En in X. simpl in X. apply X. }
  assert (S0 : sane A (mec2_erg P) t (combine gs ns)).
  { assert (F1 : map fst (combine gs ns) = gs) by (clear - Ln; revert ns Ln; induction gs as [|g l IH]; intros [|v ns] Ln; try discriminate; auto; simpl; f_equal; apply IH; simpl in Ln; congruence).
    assert (F2 : map snd (combine gs ns) = ns) by (clear - Ln; revert ns Ln; induction gs as [|g l IH]; intros [|v ns] Ln; try discriminate; auto; simpl; f_equal; apply IH; simpl in Ln; congruence).
    split; [|rewrite F1, F2; split; auto].
    - intros g v Hin. pose proof (in_combine_l _ _ _ _ Hin). pose proof (in_combine_r _ _ _ _ Hin). split; [auto|]. split; [|auto].
      replace (A / mec2_erg P * t * g) with (K * g * t) by (change K with (A / mec2_erg P); ring). auto.
    - intros i a b Ha Hb. apply (Inc i). split; auto. }
  destruct (C91_recursion np T t (mec2_erg P) [(name, e)] [] [] gs me ne k ns) as (d & recs & x & H1 & H2 & H3 & H4 & H5 & H6); auto.
  { intros i Hi. pose proof (sane_steps np Hlg A (mec2_erg P) t HA Hm Ht (total_rate [(name, e)]) HE me i _ S0) as Si.
    split; eapply (sane_step np Hlg A (mec2_erg P) t HA Hm Ht (total_rate [(name, e)]) HE); exact Si. }
  assert (FO : forall j y, r_time y = INR j * t -> r_gamma y = map fst (map (after_steps j me (total_rate [(name, e)]) (total_rate []) (total_rate []) (mec2_erg P) t) (combine gs ns)) ->
     r_dens y = map snd (map (after_steps j me (total_rate [(name, e)]) (total_rate []) (total_rate []) (mec2_erg P) t) (combine gs ns)) -> follows (INR j * t) y).
  { intros j y Y1 Y2 Y3. split; auto. rewrite Y2, Y3, !map_length, combine_length, Ln, Nat.min_id. split; auto. split; auto.
    intros i g v g' v' Hg Hv Hg' Hv'. rewrite map_map, nth_error_map in Hg', Hv'.
    assert (Ep : nth_error (combine gs ns) i = Some (g, v)).
    { clear - Hg Hv. revert ns i Hg Hv. induction gs as [|a l IH]; intros [|b ns] [|i] Hg Hv; simpl in *; try discriminate; [congruence|]. apply IH; auto. }
    rewrite Ep in Hg', Hv'. cbn [option_map] in Hg', Hv'.
    destruct S0 as (S1 & _ & _). pose proof (nth_error_In _ _ Ep) as Hin. destruct (S1 g v Hin) as (G1 & G2 & G3).
    pose proof (cool_near A (mec2_erg P) t me HA Hm Ht (total_rate [(name, e)]) HE j g v G1 G3 G2) as X.
    change (total_rate []) with (fun _ : R => 0) in Hg', Hv'. destruct (after_steps j me (total_rate [(name, e)]) (fun _ => 0) (fun _ => 0) (mec2_erg P) t (g, v)) as [x' y'].
    simpl in Hg', Hv'. injection Hg' as <-. injection Hv' as <-. exact X. }
  exists d, recs, x. split; [exact H1|]. split; [auto|]. split.
  - rewrite ET. apply FO; auto. rewrite H3, ET; auto.
  - intros i y Hy. destruct (H6 i y Hy) as (Q1 & Q2 & Q3). apply FO; auto.
Qed.
Print Assumptions C91_cooling.

Lemma above_INR x : exists n, x < INR n.
Proof.
  exists (Z.to_nat (up x)). destruct (archimed x) as [H _]. eapply Rlt_le_trans; [exact H|]. rewrite INR_IZR_INZ. apply IZR_le. lia.
Qed.

(** with more and more steps the Lorentz factors tend to the solution *)
Theorem C91_converges np P sy T gs ns ne me name eps : numpy_ok np -> (forall x y, 0 < x -> x < y -> lg np x < lg np y) -> phys_ok P -> 0 < T -> 0 < eps ->
  gs <> [] -> (forall g, In g gs -> 0 < g) -> increasing gs -> dist_call np ne gs = (gs, ns) -> nonneg ns -> populated ns ->
  let K := 4 / 3 * c_sigmaT P * c_c P * (B_field (sy_blob sy) ^ 2 / (8 * PI)) / mec2_erg P in
  exists k0, forall k, (k0 <= k)%nat ->
  exists d recs x, evaluate np (energy_cfg T (T / INR k) [(name, synchrotron_loss P sy)] (mec2_erg P) gs me) k ne = (d, recs, Ok x) /\
    length (r_gamma x) = length gs /\
    forall i g g', nth_error gs i = Some g -> nth_error (r_gamma x) i = Some g' -> Rabs (g' - cooled K T g) <= eps * cooled K T g.
Proof.
  intros Hnp Hlg HP HT He Hne Pg Inc En Nn Po K.
  assert (HK : 0 <= K).
  { destruct HP. pose proof PI_RGT_0. unfold K. apply Rdiv_le_0_compat; [apply Rmult_le_pos; [apply Rmult_le_pos; lra|apply Rdiv_le_0_compat; [apply pow2_ge_0|lra]]|].
    unfold mec2_erg, rest_energy, mass_of. apply Rmult_lt_0_compat; auto. apply pow_lt; auto. }
  assert (SG : exists G, 0 <= G /\ forall g, In g gs -> g <= G).
  { clear - Pg. induction gs as [|a l IH]; [exists 0; split; [lra|intros g []]|]. destruct IH as (G & H0 & HG); [intros; apply Pg; simpl; auto|].
    exists (Rmax a G). split; [eapply Rle_trans; [exact H0|apply Rmax_r]|]. intros g [<-|H]; [apply Rmax_l|eapply Rle_trans; [apply HG; auto|apply Rmax_r]]. }
  destruct SG as (G & HG0 & HG).
  set (b := Rmin eps (1 / 4)). assert (Hb : 0 < b) by (unfold b; apply Rmin_glb_lt; lra).
  destruct (above_INR (K * G * T / b)) as [k0 Hk0]. exists (S k0). intros k Hk.
  assert (Hkp : 0 < INR k) by (apply lt_0_INR; lia). assert (Hkk : INR k0 <= INR k) by (apply le_INR; lia).
  assert (Z : forall g, In g gs -> K * g * (T / INR k) <= b).
  { intros g Hg. replace (K * g * (T / INR k)) with (K * g * T / INR k) by (field; lra). apply (proj2 (Rle_div_l _ _ _ Hkp)).
    assert (K * G * T <= b * INR k). { apply Rle_trans with (b * INR k0); [|apply Rmult_le_compat_l; lra]. apply Rlt_le in Hk0. apply (proj1 (Rle_div_l _ _ _ Hb)) in Hk0. lra. }
    apply Rle_trans with (K * G * T); auto. apply Rmult_le_compat_r; [lra|]. apply Rmult_le_compat_l; auto. }
  assert (Hb1 : b <= eps) by apply Rmin_l. assert (Hb2 : b <= 1 / 4) by apply Rmin_r.
  destruct (C91_cooling np P sy T (T / INR k) k gs ns ne me name) as (d & recs & x & H1 & H2 & (F1 & F2 & F3 & F4) & _); auto.
  - apply Rdiv_lt_0_compat; auto.
  - field. lra.
  - intros g Hg. fold K. specialize (Z g Hg). lra.
  - fold K in F4. exists d, recs, x. split; auto. split; auto. intros i g g' Hg Hg'.
    assert (Ln : length ns = length gs). { pose proof (dist_call_length np ne gs) as X. rewrite En in X. simpl in X. apply X. }
    assert (Hi : (i < length gs)%nat) by (apply nth_error_Some; congruence).
    destruct (nth_error ns i) as [v|] eqn:Ev; [|apply nth_error_None in Ev; lia]. destruct (nth_error (r_dens x) i) as [v'|] eqn:Ev'; [|apply nth_error_None in Ev'; lia].
    pose proof (F4 i g v g' v' Hg Ev Hg' Ev') as N. pose proof (nth_error_In _ _ Hg) as Hin. specialize (Z g Hin). specialize (Pg g Hin).
    assert (Cp : 0 < cooled K T g). { unfold cooled. apply Rdiv_lt_0_compat; auto. assert (0 <= K * g * T) by (apply Rmult_le_pos; [apply Rmult_le_pos|]; lra). lra. }
    assert (Zp : 0 <= K * g * (T / INR k)) by (apply Rmult_le_pos; [apply Rmult_le_pos; lra|apply Rlt_le, Rdiv_lt_0_compat; auto]).
    unfold near_cooled in N. set (z := K * g * (T / INR k)) in *. set (C := cooled K T g) in *. apply Rabs_le. destruct me; destruct N as [[N1 N2] _].
    + split; nra.
    + assert (z ^ 2 <= b * (1 / 4)) by (replace (z ^ 2) with (z * z) by ring; apply Rmult_le_compat; lra).
      assert (Hd : 0 < 1 - z ^ 2 / 2) by lra. apply (proj2 (Rle_div_r _ _ _ Hd)) in N2. split; nra.
Qed.
Print Assumptions C91_converges.

Lemma case_rate : let sy := {| sy_blob := ex_blob; sy_ssa := false; sy_integ := trapz |} in
  forall g, In g [10; 100; 1000] -> 4 / 3 * c_sigmaT codata * c_c codata * (B_field (sy_blob sy) ^ 2 / (8 * PI)) / mec2_erg codata * g * 10000 <= 1 / 4.
Proof.
  intros sy.
  assert (K : 4 / 3 * c_sigmaT codata * c_c codata * (B_field (sy_blob sy) ^ 2 / (8 * PI)) / mec2_erg codata <= 1e-8).
  { unfold mec2_erg, rest_energy, mass_of, codata. simpl B_field. cbn [c_sigmaT c_c c_me]. 
    match goal with |- ?n / ?d <= _ => assert (Hd : 0 < d) by lra; apply (proj2 (Rle_div_l n 1e-8 d Hd)) end.
    assert (/ (8 * PI) <= / 16) by (apply Rinv_le_contravar; [lra|pose proof PI2_1; unfold PI2 in *; lra]).
    unfold Rdiv. rewrite pow1, Rmult_1_l. lra. }
  intros g H. set (k := 4 / 3 * c_sigmaT codata * c_c codata * (B_field (sy_blob sy) ^ 2 / (8 * PI)) / mec2_erg codata) in *. simpl in H. intuition; subst; lra.
Qed.
(** ten steps of 10^4 s in a field of 1 G *)
Example C91_case me : let sy := {| sy_blob := ex_blob; sy_ssa := false; sy_integ := trapz |} in
  exists d recs x, evaluate np0 (energy_cfg 100000 10000 [("synchrotron"%string, synchrotron_loss codata sy)] (mec2_erg codata) [10; 100; 1000] me) 10 ex_ne = (d, recs, Ok x) /\
    length recs = 10%nat /\ length (r_gamma x) = 3%nat.
Proof.
  intros sy. destruct (C91_cooling np0 codata sy 100000 10000 10 [10; 100; 1000] [1; 1; 1] ex_ne me "synchrotron"%string) as (d & recs & x & H1 & H2 & (F1 & F2 & _) & _).
  - apply np0_ok.
  - intros. apply log10_lt; auto.
  - apply codata_ok.
  - lra.
  - simpl. lra.
  - discriminate.
  - intros g H; simpl in H; intuition; subst; lra.
  - intros [|[|[|i]]] u v [A B]; simpl in A, B; try discriminate; try (destruct i; discriminate); injection A as <-; injection B as <-; lra.
  - simpl. unfold correct_bounds, correct_first, correct_last. decide_R. simpl. decide_R. simpl. decide_R. reflexivity.
  - intros v H; simpl in H; intuition; subst; lra.
  - right. simpl. decide_R. simpl. lia.
  - apply case_rate.
  - exists d, recs, x. auto.
Qed.
