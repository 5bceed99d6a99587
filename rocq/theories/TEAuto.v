(** Automatic step length: what the limits of _calc_max_time_per_bin amount to
    (C10), and what keeps a step admissible (C11, C12). *)
From Verif Require Import Base TEUtils TimeEvolution ListFacts TEIndexFacts TEStageFacts TEStepFacts TELoopFacts TEInv TEForward Spec_TE TEThm1 TEThm2 TEThm4 TEThm5 TEErr TEReach.

Section Limits.
Variable c : cfg.
Hypothesis Hmec : 0 < mec2 c.
Hypothesis HE : 0 < maxE c.
Hypothesis HD : 0 < maxD c.
Hypothesis HI : 0 < maxI c.

Lemma ext_le_min t a b : ext_le (Some t) (ext_min a b) <-> ext_le (Some t) a /\ ext_le (Some t) b.
Proof.
  destruct a as [x|], b as [y|]; simpl; try tauto. split.
  - intros H. split; [eapply Rle_trans; [exact H|apply Rmin_l]|eapply Rle_trans; [exact H|apply Rmin_r]].
  - intros [? ?]. apply Rmin_glb; auto.
Qed.

Lemma div_bound a r t : 0 <= t -> r <> 0 -> (t <= a / Rabs r <-> Rabs (r * t) <= a).
Proof.
  intros Ht Hr. assert (P : 0 < Rabs r) by (apply Rabs_pos_lt; auto). rewrite Rabs_mult, (Rabs_right t) by lra. split; intros H.
  - apply (Rmult_le_compat_l (Rabs r)) in H; [|lra]. replace (Rabs r * (a / Rabs r)) with a in H by (field; lra). auto.
  - apply (Rmult_le_reg_l (Rabs r)); auto. replace (Rabs r * (a / Rabs r)) with a by (field; lra). auto.
Qed.

Lemma time_1_iff e r t : 0 <= t -> 0 < e -> (ext_le (Some t) (time_1_edge c e r) <-> Rabs (r * t) <= maxE c * e).
Proof.
  intros Ht He. unfold time_1_edge. destruct (Reqb_spec r 0) as [->|Hr].
  - simpl. rewrite Rmult_0_l, Rabs_R0. split; auto. intros _. apply Rlt_le, Rmult_lt_0_compat; auto.
  - apply div_bound; auto.
Qed.

Lemma time_2_iff l u rl ru t : 0 <= t -> l < u ->
  (ext_le (Some t) (time_2 c (l * mec2 c, u * mec2 c) (rl, ru)) <->
   let w := (u - l) * mec2 c in w / (1 + maxD c) <= w + (ru - rl) * t <= w * (1 + maxD c)).
Proof.
  intros Ht Hlu. cbv zeta. unfold time_2. simpl fst; simpl snd. replace (u * mec2 c - l * mec2 c) with ((u - l) * mec2 c) by ring.
  set (w := (u - l) * mec2 c). assert (Hw : 0 < w) by (apply Rmult_lt_0_compat; lra). set (df := ru - rl). set (m := maxD c) in *.
  assert (W : w / (1 + m) = w - w * m / (1 + m)) by (field; lra).
  assert (W0 : 0 < w * m / (1 + m)). { apply Rmult_lt_0_compat; [apply Rmult_lt_0_compat; auto|apply Rinv_0_lt_compat; lra]. }
  assert (W1 : 0 < w * m) by (apply Rmult_lt_0_compat; auto).
  destruct (Reqb_spec df 0) as [Hz|Hz].
  - rewrite Hz. simpl. split; auto. intros _. lra.
  - assert (Ex : 0 < w / df <-> 0 < df).
    { split; intros H.
      - destruct (Rlt_dec 0 df); auto. exfalso. assert (/ df < 0) by (apply Rinv_lt_0_compat; lra). unfold Rdiv in H. assert (w * / df < 0); [|lra]. 
        replace (w * / df) with (- (w * - / df)) by ring. assert (0 < w * - / df) by (apply Rmult_lt_0_compat; lra). lra.
      - apply Rmult_lt_0_compat; auto. apply Rinv_0_lt_compat; auto. }
    destruct (Rltb_spec 0 (w / df)) as [Hp|Hp]; simpl.
    + apply Ex in Hp. assert (0 <= df * t) by (apply Rmult_le_pos; lra). split; intros H1.
      * apply (Rmult_le_compat_l df) in H1; [|lra]. replace (df * (w / df * m)) with (w * m) in H1 by (field; lra). lra.
      * apply (Rmult_le_reg_l df); auto. replace (df * (w / df * m)) with (w * m) by (field; lra). lra.
    + assert (Hn : 0 < - df). { destruct (Rlt_dec 0 df) as [H|H]; [|lra]. apply Ex in H. lra. }
      assert (0 <= - df * t) by (apply Rmult_le_pos; lra). split; intros H1.
      * apply (Rmult_le_compat_l (- df)) in H1; [|lra]. replace (- df * (- (w / df) * m / (1 + m))) with (w * m / (1 + m)) in H1 by (field; lra). lra.
      * apply (Rmult_le_reg_l (- df)); auto. replace (- df * (- (w / df) * m / (1 + m))) with (w * m / (1 + m)) by (field; lra). lra.
Qed.

Lemma time_3_iff rel t : 0 <= t -> (ext_le (Some t) (time_3 rel) <-> - rel * t <= 1 / 2).
Proof.
  intros Ht. unfold time_3. destruct (Rltb_spec rel 0) as [H|H]; simpl.
  - split; intros H1.
    + apply (Rmult_le_compat_l (- rel)) in H1; [|lra]. replace (- rel * (- (1 / 2) / rel)) with (1 / 2) in H1 by (field; lra). auto.
    + apply (Rmult_le_reg_l (- rel)); [lra|]. replace (- rel * (- (1 / 2) / rel)) with (1 / 2) by (field; lra). auto.
  - split; auto. intros _. assert (0 <= rel * t) by (apply Rmult_le_pos; lra). lra.
Qed.

Lemma time_4_iff ab t : 0 <= t -> (ext_le (Some t) (time_4 c ab) <-> Rabs (ab * t) <= maxI c).
Proof.
  intros Ht. unfold time_4. destruct (Reqb_spec ab 0) as [->|Hr].
  - simpl. rewrite Rmult_0_l, Rabs_R0. split; auto. intros _. lra.
  - apply div_bound; auto.
Qed.

(** the four limits are exactly these inequalities *)
Lemma max_time_iff l u rl ru rel ab t : 0 <= t -> 0 < l < u ->
  (ext_le (Some t) (max_time_bin c (l * mec2 c, u * mec2 c) (rl, ru) rel ab) <-> within_limits c l u rl ru rel ab t).
Proof.
  intros Ht Hlu. unfold max_time_bin, time_1. rewrite !ext_le_min. simpl fst; simpl snd.
  rewrite !time_1_iff, time_2_iff, time_3_iff, time_4_iff by (auto; try lra; apply Rmult_lt_0_compat; lra).
  split; [intros ((? & ?) & ? & ? & ?); constructor; auto|intros []; tauto].
Qed.

Lemma within_limits_0 l u rl ru rel ab : 0 < l < u -> within_limits c l u rl ru rel ab 0.
Proof.
  intros H. apply max_time_iff; try lra; auto.
  pose proof (max_time_bin_pos c (l * mec2 c, u * mec2 c) (rl, ru) rel ab HE HD HI) as P. simpl in P.
  assert (P' : ext_pos (max_time_bin c (l * mec2 c, u * mec2 c) (rl, ru) rel ab)).
  { apply P; try (apply Rmult_lt_0_compat; lra). intros E. apply Rmult_eq_reg_r in E; lra. }
  destruct (max_time_bin _ _ _ _ _); simpl in *; auto; lra.
Qed.
Lemma within_limits_le l u rl ru rel ab t t' : 0 < l < u -> 0 <= t' <= t -> within_limits c l u rl ru rel ab t -> within_limits c l u rl ru rel ab t'.
Proof.
  intros H Ht W. apply max_time_iff in W; try lra; auto. apply max_time_iff; try lra; auto.
  eapply ext_le_trans; [|exact W]. simpl. lra.
Qed.
End Limits.

(** ** rates of a subgroup *)
Lemma lookup_Forall2 {A B} (Q : list A -> list B -> Prop) (r : list (string * list A)) (k : list (string * list B)) x :
  Forall2 (fun a b => fst a = fst b /\ Q (snd a) (snd b)) r k ->
  match lookup x r, lookup x k with Some v, Some w => Q v w | None, None => True | _, _ => False end.
Proof.
  induction 1 as [|[a1 a2] [b1 b2] r k [E1 E2] H IH]; simpl; auto. simpl in E1, E2. subst b1. destruct (String.eqb x a1); auto.
Qed.

Lemma rate_at_known {A} n (p : A -> R) (r : rates A) (k : list (string * list A)) x i : known r = Ok k -> (forall kv, In kv r -> length (snd kv) = n) -> (i < n)%nat ->
  rate_at p r x i = rate_of (map (fun kv => (fst kv, map p (snd kv))) k) x i.
Proof.
  intros H L Hi. apply known_spec in H as [_ H]. unfold rate_at, rate_of.
  induction H as [|[a1 a2] [b1 b2] r k [E1 E2] H IH]; simpl; auto. simpl in E1, E2. subst b1.
  destruct (String.eqb x a1).
  - assert (Lb : length b2 = n). { rewrite <- (L (a1, a2)) by (simpl; auto). simpl. rewrite E2, map_length. auto. }
    destruct (nth_error_Some_ex b2 i) as [v Hv]; [lia|]. rewrite E2, nth_error_map, Hv. simpl. symmetry. apply nth_error_nth. rewrite nth_error_map, Hv. auto.
  - apply IH. intros; apply L; simpl; auto.
Qed.

Section Groups.
Variable c : cfg.

Lemma group_rate_rows n (r : rates R) k g row i x : known r = Ok k -> (forall kv, In kv r -> length (snd kv) = n) ->
  nth_error (sum_change_rates Rplus 0 n k (subgroups c)) g = Some row -> nth_error row i = Some x -> (i < n)%nat ->
  x = group_rate c (fun y => y) r g i.
Proof.
  intros H L Hg Hx Hi. pose proof (known_len n r k H L) as Lk. unfold group_rate. destruct (subgroups c) as [gs|].
  - destruct (nth_error gs g) as [names|] eqn:En. 2: { simpl in Hg. rewrite nth_error_map, En in Hg. discriminate. }
    destruct (thm_group_sum n k gs g names Lk En) as (row' & E & Lr & Hr). rewrite Hg in E. injection E as <-.
    rewrite (nth_error_nth _ _ _ En). rewrite <- (nth_error_nth _ _ 0 Hx), Hr by auto. f_equal. apply map_ext. intros y.
    rewrite (rate_at_known n (fun y => y) r k y i H L Hi). f_equal. transitivity (map (fun kv : string * list R => kv) k); [symmetry; apply map_id|].
    apply map_ext. intros [a b]. simpl. rewrite map_id. auto.
  - simpl in Hg. destruct g as [|[|g]]; try discriminate. injection Hg as <-. rewrite (single_rate n r k i H L Hi) in Hx. injection Hx as <-. auto.
Qed.

Lemma group_rate_edges n (r : rates bin) k g row i x : known r = Ok k -> (forall kv, In kv r -> length (snd kv) = n) ->
  nth_error (sum_change_rates add_bin (0, 0) n k (subgroups c)) g = Some row -> nth_error row i = Some x -> (i < n)%nat ->
  x = (group_rate c fst r g i, group_rate c snd r g i).
Proof.
  intros H L Hg Hx Hi. pose proof (known_len n r k H L) as Lk.
  assert (G : forall p : bin -> R, p = fst \/ p = snd -> p x = group_rate c p r g i).
  { intros p Hp. pose proof (thm_energy_edges n k (subgroups c) p Hp) as T.
    assert (Le : arrays_of_length n (edge p k)). { intros key v Hin. apply in_map_iff in Hin as ([k0 v0] & E0 & Hin). injection E0 as <- <-. simpl. rewrite map_length. apply (Lk k0 v0 Hin). }
    assert (Hg' : nth_error (sum_change_rates Rplus 0 n (edge p k) (subgroups c)) g = Some (map p row)). { rewrite <- T, nth_error_map, Hg. auto. }
    assert (Hx' : nth_error (map p row) i = Some (p x)) by (rewrite nth_error_map, Hx; auto).
    unfold group_rate. destruct (subgroups c) as [gs|].
    - destruct (nth_error gs g) as [names|] eqn:En. 2: { simpl in Hg'. rewrite nth_error_map, En in Hg'. discriminate. }
      destruct (thm_group_sum n (edge p k) gs g names Le En) as (row' & E & Lr & Hr). rewrite Hg' in E. injection E as <-.
      rewrite (nth_error_nth _ _ _ En). rewrite <- (nth_error_nth _ _ 0 Hx'), Hr by auto. f_equal. apply map_ext. intros y.
      rewrite (rate_at_known n p r k y i H L Hi). auto.
    - simpl in Hg. destruct g as [|[|g]]; try discriminate. injection Hg as <-. rewrite (single_energy n r k i H L Hi) in Hx. injection Hx as <-.
      destruct Hp as [-> | ->]; auto. }
  rewrite <- (G fst), <- (G snd) by auto. destruct x; auto.
Qed.

(** equal entries give equal group rates *)
Lemma group_rate_same {A} (p : A -> R) r0 k r i g : rates_same r0 k r i -> group_rate c p r0 g k = group_rate c p r g i.
Proof.
  intros H. unfold group_rate. destruct (subgroups c) as [gs|].
  - f_equal. apply map_ext. intros x. unfold rate_at. pose proof (lookup_Forall2 (fun a b => nth_error a k = nth_error b i) r0 r x H) as E.
    destruct (lookup x r0), (lookup x r); try tauto. rewrite E. auto.
  - f_equal. induction H as [|a b l l' [_ E] H IH]; simpl; auto. rewrite E, IH. auto.
Qed.
End Groups.

Section Auto.
Variable np : numpy.
Hypothesis Hnp : numpy_ok np.
Variable c : cfg.
Hypothesis Hv : valid c.

Lemma reached_steady ne d s : positive_grid c -> positive_steps c -> reached np c ne d s ->
  aligned c s /\ steady c s /\ no_nan (st_en s) /\ no_nan (st_rel s) /\ no_nan (st_abs s).
Proof.
  intros [Hg Hb] Hp. apply (reached_inv np c ne (fun _ s => aligned c s /\ steady c s /\ no_nan (st_en s) /\ no_nan (st_rel s) /\ no_nan (st_abs s))).
  - intros s0 Hi. pose proof (initial_aligned np c ne s0 (valid_split c Hv) Hi) as (Ha & _ & _ & ? & ? & ?). split; [auto|]. split; [|auto].
    apply (initial_steady np c (valid_split c Hv) ne s0); auto.
  - intros d0 s0 d' s' _ (Ha & Hs & N1 & N2 & N3) Hlt Hst. destruct (step_spec np Hnp c (v_mec _ Hv) s0 d0 d' s' Ha Hst) as (Ha' & _). split; auto.
    destruct (step_steady np Hnp c (v_mec _ Hv) s0 d0 d' s' Ha Hs) as (S1 & _ & S3); auto.
    + intros [lo hi] Eb. simpl. apply (Hb lo hi Eb).
    + apply Hv.
Qed.

(** entries of the limits per bin, for a bin with positive width *)
Lemma mx_limits s ken krel kabs mx i x l u t : 0 < maxE c -> 0 < maxD c -> 0 < maxI c -> aligned c s ->
  known (st_en s) = Ok ken -> known (st_rel s) = Ok krel -> known (st_abs s) = Ok kabs ->
  let n := length (st_bins s) in
  calc_max_times c (to_erg (mec2 c) (st_bins s)) (to_densities_grouped (st_dens s) (st_subs s))
     (sum_change_rates add_bin (0, 0) n ken (subgroups c)) (sum_change_rates Rplus 0 n krel (subgroups c))
     (sum_change_rates Rplus 0 n kabs (subgroups c)) (map (fun _ => None) (st_dens s)) = Ok mx ->
  nth_error mx i = Some x -> nth_error (st_bins s) i = Some (l, u) -> 0 < l < u -> 0 <= t ->
  (ext_le (Some t) x <-> forall g, (g < length (st_subs s))%nat -> limits_at c s g i t).
Proof.
  intros HE HD HI Ha H1 H2 H3 n Hmx Hx Hb Hlu Ht. pose proof (v_mec _ Hv) as Hmec.
  destruct (calc_shapes c s _ _ _ Ha H1 H2 H3) as (L1 & L2 & L3). fold n in L1, L2, L3.
  assert (Le : length (to_erg (mec2 c) (st_bins s)) = n) by apply map_length.
  destruct (calc_max_times_spec c _ _ _ _ _ _ _ Hmx) as (Lm & G1 & G2 & G3 & Sp); rewrite ?Le; auto.
  { rewrite map_length. apply Ha. }
  assert (Ldg : length (to_densities_grouped (st_dens s) (st_subs s)) = length (st_subs s)) by apply map_length. rewrite Ldg in G1, G2, G3, Sp.
  assert (Hi : (i < n)%nat) by (eapply nth_error_lt; eauto).
  assert (He : nth_error (to_erg (mec2 c) (st_bins s)) i = Some (l * mec2 c, u * mec2 c)).
  { unfold to_erg. rewrite nth_error_map, Hb. auto. }
  assert (Hacc : nth_error (map (fun _ : R => @None R) (st_dens s)) i = Some None).
  { pose proof Hi as Hi'. unfold n in Hi'. rewrite <- (al_dens _ _ Ha) in Hi'. destruct (nth_error_Some_ex (st_dens s) i Hi') as [d Hd]. rewrite nth_error_map, Hd. auto. }
  pose proof (rates_ok_len _ _ _ (al_en c s Ha)) as Len. pose proof (rates_ok_len _ _ _ (al_rel c s Ha)) as Lrel. pose proof (rates_ok_len _ _ _ (al_abs c s Ha)) as Lab.
  fold n in Len, Lrel, Lab.
  destruct (Sp _ _ _ _ Hx He Hacc) as (_ & S2 & S3).
  assert (K : forall g er rel ab eri reli abi, nth_error (sum_change_rates add_bin (0, 0) n ken (subgroups c)) g = Some er ->
     nth_error (sum_change_rates Rplus 0 n krel (subgroups c)) g = Some rel -> nth_error (sum_change_rates Rplus 0 n kabs (subgroups c)) g = Some ab ->
     nth_error er i = Some eri -> nth_error rel i = Some reli -> nth_error ab i = Some abi ->
     (ext_le (Some t) (max_time_bin c (l * mec2 c, u * mec2 c) eri reli abi) <-> limits_at c s g i t)).
  { intros g er rel ab eri reli abi E1 E2 E3 F1 F2 F3.
    rewrite (group_rate_edges c n _ _ _ _ _ _ H1 Len E1 F1 Hi), (group_rate_rows c n _ _ _ _ _ _ H2 Lrel E2 F2 Hi), (group_rate_rows c n _ _ _ _ _ _ H3 Lab E3 F3 Hi).
    rewrite max_time_iff by (auto; lra). split.
    - intros W. exists l, u. auto.
    - intros (l' & u' & E & W). rewrite Hb in E. injection E as <- <-. auto. }
  assert (Gx : forall g, (g < length (st_subs s))%nat -> exists er rel ab eri reli abi, nth_error (sum_change_rates add_bin (0, 0) n ken (subgroups c)) g = Some er /\
     nth_error (sum_change_rates Rplus 0 n krel (subgroups c)) g = Some rel /\ nth_error (sum_change_rates Rplus 0 n kabs (subgroups c)) g = Some ab /\
     nth_error er i = Some eri /\ nth_error rel i = Some reli /\ nth_error ab i = Some abi).
  { intros g Hg. destruct (nth_error_Some_ex (sum_change_rates add_bin (0, 0) n ken (subgroups c)) g) as [er E1]; [lia|].
    destruct (nth_error_Some_ex (sum_change_rates Rplus 0 n krel (subgroups c)) g) as [rel E2]; [lia|].
    destruct (nth_error_Some_ex (sum_change_rates Rplus 0 n kabs (subgroups c)) g) as [ab E3]; [lia|].
    destruct (nth_error_Some_ex er i) as [eri F1]; [rewrite (L1 er) by (eapply nth_error_In; eauto); auto|].
    destruct (nth_error_Some_ex rel i) as [reli F2]; [rewrite (L2 rel) by (eapply nth_error_In; eauto); auto|].
    destruct (nth_error_Some_ex ab i) as [abi F3]; [rewrite (L3 ab) by (eapply nth_error_In; eauto); auto|].
    exists er, rel, ab, eri, reli, abi. auto 10. }
  split.
  - intros Hle g Hg. destruct (Gx g Hg) as (er & rel & ab & eri & reli & abi & E1 & E2 & E3 & F1 & F2 & F3).
    apply (K g er rel ab eri reli abi); auto. eapply ext_le_trans; [exact Hle|]. apply (S2 g er rel ab); auto.
  - intros Hall. destruct S3 as [->|(g & er & rel & ab & eri & reli & abi & Hg & E1 & E2 & E3 & F1 & F2 & F3 & ->)]; [exact Logic.I|].
    apply (K g er rel ab eri reli abi); auto.
Qed.

Lemma mx_length s ken krel kabs mx : aligned c s -> known (st_en s) = Ok ken -> known (st_rel s) = Ok krel -> known (st_abs s) = Ok kabs ->
  let n := length (st_bins s) in
  calc_max_times c (to_erg (mec2 c) (st_bins s)) (to_densities_grouped (st_dens s) (st_subs s))
     (sum_change_rates add_bin (0, 0) n ken (subgroups c)) (sum_change_rates Rplus 0 n krel (subgroups c))
     (sum_change_rates Rplus 0 n kabs (subgroups c)) (map (fun _ => None) (st_dens s)) = Ok mx -> length mx = n.
Proof.
  intros Ha H1 H2 H3 n Hmx. destruct (calc_shapes c s _ _ _ Ha H1 H2 H3) as (L1 & L2 & L3).
  assert (Le : length (to_erg (mec2 c) (st_bins s)) = length (st_bins s)) by apply map_length.
  destruct (calc_max_times_spec c _ _ _ _ _ _ _ Hmx) as (Lm & _); rewrite ?Le; auto. rewrite map_length. apply Ha. lia.
Qed.

(** C10 *)
Lemma thm_auto_step ne d s d' s' : stepd c = Auto -> optimize c = false -> positive_grid c -> positive_steps c ->
  reached np c ne d s -> st_elapsed s < total c -> step np c s d = (d', Ok s') ->
  let dt := st_elapsed s' - st_elapsed s in
  0 < dt /\
  (forall g i, (g < length (st_subs s))%nat -> (i < length (st_bins s))%nat -> limits_at c s g i dt) /\
  (st_elapsed s' < total c -> forall dt', dt < dt' ->
     exists g i, (g < length (st_subs s))%nat /\ (i < length (st_bins s))%nat /\ ~ limits_at c s g i dt').
Proof.
  intros HA HO Hg Hp Hr Hlt Hst. destruct (reached_steady ne d s Hg Hp Hr) as (Ha & Hs & _).
  apply step_time in Hst as (eng & inj & left0 & t & Hc & Et & Hle). cbv zeta. replace (st_elapsed s' - st_elapsed s) with t by lra.
  destruct (step_time_pos c (v_mec _ Hv) _ _ _ _ _ Ha Hs Hp Hlt Hc) as [Hpos _].
  apply choose_step_Ok in Hc as (ken & krel & kabs & dr & step0 & H1 & H2 & H3 & He & _ & _ & H6 & H7).
  red in Hp. rewrite HA in Hp. destruct Hp as (HE & HD & HI).
  rewrite HA in H6. destruct H6 as (mx & Hmx & H6). rewrite HO in H6. destruct H6 as [_ Hmin]. rewrite He in Hmx.
  pose proof (mx_length _ _ _ _ _ Ha H1 H2 H3 Hmx) as Lmx.
  assert (Hbin : forall i l u, nth_error (st_bins s) i = Some (l, u) -> 0 < l < u).
  { intros i l u Hi. assert (0 < l). { apply (sd_pos _ _ Hs). apply nth_error_In with i. apply (lbs_nth _ _ (l, u)); auto. }
    destruct (sd_bins _ _ Hs _ _ Hi) as [Hf|[E _]]; [|congruence]. pose proof (fresh_bin_pos (l, u) H Hf). simpl in *. lra. }
  apply ext_list_min_spec in Hmin as [Hin Hall].
  assert (Hts : ext_le (Some t) step0). { rewrite H7. destruct step0 as [t0|]; simpl; auto. destruct (Rltb_spec (total c - st_elapsed s) t0); lra. }
  split; auto. split.
  - intros g i Hgl Hil. destruct (nth_error_Some_ex (st_bins s) i Hil) as [[l u] Hb]. destruct (nth_error_Some_ex mx i) as [x Hx]; [lia|].
    apply (mx_limits s ken krel kabs mx i x l u t HE HD HI Ha H1 H2 H3 Hmx Hx Hb); auto; try lra. { eauto. }
    eapply ext_le_trans; [exact Hts|]. apply Hall. eapply nth_error_In; eauto.
  - intros Hend dt' Hdt. rewrite Et in Hend. destruct step0 as [t0|]; [|lra]. destruct (Rltb_spec (total c - st_elapsed s) t0); [lra|]. subst t0.
    apply In_nth_error in Hin as [i Hx]. destruct (nth_error_Some_ex (st_bins s) i) as [[l u] Hb]. { rewrite <- Lmx. eapply nth_error_lt; eauto. }
    assert (Hno : ~ ext_le (Some dt') (Some t)) by (simpl; lra).
    rewrite (mx_limits s ken krel kabs mx i (Some t) l u dt' HE HD HI Ha H1 H2 H3 Hmx Hx Hb) in Hno by (eauto; lra).
    destruct (Classical_Prop.classic (exists g, (g < length (st_subs s))%nat /\ ~ limits_at c s g i dt')) as [(g & Hgl & Hn)|Hno2].
    + exists g, i. split; auto. split; auto. eapply nth_error_lt; eauto.
    + exfalso. apply Hno. intros g Hgl. destruct (Classical_Prop.classic (limits_at c s g i dt')); auto. exfalso. apply Hno2. eauto.
Qed.
End Auto.
