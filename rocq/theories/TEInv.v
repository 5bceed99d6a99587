(** Loop invariants of evaluate(): elapsed time, positivity of the steps,
    densities, subgroup fractions, freshness of the rates, NaN freedom. *)
From Verif Require Import Base TEUtils TimeEvolution ListFacts TEIndexFacts TEStageFacts TEStepFacts TELoopFacts.

(** ** extended times *)
Definition ext_le (a b : ext) : Prop :=
  match b with None => True | Some y => match a with None => False | Some x => x <= y end end.
Definition ext_pos (a : ext) : Prop := match a with None => True | Some x => 0 < x end.
Lemma ext_le_refl a : ext_le a a.
Proof. destruct a; simpl; auto; lra. Qed.
Lemma ext_le_trans a b d : ext_le a b -> ext_le b d -> ext_le a d.
Proof. destruct a, b, d; simpl; auto; try tauto; lra. Qed.
Lemma ext_min_le_l a b : ext_le (ext_min a b) a.
Proof. destruct a, b; simpl; auto; try lra. apply Rmin_l. Qed.
Lemma ext_min_le_r a b : ext_le (ext_min a b) b.
Proof. destruct a, b; simpl; auto; try lra. apply Rmin_r. Qed.
Lemma ext_min_case a b : ext_min a b = a \/ ext_min a b = b.
Proof. destruct a, b; simpl; auto. unfold Rmin. destruct (Rle_dec r r0); auto. Qed.
Lemma ext_min_pos a b : ext_pos a -> ext_pos b -> ext_pos (ext_min a b).
Proof. intros. destruct (ext_min_case a b) as [-> | ->]; auto. Qed.

Lemma fold_ext_min l a : ext_le (fold_left ext_min l a) a /\ (forall v, In v l -> ext_le (fold_left ext_min l a) v) /\
  (fold_left ext_min l a = a \/ In (fold_left ext_min l a) l).
Proof.
  revert a; induction l as [|x l IH]; intros a; simpl. { split; [apply ext_le_refl|]. split; [tauto|auto]. }
  destruct (IH (ext_min a x)) as (H1 & H2 & H3). pose proof (ext_min_le_l a x). pose proof (ext_min_le_r a x).
  split; [eapply ext_le_trans; eauto|]. split; [intros v [<-|Hv]; [eapply ext_le_trans; eauto|auto]|].
  destruct H3 as [H3|H3]; [|auto]. rewrite H3. destruct (ext_min_case a x) as [-> | ->]; auto.
Qed.
Lemma ext_list_min_spec l t : ext_list_min l = Ok t -> In t l /\ forall v, In v l -> ext_le t v.
Proof.
  destruct l as [|a l]; simpl; [discriminate|]. intros H; injection H as <-.
  destruct (fold_ext_min l a) as (H1 & H2 & H3). split; [destruct H3 as [->|]; auto|]. intros v [<-|Hv]; auto.
Qed.

(** ** the maximal time per bin *)
Section MaxTimes.
Variable c : cfg.

Lemma calc_max_times_spec e dg eng relg absg acc mx :
  calc_max_times c e dg eng relg absg acc = Ok mx ->
  length acc = length e -> (forall r, In r eng -> length r = length e) -> (forall r, In r relg -> length r = length e) ->
  (forall r, In r absg -> length r = length e) ->
  length mx = length e /\
  (length dg <= length eng)%nat /\ (length dg <= length relg)%nat /\ (length dg <= length absg)%nat /\
  forall i x eb a, nth_error mx i = Some x -> nth_error e i = Some eb -> nth_error acc i = Some a ->
    ext_le x a /\
    (forall g er rel ab eri reli abi, (g < length dg)%nat -> nth_error eng g = Some er -> nth_error relg g = Some rel -> nth_error absg g = Some ab ->
       nth_error er i = Some eri -> nth_error rel i = Some reli -> nth_error ab i = Some abi -> ext_le x (max_time_bin c eb eri reli abi)) /\
    (x = a \/ exists g er rel ab eri reli abi, (g < length dg)%nat /\ nth_error eng g = Some er /\ nth_error relg g = Some rel /\ nth_error absg g = Some ab /\
       nth_error er i = Some eri /\ nth_error rel i = Some reli /\ nth_error ab i = Some abi /\ x = max_time_bin c eb eri reli abi).
Proof.
  revert eng relg absg acc. induction dg as [|d dg IH]; intros eng relg absg acc H La Le Lr Lb; simpl in H.
  - injection H as <-. split; auto. do 3 (split; [simpl; lia|]).
    intros i x eb a Hx Heb Ha. assert (x = a) by congruence. subst. split; [apply ext_le_refl|].
    split; [|auto]. intros g er rel ab eri reli abi Hg. simpl in Hg. lia.
  - destruct eng as [|er eng]; [discriminate|]. destruct relg as [|rel relg]; [discriminate|]. destruct absg as [|ab absg]; [discriminate|].
    destruct (existsb _ _); [discriminate|].
    assert (Ler : length er = length e) by (apply Le; simpl; auto).
    assert (Lrel : length rel = length e) by (apply Lr; simpl; auto).
    assert (Lab : length ab = length e) by (apply Lb; simpl; auto).
    assert (Lg : length (max_times_group c e er rel ab) = length e).
    { unfold max_times_group. apply map2_length_eq; rewrite combine_length; lia. }
    destruct (IH _ _ _ _ H) as (I1 & I2 & I3 & I4 & I5).
    { apply map2_length_eq; auto. } { intros; apply Le; simpl; auto. } { intros; apply Lr; simpl; auto. } { intros; apply Lb; simpl; auto. }
    split; auto. split; [simpl; lia|]. split; [simpl; lia|]. split; [simpl; lia|].
    intros i x eb a Hx Heb Ha.
    pose proof (nth_error_lt _ _ _ Heb) as Hi.
    destruct (nth_error_Some_ex er i) as [eri Heri]; [lia|]. destruct (nth_error_Some_ex rel i) as [reli Hreli]; [lia|].
    destruct (nth_error_Some_ex ab i) as [abi Habi]; [lia|].
    assert (Hg : nth_error (max_times_group c e er rel ab) i = Some (max_time_bin c eb eri reli abi)).
    { unfold max_times_group. rewrite nth_error_map2.
      assert (C : forall (A B : Type) (l : list A) (m : list B) k x y, nth_error l k = Some x -> nth_error m k = Some y -> nth_error (combine l m) k = Some (x, y)).
      { clear. intros A B l. induction l as [|u l IH]; intros [|v m] [|k] x y; simpl; try discriminate; auto. intros E1 E2; congruence. }
      rewrite (C _ _ _ _ _ _ _ Heb Heri), (C _ _ _ _ _ _ _ Hreli Habi). auto. }
    set (mt := max_time_bin c eb eri reli abi) in *.
    assert (Ha' : nth_error (map2 ext_min acc (max_times_group c e er rel ab)) i = Some (ext_min a mt)).
    { rewrite nth_error_map2, Ha, Hg. auto. }
    destruct (I5 _ _ _ _ Hx Heb Ha') as (J1 & J2 & J3).
    split; [eapply ext_le_trans; [exact J1|apply ext_min_le_l]|]. split.
    + intros [|g] er' rel' ab' eri' reli' abi' Hg' H1 H2 H3 H4 H5 H6; simpl in H1, H2, H3.
      * assert (eri' = eri /\ reli' = reli /\ abi' = abi) as (-> & -> & ->) by (repeat split; congruence).
        eapply ext_le_trans; [exact J1|apply ext_min_le_r].
      * apply (J2 g er' rel' ab'); auto. simpl in Hg'. lia.
    + destruct J3 as [->|(g & er' & rel' & ab' & eri' & reli' & abi' & Hg' & H1 & H2 & H3 & H4 & H5 & H6 & H7)].
      * destruct (ext_min_case a mt) as [E|E]; [auto|]. right. exists 0%nat, er, rel, ab, eri, reli, abi. simpl. repeat split; auto. lia.
      * right. exists (S g), er', rel', ab', eri', reli', abi'. simpl. repeat split; auto. lia.
Qed.

Lemma max_time_bin_pos eb er rel ab : 0 < maxE c -> 0 < maxD c -> 0 < maxI c ->
  0 < fst eb -> 0 < snd eb -> snd eb <> fst eb -> ext_pos (max_time_bin c eb er rel ab).
Proof.
  intros HE HD HI H1 H2 H3.
  assert (E1 : forall e r, 0 < e -> ext_pos (time_1_edge c e r)).
  { intros e r He. unfold time_1_edge. destruct (Reqb_spec r 0); simpl; auto. unfold Rdiv.
    apply Rmult_lt_0_compat; [apply Rmult_lt_0_compat; auto|]. apply Rinv_0_lt_compat, Rabs_pos_lt; auto. }
  unfold max_time_bin. repeat apply ext_min_pos; auto.
  - unfold time_2. destruct (Reqb_spec (snd er - fst er) 0) as [|Hd]; simpl; auto.
    set (x := (snd eb - fst eb) / (snd er - fst er)).
    assert (x <> 0). { unfold x, Rdiv. apply Rmult_integral_contrapositive_currified; [lra|]. apply Rinv_neq_0_compat; auto. }
    destruct (Rltb_spec 0 x); [apply Rmult_lt_0_compat; auto|].
    unfold Rdiv. apply Rmult_lt_0_compat; [apply Rmult_lt_0_compat; lra|]. apply Rinv_0_lt_compat; lra.
  - unfold time_3. destruct (Rltb_spec rel 0); simpl; auto.
    unfold Rdiv. replace (- (1 * / 2) * / rel) with ((1 * / 2) * / (- rel)) by (field; lra).
    apply Rmult_lt_0_compat; [lra|]. apply Rinv_0_lt_compat; lra.
  - unfold time_4. destruct (Reqb_spec ab 0); simpl; auto. unfold Rdiv.
    apply Rmult_lt_0_compat; auto. apply Rinv_0_lt_compat, Rabs_pos_lt; auto.
Qed.
End MaxTimes.

(** ** walking through the loop, from evaluate() *)
Section Run.
Variable np : numpy.
Variable c : cfg.

Lemma loop_steps (I P : dist -> tstate -> Prop) :
  (forall s ne ne' s', I ne s -> st_elapsed s < total c -> step np c s ne = (ne', Ok s') -> I ne' s' /\ P ne' s') ->
  forall fuel s ne ne' tr r, I ne s -> loop np c fuel s ne = (ne', tr, r) ->
    (forall x, In x tr -> exists d, I d x /\ P d x) /\
    (forall sf, r = Ok sf -> I ne' sf /\ total c <= st_elapsed sf /\ (tr = [] /\ sf = s /\ ne' = ne \/ P ne' sf /\ exists tr', tr = tr' ++ [sf])).
Proof.
  intros Hstep fuel. induction fuel as [|fuel IH]; intros s ne ne' tr r HI H; simpl in H.
  - destruct (Rltb_spec (st_elapsed s) (total c)).
    + injection H as <- <- <-. split; [intros x []|discriminate].
    + injection H as <- <- <-. split; [intros x []|]. intros sf E; injection E as <-. repeat split; auto. lra.
  - destruct (Rltb_spec (st_elapsed s) (total c)) as [Hlt|Hge].
    + destruct (step np c s ne) as [ne1 [s1|e]] eqn:Es.
      * destruct (loop np c fuel s1 ne1) as [[ne2 tr2] r2] eqn:El. injection H as <- <- <-.
        destruct (Hstep _ _ _ _ HI Hlt Es) as [HI1 HP1]. destruct (IH _ _ _ _ _ HI1 El) as [H1 H2]. split.
        -- intros x [<-|Hx]; eauto.
        -- intros sf E. destruct (H2 sf E) as (A & B & [(-> & -> & ->)|[C [tr' ->]]]); (split; [auto|split; [auto|]]); right.
           ++ split; auto. exists []; auto.
           ++ split; auto. exists (s1 :: tr'); auto.
      * injection H as <- <- <-. split; [intros x []|discriminate].
    + injection H as <- <- <-. split; [intros x []|]. intros sf E; injection E as <-. repeat split; auto. lra.
Qed.

Lemma evaluate_steps (I P : dist -> tstate -> Prop) fuel ne ne' recs out :
  (forall s0, initial_values np c ne = Ok s0 -> I ne s0) ->
  (forall s d d' s', I d s -> st_elapsed s < total c -> step np c s d = (d', Ok s') -> I d' s' /\ P d' s') ->
  evaluate np c fuel ne = (ne', recs, out) ->
  (forall x, In x recs -> exists d s, I d s /\ P d s /\ x = callback_report s) /\
  (forall r, out = Ok r -> exists s, r = final_report s /\ I ne' s /\ total c <= st_elapsed s /\
     (recs = [] /\ ne' = ne /\ initial_values np c ne = Ok s \/ P ne' s /\ exists pre, recs = pre ++ [callback_report s])).
Proof.
  intros Hi Hs H. unfold evaluate in H. destruct (initial_values np c ne) as [s0|e] eqn:E0.
  - destruct (loop np c fuel s0 ne) as [[ne1 tr] r1] eqn:El. injection H as <- <- <-.
    destruct (loop_steps I P Hs _ _ _ _ _ _ (Hi _ eq_refl) El) as [H1 H2]. split.
    + intros x Hx. apply in_map_iff in Hx as (s & <- & Hin). destruct (H1 _ Hin) as (d & A & B). exists d, s; auto.
    + intros r Hr. destruct r1 as [sf|e]; [|discriminate]. simpl in Hr. injection Hr as <-.
      destruct (H2 _ eq_refl) as (A & B & [(-> & -> & ->)|[C [tr' ->]]]); exists sf || exists s0.
      * repeat split; auto.
      * repeat split; auto. right. split; auto. exists (map callback_report tr'). rewrite map_app. auto.
  - injection H as <- <- <-. split; [intros x []|discriminate].
Qed.

Lemma evaluate_after (I P : dist -> tstate -> Prop) (Q : result -> Prop) fuel ne ne' recs out :
  (forall s0, initial_values np c ne = Ok s0 -> I ne s0) ->
  (forall s d d' s', I d s -> st_elapsed s < total c -> step np c s d = (d', Ok s') -> I d' s' /\ P d' s') ->
  (forall d s, I d s -> P d s -> Q (callback_report s) /\ Q (final_report s)) ->
  evaluate np c fuel ne = (ne', recs, out) ->
  forall x, In x recs \/ (recs <> [] /\ out = Ok x) -> Q x.
Proof.
  intros Hi Hs HQ H x Hx. destruct (evaluate_steps I P fuel ne ne' recs out Hi Hs H) as [H1 H2].
  destruct Hx as [Hx|[Hne Hx]].
  - destruct (H1 _ Hx) as (d & s & A & B & ->). eapply HQ; eauto.
  - destruct (H2 _ Hx) as (s & -> & A & _ & [(-> & _)|[B _]]); [congruence|]. eapply HQ; eauto.
Qed.

(** ** elapsed time *)
Lemma step_time s ne ne' s' : step np c s ne = (ne', Ok s') ->
  exists eng inj left0 t, choose_step c s = Ok (eng, inj, left0, t) /\ st_elapsed s' = st_elapsed s + t /\ t <= total c - st_elapsed s.
Proof.
  intros H. apply step_Ok in H as (eng & inj & left0 & t & b & n & sg & m & left' & mask & pen & pab & prel & Hc & _ & _ & _ & _ & _ & _ & _ & _ & _ & Et & _).
  exists eng, inj, left0, t. repeat split; auto. eapply choose_step_le; eauto.
Qed.
End Run.

Section Inv.
Variable np : numpy.
Hypothesis Hnp : numpy_ok np.
Variable c : cfg.
Hypothesis Hmec : 0 < mec2 c.
Hypothesis Hsplit : split_ok c.

(** ** the step is positive *)
Definition fresh_bin (b : bin) : Prop := snd b = fst b * (1 + bin_size_factor).

(** which bins may be used without being freshly laid out *)
Record steady (s : tstate) : Prop := {
  sd_pos : all_pos (lbs (st_bins s));
  sd_bins : forall j b, nth_error (st_bins s) j = Some b ->
     fresh_bin b \/ (optimize c = true /\ exists l, nth_error (st_left s) j = Some l /\ l <> Some 0 /\ ext_pos l);
  sd_left : forall j l, optimize c = true -> nth_error (st_left s) j = Some l -> l = Some 0 \/ ext_pos l
}.

Definition steps_positive : Prop :=
  match stepd c with Fixed t => 0 < t | Auto => 0 < maxE c /\ 0 < maxD c /\ 0 < maxI c end.

Lemma to_erg_nth b i x : nth_error (to_erg (mec2 c) b) i = Some x -> exists y, nth_error b i = Some y /\ x = (fst y * mec2 c, snd y * mec2 c).
Proof. unfold to_erg. rewrite nth_error_map. destruct (nth_error b i); simpl; [|discriminate]. intros H; injection H as <-; eauto. Qed.

Lemma fresh_bin_pos b : 0 < fst b -> fresh_bin b -> fst b < snd b.
Proof. unfold fresh_bin, bin_size_factor. intros H ->. lra. Qed.

Lemma calc_shapes s ken krel kabs : aligned c s -> known (st_en s) = Ok ken -> known (st_rel s) = Ok krel -> known (st_abs s) = Ok kabs ->
  let n := length (st_bins s) in
  (forall r, In r (sum_change_rates add_bin (0, 0) n ken (subgroups c)) -> length r = n) /\
  (forall r, In r (sum_change_rates Rplus 0 n krel (subgroups c)) -> length r = n) /\
  (forall r, In r (sum_change_rates Rplus 0 n kabs (subgroups c)) -> length r = n).
Proof.
  intros Ha H1 H2 H3 n. repeat split; eapply sum_change_rates_length; eauto; apply Ha.
Qed.

Lemma auto_mx_pos s mx ken krel kabs i x b : 0 < maxE c -> 0 < maxD c -> 0 < maxI c -> aligned c s -> 
  known (st_en s) = Ok ken -> known (st_rel s) = Ok krel -> known (st_abs s) = Ok kabs ->
  let n := length (st_bins s) in
  calc_max_times c (to_erg (mec2 c) (st_bins s)) (to_densities_grouped (st_dens s) (st_subs s))
     (sum_change_rates add_bin (0, 0) n ken (subgroups c)) (sum_change_rates Rplus 0 n krel (subgroups c))
     (sum_change_rates Rplus 0 n kabs (subgroups c)) (map (fun _ => None) (st_dens s)) = Ok mx ->
  nth_error mx i = Some x -> nth_error (st_bins s) i = Some b -> 0 < fst b -> fresh_bin b -> ext_pos x.
Proof.
  intros HE HD HI Ha H1 H2 H3 n Hmx Hx Hb Hp Hf.
  destruct (calc_shapes s _ _ _ Ha H1 H2 H3) as (L1 & L2 & L3).
  assert (Le : length (to_erg (mec2 c) (st_bins s)) = length (st_bins s)) by apply map_length.
  destruct (calc_max_times_spec c _ _ _ _ _ _ _ Hmx) as (Lm & _ & _ & _ & Sp); rewrite ?Le; auto.
  { rewrite map_length. apply Ha. }
  assert (He : nth_error (to_erg (mec2 c) (st_bins s)) i = Some (fst b * mec2 c, snd b * mec2 c)).
  { unfold to_erg. rewrite nth_error_map, Hb. auto. }
  assert (Hacc : nth_error (map (fun _ : R => @None R) (st_dens s)) i = Some None).
  { pose proof (nth_error_lt _ _ _ Hb). rewrite <- (al_dens _ _ Ha) in H. destruct (nth_error_Some_ex (st_dens s) i H) as [d Hd].
    rewrite nth_error_map, Hd. auto. }
  destruct (Sp _ _ _ _ Hx He Hacc) as (_ & _ & [->|(g & er & rel & ab & eri & reli & abi & _ & _ & _ & _ & _ & _ & _ & ->)]); [exact Logic.I|].
  pose proof (fresh_bin_pos b Hp Hf). apply max_time_bin_pos; simpl; auto.
  - apply Rmult_lt_0_compat; auto.
  - apply Rmult_lt_0_compat; lra.
  - intros E. apply Rmult_eq_reg_r in E; lra.
Qed.

Lemma step_time_pos s eng inj left0 t : aligned c s -> steady s -> steps_positive -> st_elapsed s < total c ->
  choose_step c s = Ok (eng, inj, left0, t) ->
  0 < t /\ (optimize c = true -> stepd c = Auto -> forall j l, nth_error left0 j = Some l -> ext_pos l /\ ext_le (Some t) l).
Proof.
  intros Ha Hs Hp Hlt H. apply choose_step_Ok in H as (ken & krel & kabs & dr & step0 & H1 & H2 & H3 & He & _ & _ & H6 & H7).
  unfold steps_positive in Hp. destruct (stepd c) as [t0|].
  - destruct H6 as [_ ->]. split; [|discriminate]. rewrite H7. destruct (Rltb_spec (total c - st_elapsed s) t0); lra.
  - destruct Hp as (HE & HD & HI). destruct H6 as (mx & Hmx & H6). rewrite He in Hmx.
    assert (Lmx : length mx = length (st_bins s)).
    { destruct (calc_shapes s _ _ _ Ha H1 H2 H3) as (L1 & L2 & L3).
      assert (Le : length (to_erg (mec2 c) (st_bins s)) = length (st_bins s)) by apply map_length.
      destruct (calc_max_times_spec c _ _ _ _ _ _ _ Hmx) as (Lm & _); rewrite ?Le; auto. rewrite map_length. apply Ha. lia. }
    assert (Hpos : ext_pos step0 -> 0 < t).
    { intros P. rewrite H7. destruct step0 as [t0|]; simpl in P; [|lra]. destruct (Rltb_spec (total c - st_elapsed s) t0); lra. }
    assert (Hle : ext_le (Some t) step0).
    { rewrite H7. destruct step0 as [t0|]; simpl; auto. destruct (Rltb_spec (total c - st_elapsed s) t0); lra. }
    destruct (optimize c) eqn:Eo.
    + destruct H6 as [El Hmin]. apply ext_list_min_spec in Hmin as [Hin Hall].
      assert (Hl : forall j l, nth_error left0 j = Some l -> ext_pos l).
      { intros j l Hj. rewrite El, nth_error_map2 in Hj. destruct (nth_error (st_left s) j) as [lj|] eqn:Ej; [|discriminate].
        destruct (nth_error mx j) as [mj|] eqn:Emj; [|discriminate]. injection Hj as <-.
        destruct (nth_error_Some_ex (st_bins s) j) as [b Hb]. { rewrite <- Lmx. eapply nth_error_lt; eauto. }
        assert (Hb0 : 0 < fst b). { apply (sd_pos _ Hs). apply nth_error_In with j. apply lbs_nth; auto. }
        unfold ext_is0. destruct lj as [lj|]; [|exact Logic.I]. destruct (Reqb_spec lj 0) as [->|Hlj].
        - destruct (sd_bins _ Hs _ _ Hb) as [Hf|[_ (l & Hl & Hl0 & _)]].
          + eapply auto_mx_pos; eauto.
          + congruence.
        - destruct (sd_left _ Hs _ _ Eo Ej) as [E|P]; [congruence|auto]. }
      split.
      * apply Hpos. apply nth_error_In_iff in Hin as [j Hj]. eapply Hl; eauto.
      * intros _ _ j l Hj. split; [eapply Hl; eauto|]. eapply ext_le_trans; [exact Hle|]. apply Hall. eapply nth_error_In; eauto.
    + destruct H6 as [_ Hmin]. split; [|discriminate]. apply ext_list_min_spec in Hmin as [Hin _]. apply Hpos.
      apply nth_error_In_iff in Hin as [j Hj].
      destruct (nth_error_Some_ex (st_bins s) j) as [b Hb]. { rewrite <- Lmx. eapply nth_error_lt; eauto. }
      eapply auto_mx_pos; eauto.
      * apply (sd_pos _ Hs). apply nth_error_In with j. apply lbs_nth; auto.
      * destruct (sd_bins _ Hs _ _ Hb) as [Hf|[E _]]; [auto|congruence].
Qed.

Definition lo_pos : Prop := forall bd, bounds c = Some bd -> 0 < fst bd.

Lemma tracks_unmapped d b n b' n' m j bj : tracks d b n b' n' m -> nth_error m j = Some (-1)%Z -> nth_error b' j = Some bj -> snd bj = 0.
Proof.
  intros (L1 & L2 & T) Hm Hb. destruct (nth_error_Some_ex n' j) as [nj Hn]. { rewrite L2. eapply nth_error_lt; eauto. }
  destruct (T _ _ _ _ Hm Hb Hn) as [(_ & E & _)|(i & E & _)]; auto. lia.
Qed.

(** what a completed step leaves: every bin either freshly laid out or with
    time left, and placeholders only where recalculated *)
Lemma step_steady s ne ne' s' : aligned c s -> steady s -> steps_positive -> lo_pos -> st_elapsed s < total c ->
  (optimize c = true -> stepd c = Auto) ->
  step np c s ne = (ne', Ok s') ->
  steady s' /\ st_elapsed s < st_elapsed s' <= total c /\
  (no_nan (st_en s) -> no_nan (st_rel s) -> no_nan (st_abs s) -> no_nan (st_en s') /\ no_nan (st_rel s') /\ no_nan (st_abs s')).
Proof.
  intros Ha Hs Hp Hlo Hlt Hoa H.
  destruct (step_spec np Hnp c Hmec s ne ne' s' Ha H) as (Ha' & _ & _ & _ & Hnb & Hbd).
  apply step_Ok in H as (eng & inj & left0 & t & b & n & sg & m & left' & mask & pen & pab & prel & Hc & Hat & Hmask & Hpen & Hpab & Hprel & Eb & En & Es & El & Et & Hen & Hab & Hrel).
  destruct (step_time_pos _ _ _ _ _ Ha Hs Hp Hlt Hc) as [Hpos Hleft].
  pose proof (choose_step_le _ _ _ _ _ _ Hc) as Hle.
  apply apply_time_changes_Ok in Hat as (b2 & n2 & s2 & d & eng' & H12 & H345).
  destruct (choose_step_shapes c _ _ _ _ _ Ha Hc) as (Leng & Linj & _).
  assert (Le : length (to_erg (mec2 c) (st_bins s)) = length (st_bins s)) by apply map_length.
  destruct (stage12_spec np Hnp c Hmec _ _ _ _ _ _ _ _ _ _ _ _ _ H12) as (_ & _ & _ & _ & Lb2 & Ln2 & Ls2 & Lr2 & P2 & N2); rewrite ?Le; auto.
  { apply Ha. } { apply al_subs in Ha; tauto. } { apply al_subs in Ha; tauto. }
  assert (Ln2' : length n2 = length b2) by lia.
  destruct (stage345_spec np Hnp c _ _ _ _ _ _ _ _ _ Ln2' P2 H345) as (T & Hsub & Lbm & _ & _).
  assert (Lnm : length n = length m) by apply T.
  destruct (mask_length_step c s b n m left0 t mask left' Lbm Lnm Hmask) as (Lmask & Lleft').
  assert (Lub : length (update_bin_ub b mask) = length b) by (apply update_bin_ub_length; auto).
  assert (Hm1 : forall j, nth_error m j = Some (-1)%Z -> nth_error mask j = Some true).
  { intros j Hj. pose proof (nth_error_lt _ _ _ Hj) as Hjl.
    destruct (nth_error_Some_ex b j) as [bj Hbj]; [lia|]. destruct (nth_error_Some_ex n j) as [nj Hnj]; [lia|].
    destruct (optimize c).
    - destruct Hmask as (l1 & Hl1 & -> & _). pose proof (tracks_unmapped _ _ _ _ _ _ _ _ T Hj Hbj) as E0.
      rewrite nth_error_map, nth_error_map2, Hbj. destruct (nth_error_Some_ex l1 j) as [x Hx]. { rewrite (remap_length _ _ _ _ Hl1). auto. }
      rewrite Hx. simpl. f_equal. rewrite (proj2 (Reqb_true (snd bj) 0) E0). simpl. apply Rltb_true; auto.
    - destruct Hmask as [-> _]. rewrite nth_error_map, Hnj. auto. }
  split; [|split].
  - constructor.
    + destruct (bounds c) as [bd|] eqn:Ebd. { destruct (Hbd bd eq_refl) as (_ & _ & X & _). apply X. apply Hlo; auto. } apply Hnb; auto.
    + intros j bj Hj. rewrite Eb in Hj. rewrite El.
      assert (Hj' : exists bb mm, nth_error b j = Some bb /\ nth_error mask j = Some mm /\ bj = if mm then (fst bb, fst bb * (1 + bin_size_factor)) else bb).
      { unfold update_bin_ub in Hj. rewrite nth_error_map2 in Hj. destruct (nth_error b j); [|discriminate]. destruct (nth_error mask j); [|discriminate]. injection Hj as <-. eauto. }
      destruct Hj' as (bb & mm & Hbb & Hmm & ->). destruct mm; [left; red; auto|]. right.
      destruct (optimize c).
      * split; auto. destruct Hmask as (l1 & Hl1 & -> & ->).
        rewrite nth_error_map in Hmm. set (l2 := map2 _ l1 b) in *. destruct (nth_error l2 j) as [x|] eqn:Ex; [|discriminate].
        simpl in Hmm. injection Hmm as Hmm. exists x. rewrite nth_error_map2, nth_error_map, Ex. simpl. rewrite Hmm. split; auto.
        unfold ext_ltb in Hmm. destruct x as [x|]; [|split; [discriminate|exact Logic.I]]. apply Rltb_false in Hmm.
        split; [intros E; injection E as E; lra|simpl; lra].
      * destruct Hmask as [-> _]. rewrite nth_error_map in Hmm. destruct (nth_error n j); discriminate.
    + intros j l Eo Hj. rewrite El in Hj. rewrite Eo in Hmask. destruct Hmask as (l1 & Hl1 & -> & ->).
      rewrite nth_error_map2, nth_error_map in Hj. set (l2 := map2 _ l1 b) in *. destruct (nth_error l2 j) as [x|] eqn:Ex; [|discriminate].
      simpl in Hj. injection Hj as <-. destruct (ext_ltb x t) eqn:Ext; [auto|]. right. unfold ext_ltb in Ext.
      destruct x as [x|]; [|exact Logic.I]. apply Rltb_false in Ext. simpl. lra.
  - rewrite Et. lra.
  - intros Nen Nrel Nab.
    assert (G : forall A (fns : list (string * GammaFn)) (r pr : rates A) (sh : shape A) cols r', rates_ok fns (length (st_bins s)) r ->
              no_nan r -> remap_dict m r (Some None) = Ok pr -> length cols = length b ->
              recalc_new_rates sh cols fns ne' n sg pr (Some mask) = Ok r' -> no_nan r').
    { intros A fns r pr sh cols r' Hr Hn Hpr Lc Hr'. eapply recalc_masked_nan; [| | |exact Hr'|]; try lia.
      - destruct (remap_dict_ok fns _ _ _ _ _ Hr Hpr) as [X _]. rewrite Lc, Lbm. auto.
      - intros kv i x Hin Hi Hmi. assert (Li : (i < length m)%nat) by (rewrite <- Lbm, <- Lmask; eapply nth_error_lt; eauto).
        destruct (nth_error_Some_ex m i Li) as [z Hz]. eapply remap_dict_nan; eauto.
        intros ->. rewrite (Hm1 _ Hz) in Hmi. discriminate. }
    split; [eapply G; [apply (al_en _ _ Ha)|exact Nen|exact Hpen| |exact Hen]; auto|].
    split; [eapply G; [apply (al_rel _ _ Ha)|exact Nrel|exact Hprel| |exact Hrel]; rewrite lbs_length; auto|].
    eapply G; [apply (al_abs _ _ Ha)|exact Nab|exact Hpab| |exact Hab]; rewrite lbs_length; auto.
Qed.

Lemma initial_steady ne s : all_pos (g0 c) -> initial_values np c ne = Ok s -> steady s.
Proof.
  intros Hg H. pose proof (initial_aligned np c ne s Hsplit H) as (_ & _ & El & _).
  apply initial_Ok in H as (sg & _ & H). destruct (dist_call np ne (g0 c)) as [lb' dens].
  destruct H as (Eb & _ & _ & _ & Ele & _). constructor.
  - rewrite El. auto.
  - intros j b Hj. left. rewrite Eb, initial_bins_eq, nth_error_map in Hj. destruct (nth_error (g0 c) j); [|discriminate].
    injection Hj as <-. red. auto.
  - intros j l _ Hj. left. rewrite Ele, nth_error_map in Hj. destruct (nth_error (initial_bins c) j); [|discriminate]. injection Hj as <-. auto.
Qed.

(** without rate reuse every reported rate is fresh *)
Lemma step_fresh s ne ne' s' : aligned c s -> optimize c = false -> step np c s ne = (ne', Ok s') ->
  (forall b, In b (st_bins s') -> fresh_bin b) /\
  fresh_rates shape2 (en_fns c) ne' (st_bins s') (st_dens s') (st_subs s') (st_en s') /\
  fresh_rates shape1 (rel_fns c) ne' (lbs (st_bins s')) (st_dens s') (st_subs s') (st_rel s') /\
  fresh_rates shape1 (abs_fns c) ne' (lbs (st_bins s')) (st_dens s') (st_subs s') (st_abs s').
Proof.
  intros Ha Eo H.
  destruct (step_spec np Hnp c Hmec s ne ne' s' Ha H) as (Ha' & _).
  apply step_Ok in H as (eng & inj & left0 & t & b & n & sg & m & left' & mask & pen & pab & prel & Hc & Hat & Hmask & Hpen & Hpab & Hprel & Eb & En & Es & El & Et & Hen & Hab & Hrel).
  rewrite Eo in Hmask. destruct Hmask as [-> _].
  assert (Ln : length n = length (st_bins s')) by (rewrite <- En; apply Ha').
  assert (Lm : length m = length (st_bins s')).
  { apply apply_time_changes_Ok in Hat as (b2 & n2 & s2 & d & eng' & H12 & H345).
    destruct (choose_step_shapes c _ _ _ _ _ Ha Hc) as (Leng & Linj & _).
    assert (Le : length (to_erg (mec2 c) (st_bins s)) = length (st_bins s)) by apply map_length.
    destruct (stage12_spec np Hnp c Hmec _ _ _ _ _ _ _ _ _ _ _ _ _ H12) as (_ & _ & _ & _ & Lb2 & Ln2 & Ls2 & Lr2 & P2 & N2); rewrite ?Le; auto.
    { apply Ha. } { apply al_subs in Ha; tauto. } { apply al_subs in Ha; tauto. }
    assert (Ln2' : length n2 = length b2) by lia.
    destruct (stage345_spec np Hnp c _ _ _ _ _ _ _ _ _ Ln2' P2 H345) as (T & _). destruct T as (_ & T & _). lia. }
  assert (Hsub : st_subs s' <> [] /\ forall r, In r (st_subs s') -> length r = length (st_bins s')) by apply Ha'.
  rewrite <- Eb in *.
  destruct (remap_dict_ok (en_fns c) _ _ _ _ _ (al_en _ _ Ha) Hpen) as [Open _].
  destruct (remap_dict_ok (abs_fns c) _ _ _ _ _ (al_abs _ _ Ha) Hpab) as [Opab _].
  destruct (remap_dict_ok (rel_fns c) _ _ _ _ _ (al_rel _ _ Ha) Hprel) as [Oprel _].
  rewrite Lm in *. rewrite <- En, <- Es in *. destruct Hsub as [S1 S2]. split; [|split; [|split]].
  - rewrite Eb. intros x Hx. unfold update_bin_ub in Hx. apply In_map2 in Hx as (y & mm & _ & Hmm & ->).
    apply in_map_iff in Hmm as (_ & <- & _). red. auto.
  - eapply recalc_fresh; [right| | | |exact Hen]; auto. exists R, (st_dens s'). auto.
  - eapply recalc_fresh; [right| | | |exact Hrel]; rewrite ?lbs_length; auto. exists R, (st_dens s'). auto.
  - eapply recalc_fresh; [right| | | |exact Hab]; rewrite ?lbs_length; auto. exists R, (st_dens s'). auto.
Qed.

(** ** densities *)
Lemma update_distribution_nonneg b n d : update_distribution np b n = Ok d -> dist_nonneg np d.
Proof.
  unfold update_distribution. destruct (sort_and_merge_duplicates np b n None) as [[sb sn] m].
  destruct (forallb _ sn); [intros H; injection H as <-; intros g; simpl; lra|].
  destruct (Nat.eqb (length sb) 1); [discriminate|]. apply interpolated_nonneg; auto.
Qed.

(** ** subgroup fractions *)
Definition column (j : nat) (rows : list (list R)) : list R := map (fun r => nth j r 0) rows.
Definition col_ok (eps : R) (col : list R) : Prop := (forall v, In v col -> 0 <= v <= 1) /\ Rabs (Rsum col - 1) <= eps.

Definition split_fine (eps : R) (n : nat) (rows : list (list R)) : Prop := forall j, (j < n)%nat -> col_ok eps (column j rows).

Lemma Rsum_div l t : Rsum (map (fun v => v / t) l) = Rsum l / t.
Proof. induction l as [|a l IH]; simpl; [unfold Rdiv; lra|]. rewrite IH. unfold Rdiv. lra. Qed.

Lemma Rsum_ge l v : (forall x, In x l -> 0 <= x) -> In v l -> v <= Rsum l.
Proof.
  induction l as [|a l IH]; simpl; intros H Hv; [tauto|].
  assert (0 <= a) by auto. assert (0 <= Rsum l) by (apply Rsum_nonneg; auto). destruct Hv as [<-|Hv]; [lra|].
  assert (v <= Rsum l) by auto. lra.
Qed.

Lemma apply_time_eval_split eps e dens subs eng inj b' n' s' : 0 <= eps ->
  apply_time_eval np c e dens subs eng inj = Ok (b', n', s') ->
  length dens = length e -> (forall r, In r subs -> length r = length e) ->
  (forall r, In r eng -> length r = length e) -> (forall r, In r inj -> length r = length e) ->
  split_fine eps (length e) subs -> split_fine eps (length e) s'.
Proof.
  intros Heps H L1 L2 L3 L4 Hsf j Hj.
  unfold apply_time_eval in H. apply bind_Ok in H as (xs & Hxs & H). apply bind_Ok in H as (ys & Hys & H).
  destruct (recalc_groups_spec c _ _ _ _ _ Hmec Hxs L1 L2 L3) as [Lx Px].
  destruct (inject_groups_spec xs inj ys (length e) Hys) as (Ly & Py & Ey); auto.
  { intros b d Hbd. destruct (Px _ _ Hbd) as (? & ? & _); auto. }
  destruct ys as [|[b0 d0] rest]; [discriminate|].
  apply bind_Ok in H as ([b1 ds] & H1 & H). injection H as <- <- <-.
  assert (Hpos : forall b d, In (b, d) ((b0, d0) :: rest) -> all_pos (lbs b)).
  { intros b d Hbd. assert (In b (map fst xs)) by (rewrite <- Ey; apply in_map_iff; exists (b, d); auto).
    apply in_map_iff in H as ([b2 d2] & E & Hin). simpl in E. subst b2. destruct (Px _ _ Hin) as (_ & _ & Hx).
    intros v Hv. apply in_map_iff in Hv as (x & <- & Hv). apply Hx in Hv. lra. }
  destruct (Py b0 d0) as (Lb0 & Ld0 & Nd0); [simpl; auto|].
  destruct (regrid_spec np Hnp b0 rest b1 ds (length e) H1) as (I1 & I2 & I3 & I4 & I5); auto.
  { apply (Hpos b0 d0). simpl; auto. }
  { intros b d Hbd. destruct (Py b d) as (? & ? & ?); [simpl; auto|]. repeat split; auto. apply (Hpos b d). simpl; auto. }
  assert (Hrows : forall r, In r (d0 :: ds) -> length r = length e /\ forall v, In v r -> 0 <= v).
  { intros r [<-|Hr]; auto. }
  assert (Lds : length (d0 :: ds) = length subs) by (simpl in *; lia).
  set (dd := d0 :: ds) in *. clearbody dd.
  assert (Htot : nth_error (col_sum (length dens) dd) j = Some (Rsum (column j dd))).
  { apply col_sum_nth; [|lia]. intros r Hr. rewrite L1. apply Hrows; auto. }
  assert (Ecol : column j (map2 (new_row (col_sum (length dens) dd)) subs dd) =
                 if Reqb (Rsum (column j dd)) 0 then column j subs else map (fun v => v / Rsum (column j dd)) (column j dd)).
  { apply nth_error_ext'. intros g. unfold column at 1. rewrite nth_error_map, nth_error_map2.
    assert (Q : nth_error (if Reqb (Rsum (column j dd)) 0 then column j subs else map (fun v => v / Rsum (column j dd)) (column j dd)) g =
       if Reqb (Rsum (column j dd)) 0 then option_map (fun r => nth j r 0) (nth_error subs g)
       else option_map (fun r => nth j r 0 / Rsum (column j dd)) (nth_error dd g)).
    { destruct (Reqb _ _). { unfold column. rewrite nth_error_map. auto. } rewrite nth_error_map. unfold column at 2.
      rewrite nth_error_map. destruct (nth_error dd g); auto. }
    rewrite Q. clear Q. destruct (nth_error subs g) as [o|] eqn:Eo.
    - destruct (nth_error_Some_ex dd g) as [nw En]. { rewrite Lds. eapply nth_error_lt; eauto. } rewrite En. simpl.
      assert (Hr : nth_error (new_row (col_sum (length dens) dd) o nw) j = Some (if Reqb (Rsum (column j dd)) 0 then nth j o 0 else nth j nw 0 / Rsum (column j dd))).
      { unfold new_row. rewrite nth_error_map2, Htot.
        assert (C : nth_error (combine o nw) j = Some (nth j o 0, nth j nw 0)).
        { rewrite nth_error_nth' with (d := (0, 0)). 2: { rewrite combine_length. apply nth_error_In in Eo, En. rewrite (L2 _ Eo), (proj1 (Hrows _ En)). lia. }
          f_equal. apply combine_nth. apply nth_error_In in Eo, En. rewrite (L2 _ Eo), (proj1 (Hrows _ En)). auto. }
        rewrite C. simpl. auto. }
      rewrite (nth_error_nth _ _ _ Hr). destruct (Reqb _ _); auto.
    - assert (En : nth_error dd g = None) by (apply nth_error_None; rewrite Lds; apply nth_error_None; auto).
      rewrite En. simpl. destruct (Reqb _ _); auto. }
  rewrite Ecol. destruct (Reqb_spec (Rsum (column j dd)) 0) as [E0|E0]; [apply Hsf; auto|].
  assert (Hc : forall v, In v (column j dd) -> 0 <= v).
  { intros v Hv. apply in_map_iff in Hv as (r & <- & Hr). apply (Hrows r Hr). apply nth_In. rewrite (proj1 (Hrows r Hr)). auto. }
  assert (Hs : 0 < Rsum (column j dd)). { pose proof (Rsum_nonneg _ Hc). lra. }
  split.
  - intros v Hv. apply in_map_iff in Hv as (w & <- & Hw). pose proof (Hc _ Hw). pose proof (Rsum_ge _ _ Hc Hw).
    unfold Rdiv. split; [apply Rmult_le_pos; auto; left; apply Rinv_0_lt_compat; auto|].
    apply Rmult_le_reg_r with (Rsum (column j dd)); auto. rewrite Rmult_assoc, Rinv_l by lra. lra.
  - rewrite Rsum_div. unfold Rdiv. rewrite Rinv_r by lra. rewrite Rminus_diag_eq, Rabs_R0; auto.
Qed.

(** a column of the remapped table is an old column or (1,0,...,0) *)
Lemma remap_subgroups_column m rows s' n j z : remap_subgroups_density m rows = Ok s' ->
  (forall r, In r rows -> length r = n) -> nth_error m j = Some z ->
  (z = (-1)%Z /\ column j s' = 1 :: map (fun _ => 0) (tl s')) \/
  (z <> (-1)%Z /\ exists i, (i < n)%nat /\ (if (z <? 0)%Z then z + Z.of_nat n else z)%Z = Z.of_nat i /\ column j s' = column i rows).
Proof.
  intros H Hl Hz. destruct rows as [|r0 rs]; [discriminate|]. simpl in H.
  apply bind_Ok in H as (a0 & Ha0 & H). apply bind_Ok in H as (l & Hl2 & H). injection H as <-.
  assert (G : forall nv row r, remap_row m nv row = Ok r -> length row = n ->
             if Z.eqb z (-1) then nth j r 0 = nv else exists i, (i < n)%nat /\ (if (z <? 0)%Z then z + Z.of_nat n else z)%Z = Z.of_nat i /\ nth j r 0 = nth i row 0).
  { intros nv row r Hr Lr. destruct (nth_error_Some_ex r j) as [a Ha]. { rewrite (remap_row_length _ _ _ _ Hr). eapply nth_error_lt; eauto. }
    pose proof (remap_row_nth _ _ _ _ Hr _ _ _ Hz Ha) as X. rewrite (nth_error_nth _ _ _ Ha). destruct (Z.eqb z (-1)); auto.
    unfold py_get in X. rewrite Lr in X. set (q := (if (z <? 0)%Z then (z + Z.of_nat n)%Z else z)) in *.
    destruct (Z.ltb_spec q 0); [discriminate|]. destruct (Z.leb_spec (Z.of_nat n) q); [discriminate|]. simpl in X.
    exists (Z.to_nat q). split; [lia|]. split; [lia|]. destruct (nth_error row (Z.to_nat q)) as [v|] eqn:Ev; [|discriminate].
    injection X as ->. symmetry. apply nth_error_nth; auto. }
  pose proof (G _ _ _ Ha0 (Hl _ (or_introl eq_refl))) as G0.
  assert (Gs : forall g r, nth_error l g = Some r -> exists row, nth_error rs g = Some row /\ remap_row m 0 row = Ok r).
  { intros g r Hg. destruct (mapM_nth_r _ _ _ Hl2 _ _ Hg) as (row & A & B). eauto. }
  pose proof (mapM_length _ _ _ Hl2) as Ll.
  destruct (Z.eqb_spec z (-1)) as [->|Hz1].
  - left. split; auto. unfold column. simpl. rewrite G0. f_equal. apply map_ext_in. intros r Hr.
    apply nth_error_In_iff in Hr as [g Hg]. destruct (Gs _ _ Hg) as (row & A & B).
    apply (G _ _ _ B). apply Hl. right. eapply nth_error_In; eauto.
  - right. split; auto. destruct G0 as (i & Hi & Ei & E0). exists i. split; auto. split; auto.
    unfold column. simpl. rewrite E0. f_equal. apply nth_error_ext'. intros g. rewrite !nth_error_map.
    destruct (nth_error l g) as [r|] eqn:Eg.
    + destruct (Gs _ _ Eg) as (row & A & B). rewrite A. simpl. f_equal.
      pose proof (G _ _ _ B (Hl _ (or_intror (nth_error_In _ _ A)))) as X. destruct (Z.eqb_spec z (-1)); [contradiction|].
      destruct X as (i' & Hi' & Ei' & ->). f_equal. lia.
    + assert (E : nth_error rs g = None) by (apply nth_error_None; rewrite <- Ll; apply nth_error_None; auto). rewrite E. auto.
Qed.

Lemma step_split eps s ne ne' s' : 0 <= eps -> aligned c s -> step np c s ne = (ne', Ok s') ->
  split_fine eps (length (st_bins s)) (st_subs s) -> split_fine eps (length (st_bins s')) (st_subs s').
Proof.
  intros He Ha H Hsf.
  destruct (step_spec np Hnp c Hmec s ne ne' s' Ha H) as (Ha' & _).
  apply step_Ok in H as (eng & inj & left0 & t & b & n & sg & m & left' & mask & pen & pab & prel & Hc & Hat & Hmask & Hpen & Hpab & Hprel & Eb & En & Es & El & Et & Hen & Hab & Hrel).
  apply apply_time_changes_Ok in Hat as (b2 & n2 & s2 & d & eng' & H12 & H345).
  destruct (choose_step_shapes c _ _ _ _ _ Ha Hc) as (Leng & Linj & _).
  assert (Le : length (to_erg (mec2 c) (st_bins s)) = length (st_bins s)) by apply map_length.
  assert (Hsub : st_subs s <> [] /\ forall r, In r (st_subs s) -> length r = length (st_bins s)) by apply Ha.
  destruct Hsub as [S1 S2]. assert (Ld : length (st_dens s) = length (st_bins s)) by apply Ha.
  assert (H12' := H12). apply stage12_Ok in H12' as (_ & _ & HM).
  destruct (stage12_spec np Hnp c Hmec _ _ _ _ _ _ _ _ _ _ _ _ _ H12) as (_ & _ & Leng' & _ & Lb2 & Ln2 & Ls2 & Lr2 & P2 & N2); rewrite ?Le; auto.
  assert (F2 : split_fine eps (length (st_bins s)) s2).
  { rewrite <- Le in *. destruct (method c).
    - destruct HM as [HM ->]. eapply apply_time_eval_split; eauto; [apply scale_bins_rows; auto|apply scale_rows; auto].
    - destruct HM as (b1 & n1 & s1 & d1 & en1 & ken1 & M1 & _ & _ & _ & _ & M2).
      assert (F1 : split_fine eps (length (to_erg (mec2 c) (st_bins s))) s1).
      { eapply apply_time_eval_split; eauto; [apply scale_bins_rows; auto|apply scale_rows; auto]. }
      assert (Ls1 : forall r, In r s1 -> length r = length (to_erg (mec2 c) (st_bins s))).
      { eapply (apply_time_eval_spec np Hnp c _ _ _ _ _ _ _ _ Hmec M1); auto; [apply scale_bins_rows; auto|apply scale_rows; auto]. }
      eapply apply_time_eval_split; eauto; [apply scale_bins_rows; auto|apply scale_rows; auto]. }
  assert (Ln2' : length n2 = length b2) by lia.
  destruct (stage345_spec np Hnp c _ _ _ _ _ _ _ _ _ Ln2' P2 H345) as (T & Hs & Lbm & _ & _).
  intros j Hj. rewrite Es. assert (Lj : (j < length m)%nat).
  { destruct T as (_ & T & _). rewrite <- T, <- En. rewrite (al_dens _ _ Ha'). auto. }
  destruct (nth_error_Some_ex m j Lj) as [z Hz]. rewrite Le in Lr2.
  destruct (remap_subgroups_column _ _ _ (length (st_bins s)) j z Hs) as [[_ E]|(_ & i & Hi & _ & E)]; auto; rewrite E.
  - split.
    + intros v [<-|Hv]; [lra|]. apply in_map_iff in Hv as (_ & <- & _). lra.
    + simpl. assert (Rsum (map (fun _ : list R => 0) (tl sg)) = 0). { clear. induction (tl sg); simpl; lra. }
      rewrite H. rewrite Rplus_0_r, Rminus_diag_eq, Rabs_R0; auto.
  - apply F2; auto.
Qed.
End Inv.
