(** Facts about one loop pass of evaluate(): alignment, order, bounds. *)
From Verif Require Import Base TEUtils TimeEvolution ListFacts TEIndexFacts TEStageFacts.

Lemma remap_mask_None {A} mask (l : list A) : length mask = length l ->
  remap (mask_to_mapping mask) l None = Ok (select mask l).
Proof. intros L. unfold remap. rewrite take_mask by auto. simpl. rewrite mask_mapping_nonneg. auto. Qed.

Section Stages.
Variable np : numpy.
Hypothesis Hnp : numpy_ok np.
Variable c : cfg.

Lemma sort_and_merge_bins_spec b n d b3 n3 m3 :
  length n = length b -> all_pos (lbs b) ->
  sort_and_merge_bins np c b n d = Ok (b3, n3, m3) ->
  tracks (dist_eval np d) b n b3 n3 m3 /\ nonneg_map m3 /\ all_pos (lbs b3) /\ lg_incr np (lbs b3) /\
  (forall thr, merge_thr c = Some thr -> gaps_ok np thr (lbs b3)).
Proof.
  intros L Hp H. unfold sort_and_merge_bins in H.
  destruct (sort_and_merge_duplicates np b n (Some (dist_eval np d))) as [[b1 d1] m1] eqn:E1.
  pose proof (tracks_sort np Hnp _ _ _ _ _ _ L E1) as T1.
  destruct (sort_merge_pos_incr np Hnp _ _ _ _ _ _ Hp E1) as [P1 I1].
  assert (L1 : length d1 = length b1) by (destruct T1 as (? & ? & _); congruence).
  destruct (merge_thr c) as [thr|].
  - apply bind_Ok in H as ([[b2 d2] m2] & H2 & H). apply bind_Ok in H as (m & Hm & H). injection H as <- <- <-.
    destruct (remove_close_spec np Hnp thr _ _ _ _ _ _ L1 P1 I1 H2) as (P2 & I2 & G2 & T2 & _).
    split; [|split; [|split; [|split]]]; auto.
    + eapply tracks_compose; eauto. apply nonneg_of_nat.
    + eapply combine_nonneg; [apply nonneg_of_nat|apply nonneg_of_nat|exact Hm].
    + intros t Ht. injection Ht as <-. auto.
  - injection H as <- <- <-. split; [|split; [|split; [|split]]]; auto.
    + apply nonneg_of_nat.
    + discriminate.
Qed.

Lemma in_bounds_spec bd b : in_bounds bd b = true <-> fst bd <= fst b <= snd bd / (1 + bin_size_factor).
Proof. unfold in_bounds. rewrite andb_true_iff, !Rleb_true. tauto. Qed.

(** gammas within the bounds *)
Definition within (bd : R * R) (l : list R) : Prop :=
  forall g, In g l -> fst bd <= g <= snd bd / (1 + bin_size_factor).

Lemma lbs_select mask b : lbs (select mask b) = select mask (lbs b).
Proof. unfold lbs. rewrite select_map. auto. Qed.

(** all gaps but the first [p] and the last [p] are at least [thr] *)
Definition gaps_ok_but (p : nat) (thr : R) (l : list R) : Prop :=
  forall k a b, (p <= k)%nat -> (p + S k < length l)%nat -> nth_error l k = Some a -> nth_error l (S k) = Some b ->
    thr <= lg np b - lg np a.

Lemma stage345_spec b n s d eng b' n' s' m :
  length n = length b -> all_pos (lbs b) ->
  stage345 np c b n s d eng = Ok (b', n', s', m) ->
  tracks (dist_eval np d) b n b' n' m /\ remap_subgroups_density m s = Ok s' /\ length b' = length m /\
  (bounds c = None -> all_pos (lbs b') /\ lg_incr np (lbs b') /\
                      (forall thr, merge_thr c = Some thr -> gaps_ok_but 1 thr (lbs b'))) /\
  (forall bd, bounds c = Some bd -> within bd (lbs b') /\
      (forall thr, merge_thr c = Some thr -> gaps_ok_but 2 thr (lbs b')) /\
      (0 < fst bd -> all_pos (lbs b')) /\
      (0 < creep c -> lg np (snd bd) - lg np (snd bd / (1 + bin_size_factor)) < creep c -> adj Rlt (lbs b'))).
Proof.
  intros L Hp H. unfold stage345 in H.
  apply bind_Ok in H as ([[b3 n3] m3] & H3 & H). apply bind_Ok in H as (s3 & Hs3 & H).
  destruct (sort_and_merge_bins_spec _ _ _ _ _ _ L Hp H3) as (T3 & N3 & P3 & I3 & G3).
  assert (Lb3 : length b3 = length m3) by apply T3. assert (Ln3 : length n3 = length m3) by apply T3.
  destruct (bounds c) as [bd|] eqn:Ebd.
  - destruct (remove_gamma_beyond_bounds bd b3) as [b4 m4] eqn:E4.
    unfold remove_gamma_beyond_bounds in E4. injection E4 as <- <-.
    set (mask := map (in_bounds bd) b3) in *.
    assert (Lmask : length mask = length b3) by (unfold mask; apply map_length).
    apply bind_Ok in H as (n4 & Hn4 & H). rewrite remap_mask_None in Hn4 by lia. injection Hn4 as <-.
    apply bind_Ok in H as (s4 & Hs4 & H). apply bind_Ok in H as (m34 & Hm34 & H).
    destruct eng as [|er eng']; [discriminate|].
    apply bind_Ok in H as ([b5 m5] & H5 & H). apply bind_Ok in H as (n5 & Hn5 & H).
    apply bind_Ok in H as (s5 & Hs5 & H). apply bind_Ok in H as (mm & Hmm & H). injection H as <- <- <- <-.
    assert (Ln3' : length n3 = length b3) by lia.
    pose proof (tracks_select (dist_eval np d) mask b3 n3 Lmask Ln3') as T4.
    pose proof (tracks_compose _ _ _ _ _ _ _ _ _ _ N3 T3 T4 Hm34) as T34.
    assert (L4 : length (select mask n3) = length (select mask b3)) by (rewrite !select_length by lia; auto).
    destruct (tracks_add np c (dist_eval np d) _ _ _ _ _ _ _ L4 H5 Hn5) as [T5 L5].
    assert (N34 : nonneg_map m34) by (eapply combine_nonneg; [exact N3|apply nonneg_mask|exact Hm34]).
    pose proof (tracks_compose _ _ _ _ _ _ _ _ _ _ N34 T34 T5 Hmm) as T.
    split; auto. split.
    { eapply remap_subgroups_compose; [exact Hmm| |exact Hs5]. eapply remap_subgroups_compose; eauto. }
    split. { destruct T as (? & ? & _); auto. }
    split; [discriminate|]. intros bd' E'. injection E' as <-.
    assert (W4 : within bd (lbs (select mask b3))).
    { intros g Hg. apply in_map_iff in Hg as (x & <- & Hx). unfold mask in Hx. rewrite select_filter in Hx.
      apply filter_In in Hx as [_ Hx]. apply in_bounds_spec; auto. }
    apply add_boundary_cases in H5 as (bf & bl & rf & rl & Hbf & Hbl & _ & _ & pre & post & -> & -> & Hpre & Hpost).
    assert (Wbf : fst bd <= fst bf <= snd bd / (1 + bin_size_factor)).
    { apply W4. apply in_map. eapply nth_error_In; eauto. }
    assert (Wbl : fst bd <= fst bl <= snd bd / (1 + bin_size_factor)).
    { apply W4. apply in_map. eapply nth_error_In; eauto. }
    assert (Hlb : forall p : list (bin * Z), lbs (map fst p) = map (fun x => fst (fst x)) p).
    { intros p. unfold lbs. rewrite map_map. auto. }
    assert (El : lbs (map fst pre ++ select mask b3 ++ map fst post) =
                 map (fun x => fst (fst x)) pre ++ lbs (select mask b3) ++ map (fun x => fst (fst x)) post).
    { unfold lbs. rewrite !map_app, !map_map. auto. }
    assert (W5 : within bd (lbs (map fst pre ++ select mask b3 ++ map fst post))).
    { rewrite El. intros g Hg. apply in_app_or in Hg as [Hg|Hg]; [|apply in_app_or in Hg as [Hg|Hg]; auto].
      - destruct Hpre as [[-> _]|[-> _]]; [destruct Hg|]. destruct Hg as [<-|[]]. simpl. lra.
      - destruct Hpost as [[-> _]|[-> _]]; [destruct Hg|]. destruct Hg as [<-|[]]. simpl. lra. }
    set (l4 := lbs (select mask b3)) in *.
    assert (P4 : all_pos l4). { intros v Hv. unfold l4 in Hv. rewrite lbs_select in Hv. apply select_In in Hv. auto. }
    assert (Lmask' : length mask = length (lbs b3)) by (rewrite lbs_length; auto).
    assert (I4 : lg_incr np l4). { unfold l4. rewrite lbs_select. apply select_lg_incr; auto. }
    split; auto. split; [|split].
    + intros thr Ht. specialize (G3 thr Ht).
      assert (G4 : gaps_ok np thr l4). { unfold l4. rewrite lbs_select. apply select_gaps; auto. }
      rewrite El. intros k x y Hk1 Hk2 Hx Hy.
      assert (Lpre : (length (map (fun x : bin * Z => fst (fst x)) pre) <= 1)%nat).
      { rewrite map_length. destruct Hpre as [[-> _]|[-> _]]; simpl; lia. }
      assert (Lpost : (length (map (fun x : bin * Z => fst (fst x)) post) <= 1)%nat).
      { rewrite map_length. destruct Hpost as [[-> _]|[-> _]]; simpl; lia. }
      set (pl := map (fun x : bin * Z => fst (fst x)) pre) in *. set (pr := map (fun x : bin * Z => fst (fst x)) post) in *.
      rewrite !app_length in Hk2.
      rewrite nth_error_app2 in Hx, Hy by lia. replace (S k - length pl)%nat with (S (k - length pl)) in Hy by lia.
      rewrite nth_error_app1 in Hx, Hy by lia.
      apply (G4 (k - length pl)%nat); auto; lia.
    + intros H0 v Hv. apply W5 in Hv. lra.
    + intros Hc1 Hc2. rewrite El.
      assert (Hlt4 : adj Rlt l4).
      { intros k x y Hx Hy. destruct (Rlt_dec x y); auto. exfalso. specialize (I4 _ _ _ Hx Hy).
        assert (lg np y <= lg np x). { apply (lg_mono _ Hnp); [apply P4; eapply nth_error_In; eauto|lra]. } lra. }
      assert (Hpf : 0 < fst bf). { apply P4. apply in_map. eapply nth_error_In; eauto. }
      assert (Hpl : 0 < fst bl). { apply P4. apply in_map. eapply nth_error_In; eauto. }
      assert (Hfirst : forall p, In p pre -> fst (fst p) < fst bf).
      { intros p Hpp. destruct Hpre as [[-> _]|[-> [Hc Hr]]]; [destruct Hpp|]. destruct Hpp as [<-|[]]. simpl.
        destruct (Rlt_dec (fst bd) (fst bf)); auto. exfalso.
        assert (lg np (fst bf) <= lg np (fst bd)) by (apply (lg_mono _ Hnp); lra). lra. }
      assert (Hlast : forall p, In p post -> fst bl < fst (fst p)).
      { intros p Hpp. destruct Hpost as [[-> _]|[-> [Hc Hr]]]; [destruct Hpp|]. destruct Hpp as [<-|[]]. simpl.
        destruct (Rlt_dec (fst bl) (snd bd / (1 + bin_size_factor))); auto. exfalso.
        assert (lg np (snd bd / (1 + bin_size_factor)) <= lg np (fst bl)) by (apply (lg_mono _ Hnp); lra). lra. }
      assert (Hpre1 : (length pre <= 1)%nat) by (destruct Hpre as [[-> _]|[-> _]]; simpl; lia).
      assert (Hpost1 : (length post <= 1)%nat) by (destruct Hpost as [[-> _]|[-> _]]; simpl; lia).
      assert (Hn4 : nth_error l4 0 = Some (fst bf)) by (apply lbs_nth; auto).
      assert (Hl4 : nth_error l4 (length l4 - 1) = Some (fst bl)).
      { unfold l4. rewrite lbs_length. apply lbs_nth; auto. }
      assert (Hne4 : (0 < length l4)%nat) by (eapply nth_error_lt; eauto).
      intros k x y Hx Hy.
      destruct pre as [|p [|? ?]]; [| |simpl in Hpre1; lia]; cbn [map app] in Hx, Hy.
      * destruct (lt_dec (S k) (length l4)).
        -- rewrite nth_error_app1 in Hx, Hy by lia. eapply Hlt4; eauto.
        -- destruct post as [|q [|? ?]]; [| |simpl in Hpost1; lia]; cbn [map] in Hx, Hy.
           ++ rewrite app_nil_r in Hy. apply nth_error_lt in Hy. lia.
           ++ assert (S k = length l4). { apply nth_error_lt in Hy. rewrite app_length in Hy. simpl in Hy. lia. }
              rewrite nth_error_app1 in Hx by lia. rewrite nth_error_app2 in Hy by lia.
              replace (S k - length l4)%nat with 0%nat in Hy by lia. simpl in Hy. injection Hy as <-.
              replace k with (length l4 - 1)%nat in Hx by lia. assert (x = fst bl) by congruence. subst x.
              apply Hlast. simpl; auto.
      * destruct k as [|k].
        -- simpl in Hx. injection Hx as <-. change (nth_error (l4 ++ map (fun x : bin * Z => fst (fst x)) post) 0 = Some y) in Hy. rewrite nth_error_app1 in Hy by lia.
           assert (y = fst bf) by congruence. subst y. apply Hfirst. simpl; auto.
        -- cbn [nth_error] in Hx, Hy. destruct (lt_dec (S k) (length l4)).
           ++ rewrite nth_error_app1 in Hx by lia. change (nth_error (l4 ++ map (fun x : bin * Z => fst (fst x)) post) (S k) = Some y) in Hy.
              rewrite nth_error_app1 in Hy by lia. eapply Hlt4; eauto.
           ++ change (nth_error (l4 ++ map (fun x : bin * Z => fst (fst x)) post) (S k) = Some y) in Hy.
              destruct post as [|q [|? ?]]; [| |simpl in Hpost1; lia]; cbn [map] in Hx, Hy.
              ** rewrite app_nil_r in Hy. apply nth_error_lt in Hy. lia.
              ** assert (S k = length l4). { apply nth_error_lt in Hy. rewrite app_length in Hy. simpl in Hy. lia. }
                 rewrite nth_error_app1 in Hx by lia. rewrite nth_error_app2 in Hy by lia.
                 replace (S k - length l4)%nat with 0%nat in Hy by lia. simpl in Hy. injection Hy as <-.
                 replace k with (length l4 - 1)%nat in Hx by lia. assert (x = fst bl) by congruence. subst x.
                 apply Hlast. simpl; auto.
  - injection H as <- <- <- <-. split; auto. split; auto. split; auto. split; [|discriminate].
    intros _. split; auto.
Qed.

(** ** update_distribution and apply_time_eval *)
Lemma recalc_bins_pos e ch bins incr : 
  recalc_energy_bins_and_density_increase ch e = Ok (bins, incr) ->
  bins = map2 (fun (b0 c0 : bin) => (fst b0 + fst c0, snd b0 + snd c0)) e ch /\
  incr = map2 (fun (b0 b' : bin) => (snd b0 - fst b0) / (snd b' - fst b')) e bins /\
  (forall x, In x bins -> 0 < fst x < snd x).
Proof.
  unfold recalc_energy_bins_and_density_increase.
  set (new := map2 _ e ch).
  destruct (existsb _ new) eqn:E1; [discriminate|].
  destruct (existsb _ new) eqn:E2 in |- *; [discriminate|].
  destruct (existsb _ new) eqn:E3 in |- *; [discriminate|].
  intros H; injection H as <- <-. split; auto. split; auto.
  intros x Hx. rewrite <- not_true_iff_false, existsb_exists in E1, E2, E3.
  assert (~ (Rleb (fst x) 0 || Rleb (snd x) 0 = true)%bool) as N1 by (intros X; apply E1; eauto).
  assert (~ (Rltb (snd x - fst x) 0 = true)) as N2 by (intros X; apply E2; eauto).
  assert (~ (Reqb (snd x - fst x) 0 = true)) as N3 by (intros X; apply E3; eauto).
  rewrite orb_true_iff, !Rleb_true in N1. rewrite Rltb_true in N2. rewrite Reqb_true in N3. lra.
Qed.

Lemma recalc_gamma_spec e ch dens bins d' : 0 < mec2 c ->
  recalc_gamma_bins_and_density (mec2 c) e ch dens = Ok (bins, d') ->
  length ch = length e -> length dens = length e ->
  length bins = length e /\ length d' = length e /\ (forall x, In x bins -> 0 < fst x < snd x).
Proof.
  intros Hm H L1 L2. unfold recalc_gamma_bins_and_density in H. apply bind_Ok in H as ([new incr] & H1 & H).
  injection H as <- <-. apply recalc_bins_pos in H1 as (Hnew & Hincr & Hpos).
  assert (length new = length e) by (rewrite Hnew; apply map2_length_eq; auto).
  split; [rewrite map_length; auto|]. split; [apply map2_length_eq; auto; rewrite Hincr; apply map2_length_eq; auto|].
  intros x Hx. apply in_map_iff in Hx as (y & <- & Hy). apply Hpos in Hy. simpl.
  assert (0 < / mec2 c) by (apply Rinv_0_lt_compat; auto). unfold Rdiv. split; [apply Rmult_lt_0_compat; lra|].
  apply Rmult_lt_compat_r; lra.
Qed.

Lemma recalc_groups_spec e dens subs eng xs : 0 < mec2 c ->
  recalc_groups c e dens subs eng = Ok xs ->
  length dens = length e -> (forall r, In r subs -> length r = length e) -> (forall r, In r eng -> length r = length e) ->
  length xs = length subs /\ forall b d, In (b, d) xs -> length b = length e /\ length d = length e /\ (forall x, In x b -> 0 < fst x < snd x).
Proof.
  intros Hm. revert eng xs. induction subs as [|row subs IH]; intros eng xs H L1 L2 L3; simpl in H.
  - injection H as <-. split; auto. intros ? ? [].
  - destruct eng as [|ch eng]; [discriminate|]. apply bind_Ok in H as ([b d] & H1 & H). apply bind_Ok in H as (ys & H2 & H).
    injection H as <-. destruct (IH _ _ H2) as [I1 I2]; auto. { intros; apply L2; simpl; auto. } { intros; apply L3; simpl; auto. }
    split; [simpl; auto|]. intros b0 d0 [E|Hin]; [|auto]. injection E as <- <-.
    eapply recalc_gamma_spec; eauto. { apply L3; simpl; auto. } apply map2_length_eq; auto. apply L2; simpl; auto.
Qed.

Lemma inject_groups_spec xs inj ys n :
  inject_groups xs inj = Ok ys ->
  (forall b d, In (b, d) xs -> length b = n /\ length d = n) -> (forall r, In r inj -> length r = n) ->
  length ys = length xs /\ (forall b d, In (b, d) ys -> length b = n /\ length d = n /\ (forall v, In v d -> 0 <= v)) /\
  map fst ys = map fst xs.
Proof.
  revert inj ys. induction xs as [|[b d] xs IH]; intros inj ys H L1 L2; simpl in H.
  - injection H as <-. split; auto. split; auto. intros ? ? [].
  - destruct inj as [|i inj]; [discriminate|].
    destruct (existsb _ _) eqn:E; [discriminate|].
    apply bind_Ok in H as (zs & H1 & H). injection H as <-.
    destruct (IH _ _ H1) as (I1 & I2 & I3). { intros; apply L1; simpl; auto. } { intros; apply L2; simpl; auto. }
    split; [simpl; auto|]. split; [|simpl; congruence]. intros b0 d0 [E0|Hin]; [|auto]. injection E0 as <- <-.
    destruct (L1 b d); [simpl; auto|]. split; auto. split; [apply map2_length_eq; auto; apply L2; simpl; auto|].
    intros v Hv. destruct (Rle_dec 0 v); auto. exfalso. apply not_true_iff_false in E. apply E. apply existsb_exists.
    exists v. split; auto. apply Rltb_true. lra.
Qed.

Lemma fold_min_le l a : fold_left Rmin l a <= a /\ (forall v, In v l -> fold_left Rmin l a <= v) /\ (fold_left Rmin l a = a \/ In (fold_left Rmin l a) l).
Proof.
  revert a; induction l as [|x l IH]; intros a; simpl. { split; [lra|]. split; [tauto|auto]. }
  destruct (IH (Rmin a x)) as (H1 & H2 & H3). pose proof (Rmin_l a x). pose proof (Rmin_r a x).
  split; [lra|]. split; [intros v [<-|Hv]; [lra|auto]|].
  destruct H3 as [H3|H3]; [|auto]. rewrite H3. unfold Rmin. destruct (Rle_dec a x); auto.
Qed.
Lemma fold_max_ge l a : a <= fold_left Rmax l a /\ (forall v, In v l -> v <= fold_left Rmax l a) /\ (fold_left Rmax l a = a \/ In (fold_left Rmax l a) l).
Proof.
  revert a; induction l as [|x l IH]; intros a; simpl. { split; [lra|]. split; [tauto|auto]. }
  destruct (IH (Rmax a x)) as (H1 & H2 & H3). pose proof (Rmax_l a x). pose proof (Rmax_r a x).
  split; [lra|]. split; [intros v [<-|Hv]; [lra|auto]|].
  destruct H3 as [H3|H3]; [|auto]. rewrite H3. unfold Rmax. destruct (Rle_dec a x); auto.
Qed.
Lemma list_min_In l : l <> [] -> In (list_min l) l.
Proof. destruct l as [|a l]; [congruence|]. intros _. simpl. destruct (fold_min_le l a) as (_ & _ & [->|H]); auto. Qed.
Lemma list_max_In l : l <> [] -> In (list_max l) l.
Proof. destruct l as [|a l]; [congruence|]. intros _. simpl. destruct (fold_max_ge l a) as (_ & _ & [->|H]); auto. Qed.
Lemma list_min_le l v : In v l -> list_min l <= v.
Proof. destruct l as [|a l]; simpl; [tauto|]. destruct (fold_min_le l a) as (H1 & H2 & _). intros [<-|H]; auto. Qed.
Lemma list_max_ge l v : In v l -> v <= list_max l.
Proof. destruct l as [|a l]; simpl; [tauto|]. destruct (fold_max_ge l a) as (H1 & H2 & _). intros [<-|H]; auto. Qed.

Lemma correct_first_length g l : length (correct_first g l) = length l.
Proof. destruct l as [|a l]; simpl; auto. destruct (_ && _)%bool; auto. Qed.
Lemma correct_last_length g l : length (correct_last g l) = length l.
Proof.
  unfold correct_last. destruct (rev l) as [|a l'] eqn:E.
  - apply (f_equal (@length R)) in E. rewrite rev_length in E. auto.
  - destruct (_ && _)%bool; auto. rewrite rev_length. apply (f_equal (@length R)) in E. rewrite rev_length in E. simpl in *. auto.
Qed.
Lemma correct_bounds_length lo hi l : length (correct_bounds lo hi l) = length l.
Proof. unfold correct_bounds. rewrite correct_last_length, correct_first_length. auto. Qed.
Lemma correct_bounds_In lo hi l v : In v (correct_bounds lo hi l) -> In v l \/ v = lo \/ v = hi.
Proof.
  unfold correct_bounds. intros H.
  assert (H1 : In v (correct_first lo l) \/ v = hi).
  { unfold correct_last in H. destruct (rev (correct_first lo l)) as [|a l'] eqn:E; [destruct H|].
    destruct (_ && _)%bool; auto. apply in_rev in H. destruct H as [<-|H]; auto. left. apply in_rev. rewrite E. simpl; auto. }
  destruct H1 as [H1|]; auto. destruct l as [|a l]; simpl in H1; auto.
  destruct (_ && _)%bool; auto. destruct H1 as [<-|H1]; simpl; auto.
Qed.

Lemma dist_call_length d gs : length (fst (dist_call np d gs)) = length gs /\ length (snd (dist_call np d gs)) = length gs.
Proof. destruct d; simpl; rewrite ?map_length, ?correct_bounds_length; auto. Qed.

Lemma interpolated_Ok gamma n d : interpolated np gamma n = Ok d ->
  let valid := map (fun v => negb (Reqb v 0)) n in
  d = DInterp (select valid gamma) (select valid n) /\ (2 <= length (select valid gamma))%nat /\
  strictly_increasingb (map (lg np) (select valid gamma)) = true.
Proof.
  unfold interpolated. simpl. destruct (Nat.ltb_spec (length (select (map (fun v => negb (Reqb v 0)) n) gamma)) 2); [discriminate|].
  destruct (strictly_increasingb _) eqn:E; [|discriminate]. intros H0; injection H0 as <-. auto.
Qed.

Definition dist_nonneg (d : dist) : Prop := forall g, 0 <= dist_eval np d g.
Lemma dinterp_nonneg xs ns : dist_nonneg (DInterp xs ns).
Proof. intros g. simpl. destruct (_ && _)%bool; [left; apply (p10_pos _ Hnp)|lra]. Qed.
Lemma interpolated_nonneg gamma n d : interpolated np gamma n = Ok d -> dist_nonneg d.
Proof. intros H. apply interpolated_Ok in H as (-> & _). apply dinterp_nonneg. Qed.

Lemma dist_call_nonneg d gs : dist_nonneg d -> forall v, In v (snd (dist_call np d gs)) -> 0 <= v.
Proof. intros H v Hv. destruct d; simpl in Hv; apply in_map_iff in Hv as (g & <- & _); apply H. Qed.

Lemma regrid_spec bins0 rest bins' ds n :
  regrid_groups np bins0 rest = Ok (bins', ds) ->
  length bins0 = n -> all_pos (lbs bins0) ->
  (forall b d, In (b, d) rest -> length b = n /\ length d = n /\ (forall v, In v d -> 0 <= v) /\ all_pos (lbs b)) ->
  length bins' = n /\ all_pos (lbs bins') /\ length ds = length rest /\
  (forall d, In d ds -> length d = n /\ forall v, In v d -> 0 <= v) /\ ubs bins' = ubs bins0.
Proof.
  revert bins0 bins' ds. induction rest as [|[b d] rest IH]; intros bins0 bins' ds H L P Hr; simpl in H.
  - injection H as <- <-. repeat split; auto; destruct H.
  - assert (Hr' : forall b0 d0, In (b0, d0) rest -> length b0 = n /\ length d0 = n /\ (forall v, In v d0 -> 0 <= v) /\ all_pos (lbs b0)).
    { intros; apply Hr; simpl; auto. }
    destruct (Hr b d) as (Lb & Ld & Hd & Pb); [simpl; auto|].
    destruct (_ || _)%bool.
    + apply bind_Ok in H as ([b1 ds1] & H1 & H). injection H as <- <-.
      destruct (IH _ _ _ H1 L P Hr') as (I1 & I2 & I3 & I4 & I5). repeat split; auto; simpl; auto.
      * destruct H as [<-|H]; auto. apply I4; auto.
      * destruct H as [<-|H]; [auto|]. apply I4; auto.
    + apply bind_Ok in H as (dd & Hdd & H).
      destruct (dist_call np dd (lbs bins0)) as [lb' vals] eqn:Ec.
      pose proof (dist_call_length dd (lbs bins0)) as [Lc1 Lc2]. rewrite Ec in Lc1, Lc2. simpl in Lc1, Lc2. rewrite lbs_length in Lc1, Lc2.
      pose proof (dist_call_nonneg dd (lbs bins0) (interpolated_nonneg _ _ _ Hdd)) as Nc. rewrite Ec in Nc. simpl in Nc.
      apply bind_Ok in H as ([b1 ds1] & H1 & H). injection H as <- <-.
      set (bins0' := map2 _ lb' bins0) in H1.
      assert (L' : length bins0' = n) by (unfold bins0'; apply map2_length_eq; lia).
      assert (El : lbs bins0' = lb').
      { unfold bins0', lbs. clear - Lc1. revert bins0 Lc1. induction lb' as [|x lb IH]; intros [|y bb]; simpl; intros; try discriminate; auto.
        f_equal. apply IH. lia. }
      assert (Eu : ubs bins0' = ubs bins0).
      { unfold bins0', ubs. clear - Lc1. revert bins0 Lc1. induction lb' as [|x lb IH]; intros [|y bb]; simpl; intros; try discriminate; auto.
        f_equal. apply IH. lia. }
      assert (P' : all_pos (lbs bins0')).
      { rewrite El. intros v Hv. apply interpolated_Ok in Hdd as (-> & H2 & _). simpl in Ec. injection Ec as <- <-.
        set (xs := select _ (lbs b)) in *.
        assert (Hxs : xs <> []) by (intros E; rewrite E in H2; simpl in H2; lia).
        assert (Pxs : forall v, In v xs -> 0 < v) by (intros w Hw; apply select_In in Hw; auto).
        apply correct_bounds_In in Hv as [Hv|[->| ->]]; auto.
        - apply Pxs, list_min_In; auto.
        - apply Pxs, list_max_In; auto. }
      destruct (IH _ _ _ H1 L' P' Hr') as (I1 & I2 & I3 & I4 & I5). repeat split; auto; simpl; auto.
      * destruct H as [<-|H]; [lia|]. apply I4; auto.
      * destruct H as [<-|H]; [auto|]. apply I4; auto.
      * congruence.
Qed.

Lemma fold_map2_length rows n acc : length acc = n -> (forall r, In r rows -> length r = n) ->
  length (fold_left (map2 Rplus) rows acc) = n.
Proof.
  revert acc; induction rows as [|r rows IH]; intros acc L H; simpl; auto.
  apply IH. { apply map2_length_eq; auto. apply H; simpl; auto. } intros; apply H; simpl; auto.
Qed.
Lemma col_sum_length n rows : (forall r, In r rows -> length r = n) -> length (col_sum n rows) = n.
Proof. intros H. apply fold_map2_length; auto. apply repeat_length. Qed.

Lemma fold_map2_nth rows n acc i : length acc = n -> (forall r, In r rows -> length r = n) -> (i < n)%nat ->
  nth_error (fold_left (map2 Rplus) rows acc) i = Some (nth i acc 0 + Rsum (map (fun r => nth i r 0) rows)).
Proof.
  revert acc; induction rows as [|r rows IH]; intros acc L H Hi; simpl.
  - rewrite Rplus_0_r. apply nth_error_nth'. lia.
  - assert (Lr : length r = n) by (apply H; simpl; auto).
    rewrite IH; [|apply map2_length_eq; auto|intros; apply H; simpl; auto|auto].
    f_equal. rewrite <- Rplus_assoc. f_equal.
    apply nth_error_nth. rewrite nth_error_map2.
    rewrite (nth_error_nth' acc 0) by lia. rewrite (nth_error_nth' r 0) by lia. auto.
Qed.
Lemma col_sum_nth n rows i : (forall r, In r rows -> length r = n) -> (i < n)%nat ->
  nth_error (col_sum n rows) i = Some (Rsum (map (fun r => nth i r 0) rows)).
Proof.
  intros H Hi. unfold col_sum. rewrite (fold_map2_nth rows n); auto; [|apply repeat_length].
  f_equal. rewrite nth_repeat. lra.
Qed.

Lemma new_row_length tot old new n : length tot = n -> length old = n -> length new = n -> length (new_row tot old new) = n.
Proof. intros. unfold new_row. apply map2_length_eq; auto. rewrite combine_length. lia. Qed.

Lemma apply_time_eval_spec e dens subs eng inj b' n' s' : 0 < mec2 c ->
  apply_time_eval np c e dens subs eng inj = Ok (b', n', s') ->
  length dens = length e -> (forall r, In r subs -> length r = length e) ->
  (forall r, In r eng -> length r = length e) -> (forall r, In r inj -> length r = length e) ->
  length b' = length e /\ length n' = length e /\ length s' = length subs /\
  (forall r, In r s' -> length r = length e) /\ all_pos (lbs b') /\ (forall v, In v n' -> 0 <= v) /\
  subs <> [].
Proof.
  intros Hm H L1 L2 L3 L4. unfold apply_time_eval in H.
  apply bind_Ok in H as (xs & Hxs & H). apply bind_Ok in H as (ys & Hys & H).
  destruct (recalc_groups_spec _ _ _ _ _ Hm Hxs L1 L2 L3) as [Lx Px].
  destruct (inject_groups_spec xs inj ys (length e) Hys) as (Ly & Py & Ey); auto.
  { intros b d Hbd. destruct (Px _ _ Hbd) as (? & ? & _); auto. }
  destruct ys as [|[b0 d0] rest]; [discriminate|].
  apply bind_Ok in H as ([b1 ds] & H1 & H). injection H as <- <- <-.
  assert (Hpos : forall b d, In (b, d) ((b0, d0) :: rest) -> all_pos (lbs b)).
  { intros b d Hbd. assert (In b (map fst xs)) by (rewrite <- Ey; apply in_map_iff; exists (b, d); auto).
    apply in_map_iff in H as ([b2 d2] & E & Hin). simpl in E. subst b2. destruct (Px _ _ Hin) as (_ & _ & Hx).
    intros v Hv. apply in_map_iff in Hv as (x & <- & Hv). apply Hx in Hv. lra. }
  destruct (Py b0 d0) as (Lb0 & Ld0 & Nd0); [simpl; auto|].
  destruct (regrid_spec b0 rest b1 ds (length e) H1) as (I1 & I2 & I3 & I4 & I5); auto.
  { apply (Hpos b0 d0). simpl; auto. }
  { intros b d Hbd. destruct (Py b d) as (? & ? & ?); [simpl; auto|]. repeat split; auto. apply (Hpos b d). simpl; auto. }
  assert (Hrows : forall r, In r (d0 :: ds) -> length r = length e /\ forall v, In v r -> 0 <= v).
  { intros r [<-|Hr]; auto. }
  assert (Lds : length (d0 :: ds) = length subs) by (simpl in *; lia).
  assert (Ltot : length (col_sum (length dens) (d0 :: ds)) = length e).
  { rewrite L1. apply col_sum_length. intros r Hr. apply Hrows; auto. }
  split; auto. split; auto. split; [apply map2_length_eq; auto|]. split.
  { intros r Hr. apply In_map2 in Hr as (o & nw & Ho & Hn & ->). apply new_row_length; auto. apply Hrows; auto. }
  split; auto. split.
  - intros v Hv. apply nth_error_In_iff in Hv as [i Hi]. pose proof (nth_error_lt _ _ _ Hi) as Hlt. rewrite Ltot, <- L1 in Hlt.
    rewrite col_sum_nth in Hi; auto. 2: { intros r Hr. rewrite L1. apply Hrows; auto. }
    assert (Ev : v = Rsum (map (fun r => nth i r 0) (d0 :: ds))) by congruence. rewrite Ev. apply Rsum_nonneg. intros w Hw. apply in_map_iff in Hw as (r & <- & Hr).
    apply (Hrows r Hr). apply nth_In. rewrite (proj1 (Hrows r Hr)). lia.
  - intros ->. simpl in *. lia.
Qed.
End Stages.
