(** Proofs of C07 (raising), C09, C27. *)
From Verif Require Import Base TEUtils TimeEvolution ListFacts TEIndexFacts TEStageFacts TEStepFacts TELoopFacts TEInv TEForward Spec_TE TEThm1 TEThm4.

Section T5.
Variable np : numpy.
Hypothesis Hnp : numpy_ok np.
Variable c : cfg.
Hypothesis Hmec : 0 < mec2 c.

(** group by group, bin by bin: what the energy change does *)
Lemma groups_detail e dens subs ch xs : recalc_groups c e dens subs ch = Ok xs ->
  length xs = length subs /\ (length subs <= length ch)%nat /\
  forall g b d, nth_error xs g = Some (b, d) -> exists row cg, nth_error subs g = Some row /\ nth_error ch g = Some cg /\
    (length cg = length e -> length b = length e) /\
    (length cg = length e -> length dens = length e -> length row = length e -> length d = length e) /\
    forall i l u cl cu v f, nth_error e i = Some (l, u) -> nth_error cg i = Some (cl, cu) -> nth_error dens i = Some v -> nth_error row i = Some f ->
      0 < l + cl < u + cu /\ nth_error b i = Some ((l + cl) / mec2 c, (u + cu) / mec2 c) /\
      nth_error d i = Some (v * f * ((u - l) / ((u + cu) - (l + cl)))).
Proof.
  revert ch xs. induction subs as [|row subs IH]; intros ch xs H; simpl in H.
  - injection H as <-. split; auto. split; [simpl; lia|]. intros [|g] b d E; discriminate.
  - destruct ch as [|cg ch]; [discriminate|]. apply bind_Ok in H as ([b d] & H1 & H). apply bind_Ok in H as (ys & H2 & H).
    injection H as <-. destruct (IH _ _ H2) as (I1 & I2 & I3). split; [simpl; auto|]. split; [simpl; lia|].
    intros [|g] b0 d0 E; simpl in E; [|apply (I3 g); auto]. injection E as <- <-. exists row, cg. split; auto. split; auto.
    unfold recalc_gamma_bins_and_density in H1. apply bind_Ok in H1 as ([new incr] & H1 & E). injection E as <- <-.
    apply recalc_bins_pos in H1 as (Hnew & Hincr & Hpos).
    split; [intros L; rewrite map_length, Hnew; apply map2_length_eq; auto|].
    split. { intros L1 L2 L3. assert (length new = length e) by (rewrite Hnew; apply map2_length_eq; auto).
      apply map2_length_eq; [apply map2_length_eq; auto|]. rewrite Hincr. apply map2_length_eq; auto. }
    intros i l u cl cu v f He Hc Hv Hf.
    assert (En : nth_error new i = Some (l + cl, u + cu)). { rewrite Hnew, nth_error_map2, He, Hc. auto. }
    split. { assert (Hin : In (l + cl, u + cu) new) by (eapply nth_error_In; eauto). apply Hpos in Hin. auto. }
    split. { rewrite nth_error_map, En. auto. }
    rewrite nth_error_map2, nth_error_map2, Hv, Hf, Hincr, nth_error_map2, He, En. auto.
Qed.

Lemma inject_detail xs inj ys : inject_groups xs inj = Ok ys ->
  length ys = length xs /\ (length xs <= length inj)%nat /\
  forall g b d, nth_error xs g = Some (b, d) -> exists q, nth_error inj g = Some q /\ nth_error ys g = Some (b, map2 Rplus d q) /\
    forall v, In v (map2 Rplus d q) -> 0 <= v.
Proof.
  revert inj ys. induction xs as [|[b d] xs IH]; intros inj ys H; simpl in H.
  - injection H as <-. split; auto. split; [simpl; lia|]. intros [|g] ? ? E; discriminate.
  - destruct inj as [|q inj]; [discriminate|]. destruct (existsb _ _) eqn:E; [discriminate|].
    apply bind_Ok in H as (zs & H1 & H). injection H as <-. destruct (IH _ _ H1) as (I1 & I2 & I3). split; [simpl; auto|]. split; [simpl; lia|].
    intros [|g] b0 d0 Eg; simpl in Eg; [|apply (I3 g); auto]. injection Eg as <- <-. exists q. split; auto. split; auto.
    intros v Hv. destruct (Rle_dec 0 v); auto. exfalso. apply not_true_iff_false in E. apply E. apply existsb_exists. exists v. split; auto. apply Rltb_true. lra.
Qed.

(** C07: no step is applied that would make a subgroup negative *)
Lemma thm_negative_raises e dens subs ch inj out : apply_time_eval np c e dens subs ch inj = Ok out ->
  forall g i l u cl cu v f q row cg qg, nth_error subs g = Some row -> nth_error ch g = Some cg -> nth_error inj g = Some qg ->
    nth_error e i = Some (l, u) -> nth_error cg i = Some (cl, cu) -> nth_error dens i = Some v -> nth_error row i = Some f -> nth_error qg i = Some q ->
    0 <= v * f * ((u - l) / ((u + cu) - (l + cl))) + q.
Proof.
  intros H g i l u cl cu v f q row cg qg Hr Hc Hq He Hcl Hv Hf Hqi. unfold apply_time_eval in H.
  apply bind_Ok in H as (xs & Hxs & H). apply bind_Ok in H as (ys & Hys & _).
  destruct (groups_detail _ _ _ _ _ Hxs) as (L & _ & Hd). destruct (inject_detail _ _ _ Hys) as (_ & _ & Hi).
  destruct (nth_error_Some_ex xs g) as [[b d] Hb]; [rewrite L; eapply nth_error_lt; eauto|].
  destruct (Hd _ _ _ Hb) as (row0 & cg0 & E1 & E2 & _ & _ & Hdet). rewrite Hr in E1. injection E1 as <-. rewrite Hc in E2. injection E2 as <-.
  destruct (Hdet i l u cl cu v f He Hcl Hv Hf) as (_ & _ & Hdi).
  destruct (Hi _ _ _ Hb) as (qg0 & E3 & _ & Hn). rewrite Hq in E3. injection E3 as <-.
  apply Hn. apply nth_error_In with (n := i). rewrite nth_error_map2, Hdi, Hqi. auto.
Qed.

(** the exact error, when the energy part went through *)
Lemma thm_negative_error xs inj g i b d qg v q : nth_error xs g = Some (b, d) -> nth_error inj g = Some qg ->
  nth_error d i = Some v -> nth_error qg i = Some q -> v + q < 0 -> (length xs <= length inj)%nat ->
  inject_groups xs inj = Err (ValueError "Negative density obtained").
Proof.
  revert inj g. induction xs as [|[b0 d0] xs IH]; intros inj g Hx Hq Hv Hqi Hn L; [destruct g; discriminate|].
  destruct inj as [|q0 inj]; [simpl in L; lia|]. simpl. destruct (existsb _ _) eqn:E; auto.
  destruct g as [|g]; simpl in *.
  - injection Hx as -> ->. injection Hq as ->. exfalso. apply not_true_iff_false in E. apply E. apply existsb_exists.
    exists (v + q). split; [|apply Rltb_true; auto]. apply nth_error_In with (n := i). rewrite nth_error_map2, Hv, Hqi. auto.
  - rewrite (IH inj g) by (auto; lia). auto.
Qed.

(** ** C09 *)
Lemma nth_error_ext_len {A} (l m : list A) : length l = length m -> (forall i, (i < length l)%nat -> nth_error l i = nth_error m i) -> l = m.
Proof.
  revert m; induction l as [|a l IH]; intros [|b m] L H; try discriminate; auto.
  pose proof (H 0%nat ltac:(simpl; lia)) as E. simpl in E. injection E as ->. f_equal. apply IH; [simpl in L; lia|]. intros i Hi. apply (H (S i)). simpl; lia.
Qed.
Lemma single_eval e dens row ch q b' n' s' : apply_time_eval np c e dens [row] [ch] [q] = Ok (b', n', s') ->
  length ch = length e -> length dens = length e -> length row = length e -> length q = length e ->
  length b' = length e /\ length n' = length e /\
  forall i l u cl cu v f qi, nth_error e i = Some (l, u) -> nth_error ch i = Some (cl, cu) -> nth_error dens i = Some v -> nth_error row i = Some f -> nth_error q i = Some qi ->
    0 < l + cl < u + cu /\ nth_error b' i = Some ((l + cl) / mec2 c, (u + cu) / mec2 c) /\
    nth_error n' i = Some (v * f * ((u - l) / ((u + cu) - (l + cl))) + qi).
Proof.
  intros H L1 L2 L3 L4. unfold apply_time_eval in H. apply bind_Ok in H as (xs & Hxs & H). apply bind_Ok in H as (ys & Hys & H).
  destruct (groups_detail _ _ _ _ _ Hxs) as (L & _ & Hd). destruct (inject_detail _ _ _ Hys) as (Ly & _ & Hi).
  destruct xs as [|[b d] [|? ?]]; try discriminate. destruct ys as [|[b0 d0] [|? ?]]; try discriminate.
  destruct (Hd 0%nat b d eq_refl) as (row0 & cg0 & E1 & E2 & Lb & Ld & Hdet). injection E1 as <-. injection E2 as <-.
  destruct (Hi 0%nat b d eq_refl) as (q0 & E3 & E4 & _). injection E3 as <-. injection E4 as -> ->.
  simpl in H. injection H as <- <- _. split; [auto|].
  assert (Lq : length (map2 Rplus d q) = length dens) by (rewrite L2; apply map2_length_eq; auto).
  assert (En : col_sum (length dens) [map2 Rplus d q] = map2 Rplus d q).
  { apply nth_error_ext_len; [rewrite (col_sum_length (length dens)); auto; intros r [<-|[]]; auto|]. intros i Hlt.
    rewrite (col_sum_length (length dens)) in Hlt by (intros r [<-|[]]; auto).
    rewrite col_sum_nth by (auto; intros r [<-|[]]; auto). simpl. rewrite Rplus_0_r. symmetry. apply nth_error_nth'. lia. }
  rewrite En. split; [lia|].
  intros i l u cl cu v f qi He Hcl Hv Hf Hq. destruct (Hdet i l u cl cu v f He Hcl Hv Hf) as (P & B & D). split; auto. split; auto.
  rewrite nth_error_map2, D, Hq. auto.
Qed.

Lemma total_rate_known n (r : rates R) k i : known r = Ok k -> (forall kv, In kv r -> length (snd kv) = n) -> (i < n)%nat ->
  Rsum (map (fun kv => nth i (snd kv) 0) k) = total_rate r i.
Proof.
  intros H L Hi. apply known_spec in H as [_ H]. unfold total_rate. induction H as [|x y r k [E1 E2] H IH]; simpl; auto.
  rewrite IH by (intros; apply L; simpl; auto). f_equal. assert (Ly : length (snd y) = n). { rewrite <- (L x) by (simpl; auto). rewrite E2, map_length. auto. }
  rewrite E2, nth_error_map. destruct (nth_error_Some_ex (snd y) i) as [v Ev]; [lia|]. rewrite Ev. simpl. apply nth_error_nth; auto.
Qed.
Lemma total_edge_known n (p : bin -> R) (r : rates bin) k i : known r = Ok k -> (forall kv, In kv r -> length (snd kv) = n) -> (i < n)%nat ->
  Rsum (map (fun kv => nth i (snd kv) 0) (edge p k)) = total_edge_rate p r i.
Proof.
  intros H L Hi. apply known_spec in H as [_ H]. unfold total_edge_rate. induction H as [|x y r k [E1 E2] H IH]; simpl; auto.
  rewrite IH by (intros; apply L; simpl; auto). f_equal. assert (Ly : length (snd y) = n). { rewrite <- (L x) by (simpl; auto). rewrite E2, map_length. auto. }
  rewrite E2, nth_error_map. destruct (nth_error_Some_ex (snd y) i) as [v Ev]; [lia|]. rewrite Ev. simpl. apply nth_error_nth.
  rewrite nth_error_map, Ev. auto.
Qed.

Lemma rates_ok_len {A} fns n (r : rates A) : rates_ok fns n r -> forall kv, In kv r -> length (snd kv) = n.
Proof. intros [_ H]. auto. Qed.
Lemma known_len {A} n (r : rates A) k : known r = Ok k -> (forall kv, In kv r -> length (snd kv) = n) -> arrays_of_length n k.
Proof.
  intros H L key v Hin. apply known_spec in H as [_ H]. induction H as [|x y r k [E1 E2] H IH]; [destruct Hin|].
  destruct Hin as [->|Hin]; [|apply IH; auto; intros; apply L; simpl; auto].
  simpl in E2. rewrite <- (L x) by (simpl; auto). rewrite E2, map_length. auto.
Qed.

(** energies of a single group *)
Lemma single_energy n (r : rates bin) k i : known r = Ok k -> (forall kv, In kv r -> length (snd kv) = n) -> (i < n)%nat ->
  nth_error (vsum add_bin (0, 0) n (map snd k)) i = Some (total_edge_rate fst r i, total_edge_rate snd r i).
Proof.
  intros H L Hi. pose proof (known_len n r k H L) as Lk.
  assert (Lv : length (vsum add_bin (0, 0) n (map snd k)) = n).
  { apply vsum_length. intros a Ha. apply in_map_iff in Ha as ([key v] & <- & Hin). apply (Lk key v Hin). }
  destruct (nth_error_Some_ex (vsum add_bin (0, 0) n (map snd k)) i) as [[a b] E]; [lia|]. rewrite E. f_equal.
  assert (G : forall p : bin -> R, p = fst \/ p = snd -> p (a, b) = total_edge_rate p r i).
  { intros p Hp. pose proof (thm_energy_edges n k None p Hp) as T. simpl in T. injection T as T.
    assert (Le : arrays_of_length n (edge p k)). { intros key v Hin. apply in_map_iff in Hin as ([k0 v0] & E0 & Hin). injection E0 as <- <-. simpl. rewrite map_length. apply (Lk k0 v0 Hin). }
    destruct (thm_single_sum n (edge p k) Le) as (row & Er & Lr & Hr). simpl in Er. injection Er as <-.
    rewrite <- (total_edge_known n p r k i H L Hi). rewrite <- Hr by auto. rewrite <- T.
    symmetry. apply nth_error_nth. rewrite nth_error_map, E. auto. }
  rewrite <- (G fst), <- (G snd); auto.
Qed.

Lemma single_rate n (r : rates R) k i : known r = Ok k -> (forall kv, In kv r -> length (snd kv) = n) -> (i < n)%nat ->
  nth_error (vsum Rplus 0 n (map snd k)) i = Some (total_rate r i).
Proof.
  intros H L Hi. pose proof (known_len n r k H L) as Lk. destruct (thm_single_sum n k Lk) as (row & Er & Lr & Hr). simpl in Er. injection Er as Er. rewrite Er.
  destruct (nth_error_Some_ex row i) as [v E]; [lia|]. rewrite E. f_equal. rewrite <- (total_rate_known n r k i H L Hi), <- Hr by auto.
  symmetry. apply nth_error_nth; auto.
Qed.

(** One Euler step of a single group *)
Lemma thm_conserve s ne ne' s' row : aligned c s -> subgroups c = None -> method c = Euler -> st_subs s = [row] -> (forall f, In f row -> f = 1) ->
  step np c s ne = (ne', Ok s') ->
  exists (b : list bin) (n : list R), update_distribution np b n = Ok ne' /\ length b = length (st_bins s) /\ length n = length (st_bins s) /\
    (forall i l u v, nth_error (st_bins s) i = Some (l, u) -> nth_error (st_dens s) i = Some v ->
       let dt := st_elapsed s' - st_elapsed s in
       let l' := l + total_edge_rate fst (st_en s) i * dt / mec2 c in
       let u' := u + total_edge_rate snd (st_en s) i * dt / mec2 c in
       exists v', nth_error b i = Some (l', u') /\ nth_error n i = Some v' /\ 0 < l' < u' /\
         v' * (u' - l') = v * (u - l) + (v * total_rate (st_rel s) i + total_rate (st_abs s) i) * dt * (u' - l')) /\
    (bounds c = None -> merge_thr c = None -> increasing (map (lg np) (lbs b)) -> lbs (st_bins s') = lbs b /\ st_dens s' = n).
Proof.
  intros Ha Hg Hm Hs H1 Hst. pose proof (step_Ok np c s ne ne' s' Hst) as (eng & inj & left0 & t & b & n & sg & m & left' & mask & pen & pab & prel & Hc & Ht & Hmask & _ & _ & _ & Eb & En & _ & _ & Et & _).
  apply apply_time_changes_Ok in Ht as (b2 & n2 & s2 & d & eng' & H12 & H345).
  apply stage12_Ok in H12 as (-> & Hu & H12). rewrite Hm in H12. destruct H12 as [Hap ->].
  pose proof (choose_step_Ok c s eng inj left0 t Hc) as (ken & krel & kabs & dr & step0 & Ken & Krel & Kabs & Eeng & Hdr & Hinj & _ & _).
  rewrite Hg in Eeng, Hdr, Hinj. simpl in Eeng, Hdr, Hinj. unfold to_densities_grouped in Hdr. rewrite Hs in Hdr. simpl in Hdr.
  set (N := length (st_bins s)) in *.
  assert (Lrow : length row = N) by (apply (al_subs c s Ha); rewrite Hs; simpl; auto).
  pose proof (al_dens c s Ha) as Ld. fold N in Ld.
  unfold bcast_rows in Hdr. simpl in Hdr. injection Hdr as <-. unfold bcast_rows in Hinj. simpl in Hinj. injection Hinj as <-.
  rewrite Eeng, Hs in Hap. simpl in Hap.
  pose proof (rates_ok_len _ _ _ (al_en c s Ha)) as Len. pose proof (rates_ok_len _ _ _ (al_rel c s Ha)) as Lrel. pose proof (rates_ok_len _ _ _ (al_abs c s Ha)) as Lab.
  fold N in Len, Lrel, Lab.
  assert (LE : length (to_erg (mec2 c) (st_bins s)) = N) by (unfold to_erg; rewrite map_length; auto).
  set (ve := vsum add_bin (0, 0) N (map snd ken)) in *. set (vr := vsum Rplus 0 N (map snd krel)) in *. set (va := vsum Rplus 0 N (map snd kabs)) in *.
  assert (Lve : length ve = N). { apply vsum_length. intros a Hin. apply in_map_iff in Hin as ([k v] & <- & Hin). apply (known_len N _ _ Ken Len k v Hin). }
  assert (Lvr : length vr = N). { apply vsum_length. intros a Hin. apply in_map_iff in Hin as ([k v] & <- & Hin). apply (known_len N _ _ Krel Lrel k v Hin). }
  assert (Lva : length va = N). { apply vsum_length. intros a Hin. apply in_map_iff in Hin as ([k v] & <- & Hin). apply (known_len N _ _ Kabs Lab k v Hin). }
  apply single_eval in Hap as (Lb & Ln & Hdet); rewrite ?LE; auto.
  2: { unfold scale_bins; rewrite map_length; auto. }
  2: { unfold scale. rewrite map_length. repeat apply map2_length_eq; auto. }
  rewrite LE in Lb, Ln. exists b2, n2. split; [auto|]. split; [auto|]. split; [auto|]. split.
  - intros i l u v Hb Hv. cbv zeta. replace (st_elapsed s' - st_elapsed s) with t by lra.
    assert (Hi : (i < N)%nat) by (eapply nth_error_lt; eauto).
    destruct (nth_error_Some_ex row i) as [f Hf]; [lia|]. assert (f = 1) by (apply H1; eapply nth_error_In; eauto). subst f.
    pose proof (single_energy N _ _ i Ken Len Hi) as Ee. fold ve in Ee.
    pose proof (single_rate N _ _ i Krel Lrel Hi) as Er. fold vr in Er. pose proof (single_rate N _ _ i Kabs Lab Hi) as Ea. fold va in Ea.
    set (rl := total_edge_rate fst (st_en s) i) in *. set (ru := total_edge_rate snd (st_en s) i) in *.
    set (rr := total_rate (st_rel s) i) in *. set (ra := total_rate (st_abs s) i) in *.
    destruct (Hdet i (l * mec2 c) (u * mec2 c) (rl * t) (ru * t) v 1 ((v * 1 * rr + ra) * t)) as (P & B & D).
    + unfold to_erg. rewrite nth_error_map, Hb. auto.
    + unfold scale_bins. rewrite nth_error_map, Ee. auto.
    + auto. + auto.
    + unfold scale. rewrite nth_error_map, !nth_error_map2, Hv, Hf, Er, Ea. auto.
    + exists (v * 1 * ((u * mec2 c - l * mec2 c) / (u * mec2 c + ru * t - (l * mec2 c + rl * t))) + (v * 1 * rr + ra) * t).
      replace (l + rl * t / mec2 c) with ((l * mec2 c + rl * t) / mec2 c) by (field; lra).
      replace (u + ru * t / mec2 c) with ((u * mec2 c + ru * t) / mec2 c) by (field; lra).
      split; [auto|]. split; [auto|]. split.
      * assert (0 < / mec2 c) by (apply Rinv_0_lt_compat; auto). unfold Rdiv. split; [apply Rmult_lt_0_compat; lra|apply Rmult_lt_compat_r; lra].
      * field. split; [lra|]. lra.
  - intros Hb0 Hmt Hinc. unfold stage345, sort_and_merge_bins in H345. rewrite Hb0, Hmt in H345.
    assert (Pb : all_pos (lbs b2)).
    { intros v Hin. apply in_map_iff in Hin as ([l' u'] & <- & Hin). apply nth_error_In_iff in Hin as [i Hi0]. simpl.
      assert (Hi : (i < N)%nat) by (rewrite <- Lb; eapply nth_error_lt; eauto).
      destruct (nth_error_Some_ex (st_bins s) i) as [[l u] Hbi]; [auto|]. destruct (nth_error_Some_ex (st_dens s) i) as [v Hv]; [lia|].
      destruct (nth_error_Some_ex row i) as [f Hf]; [lia|]. destruct (nth_error_Some_ex ve i) as [[cl cu] Hcl]; [lia|].
      destruct (nth_error_Some_ex (scale t (map2 Rplus (map2 Rmult (map2 Rmult (st_dens s) row) vr) va)) i) as [q Hq].
      { unfold scale. rewrite map_length. rewrite (map2_length_eq _ _ _ N); auto. repeat apply map2_length_eq; auto. }
      destruct (Hdet i (l * mec2 c) (u * mec2 c) (cl * t) (cu * t) v f q) as (P & B & D); auto.
      { unfold to_erg. rewrite nth_error_map, Hbi. auto. } { unfold scale_bins. rewrite nth_error_map, Hcl. auto. }
      rewrite Hi0 in B. injection B as -> ->. apply Rdiv_lt_0_compat; lra. }
    rewrite sort_id in H345; auto; [| |lia].
    2: { intros i x y Hx Hy. apply (Hinc i). split; rewrite nth_error_map; [rewrite Hx|rewrite Hy]; auto. }
    simpl in H345. apply bind_Ok in H345 as (s3 & Hs3 & H345). injection H345 as <- <- <- <-.
    split; [|congruence]. rewrite Eb. apply lbs_update.
    destruct (mask_length_step c s b2 n2 (map Z.of_nat (seq 0 (length b2))) left0 t mask left') as [Lm _]; auto; rewrite ?map_length, ?seq_length; auto; try lia.
Qed.

(** ** C27 *)
Lemma update_well_formed b n d : update_distribution np b n = Ok d -> well_formed np d.
Proof.
  unfold update_distribution. destruct (sort_and_merge_duplicates np b n None) as [[sb sn] m] eqn:E.
  destruct (forallb _ sn). { intros H; injection H as <-. exact Logic.I. }
  destruct (Nat.eqb _ 1); [discriminate|]. intros H. apply interpolated_Ok in H. cbv zeta in H. destruct H as (-> & L & Hi). simpl.
  assert (Ls : length sb = length sn).
  { apply sort_merge_cases in E. cbv zeta in E. destruct E as [(_ & -> & -> & _)|(_ & -> & -> & _)].
    - unfold sorted_bins. rewrite !map_length. auto.
    - rewrite map_length. set (dup := dup_positions _ _). set (x := lbs _). set (y := map _ _). unfold merge_points. cbn [fst snd]. rewrite !map_length. auto. }
  assert (Ls' : length (lbs sb) = length sn) by (rewrite lbs_length; auto).
  split; [apply select_same; auto|]. split; auto. split.
  - intros v Hv. rewrite select_filter in Hv. apply filter_In in Hv as [_ Hv]. apply negb_true_iff in Hv. intros ->. rewrite (proj2 (Reqb_true 0 0)) in Hv; auto. discriminate.
  - apply strictly_increasingb_inv in Hi. intros i a b0 [A B]. apply (Hi i); auto.
Qed.

Lemma step_ne_ok s d d' r : step np c s d = (d', r) -> d' = d \/ well_formed np d'.
Proof. intros H. apply step_ne in H as [->|(b & n & Hu)]; auto. right. eapply update_well_formed; eauto. Qed.

Lemma loop_failing fuel : forall s d d' tr e, loop np c fuel s d = (d', tr, Err e) ->
  exists dk r, loop np c (length tr) s d = (dk, tr, r) /\ (d' = dk \/ well_formed np d').
Proof.
  induction fuel as [|fuel IH]; intros s d d' tr e H; simpl in H; destruct (Rltb (st_elapsed s) (total c)) eqn:Et; try discriminate.
  - injection H as <- <- <-. simpl. rewrite Et. eauto.
  - destruct (step np c s d) as [d1 [s1|e1]] eqn:Es.
    + destruct (loop np c fuel s1 d1) as [[d2 tr2] r2] eqn:El. injection H as <- <- ->. destruct (IH _ _ _ _ _ El) as (dk & r & Hk & Hd).
      exists dk, r. simpl. rewrite Et, Es, Hk. auto.
    + injection H as <- <- <-. simpl. rewrite Et. exists d, (Err OutOfFuel). split; auto. eapply step_ne_ok; eauto.
Qed.
Lemma thm_failing fuel ne ne' recs e : evaluate np c fuel ne = (ne', recs, Err e) ->
  exists dk r, evaluate np c (length recs) ne = (dk, recs, r) /\ (ne' = dk \/ well_formed np ne').
Proof.
  unfold evaluate. destruct (initial_values np c ne) as [s|e0] eqn:Ei.
  - destruct (loop np c fuel s ne) as [[d' tr] r] eqn:El. intros H. injection H as <- <- Hr. destruct r as [?|e1]; [discriminate|].
    destruct (loop_failing _ _ _ _ _ _ El) as (dk & r & Hk & Hd). rewrite map_length, Hk. eauto.
  - intros H. injection H as <- <- <-. eauto.
Qed.
Lemma thm_well_formed fuel ne ne' recs out : evaluate np c fuel ne = (ne', recs, out) -> ne' = ne \/ well_formed np ne'.
Proof. intros H. apply thm_ne in H as [->|(b & n & Hu)]; auto. right. eapply update_well_formed; eauto. Qed.
(** the table could not be computed: nothing is assigned *)
Lemma thm_untouched s ne ne' e : method c = Euler -> step np c s ne = (ne', Err e) ->
  (forall eng inj left0 t, choose_step c s = Ok (eng, inj, left0, t) ->
     match apply_time_eval np c (to_erg (mec2 c) (st_bins s)) (st_dens s) (st_subs s) (map (scale_bins t) eng) (map (scale t) inj) with
     | Ok (b, n, _) => forall d, update_distribution np b n <> Ok d
     | Err _ => True end) -> ne' = ne.
Proof.
  intros Hm H Hx. unfold step in H. unfold bindS at 1, lift at 1 in H. destruct (choose_step c s) as [[[[eng inj] left0] t]|] eqn:Ec; [|injection H as <- <-; auto].
  specialize (Hx _ _ _ _ eq_refl). unfold bindS at 1 in H. unfold apply_time_changes in H. unfold bindS at 1 in H. unfold stage12 in H.
  unfold bindS at 1, lift at 1 in H. destruct (apply_time_eval _ _ _ _ _ _ _) as [[[b n] s1]|]; [|injection H as <- <-; auto].
  unfold bindS at 1 in H. unfold set_distribution at 1 in H. unfold bindS at 1, lift at 1 in H.
  destruct (update_distribution np b n) as [d|]; [exfalso; eapply Hx; eauto|]. injection H as <- <-; auto.
Qed.
End T5.
