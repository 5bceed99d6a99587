(** Callback and result (C16), Heun's method (C17). *)
From Verif Require Import Base TEUtils TimeEvolution ListFacts TEIndexFacts TEStageFacts TEStepFacts TELoopFacts TEInv TEForward Spec_TE TEThm1 TEThm2 TEThm4 TEThm5 TEReach TEReuse.

(** ** C16 *)
Lemma loop_last np c fuel : forall s ne ne' tr sf, loop np c fuel s ne = (ne', tr, Ok sf) -> tr <> [] -> exists pre, tr = pre ++ [sf].
Proof.
  induction fuel as [|f IH]; intros s ne ne' tr sf H Hne; simpl in H; destruct (Rltb (st_elapsed s) (total c)); try discriminate; try (injection H as _ <- _; congruence).
  destruct (step np c s ne) as [ne1 [s1|e]]; [|discriminate]. destruct (loop np c f s1 ne1) as [[ne2 tr2] r2] eqn:El. injection H as _ <- ->.
  destruct tr2 as [|x tr2].
  - exists []. simpl. f_equal. destruct f; simpl in El; destruct (Rltb (st_elapsed s1) (total c)); try discriminate; try (injection El as _ ->; auto).
    destruct (step np c s1 ne1) as [ne3 [s3|e]]; [|discriminate]. destruct (loop np c f s3 ne3) as [[? ?] ?]. discriminate.
  - destruct (IH _ _ _ _ _ El) as [pre E]; [discriminate|]. exists (s1 :: pre). simpl. rewrite E. auto.
Qed.

Lemma thm_callback np c fuel ne ne' recs r : evaluate np c fuel ne = (ne', recs, Ok r) -> recs <> [] ->
  exists pre x, recs = pre ++ [x] /\ r_time x = r_time r /\ r_gamma x = r_gamma r /\ r_dens x = r_dens r /\ r_subs x = r_subs r /\ r_en x = r_en r /\
    r_rel x = r_abs r /\ r_abs x = r_rel r.
Proof.
  unfold evaluate. destruct (initial_values np c ne) as [s|e]; [|discriminate]. destruct (loop np c fuel s ne) as [[ne1 tr] out] eqn:El. intros H Hne.
  injection H as _ <- H. destruct out as [sf|]; [|discriminate]. injection H as <-.
  destruct (loop_last np c fuel s ne ne1 tr sf El) as [pre ->]. { intros ->. auto. }
  exists (map callback_report pre), (callback_report sf). rewrite map_app. split; [auto|]. simpl. auto 10.
Qed.

(** ** C17 *)
Section Heun.
Variable np : numpy.
Hypothesis Hnp : numpy_ok np.
Variable c : cfg.
Hypothesis Hv : valid c.

Lemma pairs_nth2 l : forall r, pairs l = Some r -> length l = (2 * length r)%nat /\
  forall i, (i < length r)%nat -> exists x y, nth_error l (2 * i) = Some x /\ nth_error l (2 * i + 1) = Some y /\ nth_error r i = Some (x, y).
Proof.
  assert (G : forall n l, (length l <= n)%nat -> forall r, pairs l = Some r -> length l = (2 * length r)%nat /\
    forall i, (i < length r)%nat -> exists x y, nth_error l (2 * i) = Some x /\ nth_error l (2 * i + 1) = Some y /\ nth_error r i = Some (x, y)); [|eauto].
  clear l. induction n as [|n IH]; intros l Ln r H.
  - destruct l; [|simpl in Ln; lia]. injection H as <-. split; auto. simpl; intros; lia.
  - destruct l as [|a [|b l]]; try discriminate.
    + injection H as <-. split; auto. simpl; intros; lia.
    + simpl in H. destruct (pairs l) as [r'|] eqn:E; [|discriminate]. injection H as <-.
      destruct (IH l ltac:(simpl in Ln; lia) r' E) as [L1 H1]. split; [simpl; lia|]. intros [|i] Hi.
      * exists a, b. auto.
      * destruct (H1 i ltac:(simpl in Hi; lia)) as (x & y & A & B & C). exists x, y.
        replace (2 * S i)%nat with (S (S (2 * i))) by lia. replace (S (S (2 * i)) + 1)%nat with (S (S (2 * i + 1))) by lia. auto.
Qed.

Lemma interlace_flat_map b : interlace b = flat_map (fun x : bin => [fst x; snd x]) b.
Proof. reflexivity. Qed.

Lemma single_moved s row ve vr va t b n sg (rl ru : nat -> R) : aligned c s -> st_subs s <> [] -> length row = length (st_bins s) -> (forall f, In f row -> f = 1) ->
  length ve = length (st_bins s) -> length vr = length (st_bins s) -> length va = length (st_bins s) ->
  (forall i, (i < length (st_bins s))%nat -> nth_error ve i = Some (rl i, ru i)) ->
  (forall i, (i < length (st_bins s))%nat -> nth_error vr i = Some (total_rate (st_rel s) i)) ->
  (forall i, (i < length (st_bins s))%nat -> nth_error va i = Some (total_rate (st_abs s) i)) ->
  forall row', length row' = length (st_bins s) -> (forall f, In f row' -> f = 1) ->
  apply_time_eval np c (to_erg (mec2 c) (st_bins s)) (st_dens s) [row] [scale_bins t ve] [scale t (map2 Rplus (map2 Rmult (map2 Rmult (st_dens s) row') vr) va)] = Ok (b, n, sg) ->
  moved c s t rl ru b n.
Proof.
  intros Ha Hs Lrow H1 Lve Lvr Lva He Hr Hab row' Lrow' H1' Hap. set (N := length (st_bins s)) in *. pose proof (v_mec _ Hv) as Hmec.
  pose proof (al_dens c s Ha) as Ld. fold N in Ld.
  assert (LE : length (to_erg (mec2 c) (st_bins s)) = N) by (unfold to_erg; rewrite map_length; auto).
  apply single_eval in Hap as (Lb & Ln & Hdet); rewrite ?LE; auto.
  2: { unfold scale_bins; rewrite map_length; auto. }
  2: { unfold scale. rewrite map_length. repeat apply map2_length_eq; auto. }
  rewrite LE in Lb, Ln. split; [auto|]. split; [auto|].
  intros i l u v Hb Hvi. cbv zeta.
  assert (Hi : (i < N)%nat) by (eapply nth_error_lt; eauto).
  destruct (nth_error_Some_ex row i) as [f Hf]; [lia|]. assert (f = 1) by (apply H1; eapply nth_error_In; eauto). subst f.
  destruct (nth_error_Some_ex row' i) as [f Hf']; [lia|]. assert (f = 1) by (apply H1'; eapply nth_error_In; eauto). subst f.
  pose proof (He i Hi) as Ee. pose proof (Hr i Hi) as Er. pose proof (Hab i Hi) as Ea.
  set (rr := total_rate (st_rel s) i) in *. set (ra := total_rate (st_abs s) i) in *.
  destruct (Hdet i (l * mec2 c) (u * mec2 c) (rl i * t) (ru i * t) v 1 ((v * 1 * rr + ra) * t)) as (P & B & D).
  + unfold to_erg. rewrite nth_error_map, Hb. auto.
  + unfold scale_bins. rewrite nth_error_map, Ee. auto.
  + auto. + auto.
  + unfold scale. rewrite nth_error_map, !nth_error_map2, Hvi, Hf', Er, Ea. auto.
  + exists (v * 1 * ((u * mec2 c - l * mec2 c) / (u * mec2 c + ru i * t - (l * mec2 c + rl i * t))) + (v * 1 * rr + ra) * t).
    replace (l + rl i * t / mec2 c) with ((l * mec2 c + rl i * t) / mec2 c) by (field; lra).
    replace (u + ru i * t / mec2 c) with ((u * mec2 c + ru i * t) / mec2 c) by (field; lra).
    split; [auto|]. split; [auto|]. split.
    * assert (0 < / mec2 c) by (apply Rinv_0_lt_compat; auto). unfold Rdiv. split; [apply Rmult_lt_0_compat; lra|apply Rmult_lt_compat_r; lra].
    * field. split; [lra|]. lra.
Qed.

Lemma ones_eval e dens row ch q b n sg : apply_time_eval np c e dens [row] [ch] [q] = Ok (b, n, sg) -> length ch = length e -> length dens = length e -> length row = length e -> length q = length e ->
  (forall f, In f row -> f = 1) -> exists row', sg = [row'] /\ length row' = length e /\ forall f, In f row' -> f = 1.
Proof.
  intros H L1 L2 L3 L4 H1. unfold apply_time_eval in H. apply bind_Ok in H as (xs & Hxs & H). apply bind_Ok in H as (ys & Hys & H).
  destruct (groups_detail c _ _ _ _ _ Hxs) as (L & _ & Hd). destruct (inject_detail _ _ _ Hys) as (Ly & _ & Hi).
  destruct xs as [|[b1 d1] [|? ?]]; try discriminate. destruct ys as [|[b0 d0] [|? ?]]; try discriminate.
  destruct (Hd 0%nat b1 d1 eq_refl) as (row0 & cg0 & E1 & E2 & Lb & Ldd & _). injection E1 as <-. injection E2 as <-.
  destruct (Hi 0%nat b1 d1 eq_refl) as (q0 & E3 & E4 & _). injection E3 as <-. injection E4 as -> ->.
  simpl in H. injection H as _ _ <-.
  assert (Lq : length (map2 Rplus d1 q) = length dens) by (rewrite L2; apply map2_length_eq; auto).
  assert (En : col_sum (length dens) [map2 Rplus d1 q] = map2 Rplus d1 q).
  { unfold col_sum. simpl. rewrite <- Lq. generalize (map2 Rplus d1 q). intros l. induction l; simpl; auto. rewrite IHl, Rplus_0_l. auto. }
  rewrite En. eexists. split; [reflexivity|].
  assert (Lz : length (map2 Rplus d1 q) = length row) by lia.
  split. { unfold new_row. rewrite map2_length, combine_length. lia. }
  intros f Hf. unfold new_row in Hf. apply In_nth_error in Hf as [i Hf]. rewrite nth_error_map2 in Hf.
  destruct (nth_error (combine row (map2 Rplus d1 q)) i) as [[o z]|] eqn:Ec; [|discriminate]. destruct (nth_error (map2 Rplus d1 q) i) as [w|] eqn:Ew; [|discriminate]. injection Hf as <-. simpl.
  assert (Hz : nth_error row i = Some o /\ nth_error (map2 Rplus d1 q) i = Some z).
  { clear - Ec. revert i Ec. generalize (map2 Rplus d1 q). intros m. revert m. induction row as [|a l IH]; intros [|b m] [|i] Ec; simpl in *; try discriminate; [injection Ec as <- <-; auto|]. eauto. }
  destruct Hz as [Ho Hz]. rewrite Ew in Hz. injection Hz as <-. destruct (Reqb_spec w 0). { apply H1. eapply nth_error_In; eauto. } field. auto.
Qed.

Lemma thm_heun ne d s d' s' : subgroups c = None -> method c = Heun -> reached np c ne d s -> step np c s d = (d', Ok s') ->
  let dt := st_elapsed s' - st_elapsed s in
  exists b1 n1 d1 subs1 en1 b2 n2,
    moved c s dt (total_edge_rate fst (st_en s)) (total_edge_rate snd (st_en s)) b1 n1 /\ update_distribution np b1 n1 = Ok d1 /\
    (exists row, subs1 = [row] /\ length row = length b1 /\ forall f, In f row -> f = 1) /\ energy_rates_at c d1 b1 n1 subs1 en1 /\
    moved c s dt (fun i => (total_edge_rate fst (st_en s) i + total_edge_rate fst en1 i) / 2) (fun i => (total_edge_rate snd (st_en s) i + total_edge_rate snd en1 i) / 2) b2 n2 /\
    update_distribution np b2 n2 = Ok d' /\
    (bounds c = None -> merge_thr c = None -> increasing (map (lg np) (map fst b2)) -> map fst (st_bins s') = map fst b2 /\ st_dens s' = n2).
Proof.
  intros Hg Hm Hr Hst. cbv zeta. destruct (reached_ones np Hnp c Hv _ _ _ Hg Hr) as (row & Hs & H1). pose proof (reached_aligned np Hnp c Hv _ _ _ Hr) as Ha.
  pose proof (step_Ok np c s d d' s' Hst) as (eng & inj & left0 & t & b & n & sg & m & left' & mask & pen & pab & prel & Hc & Ht & Hmask & _ & _ & _ & Eb & En & _ & _ & Et & _).
  apply apply_time_changes_Ok in Ht as (b2 & n2 & s2 & dd & eng' & H12 & H345).
  apply stage12_Ok in H12 as (-> & Hu & H12). rewrite Hm in H12. destruct H12 as (b1 & n1 & s1 & d1 & en1 & ken1 & Hap1 & Hu1 & Hen1 & Hk1 & Eeng' & Hap2).
  pose proof (choose_step_Ok c s eng inj left0 t Hc) as (ken & krel & kabs & dr & step0 & Ken & Krel & Kabs & Eeng & Hdr & Hinj & _ & _).
  rewrite Hg in Eeng, Hdr, Hinj, Eeng'. simpl in Eeng, Hdr, Hinj, Eeng'. unfold to_densities_grouped in Hdr. rewrite Hs in Hdr. simpl in Hdr.
  set (N := length (st_bins s)) in *.
  assert (Lrow : length row = N) by (apply (al_subs c s Ha); rewrite Hs; simpl; auto).
  pose proof (al_dens c s Ha) as Ld. fold N in Ld.
  unfold bcast_rows in Hdr. simpl in Hdr. injection Hdr as <-. unfold bcast_rows in Hinj. simpl in Hinj. injection Hinj as <-.
  rewrite Eeng, Hs in Hap1. simpl in Hap1. rewrite Eeng in Eeng'. simpl in Eeng'.
  pose proof (rates_ok_len _ _ _ (al_en c s Ha)) as Len. pose proof (rates_ok_len _ _ _ (al_rel c s Ha)) as Lrel. pose proof (rates_ok_len _ _ _ (al_abs c s Ha)) as Lab.
  fold N in Len, Lrel, Lab.
  assert (LE : length (to_erg (mec2 c) (st_bins s)) = N) by (unfold to_erg; rewrite map_length; auto).
  set (ve := vsum add_bin (0, 0) N (map snd ken)) in *. set (vr := vsum Rplus 0 N (map snd krel)) in *. set (va := vsum Rplus 0 N (map snd kabs)) in *.
  assert (Lve : length ve = N). { apply vsum_length. intros a Hin. apply in_map_iff in Hin as ([k v] & <- & Hin). apply (known_len N _ _ Ken Len k v Hin). }
  assert (Lvr : length vr = N). { apply vsum_length. intros a Hin. apply in_map_iff in Hin as ([k v] & <- & Hin). apply (known_len N _ _ Krel Lrel k v Hin). }
  assert (Lva : length va = N). { apply vsum_length. intros a Hin. apply in_map_iff in Hin as ([k v] & <- & Hin). apply (known_len N _ _ Kabs Lab k v Hin). }
  assert (Hsne : st_subs s <> []) by (rewrite Hs; discriminate).
  replace (st_elapsed s' - st_elapsed s) with t by lra.
  assert (Lq : length (scale t (map2 Rplus (map2 Rmult (map2 Rmult (st_dens s) row) vr) va)) = N) by (unfold scale; rewrite map_length; repeat apply map2_length_eq; auto).
  assert (M1 : moved c s t (total_edge_rate fst (st_en s)) (total_edge_rate snd (st_en s)) b1 n1).
  { refine (single_moved s row ve vr va t b1 n1 s1 _ _ Ha Hsne Lrow H1 Lve Lvr Lva _ _ _ row Lrow H1 Hap1).
    - intros i Hi. apply (single_energy N _ _ i Ken Len Hi).
    - intros i Hi. apply (single_rate N _ _ i Krel Lrel Hi).
    - intros i Hi. apply (single_rate N _ _ i Kabs Lab Hi). }
  destruct (ones_eval _ _ _ _ _ _ _ _ Hap1) as (row1 & -> & Lr1 & Hone1); rewrite ?LE; auto. { unfold scale_bins. rewrite map_length. auto. }
  rewrite LE in Lr1. destruct M1 as (Lb1 & Ln1 & Hm1).
  assert (F1 : fresh_rates shape2 (en_fns c) d1 b1 n1 [row1] en1).
  { eapply recalc_fresh; [left; reflexivity| | | |exact Hen1]; [lia|discriminate|]. intros r0 [<-|[]]. rewrite Lr1. auto. }
  destruct (fresh_rates_ok _ _ _ _ _ _ _ F1) as [Ok1 _]. pose proof (rates_ok_len _ _ _ Ok1) as Len1. rewrite Lb1 in Len1, Eeng'.
  set (ve1 := vsum add_bin (0, 0) N (map snd ken1)) in *.
  assert (Lve1 : length ve1 = N). { apply vsum_length. intros a Hin. apply in_map_iff in Hin as ([k v] & <- & Hin). apply (known_len N _ _ Hk1 Len1 k v Hin). }
  rewrite Eeng' in Hap2. simpl in Hap2.
  assert (M2 : moved c s t (fun i => (total_edge_rate fst (st_en s) i + total_edge_rate fst en1 i) / 2) (fun i => (total_edge_rate snd (st_en s) i + total_edge_rate snd en1 i) / 2) b2 n2).
  { refine (single_moved s row1 (map2 avg_bin ve ve1) vr va t b2 n2 s2 _ _ Ha Hsne Lr1 Hone1 _ Lvr Lva _ _ _ row Lrow H1 Hap2).
    - apply map2_length_eq; auto.
    - intros i Hi. rewrite nth_error_map2. pose proof (single_energy N _ _ i Ken Len Hi) as E1. fold ve in E1. pose proof (single_energy N _ _ i Hk1 Len1 Hi) as E2. fold ve1 in E2. rewrite E1, E2. auto.
    - intros i Hi. apply (single_rate N _ _ i Krel Lrel Hi).
    - intros i Hi. apply (single_rate N _ _ i Kabs Lab Hi). }
  exists b1, n1, d1, [row1], en1, b2, n2.
  split; [split; [auto|split; auto]|]. split; auto. split. { exists row1. split; auto. split; auto. lia. }
  split.
  { unfold energy_rates_at. eapply Forall2_impl; [|exact F1]. intros kf kv (E & vals & Ekv & out & Ho & Hun & Lv). split; auto. simpl in Ho, Hun. rewrite interlace_flat_map in Ho.
    exists out. split; auto. destruct (pairs_nth2 _ _ Hun) as [L1 H2]. rewrite Lv in L1. split; auto. split; [rewrite Ekv, map_length; auto|].
    intros i Hi. destruct (H2 i) as (x & y & A & B & C0); [lia|]. exists x, y. split; auto. split; auto. rewrite Ekv, nth_error_map, C0. auto. }
  split; auto. split; auto.
  destruct M2 as (Lb & Ln & Hm2).
  intros Hb0 Hmt Hinc. unfold stage345, sort_and_merge_bins in H345. rewrite Hb0, Hmt in H345.
  assert (Pb : all_pos (lbs b2)).
  { intros v Hin. apply in_map_iff in Hin as ([l' u'] & <- & Hin). apply nth_error_In_iff in Hin as [i Hi0]. simpl.
    assert (Hi : (i < N)%nat) by (unfold N; rewrite <- Lb; eapply nth_error_lt; eauto).
    destruct (nth_error_Some_ex (st_bins s) i) as [[l u] Hbi]; [auto|]. destruct (nth_error_Some_ex (st_dens s) i) as [v Hvi]; [lia|].
    destruct (Hm2 i l u v Hbi Hvi) as (v' & B & _ & P & _). rewrite Hi0 in B. injection B as -> ->. lra. }
  rewrite sort_id in H345; auto; [| |unfold N in *; lia].
  2: { intros i x y Hx Hy. apply (Hinc i). unfold lbs in Hx, Hy. split; rewrite nth_error_map; [rewrite Hx|rewrite Hy]; auto. }
  simpl in H345. apply bind_Ok in H345 as (s3 & Hs3 & H345). injection H345 as <- <- <- <-.
  split; [|congruence]. rewrite Eb. apply lbs_update.
  destruct (mask_length_step c s b2 n2 (map Z.of_nat (seq 0 (length b2))) left0 t mask left') as [Lm _]; auto; rewrite ?map_length, ?seq_length; auto; try lia.
Qed.
End Heun.
