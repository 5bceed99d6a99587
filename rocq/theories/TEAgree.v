(** blob.n_e after a step against the densities after that step (C22). *)
From Verif Require Import Base TEUtils TimeEvolution ListFacts TEIndexFacts TEStageFacts TEStepFacts TELoopFacts TEInv TEForward NumpyInst Spec_TE.

Section Agree.
Variable np : numpy.
Hypothesis Hnp : numpy_ok np.
Hypothesis Hex : numpy_exact np.

(** every density is the value of [d], or zero *)
Definition agrees (d : R -> R) (b : list bin) (n : list R) : Prop :=
  forall j bj v, nth_error b j = Some bj -> nth_error n j = Some v -> v = d (fst bj) \/ v = 0.

Lemma tracks_agrees d b n b' n' m : tracks d b n b' n' m -> agrees d b n -> agrees d b' n'.
Proof.
  intros (L1 & L2 & T) A j bj v Hb Hn. destruct (nth_error_Some_ex m j) as [z Hz]. { apply nth_error_lt in Hb. lia. }
  destruct (T j z bj v Hz Hb Hn) as [(_ & _ & ->)|(i & _ & _ & [(Hi & bi & Hbi & -> & _)|(_ & ->)])]; auto. eapply A; eauto.
Qed.

Lemma select_both {A B} (mask : list bool) : forall (l : list A) (l' : list B) j x y, nth_error mask j = Some true ->
  nth_error l j = Some x -> nth_error l' j = Some y -> exists k, nth_error (select mask l) k = Some x /\ nth_error (select mask l') k = Some y.
Proof.
  induction mask as [|m mask IH]; intros [|a l] [|a' l'] j x y Hm Hx Hy; try (destruct j; discriminate).
  destruct j as [|j]; simpl in *.
  - injection Hm as ->. injection Hx as ->. injection Hy as ->. exists 0%nat. auto.
  - destruct (IH l l' j x y Hm Hx Hy) as (k & H1 & H2). destruct m; [exists (S k)|exists k]; auto.
Qed.

Lemma dinterp_node gamma n dd j g v : interpolated np gamma n = Ok dd -> length gamma = length n -> nth_error gamma j = Some g -> nth_error n j = Some v -> 0 < v ->
  dist_eval np dd g = v.
Proof.
  intros H L Hg Hv Hp. apply interpolated_Ok in H. cbv zeta in H. set (valid := map (fun v => negb (Reqb v 0)) n) in *. destruct H as (-> & _ & Hs).
  assert (Hm : nth_error valid j = Some true). { unfold valid. rewrite nth_error_map, Hv. simpl. f_equal. apply negb_true_iff. apply Reqb_false. lra. }
  destruct (select_both valid gamma n j g v Hm Hg Hv) as (k & H1 & H2). cbn [dist_eval].
  rewrite (proj2 (Rleb_true _ g)) by (apply list_min_le; eapply nth_error_In; eauto).
  rewrite (proj2 (Rleb_true g _)) by (apply list_max_ge; eapply nth_error_In; eauto). cbn [andb].
  rewrite (interp_node np Hex _ _ k (lg np g) (lg np v)); [apply (p10_lg np Hex); auto|..].
  - apply strictly_increasingb_inv in Hs. intros i a b Ha Hb. eapply Hs; eauto.
  - rewrite !map_length. unfold valid. rewrite !select_length; rewrite ?map_length; auto.
  - rewrite nth_error_map, H1. auto.
  - rewrite nth_error_map, H2. auto.
Qed.

(** the two calls of sort_and_merge_duplicates, with and without a
    distribution, return the same gammas, and the same densities where nothing
    was merged *)
Lemma sort_merge_two b n d b1 n1 m1 b0 n0 m0 : length n = length b -> sort_and_merge_duplicates np b n (Some d) = (b1, n1, m1) -> sort_and_merge_duplicates np b n None = (b0, n0, m0) ->
  b1 = b0 /\ length n1 = length b1 /\ length n0 = length b1 /\
  (forall j bj v1 v0, nth_error b1 j = Some bj -> nth_error n1 j = Some v1 -> nth_error n0 j = Some v0 -> v1 = d (fst bj) \/ v1 = v0).
Proof.
  intros L H1 H0. apply sort_merge_cases in H1. apply sort_merge_cases in H0. cbv zeta in H1, H0.
  set (sb := sorted_bins np b) in *. set (sd := map (fun i => nth i n 0) (argsort np (lbs b))) in *. set (dup := dup_positions _ _) in *.
  assert (Lsb : length sb = length b) by (apply sorted_bins_length; auto).
  assert (Lsd : length sd = length b) by (unfold sd; rewrite map_length, argsort_length, lbs_length; auto).
  destruct H1 as [(E & -> & -> & ->)|(E & -> & -> & ->)]; destruct H0 as [(E0 & -> & -> & ->)|(E0 & -> & -> & ->)]; try congruence.
  - repeat split; auto; try lia. intros j bj v1 v0 _ Ha Hb. right. congruence.
  - assert (I1 : incr dup) by apply dup_positions_incr.
    assert (I2 : forall i, In i dup -> (1 <= i)%nat) by apply dup_positions_ge1.
    assert (Lx : length (lbs sb) = length b) by (rewrite lbs_length; auto).
    destruct (merge_points_length dup (length b) I1 I2 (lbs sb) sd (Some d) Lx) as [M1 M2].
    destruct (merge_points_length dup (length b) I1 I2 (lbs sb) sd None Lx) as [M3 M4].
    split; [reflexivity|]. rewrite !map_length. split; [congruence|]. split; [congruence|].
    intros j bj v1 v0 Hb Ha H0. destruct (nth_error_Some_ex (keep_idx (length b) dup) j) as [p Hp]. { rewrite <- M2. eapply nth_error_lt; eauto. }
    destruct (merge_points_nth dup (length b) I1 I2 (lbs sb) sd (Some d) j p Lx Lsd Hp) as (vx & vy & Hx & Hy & Hc).
    destruct (merge_points_nth dup (length b) I1 I2 (lbs sb) sd None j p Lx Lsd Hp) as (vx' & vy' & Hx' & Hy' & Hc').
    rewrite nth_error_map, Hx in Hb. injection Hb as <-. rewrite Hy in Ha. injection Ha as <-. rewrite Hy' in H0. injection H0 as <-.
    destruct Hc as [(Hl & _ & E1)|(r & _ & _ & _ & ->)]; auto. right. destruct Hc' as [(_ & _ & E2)|(r & E2 & _)]; congruence.
Qed.

Lemma merge_nonneg b n b0 n0 m0 : length n = length b -> (forall v, In v n -> 0 <= v) -> sort_and_merge_duplicates np b n None = (b0, n0, m0) -> forall v, In v n0 -> 0 <= v.
Proof.
  intros L Hp H0 v Hv. apply sort_merge_cases in H0. cbv zeta in H0.
  set (sb := sorted_bins np b) in *. set (sd := map (fun i => nth i n 0) (argsort np (lbs b))) in *. set (dup := dup_positions _ _) in *.
  assert (Lsb : length sb = length b) by (apply sorted_bins_length; auto).
  assert (Lsd : length sd = length b) by (unfold sd; rewrite map_length, argsort_length, lbs_length; auto).
  assert (Psd : forall w, In w sd -> 0 <= w).
  { intros w Hw. unfold sd in Hw. apply in_map_iff in Hw as (i & <- & Hi). destruct (nth_in_or_default i n 0) as [T|T]; [auto|rewrite T; lra]. }
  destruct H0 as [(E0 & _ & -> & _)|(E0 & _ & -> & _)]; auto.
  assert (I1 : incr dup) by apply dup_positions_incr.
  assert (I2 : forall i, In i dup -> (1 <= i)%nat) by apply dup_positions_ge1.
  assert (Lx : length (lbs sb) = length b) by (rewrite lbs_length; auto).
  destruct (merge_points_length dup (length b) I1 I2 (lbs sb) sd None Lx) as [M3 M4].
  apply In_nth_error in Hv as (j & Hj). destruct (nth_error_Some_ex (keep_idx (length b) dup) j) as [p Hq]. { rewrite <- M4. eapply nth_error_lt; eauto. }
  destruct (merge_points_nth dup (length b) I1 I2 (lbs sb) sd None j p Lx Lsd Hq) as (vx' & vy' & Hx' & Hy' & Hc').
  rewrite Hy' in Hj. injection Hj as <-. destruct Hc' as [(_ & _ & E2)|(r & _ & _ & _ & ->)]. { apply Psd. eapply nth_error_In; eauto. }
  unfold mean. assert (S : 0 <= Rsum (with_label (group_duplicates dup) sd r)).
  { assert (G : forall w, In w (with_label (group_duplicates dup) sd r) -> 0 <= w).
    { intros w Hw. unfold with_label in Hw. apply in_map_iff in Hw as ([i x] & <- & Hi). apply filter_In in Hi as [Hi _]. apply in_combine_r in Hi. auto. }
    clear - G. induction (with_label (group_duplicates dup) sd r) as [|w l IH]; simpl; [lra|]. assert (0 <= w) by (apply G; simpl; auto). assert (0 <= Rsum l) by (apply IH; intros; apply G; simpl; auto). lra. }
  destruct (with_label (group_duplicates dup) sd r) as [|w l]; [simpl; unfold Rdiv; rewrite Rmult_0_l; lra|].
  apply Rmult_le_pos; auto. apply Rlt_le, Rinv_0_lt_compat. apply lt_0_INR. simpl; lia.
Qed.

Lemma update_node b n dd b0 n0 m0 j bj v : length n = length b -> (forall x, In x n -> 0 <= x) -> update_distribution np b n = Ok dd ->
  sort_and_merge_duplicates np b n None = (b0, n0, m0) -> length n0 = length b0 -> nth_error b0 j = Some bj -> nth_error n0 j = Some v -> v = dist_eval np dd (fst bj) \/ v = 0.
Proof.
  intros L Hp Hu E L0 Hb Hn. unfold update_distribution in Hu. rewrite E in Hu.
  destruct (Req_dec v 0); auto. left.
  assert (0 <= v). { apply (merge_nonneg b n b0 n0 m0 L Hp E). eapply nth_error_In; eauto. }
  destruct (forallb (fun v => Reqb v 0) n0) eqn:Ef. { rewrite forallb_forall in Ef. exfalso. apply H. apply Reqb_true. apply Ef. eapply nth_error_In; eauto. }
  destruct (Nat.eqb (length b0) 1); [discriminate|]. symmetry. eapply dinterp_node; eauto; [rewrite lbs_length; auto|apply lbs_nth; auto|lra].
Qed.

Lemma sort_agrees b n dd b1 n1 m1 : length n = length b -> (forall x, In x n -> 0 <= x) -> update_distribution np b n = Ok dd ->
  sort_and_merge_duplicates np b n (Some (dist_eval np dd)) = (b1, n1, m1) -> agrees (dist_eval np dd) b1 n1.
Proof.
  intros L Hp Hu H1 j bj v Hb Hn. destruct (sort_and_merge_duplicates np b n None) as [[b0 n0] m0] eqn:E.
  destruct (sort_merge_two _ _ _ _ _ _ _ _ _ L H1 E) as (-> & L1 & L0 & H).
  destruct (nth_error_Some_ex n0 j) as [v0 Hv0]. { apply nth_error_lt in Hb. lia. }
  destruct (H j bj v v0 Hb Hn Hv0) as [E1|E1]; [auto|]. subst v0. apply (update_node b n dd b0 n0 m0 j bj v L Hp Hu E L0 Hb Hv0).
Qed.

Section Cfg.
Variable c : cfg.

Lemma stage345_agrees b n s dd eng b' n' s' m : length n = length b -> all_pos (lbs b) -> (forall x, In x n -> 0 <= x) -> update_distribution np b n = Ok dd ->
  stage345 np c b n s dd eng = Ok (b', n', s', m) -> agrees (dist_eval np dd) b' n'.
Proof.
  intros L Hp Hn Hu H. unfold stage345 in H. apply bind_Ok in H as ([[b3 n3] m3] & H3 & H). apply bind_Ok in H as (s3 & Hs3 & H).
  assert (A3 : agrees (dist_eval np dd) b3 n3 /\ length n3 = length b3).
  { destruct (sort_and_merge_bins_spec np Hnp c _ _ _ _ _ _ L Hp H3) as ((U1 & U2 & _) & _). split; [|lia].
    unfold sort_and_merge_bins in H3. destruct (sort_and_merge_duplicates np b n (Some (dist_eval np dd))) as [[b1 d1] m1] eqn:E1.
    pose proof (tracks_sort np Hnp _ _ _ _ _ _ L E1) as T1. destruct (sort_merge_pos_incr np Hnp _ _ _ _ _ _ Hp E1) as [P1 I1].
    assert (L1 : length d1 = length b1) by (destruct T1 as (? & ? & _); congruence).
    pose proof (sort_agrees _ _ _ _ _ _ L Hn Hu E1) as A1. destruct (merge_thr c) as [thr|].
    - apply bind_Ok in H3 as ([[b2 d2] m2] & H2 & H3). apply bind_Ok in H3 as (m' & Hm & H3). injection H3 as <- <- <-.
      destruct (remove_close_spec np Hnp thr _ _ _ _ _ _ L1 P1 I1 H2) as (_ & _ & _ & T2 & _). eapply tracks_agrees; eauto.
    - injection H3 as <- <- <-. auto. }
  destruct A3 as [A3 L3]. destruct (bounds c) as [bd|].
  - destruct (remove_gamma_beyond_bounds bd b3) as [b4 m4] eqn:E4. unfold remove_gamma_beyond_bounds in E4. injection E4 as <- <-.
    set (mask := map (in_bounds bd) b3) in *. assert (Lmask : length mask = length b3) by (unfold mask; apply map_length).
    apply bind_Ok in H as (n4 & Hn4 & H). rewrite remap_mask_None in Hn4 by lia. injection Hn4 as <-.
    apply bind_Ok in H as (s4 & Hs4 & H). apply bind_Ok in H as (m34 & Hm34 & H). destruct eng as [|er eng']; [discriminate|].
    apply bind_Ok in H as ([b5 m5] & H5 & H). apply bind_Ok in H as (n5 & Hn5 & H).
    apply bind_Ok in H as (s5 & Hs5 & H). apply bind_Ok in H as (mm & Hmm & H). injection H as <- <- <- <-.
    pose proof (tracks_select (dist_eval np dd) mask b3 n3 Lmask L3) as T4.
    assert (L4 : length (select mask n3) = length (select mask b3)) by (rewrite !select_length by lia; auto).
    destruct (tracks_add np c (dist_eval np dd) _ _ _ _ _ _ _ L4 H5 Hn5) as [T5 _].
    eapply tracks_agrees; [exact T5|]. eapply tracks_agrees; [exact T4|auto].
  - injection H as <- <- <- <-. auto.
Qed.

Lemma step_agrees s ne ne' s' : 0 < mec2 c -> aligned c s -> step np c s ne = (ne', Ok s') ->
  forall i g v, nth_error (lbs (st_bins s')) i = Some g -> nth_error (st_dens s') i = Some v -> v = dist_eval np ne' g \/ v = 0.
Proof.
  intros Hm Ha H. apply step_Ok in H as (eng & inj & left0 & t & b & n & sg & m & left' & mask & pen & pab & prel & Hc & Hat & Hmask & _ & _ & _ & Eb & En & _).
  apply apply_time_changes_Ok in Hat as (b2 & n2 & s2 & d & eng' & H12 & H345).
  destruct (choose_step_shapes c _ _ _ _ _ Ha Hc) as (Leng & Linj & _).
  assert (Le : length (to_erg (mec2 c) (st_bins s)) = length (st_bins s)) by apply map_length.
  destruct (stage12_spec np Hnp c Hm _ _ _ _ _ _ _ _ _ _ _ _ _ H12) as (-> & Hu & Leng' & _ & Lb2 & Ln2 & Ls2 & Lr2 & P2 & N2); rewrite ?Le; auto.
  { apply Ha. } { apply al_subs in Ha; tauto. } { apply al_subs in Ha; tauto. }
  assert (Ln2' : length n2 = length b2) by lia.
  pose proof (stage345_agrees _ _ _ _ _ _ _ _ _ Ln2' P2 N2 Hu H345) as A.
  destruct (stage345_spec np Hnp c _ _ _ _ _ _ _ _ _ Ln2' P2 H345) as (T & _ & Lbm & _).
  destruct (mask_length_step c s b n m left0 t mask left' Lbm (proj1 (proj2 T)) Hmask) as (Lmask & _).
  intros i g v Hg Hv. rewrite Eb, lbs_update in Hg by auto. rewrite En in Hv. apply lbs_nth_inv in Hg as (bj & Hbj & <-). eapply A; eauto.
Qed.
End Cfg.
End Agree.
