(** Facts about stages 3 to 5 of _apply_time_changes: sorting, merging,
    removing and inserting bins. *)
From Verif Require Import Base TEUtils TimeEvolution ListFacts TEIndexFacts.

(** ** Ordered lists *)
Definition adj (P : R -> R -> Prop) (l : list R) : Prop :=
  forall k a b, nth_error l k = Some a -> nth_error l (S k) = Some b -> P a b.

Lemma adj_lt (P : R -> R -> Prop) l : (forall a b c, P a b -> P b c -> P a c) -> adj P l ->
  forall i j a b, (i < j)%nat -> nth_error l i = Some a -> nth_error l j = Some b -> P a b.
Proof.
  intros T H i j a b Hij. revert b. induction Hij as [|j Hij IH]; intros b Ha Hb.
  - eapply H; eauto.
  - destruct (nth_error_Some_ex l j) as [c Hc]. { apply nth_error_lt in Hb. lia. }
    eapply T; [apply IH; eauto|]. eapply H; eauto.
Qed.

Definition lg_incr (np : numpy) (l : list R) : Prop := adj (fun a b => lg np a < lg np b) l.
Definition all_pos (l : list R) : Prop := forall v, In v l -> 0 < v.

(** ** sort indices *)
Section Sort.
Variable np : numpy.
Hypothesis Hnp : numpy_ok np.

Lemma argsort_length l : length (argsort np l) = length l.
Proof. pose proof (argsort_perm _ Hnp l) as P. apply Permutation_length in P. rewrite seq_length in P. auto. Qed.
Lemma argsort_lt l i : In i (argsort np l) -> (i < length l)%nat.
Proof. intros H. apply (Permutation_in _ (argsort_perm _ Hnp l)) in H. apply in_seq in H. lia. Qed.

Lemma lbs_length b : length (lbs b) = length b.
Proof. apply map_length. Qed.
Lemma lbs_nth b i x : nth_error b i = Some x -> nth_error (lbs b) i = Some (fst x).
Proof. intros H. unfold lbs. rewrite nth_error_map, H. auto. Qed.
Lemma lbs_nth_inv b i v : nth_error (lbs b) i = Some v -> exists x, nth_error b i = Some x /\ fst x = v.
Proof. unfold lbs. rewrite nth_error_map. destruct (nth_error b i); simpl; [|discriminate]. intros H; injection H as <-. eauto. Qed.

Definition sorted_bins (b : list bin) : list bin := map (fun i => nth i b (0, 0)) (argsort np (lbs b)).

Lemma sorted_bins_length b : length (sorted_bins b) = length b.
Proof. unfold sorted_bins. rewrite map_length, argsort_length, lbs_length. auto. Qed.

Lemma sorted_bins_nth b k x : nth_error (sorted_bins b) k = Some x ->
  exists i, nth_error (argsort np (lbs b)) k = Some i /\ nth_error b i = Some x.
Proof.
  unfold sorted_bins. rewrite nth_error_map. destruct (nth_error (argsort np (lbs b)) k) as [i|] eqn:E; [|discriminate].
  simpl. intros H; injection H as <-. exists i. split; auto. apply nth_error_nth'.
  rewrite <- lbs_length. apply argsort_lt. eapply nth_error_In; eauto.
Qed.

Lemma sorted_bins_sorted b : adj Rle (lbs (sorted_bins b)).
Proof.
  intros k x y Hx Hy. apply lbs_nth_inv in Hx as (bx & Hx & <-). apply lbs_nth_inv in Hy as (by_ & Hy & <-).
  apply sorted_bins_nth in Hx as (i & Hi & Hx). apply sorted_bins_nth in Hy as (j & Hj & Hy).
  assert (H := argsort_sorted _ Hnp (lbs b) k (S k) i j (Nat.lt_succ_diag_r k) Hi Hj).
  rewrite (nth_error_nth _ _ 0 (lbs_nth _ _ _ Hx)), (nth_error_nth _ _ 0 (lbs_nth _ _ _ Hy)) in H. auto.
Qed.

Lemma sorted_bins_pos b : all_pos (lbs b) -> all_pos (lbs (sorted_bins b)).
Proof.
  intros H v Hv. apply nth_error_In_iff in Hv as [k Hk]. apply lbs_nth_inv in Hk as (x & Hx & <-).
  apply sorted_bins_nth in Hx as (i & _ & Hx). apply H. eapply nth_error_In. apply lbs_nth; eauto.
Qed.

Lemma dup_positions_spec eq l i : In i (dup_positions eq l) <->
  (1 <= i)%nat /\ exists a b, nth_error l (i - 1) = Some a /\ nth_error l i = Some b /\ eq a b = true.
Proof.
  unfold dup_positions. rewrite filter_In, in_seq. split.
  - intros [H1 H2]. destruct (nth_error l (i - 1)) as [a|]; [|discriminate]. destruct (nth_error l i) as [b|]; [|discriminate].
    split; [lia|]. eauto.
  - intros [H1 (a & b & Ha & Hb & E)]. pose proof (nth_error_lt _ _ _ Hb). rewrite Ha, Hb. split; auto. lia.
Qed.
Lemma dup_positions_incr eq l : incr (dup_positions eq l).
Proof. apply incr_filter_seq. Qed.
Lemma dup_positions_ge1 eq l i : In i (dup_positions eq l) -> (1 <= i)%nat.
Proof. rewrite dup_positions_spec. tauto. Qed.
Lemma dup_positions_lt eq l i : In i (dup_positions eq l) -> (i < length l)%nat.
Proof. rewrite dup_positions_spec. intros (_ & a & b & _ & H & _). eapply nth_error_lt; eauto. Qed.

(** ** merging a sorted positive list keeps it strictly increasing in lg if
    the unmerged neighbours are *)
Lemma keep_consecutive n dup k i j : nth_error (keep_idx n dup) k = Some i -> nth_error (keep_idx n dup) (S k) = Some j ->
  (i < j)%nat /\ (forall m, (i < m < j)%nat -> In m dup) /\ ~ In i dup /\ ~ In j dup /\ (j < n)%nat.
Proof.
  intros Hi Hj. destruct (filter_seq_consecutive _ _ _ _ _ _ Hi Hj) as [H1 H2].
  assert (Ii := nth_error_In _ _ Hi). assert (Ij := nth_error_In _ _ Hj). apply keep_In in Ii, Ij.
  repeat split; try tauto. intros m Hm. specialize (H2 m Hm). apply negb_false_iff, existsb_exists in H2 as (x & Hx & E).
  apply Nat.eqb_eq in E. subst; auto.
Qed.

Lemma keep_last_block n dup k i : nth_error (keep_idx n dup) k = Some i -> S k = length (keep_idx n dup) ->
  forall m, (i < m < n)%nat -> In m dup.
Proof.
  intros Hi L m Hm. pose proof (filter_seq_last _ _ _ _ _ Hi L m) as H.
  specialize (H ltac:(lia)). apply negb_false_iff, existsb_exists in H as (x & Hx & E).
  apply Nat.eqb_eq in E. subst; auto.
Qed.

Section MergeSorted.
Variables (x y : list R) (dup : list nat) (d : option (R -> R)).
Hypothesis Hincr : incr dup.
Hypothesis Hge1 : forall i, In i dup -> (1 <= i)%nat.
Hypothesis Hlt : forall i, In i dup -> (i < length x)%nat.
Hypothesis Hpos : all_pos x.
Hypothesis Hsort : adj Rle x.
Let x' := fst (merge_points x y (group_duplicates dup) d).
Let keep := keep_idx (length x) dup.

Lemma x_le i j a b : (i <= j)%nat -> nth_error x i = Some a -> nth_error x j = Some b -> a <= b.
Proof.
  intros Hij Ha Hb. destruct (Nat.eq_dec i j). { subst. assert (a = b) by congruence. lra. }
  apply (adj_lt Rle x) with (i := i) (j := j); auto; [intros; lra|lia].
Qed.

(** [v] represents the block [i, e] *)
Lemma merged_block k i v : nth_error keep k = Some i -> nth_error x' k = Some v ->
  exists e a b, (i <= e)%nat /\ nth_error x i = Some a /\ nth_error x e = Some b /\ a <= v <= b /\
   (forall m, (i < m <= e)%nat -> In m dup) /\
   (forall j, nth_error keep (S k) = Some j -> (e < j)%nat).
Proof.
  intros Hk Hv.
  assert (Hin := nth_error_In _ _ Hk). apply keep_In in Hin as [Hin Hni].
  assert (exists j, (i < j)%nat /\ (forall m, (i < m < j)%nat -> In m dup) /\ ~ In j dup /\ (j <= length x)%nat /\
     (forall j', nth_error keep (S k) = Some j' -> (j <= j')%nat)) as (j & H1 & H2 & H3 & H4 & H5).
  { destruct (nth_error keep (S k)) as [j|] eqn:Ej.
    - destruct (keep_consecutive _ _ _ _ _ Hk Ej) as (G1 & G2 & G3 & G4 & G5). exists j.
      repeat split; auto. lia. intros j' E; injection E as <-; lia.
    - exists (length x). repeat split; auto.
      + intros m Hm. eapply (keep_last_block _ _ _ _ Hk); auto.
        apply nth_error_None in Ej. apply nth_error_lt in Hk. unfold keep in *. lia.
      + intros H. apply Hlt in H. lia.
      + intros j' E. discriminate. }
  destruct (merged_x_hull dup (length x) Hincr Hge1 Hlt x y d eq_refl Hpos k i j v Hk Hv H1 H2 H3) as (e & He & Hhull).
  destruct (nth_error_Some_ex x i) as [a Ha]; [lia|]. destruct (nth_error_Some_ex x e) as [b Hb]; [lia|].
  exists e, a, b. split; [lia|]. split; [auto|]. split; [auto|]. split; [|split].
  - apply Hhull; [apply Hpos; eapply nth_error_In; eauto|]. intros m w Hm Hw. split; [apply (x_le i m)|apply (x_le m e)]; auto; lia.
  - intros m Hm. apply H2. lia.
  - intros j' Ej. specialize (H5 _ Ej). lia.
Qed.

Lemma merged_pos : all_pos x'.
Proof.
  intros v Hv. apply nth_error_In_iff in Hv as [k Hk].
  destruct (nth_error_Some_ex keep k) as [i Hi].
  { unfold keep. rewrite <- (proj1 (merge_points_length dup (length x) Hincr Hge1 x y d eq_refl)). eapply nth_error_lt; eauto. }
  destruct (merged_block k i v Hi Hk) as (e & a & b & _ & Ha & _ & Hv & _).
  assert (0 < a) by (apply Hpos; eapply nth_error_In; eauto). lra.
Qed.

Lemma merged_gap thr k u v j w z :
  nth_error x' k = Some u -> nth_error x' (S k) = Some v ->
  nth_error keep (S k) = Some j -> nth_error x (j - 1) = Some w -> nth_error x j = Some z ->
  thr <= lg np z - lg np w -> thr <= lg np v - lg np u.
Proof.
  intros Hu Hv Hj Hw Hz Hthr.
  destruct (nth_error_Some_ex keep k) as [i Hi]. { apply nth_error_lt in Hj. lia. }
  destruct (merged_block k i u Hi Hu) as (e & a & b & Hie & Ha & Hb & Huab & Hdup & Hnext).
  destruct (merged_block (S k) j v Hj Hv) as (e' & a' & b' & Hie' & Ha' & Hb' & Hvab & Hdup' & _).
  specialize (Hnext _ Hj). assert (a' = z) by congruence. subst a'.
  assert (b <= w) by (apply (x_le e (j - 1)); auto; lia).
  assert (0 < a) by (apply Hpos; eapply nth_error_In; eauto).
  assert (0 < z) by (apply Hpos; eapply nth_error_In; eauto).
  assert (lg np u <= lg np w) by (apply (lg_mono _ Hnp); lra).
  assert (lg np z <= lg np v) by (apply (lg_mono _ Hnp); lra).
  lra.
Qed.

Lemma merged_lg_incr : (forall j w z, ~ In j dup -> (1 <= j)%nat -> nth_error x (j - 1) = Some w -> nth_error x j = Some z ->
     lg np w < lg np z) -> lg_incr np x'.
Proof.
  intros H k u v Hu Hv.
  destruct (nth_error_Some_ex keep (S k)) as [j Hj].
  { unfold keep. rewrite <- (proj1 (merge_points_length dup (length x) Hincr Hge1 x y d eq_refl)). eapply nth_error_lt; eauto. }
  destruct (nth_error_Some_ex keep k) as [i Hi]. { apply nth_error_lt in Hj. lia. }
  destruct (keep_consecutive _ _ _ _ _ Hi Hj) as (G1 & G2 & G3 & G4 & G5).
  destruct (nth_error_Some_ex x j) as [z Hz]; auto. destruct (nth_error_Some_ex x (j - 1)) as [w Hw]; [lia|].
  assert (E : lg np z - lg np w <= lg np v - lg np u) by (eapply merged_gap; eauto; lra).
  specialize (H j w z G4 ltac:(lia) Hw Hz). lra.
Qed.
End MergeSorted.

(** ** sort_and_merge_duplicates *)
Lemma sort_merge_cases b dens d b1 d1 m1 :
  sort_and_merge_duplicates np b dens d = (b1, d1, m1) ->
  let sb := sorted_bins b in
  let sd := map (fun i => nth i dens 0) (argsort np (lbs b)) in
  let dup := dup_positions (fun x y => Reqb (lg np x) (lg np y)) (lbs sb) in
  (dup = [] /\ b1 = sb /\ d1 = sd /\ m1 = argsort np (lbs b)) \/
  (dup <> [] /\ b1 = map (fun g => (g, 0)) (fst (merge_points (lbs sb) sd (group_duplicates dup) d)) /\
   d1 = snd (merge_points (lbs sb) sd (group_duplicates dup) d) /\
   m1 = map (fun i => nth i (argsort np (lbs b)) 0%nat) (keep_idx (length (argsort np (lbs b))) dup)).
Proof.
  unfold sort_and_merge_duplicates. fold (sorted_bins b). cbv zeta.
  set (sd := map (fun i => nth i dens 0) (argsort np (lbs b))).
  set (dup := dup_positions _ _). intros H.
  destruct dup as [|p dup'] eqn:E.
  - left. injection H as <- <- <-. auto.
  - right. destruct (merge_points _ _ _ d) as [xx yy] eqn:Em. injection H as <- <- <-.
    split; [discriminate|]. auto.
Qed.

Lemma sort_merge_pos_incr b dens d b1 d1 m1 :
  all_pos (lbs b) -> sort_and_merge_duplicates np b dens d = (b1, d1, m1) ->
  all_pos (lbs b1) /\ lg_incr np (lbs b1).
Proof.
  intros Hp H. apply sort_merge_cases in H. cbv zeta in H.
  set (sb := sorted_bins b) in *. set (dup := dup_positions _ _) in *.
  assert (Hps : all_pos (lbs sb)) by (apply sorted_bins_pos; auto).
  assert (Hstep : forall j w z, ~ In j dup -> (1 <= j)%nat -> nth_error (lbs sb) (j - 1) = Some w ->
                   nth_error (lbs sb) j = Some z -> lg np w < lg np z).
  { intros j w z Hj H1 Hw Hz.
    assert (w <= z). { apply (sorted_bins_sorted b (j - 1)%nat); auto. replace (S (j - 1)) with j by lia. auto. }
    assert (lg np w <= lg np z). { apply (lg_mono _ Hnp); auto. apply Hps. eapply nth_error_In; eauto. }
    destruct (Req_dec (lg np w) (lg np z)); [|lra]. exfalso. apply Hj. unfold dup. apply dup_positions_spec. split; auto.
    exists w, z. rewrite Reqb_true. auto. }
  destruct H as [(E & -> & _)|(E & -> & _)].
  - split; auto. intros k a c Ha Hc. apply (Hstep (S k)); auto; [|lia|]. { rewrite E. auto. }
    simpl. rewrite Nat.sub_0_r. auto.
  - set (sd := map (fun i => nth i dens 0) (argsort np (lbs b))). assert (EL : lbs (map (fun g : R => (g, 0)) (fst (merge_points (lbs sb) sd (group_duplicates dup) d))) =
      fst (merge_points (lbs sb) sd (group_duplicates dup) d)).
    { unfold lbs at 1. rewrite map_map. simpl. apply map_id. }
    rewrite EL.
    assert (I1 : incr dup) by apply dup_positions_incr.
    assert (I2 : forall i, In i dup -> (1 <= i)%nat) by apply dup_positions_ge1.
    assert (I3 : forall i, In i dup -> (i < length (lbs sb))%nat) by apply dup_positions_lt.
    assert (I4 := sorted_bins_sorted b).
    split.
    + apply merged_pos; auto.
    + apply merged_lg_incr; auto.
Qed.

(** ** tracking of bins through the stages *)
Definition tracks (d : R -> R) (b : list bin) (n : list R) (b' : list bin) (n' : list R) (m : list Z) : Prop :=
  length b' = length m /\ length n' = length m /\
  forall j z bj nj, nth_error m j = Some z -> nth_error b' j = Some bj -> nth_error n' j = Some nj ->
    (z = (-1)%Z /\ snd bj = 0 /\ nj = 0) \/
    (exists i, z = Z.of_nat i /\ (i < length b)%nat /\
       ((nth_error n i = Some nj /\ exists bi, nth_error b i = Some bi /\ fst bj = fst bi /\ (bj = bi \/ snd bj = 0)) \/
        (snd bj = 0 /\ nj = d (fst bj)))).

Definition nonneg_map (m : list Z) : Prop := forall z, In z m -> (0 <= z)%Z.

Lemma tracks_sort b dens d b1 d1 m1 : length dens = length b ->
  sort_and_merge_duplicates np b dens (Some d) = (b1, d1, m1) ->
  tracks d b dens b1 d1 (map Z.of_nat m1).
Proof.
  intros L H. apply sort_merge_cases in H. cbv zeta in H.
  set (sb := sorted_bins b) in *. set (dup := dup_positions _ _) in *.
  set (sd := map (fun i => nth i dens 0) (argsort np (lbs b))) in *.
  assert (Lsb : length sb = length b) by apply sorted_bins_length.
  assert (Lsd : length sd = length b) by (unfold sd; rewrite map_length, argsort_length, lbs_length; auto).
  assert (La : length (argsort np (lbs b)) = length b) by (rewrite argsort_length, lbs_length; auto).
  destruct H as [(E & -> & -> & ->)|(E & -> & -> & ->)].
  - split; [rewrite map_length; lia|]. split; [rewrite map_length; lia|].
    intros j z bj nj Hz Hb Hn. right.
    rewrite nth_error_map in Hz. destruct (nth_error (argsort np (lbs b)) j) as [i|] eqn:Ei; [|discriminate].
    injection Hz as <-. exists i.
    assert (i < length b)%nat. { rewrite <- lbs_length. apply argsort_lt. eapply nth_error_In; eauto. }
    repeat split; auto. left.
    apply sorted_bins_nth in Hb as (i' & Ei' & Hb). assert (i' = i) by congruence. subst i'. split; [|exists bj; auto].
    unfold sd in Hn. rewrite nth_error_map, Ei in Hn. injection Hn as <-. apply nth_error_nth'. lia.
  - assert (I1 : incr dup) by apply dup_positions_incr.
    assert (I2 : forall i, In i dup -> (1 <= i)%nat) by apply dup_positions_ge1.
    assert (I3 : forall i, In i dup -> (i < length b)%nat).
    { intros i Hi. apply dup_positions_lt in Hi. rewrite lbs_length, Lsb in Hi. auto. }
    rewrite La.
    destruct (merge_points_length dup (length b) I1 I2 (lbs sb) sd (Some d)) as [M1 M2].
    { rewrite lbs_length; auto. }
    split; [rewrite !map_length; auto|]. split; [rewrite !map_length; auto|].
    intros j z bj nj Hz Hb Hn. right.
    rewrite !nth_error_map in Hz. destruct (nth_error (keep_idx (length b) dup) j) as [p|] eqn:Ep; [|discriminate].
    simpl in Hz. injection Hz as <-.
    assert (Hp := nth_error_In _ _ Ep). apply keep_In in Hp as [Hp _].
    set (i := nth p (argsort np (lbs b)) 0%nat).
    assert (Ei : nth_error (argsort np (lbs b)) p = Some i) by (apply nth_error_nth'; lia).
    exists i. split; [reflexivity|].
    assert (Hi : (i < length b)%nat). { rewrite <- lbs_length. apply argsort_lt. eapply nth_error_In; eauto. }
    split; auto.
    destruct (merge_points_nth dup (length b) I1 I2 (lbs sb) sd (Some d) j p) as (vx & vy & Hx & Hy & Hc); auto.
    { rewrite lbs_length; auto. }
    rewrite nth_error_map, Hx in Hb. injection Hb as <-. rewrite Hy in Hn. injection Hn as <-.
    simpl. destruct Hc as [(Hl & Hvx & Hvy)|(r & _ & _ & _ & ->)]; auto. left.
    apply lbs_nth_inv in Hvx as (bi & Hbi & <-). apply sorted_bins_nth in Hbi as (i' & Ei' & Hbi).
    assert (i' = i) by congruence. subst i'. split; [|eauto].
    unfold sd in Hvy. rewrite nth_error_map, Ei in Hvy. injection Hvy as <-. apply nth_error_nth'. lia.
Qed.

(** ** _remove_too_close_bins *)
Section Close.
Variable c : cfg.

Lemma too_close_spec thr b i : In i (too_close np thr b) ->
  (2 <= i)%nat /\ (i < length b - 1)%nat /\
  exists w z, nth_error (lbs b) (i - 1) = Some w /\ nth_error (lbs b) i = Some z /\ lg np z - lg np w < thr.
Proof.
  unfold too_close. rewrite filter_In, dup_positions_spec. intros ((H1 & w & z & Hw & Hz & Hc) & H2).
  apply Rltb_true in Hc. apply andb_true_iff in H2 as [H2 H3].
  apply negb_true_iff, Nat.eqb_neq in H2. apply negb_true_iff, Nat.eqb_neq in H3.
  assert (i < length b)%nat. { rewrite <- lbs_length. eapply nth_error_lt; eauto. }
  repeat split; try lia. eauto.
Qed.
Lemma too_close_complete thr b i w z : (2 <= i)%nat -> (i < length b - 1)%nat ->
  nth_error (lbs b) (i - 1) = Some w -> nth_error (lbs b) i = Some z -> ~ In i (too_close np thr b) ->
  thr <= lg np z - lg np w.
Proof.
  intros H1 H2 Hw Hz Hn. destruct (Rle_dec thr (lg np z - lg np w)); auto. exfalso. apply Hn.
  unfold too_close. rewrite filter_In, dup_positions_spec. split.
  - split; [lia|]. exists w, z. rewrite Rltb_true. repeat split; auto. lra.
  - apply andb_true_iff. split; apply negb_true_iff, Nat.eqb_neq; lia.
Qed.
Lemma too_close_incr thr b : incr (too_close np thr b).
Proof.
  unfold too_close, dup_positions.
  assert (G : forall (p q : nat -> bool) l, filter p (filter q l) = filter (fun i => q i && p i) l).
  { clear. induction l as [|a l IH]; simpl; auto. destruct (q a); simpl; [destruct (p a)|]; rewrite IH; auto. }
  rewrite G. apply incr_filter_seq.
Qed.

(** all gaps except the first and the last are at least [thr] *)
Definition gaps_ok (thr : R) (l : list R) : Prop :=
  forall k a b, (1 <= k)%nat -> (S (S k) < length l)%nat -> nth_error l k = Some a -> nth_error l (S k) = Some b ->
    thr <= lg np b - lg np a.

Lemma remove_close_cases thr b dens d b2 d2 m2 : length dens = length b ->
  remove_too_close_bins np thr b dens d = Ok (b2, d2, m2) ->
  let close := too_close np thr b in
  let ds := Some (dist_eval np d) in
  (2 <= length b)%nat /\
  ((close = [] /\ b2 = b /\ d2 = dens /\ m2 = seq 0 (length b)) \/
   (close <> [] /\ m2 = keep_idx (length b) close /\
    lbs b2 = fst (merge_points (lbs b) dens (group_duplicates close) ds) /\
    d2 = snd (merge_points (lbs b) dens (group_duplicates close) ds) /\
    length b2 = length m2 /\
    (forall j i bj, nth_error m2 j = Some i -> nth_error b2 j = Some bj ->
       snd bj = if existsb (Nat.eqb i) (map (fun g => hd 0%nat g) (group_duplicates close)) then 0
                else snd (nth i b (0, 0))))).
Proof.
  intros L. unfold remove_too_close_bins. rewrite L. destruct (Nat.ltb_spec (length b) 2); [discriminate|].
  cbv zeta. set (close := too_close np thr b). intros H0. split; auto.
  assert (I2 : forall i, In i close -> (1 <= i)%nat) by (intros i Hi; apply too_close_spec in Hi; lia).
  assert (I1 : incr close) by apply too_close_incr.
  destruct close as [|p cl] eqn:E; [left; injection H0 as <- <- <-; auto|right].
  rewrite <- E in *. destruct (merge_points _ _ _ _) as [xx yy] eqn:Em. injection H0 as <- <- <-.
  split; [rewrite E; discriminate|]. split; auto.
  destruct (merge_points_length close (length b) I1 I2 (lbs b) dens (Some (dist_eval np d))) as [M1 M2];
    [apply lbs_length|]. rewrite Em in M1, M2. simpl in *.
  set (ub := map _ _).
  assert (Lub : length ub = length xx) by (unfold ub; rewrite map_length; auto).
  split; [|split; [|split]]; auto.
  - clearbody ub. clear - Lub. unfold lbs. revert ub Lub. induction xx as [|x xx IH]; intros [|u ub] H; simpl in *; try discriminate; auto.
    f_equal. auto.
  - rewrite combine_length. lia.
  - intros j i bj Hm Hb.
    assert (G : forall (l1 l2 : list R) k p, nth_error (combine l1 l2) k = Some p -> nth_error l2 k = Some (snd p)).
    { clear. induction l1 as [|a l1 IH]; intros [|u l2] [|k] p; simpl; try discriminate; auto.
      intros Hx; injection Hx as <-; auto. }
    apply G in Hb. unfold ub in Hb. rewrite nth_error_map, Hm in Hb. simpl in Hb. congruence.
Qed.

Lemma group_head_label dup n i : incr dup -> (forall i, In i dup -> (1 <= i)%nat) -> (forall i, In i dup -> (i < n)%nat) ->
  ~ In i dup ->
  existsb (Nat.eqb i) (map (fun g => hd 0%nat g) (group_duplicates dup)) =
  match label (group_duplicates dup) i with Some _ => true | None => false end.
Proof.
  intros I1 I2 I3 Hi. pose proof (label_kept dup I1 I2 i Hi) as HL.
  destruct (label _ i) as [r|] eqn:E.
  - destruct HL as (k & Hg & Hk & _). apply existsb_exists. exists i. split; [|apply Nat.eqb_refl].
    apply in_map_iff. exists (seq i k). split; [destruct k; [lia|auto]|eapply nth_error_In; eauto].
  - apply not_true_iff_false. intros X. apply existsb_exists in X as (x & Hx & Ex). apply Nat.eqb_eq in Ex. subst x.
    apply in_map_iff in Hx as (g & Hh & Hg).
    destruct (group_shape dup I1 I2 g Hg) as (a & k & Hk & -> & _). destruct k; [lia|]. simpl in Hh. subst a.
    apply (label_None _ _ E (seq i (S k))); auto. simpl; auto.
Qed.

Lemma remove_close_spec thr b dens d b2 d2 m2 : length dens = length b ->
  all_pos (lbs b) -> lg_incr np (lbs b) ->
  remove_too_close_bins np thr b dens d = Ok (b2, d2, m2) ->
  all_pos (lbs b2) /\ lg_incr np (lbs b2) /\ gaps_ok thr (lbs b2) /\
  tracks (dist_eval np d) b dens b2 d2 (map Z.of_nat m2) /\ (forall i, In i m2 -> (i < length b)%nat).
Proof.
  intros L Hp Hi H. apply remove_close_cases in H as [Hlen H]; auto. cbv zeta in H.
  set (close := too_close np thr b) in *.
  assert (I2 : forall i, In i close -> (1 <= i)%nat) by (intros i Hc; apply too_close_spec in Hc; lia).
  assert (I1 : incr close) by apply too_close_incr.
  assert (I3 : forall i, In i close -> (i < length b)%nat) by (intros i Hc; apply too_close_spec in Hc; lia).
  assert (I3' : forall i, In i close -> (i < length (lbs b))%nat) by (rewrite lbs_length; auto).
  assert (Hs : adj Rle (lbs b)).
  { intros k u v Hu Hv. destruct (Rle_dec u v); auto. exfalso. specialize (Hi _ _ _ Hu Hv).
    assert (lg np v <= lg np u). { apply (lg_mono _ Hnp); [apply Hp; eapply nth_error_In; eauto|lra]. } lra. }
  destruct H as [(E & -> & -> & ->)|(E & -> & Hx & Hy & Lb & Hub)].
  - split; [auto|]. split; [auto|]. split; [|split; [split; [|split]|]].
    + intros k a c0 H1 H2 Ha Hc. rewrite lbs_length in H2. apply (too_close_complete thr b (S k)); auto; try lia.
      { simpl. rewrite Nat.sub_0_r. auto. } fold close. rewrite E. auto.
    + rewrite map_length, seq_length. auto.
    + rewrite map_length, seq_length. auto.
    + intros j z bj nj Hz Hb Hn. right. exists j. pose proof (nth_error_lt _ _ _ Hb).
      rewrite nth_error_map, nth_error_seq in Hz by auto. injection Hz as <-. split; auto. split; auto. left. split; auto. exists bj. auto.
    + intros i Hin. apply in_seq in Hin. lia.
  - destruct (merge_points_length close (length b) I1 I2 (lbs b) dens (Some (dist_eval np d))) as [M1 M2]; [apply lbs_length|].
    split; [|split; [|split; [|split]]].
    + rewrite Hx. apply merged_pos; auto.
    + rewrite Hx. apply merged_lg_incr; auto. intros j w z _ Hj Hw Hz. apply (Hi (j - 1)%nat); auto.
      replace (S (j - 1)) with j by lia. auto.
    + intros k u v Hk1 Hk2 Hu Hv. rewrite Hx in *. rewrite M1 in Hk2.
      destruct (nth_error_Some_ex (keep_idx (length b) close) (S k)) as [j Hj]; [lia|].
      destruct (nth_error_Some_ex (keep_idx (length b) close) k) as [i Hki]; [lia|].
      destruct (nth_error_Some_ex (keep_idx (length b) close) (S (S k))) as [j2 Hj2]; [lia|].
      destruct (keep_consecutive _ _ _ _ _ Hki Hj) as (G1 & G2 & G3 & G4 & G5).
      destruct (keep_consecutive _ _ _ _ _ Hj Hj2) as (K1 & K2 & K3 & K4 & K5).
      assert (1 <= i)%nat.
      { destruct k as [|k']; [lia|]. destruct (nth_error_Some_ex (keep_idx (length b) close) k') as [i0 Hi0].
        { apply nth_error_lt in Hki. lia. }
        destruct (keep_consecutive _ _ _ _ _ Hi0 Hki). lia. }
      destruct (nth_error_Some_ex (lbs b) j) as [z Hz]; [rewrite lbs_length; lia|].
      destruct (nth_error_Some_ex (lbs b) (j - 1)) as [w Hw]; [rewrite lbs_length; lia|].
      eapply (merged_gap (lbs b) dens close (Some (dist_eval np d)) I1 I2 I3' Hp Hs thr k u v j w z); eauto.
      { rewrite lbs_length. auto. }
      apply (too_close_complete thr b j); auto; lia.
    + split; [rewrite map_length; auto|]. split; [rewrite map_length, Hy; auto|].
      intros j z bj nj Hz Hb Hn. right. rewrite nth_error_map in Hz.
      destruct (nth_error (keep_idx (length b) close) j) as [i|] eqn:Ei; [|discriminate]. injection Hz as <-.
      assert (Hin := nth_error_In _ _ Ei). apply keep_In in Hin as [Hin Hni].
      exists i. split; auto. split; auto.
      specialize (Hub _ _ _ Ei Hb).
      destruct (merge_points_nth close (length b) I1 I2 (lbs b) dens (Some (dist_eval np d)) j i) as (vx & vy & Hvx & Hvy & Hc); auto.
      { apply lbs_length. }
      rewrite <- Hx in Hvx. rewrite <- Hy in Hvy. rewrite Hn in Hvy. injection Hvy as <-.
      rewrite (lbs_nth _ _ _ Hb) in Hvx. injection Hvx as Hfst.
      rewrite (group_head_label close (length b) i I1 I2 I3 Hni) in Hub.
      destruct Hc as [(Hl & Hvx & Hvy)|(r & Hl & _ & Hvx & Hvy)]; rewrite Hl in Hub.
      * left. split; auto. apply lbs_nth_inv in Hvx as (bi & Hbi & Hf). exists bi. split; auto.
        split; [congruence|]. left. rewrite (nth_error_nth _ _ (0, 0) Hbi) in Hub. destruct bj, bi; simpl in *; congruence.
      * right. split; auto. congruence.
    + intros i Hin. apply keep_In in Hin. tauto.
Qed.

(** ** composition of trackings *)
Lemma tracks_compose d b0 n0 b1 n1 m1 b2 n2 m2 m : nonneg_map m1 ->
  tracks d b0 n0 b1 n1 m1 -> tracks d b1 n1 b2 n2 m2 -> combine_mapping m1 m2 = Ok m ->
  tracks d b0 n0 b2 n2 m.
Proof.
  intros Hnn (L1 & L1' & T1) (L2 & L2' & T2) Hm.
  pose proof (combine_mapping_length _ _ _ Hm) as Lm.
  split; [lia|]. split; [lia|]. intros j z bj nj Hz Hb Hn.
  destruct (nth_error_Some_ex m2 j) as [z2 Hz2]. { rewrite <- Lm. eapply nth_error_lt; eauto. }
  pose proof (combine_mapping_nth _ _ _ Hm _ _ _ Hz2 Hz) as X.
  destruct (T2 _ _ _ _ Hz2 Hb Hn) as [(-> & H1 & H2)|(i2 & -> & Hi2 & Hc2)].
  - simpl in X. left. auto.
  - destruct (Z.eqb_spec (Z.of_nat i2) (-1)); [lia|]. rewrite py_get_nat in X.
    destruct (nth_error m1 i2) as [z1|] eqn:Ez1; [|discriminate]. injection X as ->.
    destruct (nth_error_Some_ex b1 i2) as [b1i Hb1]; [lia|]. destruct (nth_error_Some_ex n1 i2) as [n1i Hn1]; [lia|].
    assert (Hz0 : (0 <= z)%Z) by (apply Hnn; eapply nth_error_In; eauto).
    destruct (T1 _ _ _ _ Ez1 Hb1 Hn1) as [(-> & _)|(i1 & -> & Hi1 & Hc1)]; [lia|].
    right. exists i1. split; auto. split; auto.
    destruct Hc2 as [(Hnj & bi & Hbi & Hf & Hs)|(Hs & Hd)]; [|right; auto].
    rewrite Hn1 in Hnj. injection Hnj as <-. rewrite Hb1 in Hbi. injection Hbi as <-.
    destruct Hc1 as [(Hn0 & b0i & Hb0 & Hf0 & Hs0)|(Hs0 & Hd0)].
    + left. split; auto. exists b0i. split; auto. split; [congruence|]. destruct Hs as [->|]; auto.
    + right. destruct Hs as [->|Hs]; auto. split; auto. congruence.
Qed.

Lemma combine_nonneg m1 m2 m : nonneg_map m1 -> nonneg_map m2 -> combine_mapping m1 m2 = Ok m -> nonneg_map m.
Proof.
  intros H1 H2 Hm z Hz. apply nth_error_In_iff in Hz as [j Hj].
  destruct (nth_error_Some_ex m2 j) as [z2 Hz2]. { rewrite <- (combine_mapping_length _ _ _ Hm). eapply nth_error_lt; eauto. }
  pose proof (combine_mapping_nth _ _ _ Hm _ _ _ Hz2 Hj) as X.
  destruct (Z.eqb_spec z2 (-1)). { subst. apply nth_error_In, H2 in Hz2. lia. }
  apply py_get_In in X. auto.
Qed.

Lemma nonneg_of_nat l : nonneg_map (map Z.of_nat l).
Proof. intros z Hz. apply in_map_iff in Hz as (k & <- & _). lia. Qed.
Lemma nonneg_mask mask : nonneg_map (mask_to_mapping mask).
Proof. rewrite mask_to_mapping_nat. apply nonneg_of_nat. Qed.

(** selection by a mask *)
Lemma select_nth {A} mask (l : list A) k a : length mask = length l -> nth_error (select mask l) k = Some a ->
  exists i, nth_error (select mask (seq 0 (length mask))) k = Some i /\ nth_error l i = Some a.
Proof.
  intros L H. destruct l as [|x0 l0] eqn:El; [destruct mask; [destruct k; discriminate|discriminate]|].
  rewrite <- El in *. rewrite <- (select_as_idx_gen mask l 0 x0 L) in H. rewrite nth_error_map in H.
  destruct (nth_error (select mask (seq 0 (length mask))) k) as [i|] eqn:E; [|discriminate]. injection H as <-.
  exists i. split; auto. rewrite Nat.sub_0_r. apply nth_error_nth'. assert (X := nth_error_In _ _ E).
  apply select_seq_lt in X. lia.
Qed.

Lemma select_seq_mono mask s : forall k i j, nth_error (select mask (seq s (length mask))) k = Some i ->
  nth_error (select mask (seq s (length mask))) (S k) = Some j -> (i < j)%nat.
Proof.
  revert s; induction mask as [|[] mask IH]; intros s k i j; simpl; try (destruct k; discriminate).
  - destruct k; simpl.
    + intros E Hj; injection E as <-. apply (nth_error_In _ 0), select_seq_lt in Hj. lia.
    + apply IH.
  - apply IH.
Qed.

Lemma select_seq_ge mask s : forall k i, nth_error (select mask (seq s (length mask))) k = Some i -> (s + k <= i)%nat.
Proof.
  revert s; induction mask as [|[] mask IH]; intros s k i; simpl; try (destruct k; discriminate).
  - destruct k; simpl; [intros E; injection E as <-; lia|]. intros H. apply IH in H. lia.
  - intros H. apply IH in H. lia.
Qed.

Lemma select_lg_incr mask l : length mask = length l -> lg_incr np l -> lg_incr np (select mask l).
Proof.
  intros L H k a b Ha Hb. apply select_nth in Ha as (i & Hi & Ha); auto. apply select_nth in Hb as (j & Hj & Hb); auto.
  pose proof (select_seq_mono _ _ _ _ _ Hi Hj).
  eapply (adj_lt (fun a b => lg np a < lg np b) l); eauto. intros; lra.
Qed.

Lemma select_gaps thr mask l : length mask = length l -> lg_incr np l -> gaps_ok thr l -> gaps_ok thr (select mask l).
Proof.
  intros L H G k a b Hk1 Hk2 Ha Hb.
  destruct (nth_error_Some_ex (select mask l) (S (S k))) as [c0 Hc]; auto.
  apply select_nth in Ha as (i & Hi & Ha); auto. apply select_nth in Hb as (j & Hj & Hb); auto.
  apply select_nth in Hc as (j2 & Hj2 & Hc); auto.
  pose proof (select_seq_mono _ _ _ _ _ Hi Hj). pose proof (select_seq_mono _ _ _ _ _ Hj Hj2).
  apply select_seq_ge in Hi. pose proof (nth_error_lt _ _ _ Hc).
  destruct (nth_error_Some_ex l (S i)) as [b' Hb']; [lia|].
  assert (thr <= lg np b' - lg np a) by (apply (G i); auto; lia).
  assert (lg np b' <= lg np b).
  { destruct (Nat.eq_dec (S i) j). { subst j. assert (b' = b) by congruence. subst. lra. }
    left. apply (adj_lt (fun a b => lg np a < lg np b) l) with (i := S i) (j := j); auto; [intros; lra|lia]. }
  lra.
Qed.

Lemma tracks_select d (mask : list bool) b n : length mask = length b -> length n = length b ->
  tracks d b n (select mask b) (select mask n) (mask_to_mapping mask).
Proof.
  intros L Ln. assert (Ls : length (mask_to_mapping mask) = count mask).
  { unfold mask_to_mapping. apply select_length. rewrite arange_length. auto. }
  split; [rewrite Ls; apply select_length; auto|]. split; [rewrite Ls; apply select_length; lia|].
  intros j z bj nj Hz Hb Hn. right.
  apply select_nth in Hb as (i & Hi & Hb); auto. apply select_nth in Hn as (i' & Hi' & Hn); [|lia].
  assert (i' = i) by congruence. subst i'.
  rewrite mask_to_mapping_nat, nth_error_map, Hi in Hz. injection Hz as <-.
  exists i. split; auto. split; [eapply nth_error_lt; eauto|]. left. split; auto. exists bj. auto.
Qed.

(** ** _add_boundary_bins *)
Lemma add_boundary_cases bd b er b5 m5 : add_boundary_bins np c bd b er = Ok (b5, m5) ->
  exists bf bl rf rl, nth_error b 0 = Some bf /\ nth_error b (length b - 1) = Some bl /\
    nth_error er 0 = Some rf /\ nth_error er (length er - 1) = Some rl /\
    exists pre post,
     b5 = map fst pre ++ b ++ map fst post /\ m5 = map snd pre ++ arange (length b) ++ map snd post /\
     ((pre = [] /\ (lg np (fst bf) - lg np (fst bd) < creep c \/ fst rf <= 0)) \/
      (pre = [((fst bd, 0), (-1)%Z)] /\ creep c <= lg np (fst bf) - lg np (fst bd) /\ 0 < fst rf)) /\
     ((post = [] /\ (lg np (snd bd) - lg np (fst bl) < creep c \/ 0 <= fst rl)) \/
      (post = [((snd bd / (1 + bin_size_factor), 0), (-1)%Z)] /\ creep c <= lg np (snd bd) - lg np (fst bl) /\ fst rl < 0)).
Proof.
  unfold add_boundary_bins. destruct b as [|bf b]; [discriminate|]. destruct er as [|rf er]; [discriminate|].
  intros H.
  assert (Last : forall (A : Type) (x : A) l, nth_error (x :: l) (length (x :: l) - 1) = Some (last (x :: l) x)).
  { clear. intros A x l. replace (length (x :: l) - 1)%nat with (length l) by (simpl; lia). revert x.
    assert (G : forall l' (x d : A), nth_error (x :: l') (length l') = Some (last (x :: l') d)).
    { induction l' as [|y l' IH]; intros x d; [reflexivity|]. simpl length. cbn [nth_error]. rewrite (IH y d). reflexivity. }
    intros x. apply G. }
  exists bf, (last (bf :: b) bf), rf, (last (rf :: er) rf).
  split; [reflexivity|]. split; [apply Last|]. split; [reflexivity|]. split; [apply Last|].
  set (bl := last (bf :: b) bf) in *. set (rl := last (rf :: er) rf) in *.
  set (low := (_ && _)%bool) in H. set (high := (_ && _)%bool) in H.
  exists (if low then [((fst bd, 0), (-1)%Z)] else []), (if high then [((snd bd / (1 + bin_size_factor), 0), (-1)%Z)] else []).
  assert (Hlow : if low then creep c <= lg np (fst bf) - lg np (fst bd) /\ 0 < fst rf
                 else lg np (fst bf) - lg np (fst bd) < creep c \/ fst rf <= 0).
  { unfold low. destruct (Rleb_spec (creep c) (lg np (fst bf) - lg np (fst bd))); simpl; [|left; lra].
    destruct (Rltb_spec 0 (fst rf)); [auto|right; lra]. }
  assert (Hhigh : if high then creep c <= lg np (snd bd) - lg np (fst bl) /\ fst rl < 0
                 else lg np (snd bd) - lg np (fst bl) < creep c \/ 0 <= fst rl).
  { unfold high. destruct (Rleb_spec (creep c) (lg np (snd bd) - lg np (fst bl))); simpl; [|left; lra].
    destruct (Rltb_spec (fst rl) 0); [auto|right; lra]. }
  destruct low, high; simpl in H |- *; injection H as <- <-; rewrite ?app_nil_r; repeat split; auto.
Qed.

Lemma tracks_add d bd b n er b5 m5 n5 : length n = length b ->
  add_boundary_bins np c bd b er = Ok (b5, m5) -> remap m5 n (Some 0) = Ok n5 ->
  tracks d b n b5 n5 m5 /\ length m5 = length b5.
Proof.
  intros Ln H Hr. apply add_boundary_cases in H as (bf & bl & rf & rl & _ & _ & _ & _ & pre & post & -> & -> & Hpre & Hpost).
  assert (Lm : length (map snd pre ++ arange (length b) ++ map snd post) = length (map fst pre ++ b ++ map fst post)).
  { rewrite !app_length, !map_length, arange_length. auto. }
  split; [|auto]. split; [lia|]. split; [apply remap_length in Hr; lia|].
  intros j z bj nj Hz Hb Hn.
  pose proof (remap_nth _ _ _ _ Hr _ _ _ Hz Hn) as X.
  assert (Hp : (forall p, In p pre -> snd p = (-1)%Z /\ snd (fst p) = 0) /\ (forall p, In p post -> snd p = (-1)%Z /\ snd (fst p) = 0)).
  { split; intros p Hp.
    - destruct Hpre as [[-> _]|[-> _]]; [destruct Hp|]. destruct Hp as [<-|[]]. auto.
    - destruct Hpost as [[-> _]|[-> _]]; [destruct Hp|]. destruct Hp as [<-|[]]. auto. }
  destruct Hp as [Hp1 Hp2].
  destruct (lt_dec j (length pre)) as [Hj|Hj].
  - rewrite nth_error_app1 in Hz, Hb by (rewrite map_length; auto). rewrite nth_error_map in Hz, Hb.
    destruct (nth_error pre j) as [p|] eqn:Ep; [|discriminate]. injection Hz as <-. injection Hb as <-.
    destruct (Hp1 _ (nth_error_In _ _ Ep)) as [E1 E2]. rewrite E1 in X. simpl in X. left. repeat split; auto. congruence.
  - rewrite nth_error_app2 in Hz, Hb by (rewrite map_length; lia). rewrite map_length in Hz, Hb.
    destruct (lt_dec (j - length pre) (length b)) as [Hj2|Hj2].
    + rewrite nth_error_app1 in Hz, Hb by (rewrite ?arange_length; auto).
      rewrite nth_error_arange in Hz by auto. injection Hz as <-.
      right. exists (j - length pre)%nat. split; auto. split; auto. left.
      destruct (Z.eqb_spec (Z.of_nat (j - length pre)) (-1)); [lia|]. rewrite py_get_nat in X.
      destruct (nth_error n _) eqn:En; [|discriminate]. injection X as <-. split; auto. exists bj. auto.
    + rewrite nth_error_app2 in Hz, Hb by (rewrite ?arange_length; lia). rewrite ?arange_length in Hz.
      rewrite nth_error_map in Hz, Hb.
      destruct (nth_error post _) as [p|] eqn:Ep; [|discriminate]. injection Hz as <-. injection Hb as <-.
      destruct (Hp2 _ (nth_error_In _ _ Ep)) as [E1 E2]. rewrite E1 in X. simpl in X. left. repeat split; auto. congruence.
Qed.
End Close.
End Sort.
