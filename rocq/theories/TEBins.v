(** The points of a table through a step (C82). *)
From Coq Require Import Sorted.
From Verif Require Import Base TEUtils TimeEvolution ListFacts TEIndexFacts TEStageFacts TEStepFacts TELoopFacts TEInv TEForward Spec_TE TEThm4 TEThm5 TEReach Spec_Init TEBoundary Spec_Bins.

Definition no_cell : cell := {| at_gamma := 0; density := 0; shares := [] |}.
Definition cell_at (b : list bin) (n : list R) (sp : list (list R)) (i : nat) : cell :=
  {| at_gamma := nth i (lbs b) 0; density := nth i n 0; shares := map (fun row => nth i row 0) sp |}.

Lemma nth_lbs b i : nth i (lbs b) 0 = fst (nth i b (0, 0)).
Proof. unfold lbs. change 0 with (fst (0, 0)) at 1. apply map_nth. Qed.
Lemma cells_eq b n sp : cells b n sp = map (cell_at b n sp) (seq 0 (length b)).
Proof. unfold cells, cell_at. apply map_ext. intros i. rewrite nth_lbs. auto. Qed.
Lemma cells_length b n sp : length (cells b n sp) = length b.
Proof. unfold cells. rewrite map_length, seq_length. auto. Qed.
Lemma cells_nth b n sp i : (i < length b)%nat -> nth_error (cells b n sp) i = Some (cell_at b n sp i).
Proof. intros H. rewrite cells_eq, nth_error_map, nth_error_seq by auto. auto. Qed.
Lemma cells_nth_inv b n sp i x : nth_error (cells b n sp) i = Some x -> (i < length b)%nat /\ x = cell_at b n sp i.
Proof. intros H. assert (L : (i < length b)%nat) by (rewrite <- (cells_length b n sp); eapply nth_error_lt; eauto). split; auto. rewrite cells_nth in H by auto. congruence. Qed.
Lemma cells_nth_d b n sp i d : (i < length b)%nat -> nth i (cells b n sp) d = cell_at b n sp i.
Proof. intros H. apply nth_error_nth. apply cells_nth. auto. Qed.
Lemma cells_lbs b b' n sp : lbs b = lbs b' -> cells b n sp = cells b' n sp.
Proof. intros H. assert (L : length b = length b') by (rewrite <- (lbs_length b), <- (lbs_length b'), H; auto). rewrite !cells_eq, L. unfold cell_at. rewrite H. auto. Qed.

(** rows picked at positions *)
Definition pick (ms : list nat) (rows : list (list R)) : list (list R) := map (fun row => map (fun i => nth i row 0) ms) rows.
Lemma pick_len ms rows r : In r (pick ms rows) -> length r = length ms.
Proof. unfold pick. intros H. apply in_map_iff in H as (x & <- & _). apply map_length. Qed.
Lemma pick_ne ms rows : rows <> [] -> pick ms rows <> [].
Proof. destruct rows; [congruence|discriminate]. Qed.
Lemma nth_map_nth {A} (d : A) (l : list A) ms j i : nth_error ms j = Some i -> nth j (map (fun i => nth i l d) ms) d = nth i l d.
Proof. intros H. apply nth_error_nth. rewrite nth_error_map, H. auto. Qed.
Lemma pick_column ms rows j i : nth_error ms j = Some i -> map (fun row => nth j row 0) (pick ms rows) = map (fun row => nth i row 0) rows.
Proof. intros H. unfold pick. rewrite map_map. apply map_ext. intros row. apply nth_map_nth. auto. Qed.
Lemma take_pick {A} (d : A) (l : list A) ms : (forall i, In i ms -> (i < length l)%nat) -> take_idx l (map Z.of_nat ms) = Ok (map (fun i => nth i l d) ms).
Proof.
  intros H. unfold take_idx. apply mapM_Forall2. apply Forall2_from_nth; [rewrite !map_length; auto|].
  intros j z a Hz Ha. rewrite nth_error_map in Hz, Ha. destruct (nth_error ms j) as [i|] eqn:E; [|discriminate]. simpl in Hz, Ha. injection Hz as <-.
  rewrite py_get_nat. rewrite (nth_error_nth' l d) by (apply H; eapply nth_error_In; eauto). congruence.
Qed.
Lemma row_pick nv l ms : (forall i, In i ms -> (i < length l)%nat) -> remap_row (map Z.of_nat ms) nv l = Ok (map (fun i => nth i l 0) ms).
Proof. intros H. apply remap_row_of_remap. unfold remap. rewrite (take_pick 0) by auto. cbn [bind]. rewrite nat_mapping_nonneg. auto. Qed.
Lemma remap_pick ms rows N : rows <> [] -> (forall r, In r rows -> length r = N) -> (forall i, In i ms -> (i < N)%nat) ->
  remap_subgroups_density (map Z.of_nat ms) rows = Ok (pick ms rows).
Proof.
  intros Hne H Hi. destruct rows as [|r0 rs]; [congruence|]. simpl.
  rewrite row_pick by (intros i Hin; rewrite H by (simpl; auto); auto). cbn [bind].
  assert (E : mapM (remap_row (map Z.of_nat ms) 0) rs = Ok (pick ms rs)).
  { apply mapM_Forall2. apply Forall2_from_nth; [unfold pick; rewrite map_length; auto|]. intros j x y Hx Hy. unfold pick in Hy. rewrite nth_error_map, Hx in Hy. simpl in Hy.
    rewrite row_pick; [congruence|]. intros i Hin. rewrite H by (right; eapply nth_error_In; eauto). auto. }
  rewrite E. auto.
Qed.
Lemma combine_pick m1 m2 : (forall i, In i m2 -> (i < length m1)%nat) ->
  combine_mapping (map Z.of_nat m1) (map Z.of_nat m2) = Ok (map Z.of_nat (map (fun i => nth i m1 0%nat) m2)).
Proof.
  intros H. unfold combine_mapping. rewrite (take_pick 0%Z) by (intros i Hi; rewrite map_length; auto). cbn [bind]. f_equal.
  apply nth_error_ext'. intros j. rewrite nth_error_map2, !nth_error_map. destruct (nth_error m2 j) as [i|]; auto. simpl.
  destruct (Z.eqb_spec (Z.of_nat i) (-1)); [lia|]. f_equal. change 0%Z with (Z.of_nat 0). apply map_nth.
Qed.
Lemma pick_pick m1 m2 rows : (forall i, In i m2 -> (i < length m1)%nat) -> pick m2 (pick m1 rows) = pick (map (fun i => nth i m1 0%nat) m2) rows.
Proof.
  intros H. unfold pick. rewrite map_map. apply map_ext. intros row. rewrite map_map. apply map_ext_in. intros i Hi.
  apply nth_map_nth. apply nth_error_nth'. auto.
Qed.
Lemma cells_pick ms b n sp : (forall i, In i ms -> (i < length b)%nat) ->
  cells (map (fun i => nth i b (0, 0)) ms) (map (fun i => nth i n 0) ms) (pick ms sp) = map (fun i => nth i (cells b n sp) no_cell) ms.
Proof.
  intros H. apply nth_error_ext'. intros j. rewrite nth_error_map. destruct (nth_error ms j) as [i|] eqn:E.
  - assert (Lj := nth_error_lt _ _ _ E). assert (Li : (i < length b)%nat) by (apply H; eapply nth_error_In; eauto).
    rewrite cells_nth by (rewrite map_length; auto). simpl. rewrite cells_nth_d by auto. unfold cell_at. f_equal.
    rewrite !nth_lbs, (nth_map_nth _ _ _ _ _ E), (nth_map_nth _ _ _ _ _ E), (pick_column _ _ _ _ E). auto.
  - simpl. apply nth_error_None. rewrite cells_length, map_length. apply nth_error_None. auto.
Qed.

Lemma incr_strong l : incr l -> StronglySorted lt l.
Proof.
  induction l as [|a l IH]; intros H; constructor. { apply IH. eapply incr_tail; eauto. } apply Forall_forall. intros x Hx. apply (incr_lt _ _ H). auto.
Qed.
Lemma strong_nth (l : list R) : (forall i j a b, (i < j)%nat -> nth_error l i = Some a -> nth_error l j = Some b -> a <= b) -> StronglySorted Rle l.
Proof.
  induction l as [|x l IH]; intros H; constructor.
  - apply IH. intros i j a b Hij Ha Hb. apply (H (S i) (S j)); auto; lia.
  - apply Forall_forall. intros y Hy. apply In_nth_error in Hy as [j Hj]. apply (H 0%nat (S j)); auto; lia.
Qed.
Lemma run_block {A} (d : A) : forall i k (l : list A), (i + k <= length l)%nat -> firstn k (skipn i l) = map (fun m => nth m l d) (seq i k).
Proof.
  assert (S0 : forall a (l : list A) i k, map (fun m => nth m (a :: l) d) (seq (S i) k) = map (fun m => nth m l d) (seq i k)).
  { intros a l i k. rewrite <- seq_shift, map_map. apply map_ext. auto. }
  induction i as [|i IH]; intros k l H.
  - simpl skipn. revert l H. induction k as [|k IHk]; intros [|a l] H; simpl in H; try lia; auto. simpl firstn. cbn [seq map]. rewrite S0. simpl. f_equal. apply IHk. lia.
  - destruct l as [|a l]; simpl in H; [lia|]. rewrite S0. simpl. apply IH. lia.
Qed.

Lemma united_none j f l : (forall i, ~ j i) -> united j f l l.
Proof.
  intros H. exists (seq 0 (length l)). split; [apply incr_strong, incr_seq|]. split. { intros i. rewrite in_seq. split; [intros [_ Hi]; split; auto|intros [Hi _]; lia]. }
  apply Forall2_from_nth; [apply seq_length|]. intros i a x Ha Hx. assert (L := nth_error_lt _ _ _ Hx). rewrite nth_error_seq in Ha by auto. assert (a = i) by (simpl in Ha; congruence). subst a.
  exists 1%nat, x. split; auto. split; auto. split; [lia|]. split; [intros; lia|]. split; auto. split; auto. lia.
Qed.

Lemma united_merge j f dup b n sp b' : incr dup -> (forall i, In i dup -> (1 <= i < length b)%nat) -> (forall i, j i <-> In i dup) -> length n = length b ->
  lbs b' = fst (merge_points (lbs b) n (group_duplicates dup) f) ->
  united j f (cells b n sp) (cells b' (snd (merge_points (lbs b) n (group_duplicates dup) f)) (pick (keep_idx (length b) dup) sp)).
Proof.
  intros Hinc Hd Hj Ln Eb. destruct (thm_group_partition dup (length b) (incr_strong _ Hinc) Hd) as (_ & _ & _ & H).
  destruct (H (lbs b) n f (lbs_length b) Ln) as (_ & L1 & L2 & HK). clear H. cbv zeta in HK, L1, L2. fold (keep_idx (length b) dup) in *.
  set (mp := merge_points (lbs b) n (group_duplicates dup) f) in *. set (K := keep_idx (length b) dup) in *.
  exists K. split; [apply incr_strong, incr_filter_seq|]. split. { intros i. unfold K. rewrite keep_In, cells_length, Hj. tauto. }
  assert (Lb' : length b' = length K). { rewrite <- (lbs_length b'), Eb. auto. }
  apply Forall2_from_nth; [rewrite cells_length; lia|]. intros p i x' Hp Hx. destruct (cells_nth_inv _ _ _ _ _ Hx) as [Lp ->].
  assert (Hi : (i < length b)%nat). { apply nth_error_In in Hp. apply keep_In in Hp. tauto. }
  destruct (HK p i Hp) as (k & vx & vy & Hk & Hik & Hin & Hend & Ex & Ey & Hv).
  exists k, (cell_at b n sp i). split; [apply cells_nth; auto|]. split; auto. rewrite cells_length. split; auto.
  split. { intros m Hm. apply Hj. auto. } split. { destruct (Nat.eq_dec (i + k) (length b)); auto. right. rewrite Hj. auto. }
  assert (Sh : shares (cell_at b' (snd mp) (pick K sp) p) = shares (cell_at b n sp i)). { simpl. apply pick_column. auto. }
  assert (Gx : at_gamma (cell_at b' (snd mp) (pick K sp) p) = vx). { simpl. rewrite Eb. apply nth_error_nth. auto. }
  assert (Gy : density (cell_at b' (snd mp) (pick K sp) p) = vy). { simpl. apply nth_error_nth. auto. }
  split.
  - intros ->. simpl in Hv. destruct Hv as [-> ->]. unfold cell_at in *. simpl in *. rewrite Gx, Gy, Sh. auto.
  - intros Hk2. destruct (Nat.eqb_spec k 1); [lia|]. destruct Hv as [Vx Vy]. rewrite (run_block no_cell) by (rewrite cells_length; auto).
    assert (Bg : map (fun y => ln (at_gamma y)) (map (fun m => nth m (cells b n sp) no_cell) (seq i k)) = map ln (block (lbs b) i k)).
    { unfold block. rewrite !map_map. apply map_ext_in. intros m Hm. apply in_seq in Hm. rewrite cells_nth_d by lia. auto. }
    assert (Bd : map density (map (fun m => nth m (cells b n sp) no_cell) (seq i k)) = block n i k).
    { unfold block. rewrite !map_map. apply map_ext_in. intros m Hm. apply in_seq in Hm. rewrite cells_nth_d by lia. auto. }
    cbv zeta. rewrite Bg, Bd, Gx, Gy. split; auto.
Qed.

(** inserted cells *)
Lemma nth_error_framed {A} low high (x y : A) l j :
  nth_error (framed low high x y l) j =
  if low && (j =? 0)%nat then Some x else
  let k := (j - (if low then 1 else 0))%nat in
  if (k <? length l)%nat then nth_error l k else if high && (k =? length l)%nat then Some y else None.
Proof.
  unfold framed. assert (G : forall k, nth_error (l ++ (if high then [y] else [])) k = if (k <? length l)%nat then nth_error l k else if high && (k =? length l)%nat then Some y else None).
  { intros k. destruct (Nat.ltb_spec k (length l)); [apply nth_error_app1; auto|]. rewrite nth_error_app2 by auto. destruct high; simpl.
    - destruct (Nat.eqb_spec k (length l)). { subst. rewrite Nat.sub_diag. auto. } destruct (k - length l)%nat as [|q] eqn:E; [lia|]. simpl. destruct q; auto.
    - destruct (k - length l)%nat; auto. }
  destruct low; cbn [andb]; [|simpl app; rewrite G; cbv zeta; rewrite Nat.sub_0_r; auto].
  destruct j as [|j]; auto. simpl nth_error at 1. rewrite G. simpl. rewrite Nat.sub_0_r. auto.
Qed.
Lemma framed_length {A B} low high (x y : A) (u v : B) l k : length l = length k -> length (framed low high x y l) = length (framed low high u v k).
Proof. intros H. unfold framed. rewrite !app_length, H. destruct low, high; auto. Qed.
Lemma nth_of_error {A} (l : list A) j d : nth j l d = match nth_error l j with Some a => a | None => d end.
Proof. destruct (nth_error l j) eqn:E; [apply nth_error_nth; auto|]. apply nth_overflow, nth_error_None; auto. Qed.

Lemma cells_framed low high lo top b b' n r0 rs : b <> [] -> length n = length b -> (forall r, In r (r0 :: rs) -> length r = length b) ->
  lbs b' = framed low high lo top (lbs b) ->
  let new g := {| at_gamma := g; density := 0; shares := 1 :: map (fun _ => 0) rs |} in
  cells b' (framed low high 0 0 n) (framed low high 1 1 r0 :: map (framed low high 0 0) rs) = framed low high (new lo) (new top) (cells b n (r0 :: rs)).
Proof.
  intros Hne Ln Lr Eb. cbv zeta. apply nth_error_ext'. intros j.
  assert (L : length b' = length (framed low high lo top (lbs b))) by (rewrite <- Eb, lbs_length; auto).
  destruct (Nat.lt_ge_cases j (length b')) as [Hj|Hj].
  2: { assert (E1 : nth_error (cells b' (framed low high 0 0 n) (framed low high 1 1 r0 :: map (framed low high 0 0) rs)) j = None) by (apply nth_error_None; rewrite cells_length; auto).
       rewrite E1. symmetry. apply nth_error_None. rewrite L in Hj. etransitivity; [|exact Hj]. apply Nat.eq_le_incl, framed_length. rewrite cells_length, lbs_length. auto. }
  rewrite cells_nth by auto. unfold cell_at. rewrite Eb.
  rewrite !nth_of_error. rewrite !nth_error_framed. rewrite cells_length, lbs_length, Ln. rewrite L in Hj. apply nth_error_Some in Hj. rewrite nth_error_framed, lbs_length in Hj.
  cbn [map]. rewrite map_map. rewrite nth_of_error, nth_error_framed. rewrite (Lr r0) by (simpl; auto).
  assert (M : map (fun x => nth j (framed low high 0 0 x) 0) rs =
    map (fun x => if low && (j =? 0)%nat then 0 else if (j - (if low then 1 else 0) <? length b)%nat then nth (j - (if low then 1 else 0)) x 0 else 0) rs).
  { apply map_ext_in. intros x Hx. rewrite nth_of_error, nth_error_framed, (Lr x) by (simpl; auto). cbv zeta. destruct (low && (j =? 0)%nat); auto.
    destruct (Nat.ltb_spec (j - (if low then 1 else 0)) (length b)). { rewrite (nth_of_error x). auto. } destruct (high && _)%bool; auto. }
  rewrite M. clear M. cbv zeta in *. destruct (low && (j =? 0)%nat); [auto|]. set (k := (j - (if low then 1 else 0))%nat) in *.
  destruct (Nat.ltb_spec k (length b)).
  - rewrite cells_nth by auto. unfold cell_at. f_equal. rewrite !nth_of_error. f_equal. cbn [map]. rewrite nth_of_error. auto.
  - destruct (high && (k =? length b)%nat); auto. congruence.
Qed.

Section Bins.
Variable np : numpy.
Hypothesis Hnp : numpy_ok np.
Variable c : cfg.

Lemma sort_ordered b n sp d b1 n1 m1 : length n = length b -> sort_and_merge_duplicates np b n d = (b1, n1, m1) ->
  ordered np d (cells b n sp) (cells b1 n1 (pick m1 sp)) /\ (forall i, In i m1 -> (i < length b)%nat) /\ length b1 = length m1 /\ length n1 = length m1.
Proof.
  intros L H. apply sort_merge_cases in H; auto. cbv zeta in H. set (A := argsort np (lbs b)) in *. set (sb := sorted_bins np b) in *. set (sd := map (fun i => nth i n 0) A) in *.
  set (dup := dup_positions _ _) in *.
  assert (HA : forall i, In i A -> (i < length b)%nat). { intros i Hi. rewrite <- (lbs_length b). apply (argsort_lt np Hnp). auto. }
  assert (LA : length A = length b). { unfold A. rewrite (argsort_length np Hnp), lbs_length. auto. }
  assert (Lsb : length sb = length b) by (apply (sorted_bins_length np Hnp)).
  assert (Lsd : length sd = length sb) by (unfold sd; rewrite map_length; lia).
  set (p := cells sb sd (pick A sp)).
  assert (Ep : p = map (fun i => nth i (cells b n sp) no_cell) A) by (apply cells_pick; auto).
  assert (Pp : Permutation (cells b n sp) p).
  { rewrite Ep. apply Permutation_sym. etransitivity; [apply Permutation_map, (argsort_perm _ Hnp)|]. rewrite lbs_length.
    rewrite <- (cells_length b n sp). rewrite map_nth_seq. apply Permutation_refl. }
  assert (Sp : StronglySorted Rle (map at_gamma p)).
  { apply strong_nth. intros i j x y Hij Hx Hy. rewrite Ep, map_map, nth_error_map in Hx, Hy. fold A in Hx, Hy.
    destruct (nth_error A i) as [u|] eqn:Eu; [|discriminate]. destruct (nth_error A j) as [v|] eqn:Ev; [|discriminate]. simpl in Hx, Hy.
    assert (Lu : (u < length b)%nat) by (apply HA; eapply nth_error_In; eauto). assert (Lv : (v < length b)%nat) by (apply HA; eapply nth_error_In; eauto).
    rewrite cells_nth_d in Hx, Hy by auto. simpl in Hx, Hy. assert (T := argsort_sorted _ Hnp (lbs b) i j u v Hij Eu Ev).
    assert (x = nth u (lbs b) 0) by congruence. assert (y = nth v (lbs b) 0) by congruence. lra. }
  assert (Hj : forall i, same_log np p i <-> In i dup).
  { intros i. unfold dup. rewrite dup_positions_spec. unfold same_log. split.
    - intros (H1 & x & y & Hx & Hy & E). split; auto. destruct (cells_nth_inv _ _ _ _ _ Hx) as [Lx ->]. destruct (cells_nth_inv _ _ _ _ _ Hy) as [Ly ->].
      exists (nth (i - 1) (lbs sb) 0), (nth i (lbs sb) 0). rewrite !nth_error_nth' with (d := 0) by (rewrite lbs_length; auto). split; auto. split; auto. apply Reqb_true. exact E.
    - intros (H1 & x & y & Hx & Hy & E). split; auto. apply Reqb_true in E. assert (Lx := nth_error_lt _ _ _ Hx). assert (Ly := nth_error_lt _ _ _ Hy). rewrite lbs_length in Lx, Ly.
      exists (cell_at sb sd (pick A sp) (i - 1)), (cell_at sb sd (pick A sp) i). split; [apply cells_nth; auto|]. split; [apply cells_nth; auto|]. simpl.
      rewrite (nth_error_nth _ _ _ Hx), (nth_error_nth _ _ _ Hy). auto. }
  assert (D : forall i, In i dup -> (1 <= i < length sb)%nat). { intros i Hi. unfold dup in Hi. pose proof (dup_positions_ge1 _ _ _ Hi). apply dup_positions_lt in Hi. rewrite lbs_length in Hi. lia. }
  destruct H as [(E & -> & -> & ->)|(E & -> & -> & ->)].
  - split. { exists p. split; auto. split; auto. apply united_none. intros i Hi. apply Hj in Hi. rewrite E in Hi. destruct Hi. } split; auto. split; lia.
  - assert (K : forall i, In i (keep_idx (length A) dup) -> (i < length A)%nat) by (intros i Hi; apply keep_In in Hi; tauto).
    destruct (merge_points_length dup (length sb) (dup_positions_incr _ _) (fun i Hi => proj1 (D i Hi)) (lbs sb) sd d) as [M1 M2]; [apply lbs_length|].
    split; [|split].
    + exists p. split; auto. split; auto. rewrite <- pick_pick by auto.
      replace (length A) with (length sb) by lia. apply united_merge; auto; [apply dup_positions_incr|]. unfold lbs. rewrite map_map. simpl. rewrite map_id. auto.
    + intros i Hi. apply in_map_iff in Hi as (q & <- & Hq). apply HA. apply nth_In. auto.
    + rewrite !map_length. replace (length A) with (length sb) by lia. auto.
Qed.

Lemma close_united thr b n sp d b2 n2 m2 : length n = length b -> remove_too_close_bins np thr b n d = Ok (b2, n2, m2) ->
  united (too_near np thr (cells b n sp)) (Some (dist_eval np d)) (cells b n sp) (cells b2 n2 (pick m2 sp)) \/ (exists r, In r sp /\ length r <> length b).
Proof.
  intros L H. apply remove_close_cases in H; auto. cbv zeta in H. destruct H as (L2 & H).
  assert (Hj : forall i, too_near np thr (cells b n sp) i <-> In i (too_close np thr b)).
  { intros i. split.
    - intros (H1 & H2 & x & y & Hx & Hy & E). rewrite cells_length in H2. destruct (cells_nth_inv _ _ _ _ _ Hx) as [Lx ->]. destruct (cells_nth_inv _ _ _ _ _ Hy) as [Ly ->]. simpl in E.
      destruct (in_dec Nat.eq_dec i (too_close np thr b)); auto. exfalso.
      assert (thr <= lg np (nth i (lbs b) 0) - lg np (nth (i - 1) (lbs b) 0)); [|lra].
      apply (too_close_complete np thr b i); auto; try lia; apply nth_error_nth'; rewrite lbs_length; auto.
    - intros Hi. apply too_close_spec in Hi as (H1 & H2 & w & z & Hw & Hz & E). split; auto. rewrite cells_length. split; [lia|].
      exists (cell_at b n sp (i - 1)), (cell_at b n sp i). split; [apply cells_nth; lia|]. split; [apply cells_nth; lia|]. simpl. rewrite (nth_error_nth _ _ _ Hw), (nth_error_nth _ _ _ Hz). auto. }
  destruct (Forall_dec (fun r : list R => length r = length b) (fun r => Nat.eq_dec (length r) (length b)) sp) as [F|F].
  - left. rewrite Forall_forall in F. destruct H as [(E & -> & -> & ->)|(E & -> & Eb & -> & _)].
    + assert (Ep : pick (seq 0 (length b)) sp = sp).
      { unfold pick. rewrite <- (map_id sp) at 2. apply map_ext_in. intros r Hr. rewrite <- (F r Hr). apply map_nth_seq. }
      rewrite Ep. apply united_none. intros i Hi. apply Hj in Hi. rewrite E in Hi. destruct Hi.
    + apply united_merge; auto; [apply too_close_incr|]. intros i Hi. apply too_close_spec in Hi. lia.
  - right. apply neg_Forall_Exists_neg in F; [|intros r; apply Nat.eq_dec]. apply Exists_exists in F as (r & H1 & H2). eauto.
Qed.
Lemma close_lens thr b n d b2 n2 m2 : length n = length b -> remove_too_close_bins np thr b n d = Ok (b2, n2, m2) ->
  (forall i, In i m2 -> (i < length b)%nat) /\ length b2 = length m2 /\ length n2 = length m2.
Proof.
  intros L H. apply remove_close_cases in H; auto. cbv zeta in H. destruct H as (L2 & [(E & -> & -> & ->)|(E & -> & Eb & -> & Lb & _)]).
  - rewrite seq_length. split; [intros i Hi; apply in_seq in Hi; lia|]. auto.
  - split; [intros i Hi; apply keep_In in Hi; tauto|]. split; auto.
    destruct (merge_points_length (too_close np thr b) (length b) (too_close_incr np thr b)) with (x := lbs b) (y := n) (d := Some (dist_eval np d)) as [M1 M2]; auto.
    { intros i Hi. apply too_close_spec in Hi. lia. } { apply lbs_length. }
Qed.

Lemma stage_settled b n s d eng b' n' s' m : length n = length b -> s <> [] -> (forall r, In r s -> length r = length b) ->
  stage345 np c b n s d eng = Ok (b', n', s', m) ->
  settled np c (dist_eval np d) (fst (hd (0, 0) (hd [] eng))) (fst (last (hd [] eng) (0, 0))) (cells b n s) (cells b' n' s').
Proof.
  intros L Hne Lr H. unfold stage345 in H. apply bind_Ok in H as ([[b3 n3] m3] & H3 & H). apply bind_Ok in H as (s3 & Hs3 & H).
  unfold sort_and_merge_bins in H3. destruct (sort_and_merge_duplicates np b n (Some (dist_eval np d))) as [[b1 n1] m1] eqn:E1.
  destruct (sort_ordered b n s _ _ _ _ L E1) as (Ho & Hm1 & Lb1 & Ln1).
  assert (A3 : exists ms, m3 = map Z.of_nat ms /\ (forall i, In i ms -> (i < length b)%nat) /\ length b3 = length ms /\ length n3 = length ms /\
     match merge_thr c with None => cells b3 n3 (pick ms s) = cells b1 n1 (pick m1 s)
     | Some thr => united (too_near np thr (cells b1 n1 (pick m1 s))) (Some (dist_eval np d)) (cells b1 n1 (pick m1 s)) (cells b3 n3 (pick ms s)) end).
  { destruct (merge_thr c) as [thr|].
    - apply bind_Ok in H3 as ([[b2 n2] m2] & Hc & H3). destruct (close_lens thr b1 n1 d b2 n2 m2) as (Hm2 & Lb2 & Ln2); auto; [lia|].
      rewrite combine_pick in H3 by (intros i Hi; rewrite <- Lb1; auto). cbn [bind] in H3.
      assert (E : b3 = b2 /\ n3 = n2 /\ m3 = map Z.of_nat (map (fun i => nth i m1 0%nat) m2)) by (repeat split; congruence). destruct E as (-> & -> & ->).
      exists (map (fun i => nth i m1 0%nat) m2). split; auto. split. { intros i Hi. apply in_map_iff in Hi as (q & <- & Hq). apply Hm1, nth_In. rewrite <- Lb1. auto. }
      rewrite !map_length. split; auto. split; auto. rewrite <- pick_pick by (intros i Hi; rewrite <- Lb1; auto).
      destruct (close_united thr b1 n1 (pick m1 s) d b2 n2 m2) as [U|(r & Hr & Hr')]; auto; [lia|]. apply pick_len in Hr. lia.
    - assert (E : b3 = b1 /\ n3 = n1 /\ m3 = map Z.of_nat m1) by (repeat split; congruence). destruct E as (-> & -> & ->). exists m1. auto. }
  destruct A3 as (ms & -> & Hms & Lb3 & Ln3 & A3). rewrite (remap_pick ms s (length b)) in Hs3 by auto. assert (s3 = pick ms s) by congruence. subst s3. clear Hs3.
  exists (cells b1 n1 (pick m1 s)), (cells b3 n3 (pick ms s)). split; auto. split; [exact A3|]. clear A3 Ho Hm1 Lb1 Ln1 E1 H3.
  set (sp := pick ms s) in *. assert (Lsp : forall r, In r sp -> length r = length b3) by (intros r Hr; rewrite Lb3; eapply pick_len; eauto). assert (Nsp : sp <> []) by (apply pick_ne; auto). clearbody sp.
  destruct (bounds c) as [[lo hi]|]; [|congruence].
  unfold remove_gamma_beyond_bounds in H. set (mask := map (in_bounds (lo, hi)) b3) in *.
  apply bind_Ok in H as (n4 & Hn4 & H). apply bind_Ok in H as (s4 & Hs4 & H). apply bind_Ok in H as (m34 & _ & H).
  destruct eng as [|er rest]; [discriminate|]. apply bind_Ok in H as ([b5' m5] & H5 & H). apply bind_Ok in H as (n5' & Hn5 & H). apply bind_Ok in H as (s5' & Hs5 & H).
  apply bind_Ok in H as (mm & _ & H). assert (E : b' = b5' /\ n' = n5' /\ s' = s5') by (repeat split; congruence). destruct E as (-> & -> & ->). clear H.
  assert (Lm : length mask = length b3) by (unfold mask; apply map_length).
  rewrite remap_mask_None in Hn4 by lia. assert (T4 : n4 = select mask n3) by congruence. clear Hn4.
  rewrite remap_subgroups_select in Hs4; auto. 2: { intros r Hr. rewrite Lsp by auto. lia. } assert (S4 : s4 = map (select mask) sp) by congruence. clear Hs4.
  apply add_boundary_cases in H5 as (bf & bl & rf & rl & Hbf & Hbl & Hrf & Hrl & pre & post & E5 & Em5 & Hpre & Hpost).
  set (b4 := select mask b3) in *.
  assert (L4 : length n4 = length b4). { rewrite T4. unfold b4. rewrite !select_length by lia. auto. }
  assert (Ne : b4 <> []) by (intros E; rewrite E in Hbf; discriminate).
  assert (R4 : forall r, In r s4 -> length r = length b4).
  { intros r Hr. rewrite S4 in Hr. apply in_map_iff in Hr as (x & <- & Hx). unfold b4. rewrite !select_length; auto. rewrite Lsp by auto. auto. }
  set (low := match pre with [] => false | _ => true end). set (high := match post with [] => false | _ => true end).
  assert (Em : m5 = bmap low high (length b4)).
  { rewrite Em5. unfold bmap, framed, low, high. destruct Hpre as [[-> _]|[-> _]]; destruct Hpost as [[-> _]|[-> _]]; reflexivity. }
  assert (Eg : lbs b5' = framed low high lo (hi / (1 + bin_size_factor)) (lbs b4)).
  { rewrite E5. unfold framed, low, high, lbs. rewrite !map_app. destruct Hpre as [[-> _]|[-> _]]; destruct Hpost as [[-> _]|[-> _]]; reflexivity. }
  rewrite Em in Hn5, Hs5.
  assert (N5 : n5' = framed low high 0 0 n4). { rewrite <- L4 in Hn5. rewrite remap_bmap in Hn5 by (intros E; rewrite E in L4; destruct b4; [congruence|discriminate]). congruence. }
  destruct s4 as [|r0 rs]; [discriminate|].
  assert (S5 : s5' = framed low high 1 1 r0 :: map (framed low high 0 0) rs).
  { simpl in Hs5. assert (G : forall nv r, In r (r0 :: rs) -> remap_row (bmap low high (length b4)) nv r = Ok (framed low high nv nv r)).
    { intros nv r Hin. rewrite <- (R4 r Hin). apply row_bmap. intros ->. specialize (R4 [] Hin). destruct b4; [congruence|discriminate]. }
    rewrite G in Hs5 by (simpl; auto). cbn [bind] in Hs5.
    assert (E : mapM (remap_row (bmap low high (length b4)) 0) rs = Ok (map (framed low high 0 0) rs)).
    { apply mapM_Forall2. apply Forall2_from_nth; [rewrite map_length; auto|]. intros i x y Hx Hy. rewrite nth_error_map, Hx in Hy. simpl in Hy. assert (y = framed low high 0 0 x) by congruence. subst y.
      apply G. right. eapply nth_error_In; eauto. }
    rewrite E in Hs5. cbn [bind] in Hs5. congruence. }
  cbv zeta. set (inside := filter _ (cells b3 n3 sp)).
  assert (EI : inside = cells b4 n4 (r0 :: rs)).
  { unfold inside. rewrite <- select_filter. replace (map _ (cells b3 n3 sp)) with mask.
    2: { unfold mask, cells. rewrite map_map. rewrite <- (map_nth_seq b3 (0, 0)) at 1. rewrite map_map. apply map_ext. intros i. reflexivity. }
    set (idx := select mask (seq 0 (length b3))).
    assert (Hidx : forall i, In i idx -> (i < length b3)%nat). { intros i Hi. apply select_In, in_seq in Hi. lia. }
    assert (G : forall A (l : list A) dd, length l = length b3 -> select mask l = map (fun i => nth i l dd) idx).
    { intros A l dd Ll. unfold idx. rewrite <- Ll, <- select_map, map_nth_seq. auto. }
    unfold b4. rewrite S4, T4. rewrite (G _ (cells b3 n3 sp) no_cell) by apply cells_length. rewrite (G _ b3 (0, 0)) by auto. rewrite (G _ n3 0) by lia.
    rewrite <- cells_pick by auto. f_equal. unfold pick. apply map_ext_in. intros r Hr. symmetry. apply G. auto. }
  rewrite EI. assert (L40 : (0 < length b4)%nat) by (destruct b4; [congruence|simpl; lia]).
  exists (cell_at b4 n4 (r0 :: rs) 0), low, high.
  split. { destruct (cells b4 n4 (r0 :: rs)) as [|x l] eqn:Ec. { apply (f_equal (@length cell)) in Ec. rewrite cells_length in Ec. simpl in Ec. lia. }
    assert (T := cells_nth b4 n4 (r0 :: rs) 0 L40). rewrite Ec in T. exact T. }
  split. { rewrite N5, S5. rewrite (cells_framed low high lo (hi / (1 + bin_size_factor)) b4 b5' n4 r0 rs) by auto. cbv zeta. unfold cell_at. cbn [shares map tl]. rewrite map_map. unfold bin_size_factor. reflexivity. }
  assert (Eh : at_gamma (cell_at b4 n4 (r0 :: rs) 0) = fst bf). { simpl. rewrite nth_lbs. rewrite (nth_error_nth _ _ _ Hbf). auto. }
  assert (LL : forall A (l : list A) x dd, nth_error l (length l - 1) = Some x -> last l dd = x).
  { clear. intros A l x dd. induction l as [|a [|a' l] IH]; [discriminate| |]; intros H. { simpl in *. congruence. }
    change (last (a :: a' :: l) dd) with (last (a' :: l) dd). apply IH. rewrite <- H. simpl. rewrite Nat.sub_0_r. auto. }
  assert (El : at_gamma (last (cells b4 n4 (r0 :: rs)) (cell_at b4 n4 (r0 :: rs) 0)) = fst bl).
  { rewrite (LL _ _ (cell_at b4 n4 (r0 :: rs) (length b4 - 1))). { simpl. rewrite nth_lbs, (nth_error_nth _ _ _ Hbl). auto. } rewrite cells_length. apply cells_nth. lia. }
  rewrite Eh, El. cbn [hd]. rewrite (LL _ _ _ (0, 0) Hrl). replace (hd (0, 0) er) with rf. 2: { destruct er; [discriminate|]. simpl in Hrf. simpl. congruence. }
  cbn [fst snd] in *. split.
  - unfold low. destruct Hpre as [[-> Hx]|[-> Hx]]; split; try discriminate; auto. lra.
  - unfold high. destruct Hpost as [[-> Hx]|[-> Hx]]; split; try discriminate; auto. lra.
Qed.

Lemma update_through b n sp d : length n = length b -> update_distribution np b n = Ok d -> through np (cells b n sp) d.
Proof.
  intros L H. unfold update_distribution in H. destruct (sort_and_merge_duplicates np b n None) as [[sb sn] m] eqn:E.
  destruct (sort_ordered b n sp _ _ _ _ L E) as (Ho & _ & Lsb & Lsn). exists (cells sb sn (pick m sp)). split; auto.
  assert (Md : map density (cells sb sn (pick m sp)) = sn). { unfold cells. rewrite map_map. simpl. replace (length sb) with (length sn) by lia. apply map_nth_seq. }
  assert (Mg : map at_gamma (cells sb sn (pick m sp)) = lbs sb). { rewrite cells_eq, map_map. simpl. rewrite <- (lbs_length sb). apply map_nth_seq. }
  destruct (forallb (fun v => Reqb v 0) sn) eqn:F.
  - left. split. 
    + intros x Hx. rewrite forallb_forall in F. assert (T := F (density x)). rewrite <- Reqb_true. apply T. rewrite <- Md. apply in_map. auto.
    + assert (d = DEmpty (lbs sb) (ubs sb)) by congruence. subst d. auto.
  - right. destruct (Nat.eqb (length sb) 1); [discriminate|]. unfold interpolated in H. rewrite <- Mg, <- Md in H at 1.
    set (l := cells sb sn (pick m sp)) in *. cbv zeta in *. rewrite map_map in H. rewrite !select_map in H.
    rewrite <- Md in H. rewrite map_map in H. rewrite !select_map in H. rewrite select_filter in H.
    set (pts := filter _ l) in *. rewrite map_length in H. destruct (Nat.ltb_spec (length pts) 2); [discriminate|]. split; auto.
    destruct (strictly_increasingb _) eqn:Si; [|discriminate].
    rewrite <- Mg, !select_map, select_filter in Si, H. fold pts in Si, H. rewrite map_map in Si. split; [|congruence].
    intros i a a' (Ha & Ha'). revert Si Ha Ha'. generalize (map (fun x => lg np (at_gamma x)) pts). clear. intros l. revert i.
    induction l as [|x [|y l] IH]; intros i Hs Ha Ha'; [destruct i; discriminate|destruct i; [discriminate|destruct i; discriminate]|].
    cbn [strictly_increasingb] in Hs. apply andb_true_iff in Hs as [H1 H2]. apply Rltb_true in H1. destruct i as [|i]; [simpl in *; congruence|]. apply (IH i); auto.
Qed.
Lemma stage_rates b n s d eng r : bounds c <> None -> stage345 np c b n s d eng = Ok r -> exists rf er rest, eng = (rf :: er) :: rest.
Proof.
  intros Hb H. unfold stage345 in H. apply bind_Ok in H as ([[b3 n3] m3] & H3 & H). apply bind_Ok in H as (s3 & Hs3 & H). destruct (bounds c) as [bd|]; [|congruence].
  destruct (remove_gamma_beyond_bounds bd b3) as [b4 m4]. apply bind_Ok in H as (n4 & _ & H). apply bind_Ok in H as (s4 & _ & H). apply bind_Ok in H as (m34 & _ & H).
  destruct eng as [|er rest]; [discriminate|]. apply bind_Ok in H as ([b5 m5] & H5 & _). unfold add_boundary_bins in H5. destruct b4; [discriminate|]. destruct er as [|rf er]; [discriminate|]. eauto.
Qed.

(** the points of the next state *)
Lemma step_settled s s' b n sg d eng left0 t b' n' sg' m left' mask ra rb : all_pos (lbs b) -> length n = length b -> sg <> [] -> (forall r, In r sg -> length r = length b) ->
  stage345 np c b n sg d eng = Ok (b', n', sg', m) ->
  (if optimize c then
       exists l1, remap m (map (fun x => ext_sub x t) left0) (Some (Some 0)) = Ok l1 /\
        let l2 := map2 (fun x (bb : bin) => if Reqb (snd bb) 0 then Some 0 else x) l1 b' in
        mask = map (fun x => ext_ltb x t) l2 /\ left' = map2 (fun (m : bool) x => if m then Some 0 else x) mask l2
     else mask = map (fun _ => true) n' /\ left' = st_left s) ->
  st_bins s' = update_bin_ub b' mask -> st_dens s' = n' -> st_subs s' = sg' ->
  (forall r, In r eng -> length r = length (st_bins s)) ->
  (forall g row i x, nth_error eng g = Some row -> nth_error row i = Some x -> x = (ra g i, rb g i)) ->
  settled np c (dist_eval np d) (ra 0%nat 0%nat) (ra 0%nat (length (st_bins s) - 1)%nat) (cells b n sg) (cells (st_bins s') (st_dens s') (st_subs s')).
Proof.
  intros Pb Ln Hne Lr H345 Hmask Eb En Es Leng G.
  assert (Lm : length mask = length b').
  { assert (Lmm : length b' = length m /\ length n' = length m). { destruct (stage345_spec np Hnp c b n sg d eng b' n' sg' m) as ((_ & X2 & _) & _ & X & _); auto; try lia. }
    apply (mask_length_step c s b' n' m left0 t mask left'); tauto. }
  rewrite Eb, En, Es. rewrite (cells_lbs (update_bin_ub b' mask) b') by (apply lbs_update; auto).
  assert (T := stage_settled _ _ _ _ _ _ _ _ _ Ln Hne Lr H345).
  destruct (bounds c) as [bd|] eqn:Hb.
  - destruct (stage_rates b n sg d eng (b', n', sg', m)) as (rf & er & rest & ->); auto; [congruence|].
    cbn [hd] in T. assert (Lf : length (rf :: er) = length (st_bins s)) by (apply Leng; simpl; auto).
    assert (E1 : fst rf = ra 0%nat 0%nat) by (rewrite (G 0%nat (rf :: er) 0%nat rf); auto).
    assert (E2 : fst (last (rf :: er) (0, 0)) = ra 0%nat (length (st_bins s) - 1)%nat).
    { rewrite (G 0%nat (rf :: er) (length (st_bins s) - 1)%nat (last (rf :: er) (0, 0))); auto. rewrite <- Lf. clear. revert rf. induction er as [|x er IH]; intros rf; auto.
      change (last (rf :: x :: er) (0, 0)) with (last (x :: er) (0, 0)). rewrite <- (IH x). simpl. rewrite Nat.sub_0_r. auto. }
    rewrite E1, E2 in T. exact T.
  - destruct T as (l1 & l2 & A & B & C). exists l1, l2. rewrite Hb in *. auto.
Qed.
End Bins.
