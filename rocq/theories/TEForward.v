(** Forward computation of the model on well separated grids: stages that have
    nothing to do are the identity, and runs without acting rates exist. *)
From Verif Require Import Base TEUtils TimeEvolution ListFacts TEIndexFacts TEStageFacts TEStepFacts TELoopFacts TEInv.

(** ** sorting a sorted list *)
Lemma incr_adj l : (forall i a b, nth_error l i = Some a -> nth_error l (S i) = Some b -> (a < b)%nat) -> incr l.
Proof.
  induction l as [|a [|b l] IH]; simpl; auto. intros H. split; [apply (H 0%nat); auto|].
  apply IH. intros i x y Hx Hy. apply (H (S i)); auto.
Qed.
Lemma incr_same_elements l m : incr l -> incr m -> (forall x, In x l <-> In x m) -> l = m.
Proof.
  revert m; induction l as [|a l IH]; intros [|b m] Hl Hm H; auto.
  - exfalso. apply (H b). simpl; auto.
  - exfalso. apply (H a). simpl; auto.
  - assert (a = b).
    { destruct (proj1 (H a) (or_introl eq_refl)) as [E|E]; auto. destruct (proj2 (H b) (or_introl eq_refl)) as [E2|E2]; auto.
      pose proof (incr_lt _ _ Hl _ E2). pose proof (incr_lt _ _ Hm _ E). lia. }
    subst b. f_equal. apply IH; [eapply incr_tail; eauto|eapply incr_tail; eauto|].
    intros x. split; intros Hx.
    + destruct (proj1 (H x) (or_intror Hx)) as [E|E]; auto. pose proof (incr_lt _ _ Hl _ Hx). lia.
    + destruct (proj2 (H x) (or_intror Hx)) as [E|E]; auto. pose proof (incr_lt _ _ Hm _ Hx). lia.
Qed.
Lemma incr_seq s n : incr (seq s n).
Proof. apply incr_adj. intros i a b Ha Hb. pose proof (nth_error_lt _ _ _ Hb) as L. rewrite seq_length in L.
  rewrite nth_error_seq in Ha, Hb by lia. injection Ha as <-. injection Hb as <-. lia. Qed.

Lemma map_nth_seq {A} (l : list A) d : map (fun i => nth i l d) (seq 0 (length l)) = l.
Proof.
  apply nth_error_ext'. intros i. rewrite nth_error_map. destruct (lt_dec i (length l)) as [H|H].
  - rewrite nth_error_seq by auto. simpl. symmetry. apply nth_error_nth'. auto.
  - rewrite (proj2 (nth_error_None (seq 0 (length l)) i)) by (rewrite seq_length; lia). simpl. symmetry. apply nth_error_None. lia.
Qed.

Lemma repeat_eq {A} (l : list A) x : (forall y, In y l -> y = x) -> l = repeat x (length l).
Proof. induction l as [|a l IH]; simpl; intros H; auto. f_equal; auto. Qed.

Lemma map2_repeat {A B C} (f : A -> B -> C) x y n : map2 f (repeat x n) (repeat y n) = repeat (f x y) n.
Proof. induction n; simpl; auto. f_equal; auto. Qed.
Lemma map_repeat' {A B} (f : A -> B) x n : map f (repeat x n) = repeat (f x) n.
Proof. induction n; simpl; auto. f_equal; auto. Qed.

Section Fwd.
Variable np : numpy.
Hypothesis Hnp : numpy_ok np.

Lemma argsort_id l : adj Rlt l -> argsort np l = seq 0 (length l).
Proof.
  intros H. apply incr_same_elements.
  - apply incr_adj. intros i a b Ha Hb.
    assert (Hlt : (i < S i)%nat) by lia. pose proof (argsort_sorted _ Hnp l i (S i) a b Hlt Ha Hb) as Hs.
    assert (La : (a < length l)%nat) by (apply (argsort_lt np Hnp); eapply nth_error_In; eauto).
    assert (Lb : (b < length l)%nat) by (apply (argsort_lt np Hnp); eapply nth_error_In; eauto).
    assert (a <> b).
    { intros ->. assert (N : NoDup (argsort np l)). { eapply Permutation_NoDup; [apply Permutation_sym, (argsort_perm _ Hnp)|]. apply seq_NoDup. }
      rewrite NoDup_nth_error in N. assert (i = S i); [|lia]. apply N; [eapply nth_error_lt; eauto|congruence]. }
    destruct (lt_dec a b); auto. exfalso.
    assert (nth b l 0 < nth a l 0); [|lra].
    apply (adj_lt Rlt l) with (i := b) (j := a); auto; [intros; lra|lia|apply nth_error_nth'; auto|apply nth_error_nth'; auto].
  - apply incr_seq.
  - intros x. split; intros Hx.
    + eapply Permutation_in; [apply (argsort_perm _ Hnp)|auto].
    + eapply Permutation_in; [apply Permutation_sym, (argsort_perm _ Hnp)|auto].
Qed.

Lemma lg_incr_lt l : all_pos l -> lg_incr np l -> adj Rlt l.
Proof.
  intros P H i a b Ha Hb. destruct (Rlt_dec a b); auto. exfalso. specialize (H _ _ _ Ha Hb).
  assert (lg np b <= lg np a); [|lra]. apply (lg_mono _ Hnp); [apply P; eapply nth_error_In; eauto|lra].
Qed.

Lemma sort_id b dens d : all_pos (lbs b) -> lg_incr np (lbs b) -> length dens = length b ->
  sort_and_merge_duplicates np b dens d = (b, dens, seq 0 (length b)).
Proof.
  intros P H L. pose proof (lg_incr_lt _ P H) as Hlt.
  unfold sort_and_merge_duplicates. rewrite (argsort_id _ Hlt), lbs_length, map_nth_seq.
  assert (E : map (fun i => nth i dens 0) (seq 0 (length b)) = dens) by (rewrite <- L; apply map_nth_seq). rewrite E.
  destruct (dup_positions _ (lbs b)) as [|i0 l0] eqn:Ed; auto. exfalso.
  assert (Hi : In i0 (dup_positions (fun x y => Reqb (lg np x) (lg np y)) (lbs b))) by (rewrite Ed; simpl; auto).
  apply dup_positions_spec in Hi as (H1 & a & b0 & Ha & Hb & E0). apply Reqb_true in E0.
  replace i0 with (S (i0 - 1)) in Hb by lia. specialize (H _ _ _ Ha Hb). simpl in H. lra.
Qed.

Lemma strictly_increasingb_adj l : adj Rlt l -> strictly_increasingb l = true.
Proof.
  induction l as [|a [|b l] IH]; simpl; auto. intros H. apply andb_true_iff. split.
  - apply Rltb_true. apply (H 0%nat); auto.
  - apply IH. intros i x y Hx Hy. apply (H (S i)); auto.
Qed.
Lemma strictly_increasingb_inv l : strictly_increasingb l = true -> adj Rlt l.
Proof.
  induction l as [|a [|b l] IH]; simpl; intros H i x y Hx Hy; try (destruct i as [|[|i]]; discriminate).
  apply andb_true_iff in H as [H1 H2]. apply Rltb_true in H1. destruct i; simpl in Hx, Hy.
  - injection Hx as <-. injection Hy as <-. auto.
  - apply (IH H2 i); auto.
Qed.

(** enough particles for the interpolation: none at all, or two bins *)
Definition enough (n : list R) : Prop := (forall v, In v n -> v = 0) \/ (2 <= length (filter (fun v => negb (Reqb v 0)) n))%nat.

Lemma select_same {A B} mask (l : list A) (m : list B) : length l = length m -> length (select mask l) = length (select mask m).
Proof. revert l m; induction mask as [|[] mask IH]; intros [|a l] [|b m]; simpl; intros; try discriminate; auto. Qed.

Lemma update_ok b n : all_pos (lbs b) -> lg_incr np (lbs b) -> length n = length b -> enough n ->
  exists d, update_distribution np b n = Ok d.
Proof.
  intros P H L He. unfold update_distribution. rewrite sort_id by auto.
  destruct (forallb (fun v => Reqb v 0) n) eqn:Ef; eauto.
  destruct He as [He|He].
  { exfalso. apply not_true_iff_false in Ef. apply Ef. apply forallb_forall. intros v Hv. apply Reqb_true; auto. }
  assert (Hn : (2 <= length n)%nat). { etransitivity; [exact He|]. clear. induction n as [|a n IH]; simpl; auto. destruct (negb _); simpl; lia. }
  destruct (Nat.eqb_spec (length b) 1); [lia|].
  unfold interpolated. set (valid := map (fun v => negb (Reqb v 0)) n).
  assert (Lv : length (select valid (lbs b)) = length (filter (fun v => negb (Reqb v 0)) n)).
  { rewrite (select_same _ _ n) by (rewrite lbs_length; auto). unfold valid. rewrite select_filter. auto. }
  destruct (Nat.ltb_spec (length (select valid (lbs b))) 2); [lia|].
  rewrite strictly_increasingb_adj; eauto.
  assert (I : lg_incr np (select valid (lbs b))).
  { apply select_lg_incr; auto. unfold valid. rewrite map_length, lbs_length. auto. }
  intros i x y Hx Hy. rewrite nth_error_map in Hx, Hy.
  destruct (nth_error (select valid (lbs b)) i) eqn:E1; [|discriminate]. destruct (nth_error (select valid (lbs b)) (S i)) eqn:E2; [|discriminate].
  injection Hx as <-. injection Hy as <-. apply (I _ _ _ E1 E2).
Qed.

Section C.
Variable c : cfg.

Lemma close_id thr b n d : gaps_ok np thr (lbs b) -> (2 <= length b)%nat ->
  remove_too_close_bins np thr b n d = Ok (b, n, seq 0 (length b)).
Proof.
  intros G L. unfold remove_too_close_bins. destruct (Nat.ltb_spec (length b) 2); [lia|].
  destruct (too_close np thr b) as [|i0 l0] eqn:E; auto. exfalso.
  assert (Hi : In i0 (too_close np thr b)) by (rewrite E; simpl; auto).
  apply too_close_spec in Hi as (H1 & H2 & w & z & Hw & Hz & Hlt).
  replace i0 with (S (i0 - 1)) in Hz by lia.
  assert (thr <= lg np z - lg np w); [|lra].
  apply (G (i0 - 1)%nat); auto; [lia|]. rewrite lbs_length. lia.
Qed.

Lemma take_arange {A} (l : list A) : take_idx l (arange (length l)) = Ok l.
Proof. apply mapM_Forall2. apply Forall2_from_nth; [apply arange_length|]. intros i a b Ha Hb.
  assert (Hi := nth_error_lt _ _ _ Hb). rewrite nth_error_arange in Ha by auto. injection Ha as <-. rewrite py_get_nat, Hb. auto. Qed.
Lemma arange_no_new n : existsb (fun i => Z.eqb i (-1)) (arange n) = false.
Proof. apply nat_mapping_nonneg. Qed.
Lemma remap_arange {A} (l : list A) d : remap (arange (length l)) l d = Ok l.
Proof. unfold remap. rewrite take_arange. simpl. rewrite arange_no_new. auto. Qed.
Lemma remap_row_arange nv l : remap_row (arange (length l)) nv l = Ok l.
Proof. apply remap_row_of_remap. apply remap_arange. Qed.
Lemma remap_subgroups_arange n rows : rows <> [] -> (forall r, In r rows -> length r = n) ->
  remap_subgroups_density (arange n) rows = Ok rows.
Proof.
  intros Hne H. destruct rows as [|r0 rs]; [congruence|]. simpl.
  assert (E0 : length r0 = n) by (apply H; simpl; auto). rewrite <- E0, remap_row_arange, E0. simpl.
  assert (E : mapM (remap_row (arange n) 0) rs = Ok rs).
  { apply mapM_Forall2. apply Forall2_from_nth; auto. intros i a b Ha Hb. assert (a = b) by congruence. subst b.
    rewrite <- (H a) by (right; eapply nth_error_In; eauto). apply remap_row_arange. }
  rewrite E. auto.
Qed.
Lemma combine_arange n : combine_mapping (arange n) (arange n) = Ok (arange n).
Proof.
  unfold combine_mapping. assert (E : take_idx (arange n) (arange n) = Ok (arange n)).
  { rewrite <- (arange_length n) at 2. apply take_arange. }
  rewrite E. simpl. f_equal. apply nth_error_ext'. intros i. rewrite nth_error_map2.
  destruct (nth_error (arange n) i) as [z|] eqn:Ez; auto. destruct (Z.eqb_spec z (-1)); subst; auto.
Qed.

(** the conditions under which stages 3-5 have nothing to do *)
Definition in_place (b : list bin) (eng : list (list bin)) : Prop :=
  all_pos (lbs b) /\ lg_incr np (lbs b) /\
  (forall thr, merge_thr c = Some thr -> gaps_ok np thr (lbs b) /\ (2 <= length b)%nat) /\
  (forall bd, bounds c = Some bd -> within bd (lbs b) /\
     exists bf rf er rest, nth_error b 0 = Some bf /\ eng = (rf :: er) :: rest /\ fst rf <= 0 /\ 0 <= fst (last (rf :: er) rf)).

Lemma stage345_id b n s d eng : in_place b eng -> length n = length b -> s <> [] -> (forall r, In r s -> length r = length b) ->
  stage345 np c b n s d eng = Ok (b, n, s, arange (length b)).
Proof.
  intros (P & H & G & W) L Hne Hr. unfold stage345.
  assert (E3 : sort_and_merge_bins np c b n d = Ok (b, n, arange (length b))).
  { unfold sort_and_merge_bins. rewrite sort_id by auto. destruct (merge_thr c) as [thr|]; auto.
    destruct (G thr eq_refl) as [G1 G2]. rewrite close_id by auto. simpl.
    change (map Z.of_nat (seq 0 (length b))) with (arange (length b)). rewrite combine_arange. auto. }
  rewrite E3. simpl. rewrite remap_subgroups_arange by auto. simpl.
  destruct (bounds c) as [bd|]; auto. destruct (W bd eq_refl) as (W1 & bf & rf & er & rest & Hbf & -> & Hrf & Hrl).
  assert (Em : map (in_bounds bd) b = map (fun _ => true) b).
  { apply map_ext_in. intros x Hx. apply in_bounds_spec. apply W1. apply in_map; auto. }
  rewrite Em, select_all by auto.
  assert (Emm : mask_to_mapping (map (fun _ => true) b) = arange (length b)).
  { unfold mask_to_mapping. rewrite map_length. apply select_all. rewrite arange_length. auto. }
  rewrite Emm. rewrite <- L at 1. rewrite remap_arange. simpl. rewrite remap_subgroups_arange by auto. simpl.
  rewrite combine_arange. simpl.
  assert (Ea : add_boundary_bins np c bd b (rf :: er) = Ok (b, arange (length b))).
  { unfold add_boundary_bins. destruct b as [|b0 b]; [discriminate|].
    set (rl := last (rf :: er) rf) in *.
    rewrite (proj2 (Rltb_false 0 (fst rf))) by auto. rewrite (proj2 (Rltb_false (fst rl) 0)) by auto. rewrite !andb_false_r. auto. }
  rewrite Ea. simpl. rewrite <- L at 1. rewrite remap_arange. simpl. rewrite remap_subgroups_arange by auto. simpl.
  rewrite combine_arange. auto.
Qed.
End C.
End Fwd.
