(** Proofs of C14, C15, C25. *)
From Verif Require Import Base TEUtils TimeEvolution ListFacts TEIndexFacts TEStageFacts TEStepFacts TELoopFacts TEInv TEForward TEZero TEZeroRun NumpyInst Spec_TE TEThm1.

Lemma interlace_flat l : interlace l = flat_map (fun b : bin => [fst b; snd b]) l.
Proof. reflexivity. Qed.

Lemma pairs_inv : forall l v, pairs l = Some v -> length l = (2 * length v)%nat /\ forall i, nth_error l (2 * i) = option_map fst (nth_error v i).
Proof.
  assert (G : forall n l v, (length l <= n)%nat -> pairs l = Some v -> length l = (2 * length v)%nat /\ forall i, nth_error l (2 * i) = option_map fst (nth_error v i)).
  { induction n as [|n IH]; intros l v Hl H.
    - destruct l; [|simpl in Hl; lia]. simpl in H. injection H as <-. split; auto. intros [|i]; reflexivity.
    - destruct l as [|a [|b l]]; simpl in H; try discriminate.
      + injection H as <-. split; auto. intros [|i]; reflexivity.
      + destruct (pairs l) as [w|] eqn:E; [|discriminate]. injection H as <-. simpl in Hl. destruct (IH l w) as [L N]; [lia|auto|].
        split; [simpl; lia|]. intros [|i]; [reflexivity|]. replace (2 * S i)%nat with (S (S (2 * i))) by lia. simpl nth_error. simpl in N. rewrite <- N. f_equal. }
  intros l v. apply (G (length l)); auto.
Qed.

Section T2.
Variable np : numpy.
Hypothesis Hnp : numpy_ok np.
Variable c : cfg.
Hypothesis Hv : valid c.

Lemma fresh_en_report ne s : (forall b, In b (st_bins s) -> fresh_bin b) ->
  fresh_rates shape2 (en_fns c) ne (st_bins s) (st_dens s) (st_subs s) (st_en s) -> rates_now_en c ne (final_report s).
Proof.
  intros Hb H. unfold rates_now_en. simpl.
  assert (Ef : flat_map (fun g => [g; g * (1 + 1 / 10000)]) (lbs (st_bins s)) = interlace (st_bins s)).
  { rewrite interlace_flat. unfold lbs. rewrite flat_map_concat_map, map_map, flat_map_concat_map. f_equal. apply map_ext_in.
    intros b Hin. specialize (Hb b Hin). unfold fresh_bin, bin_size_factor in Hb. rewrite <- Hb. auto. }
  rewrite Ef. unfold energy_changes_lb. apply Forall2_from_nth.
  { rewrite map_length. eapply Forall2_length; eauto. }
  intros i kf kv Hf Hk. rewrite nth_error_map in Hk. destruct (nth_error (st_en s) i) as [kv0|] eqn:E0; [|discriminate]. injection Hk as <-. simpl.
  destruct (Forall2_nth_error_r _ _ _ H _ _ E0) as (kf' & Hf' & E1 & vals & E2 & out & Ho & Hu & L). assert (kf' = kf). { pose proof (eq_trans (eq_sym Hf') Hf) as E. injection E as ->. auto. } subst kf'.
  split; auto. simpl in Hu, Ho. destruct (pairs_inv _ _ Hu) as [Lo Nth]. exists out. split; auto.
  rewrite lbs_length, map_length, E2, map_length. split; [lia|]. split; auto.
  intros j Hj. rewrite map_map, nth_error_map. specialize (Nth j). simpl in Nth. rewrite Nth. destruct (nth_error vals j); auto.
Qed.

Lemma fresh_report fns ne s (r : rates R) : fresh_rates shape1 fns ne (lbs (st_bins s)) (st_dens s) (st_subs s) r ->
  rates_now fns ne (final_report s) r.
Proof.
  intros H. unfold rates_now. simpl. eapply Forall2_impl; [|exact H]. intros kf kv (E & vals & E2 & out & Ho & Hu & L).
  split; auto. simpl in Hu. injection Hu as ->. exists vals. auto.
Qed.

Lemma thm_fresh fuel ne ne' recs r : optimize c = false -> evaluate np c fuel ne = (ne', recs, Ok r) -> recs <> [] ->
  rates_now_en c ne' r /\ rates_now (rel_fns c) ne' r (r_rel r) /\ rates_now (abs_fns c) ne' r (r_abs r).
Proof.
  intros Eo H Hne.
  destruct (evaluate_steps np c (fun _ s => aligned c s)
    (fun d s => (forall b, In b (st_bins s) -> fresh_bin b) /\
      fresh_rates shape2 (en_fns c) d (st_bins s) (st_dens s) (st_subs s) (st_en s) /\
      fresh_rates shape1 (rel_fns c) d (lbs (st_bins s)) (st_dens s) (st_subs s) (st_rel s) /\
      fresh_rates shape1 (abs_fns c) d (lbs (st_bins s)) (st_dens s) (st_subs s) (st_abs s)) fuel ne ne' recs (Ok r)) as [_ Hb]; auto.
  - intros s0 Hi. apply (initial_aligned np c ne s0 (valid_split c Hv) Hi).
  - intros s d d' s' Ha _ Hst. split; [apply (step_spec np Hnp c (v_mec _ Hv) s d d' s' Ha Hst)|].
    apply (step_fresh np Hnp c (v_mec _ Hv) s d d' s' Ha Eo Hst).
  - destruct (Hb r eq_refl) as (s & -> & Ha & _ & [(E & _)|((F1 & F2 & F3 & F4) & _)]); [congruence|].
    split; [apply fresh_en_report; auto|]. split; apply fresh_report; auto.
Qed.

(** ** C15 *)
Lemma finite_lb (r : rates bin) : no_nan r -> finite_rates (energy_changes_lb r).
Proof.
  intros H k v x Hin Hx. unfold energy_changes_lb in Hin. apply in_map_iff in Hin as (kv & E & Hkv). injection E as <- <-.
  apply in_map_iff in Hx as (y & <- & Hy). specialize (H kv y Hkv Hy). destruct y; [discriminate|congruence].
Qed.
Lemma finite_no_nan {A} (r : rates A) : no_nan r -> finite_rates r.
Proof. intros H k v x Hin Hx. apply (H (k, v) x Hin Hx). Qed.

Lemma reach_no_nan : (optimize c = true -> positive_grid c /\ positive_steps c) ->
  forall s d d' s', (aligned c s /\ (optimize c = true -> steady c s) /\ no_nan (st_en s) /\ no_nan (st_rel s) /\ no_nan (st_abs s)) ->
   st_elapsed s < total c -> step np c s d = (d', Ok s') ->
   (aligned c s' /\ (optimize c = true -> steady c s') /\ no_nan (st_en s') /\ no_nan (st_rel s') /\ no_nan (st_abs s')).
Proof.
  intros Hp s d d' s' (Ha & Hs & N1 & N2 & N3) Hlt Hst.
  assert (Ha' : aligned c s') by apply (step_spec np Hnp c (v_mec _ Hv) s d d' s' Ha Hst). split; auto.
  destruct (optimize c) eqn:Eo.
  - destruct (Hp eq_refl) as [Hg Hps]. destruct (live_step np Hnp c Hv s d d' s' Hg Hps) as [(_ & ? & ? & ? & ?) _]; auto.
    split; auto.
  - split; [discriminate|]. destruct (step_fresh np Hnp c (v_mec _ Hv) s d d' s' Ha Eo Hst) as (_ & F1 & F2 & F3).
    split; [|split]; eapply fresh_rates_ok; eauto.
Qed.

Lemma thm_no_nan fuel ne ne' recs out : (optimize c = true -> positive_grid c /\ positive_steps c) ->
  evaluate np c fuel ne = (ne', recs, out) -> forall x, reported recs out x -> finite_report x.
Proof.
  intros Hp H.
  destruct (reports_inv np c (fun _ s => aligned c s /\ (optimize c = true -> steady c s) /\ no_nan (st_en s) /\ no_nan (st_rel s) /\ no_nan (st_abs s))
     finite_report finite_report fuel ne ne' recs out) as [H1 H2]; auto.
  - intros s0 Hi. pose proof (initial_aligned np c ne s0 (valid_split c Hv) Hi) as (Ha & _ & _ & ? & ? & ?). split; [auto|]. split; [|auto].
    intros Eo. apply (initial_steady np c (valid_split c Hv) ne s0); auto. destruct (Hp Eo) as [[? _] _]; auto.
  - intros s d d' s' HI Hlt Hst. eapply reach_no_nan; eauto.
  - intros d s (_ & _ & N1 & N2 & N3). repeat split; simpl; auto using finite_lb, finite_no_nan.
  - intros d s (_ & _ & N1 & N2 & N3). repeat split; simpl; auto using finite_lb, finite_no_nan.
  - intros x [Hx|E]; auto.
Qed.
End T2.
