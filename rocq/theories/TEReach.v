(** Facts about the states reached by a run. *)
From Verif Require Import Base TEUtils TimeEvolution ListFacts TEIndexFacts TEStageFacts TEStepFacts TELoopFacts TEInv TEForward Spec_TE TEThm1 TEThm2 TEThm5.

Section Reach.
Variable np : numpy.
Hypothesis Hnp : numpy_ok np.
Variable c : cfg.
Hypothesis Hv : valid c.

Lemma reached_inv ne (I : dist -> tstate -> Prop) :
  (forall s, initial_values np c ne = Ok s -> I ne s) ->
  (forall d s d' s', reached np c ne d s -> I d s -> st_elapsed s < total c -> step np c s d = (d', Ok s') -> I d' s') ->
  forall d s, reached np c ne d s -> I d s.
Proof. intros H0 H1 d s H. induction H; eauto. Qed.

Lemma reached_aligned ne d s : reached np c ne d s -> aligned c s.
Proof.
  apply (reached_inv ne (fun _ s => aligned c s)).
  - intros s0 Hi. apply (initial_aligned np c ne s0 (valid_split c Hv) Hi).
  - intros d0 s0 d' s' _ Ha _ Hst. apply (step_spec np Hnp c (v_mec _ Hv) s0 d0 d' s' Ha Hst).
Qed.

Lemma reached_nan ne d s : (optimize c = true -> positive_grid c /\ positive_steps c) -> reached np c ne d s ->
  aligned c s /\ (optimize c = true -> steady c s) /\ no_nan (st_en s) /\ no_nan (st_rel s) /\ no_nan (st_abs s).
Proof.
  intros Hp. apply (reached_inv ne (fun _ s => aligned c s /\ (optimize c = true -> steady c s) /\ no_nan (st_en s) /\ no_nan (st_rel s) /\ no_nan (st_abs s))).
  - intros s0 Hi. pose proof (initial_aligned np c ne s0 (valid_split c Hv) Hi) as (Ha & _ & _ & ? & ? & ?). split; [auto|]. split; [|auto].
    intros Eo. apply (initial_steady np c (valid_split c Hv) ne s0); auto. destruct (Hp Eo) as [[? _] _]; auto.
  - intros d0 s0 d' s' _ HI Hlt Hst. eapply (reach_no_nan np Hnp c Hv Hp); eauto.
Qed.

Lemma reached_ones ne d s : subgroups c = None -> reached np c ne d s -> exists row, st_subs s = [row] /\ (forall f, In f row -> f = 1).
Proof.
  intros Hg H.
  assert (G : aligned c s /\ split_fine 0 (length (st_bins s)) (st_subs s) /\ length (st_subs s) = 1%nat).
  { revert H. apply (reached_inv ne (fun _ s => aligned c s /\ split_fine 0 (length (st_bins s)) (st_subs s) /\ length (st_subs s) = 1%nat)).
    - intros s0 Hi. split; [apply (initial_aligned np c ne s0 (valid_split c Hv) Hi)|].
      apply initial_Ok in Hi as (sg & E & Hi). unfold initial_subs in E. rewrite Hg in E. injection E as <-. destruct (dist_call np ne (g0 c)) as [lb dens].
      destruct Hi as (-> & _ & -> & _). rewrite initial_bins_length. split; auto. intros j Hj. unfold column. simpl.
      rewrite (nth_error_nth _ _ 0 (nth_error_repeat 1 Hj)). split; [intros v [<-|[]]; lra|]. simpl. replace (1 + 0 - 1) with 0 by lra. rewrite Rabs_R0. lra.
    - intros d0 s0 d' s' _ (Ha & Hf & Hl) _ Hst. destruct (step_spec np Hnp c (v_mec _ Hv) s0 d0 d' s' Ha Hst) as (Ha' & Hl' & _). split; auto.
      split; [|lia]. apply (step_split np Hnp c (v_mec _ Hv) 0 s0 d0 d' s'); auto. lra. }
  destruct G as (Ha & Hf & Hl). destruct (st_subs s) as [|row [|]] eqn:Es; try discriminate. exists row. split; auto.
  intros f Hin. apply In_nth_error in Hin as [j Hj]. assert (Lr : length row = length (st_bins s)) by (apply (al_subs _ _ Ha); rewrite Es; simpl; auto).
  destruct (Hf j) as [_ Hs]. { rewrite <- Lr. eapply nth_error_lt; eauto. } unfold column in Hs. simpl in Hs. rewrite (nth_error_nth _ _ _ Hj) in Hs.
  assert (Z : Rabs (f + 0 - 1) = 0) by (pose proof (Rabs_pos (f + 0 - 1)); lra).
  destruct (Req_dec (f + 0 - 1) 0) as [|N]; [lra|]. apply Rabs_no_R0 in N. lra.
Qed.

Lemma reached_conserve ne d s d' s' : subgroups c = None -> method c = Euler -> reached np c ne d s -> step np c s d = (d', Ok s') ->
  exists b n, update_distribution np b n = Ok d' /\ length b = length (st_bins s) /\ length n = length (st_bins s) /\
    (forall i l u v, nth_error (st_bins s) i = Some (l, u) -> nth_error (st_dens s) i = Some v ->
       let dt := st_elapsed s' - st_elapsed s in
       let l' := l + total_edge_rate fst (st_en s) i * dt / mec2 c in
       let u' := u + total_edge_rate snd (st_en s) i * dt / mec2 c in
       exists v', nth_error b i = Some (l', u') /\ nth_error n i = Some v' /\ 0 < l' < u' /\
         v' * (u' - l') = v * (u - l) + (v * total_rate (st_rel s) i + total_rate (st_abs s) i) * dt * (u' - l')) /\
    (bounds c = None -> merge_thr c = None -> increasing (map (lg np) (lbs b)) -> lbs (st_bins s') = lbs b /\ st_dens s' = n).
Proof.
  intros Hg Hm Hr Hst. destruct (reached_ones _ _ _ Hg Hr) as (row & Es & Hone).
  eapply thm_conserve; eauto. { apply Hv. } eapply reached_aligned; eauto.
Qed.

Lemma reached_loop ne fuel : forall s d d' tr r, reached np c ne d s -> loop np c fuel s d = (d', tr, r) ->
  (forall x, In x tr -> exists dx, reached np c ne dx x) /\ (forall sf, r = Ok sf -> reached np c ne d' sf /\ total c <= st_elapsed sf).
Proof.
  induction fuel as [|f IH]; intros s d d' tr r Hr Hl; simpl in Hl; destruct (Rltb_spec (st_elapsed s) (total c)).
  - injection Hl as <- <- <-. split; [intros x []|discriminate].
  - injection Hl as <- <- <-. split; [intros x []|]. intros sf E; injection E as <-. split; auto; lra.
  - destruct (step np c s d) as [d1 [s1|e]] eqn:Es.
    + destruct (loop np c f s1 d1) as [[d2 tr2] r2] eqn:El. injection Hl as <- <- <-. assert (Hr1 : reached np c ne d1 s1) by (eapply after_pass; eauto).
      destruct (IH _ _ _ _ _ Hr1 El) as [A B]. split; auto. intros x [<-|Hx]; eauto.
    + injection Hl as <- <- <-. split; [intros x []|discriminate].
  - injection Hl as <- <- <-. split; [intros x []|]. intros sf E; injection E as <-. split; auto; lra.
Qed.

(** every report is made from a reached state *)
Lemma reached_reported fuel ne ne' recs out : evaluate np c fuel ne = (ne', recs, out) ->
  (forall x, In x recs -> exists d s, reached np c ne d s /\ x = callback_report s) /\
  (forall r, out = Ok r -> exists s, reached np c ne ne' s /\ r = final_report s).
Proof.
  intros H. unfold evaluate in H. destruct (initial_values np c ne) as [s0|e] eqn:E0.
  - destruct (loop np c fuel s0 ne) as [[d1 tr] r1] eqn:El. injection H as <- <- <-.
    destruct (reached_loop ne fuel s0 ne d1 tr r1 (at_start _ _ _ _ E0) El) as [A B]. split.
    + intros x Hx. apply in_map_iff in Hx as (s & <- & Hin). destruct (A _ Hin) as [dx Hx]. eauto.
    + intros r Hr. destruct r1 as [sf|]; [|discriminate]. injection Hr as <-. exists sf. split; auto. apply B; auto.
  - injection H as <- <- <-. split; [intros x []|discriminate].
Qed.
End Reach.
