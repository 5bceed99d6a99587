(** Proofs of C01-C08, C14, C15, C25, C27. *)
From Verif Require Import Base TEUtils TimeEvolution ListFacts TEIndexFacts TEStageFacts TEStepFacts TELoopFacts TEInv TEForward TEZero TEZeroRun NumpyInst Spec_TE.

Section T.
Variable np : numpy.
Hypothesis Hnp : numpy_ok np.
Variable c : cfg.
Hypothesis Hv : valid c.

Lemma valid_split : split_ok c.
Proof. destruct Hv; auto. Qed.

Lemma evaluate_inv fuel ne ne' recs out : evaluate np c fuel ne = (ne', recs, out) ->
  (exists e, initial_values np c ne = Err e /\ ne' = ne /\ recs = [] /\ out = Err e) \/
  (exists s tr r, initial_values np c ne = Ok s /\ loop np c fuel s ne = (ne', tr, r) /\ recs = map callback_report tr /\ out = rmap final_report r).
Proof.
  unfold evaluate. destruct (initial_values np c ne) as [s|e].
  - destruct (loop np c fuel s ne) as [[ne2 tr] r] eqn:E. intros H; injection H as <- <- <-. right. exists s, tr, r. auto.
  - intros H; injection H as <- <- <-. left. eauto.
Qed.

(** ** C01 *)
Lemma loop_times fuel : forall s ne ne' tr r, st_elapsed s <= total c -> loop np c fuel s ne = (ne', tr, r) ->
  (forall x, In x tr -> st_elapsed x <= total c) /\
  (forall sf, r = Ok sf -> st_elapsed sf = total c /\ (tr = [] /\ sf = s \/ exists tr', tr = tr' ++ [sf])).
Proof.
  induction fuel as [|fuel IH]; intros s ne ne' tr r Hle H; simpl in H; destruct (Rltb_spec (st_elapsed s) (total c)) as [Hlt|Hge].
  - injection H as <- <- <-. split; [intros x []|discriminate].
  - injection H as <- <- <-. split; [intros x []|]. intros sf E; injection E as <-. split; [lra|auto].
  - destruct (step np c s ne) as [ne1 [s1|e]] eqn:Hs.
    + destruct (loop np c fuel s1 ne1) as [[ne2 tr2] r2] eqn:Hl. injection H as <- <- <-.
      destruct (step_time np c _ _ _ _ Hs) as (eng0 & inj0 & l0 & t & _ & Et & Ht). assert (H1 : st_elapsed s1 <= total c) by lra.
      destruct (IH _ _ _ _ _ H1 Hl) as [Ha Hb]. split; [intros x [<-|Hx]; auto|].
      intros sf E. destruct (Hb sf E) as [E1 [[-> ->]|[tr' ->]]]; split; auto; right; [exists []; auto|exists (s1 :: tr'); auto].
    + injection H as <- <- <-. split; [intros x []|discriminate].
  - injection H as <- <- <-. split; [intros x []|]. intros sf E; injection E as <-. split; [lra|auto].
Qed.

Lemma thm_total_time fuel ne ne' recs r : evaluate np c fuel ne = (ne', recs, Ok r) ->
  (0 < total c -> r_time r = total c /\ exists pre x, recs = pre ++ [x] /\ r_time x = total c) /\
  (total c <= 0 -> r_time r = 0 /\ recs = []).
Proof.
  intros H. apply evaluate_inv in H as [(e & _ & _ & _ & H)|(s & tr & r0 & Hi & Hl & -> & E)]; [discriminate|].
  destruct r0 as [sf|]; [|discriminate]. injection E as ->. simpl.
  pose proof (initial_aligned np c ne s valid_split Hi) as (_ & E0 & _).
  split.
  - intros Hp. assert (H0 : st_elapsed s <= total c) by lra. destruct (loop_times _ _ _ _ _ _ H0 Hl) as [_ Hb].
    destruct (Hb sf eq_refl) as [E1 [[-> ->]|[tr' ->]]]; [lra|]. split; auto. exists (map callback_report tr'), (callback_report sf). rewrite map_app. auto.
  - intros Hp. destruct fuel; simpl in Hl; rewrite (proj2 (Rltb_false (st_elapsed s) (total c))) in Hl by lra; injection Hl as <- <- <-; auto.
Qed.

Lemma thm_time_le fuel ne ne' recs out x : 0 <= total c -> evaluate np c fuel ne = (ne', recs, out) -> In x recs -> r_time x <= total c.
Proof.
  intros Hp H Hx. apply evaluate_inv in H as [(e & _ & _ & -> & _)|(s & tr & r0 & Hi & Hl & -> & _)]; [destruct Hx|].
  pose proof (initial_aligned np c ne s valid_split Hi) as (_ & E0 & _). rewrite <- E0 in Hp. apply in_map_iff in Hx as (y & <- & Hy).
  apply (proj1 (loop_times _ _ _ _ _ _ Hp Hl)); auto.
Qed.

Definition live (s : tstate) : Prop := aligned c s /\ steady c s /\ no_nan (st_en s) /\ no_nan (st_rel s) /\ no_nan (st_abs s).

Lemma live_step s ne ne' s' : positive_grid c -> positive_steps c -> live s -> st_elapsed s < total c -> step np c s ne = (ne', Ok s') ->
  live s' /\ st_elapsed s < st_elapsed s' <= total c.
Proof.
  intros [_ Hlo] Hp (Ha & Hs & N1 & N2 & N3) Hlt H.
  destruct (step_steady np Hnp c (v_mec _ Hv) s ne ne' s' Ha Hs Hp) as (Hs' & Ht & Hn); auto.
  { intros [lo hi] E. eapply Hlo; eauto. } { apply (v_auto _ Hv). }
  destruct (step_spec np Hnp c (v_mec _ Hv) s ne ne' s' Ha H) as (Ha' & _). destruct (Hn N1 N2 N3) as (? & ? & ?). split; auto. repeat (split; auto).
Qed.
Lemma live_initial ne s : positive_grid c -> initial_values np c ne = Ok s -> live s /\ st_elapsed s = 0.
Proof.
  intros [Hg _] H. pose proof (initial_aligned np c ne s valid_split H) as (Ha & E0 & _ & N1 & N2 & N3).
  split; auto. split; auto. split; auto. eapply initial_steady; eauto using valid_split.
Qed.

Lemma loop_increasing fuel : positive_grid c -> positive_steps c -> forall s ne ne' tr r, live s -> loop np c fuel s ne = (ne', tr, r) ->
  increasing (st_elapsed s :: map st_elapsed tr) /\ (forall x, In x tr -> live x).
Proof.
  intros Hg Hp. induction fuel as [|fuel IH]; intros s ne ne' tr r Hl H; simpl in H; destruct (Rltb_spec (st_elapsed s) (total c)) as [Hlt|Hge].
  1,2,4: injection H as <- <- <-; split; [intros [|[|i]] a b [E1 E2]; simpl in *; discriminate|intros x []].
  destruct (step np c s ne) as [ne1 [s1|e]] eqn:Hs.
  - destruct (loop np c fuel s1 ne1) as [[ne2 tr2] r2] eqn:Hlo. injection H as <- <- <-.
    destruct (live_step _ _ _ _ Hg Hp Hl Hlt Hs) as [Hl1 Ht]. destruct (IH _ _ _ _ _ Hl1 Hlo) as [Ha Hb].
    split; [|intros x [<-|Hx]; auto]. intros [|i] a b [E1 E2]; simpl in E1, E2.
    + injection E1 as <-. injection E2 as <-. lra.
    + apply (Ha i). split; auto.
  - injection H as <- <- <-. split; [intros [|[|i]] a b [E1 E2]; simpl in *; discriminate|intros x []].
Qed.

Lemma thm_time_increasing fuel ne ne' recs out : positive_grid c -> positive_steps c -> evaluate np c fuel ne = (ne', recs, out) ->
  increasing (0 :: map r_time recs).
Proof.
  intros Hg Hp H. apply evaluate_inv in H as [(e & _ & _ & -> & _)|(s & tr & r0 & Hi & Hl & -> & _)].
  { intros [|[|i]] a b [E1 E2]; simpl in *; discriminate. }
  destruct (live_initial ne s Hg Hi) as [Hlive E0]. destruct (loop_increasing fuel Hg Hp _ _ _ _ _ Hlive Hl) as [Ha _].
  rewrite E0 in Ha. rewrite map_map. exact Ha.
Qed.

(** a run that returned with a fixed step had a positive one *)
Lemma loop_fixed_nonpos st fuel : stepd c = Fixed st -> st <= 0 -> forall s ne ne' tr r, st_elapsed s < total c -> loop np c fuel s ne = (ne', tr, r) ->
  (forall sf, r <> Ok sf).
Proof.
  intros Es Hs. induction fuel as [|fuel IH]; intros s ne ne' tr r Hlt H sf; simpl in H; rewrite (proj2 (Rltb_true (st_elapsed s) (total c))) in H by auto.
  - injection H as <- <- <-. discriminate.
  - destruct (step np c s ne) as [ne1 [s1|e]] eqn:Hst.
    + destruct (loop np c fuel s1 ne1) as [[ne2 tr2] r2] eqn:Hl. injection H as <- <- <-.
      destruct (step_time np c _ _ _ _ Hst) as (eng & inj & left0 & t & Hc & Et & Ht). eapply IH; [|exact Hl].
      apply choose_step_Ok in Hc as (q1 & q2 & q3 & q4 & step0 & _ & _ & _ & _ & _ & _ & H6 & H7). rewrite Es in H6. destruct H6 as [_ ->].
      rewrite H7 in Et. destruct (Rltb_spec (total c - st_elapsed s) st); lra.
    + injection H as <- <- <-. discriminate.
Qed.

(** ** C02 *)
Lemma step_fixed st s ne ne' s' : stepd c = Fixed st -> step np c s ne = (ne', Ok s') ->
  st_elapsed s' = Rmin (st_elapsed s + st) (total c).
Proof.
  intros Es H. destruct (step_time np c _ _ _ _ H) as (eng & inj & left0 & t & Hc & Et & _).
  apply choose_step_Ok in Hc as (q1 & q2 & q3 & q4 & step0 & _ & _ & _ & _ & _ & _ & H6 & H7). rewrite Es in H6. destruct H6 as [_ ->].
  rewrite Et, H7. unfold Rmin. destruct (Rltb_spec (total c - st_elapsed s) st), (Rle_dec (st_elapsed s + st) (total c)); lra.
Qed.

Lemma loop_fixed st fuel : stepd c = Fixed st -> 0 < st -> forall s ne ne' tr r k, st_elapsed s = Rmin (INR k * st) (total c) -> loop np c fuel s ne = (ne', tr, r) ->
  (forall i x, nth_error tr i = Some x -> INR (k + i) * st < total c /\ st_elapsed x = Rmin (INR (k + S i) * st) (total c)) /\
  (forall sf, r = Ok sf -> total c <= INR (k + length tr) * st).
Proof.
  intros Es Hs. induction fuel as [|fuel IH]; intros s ne ne' tr r k Hk H; simpl in H; destruct (Rltb_spec (st_elapsed s) (total c)) as [Hlt|Hge].
  1,2,4: injection H as <- <- <-; split; [intros [|i] x E; discriminate|].
  1: discriminate.
  1,2: intros sf _; simpl; rewrite Nat.add_0_r, Hk in *; unfold Rmin in Hge; destruct (Rle_dec (INR k * st) (total c)); lra.
  destruct (step np c s ne) as [ne1 [s1|e]] eqn:Hst.
  - destruct (loop np c fuel s1 ne1) as [[ne2 tr2] r2] eqn:Hl. injection H as <- <- <-.
    pose proof (step_fixed st _ _ _ _ Es Hst) as E1.
    assert (Hk0 : INR k * st < total c). { rewrite Hk in Hlt. unfold Rmin in Hlt. destruct (Rle_dec (INR k * st) (total c)); lra. }
    assert (Hk1 : st_elapsed s1 = Rmin (INR (S k) * st) (total c)).
    { rewrite E1, Hk, S_INR. f_equal. unfold Rmin. destruct (Rle_dec (INR k * st) (total c)); lra. }
    destruct (IH _ _ _ _ _ (S k) Hk1 Hl) as [Ha Hb]. split.
    + intros [|i] x E; simpl in E.
      * injection E as <-. rewrite Nat.add_0_r. split; auto. rewrite Hk1. do 3 f_equal. lia.
      * destruct (Ha i x E) as [H1 H2]. replace (k + S i)%nat with (S k + i)%nat by lia. split; auto. rewrite H2. do 3 f_equal. lia.
    + intros sf E. specialize (Hb sf E). simpl length. replace (k + S (length tr2))%nat with (S k + length tr2)%nat by lia. auto.
  - injection H as <- <- <-. split; [intros [|i] x E; discriminate|discriminate].
Qed.

Lemma thm_fixed_times st fuel ne ne' recs out : stepd c = Fixed st -> 0 < st -> 0 <= total c -> evaluate np c fuel ne = (ne', recs, out) ->
  (forall i x, nth_error recs i = Some x -> INR i * st < total c /\ r_time x = Rmin (INR (S i) * st) (total c)) /\
  (forall r, out = Ok r -> total c <= INR (length recs) * st).
Proof.
  intros Es Hs Hp H. apply evaluate_inv in H as [(e & _ & _ & -> & ->)|(s & tr & r0 & Hi & Hl & -> & ->)].
  { split; [intros [|i] x E; discriminate|discriminate]. }
  pose proof (initial_aligned np c ne s valid_split Hi) as (_ & E0 & _).
  assert (Hk : st_elapsed s = Rmin (INR 0 * st) (total c)). { simpl. rewrite Rmult_0_l, Rmin_left; auto. }
  destruct (loop_fixed st fuel Es Hs _ _ _ _ _ 0%nat Hk Hl) as [Ha Hb]. split.
  - intros i x E. rewrite nth_error_map in E. destruct (nth_error tr i) as [y|] eqn:Ey; [|discriminate]. injection E as <-. apply (Ha i y Ey).
  - intros r E. rewrite map_length. destruct r0 as [sf|]; [|discriminate]. apply (Hb sf eq_refl).
Qed.

Lemma loop_fuel st : stepd c = Fixed st -> 0 < st -> forall n m s ne k, st_elapsed s = Rmin (INR k * st) (total c) -> total c <= INR (k + n) * st ->
  loop np c (n + m) s ne = loop np c n s ne.
Proof.
  intros Es Hs. induction n as [|n IH]; intros m s ne k Hk Hn.
  - rewrite Nat.add_0_r in Hn. assert (total c <= st_elapsed s). { rewrite Hk. unfold Rmin. destruct (Rle_dec (INR k * st) (total c)); lra. }
    destruct m; simpl; rewrite (proj2 (Rltb_false (st_elapsed s) (total c))) by auto; auto.
  - simpl. destruct (Rltb_spec (st_elapsed s) (total c)) as [Hlt|]; auto. destruct (step np c s ne) as [ne1 [s1|e]] eqn:Hst; auto.
    rewrite (IH m s1 ne1 (S k)); auto.
    + rewrite (step_fixed st _ _ _ _ Es Hst), Hk, S_INR. f_equal. rewrite Hk in Hlt. unfold Rmin in *. destruct (Rle_dec (INR k * st) (total c)); lra.
    + replace (S k + n)%nat with (k + S n)%nat by lia. auto.
Qed.
Lemma thm_fixed_terminates st n m ne : stepd c = Fixed st -> 0 < st -> 0 <= total c -> total c <= INR n * st ->
  evaluate np c (n + m) ne = evaluate np c n ne.
Proof.
  intros Es Hs Hp Hn. unfold evaluate. destruct (initial_values np c ne) as [s|] eqn:Hi; auto.
  pose proof (initial_aligned np c ne s valid_split Hi) as (_ & E0 & _).
  rewrite (loop_fuel st Es Hs n m s ne 0%nat); auto. rewrite E0. simpl. rewrite Rmult_0_l, Rmin_left; auto.
Qed.

Lemma thm_fixed_nonpos st fuel ne ne' recs out : stepd c = Fixed st -> st <= 0 -> 0 < total c -> evaluate np c fuel ne = (ne', recs, out) -> forall r, out <> Ok r.
Proof.
  intros Es Hs Hp H r. apply evaluate_inv in H as [(e & _ & _ & -> & ->)|(s & tr & r0 & Hi & Hl & -> & ->)]; [discriminate|].
  pose proof (initial_aligned np c ne s valid_split Hi) as (_ & E0 & _).
  assert (Hlt : st_elapsed s < total c) by lra. pose proof (loop_fixed_nonpos st fuel Es Hs _ _ _ _ _ Hlt Hl) as H.
  destruct r0; simpl; [exfalso; eapply H; eauto|discriminate].
Qed.

(** ** records after a step *)
Lemma after_steps (P : dist -> tstate -> Prop) (Q : result -> Prop) fuel ne ne' recs out :
  (forall s d d' s', aligned c s -> st_elapsed s < total c -> step np c s d = (d', Ok s') -> P d' s') ->
  (forall d s, aligned c s -> P d s -> Q (callback_report s) /\ Q (final_report s)) ->
  evaluate np c fuel ne = (ne', recs, out) -> forall x, reported_after_step recs out x -> Q x.
Proof.
  intros HP HQ H x Hx. apply (evaluate_after np c (fun _ s => aligned c s) P Q fuel ne ne' recs out); auto.
  - intros s0 Hi. apply (initial_aligned np c ne s0 valid_split Hi).
  - intros s d d' s' Ha Hlt Hst. split; [|eauto]. apply (step_spec np Hnp c (v_mec _ Hv) s d d' s' Ha Hst).
Qed.

Lemma thm_bounds fuel ne ne' recs out lo hi : bounds c = Some (lo, hi) -> evaluate np c fuel ne = (ne', recs, out) ->
  forall x, reported_after_step recs out x -> forall g, In g (r_gamma x) -> lo <= g /\ g * (1 + 1 / 10000) <= hi.
Proof.
  intros Eb H. apply (after_steps (fun _ s => within (lo, hi) (lbs (st_bins s))) (fun x => forall g, In g (r_gamma x) -> lo <= g /\ g * (1 + 1 / 10000) <= hi) fuel ne ne' recs out); [| |exact H].
  - intros s d d' s' Ha _ Hst. apply (step_spec np Hnp c (v_mec _ Hv) s d d' s' Ha Hst); auto.
  - intros d s _ Hw. assert (G : forall g, In g (lbs (st_bins s)) -> lo <= g /\ g * (1 + 1 / 10000) <= hi); [|split; auto].
    intros g Hg. destruct (Hw g Hg) as [H1 H2]. simpl in *. split; auto. unfold bin_size_factor in H2.
    apply Rmult_le_compat_r with (r := 1 + 1 / 10000) in H2; [|lra]. replace (hi / (1 + 1 / 10000) * (1 + 1 / 10000)) with hi in H2 by (field; lra). auto.
Qed.

Lemma lg_incr_increasing l : all_pos l -> lg_incr np l -> increasing l.
Proof.
  intros P H i a b [E1 E2]. assert (Hlt : lg np a < lg np b) by (apply (H i); auto).
  destruct (Rlt_le_dec a b) as [|Hle]; auto. apply (lg_mono _ Hnp) in Hle; [lra|]. apply P. eapply nth_error_In; eauto.
Qed.

Lemma thm_increasing fuel ne ne' recs out : evaluate np c fuel ne = (ne', recs, out) ->
  (forall lo hi, bounds c = Some (lo, hi) -> 0 < creep c /\ lg np hi - lg np (hi / (1 + 1 / 10000)) < creep c) ->
  forall x, reported_after_step recs out x -> increasing (r_gamma x).
Proof.
  intros H Hc. apply (after_steps (fun _ s => increasing (lbs (st_bins s))) (fun x => increasing (r_gamma x)) fuel ne ne' recs out); [| |exact H].
  - intros s d d' s' Ha _ Hst. destruct (step_spec np Hnp c (v_mec _ Hv) s d d' s' Ha Hst) as (_ & _ & _ & _ & Hn & Hb).
    destruct (bounds c) as [[lo hi]|].
    + destruct (Hb _ eq_refl) as (_ & _ & _ & H0). destruct (Hc _ _ eq_refl) as [C1 C2]. intros i a b [E1 E2].
      apply (H0 C1 C2 i); auto.
    + destruct (Hn eq_refl) as (P & L & _). apply lg_incr_increasing; auto.
  - intros d s _ Hi. auto.
Qed.

Lemma thm_gaps fuel ne ne' recs out thr : merge_thr c = Some thr -> evaluate np c fuel ne = (ne', recs, out) ->
  forall x, reported_after_step recs out x ->
  let skip := match bounds c with None => 1%nat | Some _ => 2%nat end in
  forall i a b, neighbours (r_gamma x) i a b -> (skip <= i)%nat -> (S i + skip < length (r_gamma x))%nat -> thr <= lg np b - lg np a.
Proof.
  intros Em H. cbv zeta.
  set (skip := match bounds c with None => 1%nat | Some _ => 2%nat end).
  apply (after_steps (fun _ s => gaps_ok_but np skip thr (lbs (st_bins s)))
    (fun x => forall i a b, neighbours (r_gamma x) i a b -> (skip <= i)%nat -> (S i + skip < length (r_gamma x))%nat -> thr <= lg np b - lg np a)
    fuel ne ne' recs out); [| |exact H].
  - intros s d d' s' Ha _ Hst. destruct (step_spec np Hnp c (v_mec _ Hv) s d d' s' Ha Hst) as (_ & _ & _ & _ & Hn & Hb).
    unfold skip. destruct (bounds c) as [bd|]; [apply (Hb bd eq_refl); auto|apply Hn; auto].
  - intros d s _ Hg. assert (G : forall i a b, neighbours (lbs (st_bins s)) i a b -> (skip <= i)%nat -> (S i + skip < length (lbs (st_bins s)))%nat -> thr <= lg np b - lg np a); [|split; exact G].
    intros i a b [E1 E2] Hi Hl. apply (Hg i); auto. lia.
Qed.

(** ** C06: arrays in every record, also the result of a run without steps *)
Lemma en_lb_ok fns n (r : rates bin) : rates_ok fns n r -> rates_ok fns n (energy_changes_lb r).
Proof.
  unfold energy_changes_lb. intros [H1 H2]. split. { rewrite map_map. simpl. auto. }
  intros kv Hin. apply in_map_iff in Hin as (y & <- & Hy). simpl. rewrite map_length. auto.
Qed.
Lemma rates_len {A} fns n (r : rates A) : rates_ok fns n r -> arrays_of_length n r.
Proof. intros [_ H] k v Hin. apply (H (k, v) Hin). Qed.

Lemma aligned_lined s : aligned c s -> lined_up (length (st_subs s)) (callback_report s) /\ lined_up (length (st_subs s)) (final_report s).
Proof.
  intros Ha. unfold lined_up. simpl. rewrite lbs_length. destruct (al_subs _ _ Ha). pose proof (al_dens _ _ Ha).
  pose proof (rates_len _ _ _ (en_lb_ok _ _ _ (al_en _ _ Ha))). pose proof (rates_len _ _ _ (al_rel _ _ Ha)). pose proof (rates_len _ _ _ (al_abs _ _ Ha)).
  auto 20.
Qed.

Lemma reports_inv (I : dist -> tstate -> Prop) (QR QF : result -> Prop) fuel ne ne' recs out :
  (forall s0, initial_values np c ne = Ok s0 -> I ne s0) ->
  (forall s d d' s', I d s -> st_elapsed s < total c -> step np c s d = (d', Ok s') -> I d' s') ->
  (forall d s, I d s -> QR (callback_report s)) -> (forall d s, I d s -> QF (final_report s)) ->
  evaluate np c fuel ne = (ne', recs, out) ->
  (forall x, In x recs -> QR x) /\ (forall r, out = Ok r -> QF r).
Proof.
  intros H0 Hs HR HF H. destruct (evaluate_steps np c I (fun _ _ => True) fuel ne ne' recs out H0) as [Ha Hb]; auto.
  { intros s d d' s' HI Hlt Hst. split; eauto. }
  split.
  - intros x Hx. destruct (Ha x Hx) as (d & s & HI & _ & ->). eauto.
  - intros r E. destruct (Hb r E) as (s & -> & HI & _). eauto.
Qed.

Lemma thm_aligned fuel ne ne' recs out : evaluate np c fuel ne = (ne', recs, out) ->
  exists K, (forall x, reported recs out x -> lined_up K x) /\
    (forall r, out = Ok r -> keys_of (en_fns c) (r_en r) /\ keys_of (rel_fns c) (r_rel r) /\ keys_of (abs_fns c) (r_abs r)) /\
    (forall x, In x recs -> keys_of (en_fns c) (r_en x) /\ keys_of (abs_fns c) (r_rel x) /\ keys_of (rel_fns c) (r_abs x)).
Proof.
  intros H. destruct (initial_values np c ne) as [s0|e] eqn:Hi.
  2: { unfold evaluate in H. rewrite Hi in H. injection H as <- <- <-. exists 0%nat. split; [|split]; try discriminate; [intros x [[]|E]; discriminate|intros x []]. }
  exists (length (st_subs s0)).
  assert (X : forall (Q : tstate -> Prop) (QR QF : result -> Prop), (forall s, aligned c s -> length (st_subs s) = length (st_subs s0) -> QR (callback_report s)) ->
    (forall s, aligned c s -> length (st_subs s) = length (st_subs s0) -> QF (final_report s)) -> (forall x, In x recs -> QR x) /\ (forall r, out = Ok r -> QF r)).
  { intros _ QR QF HR HF. apply (reports_inv (fun _ s => aligned c s /\ length (st_subs s) = length (st_subs s0)) QR QF fuel ne ne' recs out); auto.
    - intros s1 E1. rewrite Hi in E1. injection E1 as <-. split; auto. apply (initial_aligned np c ne s0 valid_split Hi).
    - intros s d d' s' [Ha L] _ Hst. destruct (step_spec np Hnp c (v_mec _ Hv) s d d' s' Ha Hst) as (Ha' & L' & _). split; auto. congruence.
    - intros d s [Ha L]; auto.
    - intros d s [Ha L]; auto. }
  assert (KE : forall s, aligned c s -> keys_of (en_fns c) (energy_changes_lb (st_en s)) /\ keys_of (rel_fns c) (st_rel s) /\ keys_of (abs_fns c) (st_abs s)).
  { intros s Ha. split; [|split]; [|apply (al_rel _ _ Ha)|apply (al_abs _ _ Ha)]. apply (en_lb_ok _ _ _ (al_en _ _ Ha)). }
  split; [|split].
  - destruct (X (fun _ => True) (lined_up (length (st_subs s0))) (lined_up (length (st_subs s0)))) as [H1 H2].
    + intros s Ha <-. apply aligned_lined; auto.
    + intros s Ha <-. apply aligned_lined; auto.
    + intros x [Hx|E]; auto.
  - apply (X (fun _ => True) (fun _ => True) (fun r => keys_of (en_fns c) (r_en r) /\ keys_of (rel_fns c) (r_rel r) /\ keys_of (abs_fns c) (r_abs r))); auto.
    intros s Ha _. apply KE; auto.
  - apply (X (fun _ => True) (fun r => keys_of (en_fns c) (r_en r) /\ keys_of (abs_fns c) (r_rel r) /\ keys_of (rel_fns c) (r_abs r)) (fun _ => True)); auto.
    intros s Ha _. destruct (KE s Ha) as (? & ? & ?). simpl. auto.
Qed.

(** ** C07 *)
Lemma thm_nonneg fuel ne ne' recs out : (forall g, 0 <= dist_eval np ne g) -> evaluate np c fuel ne = (ne', recs, out) ->
  (forall x, reported recs out x -> nonneg (r_dens x)).
Proof.
  intros Hn H. destruct (reports_inv (fun d s => aligned c s /\ dist_nonneg np d /\ nonneg (st_dens s)) (fun x => nonneg (r_dens x)) (fun x => nonneg (r_dens x)) fuel ne ne' recs out) as [H1 H2]; auto.
  - intros s0 Hi. split; [apply (initial_aligned np c ne s0 valid_split Hi)|]. split; auto.
    apply initial_Ok in Hi as (sg & _ & Hi). pose proof (dist_call_nonneg np ne (g0 c) Hn) as Hd. destruct (dist_call np ne (g0 c)) as [lb dens].
    destruct Hi as (_ & -> & _). exact Hd.
  - intros s d d' s' (Ha & Hd & _) _ Hst. destruct (step_spec np Hnp c (v_mec _ Hv) s d d' s' Ha Hst) as (Ha' & _ & HN & (b & n & Hu) & _).
    assert (Hd' : dist_nonneg np d') by (eapply update_distribution_nonneg; eauto). split; [auto|]. split; [auto|]. intros v; apply HN; auto.
  - intros d s (_ & _ & H0). exact H0.
  - intros d s (_ & _ & H0). exact H0.
  - intros x [Hx|E]; auto.
Qed.

Lemma step_ne s d d' r : step np c s d = (d', r) -> d' = d \/ exists b n, update_distribution np b n = Ok d'.
Proof.
  assert (SD : forall b n d d' r, set_distribution np b n d = (d', r) -> d' = d \/ update_distribution np b n = Ok d').
  { intros b n e e' r0. unfold set_distribution, bindS, lift, put, ret. destruct (update_distribution np b n); intros H; injection H as <- <-; auto. }
  assert (S12 : forall e dens subs eng inj t d d' r, stage12 np c e dens subs eng inj t d = (d', r) -> d' = d \/ exists b n, update_distribution np b n = Ok d').
  { intros e dens subs eng inj t e0 e0' r0 H. unfold stage12 in H. unfold bindS at 1, lift at 1 in H.
    destruct (apply_time_eval np c e dens subs (map (scale_bins t) eng) (map (scale t) inj)) as [[[b1 n1] s1]|]; [|injection H as <- <-; auto].
    unfold bindS at 1 in H. destruct (set_distribution np b1 n1 e0) as [e1 [d1|x]] eqn:E1; apply SD in E1.
    2: { injection H as <- <-. destruct E1; eauto. }
    destruct (method c). { unfold ret in H. injection H as <- <-. destruct E1; eauto. }
    unfold bindS at 1 in H. unfold get in H. unfold bindS at 1 in H. unfold lift at 1 in H.
    destruct (recalc_new_rates shape2 b1 (en_fns c) e1 n1 s1 [] None) as [en1|]; [|injection H as <- <-; destruct E1; eauto].
    unfold bindS at 1, lift at 1 in H. destruct (group_energy c (length b1) en1) as [eng1|]; [|injection H as <- <-; destruct E1; eauto].
    cbv zeta in H. unfold bindS at 1, lift at 1 in H.
    destruct (apply_time_eval np c e dens s1 _ _) as [[[b2 n2] s2]|]; [|injection H as <- <-; destruct E1; eauto].
    unfold bindS at 1 in H. destruct (set_distribution np b2 n2 e1) as [e2 [d2|x]] eqn:E2; apply SD in E2; unfold ret in H; injection H as <- <-.
    + destruct E2 as [->|]; eauto. destruct E1; eauto.
    + destruct E2 as [->|]; eauto. destruct E1; eauto. }
  intros H. unfold step in H. unfold bindS at 1, lift at 1 in H. destruct (choose_step c s) as [[[[eng inj] left0] t]|]; [|injection H as <- <-; auto].
  unfold bindS at 1 in H. unfold apply_time_changes in H. unfold bindS at 1 in H.
  destruct (stage12 np c (to_erg (mec2 c) (st_bins s)) (st_dens s) (st_subs s) eng inj t d) as [d1 r1] eqn:E. apply S12 in E.
  assert (G : d' = d1); [|subst; auto].
  destruct r1 as [[[[[b2 n2] s2] dd] eng']|]; [|congruence].
  unfold lift at 1 in H. destruct (stage345 np c b2 n2 s2 dd eng') as [[[[b n] sg] m]|]; [|congruence].
  unfold bindS at 1, lift at 1 in H.
  match type of H with (match ?X with _ => _ end) = _ => destruct X as [[left' mask]|]; [|congruence] end.
  cbv zeta in H. unfold bindS at 1, get in H. unfold bindS at 1, lift at 1 in H.
  match type of H with (match ?X with _ => _ end) = _ => destruct X; [|congruence] end.
  unfold bindS at 1, lift at 1 in H.
  match type of H with (match ?X with _ => _ end) = _ => destruct X; [|congruence] end.
  unfold bindS at 1, lift at 1 in H.
  match type of H with (match ?X with _ => _ end) = _ => destruct X; [|congruence] end.
  unfold ret in H. congruence.
Qed.

Lemma loop_ne fuel : forall s d d' tr r, loop np c fuel s d = (d', tr, r) -> d' = d \/ exists b n, update_distribution np b n = Ok d'.
Proof.
  induction fuel as [|fuel IH]; intros s d d' tr r H; simpl in H; destruct (Rltb (st_elapsed s) (total c)); try (injection H as <- <- <-; auto).
  destruct (step np c s d) as [d1 [s1|e]] eqn:E; apply step_ne in E.
  - destruct (loop np c fuel s1 d1) as [[d2 tr2] r2] eqn:El. injection H as <- <- <-. apply IH in El as [->|]; auto.
  - injection H as <- <- <-; auto.
Qed.

(** C27, and C07 for blob.n_e *)
Lemma thm_ne fuel ne ne' recs out : evaluate np c fuel ne = (ne', recs, out) -> ne' = ne \/ exists b n, update_distribution np b n = Ok ne'.
Proof.
  intros H. apply evaluate_inv in H as [(e & _ & -> & _)|(s & tr & r0 & Hi & Hl & _)]; auto. eapply loop_ne; eauto.
Qed.
Lemma thm_ne_nonneg fuel ne ne' recs out : (forall g, 0 <= dist_eval np ne g) -> evaluate np c fuel ne = (ne', recs, out) -> forall g, 0 <= dist_eval np ne' g.
Proof.
  intros Hn H. apply thm_ne in H as [->|(b & n & Hu)]; auto. apply (update_distribution_nonneg np Hnp b n _ Hu).
Qed.

(** ** C08 *)
Lemma thm_split eps fuel ne ne' recs out rows : 0 <= eps -> initial_subs c = Ok rows ->
  (forall j, (j < length (g0 c))%nat -> (forall v, In v (col j rows) -> 0 <= v <= 1) /\ Rabs (Rsum (col j rows) - 1) <= eps) ->
  evaluate np c fuel ne = (ne', recs, out) ->
  forall x, reported recs out x -> forall j, (j < length (r_gamma x))%nat ->
    (forall v, In v (col j (r_subs x)) -> 0 <= v <= 1) /\ Rabs (Rsum (col j (r_subs x)) - 1) <= eps.
Proof.
  intros He Hs0 Hc0 H.
  assert (G : (forall x, In x recs -> split_fine eps (length (r_gamma x)) (r_subs x)) /\ (forall r, out = Ok r -> split_fine eps (length (r_gamma r)) (r_subs r))).
  { apply (reports_inv (fun _ s => aligned c s /\ split_fine eps (length (st_bins s)) (st_subs s)) _ _ fuel ne ne' recs out); auto.
    - intros s0 Hi. split; [apply (initial_aligned np c ne s0 valid_split Hi)|].
      apply initial_Ok in Hi as (sg & E & Hi). rewrite Hs0 in E. injection E as <-. destruct (dist_call np ne (g0 c)) as [lb dens].
      destruct Hi as (-> & _ & -> & _). rewrite initial_bins_length. intros j Hj. apply (Hc0 j Hj).
    - intros s d d' s' [Ha Hsf] _ Hst. split; [apply (step_spec np Hnp c (v_mec _ Hv) s d d' s' Ha Hst)|].
      apply (step_split np Hnp c (v_mec _ Hv) eps s d d' s'); auto.
    - intros d s [_ Hsf]. simpl. rewrite lbs_length. auto.
    - intros d s [_ Hsf]. simpl. rewrite lbs_length. auto. }
  intros x [Hx|E] j Hj; [apply (proj1 G x Hx j Hj)|apply (proj2 G x E j Hj)].
Qed.

End T.
