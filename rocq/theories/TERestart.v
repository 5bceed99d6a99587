(** Splitting a run (C23). *)
From Verif Require Import Base TEUtils TimeEvolution ListFacts TEIndexFacts TEStageFacts TEStepFacts TELoopFacts TEInv TEForward NumpyInst Spec_TE TEThm1 TEThm2 TEReach Spec_Init TEAgree.

(** the same state at another time *)
Definition retime (l : list ext) (e : R) (s : tstate) : tstate :=
  {| st_bins := st_bins s; st_dens := st_dens s; st_subs := st_subs s; st_en := st_en s; st_rel := st_rel s; st_abs := st_abs s; st_left := l; st_elapsed := e |}.

Section Restart.
Variable np : numpy.
Hypothesis Hnp : numpy_ok np.
Variable c : cfg.
Hypothesis Hv : valid c.
Hypothesis Ho : optimize c = false.

Definition same_step (T T' : R) (s : tstate) (e : R) : Prop :=
  T - st_elapsed s = T' - e \/ exists h, stepd c = Fixed h /\ h <= T - st_elapsed s /\ h <= T' - e.

Lemma choose_retime T T' l e s : same_step T T' s e ->
  choose_step (with_total T' c) (retime l e s) = rmap (fun x => let '(eng, inj, _, t) := x in (eng, inj, l, t)) (choose_step (with_total T c) s).
Proof.
  intros Hs. unfold choose_step. cbn [retime st_bins st_dens st_subs st_en st_rel st_abs st_left st_elapsed].
  change (group_energy (with_total T' c)) with (group_energy (with_total T c)). change (group_injection (with_total T' c)) with (group_injection (with_total T c)).
  change (mec2 (with_total T' c)) with (mec2 (with_total T c)).
  destruct (group_energy (with_total T c) (length (st_bins s)) (st_en s)) as [eng|]; [cbn [bind]|reflexivity].
  destruct (group_injection (with_total T c) (length (st_bins s)) (st_rel s)) as [relg|]; [cbn [bind]|reflexivity].
  destruct (group_injection (with_total T c) (length (st_bins s)) (st_abs s)) as [absg|]; [cbn [bind]|reflexivity].
  destruct (bcast_rows (map2 Rmult) (to_densities_grouped (st_dens s) (st_subs s)) relg) as [dr|]; [cbn [bind]|reflexivity].
  destruct (bcast_rows (map2 Rplus) dr absg) as [inj|]; [cbn [bind]|reflexivity].
  cbn [with_total stepd optimize total]. rewrite Ho.
  assert (C : forall t, (stepd c = Fixed t \/ T - st_elapsed s = T' - e) -> (if Rltb (T' - e) t then T' - e else t) = (if Rltb (T - st_elapsed s) t then T - st_elapsed s else t)).
  { intros t Ht. destruct Hs as [E|(h & E1 & E2 & E3)]; [rewrite E; auto|]. destruct Ht as [Ht|Ht]; [|rewrite Ht; auto].
    rewrite E1 in Ht. injection Ht as <-. rewrite !(proj2 (Rltb_false _ _)) by lra. auto. }
  destruct (stepd c) as [h|] eqn:Eh.
  - cbn [bind rmap]. rewrite (C h) by auto. reflexivity.
  - assert (E : T - st_elapsed s = T' - e). { destruct Hs as [E|(h & E & _)]; [auto|congruence]. }
    change (calc_max_times (with_total T' c)) with (calc_max_times (with_total T c)).
    destruct (calc_max_times (with_total T c) (to_erg (mec2 (with_total T c)) (st_bins s)) (to_densities_grouped (st_dens s) (st_subs s)) eng relg absg (map (fun _ => None) (st_dens s))) as [mx|]; [cbn [bind]|reflexivity].
    destruct (ext_list_min mx) as [t|]; [cbn [bind rmap]|reflexivity]. rewrite E. reflexivity.
Qed.

Lemma step_retime T T' l e s d : same_step T T' s e ->
  step np (with_total T' c) (retime l e s) d =
  let (d', r) := step np (with_total T c) s d in (d', rmap (fun s' => retime l (e + (st_elapsed s' - st_elapsed s)) s') r).
Proof.
  intros Hs. unfold step. rewrite (choose_retime T T' l e s Hs). unfold bindS at 1. unfold lift at 1. unfold bindS at 7. unfold lift at 5.
  destruct (choose_step (with_total T c) s) as [[[[eng inj] left0] t]|]; [cbn [rmap]|reflexivity].
  cbn [retime st_bins st_dens st_subs st_en st_rel st_abs st_left st_elapsed].
  change (apply_time_changes np (with_total T' c)) with (apply_time_changes np (with_total T c)). change (mec2 (with_total T' c)) with (mec2 (with_total T c)).
  unfold bindS at 1. unfold bindS at 6.
  destruct (apply_time_changes np (with_total T c) (to_erg (mec2 (with_total T c)) (st_bins s)) (st_dens s) (st_subs s) eng inj t d) as [d1 [[[[b n] sg] m]|]]; [|reflexivity].
  cbn [with_total optimize en_fns abs_fns rel_fns]. rewrite Ho. unfold lift, bindS, get, ret.
  destruct (let! prev := remap_dict m (st_en s) (Some None) in recalc_new_rates shape2 (update_bin_ub b (map (fun _ : R => true) n)) (en_fns c) d1 n sg prev (Some (map (fun _ : R => true) n))) as [en|]; [|reflexivity].
  destruct (let! prev := remap_dict m (st_abs s) (Some None) in recalc_new_rates shape1 (lbs (update_bin_ub b (map (fun _ : R => true) n))) (abs_fns c) d1 n sg prev (Some (map (fun _ : R => true) n))) as [ab|]; [|reflexivity].
  destruct (let! prev := remap_dict m (st_rel s) (Some None) in recalc_new_rates shape1 (lbs (update_bin_ub b (map (fun _ : R => true) n))) (rel_fns c) d1 n sg prev (Some (map (fun _ : R => true) n))) as [rl|]; [|reflexivity].
  cbn [rmap retime st_elapsed]. unfold retime. cbn [st_bins st_dens st_subs st_en st_rel st_abs st_elapsed]. do 3 f_equal. lra.
Qed.

Lemma retime_self s : retime (st_left s) (st_elapsed s) s = s.
Proof. destruct s; reflexivity. Qed.
Lemma rmap_id_in {A} (f : A -> A) (r : res A) : (forall a, r = Ok a -> f a = a) -> rmap f r = r.
Proof. destruct r as [a|]; simpl; intros H; [rewrite H; auto|auto]. Qed.
Lemma step_left T s d d' s' : step np (with_total T c) s d = (d', Ok s') -> st_left s' = st_left s.
Proof.
  intros H. apply step_Ok in H as (eng & inj & left0 & t & b & n & sg & m & left' & mask & pen & pab & prel & _ & _ & Hm & _ & _ & _ & _ & _ & _ & El & _).
  change (optimize (with_total T c)) with (optimize c) in Hm. rewrite Ho in Hm. destruct Hm as (_ & ->). auto.
Qed.
(** a step that is cut short by neither total time is the same for both *)
Lemma step_total T T' s d : same_step T T' s (st_elapsed s) -> step np (with_total T' c) s d = step np (with_total T c) s d.
Proof.
  intros Hs. pose proof (step_retime T T' (st_left s) (st_elapsed s) s d Hs) as H. rewrite retime_self in H. rewrite H.
  destruct (step np (with_total T c) s d) as [d' r] eqn:E. f_equal. apply rmap_id_in. intros s' ->. rewrite <- (step_left _ _ _ _ _ E).
  replace (st_elapsed s + (st_elapsed s' - st_elapsed s)) with (st_elapsed s') by lra. apply retime_self.
Qed.

Lemma step_fixed T h s d d' s' : stepd c = Fixed h -> h <= T - st_elapsed s -> step np (with_total T c) s d = (d', Ok s') -> st_elapsed s' = st_elapsed s + h.
Proof.
  intros Eh Hh H. apply step_time in H as (eng & inj & left0 & t & Hc & -> & _). f_equal.
  unfold choose_step in Hc. cbn [with_total stepd total] in Hc. rewrite Eh in Hc.
  do 5 (apply bind_Ok in Hc as (? & _ & Hc)). cbn [bind] in Hc. rewrite (proj2 (Rltb_false _ _)) in Hc by lra. injection Hc as _ _ _ <-. auto.
Qed.

(** first part: [j] steps done, [k] in all *)
Lemma first_part h k T2 : stepd c = Fixed h -> 0 < h -> 0 <= T2 -> forall fuel j s ne ne1 tr s1, (j <= k)%nat -> st_elapsed s = INR j * h ->
  loop np (with_total (INR k * h) c) fuel s ne = (ne1, tr, Ok s1) ->
  st_elapsed s1 = INR k * h /\
  forall fuel2, loop np (with_total (INR k * h + T2) c) (length tr + fuel2) s ne =
    let '(ne2, tr2, r2) := loop np (with_total (INR k * h + T2) c) fuel2 s1 ne1 in (ne2, tr ++ tr2, r2).
Proof.
  intros Eh Hh H2. induction fuel as [|fuel IH]; intros j s ne ne1 tr s1 Hj He H; simpl in H.
  - destruct (Rltb_spec (st_elapsed s) (INR k * h)); [discriminate|]. injection H as <- <- <-.
    assert (INR j <= INR k) by (apply le_INR; auto). split; [nra|]. intros fuel2. simpl. destruct (loop _ _ fuel2 s ne) as [[? ?] ?]. auto.
  - destruct (Rltb_spec (st_elapsed s) (INR k * h)) as [Hl|Hl].
    + destruct (step np (with_total (INR k * h) c) s ne) as [d' [s'|]] eqn:Es; [|discriminate].
      destruct (loop np (with_total (INR k * h) c) fuel s' d') as [[ne2 tr2] r2] eqn:El. injection H as <- <- ->.
      assert (Hjk : (S j <= k)%nat). { apply INR_lt. rewrite He in Hl. apply Rmult_lt_reg_r in Hl; auto. }
      assert (Hh1 : h <= INR k * h - st_elapsed s). { apply le_INR in Hjk. rewrite S_INR in Hjk. rewrite He. nra. }
      assert (He' : st_elapsed s' = INR (S j) * h). { rewrite (step_fixed _ _ _ _ _ _ Eh Hh1 Es), He, S_INR. lra. }
      destruct (IH (S j) s' d' ne2 tr2 s1 Hjk He' El) as (E1 & E2). split; auto. intros fuel2. simpl.
      rewrite (proj2 (Rltb_true (st_elapsed s) (INR k * h + T2))) by lra.
      rewrite (step_total (INR k * h) (INR k * h + T2)) by (right; exists h; split; [auto|split; lra]). rewrite Es, E2.
      destruct (loop np (with_total (INR k * h + T2) c) fuel2 s1 ne2) as [[? ?] ?]. reflexivity.
    + injection H as <- <- <-. assert (INR j <= INR k) by (apply le_INR; auto). split; [nra|]. intros fuel2. cbn [length plus app]. destruct (loop np (with_total (INR k * h + T2) c) fuel2 s ne) as [[? ?] ?]. auto.
Qed.

(** second part: the restarted run is the rest of the long run, earlier *)
Lemma second_part T1 T2 l : forall fuel s ne, 
  loop np (with_total T2 c) fuel (retime l (st_elapsed s - T1) s) ne =
  let '(ne2, tr2, r2) := loop np (with_total (T1 + T2) c) fuel s ne in
  (ne2, map (fun s' => retime l (st_elapsed s' - T1) s') tr2, rmap (fun s' => retime l (st_elapsed s' - T1) s') r2).
Proof.
  induction fuel as [|fuel IH]; intros s ne; cbn [loop]; change (total (with_total T2 c)) with T2; change (total (with_total (T1 + T2) c)) with (T1 + T2);
    change (st_elapsed (retime l (st_elapsed s - T1) s)) with (st_elapsed s - T1).
  - destruct (Rltb_spec (st_elapsed s - T1) T2); destruct (Rltb_spec (st_elapsed s) (T1 + T2)); try lra; reflexivity.
  - destruct (Rltb_spec (st_elapsed s - T1) T2); destruct (Rltb_spec (st_elapsed s) (T1 + T2)); try lra; [|reflexivity].
    rewrite (step_retime (T1 + T2) T2) by (left; lra). destruct (step np (with_total (T1 + T2) c) s ne) as [d' [s'|]]; [|reflexivity].
    cbn [rmap]. replace (st_elapsed s - T1 + (st_elapsed s' - st_elapsed s)) with (st_elapsed s' - T1) by lra. rewrite IH.
    destruct (loop np (with_total (T1 + T2) c) fuel s' d') as [[? ?] ?]. reflexivity.
Qed.

Lemma recalc_of_fresh {A} (sh : shape A) fns ne cols dens subs r : fresh_rates sh fns ne cols dens subs r -> length dens = length cols -> subs <> [] ->
  (forall row, In row subs -> length row = length cols) -> recalc_new_rates sh cols fns ne dens subs [] None = Ok r.
Proof.
  intros H Ld Hs Ls. unfold recalc_new_rates. rewrite !select_all by lia. rewrite remap_subgroups_true by auto. cbn [bind]. apply mapM_Forall2.
  eapply Forall2_impl; [|exact H]. intros kf [k v] (E & vals & E2 & out & E3 & E4 & E5). simpl in E, E2. subst k v. unfold call_fn. rewrite E3. cbn [bind].
  rewrite E4. rewrite (proj2 (Nat.eqb_eq _ _)) by auto. reflexivity.
Qed.

Lemma fresh_bins_again b : (forall x, In x b -> fresh_bin x) -> update_bin_ub (map (fun g => (g, 0)) (lbs b)) (map (fun _ => true) (lbs b)) = b.
Proof.
  induction b as [|[x y] b IH]; intros H; auto. unfold lbs in *. simpl. unfold update_bin_ub in *. simpl. f_equal.
  - assert (F := H (x, y) (or_introl eq_refl)). unfold fresh_bin in F. simpl in F. rewrite F. auto.
  - apply IH. intros; apply H; simpl; auto.
Qed.

Lemma restart_initial T2 d s : aligned c s -> (forall b, In b (st_bins s) -> fresh_bin b) ->
  fresh_rates shape2 (en_fns c) d (st_bins s) (st_dens s) (st_subs s) (st_en s) ->
  fresh_rates shape1 (rel_fns c) d (lbs (st_bins s)) (st_dens s) (st_subs s) (st_rel s) ->
  fresh_rates shape1 (abs_fns c) d (lbs (st_bins s)) (st_dens s) (st_subs s) (st_abs s) ->
  (subgroups c = None -> exists row, st_subs s = [row] /\ forall f, In f row -> f = 1) ->
  dist_call np d (lbs (st_bins s)) = (lbs (st_bins s), st_dens s) ->
  initial_values np (restart T2 (final_report s) c) d = Ok (retime (map (fun _ => Some 0) (st_bins s)) 0 s).
Proof.
  intros Ha Hb F1 F2 F3 H1 Hd. unfold initial_values, initial_bins. cbn [restart g0 final_report r_gamma en_fns rel_fns abs_fns].
  rewrite fresh_bins_again by auto. rewrite Hd. destruct (al_subs _ _ Ha) as (S1 & S2).
  assert (Es : initial_subs (restart T2 (final_report s) c) = Ok (st_subs s)).
  { unfold initial_subs. cbn [restart g0 subgroups subinit final_report r_gamma r_subs]. destruct (subgroups c); [reflexivity|].
    destruct (H1 eq_refl) as (row & E & Hr). rewrite E. f_equal. f_equal. rewrite lbs_length. rewrite <- (S2 row) by (rewrite E; simpl; auto).
    clear - Hr. induction row; simpl; auto. rewrite IHrow by (intros; apply Hr; simpl; auto). f_equal. symmetry. apply Hr. simpl; auto. }
  rewrite Es. cbn [bind].
  rewrite (recalc_of_fresh _ _ _ _ _ _ _ F1) by (auto; apply (al_dens _ _ Ha)). cbn [bind].
  rewrite (recalc_of_fresh _ _ _ _ _ _ _ F2) by (auto; rewrite lbs_length; auto; apply (al_dens _ _ Ha)). cbn [bind].
  rewrite (recalc_of_fresh _ _ _ _ _ _ _ F3) by (auto; rewrite lbs_length; auto; apply (al_dens _ _ Ha)). reflexivity.
Qed.
End Restart.
