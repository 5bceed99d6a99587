(** Concrete runs with automatic steps and non-zero rates, and two runs in which
    automatic steps end in "Negative density obtained" (C10-C13). *)
From Verif Require Import Base TEUtils TimeEvolution ListFacts TEIndexFacts TEStageFacts TEStepFacts TELoopFacts TEInv TEForward TEZero TEZeroRun NumpyInst Spec_TE TEShift TEExamples TEExamples2.

(** the configuration [c] with automatic steps, thresholds [e], [m], [i], and total time [T] *)
Definition with_auto (c : cfg) (T e m i : R) : cfg :=
  {| total := T; stepd := Auto; en_fns := en_fns c; rel_fns := rel_fns c; abs_fns := abs_fns c; g0 := g0 c; bounds := bounds c; creep := creep c;
     merge_thr := merge_thr c; maxE := e; maxD := m; maxI := i; optimize := optimize c; method := method c; subgroups := subgroups c; subinit := subinit c; mec2 := mec2 c |}.

Lemma step_same np c T e m i s d : choose_step (with_auto c T e m i) s = choose_step c s -> step np (with_auto c T e m i) s d = step np c s d.
Proof. intros H. unfold step. rewrite H. reflexivity. Qed.

(** an automatic step from a state with constant rates, if all bins allow exactly [t] *)
Lemma auto_const T t a r q m gs me T' e dd ii left ns el : length ns = length gs -> gs <> [] -> (forall g, In g gs -> 0 < g) -> 
  (forall v, In v ns -> v <> 0 \/ 0 <= q) ->
  (forall g, In g gs -> max_time_bin (with_auto (const_cfg T t a r q m gs me) T' e dd ii) (g * m, g * (1 + bin_size_factor) * m) (0 + a, 0 + a) (0 + r) (0 + q) = Some t) ->
  t <= T' - el -> t <= T - el -> 
  choose_step (with_auto (const_cfg T t a r q m gs me) T' e dd ii) (sh_state a r q left gs ns el) = choose_step (const_cfg T t a r q m gs me) (sh_state a r q left gs ns el).
Proof.
  intros L Hne P Hq Hmt Ht Ht'. pose proof (sh_choose T t a r q m gs me left gs ns el L) as E.
  assert (E2 : choose_step (with_auto (const_cfg T t a r q m gs me) T' e dd ii) (sh_state a r q left gs ns el) =
     Ok ([repeat (0 + a, 0 + a) (length gs)], [map (fun v => v * r + q) ns], left, t)).
  2: { rewrite E, E2. destruct (Rltb_spec (T - el) t); auto; lra. }
  unfold choose_step, group_energy, group_injection, known, sh_state. cbn [st_bins st_en st_rel st_abs st_dens st_subs st_left st_elapsed].
  rewrite map_length.
  assert (K : forall A (x : A) k, all_some (repeat (Some x) k) = Some (repeat x k)).
  { intros A x k. apply all_some_spec. rewrite map_repeat'. auto. }
  simpl mapM. rewrite !K. cbn [bind]. unfold sum_change_rates. simpl subgroups. unfold vsum. simpl map. cbn [fold_left].
  rewrite !map2_repeat. cbn [bind]. unfold bcast_rows, to_densities_grouped. simpl length. simpl Nat.eqb. cbn [bind]. simpl map2.
  rewrite (map2_const_n Rmult ns 1) by auto. rewrite map2_const_n by (rewrite map_length; auto). rewrite map2_const_n by (rewrite !map_length; auto).
  rewrite !map_map. unfold add_bin. cbn [fst snd]. 
  replace (map (fun x : R => x * 1 * (0 + r) + (0 + q)) ns) with (map (fun v => v * r + q) ns) by (apply map_ext; intros; ring).
  simpl stepd. cbv iota. simpl map. cbn [calc_max_times].
  assert (Ex : existsb (fun b => b) (map2 (fun x y => Reqb x 0 && Rltb y 0)%bool (map (fun a0 => a0 * 1) ns) (repeat (0 + q) (length gs))) = false).
  { rewrite map2_const_n by (rewrite map_length; auto). apply not_true_iff_false. rewrite existsb_exists. intros (b & Hb & ->). rewrite map_map in Hb. apply in_map_iff in Hb as (v & Hv & Hin).
    apply andb_true_iff in Hv as [H1 H2]. apply Reqb_true in H1. apply Rltb_true in H2. destruct (Hq v Hin); lra. }
  rewrite (map2_const_n Rmult ns 1) by auto. rewrite Ex. simpl length. simpl Nat.eqb. cbv iota. cbn [bind].
  assert (Em : map2 ext_min (map (fun _ => None) ns) (max_times_group (with_auto (const_cfg T t a r q m gs me) T' e dd ii) (to_erg m (map mk_bin gs)) (repeat (0 + a, 0 + a) (length gs)) (repeat (0 + r) (length gs)) (repeat (0 + q) (length gs))) = repeat (Some t) (length gs)).
  { clear - L Hmt. unfold max_times_group, to_erg. rewrite map_map. revert ns L Hmt. induction gs as [|g l IH]; intros [|n ns] L Hmt; try discriminate; auto.
    cbn [length repeat map combine map2 fst snd]. f_equal; [|apply IH; [simpl in L; lia|intros; apply Hmt; simpl; auto]]. rewrite <- (Hmt g) by (simpl; auto). reflexivity. }
  simpl mec2. rewrite Em. cbn [bind]. simpl optimize. cbv iota.
  assert (Emin : ext_list_min (repeat (Some t) (length gs)) = Ok (Some t)).
  { destruct gs as [|g l]; [congruence|]. simpl. f_equal. clear. induction (length l) as [|k IH]; simpl; auto. rewrite Rmin_left by lra. auto. }
  rewrite Emin. cbn [bind]. cbv iota. simpl total. rewrite (proj2 (Rltb_false (T' - el) t)) by lra. auto.
Qed.

(** cooling 1, escape 1/4, injection 1 per second: the injection limit 1 gives one second *)
Definition ex_start : tstate := sh_state (-1) (-1 / 4) 1 (map (fun _ => Some 0) [10; 100; 1000]) [10; 100; 1000] [1; 1; 1] 0.
Definition ex_auto (T : R) : cfg := with_auto (ex_move Euler) T (1 / 2) 1 1.
Lemma ex_auto_step T : 1 <= T -> exists d' s', initial_values np0 (ex_auto T) ex_ne = Ok ex_start /\ step np0 (ex_auto T) ex_start ex_ne = (d', Ok s') /\
  lbs (st_bins s') = [9; 99; 999] /\ st_dens s' = [7 / 4; 7 / 4; 7 / 4] /\ st_elapsed s' = 1.
Proof.
  intros HT.
  assert (Hi : initial_values np0 (ex_move Euler) ex_ne = Ok ex_start) by (apply sh_initial; [discriminate|apply ex_n]).
  assert (Hc : choose_step (ex_auto T) ex_start = choose_step (ex_move Euler) ex_start).
  { apply auto_const; auto; try discriminate; try lra.
    - intros g H; simpl in H; intuition; subst; lra.
    - intros v _. right. lra.
    - intros g H. assert (Hg : 10 <= g) by (simpl in H; intuition; subst; lra). unfold max_time_bin, time_1, time_1_edge, time_2, time_3, time_4. cbn [fst snd maxE maxD maxI with_auto].
      decide_R. rewrite !Rabs_left, (Rabs_right (0 + 1)) by lra. cbn [ext_min]. unfold bin_size_factor.
      replace (- (0 + -1)) with 1 by lra. replace (0 + 1) with 1 by lra. replace (0 + -1 / 4) with (- (1 / 4)) by lra. replace (- (1 / 2) / - (1 / 4)) with 2 by field.
      f_equal. rewrite (Rmin_right 2) by lra. rewrite Rmin_right; [lra|]. apply Rmin_glb; lra. }
  destruct ex_move_step as (s & d' & s' & Hi' & Hs & _ & _ & Hb & Hd). rewrite Hi in Hi'. injection Hi' as <-.
  exists d', s'. split; [exact Hi|]. split; [unfold ex_auto; rewrite step_same; auto|]. split; auto. split; auto.
  apply step_time in Hs as (eng & inj & left0 & t & Hch & Et & _). unfold ex_move, ex_start in Hch. rewrite sh_choose in Hch by auto. injection Hch as _ _ _ <-. rewrite Et.
  simpl. rewrite (proj2 (Rltb_false (2 - 0) 1)) by lra. lra.
Qed.
Lemma ex_auto_run : exists d recs r, evaluate np0 (ex_auto 1) 1 ex_ne = (d, recs, Ok r) /\ r_gamma r = [9; 99; 999] /\ r_dens r = [7 / 4; 7 / 4; 7 / 4].
Proof.
  destruct (ex_auto_step 1 ltac:(lra)) as (d' & s' & Hi & Hs & Hb & Hd & Ht). unfold evaluate. rewrite Hi. cbn [loop]. change (st_elapsed ex_start) with 0. change (total (ex_auto 1)) with 1.
  rewrite (proj2 (Rltb_true 0 1)) by lra. rewrite Hs. rewrite Ht. rewrite (proj2 (Rltb_false 1 1)) by lra. eexists d', _, _. split; [reflexivity|]. simpl. auto.
Qed.

(** absolute escape faster than the content: the limit on the injected amount allows a step of 1 s *)
Definition ex_thin : dist := DOrig (fun _ => 1 / 2) 1 (10 ^ 5).
Definition ex_escape : cfg := with_auto (const_cfg 1 1 0 0 (-1) 1 [10; 100; 1000] Euler) 1 (1 / 2) 1 1.
Lemma ex_escape_run : evaluate np0 ex_escape 1 ex_thin = (ex_thin, [], Err (ValueError "Negative density obtained")).
Proof.
  assert (En : snd (dist_call np0 ex_thin [10; 100; 1000]) = [1 / 2; 1 / 2; 1 / 2]).
  { simpl. unfold correct_bounds, correct_first, correct_last. decide_R. simpl. decide_R. simpl. decide_R. reflexivity. }
  assert (Hi : initial_values np0 ex_escape ex_thin = Ok (sh_state 0 0 (-1) (map (fun _ => Some 0) [10; 100; 1000]) [10; 100; 1000] [1 / 2; 1 / 2; 1 / 2] 0)).
  { exact (sh_initial np0 1 1 0 0 (-1) 1 [10; 100; 1000] Euler ex_thin [1 / 2; 1 / 2; 1 / 2] ltac:(discriminate) En). }
  unfold evaluate. rewrite Hi. cbn [loop]. simpl st_elapsed. change (total ex_escape) with 1. rewrite (proj2 (Rltb_true 0 1)) by lra.
  unfold ex_escape. rewrite step_same.
  - rewrite (sh_step_neg np0 1 1 0 0 (-1) 1 [10; 100; 1000] Euler ltac:(lra) _ [10; 100; 1000] [1 / 2; 1 / 2; 1 / 2] 0 ex_thin (1 / 2 + (1 / 2 * 0 + -1) * 1)); auto.
    + intros g H; simpl in H; intuition; subst; lra.
    + intros g H; simpl in H; unfold sh_g in H; intuition; subst; lra.
    + rewrite (proj2 (Rltb_false (1 - 0) 1)) by lra. simpl. auto.
    + lra.
  - apply auto_const; auto; try discriminate; try lra.
    + intros g H; simpl in H; intuition; subst; lra.
    + intros v H. left. simpl in H. intuition; subst; lra.
    + intros g H. assert (Hg : 10 <= g) by (simpl in H; intuition; subst; lra). unfold max_time_bin, time_1, time_1_edge, time_2, time_3, time_4. cbn [fst snd maxE maxD maxI with_auto].
      decide_R. rewrite !Rabs_left by lra. cbn [ext_min]. f_equal. replace (- (0 + -1)) with 1 by lra. lra.
Qed.

(** a density threshold above 1 together with relative escape: one bin, energy gain 4 (gamma - 10) per second *)
Definition ex_spread : cfg :=
  {| total := 1; stepd := Auto; en_fns := [("gain"%string, fun _ p => Ok (map (fun g => 4 * (g - 10)) (fp_gamma p)))]; rel_fns := [("esc"%string, const_fn (-1))];
     abs_fns := []; g0 := [10]; bounds := None; creep := 0; merge_thr := None;
     maxE := 1 / 2; maxD := 2; maxI := 1; optimize := false; method := Euler; subgroups := None; subinit := None; mec2 := 1 |}.
Lemma ex_spread_run : evaluate np0 ex_spread 1 ex_ne = (ex_ne, [], Err (ValueError "Negative density obtained")).
Proof.
  assert (Hi : initial_values np0 ex_spread ex_ne = Ok {| st_bins := [(10, 10 * (1 + bin_size_factor))]; st_dens := [1]; st_subs := [[1]];
    st_en := [("gain"%string, [Some (4 * (10 - 10), 4 * (10 * (1 + bin_size_factor) - 10))])]; st_rel := [("esc"%string, [Some (-1)])]; st_abs := []; st_left := [Some 0]; st_elapsed := 0 |}).
  { unfold initial_values. simpl. unfold correct_bounds, correct_first, correct_last. decide_R. simpl. decide_R. simpl. decide_R. reflexivity. }
  unfold evaluate. rewrite Hi. cbn [loop]. cbn [st_elapsed]. change (total ex_spread) with 1. rewrite (proj2 (Rltb_true 0 1)) by lra.
  assert (Hc : exists a b c d, choose_step ex_spread {| st_bins := [(10, 10 * (1 + bin_size_factor))]; st_dens := [1]; st_subs := [[1]];
    st_en := [("gain"%string, [Some (4 * (10 - 10), 4 * (10 * (1 + bin_size_factor) - 10))])]; st_rel := [("esc"%string, [Some (-1)])]; st_abs := []; st_left := [Some 0]; st_elapsed := 0 |} =
    Ok ([[(a, b)]], [[c]], [Some 0], d) /\ a = 0 /\ b = 4 / 1000 /\ c = -1 /\ d = 1 / 2).
  { assert (Emx : max_time_bin ex_spread (10 * 1, 10 * (1 + bin_size_factor) * 1) (0 + 4 * (10 - 10), 0 + 4 * (10 * (1 + bin_size_factor) - 10)) (0 + -1) 0 = Some (1 / 2)).
    { unfold max_time_bin, time_1, time_1_edge, time_2, time_3, time_4. cbn [fst snd maxE maxD maxI ex_spread]. unfold bin_size_factor.
      decide_R. replace (0 + 4 * (10 * (1 + 1 / 10000) - 10)) with (4 / 1000) by lra. replace (4 / 1000 - (0 + 4 * (10 - 10))) with (4 / 1000) by lra.
      replace (10 * (1 + 1 / 10000) * 1 - 10 * 1) with (1 / 1000) by lra. replace (1 / 1000 / (4 / 1000)) with (1 / 4) by field. decide_R. rewrite Rabs_right by lra.
      replace (1 / 2 * (10 * (1 + 1 / 10000) * 1) / (4 / 1000)) with (10001 / 8) by field. replace (0 + -1) with (-1) by lra. replace (- (1 / 2) / -1) with (1 / 2) by field.
      cbn [ext_min]. f_equal. rewrite (Rmin_left (1 / 4 * 2)) by lra. rewrite Rmin_right by lra. lra. }
    eexists _, _, _, _. split.
    - unfold choose_step, group_energy, group_injection, known, sum_change_rates, vsum, to_densities_grouped, bcast_rows. cbn [st_bins st_en st_rel st_abs st_dens st_subs st_left st_elapsed length map mapM all_some option_map bind fold_left repeat map2 Nat.eqb snd fst subgroups ex_spread stepd optimize total calc_max_times existsb].
      rewrite (proj2 (Reqb_false (1 * 1) 0)) by lra. cbn [andb orb]. unfold max_times_group. cbn [combine map2 map to_erg mec2 ex_spread fst snd add_bin].
      unfold add_bin. cbn [fst snd]. rewrite Emx. cbn [ext_min ext_list_min fold_left bind optimize ex_spread]. rewrite (proj2 (Rltb_false (1 - 0) (1 / 2))) by lra.
      reflexivity.
    - cbv beta. unfold bin_size_factor. repeat split; lra. }
  destruct Hc as (a & b & c0 & t & Hc & -> & -> & -> & ->).
  unfold step. unfold bindS at 1. unfold lift at 1. rewrite Hc. unfold bindS at 1. unfold apply_time_changes. unfold bindS at 1. unfold stage12. unfold bindS at 1. unfold lift at 1.
  cbn [st_bins st_dens st_subs to_erg map mec2 ex_spread fst snd]. unfold apply_time_eval, recalc_groups. cbn [map scale_bins fst snd].
  unfold recalc_gamma_bins_and_density, recalc_energy_bins_and_density_increase. cbn [map2 existsb fst snd map].
  unfold bin_size_factor. decide_R. cbn [orb bind]. cbn [inject_groups map map2 scale existsb]. 
  match goal with |- context [Rltb ?x 0] => assert (Hx : x < 0) end.
  { cbn [mec2 ex_spread]. match goal with |- context [?n / ?d] => replace (n / d) with (1 / 3) by (field; lra) end. lra. }
  rewrite (proj2 (Rltb_true _ _) Hx). reflexivity.
Qed.
