(** Concrete steps with gamma_bounds: the constant-rate configuration of
    TEShift with bounds (used by C04, C08 and C22). *)
From Verif Require Import Base TEUtils TimeEvolution ListFacts TEIndexFacts TEStageFacts TEStepFacts TELoopFacts TEInv TEForward TEZero NumpyInst Spec_TE TEShift TEExamples TEExamples2.

Definition bounded (bd : R * R) (cr : R) (c : cfg) : cfg :=
  {| total := total c; stepd := stepd c; en_fns := en_fns c; rel_fns := rel_fns c; abs_fns := abs_fns c; g0 := g0 c;
     bounds := Some bd; creep := cr; merge_thr := merge_thr c; maxE := maxE c; maxD := maxD c; maxI := maxI c;
     optimize := optimize c; method := method c; subgroups := subgroups c; subinit := subinit c; mec2 := mec2 c |}.

Section B.
Variable np : numpy.
Hypothesis Hnp : numpy_ok np.
Variables (T t a r q m : R) (gs0 : list R) (bd : R * R) (cr : R).
Hypothesis Hm : 0 < m.
Let c0 := const_cfg T t a r q m gs0 Euler.
Let c := bounded bd cr c0.

Lemma bd_step left gs ns el ne g5 n5 : length ns = length gs -> gs <> [] -> all_pos gs ->
  let u := if Rltb (T - el) t then T - el else t in
  let gs' := map (sh_g a m u) gs in let ns' := map (sh_n r q u) ns in
  good np gs' ns' -> length n5 = length g5 ->
  (forall b d, lbs b = gs' -> update_distribution np b ns' = Ok d -> exists b5 m5,
     stage345 np c b ns' [repeat 1 (length gs)] d [repeat (0 + a, 0 + a) (length gs)] = Ok (b5, n5, [repeat 1 (length g5)], m5) /\ lbs b5 = g5 /\
     (forall A (x : A), exists p, remap m5 (repeat (Some x) (length gs)) (Some None) = Ok p /\ length p = length g5)) ->
  exists d b, lbs b = gs' /\ update_distribution np b ns' = Ok d /\
  step np c (sh_state a r q left gs ns el) ne = (d, Ok (sh_state a r q left g5 n5 (el + u))).
Proof.
  intros L Hne P u gs' ns' (G1 & G2 & G3 & G4 & G5 & G6) L5 HS.
  destruct (sh_eval np T t a r q m gs0 Euler Hm u gs ns L Hne P G3 G5) as (b & Hb & Ev).
  assert (Lb : lbs b = gs') by exact Hb.
  assert (Lg : length gs' = length gs) by apply map_length.
  assert (Lbl : length b = length gs) by (rewrite <- lbs_length, Lb; auto).
  assert (Ln' : length ns' = length b) by (rewrite Lbl, <- L; unfold ns'; apply map_length).
  destruct (update_ok np Hnp b ns') as [d Hd]; try rewrite Lb; auto.
  exists d, b. split; auto. split; auto.
  destruct (HS b d Lb Hd) as (b5 & m5 & H345 & Lb5 & HR).
  unfold step. unfold bindS at 1. unfold lift at 1.
  change (choose_step c) with (choose_step c0). unfold c0. rewrite sh_choose by auto. fold u. unfold bindS at 1. unfold apply_time_changes.
  unfold bindS at 1. unfold sh_state at 1 2 3. simpl st_bins. simpl st_dens. simpl st_subs. simpl mec2.
  unfold stage12. change (apply_time_eval np c) with (apply_time_eval np c0). unfold c0. rewrite Ev. unfold bindS at 1. unfold lift at 1. unfold set_distribution. fold ns'. rewrite Hd. simpl method.
  unfold bindS at 1 2 3. unfold lift at 1. unfold put, ret at 1 2. unfold lift at 1. rewrite H345.
  simpl optimize. unfold bindS at 1. unfold lift at 1. cbv iota beta zeta.
  assert (Emk : map (fun _ : R => true) n5 = repeat true (length g5)).
  { rewrite <- L5. clear. induction n5; simpl; auto. f_equal; auto. }
  rewrite Emk.
  assert (Eu : update_bin_ub b5 (repeat true (length g5)) = map mk_bin g5).
  { rewrite <- Lb5, lbs_length. clear. unfold update_bin_ub. induction b5 as [|x l IH]; simpl; auto. rewrite IH. auto. }
  rewrite Eu. unfold bindS at 1. unfold get at 1.
  unfold sh_state at 1 2 3. simpl st_en. simpl st_rel. simpl st_abs. unfold remap_dict. simpl mapM.
  destruct (HR _ (a, a)) as (p1 & -> & Lp1). destruct (HR _ r) as (p2 & -> & Lp2). destruct (HR _ q) as (p3 & -> & Lp3).
  cbn [bind]. rewrite lbs_mk. simpl en_fns. simpl abs_fns. simpl rel_fns.
  rewrite (recalc_const2 a); [|rewrite map_length; auto|right; split; auto; simpl; eexists; split; [reflexivity|auto]].
  rewrite recalc_const1; [|auto|right; split; auto; simpl; eexists; split; [reflexivity|auto]].
  rewrite recalc_const1; [|auto|right; split; auto; simpl; eexists; split; [reflexivity|auto]].
  reflexivity.
Qed.

(** one such step as a whole run *)
Lemma bd_run ne ns g5 n5 : T = t -> 0 < t -> gs0 <> [] -> all_pos gs0 -> snd (dist_call np ne gs0) = ns ->
  let gs' := map (sh_g a m t) gs0 in let ns' := map (sh_n r q t) ns in
  good np gs' ns' -> length n5 = length g5 ->
  (forall b d, lbs b = gs' -> update_distribution np b ns' = Ok d -> exists b5 m5,
     stage345 np c b ns' [repeat 1 (length gs0)] d [repeat (0 + a, 0 + a) (length gs0)] = Ok (b5, n5, [repeat 1 (length g5)], m5) /\ lbs b5 = g5 /\
     (forall A (x : A), exists p, remap m5 (repeat (Some x) (length gs0)) (Some None) = Ok p /\ length p = length g5)) ->
  exists d b x y, lbs b = gs' /\ update_distribution np b ns' = Ok d /\ evaluate np c 1 ne = (d, [x], Ok y) /\ r_gamma y = g5 /\ r_dens y = n5 /\ r_gamma x = g5.
Proof.
  intros ET Ht Hne P En gs' ns' HG L5 HS.
  assert (Ln : length ns = length gs0) by (rewrite <- En; apply dist_call_length).
  assert (Hi : initial_values np c ne = Ok (sh_state a r q (map (fun _ => Some 0) gs0) gs0 ns 0)) by exact (sh_initial np T t a r q m gs0 Euler ne ns Hne En).
  unfold evaluate. rewrite Hi. pose proof (bd_step (map (fun _ => Some 0) gs0) gs0 ns 0 ne g5 n5 Ln Hne P) as X. cbv zeta in X.
  assert (Eu : (if Rltb (T - 0) t then T - 0 else t) = t). { rewrite (proj2 (Rltb_false (T - 0) t)); auto. lra. }
  rewrite Eu in X. destruct (X HG L5 HS) as (d & b & Hb & Hd & Hst). cbn [loop]. change (total c) with T. simpl st_elapsed. rewrite (proj2 (Rltb_true 0 T)) by lra. rewrite Hst.
  simpl st_elapsed. rewrite (proj2 (Rltb_false (0 + t) T)) by lra. eexists d, b, _, _. split; [exact Hb|]. split; [exact Hd|]. split; [reflexivity|].
  simpl. rewrite lbs_mk. auto.
Qed.
End B.

(** a bin moved exactly onto the last admissible gamma while
    max_bin_creep_from_bounds = 0 *)
Definition ex_creep : cfg := bounded (1, 99 * (1 + bin_size_factor)) 0 (const_cfg 1 1 (-1) 0 0 1 [10; 100] Euler).
Lemma two_bins b (g1 g2 : R) : lbs b = [g1; g2] -> exists u1 u2, b = [(g1, u1); (g2, u2)].
Proof. destruct b as [|[x1 y1] [|[x2 y2] [|]]]; try discriminate. unfold lbs; simpl. intros E. assert (x1 = g1) by congruence. assert (x2 = g2) by congruence. subst. eauto. Qed.

Lemma ex_creep_run : exists d x y, evaluate np0 ex_creep 1 ex_ne = (d, [x], Ok y) /\ r_gamma y = [9; 99; 99] /\ r_dens y = [1; 1; 0].
Proof.
  destruct (bd_run np0 np0_ok 1 1 (-1) 0 0 1 [10; 100] (1, 99 * (1 + bin_size_factor)) 0 ltac:(lra) ex_ne [1; 1] [9; 99; 99] [1; 1; 0]) as (d & b & x & y & Hb & Hd & H & H1 & H2 & _); auto; try lra.
  - discriminate.
  - intros g Hg; simpl in Hg; intuition; subst; lra.
  - simpl. unfold correct_bounds, correct_first, correct_last. decide_R. simpl. decide_R. simpl. decide_R. reflexivity.
  - unfold good, sh_g, sh_n. simpl. split; [discriminate|]. split; auto. split; [intros g Hg; simpl in Hg; intuition; subst; lra|]. split.
    + intros [|[|i]] u v A B; simpl in A, B; try discriminate; try (destruct i; discriminate); injection A as <-; injection B as <-; apply log10_lt; lra.
    + split; [intros v Hg; intuition; subst; lra|]. right. simpl. decide_R. simpl. lia.
  - intros b d Hb Hd. assert (Hb' : lbs b = [9; 99]). { rewrite Hb. unfold sh_g. simpl. list_eq. } clear Hb.
    destruct (two_bins _ _ _ Hb') as (u1 & u2 & ->).
    assert (En : map (sh_n 0 0 1) [1; 1] = [1; 1]). { unfold sh_n. simpl. list_eq. } rewrite En in *.
    unfold stage345, sort_and_merge_bins. rewrite (sort_id np0 np0_ok); auto.
    2: { unfold lbs; simpl. intros g Hg. simpl in Hg. intuition; subst; lra. }
    2: { unfold lbs; simpl. intros [|[|i]] u v A B; simpl in A, B; try discriminate; try (destruct i; discriminate). injection A as <-; injection B as <-. apply log10_lt; lra. }
    simpl merge_thr. cbn [bind]. simpl bounds.
    change (remap_subgroups_density (map Z.of_nat (seq 0 (length [(9, u1); (99, u2)]))) [repeat 1 (length [10; 100])]) with (Ok [[1; 1]]). cbn [bind].
    unfold remove_gamma_beyond_bounds, in_bounds. cbn [map fst snd]. 
    assert (Eq : 99 * (1 + bin_size_factor) / (1 + bin_size_factor) = 99) by (unfold bin_size_factor; field; lra). rewrite Eq.
    decide_R. cbn [andb select mask_to_mapping length]. simpl. rewrite Eq.
    assert (El : Rleb 0 (log10 (99 * (1 + bin_size_factor)) - log10 99) = true).
    { apply Rleb_true. assert (log10 99 < log10 (99 * (1 + bin_size_factor))) by (apply log10_lt; unfold bin_size_factor; lra). lra. }
    unfold add_boundary_bins. simpl. rewrite El. rewrite (proj2 (Rltb_false 0 (0 + -1))) by lra. rewrite (proj2 (Rltb_true (0 + -1) 0)) by lra. rewrite andb_false_r. simpl. try rewrite Eq.
    eexists _, _. split; [reflexivity|]. split; [reflexivity|]. intros A z. eexists. split; [reflexivity|]. reflexivity.
  - exists d, x, y. auto.
Qed.

(** the bin below the lower bound is removed and a new bin inserted at the
    bound, inside the support of blob.n_e *)
Definition ex_inside : cfg := bounded (50, 10 ^ 6) (1 / 10) (const_cfg 1 1 1 0 0 1 [10; 100; 1000] Euler).
Lemma three_bins b (g1 g2 g3 : R) : lbs b = [g1; g2; g3] -> exists u1 u2 u3, b = [(g1, u1); (g2, u2); (g3, u3)].
Proof. destruct b as [|[x1 y1] [|[x2 y2] [|[x3 y3] [|]]]]; try discriminate. unfold lbs; simpl. intros E. assert (x1 = g1) by congruence. assert (x2 = g2) by congruence. assert (x3 = g3) by congruence. subst. eauto. Qed.

Lemma ex_inside_run : exists b d x y, lbs b = [11; 101; 1001] /\ update_distribution np0 b [1; 1; 1] = Ok d /\ evaluate np0 ex_inside 1 ex_ne = (d, [x], Ok y) /\ r_gamma y = [50; 101; 1001] /\ r_dens y = [0; 1; 1].
Proof.
  assert (En : map (sh_n 0 0 1) [1; 1; 1] = [1; 1; 1]). { unfold sh_n. simpl. list_eq. }
  assert (Eg : map (sh_g 1 1 1) [10; 100; 1000] = [11; 101; 1001]). { unfold sh_g. simpl. list_eq. }
  destruct (bd_run np0 np0_ok 1 1 1 0 0 1 [10; 100; 1000] (50, 10 ^ 6) (1 / 10) ltac:(lra) ex_ne [1; 1; 1] [50; 101; 1001] [0; 1; 1]) as (d & b & x & y & Hb & Hd & H & H1 & H2 & _); auto; try lra.
  - discriminate.
  - intros g Hg; simpl in Hg; intuition; subst; lra.
  - apply ex_n.
  - rewrite En, Eg. unfold good. split; [discriminate|]. split; auto. split; [intros g Hg; simpl in Hg; intuition; subst; lra|]. split.
    + intros [|[|[|i]]] u v A B; simpl in A, B; try discriminate; try (destruct i; discriminate); injection A as <-; injection B as <-; apply log10_lt; lra.
    + split; [intros v Hg; simpl in Hg; intuition; subst; lra|]. right. simpl. decide_R. simpl. lia.
  - rewrite En, Eg. intros b d Hb Hd.
    destruct (three_bins _ _ _ _ Hb) as (u1 & u2 & u3 & ->).
    unfold stage345, sort_and_merge_bins. rewrite (sort_id np0 np0_ok); auto.
    2: { unfold lbs; simpl. intros g Hg. simpl in Hg. intuition; subst; lra. }
    2: { unfold lbs; simpl. intros [|[|[|i]]] u v A B; simpl in A, B; try discriminate; try (destruct i; discriminate); injection A as <-; injection B as <-; apply log10_lt; lra. }
    simpl merge_thr. cbn [bind]. simpl bounds.
    change (remap_subgroups_density (map Z.of_nat (seq 0 (length [(11, u1); (101, u2); (1001, u3)]))) [repeat 1 (length [10; 100; 1000])]) with (Ok [[1; 1; 1]]). cbn [bind].
    unfold remove_gamma_beyond_bounds, in_bounds. cbn [map fst snd]. unfold bin_size_factor. decide_R. cbn [andb select mask_to_mapping length].
    match goal with |- context [add_boundary_bins ?n ?cc ?bd ?bb ?er] => 
      assert (Ea : add_boundary_bins n cc bd bb er = Ok ([(50, 0); (101, u2); (1001, u3)], [(-1)%Z; 0%Z; 1%Z])) end.
    { unfold add_boundary_bins. cbn [fst snd creep ex_inside bounded].
      assert (El : Rleb (1 / 10) (lg np0 101 - lg np0 50) = true).
      { apply Rleb_true. change (lg np0) with log10. assert (H2 : log10 2 <= log10 101 - log10 50).
        { replace 101 with (50 * (101 / 50)) by lra. rewrite log10_mul by lra. assert (log10 2 < log10 (101 / 50)) by (apply log10_lt; lra). lra. }
        assert (H10 : 1 < 10 * log10 2). { rewrite <- log10_10 at 1. replace (10 * log10 2) with (log10 (2 ^ 10)). apply log10_lt; lra.
          replace (2 ^ 10) with (2 * (2 * (2 * (2 * (2 * (2 * (2 * (2 * (2 * 2))))))))) by lra. rewrite !log10_mul by lra. lra. }
        lra. }
      simpl. simpl in El. rewrite El. rewrite (proj2 (Rltb_true 0 (0 + 1))) by lra. rewrite (proj2 (Rltb_false (0 + 1) 0)) by lra. rewrite andb_false_r. reflexivity. }
    rewrite Ea. 
    eexists _, _. split; [reflexivity|]. split; [reflexivity|]. intros A z. eexists. split; [reflexivity|]. reflexivity.
  - exists b, d, x, y. rewrite En, Eg in *. auto.
Qed.
