(** Properties C22, C23, C73 and the boundary-bin sentences of C04 and C08. *)
From Verif Require Import Base TEUtils TimeEvolution ListFacts TEIndexFacts TEStageFacts TEStepFacts TELoopFacts TEInv TEForward TEZero TEZeroRun NumpyInst Spec_TE TEThm1 TEThm2 TEReach Spec_Init TEShift TEExamples TEExamples2 TEAgree TERestart TEBounded TEBoundary.

Lemma correct_inside lo hi l : (forall g, In g l -> lo <= g <= hi) -> correct_bounds lo hi l = l.
Proof.
  intros H. assert (E1 : correct_first lo l = l).
  { unfold correct_first. destruct l as [|a l]; auto. rewrite (proj2 (Rltb_false a lo)); auto. apply H; simpl; auto. }
  unfold correct_bounds. rewrite E1. unfold correct_last. destruct (rev l) as [|a k] eqn:E. { destruct l; auto. simpl in E. destruct (rev l); discriminate. }
  rewrite (proj2 (Rltb_false hi a)); auto. apply H. apply in_rev. rewrite E. simpl; auto.
Qed.

Lemma log10_1 : log10 1 = 0.
Proof. unfold log10. rewrite ln_1. field. pose proof ln10_pos; lra. Qed.
Lemma final_lengths np c fuel ne ne' recs r : numpy_ok np -> valid c -> evaluate np c fuel ne = (ne', recs, Ok r) -> length (r_dens r) = length (r_gamma r).
Proof.
  intros Hnp Hv H. destruct (evaluate_steps np c (fun _ s => aligned c s) (fun _ _ => True) fuel ne ne' recs (Ok r)) as (_ & H2); auto.
  { intros s0 Hi. apply (initial_aligned np c ne s0 (valid_split c Hv) Hi). }
  { intros s d d' s' Ha _ Hst. split; auto. apply (step_spec np Hnp c (v_mec _ Hv) s d d' s' Ha Hst). }
  destruct (H2 r eq_refl) as (s & -> & Ha & _). simpl. rewrite lbs_length. apply Ha.
Qed.

(** ** C22 *)
(** blob.n_e at a returned gamma gives the returned density wherever that is
    not zero; if no density is zero, blob.n_e(gamma) is the returned array *)
Theorem C22_agreement np c fuel ne ne' recs r : numpy_ok np -> numpy_exact np -> valid c ->
  evaluate np c fuel ne = (ne', recs, Ok r) -> recs <> [] ->
  (forall i g v, nth_error (r_gamma r) i = Some g -> nth_error (r_dens r) i = Some v -> v <> 0 -> dist_eval np ne' g = v) /\
  ((forall v, In v (r_dens r) -> v <> 0) -> dist_call np ne' (r_gamma r) = (r_gamma r, r_dens r)).
Proof.
  intros Hnp Hex Hv H Hne.
  destruct (evaluate_steps np c (fun _ s => aligned c s)
     (fun d s => (forall i g v, nth_error (lbs (st_bins s)) i = Some g -> nth_error (st_dens s) i = Some v -> v = dist_eval np d g \/ v = 0) /\ exists b n, update_distribution np b n = Ok d) fuel ne ne' recs (Ok r)) as (_ & H2); auto.
  { intros s0 Hi. apply (initial_aligned np c ne s0 (valid_split c Hv) Hi). }
  { intros s d d' s' Ha _ Hst. destruct (step_spec np Hnp c (v_mec _ Hv) s d d' s' Ha Hst) as (Ha' & _ & _ & Hu & _). split; auto. split; auto.
    apply (step_agrees np Hnp Hex c s d d' s' (v_mec _ Hv) Ha Hst). }
  destruct (H2 r eq_refl) as (s & -> & Ha & _ & [(E & _)|((HP & b & n & Hu) & _)]); [congruence|]. cbn [final_report r_gamma r_dens].
  assert (G : forall i g v, nth_error (lbs (st_bins s)) i = Some g -> nth_error (st_dens s) i = Some v -> v <> 0 -> dist_eval np ne' g = v).
  { intros i g v Hg Hv' Hz. destruct (HP i g v Hg Hv'); [auto|contradiction]. }
  split; [exact G|]. intros Hnz.
  assert (L : length (st_dens s) = length (lbs (st_bins s))) by (rewrite lbs_length; apply Ha).
  assert (E : map (dist_eval np ne') (lbs (st_bins s)) = st_dens s).
  { apply nth_error_ext'. intros i. rewrite nth_error_map. destruct (nth_error (lbs (st_bins s)) i) as [g|] eqn:Eg; simpl.
    - destruct (nth_error_Some_ex (st_dens s) i) as [v Ev]. { rewrite L. eapply nth_error_lt; eauto. }
      rewrite Ev. f_equal. apply (G i g v Eg Ev). apply Hnz. eapply nth_error_In; eauto.
    - symmetry. apply nth_error_None. apply nth_error_None in Eg. lia. }
  assert (Hin : forall g, In g (lbs (st_bins s)) -> dist_eval np ne' g <> 0). { intros g Hg. apply Hnz. rewrite <- E. apply in_map. auto. }
  assert (C : forall lo hi, (forall g, dist_eval np ne' g <> 0 -> lo <= g <= hi) -> correct_bounds lo hi (lbs (st_bins s)) = lbs (st_bins s)).
  { intros lo hi Hb. apply correct_inside. intros g Hg. apply Hb. apply Hin. auto. }
  assert (S : forall lo hi g (x : R), (if Rleb lo g && Rleb g hi then x else 0) <> 0 -> lo <= g <= hi).
  { intros lo hi g x Hx. destruct (Rleb_spec lo g); destruct (Rleb_spec g hi); simpl in Hx; try (split; lra); congruence. }
  destruct ne' as [f lo hi|xs ns|lo hi]; cbn [dist_call].
  - rewrite C by (intros g; apply S). rewrite E. auto.
  - rewrite C by (intros g; apply S). rewrite E. auto.
  - rewrite E. auto.
Qed.
Print Assumptions C22_agreement.

(** outside the support of blob.n_e the returned density is zero *)
Theorem C22_outside np c fuel ne xs ns recs r : numpy_ok np -> numpy_exact np -> valid c ->
  evaluate np c fuel ne = (DInterp xs ns, recs, Ok r) -> recs <> [] ->
  forall i g v, nth_error (r_gamma r) i = Some g -> nth_error (r_dens r) i = Some v -> (forall x, In x xs -> g < x) \/ (forall x, In x xs -> x < g) -> xs <> [] -> v = 0.
Proof.
  intros Hnp Hex Hv H Hne i g v Hg Hv' Hout Hxs. destruct (Req_dec v 0); auto. exfalso.
  pose proof (proj1 (C22_agreement np c fuel ne _ recs r Hnp Hex Hv H Hne) i g v Hg Hv' H0) as E. apply H0. rewrite <- E. cbn [dist_eval].
  destruct Hout as [Ho|Ho].
  - rewrite (proj2 (Rleb_false (list_min xs) g)); auto. apply Ho. apply list_min_In; auto.
  - rewrite (proj2 (Rleb_false g (list_max xs))); [rewrite andb_false_r; auto|]. apply Ho. apply list_max_In; auto.
Qed.
Print Assumptions C22_outside.

(** an EmptyDistribution (whose gamma_min and gamma_max are arrays): every
    returned density is zero *)
Theorem C22_empty np c fuel ne lo hi recs r : numpy_ok np -> numpy_exact np -> valid c ->
  evaluate np c fuel ne = (DEmpty lo hi, recs, Ok r) -> recs <> [] -> forall v, In v (r_dens r) -> v = 0.
Proof.
  intros Hnp Hex Hv H Hne v Hin. pose proof (final_lengths np c fuel ne _ recs r Hnp Hv H) as L. destruct (Req_dec v 0); auto. apply In_nth_error in Hin as [i Hi].
  destruct (nth_error_Some_ex (r_gamma r) i) as [g Hg]. { rewrite <- L. eapply nth_error_lt; eauto. }
  pose proof (proj1 (C22_agreement np c fuel ne _ recs r Hnp Hex Hv H Hne) i g v Hg Hi H0) as E. simpl in E. auto.
Qed.
Print Assumptions C22_empty.

Example C22_case : exists d recs r, evaluate np0 (ex_move Euler) 2 ex_ne = (d, recs, Ok r) /\ recs <> [] /\ valid (ex_move Euler) /\ numpy_ok np0 /\ numpy_exact np0 /\
  r_gamma r = [8; 98; 998] /\ (forall v, In v (r_dens r) -> v <> 0).
Proof.
  destruct (ex_move_run Euler) as (d & recs & r & H & L & H1 & H2). exists d, recs, r. split; auto. split; [destruct recs; discriminate|].
  split; [constructor; simpl; try lra; discriminate|]. split; [apply np0_ok|]. split; [apply np0_exact|]. split; auto. rewrite H2. simpl. intros v Hv. intuition; subst; lra.
Qed.

(** the exceptions: an interior bin of zero density, where blob.n_e
    interpolates; *)
Definition gap_ne : dist := DOrig (fun g => if Reqb g 100 then 0 else 1) 1 (10 ^ 5).
Definition rest_cfg : cfg := const_cfg 1 1 0 0 0 1 [10; 100; 1000] Euler.
Theorem C22_zero_inside : exists d recs r, evaluate np0 rest_cfg 1 gap_ne = (d, recs, Ok r) /\ recs <> [] /\ valid rest_cfg /\
  nth_error (r_gamma r) 1 = Some 100 /\ nth_error (r_dens r) 1 = Some 0 /\ dist_eval np0 d 100 = 1.
Proof.
  assert (Eg : after_g 1 0 1 1 [10; 100; 1000] = [10; 100; 1000]) by (unfold after_g; simpl; list_eq).
  assert (En : after_n 1 0 0 1 [1; 0; 1] = [1; 0; 1]) by (unfold after_n, sh_n; simpl; list_eq).
  destruct (sh_run np0 np0_ok 1 1 0 0 0 1 [10; 100; 1000] Euler ltac:(lra) ltac:(lra) ltac:(lra) 1 gap_ne [1; 0; 1]) as (d & recs & r & H1 & H2 & H3 & H4 & H5 & _ & H6).
  - simpl. lra.
  - discriminate.
  - intros g Hg; simpl in Hg; intuition; subst; lra.
  - simpl. unfold correct_bounds, correct_first, correct_last. decide_R. simpl. decide_R. simpl. decide_R. reflexivity.
  - intros i Hi. assert (i = 1%nat) by lia. subst i. rewrite Eg, En. split; [discriminate|]. split; auto. split; [intros g Hg; simpl in Hg; intuition; subst; lra|]. split.
    + intros [|[|[|i]]] u v A B; simpl in A, B; try discriminate; try (destruct i; discriminate); injection A as <-; injection B as <-; apply log10_lt; lra.
    + split; [intros v Hg; simpl in Hg; intuition; subst; lra|]. right. simpl. decide_R. simpl. lia.
  - destruct H6 as (b & Hb & Hu); [lia|]. rewrite Eg in *. rewrite En in *. exists d, recs, r. split; [exact H1|]. split; [destruct recs; discriminate|].
    split; [constructor; simpl; try lra; discriminate|]. rewrite H4, H5. split; auto. split; auto.
    destruct (three_bins _ _ _ _ Hb) as (u1 & u2 & u3 & ->). unfold update_distribution in Hu. rewrite (sort_id np0 np0_ok) in Hu; auto.
    + cbn [forallb length Nat.eqb] in Hu. rewrite (proj2 (Reqb_false 1 0)) in Hu by lra. cbn [andb] in Hu. unfold interpolated in Hu. cbn [map lbs] in Hu.
      rewrite (proj2 (Reqb_false 1 0)), (proj2 (Reqb_true 0 0)) in Hu by lra. cbn in Hu. rewrite (proj2 (Rltb_true (log10 10) (log10 1000))) in Hu by (apply log10_lt; lra). cbn in Hu. injection Hu as <-.
      cbn [dist_eval]. unfold list_min, list_max. cbn [fold_left fold_right].
      rewrite Rmin_left, Rmax_right by lra. decide_R. cbn. rewrite (proj2 (Rleb_true (log10 100) (log10 1000))) by (apply Rlt_le, log10_lt; lra).
      rewrite log10_1. unfold pow10. replace ((0 + (0 - 0) * ((log10 100 - log10 10) / (log10 1000 - log10 10))) * ln 10) with 0 by ring. apply exp_0.
    + unfold lbs; simpl. intros g Hg. simpl in Hg. intuition; subst; lra.
    + unfold lbs; simpl. intros [|[|[|i]]] u v A B; simpl in A, B; try discriminate; try (destruct i; discriminate); injection A as <-; injection B as <-; apply log10_lt; lra.
Qed.
Print Assumptions C22_zero_inside.
(** and a boundary bin inserted within the support of blob.n_e *)
Theorem C22_boundary_inside : exists d recs r, evaluate np0 ex_inside 1 ex_ne = (d, recs, Ok r) /\ recs <> [] /\ valid ex_inside /\
  nth_error (r_gamma r) 0 = Some 50 /\ nth_error (r_dens r) 0 = Some 0 /\ dist_eval np0 d 50 = 1.
Proof.
  destruct ex_inside_run as (b & d & x & r & Hb & Hu & H & H1 & H2). exists d, [x], r. split; auto. split; [discriminate|].
  split; [constructor; simpl; try lra; discriminate|]. rewrite H1, H2. split; auto. split; auto.
  destruct (three_bins _ _ _ _ Hb) as (u1 & u2 & u3 & ->). unfold update_distribution in Hu. rewrite (sort_id np0 np0_ok) in Hu; auto.
  - cbn [forallb length Nat.eqb] in Hu. rewrite (proj2 (Reqb_false 1 0)) in Hu by lra. cbn [andb] in Hu. unfold interpolated in Hu. cbn [map lbs] in Hu.
    rewrite (proj2 (Reqb_false 1 0)) in Hu by lra. cbn in Hu. rewrite (proj2 (Rltb_true (log10 11) (log10 101))), (proj2 (Rltb_true (log10 101) (log10 1001))) in Hu by (apply log10_lt; lra).
    cbn in Hu. injection Hu as <-. cbn [dist_eval]. unfold list_min, list_max. cbn [fold_left fold_right].
    rewrite (Rmin_left 11 101), (Rmin_left 11 1001), (Rmax_right 11 101), (Rmax_right 101 1001) by lra. decide_R. cbn. rewrite (proj2 (Rleb_true (log10 50) (log10 101))) by (apply Rlt_le, log10_lt; lra).
    rewrite log10_1. unfold pow10. replace ((0 + (0 - 0) * ((log10 50 - log10 11) / (log10 101 - log10 11))) * ln 10) with 0 by ring. apply exp_0.
  - unfold lbs; simpl. intros g Hg. simpl in Hg. intuition; subst; lra.
  - unfold lbs; simpl. intros [|[|[|i]]] u v A B; simpl in A, B; try discriminate; try (destruct i; discriminate); injection A as <-; injection B as <-; apply log10_lt; lra.
Qed.
Print Assumptions C22_boundary_inside.

(** a run that ends with an EmptyDistribution, gamma_min the array of gammas *)
Example C22_empty_case : exists hi recs r, evaluate np0 rest_cfg 1 (DOrig (fun _ => 0) 1 (10 ^ 5)) = (DEmpty [10; 100; 1000] hi, recs, Ok r) /\ recs <> [] /\ valid rest_cfg.
Proof.
  assert (Eg : after_g 1 0 1 1 [10; 100; 1000] = [10; 100; 1000]) by (unfold after_g; simpl; list_eq).
  assert (En : after_n 1 0 0 1 [0; 0; 0] = [0; 0; 0]) by (unfold after_n, sh_n; simpl; list_eq).
  destruct (sh_run np0 np0_ok 1 1 0 0 0 1 [10; 100; 1000] Euler ltac:(lra) ltac:(lra) ltac:(lra) 1 (DOrig (fun _ => 0) 1 (10 ^ 5)) [0; 0; 0]) as (d & recs & r & H1 & H2 & H3 & H4 & H5 & _ & H6).
  - simpl. lra.
  - discriminate.
  - intros g Hg; simpl in Hg; intuition; subst; lra.
  - simpl. unfold correct_bounds, correct_first, correct_last. decide_R. simpl. decide_R. simpl. decide_R. reflexivity.
  - intros i Hi. assert (i = 1%nat) by lia. subst i. rewrite Eg, En. split; [discriminate|]. split; auto. split; [intros g Hg; simpl in Hg; intuition; subst; lra|]. split.
    + intros [|[|[|i]]] u v A B; simpl in A, B; try discriminate; try (destruct i; discriminate); injection A as <-; injection B as <-; apply log10_lt; lra.
    + split; [intros v Hg; simpl in Hg; intuition; subst; lra|]. left. simpl. intros v Hv. intuition.
  - destruct H6 as (b & Hb & Hu); [lia|]. rewrite Eg in *. rewrite En in *.
    destruct (three_bins _ _ _ _ Hb) as (u1 & u2 & u3 & ->). unfold update_distribution in Hu. rewrite (sort_id np0 np0_ok) in Hu; auto.
    + cbn [forallb] in Hu. rewrite (proj2 (Reqb_true 0 0)) in Hu by lra. cbn in Hu. injection Hu as <-. eexists _, recs, r. split; [exact H1|]. split; [destruct recs; discriminate|].
      constructor; simpl; try lra; discriminate.
    + unfold lbs; simpl. intros g Hg. simpl in Hg. intuition; subst; lra.
    + unfold lbs; simpl. intros [|[|[|i]]] u v A B; simpl in A, B; try discriminate; try (destruct i; discriminate); injection A as <-; injection B as <-; apply log10_lt; lra.
Qed.

(** ** C23 *)
(** stopping the loop after [k] passes and going on from there *)
Theorem C23_loop np c : forall k m s ne d tr s1, loop np c k s ne = (d, tr, Err OutOfFuel) -> length tr = k -> s1 = last tr s ->
  loop np c (k + m) s ne = let '(d2, tr2, out) := loop np c m s1 d in (d2, tr ++ tr2, out).
Proof.
  induction k as [|k IH]; intros m s ne d tr s1 H L E.
  - destruct tr; [|discriminate]. simpl in E. subst s1. simpl in H. destruct (Rltb (st_elapsed s) (total c)); [|discriminate]. injection H as <-. simpl.
    destruct (loop np c m s ne) as [[? ?] ?]. auto.
  - destruct tr as [|s2 tr]; [discriminate|]. cbn [loop plus] in H |- *. destruct (Rltb (st_elapsed s) (total c)); [|discriminate].
    destruct (step np c s ne) as [ne1 [s'|e]] eqn:Es; [|discriminate]. destruct (loop np c k s' ne1) as [[ne2 tr2] r2] eqn:El. injection H as <- <- <- ->.
    assert (E' : s1 = last tr2 s'). { rewrite E. destruct tr2; auto. simpl. clear. revert t. induction tr2; intros; simpl; auto. }
    rewrite (IH m s' ne1 ne2 tr2 s1 El) by (simpl in L; auto; lia). destruct (loop np c m s1 ne2) as [[? ?] ?]. auto.
Qed.
Print Assumptions C23_loop.

(** at the level of the API: evaluating for k full steps, building a new
    TimeEvolution on the same blob from the returned gammas and subgroup table,
    and evaluating it for T2 gives what one evaluation for k steps + T2 gives
    (records of the second run counted from its own start) *)
Theorem C23_restart np c h k T2 fuel1 fuel2 ne ne1 recs1 r1 : numpy_ok np -> valid c -> optimize c = false -> stepd c = Fixed h -> 0 < h -> (1 <= k)%nat -> 0 <= T2 ->
  evaluate np (with_total (INR k * h) c) fuel1 ne = (ne1, recs1, Ok r1) ->
  dist_call np ne1 (r_gamma r1) = (r_gamma r1, r_dens r1) ->
  let '(ne2, recs2, out2) := evaluate np (restart T2 r1 c) fuel2 ne1 in
  evaluate np (with_total (INR k * h + T2) c) (length recs1 + fuel2) ne = (ne2, recs1 ++ map (later (INR k * h)) recs2, rmap (later (INR k * h)) out2).
Proof.
  intros Hnp Hv Ho Eh Hh Hk H2 H Hd. set (T1 := INR k * h) in *.
  assert (HT : 0 < T1). { unfold T1. apply Rmult_lt_0_compat; auto. apply lt_0_INR. lia. }
  assert (Hv1 : valid (with_total T1 c)) by (destruct Hv; constructor; auto).
  unfold evaluate in H |- *.
  change (initial_values np (with_total (T1 + T2) c) ne) with (initial_values np (with_total T1 c) ne).
  destruct (initial_values np (with_total T1 c) ne) as [s0|] eqn:E0; [|discriminate].
  destruct (loop np (with_total T1 c) fuel1 s0 ne) as [[d1 tr1] o1] eqn:El.
  injection H as -> <- Eo. destruct o1 as [s1|]; [|discriminate]. injection Eo as <-.
  destruct (initial_aligned np (with_total T1 c) ne s0 (valid_split _ Hv1) E0) as (Ha0 & Et0 & _).
  destruct (first_part np c Ho h k T2 Eh Hh H2 fuel1 0%nat s0 ne ne1 tr1 s1) as (Et1 & Hlong); [lia|rewrite Et0; simpl; lra|exact El|]. fold T1 in Et1, Hlong.
  set (P := fun d s => (forall b, In b (st_bins s) -> fresh_bin b) /\ fresh_rates shape2 (en_fns c) d (st_bins s) (st_dens s) (st_subs s) (st_en s) /\
        fresh_rates shape1 (rel_fns c) d (lbs (st_bins s)) (st_dens s) (st_subs s) (st_rel s) /\ fresh_rates shape1 (abs_fns c) d (lbs (st_bins s)) (st_dens s) (st_subs s) (st_abs s)).
  assert (Hstep : forall s d d' s', reached np (with_total T1 c) ne d s -> st_elapsed s < total (with_total T1 c) -> step np (with_total T1 c) s d = (d', Ok s') -> reached np (with_total T1 c) ne d' s' /\ P d' s').
  { intros s d d' s' Hr Hlt Hst. split; [eapply after_pass; eauto|].
    apply (step_fresh np Hnp (with_total T1 c) (v_mec _ Hv1) s d d' s' (reached_aligned np Hnp _ Hv1 ne d s Hr) Ho Hst). }
  destruct (loop_steps np (with_total T1 c) (fun d s => reached np (with_total T1 c) ne d s) P Hstep fuel1 s0 ne ne1 tr1 (Ok s1) (at_start np (with_total T1 c) ne s0 E0) El) as (_ & Hfin).
  destruct (Hfin s1 eq_refl) as (Hr1 & _ & [(_ & -> & _)|((F0 & F1 & F2 & F3) & _)]); [lra|].
  pose proof (reached_aligned np Hnp _ Hv1 ne _ s1 Hr1) as Ha1.
  rewrite (restart_initial np c T2 ne1 s1); auto.
  2: { destruct Ha1; constructor; auto. }
  2: { intros Hg. apply (reached_ones np Hnp _ Hv1 ne ne1 s1 Hg Hr1). }
  change (loop np (restart T2 (final_report s1) c)) with (loop np (with_total T2 c)).
  pose proof (second_part np c Ho T1 T2 (map (fun _ => Some 0) (st_bins s1)) fuel2 s1 ne1) as Hsec. rewrite Et1, Rminus_eq_0 in Hsec. rewrite Hsec.
  rewrite map_length, Hlong. destruct (loop np (with_total (T1 + T2) c) fuel2 s1 ne1) as [[ne2 tr2] r2].
  assert (Ec : forall s, later T1 (callback_report (retime (map (fun _ => Some 0) (st_bins s1)) (st_elapsed s - T1) s)) = callback_report s).
  { intros s. unfold later, callback_report, retime. simpl. f_equal. lra. }
  f_equal; [f_equal|].
  - rewrite map_app. f_equal. rewrite !map_map. apply map_ext. intros s. rewrite Ec. auto.
  - destruct r2 as [s|]; auto. simpl. f_equal. unfold later, final_report, retime. simpl. f_equal. lra.
Qed.
Print Assumptions C23_restart.
(** blob.n_e reproduces the returned table if no returned density is zero (C22) *)
Theorem C23_restart_positive np c h k T2 fuel1 fuel2 ne ne1 recs1 r1 : numpy_ok np -> numpy_exact np -> valid c -> optimize c = false -> stepd c = Fixed h -> 0 < h -> (1 <= k)%nat -> 0 <= T2 ->
  evaluate np (with_total (INR k * h) c) fuel1 ne = (ne1, recs1, Ok r1) -> (forall v, In v (r_dens r1) -> v <> 0) ->
  let '(ne2, recs2, out2) := evaluate np (restart T2 r1 c) fuel2 ne1 in
  evaluate np (with_total (INR k * h + T2) c) (length recs1 + fuel2) ne = (ne2, recs1 ++ map (later (INR k * h)) recs2, rmap (later (INR k * h)) out2).
Proof.
  intros Hnp Hex Hv Ho Eh Hh Hk H2 H Hnz. eapply C23_restart; eauto.
  assert (Hv1 : valid (with_total (INR k * h) c)) by (destruct Hv; constructor; auto).
  assert (HT : 0 < INR k * h). { apply Rmult_lt_0_compat; auto. apply lt_0_INR. lia. }
  apply (C22_agreement np (with_total (INR k * h) c) fuel1 ne ne1 recs1 r1); auto.
  intros ->. destruct (evaluate_steps np (with_total (INR k * h) c) (fun _ s => True) (fun _ _ => True) fuel1 ne ne1 [] (Ok r1)) as (_ & X); auto.
  destruct (X r1 eq_refl) as (s & _ & _ & Hle & [(_ & _ & Hi)|(_ & pre & E)]); [|destruct pre; discriminate].
  apply initial_aligned in Hi as (_ & Et & _); [|apply valid_split; auto]. simpl in Hle. lra.
Qed.
Print Assumptions C23_restart_positive.
Example C23_case : exists ne1 recs1 r1, evaluate np0 (with_total (INR 2 * 1) (ex_move Heun)) 2 ex_ne = (ne1, recs1, Ok r1) /\ (forall v, In v (r_dens r1) -> v <> 0) /\
  valid (ex_move Heun) /\ optimize (ex_move Heun) = false /\ stepd (ex_move Heun) = Fixed 1.
Proof.
  destruct (ex_move_run Heun) as (d & recs & r & H & L & H1 & H2). exists d, recs, r.
  assert (E : with_total (INR 2 * 1) (ex_move Heun) = ex_move Heun). { unfold with_total, ex_move, const_cfg. simpl. f_equal. lra. }
  rewrite E. split; auto. split; [rewrite H2; simpl; intros v Hv; intuition; subst; lra|]. split; [constructor; simpl; try lra; discriminate|]. auto.
Qed.

(** ** C04 *)
(** max_bin_creep_from_bounds = 0: a duplicate of the last gamma is inserted *)
Theorem C04_small_creep : exists d recs r, evaluate np0 ex_creep 1 ex_ne = (d, recs, Ok r) /\ valid ex_creep /\ creep ex_creep = 0 /\ increasing (g0 ex_creep) /\ r_gamma r = [9; 99; 99].
Proof.
  destruct ex_creep_run as (d & x & r & H & H1 & H2). exists d, [x], r. split; auto. split; [constructor; simpl; try lra; discriminate|]. split; auto. split; auto.
  intros [|[|i]] a b [A B]; simpl in A, B; try discriminate; try (destruct i; discriminate). injection A as <-; injection B as <-. lra.
Qed.
Print Assumptions C04_small_creep.

(** ** C08, C73 *)
(** after a step with gamma_bounds (lo, hi) the arrays are those of the bins
    that survived (all within the bounds), framed by the inserted boundary bins:
    density 0, fraction 1 in the first subgroup and 0 in the others *)
Theorem C08_boundary_bins np c ne d s d' s' lo hi : numpy_ok np -> valid c -> bounds c = Some (lo, hi) ->
  reached np c ne d s -> step np c s d = (d', Ok s') ->
  exists gs ns rows low high, gs <> [] /\ length ns = length gs /\ (forall r, In r rows -> length r = length gs) /\
    (forall g, In g gs -> lo <= g <= hi / (1 + 1 / 10000)) /\
    map fst (st_bins s') = framed low high lo (hi / (1 + 1 / 10000)) gs /\ st_dens s' = framed low high 0 0 ns /\
    st_subs s' = match rows with [] => [] | r0 :: rs => framed low high 1 1 r0 :: map (framed low high 0 0) rs end.
Proof.
  intros Hnp Hv Hb Hr Hst. destruct (step_boundary np Hnp c s d d' s' lo hi (v_mec _ Hv) (reached_aligned np Hnp c Hv ne d s Hr) Hb Hst)
    as (rf & rl & gs & ns & rows & low & high & H1 & H2 & H3 & H4 & H5 & H6 & H7 & _). exists gs, ns, rows, low, high. auto 10.
Qed.
Print Assumptions C08_boundary_bins.
(** one group, Euler: when boundary bins are inserted *)
Theorem C73_when_inserted np c ne d s d' s' lo hi : numpy_ok np -> valid c -> bounds c = Some (lo, hi) -> method c = Euler -> subgroups c = None ->
  reached np c ne d s -> step np c s d = (d', Ok s') ->
  exists gs low high, gs <> [] /\ (forall g, In g gs -> lo <= g <= hi / (1 + 1 / 10000)) /\
    map fst (st_bins s') = framed low high lo (hi / (1 + 1 / 10000)) gs /\
    (low = true <-> creep c <= lg np (hd 0 gs) - lg np lo /\ 0 < total_edge_rate fst (st_en s) 0) /\
    (high = true <-> creep c <= lg np hi - lg np (last gs 0) /\ total_edge_rate fst (st_en s) (length (st_bins s) - 1) < 0).
Proof.
  intros Hnp Hv Hb Hm Hg Hr Hst. destruct (step_boundary np Hnp c s d d' s' lo hi (v_mec _ Hv) (reached_aligned np Hnp c Hv ne d s Hr) Hb Hst)
    as (rf & rl & gs & ns & rows & low & high & H1 & H2 & H3 & H4 & H5 & H6 & H7 & H8 & H9 & H10). destruct (H10 Hm Hg) as (<- & <-). exists gs, low, high. auto 10.
Qed.
Print Assumptions C73_when_inserted.
Example C73_case : exists d s d' s', reached np0 ex_inside ex_ne d s /\ step np0 ex_inside s d = (d', Ok s') /\ valid ex_inside /\ bounds ex_inside = Some (50, 10 ^ 6) /\
  method ex_inside = Euler /\ subgroups ex_inside = None /\ map fst (st_bins s) = [10; 100; 1000] /\ map fst (st_bins s') = [50; 101; 1001].
Proof.
  destruct ex_inside_run as (b & d & x & r & _ & _ & H & H1 & _). unfold evaluate in H. destruct (initial_values np0 ex_inside ex_ne) as [s|] eqn:Ei; [|discriminate].
  destruct (loop np0 ex_inside 1 s ex_ne) as [[d1 tr] o] eqn:El. assert (Hv : valid ex_inside) by (constructor; simpl; try lra; discriminate).
  destruct (initial_aligned np0 ex_inside ex_ne s (valid_split _ Hv) Ei) as (_ & Et & Eg & _).
  cbn [loop] in El. rewrite Et in El. simpl total in El. rewrite (proj2 (Rltb_true 0 1)) in El by lra. destruct (step np0 ex_inside s ex_ne) as [d' [s'|]] eqn:Es.
  2: { injection El as <- <- <-. discriminate. }
  exists ex_ne, s, d', s'. split; [apply at_start; auto|]. split; auto. split; auto. split; auto. split; auto. split; auto. split; [exact Eg|].
  destruct (Rltb (st_elapsed s') 1); injection El as <- <- <-; [discriminate|]. simpl in H. injection H as _ _ <-. exact H1.
Qed.
