(** C99: what becomes of the results that a callback keeps *)
From Verif Require Import Base TEUtils TimeEvolution Records Spec_TE NumpyInst TEExamples TEThm1 TELoopFacts TEInitFacts Props_TE1.

Lemma read_write h a v : (a < length h)%nat -> read (write h a v) a = v.
Proof. revert a. induction h as [|x h IH]; intros [|a] H; simpl in *; try lia; auto. unfold read in *. simpl. apply IH. lia. Qed.
Lemma read_other h a v a' : a' <> a -> read (write h a v) a' = read h a'.
Proof. revert a a'. induction h as [|x h IH]; intros [|a] [|a'] H; simpl; auto; try congruence. unfold read in *. simpl. apply IH. congruence. Qed.
Lemma write_length h a v : length (write h a v) = length h.
Proof. revert a. induction h as [|x h IH]; intros [|a]; simpl; auto. Qed.
Lemma with_same s : with_elapsed s (st_elapsed s) = s.
Proof. destruct s; reflexivity. Qed.
Lemma look_own h k t : read h (k_time k) = t -> r_time (k_rest k) = t -> look h k = k_rest k.
Proof. intros H1 H2. unfold look. rewrite H1, <- H2. destruct (k_rest k); reflexivity. Qed.

Section Run.
Variables (np : numpy) (c : cfg).

(** the object run and the run of TimeEvolution.v go together *)
Lemma object_loop_spec fuel : forall h a s ne ne' tr r, (a < length h)%nat -> read h a = st_elapsed s -> loop np c fuel s ne = (ne', tr, r) ->
  exists h' ks, object_loop np c fuel h a s ne = (h', ne', ks, r) /\ length h' = length h /\
    map (fun kh => look (snd kh) (fst kh)) ks = map callback_report tr /\
    (forall k h0, In (k, h0) ks -> k_time k = a) /\
    (forall s', r = Ok s' -> read h' a = st_elapsed s') /\
    (forall a', a' <> a -> read h' a' = read h a').
Proof.
  induction fuel as [|fuel IH]; intros h a s ne ne' tr r Ha Hr H; cbn [loop object_loop] in *; rewrite Hr, ?with_same.
  - destruct (Rltb (st_elapsed s) (total c)); injection H as <- <- <-; exists h, []; repeat split; auto; try discriminate; try (intros ? ? []). intros s' E. injection E as <-. auto.
  - destruct (Rltb (st_elapsed s) (total c)).
    2: { injection H as <- <- <-; exists h, []; repeat split; auto; try (intros ? ? []). intros s' E. injection E as <-. auto. }
    destruct (step np c s ne) as [ne1 [s1|e]] eqn:Es.
    2: { injection H as <- <- <-; exists h, []; repeat split; auto; try discriminate; intros ? ? []. }
    destruct (loop np c fuel s1 ne1) as [[ne2 tr2] r2] eqn:El. injection H as <- <- <-.
    assert (Hw : read (write h a (st_elapsed s1)) a = st_elapsed s1) by (apply read_write; auto).
    destruct (IH (write h a (st_elapsed s1)) a s1 ne1 ne2 tr2 r2 ltac:(rewrite write_length; auto) Hw El) as (h' & ks & E & L & M & K & F & O).
    rewrite E. exists h', (({| k_time := a; k_rest := callback_report s1 |}, write h a (st_elapsed s1)) :: ks).
    split; [reflexivity|]. split; [rewrite L; apply write_length|]. split.
    { cbn [map]. rewrite M. f_equal. cbn [fst snd]. rewrite (look_own _ _ (st_elapsed s1)); auto. }
    split. { intros k h0 [Ek|Hk]; [injection Ek as <- <-; reflexivity|eapply K; eauto]. }
    split; [auto|]. intros a' Hn. rewrite O by auto. apply read_other; auto.
Qed.

Lemma object_evaluate_spec fuel h ne ne' recs out : evaluate np c fuel ne = (ne', recs, out) ->
  exists h' ks ok, object_evaluate np c fuel h ne = (h', ne', ks, ok) /\
    map (fun kh => look (snd kh) (fst kh)) ks = recs /\ rmap (look h') ok = out /\
    (forall k h0, In (k, h0) ks -> k_time k = length h) /\ (forall k, ok = Ok k -> k_time k = length h) /\
    (forall a, (a < length h)%nat -> read h' a = read h a).
Proof.
  unfold evaluate, object_evaluate. destruct (initial_values np c ne) as [s|e] eqn:Ei.
  2: { intros E. injection E as <- <- <-. exists h, [], (Err e). repeat split; auto; try (intros ? ? []). discriminate. }
  destruct (loop np c fuel s ne) as [[ne2 tr2] r2] eqn:El. intros E. injection E as <- <- <-.
  assert (H0 : st_elapsed s = 0). { apply (initial_Ok np c) in Ei. destruct Ei as (sg & _ & Ei). destruct (dist_call np ne (g0 c)). tauto. }
  cbn [new_quantity]. assert (R0 : read (h ++ [0]) (length h) = st_elapsed s). { unfold read. rewrite app_nth2 by lia. rewrite Nat.sub_diag. simpl. lra. }
  destruct (object_loop_spec fuel (h ++ [0]) (length h) s ne ne2 tr2 r2 ltac:(rewrite app_length; simpl; lia) R0 El) as (h' & ks & E & L & M & K & F & O).
  unfold new_quantity. rewrite E. do 3 eexists. split; [reflexivity|]. split; [exact M|]. split.
  { destruct r2 as [s2|e2]; [|reflexivity]. cbn [rmap]. f_equal. rewrite (look_own _ _ (st_elapsed s2)); auto. }
  split; [exact K|]. split.
  { intros k Ek. destruct r2; [|discriminate]. injection Ek as <-. reflexivity. }
  intros a Ha. rewrite O by lia. unfold read. apply app_nth1. auto.
Qed.
End Run.

(** ** at the time of the call, and for the result returned, the attributes are those of [evaluate] *)
Theorem C99_at_call np c fuel h ne ne' recs out : evaluate np c fuel ne = (ne', recs, out) ->
  exists h' ks ok, object_evaluate np c fuel h ne = (h', ne', ks, ok) /\
    map (fun kh => look (snd kh) (fst kh)) ks = recs /\ rmap (look h') ok = out /\
    (forall a, (a < length h)%nat -> read h' a = read h a).
Proof. intros H. destruct (object_evaluate_spec np c fuel h ne ne' recs out H) as (h' & ks & ok & H1 & H2 & H3 & _ & _ & H4). eauto 8. Qed.
Print Assumptions C99_at_call.

(** ** after the run: the arrays of every kept result are as they were at the
    call, but all of them read the same total_time, that of the result returned *)
Theorem C99_kept_partial np c fuel h ne h' ne' ks last : object_evaluate np c fuel h ne = (h', ne', ks, Ok last) ->
  forall k h0, In (k, h0) ks ->
  let before := look h0 k in let after := look h' k in
  r_gamma after = r_gamma before /\ r_dens after = r_dens before /\ r_subs after = r_subs before /\
  r_en after = r_en before /\ r_rel after = r_rel before /\ r_abs after = r_abs before /\
  r_time after = r_time (look h' last).
Proof.
  intros H k h0 Hk. cbv zeta. destruct (evaluate np c fuel ne) as [[ne1 recs] out] eqn:E.
  destruct (object_evaluate_spec np c fuel h ne ne1 recs out E) as (h2 & ks2 & ok & H1 & _ & _ & H4 & H5 & _). rewrite H in H1. injection H1 as <- <- <- <-.
  repeat split. unfold look. cbn [r_time]. rewrite (H4 _ _ Hk), (H5 _ eq_refl). reflexivity.
Qed.
Print Assumptions C99_kept_partial.

(** in particular they read the whole duration, whenever they were made *)
Theorem C99_kept_times np c fuel h ne h' ne' ks last : valid c -> 0 < total c -> object_evaluate np c fuel h ne = (h', ne', ks, Ok last) ->
  forall k h0, In (k, h0) ks -> r_time (look h' k) = total c.
Proof.
  intros Hv Ht H k h0 Hk. destruct (evaluate np c fuel ne) as [[ne1 recs] out] eqn:E.
  pose proof (C99_kept_partial _ _ _ _ _ _ _ _ _ H k h0 Hk) as K. cbv zeta in K. destruct K as (_ & _ & _ & _ & _ & _ & K). rewrite K.
  destruct (C99_at_call np c fuel h ne ne1 recs out E) as (h2 & ks2 & ok & H1 & _ & H3 & _). rewrite H in H1. injection H1 as <- <- <- <-. cbn [rmap] in H3. subst out.
  apply (C01_total_time np c fuel ne _ recs _ Hv E); auto.
Qed.
Print Assumptions C99_kept_times.

(** ** a kept result does not stay what it was: in a run of 5 s in steps of 2 s the
    three results read 2, 4 and 5 s when the callback gets them, and 5 s afterwards *)
Theorem C99_kept_refuted : exists c ne h' ne' ks last,
  object_evaluate np0 c 3 [] ne = (h', ne', ks, Ok last) /\ valid c /\ 0 < total c /\
  map (fun kh => r_time (look (snd kh) (fst kh))) ks = [2; 4; 5] /\
  map (fun kh => r_time (look h' (fst kh))) ks = [5; 5; 5] /\
  exists k h0, In (k, h0) ks /\ look h' k <> look h0 k.
Proof.
  set (c := ex_cfg 5 (Fixed 2) false Heun). destruct (ex_run_fixed Heun) as (d & recs & r & H & Hne). fold c in H.
  assert (Hv : valid c) by (apply ex_valid; discriminate). assert (Ht : total c = 5) by reflexivity. assert (Ht0 : 0 < total c) by (rewrite Ht; lra).
  destruct (C99_at_call np0 c 3 [] ex_ne d recs (Ok r) H) as (h' & ks & ok & H1 & H2 & H3 & _). destruct ok as [last|]; [|discriminate].
  destruct (C02_fixed_steps np0 c 2 3 ex_ne d recs (Ok r) Hv eq_refl ltac:(lra) ltac:(rewrite Ht; lra) H) as [T1 T2]. specialize (T2 r eq_refl). rewrite Ht in T2.
  assert (L : length recs = 3%nat).
  { assert (A : (length recs < 4)%nat). { destruct (Nat.lt_ge_cases (length recs) 4) as [?|A]; auto. exfalso. destruct (nth_error recs 3) as [x|] eqn:E; [|apply nth_error_None in E; lia]. destruct (T1 _ _ E) as [B _]. rewrite Ht in B. simpl in B. lra. }
    destruct (length recs) as [|[|[|[|n]]]]; try lia; simpl in T2; lra. }
  destruct recs as [|x1 [|x2 [|x3 [|]]]]; try discriminate L.
  assert (V : r_time x1 = 2 /\ r_time x2 = 4 /\ r_time x3 = 5).
  { destruct (T1 0%nat x1 eq_refl) as [_ V1]. destruct (T1 1%nat x2 eq_refl) as [_ V2]. destruct (T1 2%nat x3 eq_refl) as [_ V3]. rewrite Ht in *. simpl in *.
    repeat split; [rewrite V1|rewrite V2|rewrite V3]; unfold Rmin; destruct (Rle_dec _ _); lra. }
  destruct V as (V1 & V2 & V3). destruct ks as [|[k1 h1] [|[k2 h2] [|[k3 h3] [|]]]]; try discriminate H2. cbn [map fst snd] in H2. injection H2 as E1 E2 E3.
  pose proof (C99_kept_times np0 c 3 [] ex_ne h' d _ last Hv Ht0 H1) as K. rewrite Ht in K.
  exists c, ex_ne, h', d, ((k1, h1) :: (k2, h2) :: (k3, h3) :: nil), last. split; [exact H1|]. split; [exact Hv|]. split; [exact Ht0|].
  split. { cbn [map fst snd]. rewrite E1, E2, E3, V1, V2, V3. reflexivity. }
  split. { cbn [map fst snd]. rewrite (K k1 h1), (K k2 h2), (K k3 h3) by (simpl; auto). reflexivity. }
  exists k1, h1. split; [left; auto|]. intros E. apply (f_equal r_time) in E. rewrite (K k1 h1) in E by (left; auto). rewrite E1, V1 in E. lra.
Qed.
Print Assumptions C99_kept_refuted.
