(** Properties C81 and the rest of C17: steps with subgroups. *)
From Verif Require Import Base TEUtils TimeEvolution ListFacts TEIndexFacts TEStageFacts TEStepFacts TELoopFacts TEForward Spec_TE Spec_Groups TEThm5 TEReach Spec_Bins TEBins TEGroups NumpyInst TEExamples TEZero TEExamples4 Props_TE3.

(** ** C17 *)
(** Heun's method with any subgroups: what the step is.  [tables1], put
    together as [b1], [n1], [split1]: the Euler prediction, installed in the
    blob as [d1]; [en1]: the energy rates there.  The corrected step starts from
    the bins, densities and injections of [s] and moves the edges of every
    subgroup at the average of the two rates, as it should.
    Missing: the particles carried along are those of the split [split1] of the
    predicted state, not those of [st_subs s], so the full property fails
    (C17_heun_refuted). *)
Theorem C17_heun_groups_partial np c ne d s d' s' : numpy_ok np -> valid c -> method c = Heun -> reached np c ne d s -> step np c s d = (d', Ok s') ->
  let dt := st_elapsed s' - st_elapsed s in
  exists tables1 b1 n1 split1 d1 en1 tables b n split,
    length tables1 = length (st_subs s) /\
    (forall g t, nth_error tables1 g = Some t -> group_moved c s (st_subs s) dt (group_rate c fst (st_en s)) (group_rate c snd (st_en s)) g t) /\
    put_together np (st_subs s) tables1 b1 n1 split1 /\ update_distribution np b1 n1 = Ok d1 /\
    energy_rates_at c d1 b1 n1 split1 en1 /\
    length tables = length (st_subs s) /\
    (forall g t, nth_error tables g = Some t -> group_moved c s split1 dt
      (fun g i => (group_rate c fst (st_en s) g i + group_rate c fst en1 g i) / 2) (fun g i => (group_rate c snd (st_en s) g i + group_rate c snd en1 g i) / 2) g t) /\
    put_together np split1 tables b n split /\ update_distribution np b n = Ok d' /\ kept np c s' b n split /\ through np (cells b n split) d' /\
    settled np c (dist_eval np d') ((group_rate c fst (st_en s) 0 0 + group_rate c fst en1 0 0) / 2) ((group_rate c fst (st_en s) 0 (length (st_bins s) - 1) + group_rate c fst en1 0 (length (st_bins s) - 1)) / 2) (cells b n split) (cells (st_bins s') (st_dens s') (st_subs s')).
Proof. intros Hnp Hv. exact (thm_heun_groups np Hnp c Hv ne d s d' s'). Qed.
Print Assumptions C17_heun_groups_partial.
(** two subgroups, of which the second is injected into *)
Example C17_groups_case : exists d s d' s', valid ex_two /\ method ex_two = Heun /\ reached np0 ex_two ex_ten d s /\ step np0 ex_two s d = (d', Ok s') /\ length (st_subs s) = 2%nat /\ st_subs s <> st_subs s'.
Proof.
  destruct ex_two_step as (d' & H). eexists ex_ten, _, d', _.
  split. { constructor; simpl; try lra; try discriminate. intros rows E. injection E as <-. split; [discriminate|]. intros r [<-|[<-|[]]]; auto. }
  split; [reflexivity|]. split; [apply at_start; exact ex_two_initial|]. split; [exact H|]. split; [reflexivity|].
  simpl. intros E. assert (X : 1 / 2 = 1 / 8) by congruence. lra.
Qed.

(** ** C81 *)
(** Euler's method with any subgroups: every subgroup moves on bins of its own,
    at its own rates, keeping its particles; then all are put on the bins of
    the first one. *)
Theorem C81_groups np c ne d s d' s' : numpy_ok np -> valid c -> method c = Euler -> reached np c ne d s -> step np c s d = (d', Ok s') ->
  let dt := st_elapsed s' - st_elapsed s in
  exists tables b n split, length tables = length (st_subs s) /\
    (forall g t, nth_error tables g = Some t -> group_moved c s (st_subs s) dt (group_rate c fst (st_en s)) (group_rate c snd (st_en s)) g t) /\
    put_together np (st_subs s) tables b n split /\ update_distribution np b n = Ok d' /\ kept np c s' b n split /\ through np (cells b n split) d' /\
    settled np c (dist_eval np d') (group_rate c fst (st_en s) 0 0) (group_rate c fst (st_en s) 0 (length (st_bins s) - 1)) (cells b n split) (cells (st_bins s') (st_dens s') (st_subs s')).
Proof. intros Hnp Hv. exact (thm_groups np Hnp c Hv ne d s d' s'). Qed.
Print Assumptions C81_groups.

Lemma regrid_alike np g ts g' parts : regrid np g ts g' parts -> (forall t, In t ts -> fst t = g) -> g' = g /\ parts = map snd ts.
Proof.
  intros H. induction H as [g|g t ts g' parts _ H IH|g t ts xs ns g1 g' parts _ Hd _ _ _ _ _ H IH]; intros Ha.
  - auto.
  - destruct IH as [-> ->]. { intros t0 Ht. apply Ha. simpl; auto. } auto.
  - exfalso. apply Hd. apply Ha. simpl; auto.
Qed.
Lemma nth_error_list_ext {A} (l m : list A) : length l = length m -> (forall i x, nth_error l i = Some x -> nth_error m i = Some x) -> l = m.
Proof.
  revert m; induction l as [|a l IH]; intros [|b m] L H; try discriminate; auto.
  pose proof (H 0%nat a eq_refl) as E. simpl in E. injection E as ->. f_equal. apply IH; [simpl in L; lia|]. intros i x Hx. apply (H (S i)); auto.
Qed.
Lemma Rsum_scaled {A} (f h : A -> R) (l : list A) k : (forall a, In a l -> f a * k = h a) -> Rsum (map f l) * k = Rsum (map h l).
Proof. induction l as [|a l IH]; intros H; simpl; [lra|]. rewrite Rmult_plus_distr_r, IH by (intros; apply H; simpl; auto). rewrite (H a) by (simpl; auto). auto. Qed.

(** If all subgroups change energy alike, the total obeys the law of a single
    group (C09), the injections being those of all subgroups. *)
Theorem C81_total np c ne d s d' s' : numpy_ok np -> valid c -> method c = Euler -> reached np c ne d s -> step np c s d = (d', Ok s') ->
  (forall g i, (g < length (st_subs s))%nat -> group_rate c fst (st_en s) g i = group_rate c fst (st_en s) 0 i /\ group_rate c snd (st_en s) g i = group_rate c snd (st_en s) 0 i) ->
  let dt := st_elapsed s' - st_elapsed s in
  exists b n split, length b = length (st_bins s) /\ update_distribution np b n = Ok d' /\ kept np c s' b n split /\ through np (cells b n split) d' /\
    settled np c (dist_eval np d') (group_rate c fst (st_en s) 0 0) (group_rate c fst (st_en s) 0 (length (st_bins s) - 1)) (cells b n split) (cells (st_bins s') (st_dens s') (st_subs s')) /\
    forall i l u, nth_error (st_bins s) i = Some (l, u) ->
      let v := nth i (st_dens s) 0 in
      let l' := l + group_rate c fst (st_en s) 0 i * dt / mec2 c in let u' := u + group_rate c snd (st_en s) 0 i * dt / mec2 c in
      let over_groups f := Rsum (map f (seq 0 (length (st_subs s)))) in
      exists v', nth_error b i = Some (l', u') /\ nth i n 0 = v' /\ 0 < l' < u' /\
        v' * (u' - l') = v * over_groups (fun g => entry (st_subs s) g i) * (u - l) +
          over_groups (fun g => v * entry (st_subs s) g i * group_rate c (fun x => x) (st_rel s) g i + group_rate c (fun x => x) (st_abs s) g i) * dt * (u' - l').
Proof.
  intros Hnp Hv Hm Hr Hst Hal. cbv zeta. destruct (C81_groups np c ne d s d' s' Hnp Hv Hm Hr Hst) as (tables & b & n & split & Lt & Hmv & Hput & Hu & Hk & Hth & Hse).
  set (dt := st_elapsed s' - st_elapsed s) in *. destruct Hput as (t0 & ts & parts & -> & Hrg & Ln & _ & _ & Htot).
  assert (Hne : (0 < length (st_subs s))%nat) by (rewrite <- Lt; simpl; lia).
  assert (Hbins : forall g t, nth_error (t0 :: ts) g = Some t -> fst t = fst t0).
  { intros g t Ht. assert (Hg : (g < length (st_subs s))%nat) by (rewrite <- Lt; eapply nth_error_lt; eauto).
    destruct (Hmv g t Ht) as (L1 & L2 & H1). destruct (Hmv 0%nat t0 eq_refl) as (L3 & L4 & H2).
    apply nth_error_list_ext; [lia|]. intros i x Hx. destruct (nth_error_Some_ex (st_bins s) i) as [[l u] Hb]. { rewrite <- L1. eapply nth_error_lt; eauto. }
    destruct (H1 i l u Hb) as (v1 & A1 & _). destruct (H2 i l u Hb) as (v2 & B1 & _). destruct (Hal g i Hg) as [E1 E2]. rewrite E1, E2 in A1. rewrite B1, <- A1, Hx. auto. }
  destruct (regrid_alike _ _ _ _ _ Hrg) as [-> ->]. { intros t Hin. apply In_nth_error in Hin as [g Hg]. apply (Hbins (S g)); auto. }
  destruct (Hmv 0%nat t0 eq_refl) as (L3 & L4 & H0). exists (fst t0), n, split. do 5 (split; [auto|]).
  intros i l u Hb. destruct (H0 i l u Hb) as (v0 & B0 & _ & P0 & _). assert (Hi : (i < length (fst t0))%nat) by (rewrite L3; eapply nth_error_lt; eauto).
  exists (nth i n 0). split; auto. split; auto. split; auto.
  destruct (Htot i Hi) as [En _]. rewrite En.
  set (l' := l + _) in *. set (u' := u + _) in *. set (v := nth i (st_dens s) 0) in *.
  assert (Esum : map (fun p => nth i p 0) (snd t0 :: map snd ts) = map (fun g => nth i (snd (nth g (t0 :: ts) t0)) 0) (seq 0 (length (st_subs s)))).
  { change (snd t0 :: map snd ts) with (map snd (t0 :: ts)). rewrite map_map. rewrite <- Lt. apply nth_error_list_ext; [rewrite !map_length, seq_length; auto|].
    intros g x Hx. rewrite nth_error_map in Hx |- *. destruct (nth_error (t0 :: ts) g) as [t|] eqn:E; [|discriminate]. injection Hx as <-.
    pose proof (nth_error_lt _ _ _ E) as Hg. rewrite (nth_error_nth' (seq 0 (length (t0 :: ts))) 0%nat), seq_nth by (rewrite ?seq_length; auto). simpl plus. cbn [option_map]. rewrite (nth_error_nth _ _ t0 E). auto. }
  rewrite Esum. transitivity (Rsum (map (fun g => v * entry (st_subs s) g i * (u - l) + (v * entry (st_subs s) g i * group_rate c (fun x => x) (st_rel s) g i + group_rate c (fun x => x) (st_abs s) g i) * dt * (u' - l')) (seq 0 (length (st_subs s))))).
  - apply Rsum_scaled. intros g Hg. apply in_seq in Hg. destruct (nth_error_Some_ex (t0 :: ts) g) as [t E]; [lia|]. rewrite (nth_error_nth _ _ t0 E).
    destruct (Hmv g t E) as (_ & _ & H1). destruct (H1 i l u Hb) as (w & _ & A2 & _ & _ & A3). destruct (Hal g i ltac:(lia)) as [E1 E2]. rewrite E1, E2 in A3. rewrite (nth_error_nth _ _ 0 A2). exact A3.
  - generalize (seq 0 (length (st_subs s))). intros q. induction q as [|g q IH]; simpl; [ring|]. rewrite IH. ring.
Qed.
Print Assumptions C81_total.

(** the same two subgroups with Euler's method *)
Definition ex_two_e : cfg :=
  {| total := 1; stepd := Fixed 1; en_fns := [("cool"%string, zerof)]; rel_fns := []; abs_fns := [("inj"%string, const_fn 10)];
     g0 := [10; 100]; bounds := None; creep := 0; merge_thr := None;
     maxE := 1; maxD := 1; maxI := 1; optimize := false; method := Euler; subgroups := Some [["cool"%string]; ["inj"%string]];
     subinit := Some [[1 / 2; 1 / 2]; [1 / 2; 1 / 2]]; mec2 := 1 |}.
Lemma ex_two_e_step : exists d', step np0 ex_two_e (ex_two_state [10; 10] [[1 / 2; 1 / 2]; [1 / 2; 1 / 2]] 0) ex_ten =
  (d', Ok (ex_two_state [20; 20] [[1 / 4; 1 / 4]; [3 / 4; 3 / 4]] 1)).
Proof.
  destruct (update_ok np0 np0_ok ex_two_bins [20; 20]) as [d Hd].
  - intros v [<-|[<-|[]]]; simpl; lra.
  - intros [|[|i]] u v A B; simpl in A, B; try discriminate; try (destruct i; discriminate); injection A as <-; injection B as <-; apply log10_lt; lra.
  - reflexivity.
  - right. simpl. decide_R. simpl. lia.
  - exists d.
    assert (Hc : choose_step ex_two_e (ex_two_state [10; 10] [[1 / 2; 1 / 2]; [1 / 2; 1 / 2]] 0) = Ok ([[(0, 0); (0, 0)]; [(0, 0); (0, 0)]], [[0; 0]; [10; 10]], [Some 0; Some 0], 1)).
    { unfold choose_step, group_energy, group_injection, known, sum_change_rates, vsum. simpl. unfold add_bin. simpl. rewrite (proj2 (Rltb_false (1 - 0) 1)) by lra.
      f_equal. f_equal. f_equal. f_equal; [|f_equal]; [| |]; repeat (apply (f_equal2 cons); [|]); try reflexivity; try (f_equal; lra); try lra. }
    assert (S0 : map (scale_bins 1) [[(0, 0); (0, 0)]; [(0, 0); (0, 0)]] = [[(0, 0); (0, 0)]; [(0, 0); (0, 0)]]).
    { simpl. rewrite Rmult_0_l. reflexivity. }
    assert (S1 : map (scale 1) [[0; 0]; [10; 10]] = [[0; 0]; [10; 10]]). { simpl. rewrite !Rmult_1_r. reflexivity. }
    pose proof (ex_two_eval (1 / 2) (1 / 2) ltac:(lra) ltac:(lra) ltac:(lra)) as E1. replace (1 / 2 / 2) with (1 / 4) in E1 by lra. replace ((1 / 2 + 1) / 2) with (3 / 4) in E1 by lra.
    assert (H12 : stage12 np0 ex_two_e (to_erg 1 ex_two_bins) [10; 10] [[1 / 2; 1 / 2]; [1 / 2; 1 / 2]] [[(0, 0); (0, 0)]; [(0, 0); (0, 0)]] [[0; 0]; [10; 10]] 1 ex_ten =
      (d, Ok (ex_two_bins, [20; 20], [[1 / 4; 1 / 4]; [3 / 4; 3 / 4]], d, [[(0, 0); (0, 0)]; [(0, 0); (0, 0)]]))).
    { unfold stage12. rewrite S0, S1. change (apply_time_eval np0 ex_two_e) with (apply_time_eval np0 ex_two). rewrite E1.
      unfold bindS at 1. unfold lift at 1. unfold set_distribution. rewrite Hd. reflexivity. }
    assert (H345 : stage345 np0 ex_two_e ex_two_bins [20; 20] [[1 / 4; 1 / 4]; [3 / 4; 3 / 4]] d [[(0, 0); (0, 0)]; [(0, 0); (0, 0)]] = Ok (ex_two_bins, [20; 20], [[1 / 4; 1 / 4]; [3 / 4; 3 / 4]], arange 2)).
    { apply (stage345_id np0 np0_ok); auto; [|discriminate|intros x [<-|[<-|[]]]; auto].
      split; [intros v [<-|[<-|[]]]; simpl; lra|]. split; [|split; intros; discriminate].
      intros [|[|i]] u v A B; simpl in A, B; try discriminate; try (destruct i; discriminate); injection A as <-; injection B as <-; apply log10_lt; lra. }
    unfold step. unfold bindS at 1. unfold lift at 1. rewrite Hc. unfold bindS at 1. unfold apply_time_changes. unfold bindS at 1.
    cbn [st_bins st_dens st_subs ex_two_state]. change (mec2 ex_two_e) with 1. rewrite H12. unfold lift at 1. rewrite H345. simpl.
    unfold ex_two_state. replace (0 + 1) with 1 by lra. reflexivity.
Qed.
Example C81_case : exists d s d' s', valid ex_two_e /\ method ex_two_e = Euler /\ reached np0 ex_two_e ex_ten d s /\ step np0 ex_two_e s d = (d', Ok s') /\
  st_subs s = [[1 / 2; 1 / 2]; [1 / 2; 1 / 2]] /\ st_dens s = [10; 10] /\ st_subs s' = [[1 / 4; 1 / 4]; [3 / 4; 3 / 4]] /\ st_dens s' = [20; 20] /\
  (forall g i, (g < 2)%nat -> group_rate ex_two_e fst (st_en s) g i = group_rate ex_two_e fst (st_en s) 0 i /\ group_rate ex_two_e snd (st_en s) g i = group_rate ex_two_e snd (st_en s) 0 i).
Proof.
  destruct ex_two_e_step as (d' & H). eexists ex_ten, _, d', _.
  split. { constructor; simpl; try lra; try discriminate. intros rows E. injection E as <-. split; [discriminate|]. intros r [<-|[<-|[]]]; auto. }
  split; [reflexivity|]. split; [apply at_start; exact ex_two_initial|]. split; [exact H|]. do 4 (split; [reflexivity|]).
  intros [|[|g]] i Hg; [auto| |lia]. unfold group_rate, rate_at. simpl. destruct i as [|[|[|i]]]; simpl; split; lra.
Qed.

(** Which steps are accepted: if every subgroup can make its move and the
    tables can be put together (a subgroup without particles is no obstacle),
    the step gets as far as installing the new distribution.  [t] is the
    length of the step. *)
Theorem C81_accepts np c ne d s eng inj left0 t t0 ts : numpy_ok np -> valid c -> method c = Euler -> reached np c ne d s -> choose_step c s = Ok (eng, inj, left0, t) ->
  length (t0 :: ts) = length (st_subs s) -> (length (st_subs s) <= match subgroups c with None => 1 | Some gs => length gs end)%nat ->
  (forall g tb, nth_error (t0 :: ts) g = Some tb -> group_moved c s (st_subs s) t (group_rate c fst (st_en s)) (group_rate c snd (st_en s)) g tb) ->
  can_join np t0 ts ->
  exists b n split, put_together np (st_subs s) (t0 :: ts) b n split /\ forall d', update_distribution np b n = Ok d' -> fst (step np c s d) = d'.
Proof. intros Hnp Hv. exact (thm_accepts np Hnp c Hv ne d s eng inj left0 t t0 ts). Qed.
Print Assumptions C81_accepts.
(** a subgroup that gains energy, and an empty one that stays where it is *)
Definition ex_lone : cfg :=
  {| total := 1; stepd := Fixed 1; en_fns := [("heat"%string, const_fn 1)]; rel_fns := []; abs_fns := [("idle"%string, zerof)];
     g0 := [10; 100]; bounds := None; creep := 0; merge_thr := None;
     maxE := 1; maxD := 1; maxI := 1; optimize := false; method := Euler; subgroups := Some [["heat"%string]; ["idle"%string]];
     subinit := Some [[1; 1]; [0; 0]]; mec2 := 1 |}.
Definition ex_lone_state : tstate :=
  {| st_bins := ex_two_bins; st_dens := [10; 10]; st_subs := [[1; 1]; [0; 0]]; st_en := [("heat"%string, [Some (1, 1); Some (1, 1)])]; st_rel := [];
     st_abs := [("idle"%string, [Some 0; Some 0])]; st_left := [Some 0; Some 0]; st_elapsed := 0 |}.
Definition ex_lone_first : list bin * list R := ([(10 + 1, 10 * (1 + 1 / 10000) + 1); (100 + 1, 100 * (1 + 1 / 10000) + 1)], [10; 10]).
Definition ex_lone_second : list bin * list R := (ex_two_bins, [0; 0]).
Example C81_accepts_case : reached np0 ex_lone ex_ten ex_ten ex_lone_state /\ valid ex_lone /\ fst ex_lone_first <> fst ex_lone_second /\ can_join np0 ex_lone_first [ex_lone_second] /\
  (exists eng inj left0, choose_step ex_lone ex_lone_state = Ok (eng, inj, left0, 1)) /\
  (forall g tb, nth_error [ex_lone_first; ex_lone_second] g = Some tb ->
     group_moved ex_lone ex_lone_state (st_subs ex_lone_state) 1 (group_rate ex_lone fst (st_en ex_lone_state)) (group_rate ex_lone snd (st_en ex_lone_state)) g tb).
Proof.
  split. { apply at_start. unfold initial_values. simpl. unfold correct_bounds, correct_first, correct_last. decide_R. simpl. decide_R. simpl. decide_R. reflexivity. }
  split. { constructor; simpl; try lra; try discriminate. intros rows E. injection E as <-. split; [discriminate|]. intros r [<-|[<-|[]]]; auto. }
  split. { intros E. apply (f_equal (fun l => fst (nth 0 l (0, 0)))) in E. simpl in E. lra. }
  split. { left. intros t [<-|[]]. left. simpl. intros v [<-|[<-|[]]]; auto. }
  split. { unfold choose_step, group_energy, group_injection, known, sum_change_rates, vsum. simpl. unfold add_bin. simpl. rewrite (proj2 (Rltb_false (1 - 0) 1)) by lra. eauto. }
  intros [|[|g]] tb H; [| |destruct g; discriminate]; simpl in H.
  - assert (tb = ex_lone_first) by congruence. subst tb. split; [reflexivity|]. split; [reflexivity|].
    intros [|[|i]] l u Hb; simpl in Hb; [| |destruct i; discriminate]; unfold bin_size_factor in Hb; injection Hb as <- <-; cbv zeta; exists 10; unfold group_rate, rate_at, entry, ex_lone_first; simpl;
      (split; [f_equal; f_equal; lra|]); (split; [auto|]); (split; [lra|]); (split; [lra|]); lra.
  - assert (tb = ex_lone_second) by congruence. subst tb. split; [reflexivity|]. split; [reflexivity|].
    intros [|[|i]] l u Hb; simpl in Hb; [| |destruct i; discriminate]; unfold bin_size_factor in Hb; injection Hb as <- <-; cbv zeta; exists 0; unfold group_rate, rate_at, entry, ex_lone_second, ex_two_bins, bin_size_factor; simpl;
      (split; [f_equal; f_equal; lra|]); (split; [auto|]); (split; [lra|]); (split; [lra|]); lra.
Qed.
