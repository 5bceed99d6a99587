(** Heun's method with subgroups: a concrete step (C17). *)
From Verif Require Import Base TEUtils TimeEvolution ListFacts TEIndexFacts TEStageFacts TEStepFacts TELoopFacts TEInv TEForward TEZero TEZeroRun NumpyInst Spec_TE TEShift TEExamples TEExamples2.

(** Two bins, density 10, split half and half.  No energy changes; the only
    acting function injects 10 per second into the second subgroup. *)
Definition ex_ten : dist := DOrig (fun _ => 10) 1 (10 ^ 5).
Definition ex_two : cfg :=
  {| total := 1; stepd := Fixed 1; en_fns := [("cool"%string, zerof)]; rel_fns := []; abs_fns := [("inj"%string, const_fn 10)];
     g0 := [10; 100]; bounds := None; creep := 0; merge_thr := None;
     maxE := 1; maxD := 1; maxI := 1; optimize := false; method := Heun; subgroups := Some [["cool"%string]; ["inj"%string]];
     subinit := Some [[1 / 2; 1 / 2]; [1 / 2; 1 / 2]]; mec2 := 1 |}.
Definition ex_two_bins : list bin := [(10, 10 * (1 + bin_size_factor)); (100, 100 * (1 + bin_size_factor))].
Definition ex_two_state (n : list R) (rows : list (list R)) (el : R) : tstate :=
  {| st_bins := ex_two_bins; st_dens := n; st_subs := rows; st_en := [("cool"%string, [Some (0, 0); Some (0, 0)])]; st_rel := [];
     st_abs := [("inj"%string, [Some 10; Some 10])]; st_left := [Some 0; Some 0]; st_elapsed := el |}.

Lemma ex_two_initial : initial_values np0 ex_two ex_ten = Ok (ex_two_state [10; 10] [[1 / 2; 1 / 2]; [1 / 2; 1 / 2]] 0).
Proof. unfold initial_values. simpl. unfold correct_bounds, correct_first, correct_last. decide_R. simpl. decide_R. simpl. decide_R. reflexivity. Qed.

Lemma ex_two_eval p q : 0 <= p -> 0 <= q -> p + q = 1 ->
  apply_time_eval np0 ex_two (to_erg 1 ex_two_bins) [10; 10] [[p; p]; [q; q]] [[(0, 0); (0, 0)]; [(0, 0); (0, 0)]] [[0; 0]; [10; 10]] =
  Ok (ex_two_bins, [20; 20], [[p / 2; p / 2]; [(q + 1) / 2; (q + 1) / 2]]).
Proof.
  intros Hp Hq E. unfold apply_time_eval.
  assert (Hb : forall x, In x ex_two_bins -> 0 < fst x /\ fresh_bin x). { intros x [<-|[<-|[]]]; simpl; split; try lra; reflexivity. }
  assert (Hn : length [10; 10] = length ex_two_bins /\ forall v, In v [10; 10] -> 0 <= v). { split; auto. intros v [<-|[<-|[]]]; lra. }
  assert (Hm : 0 < mec2 ex_two) by (simpl; lra).
  assert (Hr : forall r, length r = 2%nat -> recalc_gamma_bins_and_density (mec2 ex_two) (to_erg 1 ex_two_bins) [(0, 0); (0, 0)] (map2 Rmult [10; 10] r) = Ok (ex_two_bins, map2 Rmult [10; 10] r))
    by (intros r L; exact (z_recalc ex_two Hm ex_two_bins [10; 10] Hb Hn r L)).
  unfold recalc_groups. rewrite !Hr by auto. cbn [bind map2 inject_groups existsb].
  rewrite (proj2 (Rltb_false (10 * p + 0) 0)) by lra. cbn [orb]. rewrite (proj2 (Rltb_false (10 * q + 10) 0)) by lra. cbn [orb bind regrid_groups].
  assert (Eb : forallb (fun x : bool => x) (map2 bin_eqb ex_two_bins ex_two_bins) = true).
  { simpl. unfold bin_eqb. simpl. rewrite !(proj2 (Reqb_true _ _)) by reflexivity. reflexivity. }
  rewrite Eb, orb_true_r. cbn [bind length col_sum fold_left repeat map2]. unfold col_sum. cbn [fold_left repeat map2]. unfold new_row. cbn [combine map2 fst snd].
  replace (0 + (10 * p + 0) + (10 * q + 10)) with 20 by lra. rewrite (proj2 (Reqb_false 20 0)) by lra.
  replace ((10 * p + 0) / 20) with (p / 2) by field. replace ((10 * q + 10) / 20) with ((q + 1) / 2) by field. reflexivity.
Qed.

Lemma ex_two_step : exists d', step np0 ex_two (ex_two_state [10; 10] [[1 / 2; 1 / 2]; [1 / 2; 1 / 2]] 0) ex_ten =
  (d', Ok (ex_two_state [20; 20] [[1 / 8; 1 / 8]; [7 / 8; 7 / 8]] 1)).
Proof.
  destruct (update_ok np0 np0_ok ex_two_bins [20; 20]) as [d Hd].
  - intros v [<-|[<-|[]]]; simpl; lra.
  - intros [|[|i]] u v A B; simpl in A, B; try discriminate; try (destruct i; discriminate); injection A as <-; injection B as <-; apply log10_lt; lra.
  - reflexivity.
  - right. simpl. decide_R. simpl. lia.
  - exists d.
    assert (Hc : choose_step ex_two (ex_two_state [10; 10] [[1 / 2; 1 / 2]; [1 / 2; 1 / 2]] 0) = Ok ([[(0, 0); (0, 0)]; [(0, 0); (0, 0)]], [[0; 0]; [10; 10]], [Some 0; Some 0], 1)).
    { unfold choose_step, group_energy, group_injection, known, sum_change_rates, vsum. simpl. unfold add_bin. simpl. rewrite (proj2 (Rltb_false (1 - 0) 1)) by lra.
      f_equal. f_equal. f_equal. f_equal; [|f_equal]; [| |]; repeat (apply (f_equal2 cons); [|]); try reflexivity; try (f_equal; lra); try lra. }
    assert (S0 : map (scale_bins 1) [[(0, 0); (0, 0)]; [(0, 0); (0, 0)]] = [[(0, 0); (0, 0)]; [(0, 0); (0, 0)]]).
    { simpl. rewrite Rmult_0_l. reflexivity. }
    assert (S1 : map (scale 1) [[0; 0]; [10; 10]] = [[0; 0]; [10; 10]]). { simpl. rewrite !Rmult_1_r. reflexivity. }
    assert (Av : map2 (map2 avg_bin) [[(0, 0); (0, 0)]; [(0, 0); (0, 0)]] [[(0, 0); (0, 0)]; [(0, 0); (0, 0)]] = [[(0, 0); (0, 0)]; [(0, 0); (0, 0)]]).
    { simpl. unfold avg_bin. simpl. replace ((0 + 0) / 2) with 0 by lra. reflexivity. }
    pose proof (ex_two_eval (1 / 2) (1 / 2) ltac:(lra) ltac:(lra) ltac:(lra)) as E1. replace (1 / 2 / 2) with (1 / 4) in E1 by lra. replace ((1 / 2 + 1) / 2) with (3 / 4) in E1 by lra.
    pose proof (ex_two_eval (1 / 4) (3 / 4) ltac:(lra) ltac:(lra) ltac:(lra)) as E2. replace (1 / 4 / 2) with (1 / 8) in E2 by lra. replace ((3 / 4 + 1) / 2) with (7 / 8) in E2 by lra.
    assert (H12 : stage12 np0 ex_two (to_erg 1 ex_two_bins) [10; 10] [[1 / 2; 1 / 2]; [1 / 2; 1 / 2]] [[(0, 0); (0, 0)]; [(0, 0); (0, 0)]] [[0; 0]; [10; 10]] 1 ex_ten =
      (d, Ok (ex_two_bins, [20; 20], [[1 / 8; 1 / 8]; [7 / 8; 7 / 8]], d, [[(0, 0); (0, 0)]; [(0, 0); (0, 0)]]))).
    { unfold stage12. rewrite S0, S1, E1. unfold bindS at 1. unfold lift at 1. unfold set_distribution. rewrite Hd. unfold bindS at 1 2 3. unfold lift at 1. unfold put, ret, get.
      cbn [method ex_two]. unfold bindS at 1. unfold bindS at 1. unfold lift at 1.
      assert (Er : recalc_new_rates shape2 ex_two_bins (en_fns ex_two) d [20; 20] [[1 / 4; 1 / 4]; [3 / 4; 3 / 4]] [] None = Ok [("cool"%string, [Some (0, 0); Some (0, 0)])]).
      { apply (recalc_zero shape2 (0, 0)); auto using shape2_zero; try discriminate. - intros kf [<-|[]]; apply zerof_zero. - intros r [<-|[<-|[]]]; auto. }
      rewrite Er. unfold bindS at 1. unfold lift at 1.
      assert (Eg : group_energy ex_two (length ex_two_bins) [("cool"%string, [Some (0, 0); Some (0, 0)])] = Ok [[(0, 0); (0, 0)]; [(0, 0); (0, 0)]]).
      { unfold group_energy, known, sum_change_rates, vsum. simpl. unfold add_bin. simpl. rewrite Rplus_0_l. reflexivity. }
      rewrite Eg. unfold bindS at 1. unfold lift at 1. rewrite Av, S0, E2. unfold bindS, lift. rewrite Hd. reflexivity. }
    assert (H345 : stage345 np0 ex_two ex_two_bins [20; 20] [[1 / 8; 1 / 8]; [7 / 8; 7 / 8]] d [[(0, 0); (0, 0)]; [(0, 0); (0, 0)]] = Ok (ex_two_bins, [20; 20], [[1 / 8; 1 / 8]; [7 / 8; 7 / 8]], arange 2)).
    { apply (stage345_id np0 np0_ok); auto; [|discriminate|intros x [<-|[<-|[]]]; auto].
      split; [intros v [<-|[<-|[]]]; simpl; lra|]. split; [|split; intros; discriminate].
      intros [|[|i]] u v A B; simpl in A, B; try discriminate; try (destruct i; discriminate); injection A as <-; injection B as <-; apply log10_lt; lra. }
    unfold step. unfold bindS at 1. unfold lift at 1. rewrite Hc. unfold bindS at 1. unfold apply_time_changes. unfold bindS at 1.
    cbn [st_bins st_dens st_subs ex_two_state]. change (mec2 ex_two) with 1. rewrite H12. unfold lift at 1. rewrite H345. simpl.
    unfold ex_two_state. replace (0 + 1) with 1 by lra. reflexivity.
Qed.
