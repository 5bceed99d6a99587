(** Property C83: runs with automatic steps come to an end. *)
From Verif Require Import Base TEUtils TimeEvolution ListFacts TEStageFacts TELoopFacts Spec_TE Spec_Finish TEThm1 TEReach TEFinish NumpyInst TEExamples.

(** what C83 asks of a configuration *)
Record unhurried (c : cfg) (k : nat) (rate amount tau : R) : Prop := {
  un_valid : valid c;
  un_grid : positive_grid c;
  un_steps : positive_steps c;
  un_auto : stepd c = Auto;
  un_names : distinct_names c;
  un_signs : 0 <= rate /\ 0 <= amount /\ 0 < tau;
  un_rates : gentle c rate amount;
  un_number : at_most c k;
  un_tau : allows c k rate amount tau
}.

Lemma unhurried_slow np c k rate amount tau : numpy_ok np -> unhurried c k rate amount tau -> forall ne d s i l u v g,
  reached np c ne d s -> fresh_at c d s i l u v -> (g < length (st_subs s))%nat -> limits_at c s g i tau.
Proof. intros Hnp [H1 H2 H3 H4 _ (S1 & S2 & S3) H6 H7 H8] ne d s i l u v g Hr F _. exact (gentle_slow np Hnp c H1 H2 H3 H4 k rate amount tau S1 S2 S3 H6 H7 H8 ne d s i l u v g Hr F). Qed.

(** ** C83 *)
(** every pass through the loop takes at least [tau], or is the last one; with
    and without reuse of rates *)
Theorem C83_steps np c k rate amount tau ne d s d' s' : numpy_ok np -> unhurried c k rate amount tau ->
  reached np c ne d s -> st_elapsed s < total c -> step np c s d = (d', Ok s') ->
  st_elapsed s + tau <= st_elapsed s' \/ st_elapsed s' = total c.
Proof.
  intros Hnp U Hr Hlt Hst. pose proof U as [H1 H2 H3 H4 H5 (? & ? & Ht) _ _ _].
  destruct (thm_long_steps np Hnp c H1 H2 H3 H4 H5 ne tau Ht (unhurried_slow np c k rate amount tau Hnp U ne) d s d' s' Hr Hlt Hst); [left; lra|auto].
Qed.
Print Assumptions C83_steps.

(** Once [n] steps of [tau] cover the total time, [n] passes are enough: the run
    ends, with a result or an exception, more passes would change nothing, and
    the callback was called no more than [n] times. *)
Theorem C83_terminates np c k rate amount tau ne n : numpy_ok np -> unhurried c k rate amount tau -> 0 <= total c -> total c <= INR n * tau ->
  (forall m, evaluate np c (n + m) ne = evaluate np c n ne) /\
  (snd (evaluate np c n ne) = Err OutOfFuel -> user_raises c OutOfFuel) /\
  (forall fuel, length (snd (fst (evaluate np c fuel ne))) <= n)%nat.
Proof.
  intros Hnp U H0 Hn. pose proof U as [H1 H2 H3 H4 H5 (? & ? & Ht) _ _ _].
  pose proof (fun m => thm_auto_ends np Hnp c H1 H2 H3 H4 H5 ne tau Ht (unhurried_slow np c k rate amount tau Hnp U ne) n m H0 Hn) as K.
  split; [intros m; apply (K m)|]. split; [apply (K 0%nat)|].
  assert (L : forall f, (length (snd (fst (evaluate np c f ne))) <= f)%nat).
  { intros f. unfold evaluate. destruct (initial_values np c ne) as [s|e]; [|simpl; lia].
    assert (Lp : forall f s d, (length (snd (fst (loop np c f s d))) <= f)%nat).
    { clear. induction f as [|f IH]; intros s d; cbn [loop]; destruct (Rltb (st_elapsed s) (total c)); simpl; try lia.
      destruct (step np c s d) as [d1 [s1|e]]; [|simpl; lia]. specialize (IH s1 d1). destruct (loop np c f s1 d1) as [[d2 tr] r]. simpl in *. lia. }
    specialize (Lp f s ne). destruct (loop np c f s ne) as [[d' tr] r]. simpl in *. rewrite map_length. auto. }
  intros f. destruct (Nat.le_gt_cases n f) as [Hle|Hgt]; [|specialize (L f); lia].
  replace f with (n + (f - n))%nat by lia. rewrite (proj1 (K (f - n)%nat)). apply L.
Qed.
Print Assumptions C83_terminates.

(** losses growing with the square of gamma (as synchrotron losses do), escape
    and injection at constant rates; gamma_bounds, automatic steps, reuse of
    rates: ten passes for five time units *)
Definition slow_cfg : cfg :=
  {| total := 5; stepd := Auto;
     en_fns := [("cool"%string, fun _ p => Ok (map (fun g => - (g * g / 10 ^ 6)) (fp_gamma p)))];
     rel_fns := [("esc"%string, fun _ p => Ok (map (fun _ => - (1 / 50)) (fp_gamma p)))];
     abs_fns := [("inj"%string, fun _ p => Ok (map (fun _ => 1 / 10) (fp_gamma p)))];
     g0 := [10; 100; 1000]; bounds := Some (1, 10 ^ 4); creep := 1 / 10; merge_thr := Some (1 / 100);
     maxE := 1 / 100; maxD := 1 / 10; maxI := 1; optimize := true; method := Euler;
     subgroups := None; subinit := None; mec2 := 1 |}.
Lemma called_map (h : R -> R) d g v r : called (fun _ p => Ok (map h (fp_gamma p))) d g v r -> r = h g.
Proof.
  intros (p & vals & q & E & Hg & _ & Hr). apply (f_equal (fun x => match x with Ok y => y | Err _ => [] end)) in E. rewrite <- E, nth_error_map, Hg in Hr. simpl in Hr. congruence.
Qed.
Example C83_case : unhurried slow_cfg 1 (2 / 100) (1 / 10) (1 / 2) /\ total slow_cfg <= INR 10 * (1 / 2) /\ ~ user_raises slow_cfg OutOfFuel.
Proof.
  split; [|split].
  - constructor.
    + constructor; simpl; try lra; try congruence. 
    + split; simpl; [intros g H; intuition; subst; lra|]. intros lo hi H. injection H as <- _. lra.
    + red. simpl. repeat split; lra.
    + auto.
    + red. simpl. repeat split; repeat constructor; simpl; tauto.
    + repeat split; lra.
    + constructor; simpl.
      * intros kf d l u v rl ru [<-|[]] (p & vals & q & E & Hl & Hu & _ & Hrl & Hru) Hall Hpos ->. simpl in E.
        apply (f_equal (fun x => match x with Ok y => y | Err _ => [] end)) in E. rewrite <- E, nth_error_map in Hrl, Hru. rewrite Hl in Hrl. rewrite Hu in Hru.
        cbn [option_map] in Hrl, Hru. apply (f_equal (fun o => match o with Some x => x | None => 0 end)) in Hrl, Hru. cbv beta iota in Hrl, Hru. subst rl ru.
        assert (Hb : l * (1 + 1 / 10000) <= 10 ^ 4). { destruct Hall as [Hin|[_ Hb]]; [simpl in Hin; intuition subst; lra|exact Hb]. }
        clear - Hpos Hb. assert (Q : l * l <= l * 10 ^ 4) by nra. 
        split; [|split]; apply Rabs_le; split; nra.
      * intros kf d g v r [<-|[]] H. apply called_map in H. subst. lra.
      * intros kf d g v r [<-|[]] H. apply called_map in H. subst. rewrite Rabs_pos_eq; lra.
    + red. simpl. lia.
    + red. simpl. repeat split; lra.
  - simpl. lra.
  - intros (kf & d & p & H & E). simpl in H. destruct H as [<-|[<-|[<-|[]]]]; discriminate E.
Qed.
Example C83_case_ends ne m : evaluate np0 slow_cfg (10 + m) ne = evaluate np0 slow_cfg 10 ne /\ snd (evaluate np0 slow_cfg 10 ne) <> Err OutOfFuel.
Proof.
  destruct C83_case as (U & T & N). destruct (C83_terminates np0 slow_cfg 1 _ _ _ ne 10 np0_ok U ltac:(simpl; lra) T) as (A & B & _). split; [apply A|]. intros E. apply N, B, E.
Qed.
