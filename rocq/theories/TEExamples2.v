(** Concrete runs with non-zero rates, and the constant-rate theorem (C68). *)
From Verif Require Import Base TEUtils TimeEvolution ListFacts TEIndexFacts TEStageFacts TEStepFacts TELoopFacts TEInv TEForward TEZero TEZeroRun NumpyInst Spec_TE TEShift TEExamples.

Ltac list_eq := match goal with |- @nil _ = _ => reflexivity | |- cons _ _ = cons _ _ => apply (f_equal2 cons); [lra|list_eq] end.

Lemma lg_incr_of np l : increasing (map (lg np) l) -> lg_incr np l.
Proof. intros H i a b Ha Hb. apply (H i). split; rewrite nth_error_map; [rewrite Ha|rewrite Hb]; auto. Qed.

(** the density after [i] steps of the recursion v -> v + (v r + q) t *)
Definition density_after (r q t : R) (i : nat) (v : R) : R := Nat.iter i (fun v => v + (v * r + q) * t) v.

Lemma density_after_0 q t i v : density_after 0 q t i v = v + INR i * (q * t).
Proof. unfold density_after. induction i; [simpl; lra|]. rewrite S_INR. simpl. rewrite IHi. ring. Qed.
Lemma density_after_r r q t i v : r <> 0 -> density_after r q t i v = (v + q / r) * (1 + r * t) ^ i - q / r.
Proof. intros Hr. unfold density_after. induction i; [simpl; lra|]. simpl. rewrite IHi. field. auto. Qed.

Lemma thm_const np T t a r q m gs me ne k ns : numpy_ok np -> 0 < m -> 0 < t -> T = INR k * t -> gs <> [] -> (forall g, In g gs -> 0 < g) ->
  ns = snd (dist_call np ne gs) ->
  (forall i, (1 <= i <= k)%nat ->
     let gi := map (fun g => g + INR i * (a * t / m)) gs in let ni := map (density_after r q t i) ns in
     (forall g, In g gi -> 0 < g) /\ increasing (map (lg np) gi) /\ nonneg ni /\
     ((forall v, In v ni -> v = 0) \/ (2 <= length (filter (fun v => negb (Reqb v 0)) ni))%nat)) ->
  exists d recs x, evaluate np (const_cfg T t a r q m gs me) k ne = (d, recs, Ok x) /\ length recs = k /\
    r_time x = T /\ r_gamma x = map (fun g => g + a * T / m) gs /\ r_dens x = map (density_after r q t k) ns /\
    (forall i y, nth_error recs i = Some y -> r_time y = INR (S i) * t /\
       r_gamma y = map (fun g => g + INR (S i) * (a * t / m)) gs /\ r_dens y = map (density_after r q t (S i)) ns).
Proof.
  intros Hnp Hm Ht ET Hne P En HG.
  destruct (sh_run np Hnp T t a r q m gs me Hm (Rlt_le _ _ Ht) Ht k ne ns) as (d & recs & x & H1 & H2 & H3 & H4 & H5 & H6 & _); auto.
  - intros i Hi. destruct (HG i Hi) as (G1 & G2 & G3 & G4). unfold good. split; [unfold after_g; destruct gs; [congruence|discriminate]|].
    split; [unfold after_g, after_n; rewrite !map_length; rewrite En; apply dist_call_length|]. split; [exact G1|]. split; [apply lg_incr_of; exact G2|]. split; [exact G3|exact G4].
  - exists d, recs, x. split; auto. split; auto. split; auto. split; [|split; auto].
    rewrite H4. unfold after_g. apply map_ext. intros g. rewrite ET. field. lra.
Qed.

(** cooling by 1 per second, escape 1/4 per second, injection 1 per second; two steps of one second *)
Lemma ex_n : snd (dist_call np0 ex_ne [10; 100; 1000]) = [1; 1; 1].
Proof. simpl. unfold correct_bounds, correct_first, correct_last. decide_R. simpl. decide_R. simpl. decide_R. reflexivity. Qed.
Definition ex_move (me : method_t) : cfg := const_cfg 2 1 (-1) (-1 / 4) 1 1 [10; 100; 1000] me.

Lemma ex_move_run me : exists d recs x, evaluate np0 (ex_move me) 2 ex_ne = (d, recs, Ok x) /\ length recs = 2%nat /\
  r_gamma x = [8; 98; 998] /\ r_dens x = [37 / 16; 37 / 16; 37 / 16].
Proof.
  destruct (thm_const np0 2 1 (-1) (-1 / 4) 1 1 [10; 100; 1000] me ex_ne 2 [1; 1; 1]) as (d & recs & x & H1 & H2 & H3 & H4 & H5 & _); try lra.
  - apply np0_ok.
  - simpl; lra.
  - discriminate.
  - intros g H; simpl in H; intuition; subst; lra.
  - symmetry. apply ex_n.
  - intros i Hi. cbv zeta. assert (E : i = 1%nat \/ i = 2%nat) by lia. destruct E as [-> | ->].
    + simpl. split; [intros g H; intuition; subst; lra|]. split.
      * intros [|[|[|i]]] u v [A B]; simpl in A, B; try discriminate; try (destruct i; discriminate); injection A as <-; injection B as <-; apply log10_lt; lra.
      * split; [intros v H; simpl in H; unfold density_after in H; simpl in H; intuition; subst; lra|]. right. unfold density_after; simpl. decide_R. simpl. lia.
    + simpl. split; [intros g H; intuition; subst; lra|]. split.
      * intros [|[|[|i]]] u v [A B]; simpl in A, B; try discriminate; try (destruct i; discriminate); injection A as <-; injection B as <-; apply log10_lt; lra.
      * split; [intros v H; simpl in H; unfold density_after in H; simpl in H; intuition; subst; lra|]. right. unfold density_after; simpl. decide_R. simpl. lia.
  - exists d, recs, x. split; auto. split; auto. rewrite H4, H5. unfold density_after. simpl. split; list_eq.
Qed.

(** the first step of that run *)
Lemma ex_move_step : exists s d' s', initial_values np0 (ex_move Euler) ex_ne = Ok s /\ step np0 (ex_move Euler) s ex_ne = (d', Ok s') /\
  st_bins s = [(10, 10 * (1 + 1 / 10000)); (100, 100 * (1 + 1 / 10000)); (1000, 1000 * (1 + 1 / 10000))] /\ st_dens s = [1; 1; 1] /\
  lbs (st_bins s') = [9; 99; 999] /\ st_dens s' = [7 / 4; 7 / 4; 7 / 4].
Proof.
  set (s := sh_state (-1) (-1 / 4) 1 (map (fun _ => Some 0) [10; 100; 1000]) [10; 100; 1000] [1; 1; 1] 0).
  assert (Hi : initial_values np0 (ex_move Euler) ex_ne = Ok s) by (apply sh_initial; [discriminate|apply ex_n]).
  destruct (sh_step np0 np0_ok 2 1 (-1) (-1 / 4) 1 1 [10; 100; 1000] Euler ltac:(lra) (map (fun _ => Some 0) [10; 100; 1000]) [10; 100; 1000] [1; 1; 1] 0 ex_ne) as (d' & b & Hb & Hd & Hst); auto.
  - discriminate.
  - intros g H; simpl in H; intuition; subst; lra.
  - rewrite (proj2 (Rltb_false (2 - 0) 1)) by lra. unfold good, sh_g, sh_n. simpl. split; [discriminate|]. split; [auto|].
    split; [intros g H; simpl in H; intuition; subst; lra|]. split; [|split].
    + intros [|[|[|i]]] u v A B; simpl in A, B; try discriminate; try (destruct i; discriminate); injection A as <-; injection B as <-; apply log10_lt; lra.
    + intros v H; intuition; subst; lra.
    + right. simpl. decide_R. simpl. lia.
  - rewrite (proj2 (Rltb_false (2 - 0) 1)) in Hst by lra. eexists s, d', _. split; [exact Hi|]. split; [exact Hst|].
    split; [reflexivity|]. split; [reflexivity|]. unfold sh_state. cbn [st_bins st_dens]. rewrite lbs_mk. unfold sh_g, sh_n. simpl. split; list_eq.
Qed.

(** an escape faster than the content: the first step raises, blob.n_e stays *)
Definition ex_drain : cfg := const_cfg 1 1 0 0 (-2) 1 [10; 100; 1000] Euler.
Lemma ex_drain_run : evaluate np0 ex_drain 1 ex_ne = (ex_ne, [], Err (ValueError "Negative density obtained")).
Proof.
  unfold evaluate. unfold ex_drain at 1. rewrite (sh_initial np0 1 1 0 0 (-2) 1 [10; 100; 1000] Euler ex_ne [1; 1; 1]) by (try discriminate; apply ex_n).
  cbn [loop]. simpl st_elapsed. simpl total. rewrite (proj2 (Rltb_true 0 1)) by lra.
  unfold ex_drain. rewrite (sh_step_neg np0 1 1 0 0 (-2) 1 [10; 100; 1000] Euler ltac:(lra) _ [10; 100; 1000] [1; 1; 1] 0 ex_ne (1 + (1 * 0 + -2) * 1)); auto.
  - intros g H; simpl in H; intuition; subst; lra.
  - intros g H; simpl in H; unfold sh_g in H; intuition; subst; try lra.
  - rewrite (proj2 (Rltb_false (1 - 0) 1)) by lra. simpl. auto.
  - lra.
Qed.

Lemma increasing_of_lt np l : (forall i a b, nth_error l i = Some a -> nth_error l (S i) = Some b -> lg np a < lg np b) -> increasing (map (lg np) l).
Proof.
  intros H i a b [H1 H2]. rewrite nth_error_map in H1, H2.
  destruct (nth_error l i) eqn:E1; [|discriminate]. destruct (nth_error l (S i)) eqn:E2; [|discriminate].
  injection H1 as <-. injection H2 as <-. eauto.
Qed.
