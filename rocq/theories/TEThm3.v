(** API level forms of some results of TEThm1. *)
From Verif Require Import Base TEUtils TimeEvolution ListFacts TEIndexFacts TEStageFacts TEStepFacts TELoopFacts TEInv TEForward TEZero TEZeroRun NumpyInst Spec_TE TEThm1 TEThm2.

Section T3.
Variable np : numpy.
Hypothesis Hnp : numpy_ok np.
Variable c : cfg.
Hypothesis Hv : valid c.

Lemma start_rows_ok rows : initial_subs c = Ok rows -> length rows = start_rows c.
Proof.
  unfold initial_subs, start_rows. destruct (subgroups c) as [g|]; [|intros H; injection H as <-; auto].
  destruct (subinit c) as [s|]; [intros H; injection H as <-; auto|]. destruct g as [|g0 gs]; [discriminate|].
  intros H; injection H as <-. simpl. rewrite map_length. auto.
Qed.

Lemma thm_aligned' fuel ne ne' recs out : evaluate np c fuel ne = (ne', recs, out) ->
  (forall x, reported recs out x -> lined_up (start_rows c) x) /\
    (forall r, out = Ok r -> keys_of (en_fns c) (r_en r) /\ keys_of (rel_fns c) (r_rel r) /\ keys_of (abs_fns c) (r_abs r)) /\
    (forall x, In x recs -> keys_of (en_fns c) (r_en x) /\ keys_of (abs_fns c) (r_rel x) /\ keys_of (rel_fns c) (r_abs x)).
Proof.
  intros H. destruct (thm_aligned np Hnp c Hv fuel ne ne' recs out H) as (K & H1 & H2 & H3). split; auto.
  intros x Hx. destruct (H1 x Hx) as (A1 & A2 & A3). split; auto. split; auto.
  assert (E : length (r_subs x) = start_rows c).
  { destruct (initial_values np c ne) as [s0|e] eqn:Hi.
    2: { unfold evaluate in H. rewrite Hi in H. injection H as <- <- <-. destruct Hx as [[]|E]; discriminate. }
    pose proof (initial_Ok np c ne s0 Hi) as (sg & Hs & Hi'). destruct (dist_call np ne (g0 c)). destruct Hi' as (_ & _ & Es & _).
    destruct (reports_inv np c (fun _ s => aligned c s /\ length (st_subs s) = start_rows c) (fun y => length (r_subs y) = start_rows c) (fun y => length (r_subs y) = start_rows c) fuel ne ne' recs out) as [G1 G2]; auto.
    - intros s1 E1. rewrite Hi in E1. injection E1 as <-. split; [apply (initial_aligned np c ne s0 (valid_split c Hv) Hi)|]. rewrite Es. apply start_rows_ok; auto.
    - intros s d d' s' [Ha L] _ Hst. destruct (step_spec np Hnp c (v_mec _ Hv) s d d' s' Ha Hst) as (Ha' & L' & _). split; auto. congruence.
    - intros d s [_ L]; auto.
    - intros d s [_ L]; auto.
    - destruct Hx as [Hx|E]; auto. }
  congruence.
Qed.

Lemma col_repeat j k n v : (j < n)%nat -> col j (map (fun _ : list string => repeat v n) k) = map (fun _ => v) k.
Proof.
  intros Hj. unfold col. rewrite map_map. apply map_ext. intros _. apply nth_error_nth. rewrite nth_error_repeat; auto.
Qed.

(** subgroups without an explicit split, or no subgroups: exact *)
Lemma thm_split_default fuel ne ne' recs out : subinit c = None -> evaluate np c fuel ne = (ne', recs, out) ->
  forall x, reported recs out x -> forall j, (j < length (r_gamma x))%nat ->
    (forall v, In v (col j (r_subs x)) -> 0 <= v <= 1) /\ Rsum (col j (r_subs x)) = 1.
Proof.
  intros Es H x Hx j Hj.
  destruct (initial_subs c) as [rows|e] eqn:Ei.
  2: { unfold evaluate, initial_values in H. destruct (dist_call np ne (g0 c)). rewrite Ei in H. simpl in H. injection H as <- <- <-. destruct Hx as [[]|E]; discriminate. }
  assert (H0 : 0 <= 0) by lra.
  assert (Hc : forall j, (j < length (g0 c))%nat -> (forall v, In v (col j rows) -> 0 <= v <= 1) /\ Rabs (Rsum (col j rows) - 1) <= 0).
  { intros k Hk. unfold initial_subs in Ei. rewrite Es in Ei. destruct (subgroups c) as [[|g gs]|]; [discriminate| |]; injection Ei as <-.
    - assert (E : col k (repeat 1 (length (g0 c)) :: map (fun _ : list string => repeat 0 (length (g0 c))) gs) = 1 :: map (fun _ => 0) gs).
      { change (nth k (repeat 1 (length (g0 c))) 0 :: col k (map (fun _ : list string => repeat 0 (length (g0 c))) gs) = 1 :: map (fun _ => 0) gs).
        rewrite col_repeat by auto. f_equal. apply nth_error_nth. rewrite nth_error_repeat; auto. }
      rewrite E. split.
      + intros v [<-|Hv0]; [lra|]. apply in_map_iff in Hv0 as (_ & <- & _). lra.
      + simpl. assert (Z : Rsum (map (fun _ : list string => 0) gs) = 0) by (clear; induction gs; simpl; auto; lra).
        rewrite Z. replace (1 + 0 - 1) with 0 by lra. rewrite Rabs_R0. lra.
    - unfold col. simpl. rewrite (nth_error_nth _ _ 0 (nth_error_repeat 1 Hk)). split; [intros v [<-|[]]; lra|].
      replace (1 + 0 - 1) with 0 by lra. rewrite Rabs_R0. lra. }
  destruct (thm_split np Hnp c Hv 0 fuel ne ne' recs out rows H0 Ei Hc H x Hx j Hj) as [G1 G2]. split; auto.
  assert (Rabs (Rsum (col j (r_subs x)) - 1) = 0) by (pose proof (Rabs_pos (Rsum (col j (r_subs x)) - 1)); lra).
  destruct (Req_dec (Rsum (col j (r_subs x)) - 1) 0) as [|N]; [lra|]. apply Rabs_no_R0 in N. lra.
Qed.

(** an explicit split *)
Lemma thm_split_given eps rows fuel ne ne' recs out : 0 <= eps -> subinit c = Some rows -> subgroups c <> None ->
  (forall j, (j < length (g0 c))%nat -> (forall v, In v (col j rows) -> 0 <= v <= 1) /\ Rabs (Rsum (col j rows) - 1) <= eps) ->
  evaluate np c fuel ne = (ne', recs, out) ->
  forall x, reported recs out x -> forall j, (j < length (r_gamma x))%nat ->
    (forall v, In v (col j (r_subs x)) -> 0 <= v <= 1) /\ Rabs (Rsum (col j (r_subs x)) - 1) <= eps.
Proof.
  intros He Es Hg Hc H. eapply (thm_split np Hnp c Hv eps fuel ne ne' recs out rows); eauto.
  unfold initial_subs. destruct (subgroups c); [|congruence]. rewrite Es. auto.
Qed.

(** exact logarithm: the creep need only exceed log10 of the relative bin size *)
Lemma thm_increasing_exact fuel ne ne' recs out : numpy_exact np -> evaluate np c fuel ne = (ne', recs, out) ->
  (forall lo hi, bounds c = Some (lo, hi) -> 0 < hi) -> lg np (1 + 1 / 10000) < creep c ->
  forall x, reported_after_step recs out x -> increasing (r_gamma x).
Proof.
  intros Hx H Hb Hc. apply (thm_increasing np Hnp c Hv fuel ne ne' recs out H). intros lo hi E. specialize (Hb _ _ E).
  assert (L1 : lg np 1 = 0). { pose proof (lg_mul _ Hx 1 1). rewrite Rmult_1_l in H0. lra. }
  assert (P : lg np 1 < lg np (1 + 1 / 10000)) by (apply (lg_strict _ Hx); lra).
  split; [lra|]. assert (Q : 0 < hi / (1 + 1 / 10000)) by (apply Rdiv_lt_0_compat; lra).
  pose proof (lg_mul _ Hx (hi / (1 + 1 / 10000)) (1 + 1 / 10000)) as M. replace (hi / (1 + 1 / 10000) * (1 + 1 / 10000)) with hi in M by (field; lra).
  rewrite M by lra. lra.
Qed.
End T3.
