(** C102: a run told in other units is the same run. *)
From Verif Require Import Base TEUtils TimeEvolution ListFacts NumpyInst Spec_TE TEExamples TEExamples2 Spec_Units UnitsFacts.

(** Let [c'] be the configuration [c] told in other units of time, energy and
    density (any step policy, method, bounds, merging, subgroups, rate reuse
    and thresholds; the user functions may use the blob and the parameters
    they are given, and may raise).  Then evaluate() on the blob with [ud]
    times the electrons per volume leaves the blob with [ud] times the
    electrons, calls the callback as often, raises the same exception or
    returns, and every result is the old one told in the new units. *)
Theorem C102_units np x c c' fuel ne d recs out : numpy_ok np -> proper x -> scales_densities np (ud x) -> 0 < mec2 c -> told x c c' -> tellable ne ->
  evaluate np c fuel ne = (d, recs, out) ->
  evaluate np c' fuel (populated_by (ud x) ne) = (populated_by (ud x) d, map (retold x true) recs, rmap (retold x false) out).
Proof. intros Hnp Hx Hs Hm Ht Hne H. rewrite (evaluate_hom np Hnp x Hx Hs c c' Hm Ht) by auto. rewrite H. auto. Qed.
Print Assumptions C102_units.

(** "[k] times the electrons" means what it says: at every gamma. *)
Theorem C102_density np k d g : numpy_ok np -> 0 < k -> scales_densities np k -> tellable d ->
  dist_eval np (populated_by k d) g = k * dist_eval np d g.
Proof. intros. apply eval_times; auto. Qed.
Print Assumptions C102_density.

Lemma np0_lifts : interp_lifts np0.
Proof.
  intros xs ys h g. simpl. revert ys. induction xs as [|x0 xs IH]; intros [|y0 ys] L; simpl in L; try lia.
  destruct xs as [|x1 xs]; [simpl in L; lia|]. destruct ys as [|y1 ys]; [simpl in L; lia|].
  destruct xs as [|x2 xs].
  - cbn [map lin_interp]. destruct (Rleb g x1); [ring|]. destruct ys; ring.
  - specialize (IH (y1 :: ys)). cbn [map lin_interp] in IH |- *. destruct (Rleb g x1); [ring|]. apply IH. simpl in L |- *. lia.
Qed.

Lemma const_tells x k q : tells x k (const_fn q) (const_fn (k * q)).
Proof. intros d p _. unfold const_fn. simpl. f_equal. apply (repeat_hom (fun v => k * v)). Qed.

(** A run of two seconds, told in minutes, in units of 1.6e-3 erg and in electrons per double
    volume: the gammas are the same, the densities twice 37/16, the time 1/30. *)
Definition minutes : units := {| ut := 1 / 60; ue := 625; ud := 2 |}.
Definition ex_retold (me : method_t) : cfg :=
  {| total := 1 / 60 * 2; stepd := Fixed (1 / 60 * 1); en_fns := [("gain"%string, const_fn (625 / (1 / 60) * -1))];
     rel_fns := [("esc"%string, const_fn (1 / (1 / 60) * (-1 / 4)))]; abs_fns := [("inj"%string, const_fn (2 / (1 / 60) * 1))];
     g0 := [10; 100; 1000]; bounds := None; creep := 0; merge_thr := None;
     maxE := 1; maxD := 1; maxI := 2 * 1; optimize := false; method := me; subgroups := None; subinit := None; mec2 := 625 * 1 |}.
Lemma ex_told me : told minutes (ex_move me) (ex_retold me).
Proof. constructor; simpl; auto; repeat constructor; simpl; auto; apply const_tells. Qed.

Example C102_case me : numpy_ok np0 /\ proper minutes /\ scales_densities np0 2 /\ tellable ex_ne /\ told minutes (ex_move me) (ex_retold me) /\
  exists d recs y, evaluate np0 (ex_retold me) 2 (populated_by 2 ex_ne) = (d, recs, Ok y) /\ length recs = 2%nat /\
    r_gamma y = [8; 98; 998] /\ r_dens y = [2 * (37 / 16); 2 * (37 / 16); 2 * (37 / 16)].
Proof.
  assert (Hp : proper minutes) by (repeat split; simpl; lra).
  assert (Hs : scales_densities np0 2) by (right; split; [apply np0_exact|apply np0_lifts]).
  split; [apply np0_ok|]. split; [exact Hp|]. split; [exact Hs|]. split; [exact Logic.I|]. split; [apply ex_told|].
  destruct (ex_move_run me) as (d & recs & y & H1 & H2 & H3 & H4).
  assert (Hm : 0 < mec2 (ex_move me)) by (simpl; lra).
  pose proof (C102_units np0 minutes (ex_move me) (ex_retold me) 2 ex_ne d recs (Ok y) np0_ok Hp Hs Hm (ex_told me) Logic.I H1) as H. simpl ud in H. rewrite H.
  eexists _, _, _. split; [reflexivity|]. rewrite map_length. split; [auto|]. simpl. rewrite H3, H4. auto.
Qed.

(** A function that looks at the blob: an injection of a fraction [r] per time
    of what the distribution holds at each gamma, told in other units. *)
Definition feed_back (np : numpy) (r : R) : GammaFn := fun d p => Ok (map (fun g => r * dist_eval np d g) (fp_gamma p)).
Example C102_case_blob r : tells minutes (2 / (1 / 60)) (feed_back np0 r) (feed_back np0 (60 * r)).
Proof.
  intros d p Hd. unfold feed_back. simpl. f_equal. unfold times. rewrite map_map. apply map_ext. intros g.
  rewrite C102_density; auto; [lra|apply np0_ok|lra|right; split; [apply np0_exact|apply np0_lifts]].
Qed.
