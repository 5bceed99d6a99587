(** Proofs of C15 (no computation with NaN placeholders), and the error classes of a run. *)
From Verif Require Import Base TEUtils TimeEvolution ListFacts TEIndexFacts TEStageFacts TEStepFacts TELoopFacts TEInv TEForward Spec_TE TEThm1 TEThm2 TEErr.

Section T7.
Variable np : numpy.
Hypothesis Hnp : numpy_ok np.
Variable c : cfg.
Hypothesis Hv : valid c.

Lemma thm_never_nan fuel ne ne' recs out : (optimize c = true -> positive_grid c /\ positive_steps c) ->
  evaluate np c fuel ne = (ne', recs, out) ->
  out = Err NaNRate -> exists kf d p, In kf (en_fns c ++ rel_fns c ++ abs_fns c) /\ snd kf d p = Err NaNRate.
Proof.
  intros Hp H E.
  set (S := fun e => e <> NaNRate \/ exists kf d p, In kf (en_fns c ++ rel_fns c ++ abs_fns c) /\ snd kf d p = Err NaNRate).
  assert (HS : forall e, In e plain -> S e). { intros e He. left. simpl in He. intuition; subst; discriminate. }
  assert (HU : forall kf d p e, In kf (en_fns c ++ rel_fns c ++ abs_fns c) -> snd kf d p = Err e -> S e).
  { intros kf d p e Hk Hf. destruct e; try (left; discriminate). right. eauto. }
  assert (HB : forall e, bin_errors e -> S e). { intros e He. left. unfold bin_errors in He. intuition; subst; discriminate. }
  assert (M : may S out).
  { apply (may_evaluate np c S HS HU (fun _ s => aligned c s /\ (optimize c = true -> steady c s) /\ no_nan (st_en s) /\ no_nan (st_rel s) /\ no_nan (st_abs s))
      fuel ne ne' recs out); auto.
    - left. discriminate.
    - intros s0 Hi. pose proof (initial_aligned np c ne s0 (valid_split c Hv) Hi) as (Ha & _ & _ & ? & ? & ?). split; [auto|]. split; [|auto].
      intros Eo. apply (initial_steady np c (valid_split c Hv) ne s0); auto. destruct (Hp Eo) as [[? _] _]; auto.
    - intros s d HI Hlt. split.
      + pose proof HI as (_ & _ & N1 & N2 & N3). apply may_step; auto.
        * destruct (known_ok (st_en s) N1) as [k ->]. apply may_ok.
        * destruct (known_ok (st_rel s) N2) as [k ->]. apply may_ok.
        * destruct (known_ok (st_abs s) N3) as [k ->]. apply may_ok.
        * intros. split; intros; apply may_eval_all; auto.
      + intros d' s' Hst. eapply (reach_no_nan np Hnp c Hv Hp); eauto. }
  destruct (M _ E) as [G|G]; [congruence|auto].
Qed.
End T7.
