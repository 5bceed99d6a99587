(** Proof of C25 from the zero-rate runs. *)
From Verif Require Import Base TEUtils TimeEvolution ListFacts TEIndexFacts TEStageFacts TEStepFacts TELoopFacts TEInv TEForward TEZero TEZeroRun Spec_TE TEThm1.

Section T6.
Variable np : numpy.
Hypothesis Hnp : numpy_ok np.
Variable c : cfg.
Hypothesis Hv : valid c.

Lemma inert_quiet ne dens : inert np c ne dens -> quiet np c ne dens (start_split c).
Proof.
  intros [Z [G1 [G2 G3]] [D1 D2] T [S1 [S2 [S3 S4]]] Gp Rg]. constructor; auto.
  - intros kf H d p. apply Z. apply in_or_app; auto.
  - intros kf H d p. apply Z. apply in_or_app; right. apply in_or_app; auto.
  - intros kf H d p. apply Z. apply in_or_app; right. apply in_or_app; auto.
  - intros i a b Ha Hb. apply (G3 i). split; rewrite nth_error_map; [rewrite Ha|rewrite Hb]; auto.
  - unfold initial_subs, start_split in *. destruct (subgroups c) as [[|g gs]|]; auto; destruct (subinit c); auto. congruence.
  - intros thr E. destruct (Gp thr E) as [L H]. split; auto. intros k a b H1 H2 Ha Hb. apply (H k); auto; [split; auto|lia].
  - intros [lo hi] E g Hg. apply (Rg lo hi E g Hg).
  - apply (v_auto _ Hv).
Qed.


Lemma thm_inert ne dens fuel : inert np c ne dens ->
  (match stepd c with Auto => (1 <= fuel)%nat | Fixed s => 0 < s /\ total c <= INR fuel * s end) ->
  exists ne' recs r, evaluate np c fuel ne = (ne', recs, Ok r) /\
    (forall x, In x (r :: recs) -> r_gamma x = g0 c /\ r_dens x = dens /\ r_subs x = start_split c /\ r_en x = zero_rates (en_fns c) (length (g0 c))) /\
    r_rel r = zero_rates (rel_fns c) (length (g0 c)) /\ r_abs r = zero_rates (abs_fns c) (length (g0 c)).
Proof.
  intros Hi Hf. pose proof (inert_quiet ne dens Hi) as Q. destruct (Rlt_le_dec 0 (total c)) as [Ht|Ht].
  - destruct (zr_run np Hnp c (v_mec _ Hv) ne dens (start_split c) Q fuel Ht) as (d & recs & r & H & _ & _ & Hz & H1 & H2 & _).
    { unfold enough_fuel. destruct (stepd c); auto. rewrite Rminus_0_r. auto. }
    exists d, recs, r. split; auto. split; auto. intros x Hx. destruct (Hz x Hx) as (A & B & C & D & _). auto.
  - destruct (zr_initial np c ne dens (start_split c) Q) as [E Hl]. unfold evaluate. rewrite E.
    eexists ne, [], _. split.
    + destruct fuel; simpl; rewrite (proj2 (Rltb_false 0 (total c))) by lra; reflexivity.
    + pose proof (initial_bins_length c) as L. split; [|simpl; rewrite <- L; auto]. intros x [<-|[]]. simpl.
      rewrite zr_lbs. split; auto. split; auto. split; auto. rewrite zr_en_lb, L. auto.
Qed.
End T6.
