(** Whole evaluations in which all rate functions return zero (C25, and the
    existence of runs used by the examples). *)
From Verif Require Import Base TEUtils TimeEvolution ListFacts TEIndexFacts TEStageFacts TEStepFacts TELoopFacts TEInv TEForward TEZero.

Record quiet (np : numpy) (c : cfg) (ne : dist) (n : list R) (rows : list (list R)) : Prop := {
  q_en : forall kf, In kf (en_fns c) -> zero_fn (snd kf);
  q_rel : forall kf, In kf (rel_fns c) -> zero_fn (snd kf);
  q_abs : forall kf, In kf (abs_fns c) -> zero_fn (snd kf);
  q_pos : all_pos (g0 c);
  q_ne : g0 c <> [];
  q_lg : lg_incr np (g0 c);
  q_n : snd (dist_call np ne (g0 c)) = n;
  q_nn : forall v, In v n -> 0 <= v;
  q_enough : enough n;
  q_subs : initial_subs c = Ok rows;
  q_groups : length rows = ngroups c;
  q_rne : rows <> [];
  q_rows : forall r, In r rows -> length r = length (g0 c) /\ forall v, In v r -> 0 <= v;
  q_sum : forall j, (j < length (g0 c))%nat -> Rsum (column j rows) = 1;
  q_gap : forall thr, merge_thr c = Some thr -> gaps_ok np thr (g0 c) /\ (2 <= length (g0 c))%nat;
  q_bd : forall bd, bounds c = Some bd -> within bd (g0 c);
  q_opt : optimize c = true -> stepd c = Auto
}.

Section ZeroRun.
Variable np : numpy.
Hypothesis Hnp : numpy_ok np.
Variable c : cfg.
Hypothesis Hmec : 0 < mec2 c.
Variables (ne : dist) (n : list R) (rows : list (list R)).
Hypothesis Q : quiet np c ne n rows.

Let zs := zstate c (initial_bins c) n rows.
Let zl := z_left_ok c (initial_bins c).

Lemma zr_lbs : lbs (initial_bins c) = g0 c.
Proof. rewrite initial_bins_eq. unfold lbs. rewrite map_map. simpl. apply map_id. Qed.

Lemma zr_step left el d0 : zl left -> exists d left', update_distribution np (initial_bins c) n = Ok d /\ zl left' /\
  step np c (zs left el) d0 = (d, Ok (zs left' (el + z_step c el))).
Proof.
  assert (L : length (initial_bins c) = length (g0 c)) by apply initial_bins_length.
  assert (Ln : length n = length (initial_bins c)). { rewrite L, <- (q_n _ _ _ _ _ Q). apply dist_call_length. }
  destruct Q. apply z_step_run; auto.
  - intros x Hx. rewrite initial_bins_eq in Hx. apply in_map_iff in Hx as (g & <- & Hg). simpl. split; [apply q_pos0; auto|reflexivity].
  - rewrite L. repeat (split; [assumption|]). assumption.
  - rewrite L. destruct (g0 c); [congruence|simpl; lia].
  - rewrite zr_lbs; auto.
  - rewrite zr_lbs, L; auto.
  - rewrite zr_lbs; auto.
Qed.

Lemma zr_initial : initial_values np c ne = Ok (zs (repeat (Some 0) (length (initial_bins c))) 0) /\ zl (repeat (Some 0) (length (initial_bins c))).
Proof.
  assert (L : length (initial_bins c) = length (g0 c)) by apply initial_bins_length.
  assert (Ln : length n = length (g0 c)). { rewrite <- (q_n _ _ _ _ _ Q). apply dist_call_length. }
  destruct Q. split.
  - unfold initial_values. pose proof (dist_call_length np ne (g0 c)) as [L1 _]. destruct (dist_call np ne (g0 c)) as [lb' dens]. simpl in *. subst dens.
    rewrite q_subs0. cbn [bind].
    rewrite (recalc_zero shape2 (0, 0)); auto using shape2_zero; [|lia|intros r Hr; rewrite L; apply q_rows0; auto]. cbn [bind].
    rewrite (recalc_zero shape1 0); auto using shape1_zero; [|lia|intros r Hr; rewrite L1; apply q_rows0; auto]. cbn [bind].
    rewrite (recalc_zero shape1 0); auto using shape1_zero; [|lia|intros r Hr; rewrite L1; apply q_rows0; auto]. cbn [bind].
    unfold zs, zstate. rewrite L1, L. f_equal. f_equal. rewrite <- L. clear. induction (initial_bins c); simpl; auto. f_equal; auto.
  - unfold zl, z_left_ok. destruct (optimize c); [right|left]; auto.
Qed.

(** the simulation ends after [fuel] passes: either automatic steps, or enough
    fixed ones *)
Definition enough_fuel (fuel : nat) (el : R) : Prop :=
  match stepd c with Auto => (1 <= fuel)%nat | Fixed s => 0 < s /\ total c - el <= INR fuel * s end.

Lemma zr_loop fuel : forall left el d0, zl left -> el < total c -> enough_fuel fuel el ->
  exists d tr sf, loop np c fuel (zs left el) d0 = (d, tr, Ok sf) /\ tr <> [] /\ update_distribution np (initial_bins c) n = Ok d /\
    (forall x, In x (sf :: tr) -> exists l' e', x = zs l' e').
Proof.
  induction fuel as [|fuel IH]; intros left el d0 Hl Hlt Hf; unfold enough_fuel in Hf.
  { exfalso. destruct (stepd c); [|lia]. simpl in Hf. lra. }
  destruct (zr_step left el d0 Hl) as (d & left' & Hd & Hl' & Hst).
  cbn [loop]. change (st_elapsed (zs left el)) with el. rewrite (proj2 (Rltb_true el (total c))) by auto. rewrite Hst.
  destruct (Rlt_le_dec (el + z_step c el) (total c)) as [H|H].
  - destruct (IH left' (el + z_step c el) d Hl' H) as (d2 & tr & sf & Hlo & Hne & Hd2 & Hall).
    + unfold enough_fuel, z_step in *. destruct (stepd c) as [s|]; [|lra]. rewrite S_INR in Hf.
      destruct (Rltb_spec (total c - el) s); lra.
    + rewrite Hlo. exists d2, (zs left' (el + z_step c el) :: tr), sf. repeat split; auto; [discriminate|].
      intros x [<-|[<-|Hx]]; [apply Hall; simpl; auto|eauto|apply Hall; simpl; auto].
  - assert (E : loop np c fuel (zs left' (el + z_step c el)) d = (d, [], Ok (zs left' (el + z_step c el)))).
    { destruct fuel; cbn [loop]; change (st_elapsed (zs left' (el + z_step c el))) with (el + z_step c el); rewrite (proj2 (Rltb_false (el + z_step c el) (total c))) by auto; auto. }
    rewrite E. exists d, [zs left' (el + z_step c el)], (zs left' (el + z_step c el)). repeat split; auto; [discriminate|].
    intros x [<-|[<-|[]]]; eauto.
Qed.

(** non-termination: a non-positive fixed step keeps going for any fuel *)
Lemma zr_endless s : stepd c = Fixed s -> s <= 0 -> forall fuel left el d0, zl left -> el < total c ->
  exists d tr, loop np c fuel (zs left el) d0 = (d, tr, Err OutOfFuel) /\ length tr = fuel.
Proof.
  intros Es Hs. induction fuel as [|fuel IH]; intros left el d0 Hl Hlt; cbn [loop];
    change (st_elapsed (zs left el)) with el; rewrite (proj2 (Rltb_true el (total c))) by auto.
  { exists d0, []. auto. }
  destruct (zr_step left el d0 Hl) as (d & left' & Hd & Hl' & Hst). rewrite Hst.
  destruct (IH left' (el + z_step c el) d Hl') as (d2 & tr & -> & L).
  - unfold z_step. rewrite Es. rewrite (proj2 (Rltb_false (total c - el) s)) by lra. lra.
  - exists d2, (zs left' (el + z_step c el) :: tr). simpl. auto.
Qed.

Definition zero_report (x : result) : Prop :=
  r_gamma x = g0 c /\ r_dens x = n /\ r_subs x = rows /\
  r_en x = zd 0 (en_fns c) (length (g0 c)) /\
  ((r_rel x = zd 0 (rel_fns c) (length (g0 c)) /\ r_abs x = zd 0 (abs_fns c) (length (g0 c))) \/
   (r_rel x = zd 0 (abs_fns c) (length (g0 c)) /\ r_abs x = zd 0 (rel_fns c) (length (g0 c)))).

Lemma zr_en_lb m fns : energy_changes_lb (zd (0, 0) fns m) = zd 0 fns m.
Proof.
  unfold energy_changes_lb, zd. rewrite map_map. apply map_ext. intros kf. simpl. f_equal. rewrite map_repeat'. auto.
Qed.

Lemma zr_run fuel : 0 < total c -> enough_fuel fuel 0 ->
  exists d recs r, evaluate np c fuel ne = (d, recs, Ok r) /\ recs <> [] /\ update_distribution np (initial_bins c) n = Ok d /\
    (forall x, In x (r :: recs) -> zero_report x) /\
    r_rel r = zd 0 (rel_fns c) (length (g0 c)) /\ r_abs r = zd 0 (abs_fns c) (length (g0 c)) /\
    (forall x, In x recs -> r_rel x = zd 0 (abs_fns c) (length (g0 c)) /\ r_abs x = zd 0 (rel_fns c) (length (g0 c))).
Proof.
  intros Ht Hf. destruct zr_initial as [Hi Hl]. unfold evaluate. rewrite Hi.
  destruct (zr_loop fuel _ 0 ne Hl Ht Hf) as (d & tr & sf & -> & Hne & Hd & Hall).
  assert (L : length (initial_bins c) = length (g0 c)) by apply initial_bins_length.
  exists d, (map callback_report tr), (final_report sf). split; [reflexivity|]. split; [destruct tr; [congruence|discriminate]|]. split; auto.
  destruct (Hall sf) as (l' & e' & ->); [simpl; auto|]. simpl. rewrite <- L. split; [|split; [auto|split; [auto|]]].
  - intros x [<-|Hx].
    + unfold zero_report. simpl. rewrite zr_lbs, zr_en_lb, <- L. auto 10.
    + apply in_map_iff in Hx as (st & <- & Hst). destruct (Hall st) as (l2 & e2 & ->); [simpl; auto|].
      unfold zero_report. simpl. rewrite zr_lbs, zr_en_lb, <- L. auto 10.
  - intros x Hx. apply in_map_iff in Hx as (st & <- & Hst). destruct (Hall st) as (l2 & e2 & ->); [simpl; auto|]. auto.
Qed.

Lemma zr_run_endless s fuel : 0 < total c -> stepd c = Fixed s -> s <= 0 ->
  exists d recs, evaluate np c fuel ne = (d, recs, Err OutOfFuel) /\ length recs = fuel.
Proof.
  intros Ht Es Hs. destruct zr_initial as [Hi Hl]. unfold evaluate. rewrite Hi.
  destruct (zr_endless s Es Hs fuel _ 0 ne Hl Ht) as (d & tr & -> & L). exists d, (map callback_report tr). rewrite map_length. auto.
Qed.
End ZeroRun.
