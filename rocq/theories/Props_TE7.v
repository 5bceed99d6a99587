(** Property C82: what a step does with the bins it has moved. *)
From Coq Require Import Sorted.
From Verif Require Import Base TEUtils TimeEvolution ListFacts TEIndexFacts TEStageFacts TEStepFacts TELoopFacts TEForward Spec_TE Spec_Groups Spec_Bins TEThm4 TEThm5 TEReach TEBins TEGroups NumpyInst TEExamples TEBounded Spec_Init Props_TE3 Props_TE5 Props_TE6.

(** ** C82 *)
(** One group, Euler's method: the bins moved and filled as in C09, then sorted
    together with their densities, united where they coincide or come too close,
    cut at the bounds and completed there. *)
Theorem C82_step np c ne d s d' s' : numpy_ok np -> valid c -> method c = Euler -> length (st_subs s) = 1%nat -> reached np c ne d s -> step np c s d = (d', Ok s') ->
  let dt := st_elapsed s' - st_elapsed s in
  exists moved : list cell, length moved = length (st_bins s) /\
    (forall i l u, nth_error (st_bins s) i = Some (l, u) ->
      let l' := l + group_rate c fst (st_en s) 0 i * dt / mec2 c in let u' := u + group_rate c snd (st_en s) 0 i * dt / mec2 c in
      let v := nth i (st_dens s) 0 in let f := entry (st_subs s) 0 i in
      exists x, nth_error moved i = Some x /\ at_gamma x = l' /\ 0 < l' < u' /\
        density x * (u' - l') = v * f * (u - l) + (v * f * group_rate c (fun x => x) (st_rel s) 0 i + group_rate c (fun x => x) (st_abs s) 0 i) * dt * (u' - l') /\
        shares x = (if Reqb (density x) 0 then f else 1) :: nil) /\
    through np moved d' /\
    settled np c (dist_eval np d') (group_rate c fst (st_en s) 0 0) (group_rate c fst (st_en s) 0 (length (st_bins s) - 1)) moved (cells (st_bins s') (st_dens s') (st_subs s')).
Proof.
  intros Hnp Hv Hm H1 Hr Hst. cbv zeta. destruct (C81_groups np c ne d s d' s' Hnp Hv Hm Hr Hst) as (tables & b & n & split & Lt & Hmv & Hput & _ & _ & Hth & Hse).
  destruct Hput as (t0 & ts & parts & -> & Hrg & Ln & Lsp & Lrow & Htot). assert (ts = []) by (destruct ts; auto; simpl in Lt; lia). subst ts.
  inversion Hrg; subst. destruct (Hmv 0%nat t0 eq_refl) as (L1 & L2 & Hv0). exists (cells (fst t0) n split). split; [rewrite cells_length; auto|]. split; [|auto].
  intros i l u Hb. destruct (Hv0 i l u Hb) as (v' & B1 & B2 & P & Nn & E). cbv zeta in *.
  assert (Hi : (i < length (fst t0))%nat) by (rewrite L1; eapply nth_error_lt; eauto). destruct (Htot i Hi) as [En Es]. destruct (Es 0%nat) as [Es1 Es2]; [simpl; lia|].
  assert (Ed : nth i n 0 = v'). { rewrite En. simpl. rewrite (nth_error_nth _ _ _ B2). lra. }
  exists (cell_at (fst t0) n split i). split; [apply cells_nth; auto|]. simpl. rewrite nth_lbs, (nth_error_nth _ _ _ B1). cbn [fst]. split; auto. split; [lra|]. rewrite Ed. split; [exact E|].
  destruct split as [|r0 [|r1 rs]]; [discriminate| |discriminate]. simpl. f_equal. unfold entry in Es1, Es2. simpl in Es1, Es2. rewrite (nth_error_nth _ _ _ B2), Rplus_0_r in Es1, Es2. unfold entry.
  destruct (Reqb_spec v' 0) as [Z|Z]; [apply Es2; auto|]. rewrite Es1 by auto. field. auto.
Qed.
Print Assumptions C82_step.
(** all bins gain energy, the lowest one stays outside the bounds and is
    replaced by an empty bin at the lower bound *)
Example C82_case : exists d s d' s', reached np0 ex_inside ex_ne d s /\ step np0 ex_inside s d = (d', Ok s') /\ valid ex_inside /\ method ex_inside = Euler /\
  map fst (st_bins s) = [10; 100; 1000] /\ map fst (st_bins s') = [50; 101; 1001].
Proof. destruct C73_case as (d & s & d' & s' & H1 & H2 & H3 & _ & H5 & _ & H7 & H8). exists d, s, d', s'. repeat (split; [assumption|]). assumption. Qed.

(** blob.n_e after any stage that builds it *)
Theorem C82_distribution np b n split d : numpy_ok np -> length n = length b -> update_distribution np b n = Ok d -> through np (cells b n split) d.
Proof. intros Hnp. apply update_through; auto. Qed.
Print Assumptions C82_distribution.
(** a table out of order, with one Lorentz factor twice and an empty point *)
Example C82_distribution_case : let b := [(100, 101); (10, 11); (100, 101); (1000, 1001)] in
  update_distribution np0 b [4; 1; 2; 0] = Ok (DInterp [10; 100] [1; 3]).
Proof.
  intros b. assert (As : argsort np0 (lbs b) = [1; 0; 2; 3]%nat).
  { unfold b, lbs. cbn [map fst argsort np0]. unfold sort_idx. cbn [length seq fold_right].
    repeat (cbn [ins_idx nth]; match goal with |- context [Rleb ?x ?y] => first [rewrite (proj2 (Rleb_true x y)) by lra | rewrite (proj2 (Rleb_false x y)) by lra] end). reflexivity. }
  assert (L1 : log10 10 < log10 100) by (apply log10_lt; lra). assert (L2 : log10 100 < log10 1000) by (apply log10_lt; lra).
  unfold update_distribution, sort_and_merge_duplicates. rewrite As. cbv zeta. unfold b. cbn [map nth]. unfold lbs. cbn [map fst].
  assert (D : dup_positions (fun x y => Reqb (lg np0 x) (lg np0 y)) [10; 100; 100; 1000] = [2%nat]).
  { unfold dup_positions. cbn [length seq filter Nat.sub nth_error lg np0].
    rewrite (proj2 (Reqb_false (log10 10) (log10 100))) by lra. rewrite (proj2 (Reqb_true (log10 100) (log10 100))) by lra. rewrite (proj2 (Reqb_false (log10 100) (log10 1000))) by lra. reflexivity. }
  rewrite D.
  assert (M : merge_points [10; 100; 100; 1000] [1; 4; 2; 0] (group_duplicates [2%nat]) None = ([10; 100; 1000], [1; 3; 0])).
  { change (merge_points [10; 100; 100; 1000] [1; 4; 2; 0] (group_duplicates [2%nat]) None) with ([10; geo_mean [100; 100]; 1000], [1; mean [4; 2]; 0]).
    unfold geo_mean, mean. cbn [map length Rsum fold_right INR]. replace (exp _) with 100. { f_equal. f_equal. f_equal. lra. }
    symmetry. replace (_ / _) with (ln 100) by lra. apply exp_ln. lra. }
  rewrite M. cbn [map fst forallb]. rewrite (proj2 (Reqb_false 1 0)) by lra. cbn [andb length Nat.eqb].
  unfold interpolated. cbn [map negb]. rewrite (proj2 (Reqb_false 1 0)), (proj2 (Reqb_false 3 0)), (proj2 (Reqb_true 0 0)) by lra. cbn [negb select length Nat.ltb Nat.leb map strictly_increasingb lg np0]. rewrite (proj2 (Rltb_true _ _) L1). reflexivity.
Qed.

(** what that means for a single bin: it is one of the moved ones, or stands for
    several of them, among which it lies, with the density of the new
    distribution, or it is a new one without particles *)
Lemma arg_min (l : list cell) : l <> [] -> exists y, In y l /\ forall v, In v (map at_gamma l) -> at_gamma y <= v.
Proof.
  induction l as [|a l IH]; [congruence|]. intros _. destruct l as [|a' l]. { exists a. split; [simpl; auto|]. intros v [<-|[]]. lra. }
  destruct IH as (y & Hy & H); [discriminate|]. destruct (Rle_dec (at_gamma a) (at_gamma y)).
  - exists a. split; [simpl; auto|]. intros v [<-|Hv]; [lra|]. apply H in Hv. lra.
  - exists y. split; [right; auto|]. intros v [<-|Hv]; [lra|]. apply H; auto.
Qed.
Lemma arg_max (l : list cell) : l <> [] -> exists y, In y l /\ forall v, In v (map at_gamma l) -> v <= at_gamma y.
Proof.
  induction l as [|a l IH]; [congruence|]. intros _. destruct l as [|a' l]. { exists a. split; [simpl; auto|]. intros v [<-|[]]. lra. }
  destruct IH as (y & Hy & H); [discriminate|]. destruct (Rle_dec (at_gamma y) (at_gamma a)).
  - exists a. split; [simpl; auto|]. intros v [<-|Hv]; [lra|]. apply H in Hv. lra.
  - exists y. split; [right; auto|]. intros v [<-|Hv]; [lra|]. apply H; auto.
Qed.
Lemma united_origin j f l l' x : united j f l l' -> In x l' -> (forall y, In y l -> 0 < at_gamma y) -> 
  In x l \/ exists y z w, In y l /\ In z l /\ In w l /\ at_gamma y <= at_gamma x <= at_gamma z /\ shares x = shares w /\ (forall g, f = Some g -> density x = g (at_gamma x)).
Proof.
  intros (starts & _ & _ & F) Hx Hp. apply In_nth_error in Hx as [k Hk]. destruct (Forall2_nth_error_r _ _ _ F _ _ Hk) as (i & Hi & m & y0 & Hy0 & Hm1 & Hm2 & _ & _ & H1 & H2).
  destruct (Nat.eq_dec m 1) as [->|Ne]. { left. rewrite H1 by auto. eapply nth_error_In; eauto. }
  right. destruct H2 as (G & D & S); [lia|]. set (run := firstn m (skipn i l)) in *.
  assert (Inc : forall y, In y run -> In y l). { intros y Hy. unfold run in Hy. rewrite <- (firstn_skipn i l). apply in_or_app. right. rewrite <- (firstn_skipn m (skipn i l)). apply in_or_app. left. auto. }
  assert (Lr : length run = m). { unfold run. rewrite firstn_length, skipn_length. lia. }
  assert (Nr : map at_gamma run <> []). { intros E. apply (f_equal (@length R)) in E. rewrite map_length, Lr in E. simpl in E. lia. }
  assert (Gx : at_gamma x = exp (average (map ln (map at_gamma run)))) by (rewrite G, map_map; auto).
  assert (Pr : forall v, In v (map at_gamma run) -> 0 < v). { intros v Hv. apply in_map_iff in Hv as (y & <- & Hy). auto. }
  destruct (arg_min run) as (y & Hy & Ly); [intros E; apply Nr; rewrite E; auto|]. destruct (arg_max run) as (z & Hz & Lz); [intros E; apply Nr; rewrite E; auto|].
  exists y, z, y0. split; auto. split; auto. split; [eapply nth_error_In; eauto|].
  split. { rewrite Gx. apply (geo_mean_bounds (map at_gamma run)); [exact Nr|apply Hp; auto|intros v Hv; split; auto]. }
  split; auto. intros g Eg. rewrite D, Eg. auto.
Qed.

Lemma settled_origin np c f r1 r2 l l' x : settled np c f r1 r2 l l' -> In x l' -> (forall y, In y l -> 0 < at_gamma y) ->
  In x l \/
  (exists y z w, In y l /\ In z l /\ In w l /\ at_gamma y <= at_gamma x <= at_gamma z /\ shares x = shares w /\ density x = f (at_gamma x)) \/
  (exists lo hi, bounds c = Some (lo, hi) /\ (at_gamma x = lo \/ at_gamma x = hi / (1 + 1 / 10000)) /\ density x = 0).
Proof.
  intros (l1 & l2 & (p & Hp & _ & H1) & H2 & H3) Hx Pos.
  assert (Pp : forall y, In y p -> 0 < at_gamma y) by (intros y Hy; apply Pos; apply (Permutation_in y (Permutation_sym Hp)); auto).
  assert (O1 : forall y, In y l1 -> In y l \/ exists a b w, In a l /\ In b l /\ In w l /\ at_gamma a <= at_gamma y <= at_gamma b /\ shares y = shares w /\ density y = f (at_gamma y)).
  { intros y Hy. destruct (united_origin _ _ _ _ _ H1 Hy Pp) as [A|(a & b & w & A & B & W & G & S & D)].
    - left. apply (Permutation_in y (Permutation_sym Hp)); auto.
    - right. exists a, b, w. repeat split; try tauto; try (apply (Permutation_in _ (Permutation_sym Hp)); auto). apply D. auto. }
  assert (P1 : forall y, In y l1 -> 0 < at_gamma y). { intros y Hy. destruct (O1 y Hy) as [A|(a & a2 & a3 & A & _ & _ & G & _)]; auto. apply Pos in A. lra. }
  assert (Low : forall y, In y l1 -> exists a, In a l /\ at_gamma a <= at_gamma y). { intros y Hy. destruct (O1 y Hy) as [A|(a & a2 & a3 & A & _ & _ & G & _)]; [exists y|exists a]; split; auto; lra. }
  assert (Upp : forall y, In y l1 -> exists a, In a l /\ at_gamma y <= at_gamma a). { intros y Hy. destruct (O1 y Hy) as [A|(a2 & a & a3 & _ & A & _ & G & _)]; [exists y|exists a]; split; auto; lra. }
  assert (Shr : forall y, In y l1 -> exists a, In a l /\ shares y = shares a). { intros y Hy. destruct (O1 y Hy) as [A|(a2 & a3 & a & _ & _ & A & _ & S & _)]; [exists y|exists a]; auto. }
  assert (O2 : forall y, In y l2 -> In y l \/ exists a b w, In a l /\ In b l /\ In w l /\ at_gamma a <= at_gamma y <= at_gamma b /\ shares y = shares w /\ density y = f (at_gamma y)).
  { intros y Hy. destruct (merge_thr c) as [thr|]; [|subst l2; auto]. destruct (united_origin _ _ _ _ _ H2 Hy P1) as [A|(a & b & w & A & B & W & G & S & D)]; auto.
    right. destruct (Low a A) as (a' & A' & La). destruct (Upp b B) as (b' & B' & Lb). destruct (Shr w W) as (w' & W' & Ew). exists a', b', w'. split; auto. split; auto. split; auto. split; [lra|]. split; [congruence|]. apply D; auto. }
  destruct (bounds c) as [[lo hi]|]; [|subst l'; destruct (O2 x Hx); auto].
  destruct H3 as (x0 & low & high & X0 & E & X1); clear X0 X1. rewrite E in Hx. unfold framed in Hx. apply in_app_or in Hx as [Hx|Hx].
  { destruct low; [destruct Hx as [<-|[]]|destruct Hx]. right. right. exists lo, hi. simpl. auto. }
  apply in_app_or in Hx as [Hx|Hx]. { apply filter_In in Hx as [Hx _]. destruct (O2 x Hx); auto. }
  destruct high; [destruct Hx as [<-|[]]|destruct Hx]. right. right. exists lo, hi. simpl. auto.
Qed.

Theorem C82_origin np c ne d s d' s' k g u v : numpy_ok np -> valid c -> method c = Euler -> length (st_subs s) = 1%nat -> reached np c ne d s -> step np c s d = (d', Ok s') ->
  nth_error (st_bins s') k = Some (g, u) -> nth_error (st_dens s') k = Some v ->
  let dt := st_elapsed s' - st_elapsed s in
  let to i := fst (nth i (st_bins s) (0, 0)) + group_rate c fst (st_en s) 0 i * dt / mec2 c in
  (exists i, (i < length (st_bins s))%nat /\ g = to i) \/
  (exists i j, (i < length (st_bins s))%nat /\ (j < length (st_bins s))%nat /\ to i <= g <= to j /\ v = dist_eval np d' g) \/
  (exists lo hi, bounds c = Some (lo, hi) /\ (g = lo \/ g = hi / (1 + 1 / 10000)) /\ v = 0).
Proof.
  intros Hnp Hv Hm H1 Hr Hst Hk Hd. cbv zeta. destruct (C82_step np c ne d s d' s' Hnp Hv Hm H1 Hr Hst) as (moved & Lm & Hmv & _ & Hse). cbv zeta in Hmv.
  assert (Or : forall y, In y moved -> exists i, (i < length (st_bins s))%nat /\ 0 < at_gamma y /\ at_gamma y = fst (nth i (st_bins s) (0, 0)) + group_rate c fst (st_en s) 0 i * (st_elapsed s' - st_elapsed s) / mec2 c).
  { intros y Hy. apply In_nth_error in Hy as [i Hi]. assert (Li : (i < length (st_bins s))%nat) by (rewrite <- Lm; eapply nth_error_lt; eauto). exists i. split; auto.
    destruct (nth_error (st_bins s) i) as [[l w]|] eqn:Eb; [|apply nth_error_None in Eb; lia]. destruct (Hmv i l w Eb) as (x & Hx & G & P & _). assert (x = y) by congruence. subst x.
    rewrite (nth_error_nth _ _ _ Eb). cbn [fst]. rewrite <- G in P. split; [lra|exact G]. }
  assert (Hx : In (cell_at (st_bins s') (st_dens s') (st_subs s') k) (cells (st_bins s') (st_dens s') (st_subs s'))).
  { apply (nth_error_In _ k). apply cells_nth. eapply nth_error_lt; eauto. }
  assert (Eg : at_gamma (cell_at (st_bins s') (st_dens s') (st_subs s') k) = g). { simpl. rewrite nth_lbs. rewrite (nth_error_nth _ _ _ Hk). auto. }
  assert (Ev : density (cell_at (st_bins s') (st_dens s') (st_subs s') k) = v). { simpl. apply nth_error_nth; auto. }
  destruct (settled_origin _ _ _ _ _ _ _ _ Hse Hx) as [A|[(y & z & w & Y & Z & W & G & _ & D)|(lo & hi & B & G & D)]].
  - intros y Hy. destruct (Or y Hy) as (i & Hi & P & E). exact P.
  - left. destruct (Or _ A) as (i & Hi & _ & E). exists i. split; auto. congruence.
  - right. left. destruct (Or _ Y) as (i & Hi & _ & Ei). destruct (Or _ Z) as (j & Hj & _ & Ej). exists i, j. split; auto. split; auto. rewrite <- Ei, <- Ej, <- Eg. split; [exact G|]. rewrite Eg in D |- *. congruence.
  - right. right. exists lo, hi. rewrite Eg in G. rewrite Ev in D. auto.
Qed.
Print Assumptions C82_origin.
