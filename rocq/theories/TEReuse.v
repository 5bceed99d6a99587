(** Reused rates (C13): where the rates of each bin come from, and for how long
    they have been in use. *)
From Verif Require Import Base TEUtils TimeEvolution ListFacts TEIndexFacts TEStageFacts TEStepFacts TELoopFacts TEInv TEForward Spec_TE TEThm1 TEThm2 TEThm4 TEThm5 TEErr TEReach TEAuto.

(** position of entry [k] among the selected ones *)
Definition rank (m : list bool) (k : nat) : nat := count (firstn k m).
Lemma select_rank {A} m : forall (l : list A) k, length m = length l -> nth_error m k = Some true -> nth_error (select m l) (rank m k) = nth_error l k.
Proof.
  unfold rank, count. induction m as [|b m IH]; intros [|a l] [|k] L H; simpl in *; try discriminate.
  - injection H as ->. auto.
  - destruct b; simpl; apply IH; auto.
Qed.
Lemma scatter_rank {A} m : forall (l v : list A) k, length m = length l -> length v = count m -> nth_error m k = Some true -> nth_error (scatter m l v) k = nth_error v (rank m k).
Proof.
  unfold rank, count. induction m as [|b m IH]; intros [|a l] v [|k] L Lv H; simpl in *; try discriminate.
  - injection H as ->. simpl in Lv. destruct v; [discriminate|]. auto.
  - destruct b; simpl in *.
    + destruct v as [|v0 v]; [discriminate|]. simpl. apply IH; auto.
    + apply IH; auto.
Qed.

Lemma nth_interlace b q x : nth_error b q = Some x -> nth_error (interlace b) (2 * q) = Some (fst x) /\ nth_error (interlace b) (2 * q + 1) = Some (snd x).
Proof.
  revert q. induction b as [|a b IH]; intros [|q] H; try discriminate.
  - injection H as ->. auto.
  - simpl in H. replace (2 * S q)%nat with (S (S (2 * q))) by lia. simpl. destruct (IH q H) as [E1 E2]. rewrite Nat.add_1_r in *. simpl in *.
    split; auto.
Qed.
Lemma nth_pairs : forall l v q x, pairs l = Some v -> nth_error v q = Some x -> nth_error l (2 * q) = Some (fst x) /\ nth_error l (2 * q + 1) = Some (snd x).
Proof.
  fix IH 1. intros [|a [|b l]] v q x H Hq; simpl in H.
  - injection H as <-. destruct q; discriminate.
  - discriminate.
  - destruct (pairs l) as [r|] eqn:E; [|discriminate]. injection H as <-. destruct q as [|q]; simpl in Hq.
    + injection Hq as <-. auto.
    + replace (2 * S q)%nat with (S (S (2 * q))) by lia. simpl. destruct (IH l r q x E Hq) as [E1 E2]. rewrite Nat.add_1_r in *. simpl in *. split; auto.
Qed.

Lemma lookup_key {A} (l : list (string * A)) i k v : NoDup (map fst l) -> nth_error l i = Some (k, v) -> lookup k l = Some v.
Proof.
  revert i. induction l as [|[k0 v0] l IH]; intros [|i] Hn H; try discriminate; simpl in *.
  - injection H as -> ->. rewrite String.eqb_refl. auto.
  - inversion Hn as [|? ? Hni Hn']; subst. destruct (String.eqb_spec k k0) as [->|]; [|eapply IH; eauto].
    exfalso. apply Hni. apply nth_error_In in H. apply (in_map fst) in H. auto.
Qed.

(** rates of a bin that was not recalculated *)
Lemma rates_kept {A} (sh : shape A) fns n (r pr r' : rates A) m mask cols ne dens sg j i : NoDup (map fst fns) -> rates_ok fns n r ->
  remap_dict m r (Some None) = Ok pr -> length cols = length m -> length dens = length m -> length mask = length m ->
  recalc_new_rates sh cols fns ne dens sg pr (Some mask) = Ok r' -> nth_error mask j = Some false -> nth_error m j = Some (Z.of_nat i) -> (i < n)%nat ->
  rates_same r i r' j.
Proof.
  intros Hnd Hr Hpr Lc Ld Lm H Hj Hmj Hi. destruct (remap_dict_ok fns _ _ _ _ _ Hr Hpr) as [Hpo Hp2].
  apply recalc_masked in H as [Hr' F]; try lia; [|rewrite Lc; auto].
  unfold rates_same. apply Forall2_from_nth.
  { assert (E : length (map fst r) = length (map fst r')) by (rewrite (proj1 Hr), (proj1 Hr'); auto). rewrite !map_length in E. auto. }
  intros k kv kv' Hk Hk'. destruct (Forall2_nth_error_r _ _ _ F _ _ Hk') as (kf & Hkf & E1 & pv & vals & smask & Elk & _ & _ & E4).
  assert (Ekf : fst kv = fst kf).
  { assert (E : nth_error (map fst r) k = nth_error (map fst fns) k) by (rewrite (proj1 Hr); auto). rewrite !nth_error_map, Hk, Hkf in E. simpl in E. congruence. }
  split; [congruence|].
  assert (Epr : exists kvp, nth_error pr k = Some kvp /\ fst kvp = fst kv /\ remap m (snd kv) (Some None) = Ok (snd kvp)).
  { destruct (nth_error_Some_ex pr k) as [kvp Hkvp]. { rewrite <- (Forall2_length _ _ _ Hp2). eapply nth_error_lt; eauto. }
    destruct (Forall2_nth_error_r _ _ _ Hp2 _ _ Hkvp) as (kv0 & Hkv0 & E & E'). assert (kv0 = kv) by congruence. subst. eauto. }
  destruct Epr as ([kn kvp] & Hkvp & Ek & Erm). simpl in Ek, Erm.
  assert (pv = kvp). { rewrite (lookup_key pr k (fst kf) kvp) in Elk; [congruence|rewrite (proj1 Hpo); auto|]. rewrite Hkvp. congruence. }
  subst pv. rewrite E4, scatter_nth_false by auto.
  destruct (nth_error_Some_ex kvp j) as [x Hx]. { rewrite (remap_length _ _ _ _ Erm). eapply nth_error_lt; eauto. }
  pose proof (remap_nth _ _ _ _ Erm _ _ _ Hmj Hx) as X. destruct (Z.eqb_spec (Z.of_nat i) (-1)); [lia|].
  rewrite Hx. rewrite py_get_nat in X. destruct (nth_error (snd kv) i); [|discriminate]. congruence.
Qed.

(** rates of a bin that was recalculated *)
Lemma rates_recalc {A} (sh : shape A) fns n (r pr r' : rates A) m mask cols ne dens sg j : rates_ok fns n r ->
  remap_dict m r (Some None) = Ok pr -> length cols = length m -> length dens = length m -> length mask = length m ->
  recalc_new_rates sh cols fns ne dens sg pr (Some mask) = Ok r' -> nth_error mask j = Some true ->
  Forall2 (fun kf kv => fst kv = fst kf /\ exists vals smask q y, fn_vals sh (snd kf) ne (select mask cols) (select mask dens) smask vals /\
     nth_error (select mask cols) q = nth_error cols j /\ nth_error (select mask dens) q = nth_error dens j /\
     nth_error vals q = Some y /\ nth_error (snd kv) j = Some (Some y)) fns r'.
Proof.
  intros Hr Hpr Lc Ld Lm H Hj. destruct (remap_dict_ok fns _ _ _ _ _ Hr Hpr) as [Hpo Hp2].
  apply recalc_masked in H as [Hr' F]; try lia; [|rewrite Lc; auto].
  eapply Forall2_impl; [|exact F]. intros kf kv (E1 & pv & vals & smask & Elk & _ & Hfv & E4). split; auto.
  assert (Lpv : length pv = length m) by (apply lookup_In in Elk; apply (proj2 Hpo) in Elk; auto).
  pose proof Hfv as (o & _ & _ & Lv). assert (Lv' : length vals = count mask) by (rewrite Lv; apply select_length; lia).
  assert (Es : nth_error (snd kv) j = nth_error (map Some vals) (rank mask j)).
  { rewrite E4. apply scatter_rank; auto; [lia|rewrite map_length; auto]. }
  destruct (nth_error_Some_ex vals (rank mask j)) as [y Hy].
  { assert (Hs : nth_error (select mask mask) (rank mask j) = Some true) by (rewrite select_rank; auto).
    apply nth_error_lt in Hs. rewrite select_length in Hs by auto. lia. }
  exists vals, smask, (rank mask j), y. split; auto. split; [apply select_rank; auto; lia|]. split; [apply select_rank; auto; lia|].
  split; auto. rewrite Es, nth_error_map, Hy. auto.
Qed.

Lemma called_en_of (f : GammaFn) ne mask cols dens sm vals q l u v rl ru j :
  fn_vals shape2 f ne (select mask cols) (select mask dens) sm vals -> nth_error (select mask cols) q = nth_error cols j -> nth_error (select mask dens) q = nth_error dens j ->
  nth_error cols j = Some (l, u) -> nth_error dens j = Some v -> nth_error vals q = Some (rl, ru) -> called_en f ne l u v rl ru.
Proof.
  intros (out & Ho & Hu & _) E1 E2 Hc Hd Hy. simpl in Ho, Hu. rewrite Hc in E1. rewrite Hd in E2.
  destruct (nth_interlace _ _ _ E1) as [I1 I2]. destruct (nth_pairs _ _ _ _ Hu Hy) as [O1 O2]. simpl in *.
  eexists _, out, q. split; [exact Ho|]. simpl. auto 6.
Qed.
Lemma called_of (f : GammaFn) ne mask cols dens sm vals q g v r j :
  fn_vals shape1 f ne (select mask cols) (select mask dens) sm vals -> nth_error (select mask cols) q = nth_error cols j -> nth_error (select mask dens) q = nth_error dens j ->
  nth_error cols j = Some g -> nth_error dens j = Some v -> nth_error vals q = Some r -> called f ne g v r.
Proof.
  intros (out & Ho & Hu & _) E1 E2 Hc Hd Hy. simpl in Ho, Hu. injection Hu as ->. rewrite Hc in E1. rewrite Hd in E2.
  eexists _, vals, q. split; [exact Ho|]. simpl. auto 6.
Qed.

Section Reuse.
Variable np : numpy.
Hypothesis Hnp : numpy_ok np.
Variable c : cfg.
Hypothesis Hv : valid c.
Hypothesis Hg : positive_grid c.
Hypothesis Hp : positive_steps c.
Hypothesis Hopt : optimize c = true.
Hypothesis Hnames : distinct_names c.

Lemma fresh_initial ne s k b : initial_values np c ne = Ok s -> nth_error (st_bins s) k = Some b -> exists v, fresh_at c ne s k (fst b) (snd b) v.
Proof.
  intros Hi Hb. pose proof (initial_aligned np c ne s (valid_split c Hv) Hi) as (Ha & _).
  pose proof (initial_steady np c (valid_split c Hv) ne s (proj1 Hg) Hi) as Hs.
  apply initial_Ok in Hi as (sg & Esg & Hi). pose proof (dist_call_length np ne (g0 c)) as Ldc. destruct (dist_call np ne (g0 c)) as [lb' dens]. simpl in Ldc. destruct Ldc as [Ldc1 Ldc2].
  destruct Hi as (Eb & Ed & Es & Et & El & Hen & Hrel & Hab).
  assert (Lb : length (initial_bins c) = length (g0 c)) by apply initial_bins_length.
  assert (Hsub : sg <> [] /\ forall r, In r sg -> length r = length (g0 c)).
  { rewrite <- Lb, <- Eb, <- Es. apply Ha. }
  destruct Hsub as [Hs1 Hs2].
  apply recalc_fresh in Hen; [|left; auto|lia|auto|intros; rewrite Hs2 by auto; auto].
  apply recalc_fresh in Hrel; [|left; auto|lia|auto|intros; rewrite Hs2 by auto; auto].
  apply recalc_fresh in Hab; [|left; auto|lia|auto|intros; rewrite Hs2 by auto; auto].
  assert (Hk : (k < length (g0 c))%nat) by (rewrite <- Lb, <- Eb; eapply nth_error_lt; eauto).
  destruct (nth_error_Some_ex dens k) as [v Hd]; [lia|]. destruct (nth_error_Some_ex lb' k) as [g Hgk]; [lia|].
  exists v. destruct b as [l u]. simpl. constructor; auto.
  - apply (sd_pos _ _ Hs). apply nth_error_In with k. apply (lbs_nth _ _ (l, u)); auto.
  - rewrite Eb, initial_bins_eq, nth_error_map in Hb. destruct (nth_error (g0 c) k); [|discriminate]. injection Hb as <- <-. auto.
  - rewrite Ed. auto.
  - eapply Forall2_impl; [|exact Hen]. intros kf kv (E1 & vals & E2 & out & Ho & Hu & Lv). split; auto. simpl in Ho, Hu.
    destruct (nth_error_Some_ex vals k) as [[rl ru] Hy]; [lia|]. exists rl, ru. split; [rewrite E2, nth_error_map, Hy; auto|].
    rewrite Eb in Hb. destruct (nth_interlace _ _ _ Hb) as [I1 I2]. destruct (nth_pairs _ _ _ _ Hu Hy) as [O1 O2]. eexists _, out, k. split; [exact Ho|]. simpl. auto 6.
  - eapply Forall2_impl; [|exact Hrel]. intros kf kv (E1 & vals & E2 & out & Ho & Hu & Lv). split; auto. simpl in Ho, Hu. injection Hu as ->.
    destruct (nth_error_Some_ex vals k) as [y Hy]; [lia|]. exists g, y. split; auto. split; [rewrite E2, nth_error_map, Hy; auto|]. eexists _, vals, k. split; [exact Ho|]. simpl. auto.
  - eapply Forall2_impl; [|exact Hab]. intros kf kv (E1 & vals & E2 & out & Ho & Hu & Lv). split; auto. simpl in Ho, Hu. injection Hu as ->.
    destruct (nth_error_Some_ex vals k) as [y Hy]; [lia|]. exists g, y. split; auto. split; [rewrite E2, nth_error_map, Hy; auto|]. eexists _, vals, k. split; [exact Ho|]. simpl. auto.
Qed.

Lemma rates_same_refl {A} fns n (r : rates A) k : rates_ok fns n r -> rates_same r k r k.
Proof. intros _. unfold rates_same. induction r; constructor; auto. Qed.
Lemma rates_same_trans {A} (r0 r1 r2 : rates A) i j k : rates_same r0 i r1 j -> rates_same r1 j r2 k -> rates_same r0 i r2 k.
Proof.
  unfold rates_same. intros H. revert r2. induction H as [|a b l l' [E1 E2] H IH]; intros r2 H2; inversion H2 as [|? d ? ? [E3 E4]]; subst; constructor; auto.
  split; congruence.
Qed.

(** what is known of bin [i] of [s], with time [x] left *)
Definition origin ne d s i x : Prop :=
  exists d0 s0 k l u v M, reached np c ne d0 s0 /\ leads_to np c d0 s0 d s /\ fresh_at c d0 s0 k l u v /\ same_rates s0 k s i /\
    length (st_subs s) = length (st_subs s0) /\ st_elapsed s0 <= st_elapsed s /\
    (x = Some 0 /\ d0 = d /\ s0 = s /\ k = i \/
     x <> Some 0 /\ x = ext_sub M (st_elapsed s - st_elapsed s0) /\ forall t, 0 <= t -> ext_le (Some t) M -> forall g, (g < length (st_subs s0))%nat -> limits_at c s0 g k t) /\
    (subgroups c = None -> let a := st_elapsed s - st_elapsed s0 in
       nth_error (st_bins s) i = Some (l + group_rate c fst (st_en s) 0 i * a / mec2 c, u + group_rate c snd (st_en s) 0 i * a / mec2 c)).

Lemma same_rates_refl s k : aligned c s -> same_rates s k s k.
Proof. intros Ha. split; [|split]; eapply rates_same_refl; apply Ha. Qed.

(** the step length and the entries of the array of times left *)
Lemma choose_left s eng inj left0 t : aligned c s -> steady c s -> st_elapsed s < total c -> choose_step c s = Ok (eng, inj, left0, t) ->
  length left0 = length (st_bins s) /\
  forall i l u x y, nth_error (st_bins s) i = Some (l, u) -> nth_error (st_left s) i = Some x -> nth_error left0 i = Some y -> 
    ext_le (Some t) y /\ (x <> Some 0 -> y = x) /\
    (x = Some 0 -> 0 < l < u -> forall t', 0 <= t' -> ext_le (Some t') y -> forall g, (g < length (st_subs s))%nat -> limits_at c s g i t').
Proof.
  intros Ha Hs Hlt Hc. destruct (step_time_pos c (v_mec _ Hv) _ _ _ _ _ Ha Hs Hp Hlt Hc) as [Hpos Hall].
  specialize (Hall Hopt (v_auto _ Hv Hopt)).
  apply choose_step_Ok in Hc as (ken & krel & kabs & dr & step0 & H1 & H2 & H3 & He & _ & _ & H6 & H7).
  red in Hp. rewrite (v_auto _ Hv Hopt) in Hp, H6. destruct Hp as (HE & HD & HI). destruct H6 as (mx & Hmx & H6). rewrite Hopt in H6. destruct H6 as [El Hmin]. rewrite He in Hmx.
  pose proof (mx_length c _ _ _ _ _ Ha H1 H2 H3 Hmx) as Lmx.
  split. { rewrite El. apply map2_length_eq; [apply Ha; auto|rewrite Lmx; auto]. }
  intros i l u x y Hb Hx Hy. split; [apply (Hall _ _ Hy)|].
  rewrite El, nth_error_map2, Hx in Hy. destruct (nth_error mx i) as [z|] eqn:Ez; [|discriminate]. injection Hy as <-.
  unfold ext_is0. destruct x as [x|]; [|split; [auto|discriminate]]. destruct (Reqb_spec x 0) as [->|Hx0].
  - split; [congruence|]. intros _ Hlu t' Ht' Hle. apply (mx_limits c Hv s ken krel kabs mx i z l u t' HE HD HI Ha H1 H2 H3 Hmx Ez Hb Hlu Ht'). auto.
  - split; auto. intros E. congruence.
Qed.

Lemma ext_sub_sub M a t : ext_sub (ext_sub M a) t = ext_sub M (a + t).
Proof. destruct M; simpl; auto. f_equal. ring. Qed.
Lemma ext_le_sub M a t : ext_le (Some t) (ext_sub M a) -> ext_le (Some (a + t)) M.
Proof. destruct M; simpl; auto. lra. Qed.

Lemma origin_inv ne d s : reached np c ne d s -> forall i x, nth_error (st_left s) i = Some x -> origin ne d s i x.
Proof.
  intros Hr. induction Hr as [s Hi|d s d' s' Hr IH Hlt Hst].
  - intros i x Hx. pose proof (initial_aligned np c ne s (valid_split c Hv) Hi) as (Ha & _).
    assert (x = Some 0). { pose proof Hi as Hi'. apply initial_Ok in Hi' as (sg & _ & Hi'). destruct (dist_call np ne (g0 c)). destruct Hi' as (_ & _ & _ & _ & El & _).
      rewrite El, nth_error_map in Hx. destruct (nth_error (initial_bins c) i); [|discriminate]. simpl in Hx. congruence. }
    destruct (nth_error_Some_ex (st_bins s) i) as [b Hb]. { rewrite <- (al_left _ _ Ha Hopt). eapply nth_error_lt; eauto. }
    destruct (fresh_initial ne s i b Hi Hb) as [v Hf]. exists ne, s, i, (fst b), (snd b), v, None. split; [apply at_start; auto|]. split; [apply lead_refl|]. split; auto.
    split; [apply same_rates_refl; auto|]. split; auto. split; [lra|]. split; [left; auto|].
    intros _. cbv zeta. rewrite Hb. destruct b as [l u]. simpl. replace (st_elapsed s - st_elapsed s) with 0 by ring.
    f_equal. f_equal; unfold Rdiv; ring.
  - intros j x' Hx'. destruct (reached_steady np Hnp c Hv ne d s Hg Hp Hr) as (Ha & Hs & Hnan).
    assert (Hr' : reached np c ne d' s') by (eapply after_pass; eauto).
    destruct (reached_steady np Hnp c Hv ne d' s' Hg Hp Hr') as (Ha' & Hs' & Hnan').
    destruct (step_spec np Hnp c (v_mec _ Hv) s d d' s' Ha Hst) as (_ & Lsub & _).
    pose proof (step_Ok np c s d d' s' Hst) as (eng & inj & left0 & t & b & n & sg & m & left' & mask & pen & pab & prel & Hc & Hat & Hmask & Hpen & Hpab & Hprel & Eb & En & Es & El & Et & Hen & Hab & Hrel).
    destruct (choose_left s eng inj left0 t Ha Hs Hlt Hc) as [Lleft0 Hleft].
    destruct (step_time_pos c (v_mec _ Hv) _ _ _ _ _ Ha Hs Hp Hlt Hc) as [Hpos _].
    pose proof Hat as Hat0.
    apply apply_time_changes_Ok in Hat as (b2 & n2 & s2 & dd & eng' & H12 & H345).
    destruct (choose_step_shapes c _ _ _ _ _ Ha Hc) as (Leng & Linj & _).
    assert (Le : length (to_erg (mec2 c) (st_bins s)) = length (st_bins s)) by apply map_length.
    destruct (stage12_spec np Hnp c (v_mec _ Hv) _ _ _ _ _ _ _ _ _ _ _ _ _ H12) as (_ & _ & _ & _ & Lb2 & Ln2 & Ls2 & Lr2 & P2 & N2); rewrite ?Le; auto.
    { apply Ha. } { apply al_subs in Ha; tauto. } { apply al_subs in Ha; tauto. }
    assert (Ln2' : length n2 = length b2) by lia.
    destruct (stage345_spec np Hnp c _ _ _ _ _ _ _ _ _ Ln2' P2 H345) as (T & Hsub & Lbm & _ & _).
    assert (Lnm : length n = length m) by apply T.
    destruct (mask_length_step c s b n m left0 t mask left' Lbm Lnm Hmask) as (Lmask & Lleft').
    rewrite Hopt in Hmask. destruct Hmask as (l1 & Hl1 & Emask & Eleft). cbv zeta in Emask, Eleft.
    set (l2 := map2 (fun x (bb : bin) => if Reqb (snd bb) 0 then Some 0 else x) l1 b) in *.
    assert (Hj : (j < length b)%nat). { rewrite <- (Lleft' Hopt), <- El. eapply nth_error_lt; eauto. }
    destruct (nth_error_Some_ex b j Hj) as [bj Hbj]. destruct (nth_error_Some_ex n j) as [nj Hnj]; [lia|]. destruct (nth_error_Some_ex m j) as [z Hz]; [lia|].
    destruct (nth_error_Some_ex l1 j) as [y Hy]. { rewrite (remap_length _ _ _ _ Hl1). lia. }
    assert (E2 : nth_error l2 j = Some (if Reqb (snd bj) 0 then Some 0 else y)). { unfold l2. rewrite nth_error_map2, Hy, Hbj. auto. }
    set (y2 := if Reqb (snd bj) 0 then Some 0 else y) in *.
    assert (Emj : nth_error mask j = Some (ext_ltb y2 t)) by (rewrite Emask, nth_error_map, E2; auto).
    assert (Ex' : x' = if ext_ltb y2 t then Some 0 else y2). { rewrite El, Eleft, nth_error_map2, Emj, E2 in Hx'. congruence. }
    assert (Lub : length (update_bin_ub b mask) = length b) by (apply update_bin_ub_length; auto).
    pose proof (update_bin_ub_nth b mask j bj _ Hbj Emj) as Ebj.
    assert (Lc : length (update_bin_ub b mask) = length m) by lia. assert (Lc' : length (lbs (update_bin_ub b mask)) = length m) by (rewrite lbs_length; lia).
    assert (Lmm : length mask = length m) by lia.
    destruct (ext_ltb y2 t) eqn:Elt.
    + (* recalculated *)
      subst x'. set (l := fst bj) in *. set (u := fst bj * (1 + bin_size_factor)) in *.
      assert (Hbin : nth_error (st_bins s') j = Some (l, u)) by (rewrite Eb; auto).
      exists d', s', j, l, u, nj, None. split; auto. split; [apply lead_refl|]. split.
      * constructor; auto.
        -- apply (sd_pos _ _ Hs'). apply nth_error_In with j. apply (lbs_nth _ _ (l, u)); auto.
        -- rewrite En. auto.
        -- pose proof (rates_recalc shape2 _ _ _ _ _ _ _ _ _ _ _ j (al_en _ _ Ha) Hpen Lc Lnm Lmm Hen Emj) as F.
           eapply Forall2_impl; [|exact F]. intros kf kv (E1 & vals & sm & q & [rl ru] & Hfv & Q1 & Q2 & Q3 & Q4). split; auto. exists rl, ru. split; auto.
           eapply called_en_of; eauto.
        -- pose proof (rates_recalc shape1 _ _ _ _ _ _ _ _ _ _ _ j (al_rel _ _ Ha) Hprel Lc' Lnm Lmm Hrel Emj) as F.
           eapply Forall2_impl; [|exact F]. intros kf kv (E1 & vals & sm & q & r & Hfv & Q1 & Q2 & Q3 & Q4). split; auto. exists l, r. split; auto. split; auto.
           eapply called_of; eauto. apply (lbs_nth _ _ (l, u)); auto.
        -- pose proof (rates_recalc shape1 _ _ _ _ _ _ _ _ _ _ _ j (al_abs _ _ Ha) Hpab Lc' Lnm Lmm Hab Emj) as F.
           eapply Forall2_impl; [|exact F]. intros kf kv (E1 & vals & sm & q & r & Hfv & Q1 & Q2 & Q3 & Q4). split; auto. exists l, r. split; auto. split; auto.
           eapply called_of; eauto. apply (lbs_nth _ _ (l, u)); auto.
      * split; [apply same_rates_refl; auto|]. split; auto. split; [lra|]. split; [left; auto|].
        intros _. cbv zeta. rewrite Hbin. replace (st_elapsed s' - st_elapsed s') with 0 by ring. f_equal. f_equal; unfold Rdiv; ring.
    + (* kept *)
      assert (Hsnd : snd bj <> 0 /\ y2 = y).
      { unfold y2 in *. destruct (Reqb_spec (snd bj) 0); [|auto]. simpl in Elt. apply Rltb_false in Elt. lra. }
      destruct Hsnd as [Hsnd Ey]. rewrite Ey in Ex'. subst x'.
      assert (Hy0 : y <> Some 0). { intros ->. rewrite Ey in Elt. simpl in Elt. apply Rltb_false in Elt. lra. }
      destruct T as (_ & _ & T). destruct (T _ _ _ _ Hz Hbj Hnj) as [(_ & E & _)|(i & -> & Hi & [(_ & bi & Hbi & _ & [E|E])|(E & _)])]; try contradiction. subst bi.
      rewrite Lb2, Le in Hi.
      pose proof (remap_nth _ _ _ _ Hl1 _ _ _ Hz Hy) as X. destruct (Z.eqb_spec (Z.of_nat i) (-1)); [lia|]. rewrite py_get_nat, nth_error_map in X.
      destruct (nth_error_Some_ex left0 i) as [w Hw]; [rewrite Lleft0; auto|]. rewrite Hw in X. simpl in X. injection X as X.
      destruct (nth_error_Some_ex (st_left s) i) as [x Hx]; [rewrite (al_left _ _ Ha Hopt); auto|].
      destruct (nth_error_Some_ex (st_bins s) i) as [[li ui] Hbs]; [auto|].
      destruct (Hleft i li ui x w Hbs Hx Hw) as (Hle & Hne0 & H0).
      destruct (IH i x Hx) as (d0 & s0 & k & l & u & v & M & R0 & R1 & F0 & (S1 & S2 & S3) & Lsub0 & Hel & HM & Hpo).
      assert (Same : same_rates s0 k s' j).
      { destruct Hnames as (N1 & N2' & N3). split; [|split].
        - eapply rates_same_trans; [exact S1|]. eapply rates_kept; [exact N1|apply (al_en _ _ Ha)|exact Hpen| | | |exact Hen|exact Emj|exact Hz|auto]; lia.
        - eapply rates_same_trans; [exact S2|]. eapply rates_kept; [exact N2'|apply (al_rel _ _ Ha)|exact Hprel| | | |exact Hrel|exact Emj|exact Hz|auto]; rewrite ?lbs_length; lia.
        - eapply rates_same_trans; [exact S3|]. eapply rates_kept; [exact N3|apply (al_abs _ _ Ha)|exact Hpab| | | |exact Hab|exact Emj|exact Hz|auto]; rewrite ?lbs_length; lia. }
      assert (Stot : rates_same (st_en s) i (st_en s') j).
      { destruct Hnames as (N1 & _). eapply rates_kept; [exact N1|apply (al_en _ _ Ha)|exact Hpen| | | |exact Hen|exact Emj|exact Hz|auto]; lia. }
      exists d0, s0, k, l, u, v, (match ext_is0 x with true => w | false => M end).
      split; auto. split; [eapply lead_step; eauto|]. split; auto. split; auto. split; [lia|]. split; [lra|]. split.
      * right. split; auto. destruct HM as [(-> & -> & -> & ->)|(Hx0 & Exm & HM)].
        -- simpl. destruct (Reqb_spec 0 0); [|lra]. split. { rewrite Et. rewrite <- X. f_equal. lra. }
           intros t' Ht' Hle' g Hgr. eapply H0; eauto.
           pose proof (fa_bin _ _ _ _ _ _ _ F0) as Eb0. rewrite Hbs in Eb0. injection Eb0 as <- <-. pose proof (fa_pos _ _ _ _ _ _ _ F0). rewrite (fa_width _ _ _ _ _ _ _ F0). lra.
        -- rewrite (Hne0 Hx0) in X. assert (Ez : ext_is0 x = false). { destruct x as [x|]; simpl; auto. destruct (Reqb_spec x 0); congruence. } rewrite Ez.
           split; auto. rewrite <- X, Exm, ext_sub_sub. f_equal. lra.
      * intros Hsg. cbv zeta. specialize (Hpo Hsg). cbv zeta in Hpo. rewrite Eb, Ebj.
        rewrite <- !(group_rate_same c _ (st_en s) i (st_en s') j 0 Stot).
        (* position after the move *)
        destruct (reached_ones np Hnp c Hv ne d s Hsg Hr) as (row & Erow & _).
        apply stage12_Ok in H12 as (_ & _ & H12). rewrite (v_euler _ Hv Hopt) in H12. destruct H12 as [Hap ->].
        pose proof (choose_step_Ok c s eng inj left0 t Hc) as (ken & krel & kabs & dr & step0 & Ken & Krel & Kabs & Eeng & Hdr & Hinj & _ & _).
        rewrite Hsg in Eeng, Hdr, Hinj. simpl in Eeng, Hdr, Hinj. unfold to_densities_grouped in Hdr. rewrite Erow in Hdr. simpl in Hdr.
        unfold bcast_rows in Hdr. simpl in Hdr. injection Hdr as <-. unfold bcast_rows in Hinj. simpl in Hinj. injection Hinj as <-.
        rewrite Eeng, Erow in Hap. simpl in Hap.
        set (N := length (st_bins s)) in *.
        pose proof (rates_ok_len _ _ _ (al_en c s Ha)) as Len. fold N in Len.
        assert (Lrow : length row = N) by (apply (al_subs c s Ha); rewrite Erow; simpl; auto).
        assert (Lve : length (vsum add_bin (0, 0) N (map snd ken)) = N). { apply Leng. rewrite Eeng. simpl. auto. }
        apply single_eval in Hap as (Lb & Ln & Hdet); rewrite ?Le; auto.
        2: { unfold scale_bins; rewrite map_length; auto. } 2: { apply Ha. }
        2: { unfold scale. rewrite map_length. apply Linj. simpl. auto. }
        destruct (nth_error_Some_ex (st_dens s) i) as [vi Hvi]; [rewrite (al_dens _ _ Ha); auto|]. destruct (nth_error_Some_ex row i) as [fi Hfi]; [lia|].
        pose proof (single_energy N _ _ i Ken Len Hi) as Ee.
        match type of Hdet with context [nth_error (scale t ?q) _] => destruct (nth_error_Some_ex (scale t q) i) as [qi Hqi]; [unfold scale; rewrite map_length; rewrite Linj by (simpl; auto); auto|] end.
        destruct (Hdet i (li * mec2 c) (ui * mec2 c) (total_edge_rate fst (st_en s) i * t) (total_edge_rate snd (st_en s) i * t) vi fi qi) as (_ & B & _); auto.
        { unfold to_erg. rewrite nth_error_map, Hbs. auto. }
        { unfold scale_bins. rewrite nth_error_map, Ee. auto. }
        rewrite Hbi in B. injection B as ->.
        assert (G1 : group_rate c fst (st_en s) 0 i = total_edge_rate fst (st_en s) i) by (unfold group_rate; rewrite Hsg; auto).
        assert (G2 : group_rate c snd (st_en s) 0 i = total_edge_rate snd (st_en s) i) by (unfold group_rate; rewrite Hsg; auto).
        rewrite G1, G2 in *. rewrite Hbs in Hpo. injection Hpo as -> ->. rewrite Et. pose proof (v_mec _ Hv). f_equal. f_equal; field; lra.
Qed.
End Reuse.
