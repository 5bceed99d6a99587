(** Runs in which all rate functions return zero (C25). *)
From Verif Require Import Base TEUtils TimeEvolution ListFacts TEIndexFacts TEStageFacts TEStepFacts TELoopFacts TEInv TEForward.

(** a user function returning zero rates *)
Definition zero_fn (f : GammaFn) : Prop := forall ne p, f ne p = Ok (repeat 0 (length (fp_gamma p))).

Definition zd {A} (zero : A) (fns : list (string * GammaFn)) (n : nat) : rates A :=
  map (fun kf => (fst kf, repeat (Some zero) n)) fns.
Definition shape_zero {A} (sh : shape A) (zero : A) : Prop :=
  forall cols, unflat sh (repeat 0 (length (flat sh cols))) = Some (repeat zero (length cols)).

Lemma shape1_zero : shape_zero shape1 0.
Proof. intros cols. reflexivity. Qed.
Lemma shape2_zero : shape_zero shape2 (0, 0).
Proof. intros cols. simpl. induction cols as [|a l IH]; auto. simpl in *. rewrite IH. auto. Qed.

Lemma call_zero {A} (sh : shape A) zero f ne cols dens subs : shape_zero sh zero -> zero_fn f ->
  call_fn sh f ne {| fp_gamma := flat sh cols; fp_densities := dens; fp_subgroups := subs |} (length cols) = Ok (repeat (Some zero) (length cols)).
Proof.
  intros Hs Hf. unfold call_fn. rewrite Hf. simpl. rewrite Hs, repeat_length, Nat.eqb_refl, map_repeat'. auto.
Qed.

Lemma remap_subgroups_mask m subs : subs <> [] -> (forall r, In r subs -> length r = length m) ->
  exists s, remap_subgroups_density (mask_to_mapping m) subs = Ok s.
Proof.
  intros Hne H. assert (G : forall nv r, length r = length m -> exists r', remap_row (mask_to_mapping m) nv r = Ok r').
  { intros nv r L. unfold remap_row. rewrite take_mask by auto. simpl. eauto. }
  destruct subs as [|r0 rs]; [congruence|]. simpl.
  destruct (G 1 r0) as [r0' ->]; [apply H; simpl; auto|]. simpl.
  destruct (mapM_ok_all (remap_row (mask_to_mapping m) 0) rs) as [l ->]; [|simpl; eauto].
  intros r Hr. apply G. apply H. simpl; auto.
Qed.

Lemma zd_lookup {A} (zero : A) fns n k : In k (map fst fns) -> lookup k (zd zero fns n) = Some (repeat (Some zero) n).
Proof.
  induction fns as [|[k' f] fns IH]; simpl; [tauto|]. destruct (String.eqb_spec k k'); auto. intros [E|H]; [congruence|auto].
Qed.

Lemma scatter_repeat {A} (x : A) m n k : scatter m (repeat x n) (repeat x k) = repeat x n.
Proof. revert n k; induction m as [|[] m IH]; intros [|n] k; simpl; auto; [destruct k; simpl; f_equal; auto; apply (IH n 0%nat)|f_equal; auto]. Qed.

Lemma recalc_zero {A} (sh : shape A) zero cols fns ne dens subs mask prev : shape_zero sh zero ->
  (forall kf, In kf fns -> zero_fn (snd kf)) -> length dens = length cols -> subs <> [] -> (forall r, In r subs -> length r = length cols) ->
  (mask = None \/ exists m, mask = Some m /\ length m = length cols /\ prev = zd zero fns (length cols)) ->
  recalc_new_rates sh cols fns ne dens subs prev mask = Ok (zd zero fns (length cols)).
Proof.
  intros Hs Hf Ld Hne Lr Hm. unfold recalc_new_rates.
  set (m := match mask with None => map (fun _ => true) cols | Some m => m end).
  assert (Lm : length m = length cols). { unfold m. destruct Hm as [->|(m0 & -> & L & _)]; auto. apply map_length. }
  destruct (remap_subgroups_mask m subs Hne) as [sm ->]. { intros; rewrite Lm; auto. }
  cbn [bind]. apply mapM_Forall2. unfold zd. apply Forall2_from_nth; [rewrite map_length; auto|].
  intros i kf kv Hi Hkv. rewrite nth_error_map, Hi in Hkv. simpl in Hkv. injection Hkv as <-.
  assert (Hin : In kf fns) by (eapply nth_error_In; eauto).
  rewrite (call_zero sh zero) by auto. destruct Hm as [E|(m0 & E & L & ->)]; subst mask; simpl.
  - unfold m. rewrite select_all; auto.
  - fold (zd zero fns (length cols)). rewrite zd_lookup by (apply in_map; auto).
    rewrite scatter_repeat. auto.
Qed.

Lemma remap_dict_zd {A} (zero : A) fns n d : remap_dict (arange n) (zd zero fns n) d = Ok (zd zero fns n).
Proof.
  unfold remap_dict, zd. apply mapM_Forall2. apply Forall2_from_nth; auto.
  intros i a b Ha Hb. assert (a = b) by congruence. subst b. rewrite nth_error_map in Ha. destruct (nth_error fns i); [|discriminate].
  injection Ha as <-. simpl. rewrite <- (repeat_length (Some zero) n) at 1. rewrite remap_arange. auto.
Qed.

Lemma known_zd {A} (zero : A) fns n : known (zd zero fns n) = Ok (map (fun kf : string * GammaFn => (fst kf, repeat zero n)) fns).
Proof.
  unfold known, zd. apply mapM_Forall2. apply Forall2_from_nth; [rewrite !map_length; auto|].
  intros i a b Ha Hb. rewrite nth_error_map in Ha, Hb. destruct (nth_error fns i); [|discriminate]. injection Ha as <-. injection Hb as <-. simpl.
  rewrite (proj2 (all_some_spec (repeat (Some zero) n) (repeat zero n))); auto. rewrite map_repeat'. auto.
Qed.

Lemma vsum_zero {A} (add : A -> A -> A) zero n arrays : add zero zero = zero ->
  (forall a, In a arrays -> a = repeat zero n) -> vsum add zero n arrays = repeat zero n.
Proof.
  intros Hz H. unfold vsum. induction arrays as [|a l IH]; simpl; auto.
  rewrite (H a) by (simpl; auto). rewrite map2_repeat, Hz. apply IH. intros; apply H; simpl; auto.
Qed.

Lemma sum_zero {A} (add : A -> A -> A) zero n (fns : list (string * GammaFn)) c : add zero zero = zero ->
  sum_change_rates add zero n (map (fun kf => (fst kf, repeat zero n)) fns) (subgroups c) = repeat (repeat zero n) (ngroups c).
Proof.
  intros Hz. unfold sum_change_rates, ngroups. destruct (subgroups c) as [rows|].
  - rewrite <- (map_length (fun row => vsum add zero n (flat_map (fun x => match lookup x (map (fun kf : string * GammaFn => (fst kf, repeat zero n)) fns) with Some v => [v] | None => [] end) row)) rows).
    apply repeat_eq. intros y Hy. apply in_map_iff in Hy as (row & <- & _). apply vsum_zero; auto.
    intros a Ha. apply in_flat_map in Ha as (x & _ & Ha). destruct (lookup x _) as [v|] eqn:E; [|destruct Ha]. destruct Ha as [<-|[]].
    apply lookup_In, in_map_iff in E as (kf & E & _). congruence.
  - simpl. f_equal. apply vsum_zero; auto. intros a Ha. rewrite map_map in Ha. simpl in Ha. apply in_map_iff in Ha as (? & <- & _). auto.
Qed.

Section Zero.
Variable np : numpy.
Hypothesis Hnp : numpy_ok np.
Variable c : cfg.
Hypothesis Hmec : 0 < mec2 c.
Hypothesis Hen : forall kf, In kf (en_fns c) -> zero_fn (snd kf).
Hypothesis Hrel : forall kf, In kf (rel_fns c) -> zero_fn (snd kf).
Hypothesis Habs : forall kf, In kf (abs_fns c) -> zero_fn (snd kf).

Variable b : list bin.
Variable n : list R.
Variable rows : list (list R).
Let N := length b.
Let e := to_erg (mec2 c) b.
Hypothesis Hb : forall x, In x b -> 0 < fst x /\ fresh_bin x.
Hypothesis Hn : length n = N /\ forall v, In v n -> 0 <= v.
Hypothesis Hrows : length rows = ngroups c /\ rows <> [] /\ (forall r, In r rows -> length r = N /\ forall v, In v r -> 0 <= v) /\
  forall j, (j < N)%nat -> Rsum (column j rows) = 1.
Hypothesis HN : (1 <= N)%nat.
Hypothesis Hen2 : enough n.
Hypothesis Hlg : lg_incr np (lbs b).
Hypothesis Hgap : forall thr, merge_thr c = Some thr -> gaps_ok np thr (lbs b) /\ (2 <= length b)%nat.
Hypothesis Hbd : forall bd, bounds c = Some bd -> within bd (lbs b).

Lemma z_erg_back : map (fun x : bin => (fst x / mec2 c, snd x / mec2 c)) e = b.
Proof.
  unfold e, to_erg. rewrite map_map. rewrite <- (map_id b) at 2. apply map_ext. intros [x y]. simpl. f_equal; field; lra.
Qed.
Lemma z_recalc row : length row = N -> recalc_gamma_bins_and_density (mec2 c) e (repeat (0, 0) N) (map2 Rmult n row) = Ok (b, map2 Rmult n row).
Proof.
  intros Lr. assert (Le : length e = N) by apply map_length.
  assert (He : forall x, In x e -> 0 < fst x < snd x).
  { intros x Hx. apply in_map_iff in Hx as (y & <- & Hy). destruct (Hb y Hy) as [P F]. pose proof (fresh_bin_pos y P F). simpl.
    split; [apply Rmult_lt_0_compat; auto|apply Rmult_lt_compat_r; auto]. }
  assert (E : map2 (fun b0 c0 : bin => (fst b0 + fst c0, snd b0 + snd c0)) e (repeat (0, 0) N) = e).
  { rewrite <- Le. clear. induction e as [|[x y] l IH]; simpl; auto. rewrite IH, !Rplus_0_r. auto. }
  unfold recalc_gamma_bins_and_density, recalc_energy_bins_and_density_increase. rewrite E.
  assert (X : forall p : bin -> bool, (forall x, In x e -> p x = false) -> existsb p e = false).
  { intros p Hp. apply not_true_iff_false. rewrite existsb_exists. intros (x & Hx & Ht). rewrite Hp in Ht; [discriminate|auto]. }
  rewrite (X (fun b0 => (Rleb (fst b0) 0 || Rleb (snd b0) 0)%bool)).
  2: { intros x Hx. apply He in Hx. apply orb_false_iff. split; apply Rleb_false; lra. }
  rewrite (X (fun b0 => Rltb (snd b0 - fst b0) 0)). 2: { intros x Hx. apply He in Hx. apply Rltb_false; lra. }
  rewrite (X (fun b0 => Reqb (snd b0 - fst b0) 0)). 2: { intros x Hx. apply He in Hx. apply Reqb_false; lra. }
  simpl. rewrite z_erg_back. f_equal. f_equal.
  assert (E1 : map2 (fun b0 b' : bin => (snd b0 - fst b0) / (snd b' - fst b')) e e = repeat 1 N).
  { rewrite <- Le. clear - He. induction e as [|x l IH]; simpl; auto. rewrite IH by (intros; apply He; simpl; auto). f_equal.
    assert (0 < fst x < snd x) by (apply He; simpl; auto). field. lra. }
  rewrite E1. assert (L : length (map2 Rmult n row) = N) by (apply map2_length_eq; [apply Hn|auto]).
  rewrite <- L. clear. induction (map2 Rmult n row) as [|a l IH]; simpl; auto. rewrite IH, Rmult_1_r. auto.
Qed.

Lemma z_eval : apply_time_eval np c e n rows (repeat (repeat (0, 0) N) (ngroups c)) (repeat (repeat 0 N) (ngroups c)) = Ok (b, n, rows).
Proof.
  destruct Hrows as (Lk & Hne & Lr & Hs). destruct Hn as [Ln Nn]. rewrite <- Lk.
  assert (E1 : forall rs, (forall r, In r rs -> length r = N) -> recalc_groups c e n rs (repeat (repeat (0, 0) N) (length rs)) = Ok (map (fun r => (b, map2 Rmult n r)) rs)).
  { induction rs as [|r rs IH]; intros H; simpl; auto. rewrite z_recalc by (apply H; simpl; auto). simpl. rewrite IH by (intros; apply H; simpl; auto). auto. }
  assert (E2 : forall rs, (forall r, In r rs -> length r = N /\ forall v, In v r -> 0 <= v) ->
     inject_groups (map (fun r => (b, map2 Rmult n r)) rs) (repeat (repeat 0 N) (length rs)) = Ok (map (fun r => (b, map2 Rmult n r)) rs)).
  { induction rs as [|r rs IH]; intros H; simpl; auto. destruct (H r) as [L P]; [simpl; auto|].
    assert (E : map2 Rplus (map2 Rmult n r) (repeat 0 N) = map2 Rmult n r).
    { assert (L2 : length (map2 Rmult n r) = N) by (apply map2_length_eq; auto). rewrite <- L2.
      clear. induction (map2 Rmult n r) as [|a l IH]; simpl; auto. rewrite IH, Rplus_0_r. auto. }
    rewrite E.
    assert (Ex : existsb (fun v => Rltb v 0) (map2 Rmult n r) = false).
    { apply not_true_iff_false. rewrite existsb_exists. intros (v & Hv & Hlt). apply Rltb_true in Hlt.
      apply In_map2 in Hv as (x & y & Hx & Hy & ->). pose proof (Rmult_le_pos _ _ (Nn _ Hx) (P _ Hy)). lra. }
    rewrite Ex. rewrite IH by (intros; apply H; simpl; auto). auto. }
  unfold apply_time_eval. rewrite E1 by (intros; apply Lr; auto). cbn [bind]. rewrite E2 by auto. cbn [bind].
  destruct rows as [|r0 rs] eqn:Er; [congruence|]. simpl map.
  assert (E3 : forall rs, regrid_groups np b (map (fun r => (b, map2 Rmult n r)) rs) = Ok (b, map (map2 Rmult n) rs)).
  { induction rs0 as [|r rs0 IH]; simpl; auto.
    assert (X : forallb (fun x => x) (map2 bin_eqb b b) = true).
    { clear. induction b as [|x l IH]; simpl; auto. rewrite IH. unfold bin_eqb. rewrite !(proj2 (Reqb_true _ _)) by auto. auto. }
    rewrite X, orb_true_r, IH. auto. }
  cbv beta iota. rewrite E3. cbn [bind]. change (map2 Rmult n r0 :: map (map2 Rmult n) rs) with (map (map2 Rmult n) (r0 :: rs)).
  set (rr := r0 :: rs) in *.
  assert (E4 : col_sum (length n) (map (map2 Rmult n) rr) = n).
  { assert (L : forall r, In r (map (map2 Rmult n) rr) -> length r = length n).
    { intros r Hr. apply in_map_iff in Hr as (x & <- & Hx). apply map2_length_eq; auto. rewrite Ln. apply Lr; auto. }
    apply nth_error_ext; [apply col_sum_length; auto|]. intros i x y Hx Hy. pose proof (nth_error_lt _ _ _ Hy) as Hi.
    rewrite col_sum_nth in Hx by auto. 
    assert (Ec : Rsum (map (fun r => nth i r 0) (map (map2 Rmult n) rr)) = y * Rsum (column i rr)).
    { rewrite map_map. unfold column. assert (Lr2 : forall r, In r rr -> length r = N) by (intros; apply Lr; auto). clearbody rr. clear - Lr2 Hy Hi Ln.
      induction rr as [|r l IH]; simpl; [lra|]. rewrite IH by (intros; apply Lr2; simpl; auto). rewrite Rmult_plus_distr_l. f_equal.
      assert (Lr1 : length r = N) by (apply Lr2; simpl; auto). apply nth_error_nth. rewrite nth_error_map2, Hy.
      rewrite (nth_error_nth' r 0) by lia. auto. }
    rewrite Ec in Hx. rewrite Hs in Hx by lia. injection Hx as <-. lra. }
  rewrite E4. f_equal. f_equal. apply nth_error_ext; [rewrite map2_length, map_length; lia|].
  intros i x y Hx Hy. rewrite nth_error_map2, nth_error_map, Hy in Hx. simpl in Hx. injection Hx as <-.
  assert (Hyr : In y rr) by (eapply nth_error_In; eauto). destruct (Lr y Hyr) as [Ly Py].
  assert (Lm : length (map2 Rmult n y) = N) by (apply map2_length_eq; auto).
  apply nth_error_ext. { unfold new_row. rewrite map2_length, combine_length. lia. }
  intros j u v Hu Hv. pose proof (nth_error_lt _ _ _ Hv) as Hj. unfold new_row in Hu. rewrite nth_error_map2 in Hu.
  destruct (nth_error_Some_ex n j) as [nj Hnj]; [lia|].
  assert (C : nth_error (combine y (map2 Rmult n y)) j = Some (v, nj * v)).
  { rewrite nth_error_nth' with (d := (0, 0)) by (rewrite combine_length; lia). rewrite combine_nth by lia. f_equal. f_equal.
    - apply nth_error_nth; auto.
    - apply nth_error_nth. rewrite nth_error_map2, Hnj, Hv. auto. }
  rewrite C, Hnj in Hu. simpl in Hu. injection Hu as <-. destruct (Reqb_spec nj 0); auto. field. auto.
Qed.

Definition zstate (left : list (option R)) (el : R) : tstate :=
  {| st_bins := b; st_dens := n; st_subs := rows; st_en := zd (0, 0) (en_fns c) N; st_rel := zd 0 (rel_fns c) N; st_abs := zd 0 (abs_fns c) N;
     st_left := left; st_elapsed := el |}.

Definition z_left_ok (left : list (option R)) : Prop := optimize c = false \/ (stepd c = Auto /\ (left = repeat (Some 0) N \/ left = repeat None N)).

Definition z_step (el : R) : R := match stepd c with Fixed s => if Rltb (total c - el) s then total c - el else s | Auto => total c - el end.

Lemma z_scale t : map (scale t) (repeat (repeat 0 N) (ngroups c)) = repeat (repeat 0 N) (ngroups c).
Proof. rewrite map_repeat'. unfold scale. rewrite map_repeat', Rmult_0_l. auto. Qed.
Lemma z_scale_bins t : map (scale_bins t) (repeat (repeat (0, 0) N) (ngroups c)) = repeat (repeat (0, 0) N) (ngroups c).
Proof. rewrite map_repeat'. unfold scale_bins. rewrite map_repeat'. simpl. rewrite Rmult_0_l. auto. Qed.

Lemma z_choose left el : z_left_ok left -> exists left0,
  choose_step c (zstate left el) = Ok (repeat (repeat (0, 0) N) (ngroups c), repeat (repeat 0 N) (ngroups c), left0, z_step el) /\
  (optimize c = true -> left0 = repeat None N).
Proof.
  intros Hl. destruct Hrows as (Lk & Hne & Lr & Hs). destruct Hn as [Ln Nn].
  unfold choose_step, group_energy, group_injection. simpl st_bins. simpl st_en. simpl st_rel. simpl st_abs. simpl st_dens. simpl st_subs. simpl st_left. simpl st_elapsed.
  fold N. rewrite !known_zd. cbn [bind].
  rewrite (sum_zero add_bin (0, 0)) by (unfold add_bin; simpl; f_equal; lra). rewrite (sum_zero Rplus 0) by lra. rewrite (sum_zero Rplus 0) by lra.
  cbn [bind]. set (K := ngroups c) in *.
  assert (Lg : length (to_densities_grouped n rows) = K) by (unfold to_densities_grouped; rewrite map_length; auto).
  assert (E1 : bcast_rows (map2 Rmult) (to_densities_grouped n rows) (repeat (repeat 0 N) K) = Ok (repeat (repeat 0 N) K)).
  { unfold bcast_rows. rewrite Lg, repeat_length, Nat.eqb_refl. f_equal.
    assert (X : forall l : list (list R), (forall r, In r l -> length r = N) -> map2 (map2 Rmult) l (repeat (repeat 0 N) (length l)) = repeat (repeat 0 N) (length l)).
    { induction l as [|r l IH]; simpl; intros H; auto. rewrite IH by auto. f_equal.
      assert (L : length r = N) by auto. rewrite <- L. clear. induction r as [|a r IH]; simpl; auto. rewrite IH, Rmult_0_r. auto. }
    rewrite <- Lg. apply X. intros r Hr. apply in_map_iff in Hr as (x & <- & Hx). apply map2_length_eq; auto. apply Lr; auto. }
  rewrite E1. cbn [bind].
  assert (E2 : bcast_rows (map2 Rplus) (repeat (repeat 0 N) K) (repeat (repeat 0 N) K) = Ok (repeat (repeat 0 N) K)).
  { unfold bcast_rows. rewrite Nat.eqb_refl. f_equal. rewrite !map2_repeat, Rplus_0_r. auto. }
  rewrite E2. cbn [bind]. unfold z_step. destruct (stepd c) as [s0|] eqn:Esd.
  - cbn [bind]. exists left. split; auto. intros Eo. destruct Hl as [E|[E _]]; congruence.
  - assert (E3 : calc_max_times c (to_erg (mec2 c) b) (to_densities_grouped n rows) (repeat (repeat (0, 0) N) K) (repeat (repeat 0 N) K) (repeat (repeat 0 N) K) (map (fun _ => None) n) = Ok (repeat None N)).
    { replace (map (fun _ : R => @None R) n) with (repeat (@None R) N).
      2: { rewrite <- Ln. clear. induction n; simpl; auto. f_equal; auto. }
      assert (X : forall dg, (forall r, In r dg -> length r = N) -> calc_max_times c (to_erg (mec2 c) b) dg (repeat (repeat (0, 0) N) (length dg)) (repeat (repeat 0 N) (length dg)) (repeat (repeat 0 N) (length dg)) (repeat None N) = Ok (repeat None N)).
      { induction dg as [|d dg IH]; intros H; auto. simpl length. simpl repeat. cbn [calc_max_times].
        assert (Ex : existsb (fun b0 => b0) (map2 (fun x y => (Reqb x 0 && Rltb y 0)%bool) d (repeat 0 N)) = false).
        { apply not_true_iff_false. rewrite existsb_exists. intros (v & Hv & Ht). apply In_map2 in Hv as (x & y & _ & Hy & ->).
          apply repeat_spec in Hy. subst y. rewrite (proj2 (Rltb_false 0 0)) in Ht by lra. rewrite andb_false_r in Ht. discriminate. }
        rewrite Ex.
        assert (Em : map2 ext_min (repeat None N) (max_times_group c (to_erg (mec2 c) b) (repeat (0, 0) N) (repeat 0 N) (repeat 0 N)) = repeat None N).
        { assert (Z0 : forall eb, max_time_bin c eb (0, 0) 0 0 = None).
          { intros eb. unfold max_time_bin, time_1, time_1_edge, time_2, time_3, time_4. simpl.
            rewrite !(proj2 (Reqb_true 0 0)) by auto. rewrite (proj2 (Reqb_true (0 - 0) 0)) by lra. rewrite (proj2 (Rltb_false 0 0)) by lra. auto. }
          unfold max_times_group. unfold N. rewrite <- (map_length (fun x : bin => (fst x * mec2 c, snd x * mec2 c)) b). fold (to_erg (mec2 c) b).
          clear - Z0. induction (to_erg (mec2 c) b) as [|x l IH]; simpl; auto. rewrite IH, Z0. auto. }
        rewrite Em. apply IH. intros; apply H; simpl; auto. }
      rewrite <- Lg. apply X. intros r Hr. apply in_map_iff in Hr as (x & <- & Hx). apply map2_length_eq; auto. apply Lr; auto. }
    rewrite E3. cbn [bind].
    assert (Emin : forall k, (1 <= k)%nat -> ext_list_min (repeat None k) = Ok None).
    { intros [|k] Hk; [lia|]. simpl. f_equal. clear. induction k; simpl; auto. }
    destruct (optimize c) eqn:Eo.
    + assert (El : map2 (fun l m : option R => if ext_is0 l then m else l) left (repeat None N) = repeat None N).
      { destruct Hl as [E|[_ [-> | ->]]]; [congruence| |]; rewrite map2_repeat; auto. unfold ext_is0. rewrite (proj2 (Reqb_true 0 0)) by auto. auto. }
      rewrite El, Emin by auto. cbn [bind]. exists (repeat None N). auto.
    + rewrite Emin by auto. cbn [bind]. exists left. split; auto. discriminate.
Qed.

Lemma z_step_run left el ne : z_left_ok left -> exists d left', update_distribution np b n = Ok d /\ z_left_ok left' /\
  step np c (zstate left el) ne = (d, Ok (zstate left' (el + z_step el))).
Proof.
  intros Hl. destruct (z_choose left el Hl) as (left0 & Ec & El0). pose proof Hrows as (Lk & Hne & Lr & Hs). pose proof Hn as [Ln Nn].
  assert (Pb : all_pos (lbs b)). { intros v Hv. apply in_map_iff in Hv as (x & <- & Hx). apply Hb; auto. }
  destruct (update_ok np Hnp b n Pb Hlg Ln Hen2) as [d Hd]. exists d.
  set (t := z_step el) in *. set (K := ngroups c) in *.
  assert (HK : exists K', K = S K'). { destruct rows; [congruence|]. simpl in Lk. eauto. } destruct HK as [K' EK].
  assert (H12 : stage12 np c e n rows (repeat (repeat (0, 0) N) K) (repeat (repeat 0 N) K) t ne = (d, Ok (b, n, rows, d, repeat (repeat (0, 0) N) K))).
  { unfold stage12. unfold K. rewrite z_scale, z_scale_bins, z_eval. unfold bindS at 1. unfold lift at 1.
    unfold set_distribution. rewrite Hd. destruct (method c); [reflexivity|].
    unfold bindS at 1 2 3. unfold lift at 1. unfold put, ret, get.
    unfold bindS at 1. unfold bindS at 1. unfold lift at 1.
    rewrite (recalc_zero shape2 (0, 0)); auto using shape2_zero; [|intros; apply Lr; auto].
    unfold bindS at 1. unfold lift at 1. unfold group_energy. fold N. rewrite known_zd. cbn [bind].
    rewrite (sum_zero add_bin (0, 0)) by (unfold add_bin; simpl; f_equal; lra).
    assert (Ea : map2 (map2 avg_bin) (repeat (repeat (0, 0) N) (ngroups c)) (repeat (repeat (0, 0) N) (ngroups c)) = repeat (repeat (0, 0) N) (ngroups c)).
    { rewrite !map2_repeat. unfold avg_bin. simpl. replace ((0 + 0) / 2) with 0 by lra. auto. }
    rewrite Ea, z_scale_bins, z_eval. unfold bindS, lift. rewrite Hd. auto. }
  assert (H345 : stage345 np c b n rows d (repeat (repeat (0, 0) N) K) = Ok (b, n, rows, arange N)).
  { apply stage345_id; auto; [|intros; apply Lr; auto]. split; auto. split; auto. split; auto. intros bd Ebd. split; auto.
    destruct (nth_error_Some_ex b 0) as [b0 Hb0]; [exact HN|]. assert (EN : exists N', N = S N'). { exists (N - 1)%nat. lia. }
    destruct EN as [N' EN]. rewrite EK, EN.
    exists b0, (0, 0), (repeat (0, 0) N'), (repeat (repeat (0, 0) (S N')) K'). split; auto. split; [reflexivity|]. split; [simpl; lra|].
    assert (X : forall k, last ((0, 0) :: repeat (0, 0) k) (0, 0) = (0, 0)).
    { intros k. clear. induction k; auto. }
    rewrite X. simpl. lra. }
  unfold step. unfold bindS at 1. unfold lift at 1. rewrite Ec. unfold bindS at 1. unfold apply_time_changes.
  unfold bindS at 1. change (st_bins (zstate left el)) with b. change (st_dens (zstate left el)) with n. change (st_subs (zstate left el)) with rows.
  fold e. fold K. rewrite H12. unfold lift at 1. rewrite H345.
  assert (Emask : exists mask left', (if optimize c then
        let! l1 := remap (arange N) (map (fun x => ext_sub x t) left0) (Some (Some 0)) in
        let l2 := map2 (fun x (bb : bin) => if Reqb (snd bb) 0 then Some 0 else x) l1 b in
        let mask := map (fun x => ext_ltb x t) l2 in
        Ok (map2 (fun (m : bool) x => if m then Some 0 else x) mask l2, mask)
      else Ok (st_left (zstate left el), map (fun _ => true) n)) = Ok (left', mask) /\ length mask = N /\ z_left_ok left').
  { destruct (optimize c) eqn:Eo.
    - rewrite El0 by auto. rewrite map_repeat'. simpl ext_sub.
      assert (X : forall dflt, remap (arange N) (repeat (@None R) N) dflt = Ok (repeat None N)).
      { intros dflt. pose proof (remap_arange (repeat (@None R) N) dflt) as X. rewrite repeat_length in X. exact X. }
      rewrite X. cbn [bind].
      assert (E2 : map2 (fun x (bb : bin) => if Reqb (snd bb) 0 then Some 0 else x) (repeat None N) b = repeat None N).
      { unfold N. clear - Hb. induction b as [|x l IH]; simpl; auto. rewrite IH by (intros; apply Hb; simpl; auto). f_equal.
        destruct (Hb x) as [P F]; [simpl; auto|]. pose proof (fresh_bin_pos x P F). rewrite (proj2 (Reqb_false (snd x) 0)) by lra. auto. }
      rewrite E2. cbv zeta. rewrite map_repeat'. simpl ext_ltb. rewrite map2_repeat. exists (repeat false N), (repeat None N). split; auto.
      split; [apply repeat_length|]. right. destruct Hl as [E|[E _]]; [congruence|auto].
    - exists (map (fun _ => true) n), left. split; auto. split; [rewrite map_length; auto|auto]. }
  destruct Emask as (mask & left' & Em & Lm & Hl'). unfold bindS at 1. unfold lift at 1. cbv beta iota zeta. cbv zeta in Em. rewrite Em. cbv beta iota zeta.
  assert (Eu : update_bin_ub b mask = b).
  { unfold update_bin_ub. fold N in Lm. clear - Hb Lm. unfold N in Lm. revert mask Lm. induction b as [|x l IH]; intros [|m mask] Lm; try discriminate; auto.
    simpl. rewrite IH; auto; [|intros; apply Hb; simpl; auto]. f_equal. destruct m; auto. destruct (Hb x) as [_ F]; [simpl; auto|]. red in F. destruct x; simpl in *. rewrite F. auto. }
  rewrite Eu. unfold bindS at 1. unfold get at 1.
  change (st_en (zstate left el)) with (zd (0, 0) (en_fns c) N). change (st_rel (zstate left el)) with (zd 0 (rel_fns c) N). change (st_abs (zstate left el)) with (zd 0 (abs_fns c) N).
  assert (Lb : length (lbs b) = N) by apply lbs_length.
  rewrite !remap_dict_zd. cbn [bind].
  rewrite (recalc_zero shape2 (0, 0)); auto using shape2_zero; [|intros; apply Lr; auto|right; exists mask; auto].
  rewrite (recalc_zero shape1 0); auto using shape1_zero; [|lia|intros r Hr; rewrite Lb; apply Lr; auto|right; exists mask; rewrite Lb; auto].
  rewrite (recalc_zero shape1 0); auto using shape1_zero; [|lia|intros r Hr; rewrite Lb; apply Lr; auto|right; exists mask; rewrite Lb; auto].
  exists left'. split; auto. split; auto. rewrite Lb. reflexivity.
Qed.
End Zero.
