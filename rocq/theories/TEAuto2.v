(** Automatic steps never make a bin invalid (C11) nor, without negative
    absolute injection and with a density threshold of at most 1, a density
    negative (C12); the statement about reused rates (C13). *)
From Verif Require Import Base TEUtils TimeEvolution ListFacts TEIndexFacts TEStageFacts TEStepFacts TELoopFacts TEInv TEForward Spec_TE TEThm1 TEThm2 TEThm4 TEThm5 TEErr TEReach TEAuto TEReuse.

(** ** arithmetic of a bin whose rates have been in use for [a] *)
Section Arith.
Variable c : cfg.
Hypothesis Hmec : 0 < mec2 c.
Hypothesis HE : 0 < maxE c < 1.
Hypothesis HD : 0 < maxD c.

Lemma moved_valid l0 u0 l u rl ru rel ab a t : 0 < l0 < u0 -> l = l0 + rl * a / mec2 c -> u = u0 + ru * a / mec2 c ->
  within_limits c l0 u0 rl ru rel ab (a + t) -> 0 < l * mec2 c + rl * t < u * mec2 c + ru * t.
Proof.
  intros H El Eu [L1 L2 [L3 _] _ _]. set (m := mec2 c) in *.
  replace (l * m + rl * t) with (l0 * m + rl * (a + t)) by (rewrite El; field; lra).
  replace (u * m + ru * t) with (u0 * m + ru * (a + t)) by (rewrite Eu; field; lra).
  assert (0 < l0 * m) by (apply Rmult_lt_0_compat; lra).
  assert (maxE c * (l0 * m) < 1 * (l0 * m)) by (apply Rmult_lt_compat_r; lra).
  assert (- Rabs (rl * (a + t)) <= rl * (a + t)). { pose proof (Rle_abs (- (rl * (a + t)))). rewrite Rabs_Ropp in H2. lra. }
  assert (0 < (u0 - l0) * m / (1 + maxD c)). { apply Rmult_lt_0_compat; [apply Rmult_lt_0_compat; lra|apply Rinv_0_lt_compat; lra]. }
  lra.
Qed.

Lemma factor_half l0 u0 l u rl ru rel ab a t : maxD c <= 1 -> 0 < l0 < u0 -> 0 <= a -> 0 < t -> l = l0 + rl * a / mec2 c -> u = u0 + ru * a / mec2 c ->
  within_limits c l0 u0 rl ru rel ab (a + t) ->
  1 / 2 <= (u * mec2 c - l * mec2 c) / ((u * mec2 c + ru * t) - (l * mec2 c + rl * t)).
Proof.
  intros Hm1 H Ha Ht El Eu W. pose proof (moved_valid l0 u0 l u rl ru rel ab a t H El Eu W) as [_ Hlt]. destruct W as [L1 L2 [L3 L4] _ _]. set (m := mec2 c) in *.
  set (w0 := (u0 - l0) * m) in *. set (df := ru - rl) in *. assert (Hw0 : 0 < w0) by (apply Rmult_lt_0_compat; lra).
  assert (Ew : u * m - l * m = w0 + df * a) by (rewrite El, Eu; unfold w0, df; field; lra).
  assert (Ew' : (u * m + ru * t) - (l * m + rl * t) = w0 + df * (a + t)). { unfold df in *. lra. }
  rewrite Ew'. rewrite Ew. assert (P : 0 < w0 + df * (a + t)) by lra.
  apply (Rmult_le_reg_r (w0 + df * (a + t))); auto. unfold Rdiv at 2. rewrite Rmult_assoc, Rinv_l, Rmult_1_r by lra.
  assert (0 <= df * a /\ 0 <= df * t \/ 0 <= - (df * t)).
  { destruct (Rle_dec 0 df); [left; split; apply Rmult_le_pos; lra|right]. replace (- (df * t)) with (- df * t) by ring. apply Rmult_le_pos; lra. }
  assert (w0 * (1 + maxD c) <= w0 * 2) by (apply Rmult_le_compat_l; lra). lra.
Qed.
End Arith.

(** ** non-negative group rates *)
Lemma group_rate_nonneg {A} c (p : A -> R) (r : rates A) g i : (forall kv x, In kv r -> In (Some x) (snd kv) -> 0 <= p x) -> 0 <= group_rate c p r g i.
Proof.
  intros H. unfold group_rate. destruct (subgroups c) as [gs|]; apply Rsum_nonneg; intros v Hv; apply in_map_iff in Hv as (y & <- & Hy).
  - unfold rate_at. destruct (lookup y r) as [w|] eqn:E; [|lra]. destruct (nth_error w i) as [[x|]|] eqn:Ex; try lra.
    apply lookup_In in E. apply (H (y, w) x E). eapply nth_error_In; eauto.
  - destruct (nth_error (snd y) i) as [[x|]|] eqn:Ex; try lra. apply (H y x Hy). eapply nth_error_In; eauto.
Qed.

(** ** errors, group by group *)
Section ErrIdx.
Variable c : cfg.
Variable S : exn -> Prop.
Hypothesis HS : forall e, In e plain -> S e.

Lemma may_groups_idx e dens subs ch :
  (forall g row cg, nth_error subs g = Some row -> nth_error ch g = Some cg -> may S (recalc_gamma_bins_and_density (mec2 c) e cg (map2 Rmult dens row))) ->
  may S (recalc_groups c e dens subs ch).
Proof.
  revert ch. induction subs as [|row subs IH]; intros ch H; simpl; [apply may_ok|]. destruct ch as [|cg ch]; [apply may_err; ordinary|].
  apply may_bind; [apply (H 0%nat); auto|]. intros x _. apply may_bind; [|intros; apply may_ok]. apply IH. intros g r cg' H1 H2. apply (H (Datatypes.S g)); auto.
Qed.
Lemma may_inject_idx xs inj : (forall g b d q, nth_error xs g = Some (b, d) -> nth_error inj g = Some q -> forall v, In v (map2 Rplus d q) -> 0 <= v) ->
  may S (inject_groups xs inj).
Proof.
  revert inj. induction xs as [|[b d] xs IH]; intros inj H; simpl; [apply may_ok|]. destruct inj as [|q inj]; [apply may_err; ordinary|].
  destruct (existsb _ _) eqn:E.
  - exfalso. apply existsb_exists in E as (v & Hv & E). apply Rltb_true in E. pose proof (H 0%nat b d q eq_refl eq_refl v Hv). lra.
  - apply may_bind; [|intros; apply may_ok]. apply IH. intros g b' d' q' H1 H2. apply (H (Datatypes.S g) b'); auto.
Qed.
Lemma may_eval_idx np e dens subs ch inj :
  (forall g row cg, nth_error subs g = Some row -> nth_error ch g = Some cg -> may S (recalc_gamma_bins_and_density (mec2 c) e cg (map2 Rmult dens row))) ->
  (forall xs, recalc_groups c e dens subs ch = Ok xs -> may S (inject_groups xs inj)) -> may S (apply_time_eval np c e dens subs ch inj).
Proof.
  intros H1 H2. unfold apply_time_eval. apply may_bind; [apply may_groups_idx; auto|].
  intros xs Hxs. apply may_bind; [auto|]. intros [|[b0 d0] rest] _; [apply may_err; ordinary|].
  apply may_bind; [apply may_regrid; auto|]. intros [b' ds] _. apply may_ok.
Qed.
Lemma recalc_gamma_ok m e ch dens : (forall i eb cb, nth_error e i = Some eb -> nth_error ch i = Some cb -> 0 < fst eb + fst cb < snd eb + snd cb) ->
  may S (recalc_gamma_bins_and_density m e ch dens).
Proof.
  intros H. unfold recalc_gamma_bins_and_density. apply may_bind; [|intros [a b] _; apply may_ok].
  unfold recalc_energy_bins_and_density_increase. set (new := map2 _ e ch).
  assert (G : forall x, In x new -> 0 < fst x < snd x).
  { intros x Hx. apply In_nth_error in Hx as [i Hi]. unfold new in Hi. rewrite nth_error_map2 in Hi. destruct (nth_error e i) as [eb|] eqn:E1; [|discriminate].
    destruct (nth_error ch i) as [cb|] eqn:E2; [|discriminate]. injection Hi as <-. simpl. eapply H; eauto. }
  assert (X : forall f, (forall x, In x new -> f x = false) -> existsb f new = false).
  { intros f Hf. destruct (existsb f new) eqn:E; auto. apply existsb_exists in E as (x & Hx & E). rewrite Hf in E by auto. discriminate. }
  rewrite (X (fun b => Rleb (fst b) 0 || Rleb (snd b) 0)%bool). 2: { intros x Hx. pose proof (G x Hx). destruct (Rleb_spec (fst x) 0), (Rleb_spec (snd x) 0); auto; lra. }
  rewrite (X (fun b => Rltb (snd b - fst b) 0)). 2: { intros x Hx. pose proof (G x Hx). destruct (Rltb_spec (snd x - fst x) 0); auto; lra. }
  rewrite (X (fun b => Reqb (snd b - fst b) 0)). 2: { intros x Hx. pose proof (G x Hx). destruct (Reqb_spec (snd x - fst x) 0); auto; lra. }
  apply may_ok.
Qed.
End ErrIdx.

Lemma In_scatter {A} mask (l v : list A) x : In x (scatter mask l v) -> In x l \/ In x v.
Proof.
  revert l v. induction mask as [|b mask IH]; intros [|a l] v H; try (simpl in H; tauto); [simpl in H; left; exact H|].
  destruct b; [destruct v as [|y v]|]; simpl in H; destruct H as [<-|H]; simpl; auto; apply IH in H; simpl in H; tauto.
Qed.
Lemma may_inject_only xs inj (S : exn -> Prop) : S IndexError -> S (ValueError "Negative density obtained") -> may S (inject_groups xs inj).
Proof.
  intros HI H. revert inj. induction xs as [|[b d] xs IH]; intros inj; simpl; [apply may_ok|]. destruct inj; [apply may_err; auto|].
  destruct (existsb _ _); [apply may_err, H; red; tauto|]. apply may_bind; [auto|]. intros; apply may_ok.
Qed.

Section Auto2.
Variable np : numpy.
Hypothesis Hnp : numpy_ok np.
Variable c : cfg.
Hypothesis Hv : valid c.
Hypothesis Hg : positive_grid c.
Hypothesis Hp : positive_steps c.
Hypothesis Hauto : stepd c = Auto.

(** C13, with the time [t] chosen for the next step *)
Lemma thm_reuse_age ne d s eng inj left0 t i : optimize c = true -> distinct_names c -> reached np c ne d s -> st_elapsed s < total c ->
  choose_step c s = Ok (eng, inj, left0, t) -> (i < length (st_bins s))%nat ->
  exists d0 s0 k l u v, reached np c ne d0 s0 /\ leads_to np c d0 s0 d s /\ fresh_at c d0 s0 k l u v /\ same_rates s0 k s i /\
    st_elapsed s0 <= st_elapsed s /\
    (forall g, (g < length (st_subs s))%nat -> within_limits c l u (group_rate c fst (st_en s) g i) (group_rate c snd (st_en s) g i)
        (group_rate c (fun x => x) (st_rel s) g i) (group_rate c (fun x => x) (st_abs s) g i) (st_elapsed s - st_elapsed s0 + t)) /\
    (subgroups c = None -> let a := st_elapsed s - st_elapsed s0 in
       nth_error (st_bins s) i = Some (l + group_rate c fst (st_en s) 0 i * a / mec2 c, u + group_rate c snd (st_en s) 0 i * a / mec2 c)).
Proof.
  intros Ho Hn Hr Hlt Hc Hi. destruct (reached_steady np Hnp c Hv ne d s Hg Hp Hr) as (Ha & Hs & _).
  destruct (choose_left c Hv Hp Ho s eng inj left0 t Ha Hs Hlt Hc) as [Ll Hl].
  destruct (step_time_pos c (v_mec _ Hv) _ _ _ _ _ Ha Hs Hp Hlt Hc) as [Hpos _].
  destruct (nth_error_Some_ex (st_left s) i) as [x Hx]; [rewrite (al_left _ _ Ha Ho); auto|].
  destruct (nth_error_Some_ex (st_bins s) i Hi) as [[bl bu] Hb]. destruct (nth_error_Some_ex left0 i) as [y Hy]; [rewrite Ll; auto|].
  destruct (Hl i bl bu x y Hb Hx Hy) as (Hle & Hne & H0).
  destruct (origin_inv np Hnp c Hv Hg Hp Ho Hn ne d s Hr i x Hx) as (d0 & s0 & k & l & u & v & M & R0 & R1 & F0 & Same & Lsub & Hel & HM & Hpo).
  exists d0, s0, k, l, u, v. do 5 (split; auto). split; auto.
  intros g Hgr. set (a := st_elapsed s - st_elapsed s0).
  assert (L : limits_at c s0 g k (a + t)).
  { destruct HM as [(-> & -> & -> & ->)|(Hx0 & Ex & HM)].
    - assert (Ea : a = 0) by (unfold a; ring). rewrite Ea, Rplus_0_l. apply H0; auto; try lra.
      pose proof (fa_bin _ _ _ _ _ _ _ F0) as E. rewrite Hb in E. injection E as <- <-. pose proof (fa_pos _ _ _ _ _ _ _ F0). rewrite (fa_width _ _ _ _ _ _ _ F0). lra.
    - rewrite (Hne Hx0), Ex in Hle. apply HM; [unfold a; lra|apply ext_le_sub; auto|lia]. }
  destruct L as (l' & u' & E & W). rewrite (fa_bin _ _ _ _ _ _ _ F0) in E. injection E as <- <-.
  destruct Same as (S1 & S2 & S3). rewrite <- !(group_rate_same c _ _ _ _ _ g S1), <- (group_rate_same c _ _ _ _ _ g S2), <- (group_rate_same c _ _ _ _ _ g S3). auto.
Qed.

(** every bin of every group, just before a step *)
Lemma before_step ne d s eng inj left0 t g i l u : (optimize c = true -> subgroups c = None /\ distinct_names c) -> reached np c ne d s -> st_elapsed s < total c ->
  choose_step c s = Ok (eng, inj, left0, t) -> (g < length (st_subs s))%nat -> nth_error (st_bins s) i = Some (l, u) ->
  0 < t /\ exists l0 u0 a, 0 < l0 < u0 /\ 0 <= a /\ l = l0 + group_rate c fst (st_en s) g i * a / mec2 c /\ u = u0 + group_rate c snd (st_en s) g i * a / mec2 c /\
    within_limits c l0 u0 (group_rate c fst (st_en s) g i) (group_rate c snd (st_en s) g i)
        (group_rate c (fun x => x) (st_rel s) g i) (group_rate c (fun x => x) (st_abs s) g i) (a + t).
Proof.
  intros Hgo Hr Hlt Hc Hgl Hb. destruct (reached_steady np Hnp c Hv ne d s Hg Hp Hr) as (Ha & Hs & _).
  destruct (step_time_pos c (v_mec _ Hv) _ _ _ _ _ Ha Hs Hp Hlt Hc) as [Hpos _]. split; auto.
  destruct (optimize c) eqn:Eo.
  - destruct (Hgo eq_refl) as [Hsg Hn]. destruct (reached_ones np Hnp c Hv ne d s Hsg Hr) as (row & Er & _). rewrite Er in Hgl. simpl in Hgl. assert (g = 0%nat) by lia. subst g.
    destruct (thm_reuse_age ne d s eng inj left0 t i Eo Hn Hr Hlt Hc) as (d0 & s0 & k & l0 & u0 & v & R0 & R1 & F0 & Same & Hel & W & Hpo). { eapply nth_error_lt; eauto. }
    specialize (Hpo Hsg). cbv zeta in Hpo. rewrite Hb in Hpo. injection Hpo as E1 E2. exists l0, u0, (st_elapsed s - st_elapsed s0).
    split. { pose proof (fa_pos _ _ _ _ _ _ _ F0). rewrite (fa_width _ _ _ _ _ _ _ F0). lra. } split; [lra|]. split; auto. split; auto. apply W. rewrite Er. simpl. lia.
  - apply choose_step_Ok in Hc as (ken & krel & kabs & dr & step0 & H1 & H2 & H3 & He & _ & _ & H6 & H7).
    red in Hp. rewrite Hauto in Hp, H6. destruct Hp as (HE & HD & HI). destruct H6 as (mx & Hmx & H6). rewrite Eo in H6. destruct H6 as [_ Hmin]. rewrite He in Hmx.
    pose proof (mx_length c _ _ _ _ _ Ha H1 H2 H3 Hmx) as Lmx.
    assert (Hbin : 0 < l < u).
    { assert (0 < l). { apply (sd_pos _ _ Hs). apply nth_error_In with i. apply (lbs_nth _ _ (l, u)); auto. }
      destruct (sd_bins _ _ Hs _ _ Hb) as [Hf|[E _]]; [|congruence]. pose proof (fresh_bin_pos (l, u) H Hf). simpl in *. lra. }
    apply ext_list_min_spec in Hmin as [Hin Hall].
    assert (Hts : ext_le (Some t) step0). { rewrite H7. destruct step0 as [t0|]; simpl; auto. destruct (Rltb_spec (total c - st_elapsed s) t0); lra. }
    destruct (nth_error_Some_ex mx i) as [x Hx]. { rewrite Lmx. eapply nth_error_lt; eauto. }
    assert (L : limits_at c s g i t).
    { apply (mx_limits c Hv s ken krel kabs mx i x l u t HE HD HI Ha H1 H2 H3 Hmx Hx Hb); auto; try lra.
      eapply ext_le_trans; [exact Hts|]. apply Hall. eapply nth_error_In; eauto. }
    destruct L as (l' & u' & E & W). rewrite Hb in E. injection E as <- <-. exists l, u, 0. split; auto. split; [lra|].
    split; [unfold Rdiv; ring|]. split; [unfold Rdiv; ring|]. rewrite Rplus_0_l. auto.
Qed.

(** entries of the change arrays *)
Lemma change_entry s eng inj left0 t g cg i cb : aligned c s -> choose_step c s = Ok (eng, inj, left0, t) -> nth_error (map (scale_bins t) eng) g = Some cg ->
  nth_error cg i = Some cb -> cb = (group_rate c fst (st_en s) g i * t, group_rate c snd (st_en s) g i * t).
Proof.
  intros Ha Hc Hcg Hcb. destruct (choose_step_shapes c _ _ _ _ _ Ha Hc) as (Leng & _ & _).
  apply choose_step_Ok in Hc as (ken & krel & kabs & dr & step0 & H1 & H2 & H3 & He & _ & _ & _).
  rewrite nth_error_map in Hcg. destruct (nth_error eng g) as [er|] eqn:E; [|discriminate]. injection Hcg as <-.
  unfold scale_bins in Hcb. rewrite nth_error_map in Hcb. destruct (nth_error er i) as [x|] eqn:Ex; [|discriminate]. injection Hcb as <-.
  assert (Hi : (i < length (st_bins s))%nat). { rewrite <- (Leng er) by (eapply nth_error_In; eauto). eapply nth_error_lt; eauto. }
  rewrite He in E. rewrite (group_rate_edges c _ _ _ _ _ _ _ H1 (rates_ok_len _ _ _ (al_en c s Ha)) E Ex Hi). auto.
Qed.

Lemma inj_entry s eng inj left0 t g row q i v f x : aligned c s -> choose_step c s = Ok (eng, inj, left0, t) -> nth_error (st_subs s) g = Some row ->
  nth_error inj g = Some q -> nth_error (st_dens s) i = Some v -> nth_error row i = Some f -> nth_error q i = Some x ->
  x = v * f * group_rate c (fun y => y) (st_rel s) g i + group_rate c (fun y => y) (st_abs s) g i.
Proof.
  intros Ha Hc Hrow Hq Hvi Hf Hx.
  apply choose_step_Ok in Hc as (ken & krel & kabs & dr & step0 & H1 & H2 & H3 & He & Hdr & Hinj & H6 & _).
  rewrite Hauto in H6. destruct H6 as (mx & Hmx & _). rewrite He in Hmx.
  set (n := length (st_bins s)) in *. destruct (calc_shapes c s _ _ _ Ha H1 H2 H3) as (L1 & L2 & L3). fold n in L1, L2, L3.
  assert (Le : length (to_erg (mec2 c) (st_bins s)) = n) by apply map_length.
  destruct (calc_max_times_spec c _ _ _ _ _ _ _ Hmx) as (_ & G1 & G2 & G3 & _); rewrite ?Le; auto. { rewrite map_length. apply Ha. }
  assert (Ldg : length (to_densities_grouped (st_dens s) (st_subs s)) = length (st_subs s)) by apply map_length. rewrite Ldg in G1, G2, G3.
  pose proof (rates_ok_len _ _ _ (al_rel c s Ha)) as Lrel. pose proof (rates_ok_len _ _ _ (al_abs c s Ha)) as Lab. fold n in Lrel, Lab.
  assert (Hi : (i < n)%nat). { unfold n. rewrite <- (al_dens _ _ Ha). eapply nth_error_lt; eauto. }
  assert (Hg0 : (g < length (st_subs s))%nat) by (eapply nth_error_lt; eauto).
  set (relg := sum_change_rates Rplus 0 n krel (subgroups c)) in *. set (absg := sum_change_rates Rplus 0 n kabs (subgroups c)) in *.
  assert (Lra : length relg = length absg) by (unfold relg, absg; rewrite !sum_change_rates_rows; auto).
  destruct (nth_error_Some_ex relg g) as [rr Hrr]; [lia|]. destruct (nth_error_Some_ex absg g) as [ra Hra]; [lia|].
  destruct (nth_error_Some_ex rr i) as [r Hri]; [rewrite (L2 rr) by (eapply nth_error_In; eauto); auto|].
  destruct (nth_error_Some_ex ra i) as [a Hai]; [rewrite (L3 ra) by (eapply nth_error_In; eauto); auto|].
  rewrite <- (group_rate_rows c n _ _ _ _ _ _ H2 Lrel Hrr Hri Hi), <- (group_rate_rows c n _ _ _ _ _ _ H3 Lab Hra Hai Hi).
  assert (Edg : nth_error (to_densities_grouped (st_dens s) (st_subs s)) g = Some (map2 Rmult (st_dens s) row)). { unfold to_densities_grouped. rewrite nth_error_map, Hrow. auto. }
  assert (Edr : length dr = length relg /\ nth_error dr g = Some (map2 Rmult (map2 Rmult (st_dens s) row) rr)).
  { unfold bcast_rows in Hdr. destruct (Nat.eqb_spec (length (to_densities_grouped (st_dens s) (st_subs s))) (length relg)) as [El|Nl].
    - injection Hdr as <-. split; [apply map2_length_eq; auto|]. rewrite nth_error_map2, Edg, Hrr. auto.
    - destruct (to_densities_grouped (st_dens s) (st_subs s)) as [|d0 [|d1 dg]] eqn:Ed; [destruct g; discriminate| |].
      + injection Hdr as <-. split; [apply map_length|]. rewrite nth_error_map, Hrr. destruct g as [|g]; [|destruct g; discriminate]. simpl in Edg. injection Edg as ->. auto.
      + destruct relg as [|y0 [|? ?]]; try discriminate. simpl in Ldg, G2. simpl in Nl. lia. }
  destruct Edr as [Ldr Edr]. unfold bcast_rows in Hinj. destruct (Nat.eqb_spec (length dr) (length absg)); [|lia]. injection Hinj as <-.
  rewrite nth_error_map2, Edr, Hra in Hq. injection Hq as <-. rewrite nth_error_map2, nth_error_map2, nth_error_map2, Hvi, Hf, Hri, Hai in Hx. injection Hx as <-. auto.
Qed.

Lemma evaluate_reached (S : exn -> Prop) fuel ne ne' recs out : (forall e, In e plain -> S e) -> (forall e, user_raises c e -> S e) -> S OutOfFuel ->
  (forall d s eng inj left0 t, reached np c ne d s -> st_elapsed s < total c -> choose_step c s = Ok (eng, inj, left0, t) ->
     may S (apply_time_eval np c (to_erg (mec2 c) (st_bins s)) (st_dens s) (st_subs s) (map (scale_bins t) eng) (map (scale t) inj))) ->
  method c = Euler -> evaluate np c fuel ne = (ne', recs, out) -> may S out.
Proof.
  intros HS HU HF HB Hm H.
  apply (may_evaluate np c S HS (fun kf d p e Hk Hf => HU e (ex_intro _ kf (ex_intro _ d (ex_intro _ p (conj Hk Hf))))) (fun d s => reached np c ne d s) fuel ne ne' recs out); auto.
  - intros s0 Hi. apply at_start; auto.
  - intros s d HI Hlt. destruct (reached_steady np Hnp c Hv ne d s Hg Hp HI) as (Ha & Hs & N1 & N2 & N3). split.
    + apply may_step; auto.
      * intros kf d0 p e Hk Hf. apply HU. red; eauto.
      * destruct (known_ok (st_en s) N1) as [k ->]. apply may_ok.
      * destruct (known_ok (st_rel s) N2) as [k ->]. apply may_ok.
      * destruct (known_ok (st_abs s) N3) as [k ->]. apply may_ok.
      * intros eng inj left0 t Hc. split; [eapply HB; eauto|]. rewrite Hm. discriminate.
    + intros d' s' Hst. eapply after_pass; eauto.
Qed.

Lemma no_bad_bins (S : exn -> Prop) ne d s eng inj left0 t : (forall e, In e plain -> S e) -> maxE c < 1 ->
  (optimize c = true -> subgroups c = None /\ distinct_names c) ->
  reached np c ne d s -> st_elapsed s < total c -> choose_step c s = Ok (eng, inj, left0, t) ->
  forall g row cg, nth_error (st_subs s) g = Some row -> nth_error (map (scale_bins t) eng) g = Some cg ->
    may S (recalc_gamma_bins_and_density (mec2 c) (to_erg (mec2 c) (st_bins s)) cg (map2 Rmult (st_dens s) row)).
Proof.
  intros HS HE1 Hgo Hr Hlt Hc g row cg Hrow Hcg. apply recalc_gamma_ok. intros i eb cb He Hcb.
  destruct (reached_steady np Hnp c Hv ne d s Hg Hp Hr) as (Ha & _).
  apply to_erg_nth in He as ([l u] & Hb & ->). simpl.
  rewrite (change_entry s eng inj left0 t g cg i cb Ha Hc Hcg Hcb). simpl.
  destruct (before_step ne d s eng inj left0 t g i l u Hgo Hr Hlt Hc) as (Ht & l0 & u0 & a & H0 & Ha0 & El & Eu & W); auto. { eapply nth_error_lt; eauto. }
  pose proof Hp as Hp'. red in Hp'. rewrite Hauto in Hp'. eapply moved_valid; eauto; try apply Hv; lra.
Qed.

(** C11 *)
Lemma thm_auto_valid_bins fuel ne ne' recs out e : method c = Euler -> maxE c < 1 -> (optimize c = true -> subgroups c = None /\ distinct_names c) ->
  evaluate np c fuel ne = (ne', recs, out) -> out = Err e ->
  e = ValueError "Negative gamma obtained at bins" \/ e = ValueError "Negative density obtained at bins" \/ e = NonFinite -> user_raises c e.
Proof.
  intros Hm HE1 Hgo H Eo He.
  set (S := fun e => ~ (e = ValueError "Negative gamma obtained at bins" \/ e = ValueError "Negative density obtained at bins" \/ e = NonFinite) \/ user_raises c e).
  assert (HS : forall e, In e plain -> S e). { intros e0 H0. left. simpl in H0. intros [->|[->| ->]]; intuition discriminate. }
  assert (M : may S out).
  { apply (evaluate_reached S fuel ne ne' recs out HS); auto.
    - right; auto.
    - left. intros [?|[?|?]]; discriminate.
    - intros d s eng inj left0 t Hr Hlt Hc. apply may_eval_idx; auto.
      + intros. eapply no_bad_bins; eauto.
      + intros xs _. apply may_inject_only; [apply HS; simpl; auto|]. left. intros [?|[?|?]]; discriminate. }
  destruct (M _ Eo); tauto.
Qed.

(** ** C12 *)
Lemma reached_nonneg ne d s : (forall g, 0 <= dist_eval np ne g) -> split_in_unit (start_split c) -> reached np c ne d s ->
  nonneg (st_dens s) /\ (forall row f, In row (st_subs s) -> In f row -> 0 <= f).
Proof.
  intros Hn Hsp Hr.
  set (eps := INR (length (start_split c)) + 1).
  assert (He : 0 <= eps) by (unfold eps; pose proof (pos_INR (length (start_split c))); lra).
  assert (G : aligned c s /\ dist_nonneg np d /\ nonneg (st_dens s) /\ split_fine eps (length (st_bins s)) (st_subs s)).
  { revert Hr. apply (reached_inv np c ne (fun d s => aligned c s /\ dist_nonneg np d /\ nonneg (st_dens s) /\ split_fine eps (length (st_bins s)) (st_subs s))).
    - intros s0 Hi. pose proof (initial_aligned np c ne s0 (valid_split c Hv) Hi) as (Ha & _). split; auto. split; auto.
      apply initial_Ok in Hi as (sg & Esg & Hi). pose proof (dist_call_nonneg np ne (g0 c) Hn) as Hd. destruct (dist_call np ne (g0 c)) as [lb dens].
      destruct Hi as (Eb & Ed & Es & _). split; [rewrite Ed; exact Hd|].
      assert (Esg' : sg = start_split c).
      { unfold initial_subs in Esg. unfold start_split. destruct (subgroups c) as [g|]; [|congruence]. destruct (subinit c); [congruence|]. destruct g; [discriminate|congruence]. }
      rewrite Es, Esg'. intros j Hj. unfold column. split.
      + intros v Hvv. apply in_map_iff in Hvv as (row & <- & Hrow). apply (Hsp row); auto. apply nth_In. rewrite <- Esg', <- Es in Hrow. rewrite (proj2 (al_subs _ _ Ha) row Hrow). auto.
      + assert (B : 0 <= Rsum (map (fun r => nth j r 0) (start_split c)) <= INR (length (start_split c))).
        { assert (Hall : forall row, In row (start_split c) -> 0 <= nth j row 0 <= 1). { intros row Hrow. apply (Hsp row); auto. apply nth_In. rewrite <- Esg', <- Es in Hrow. rewrite (proj2 (al_subs _ _ Ha) row Hrow). auto. }
          clear - Hall. induction (start_split c) as [|a l IH]; [simpl; lra|]. pose proof (Hall a (or_introl eq_refl)). assert (forall row, In row l -> 0 <= nth j row 0 <= 1) by (intros; apply Hall; simpl; auto).
          specialize (IH H0). cbn [length map]. rewrite S_INR. match goal with |- context [Rsum (?x :: ?y)] => change (Rsum (x :: y)) with (x + Rsum y) end. lra. }
        unfold eps. apply Rabs_le. lra.
    - intros d0 s0 d' s' _ (Ha & Hd & Hdn & Hsf) _ Hst. destruct (step_spec np Hnp c (v_mec _ Hv) s0 d0 d' s' Ha Hst) as (Ha' & _ & HN & (b & n & Hu) & _).
      assert (Hd' : dist_nonneg np d') by (eapply update_distribution_nonneg; eauto). split; auto. split; auto. split; [intros v; apply HN; auto|].
      apply (step_split np Hnp c (v_mec _ Hv) eps s0 d0 d' s'); auto. }
  destruct G as (Ha & _ & Hdn & Hsf). split; auto. intros row f Hrow Hf. apply In_nth_error in Hf as [j Hj].
  destruct (Hsf j) as [H1 _]. { rewrite <- (proj2 (al_subs _ _ Ha) row Hrow). eapply nth_error_lt; eauto. }
  apply H1. unfold column. apply in_map_iff. exists row. split; auto. apply nth_error_nth; auto.
Qed.

Lemma reached_abs ne d s : (forall kf, In kf (abs_fns c) -> forall d p vals, snd kf d p = Ok vals -> nonneg vals) -> reached np c ne d s ->
  forall kv x, In kv (st_abs s) -> In (Some x) (snd kv) -> 0 <= x.
Proof.
  intros Hf Hr.
  assert (G : aligned c s /\ forall kv x, In kv (st_abs s) -> In (Some x) (snd kv) -> 0 <= x); [|apply G].
  revert Hr. apply (reached_inv np c ne (fun _ s => aligned c s /\ forall kv x, In kv (st_abs s) -> In (Some x) (snd kv) -> 0 <= x)).
  - intros s0 Hi. pose proof (initial_aligned np c ne s0 (valid_split c Hv) Hi) as (Ha & _). split; auto. intros kv x Hkv Hx.
    apply initial_Ok in Hi as (sg & Esg & Hi). destruct (dist_call np ne (g0 c)) as [lb dens]. destruct Hi as (_ & _ & _ & _ & _ & _ & _ & Hab).
    unfold recalc_new_rates in Hab. apply bind_Ok in Hab as (sm & _ & Hab). apply mapM_Forall2 in Hab. apply In_nth_error in Hkv as [k Hk].
    destruct (Forall2_nth_error_r _ _ _ Hab _ _ Hk) as (kf & Hkf & E). apply bind_Ok in E as (v & Hcall & E). injection E as <-. simpl in Hx.
    apply call_fn_Ok in Hcall as (out & vals & Ho & Hu & _ & ->). simpl in Hu. injection Hu as ->. apply in_map_iff in Hx as (y & E & Hy). injection E as <-.
    eapply (Hf kf); eauto. eapply nth_error_In; eauto.
  - intros d0 s0 d' s' _ (Ha & IH) _ Hst. destruct (step_spec np Hnp c (v_mec _ Hv) s0 d0 d' s' Ha Hst) as (Ha' & _). split; auto.
    pose proof (step_Ok np c s0 d0 d' s' Hst) as (eng & inj & left0 & t & b & n & sg & m & left' & mask & pen & pab & prel & Hc & Hat & Hmask & Hpen & Hpab & Hprel & Eb & En & Es & El & Et & Hen & Hab & Hrel).
    intros kv x Hkv Hx. unfold recalc_new_rates in Hab. apply bind_Ok in Hab as (sm & _ & Hab). apply mapM_Forall2 in Hab. apply In_nth_error in Hkv as [k Hk].
    destruct (Forall2_nth_error_r _ _ _ Hab _ _ Hk) as (kf & Hkf & E). simpl in E. destruct (lookup (fst kf) pab) as [pv|] eqn:Elk; [|discriminate].
    apply bind_Ok in E as (v & Hcall & E). injection E as <-. simpl in Hx.
    assert (Hcase : In (Some x) pv \/ In (Some x) v).
    { apply (In_scatter mask); auto. }
    destruct Hcase as [Hin|Hin].
    + apply lookup_In in Elk. unfold remap_dict in Hpab. apply In_nth_error in Elk as [q Hq]. destruct (mapM_nth_r _ _ _ Hpab _ _ Hq) as (kv0 & Hk0 & E). apply bind_Ok in E as (v0 & Hv0 & E). injection E as E1 E2. subst v0.
      apply In_nth_error in Hin as [j Hj]. destruct (nth_error_Some_ex m j) as [z Hz]. { rewrite <- (remap_length _ _ _ _ Hv0). eapply nth_error_lt; eauto. }
      pose proof (remap_nth _ _ _ _ Hv0 _ _ _ Hz Hj) as X. destruct (z =? -1)%Z; [discriminate|]. apply py_get_In in X. apply (IH kv0 x); auto. eapply nth_error_In; eauto.
    + apply call_fn_Ok in Hcall as (out & vals & Ho & Hu & _ & ->). simpl in Hu. injection Hu as ->. apply in_map_iff in Hin as (y & E & Hy). injection E as <-.
      eapply (Hf kf); eauto. eapply nth_error_In; eauto.
Qed.

Lemma thm_auto_no_negative fuel ne ne' recs out e : method c = Euler -> maxE c < 1 -> maxD c <= 1 -> (optimize c = true -> subgroups c = None /\ distinct_names c) ->
  (forall g, 0 <= dist_eval np ne g) -> split_in_unit (start_split c) ->
  (forall kf, In kf (abs_fns c) -> forall d p vals, snd kf d p = Ok vals -> nonneg vals) ->
  evaluate np c fuel ne = (ne', recs, out) -> out = Err e -> bin_errors e -> user_raises c e.
Proof.
  intros Hm HE1 HD1 Hgo Hn Hsp Hf H Eo He.
  set (S := fun e => ~ bin_errors e \/ user_raises c e).
  assert (HS : forall e, In e plain -> S e). { intros e0 H0. left. unfold bin_errors. simpl in H0. intros [->|[->|[->| ->]]]; intuition discriminate. }
  assert (M : may S out).
  { apply (evaluate_reached S fuel ne ne' recs out HS); auto.
    - right; auto.
    - left. intros [?|[?|[?|?]]]; discriminate.
    - intros d s eng inj left0 t Hr Hlt Hc. destruct (reached_steady np Hnp c Hv ne d s Hg Hp Hr) as (Ha & _). apply may_eval_idx; auto.
      + intros. eapply no_bad_bins; eauto.
      + intros xs Hxs. apply may_inject_idx; auto. intros g b dd q Hx Hq v Hvv. apply In_nth_error in Hvv as [i Hi]. rewrite nth_error_map2 in Hi.
        destruct (nth_error dd i) as [di|] eqn:Ed; [|discriminate]. destruct (nth_error q i) as [qi|] eqn:Eq; [|discriminate]. injection Hi as <-.
        destruct (groups_detail c _ _ _ _ _ Hxs) as (Lx & _ & Hdet). destruct (Hdet g b dd Hx) as (row & cg & Hrow & Hcg & _ & Ldd & Hd).
        destruct (choose_step_shapes c _ _ _ _ _ Ha Hc) as (Leng & Linj & _).
        assert (Lcg : length cg = length (to_erg (mec2 c) (st_bins s))). { rewrite nth_error_map in Hcg. destruct (nth_error eng g) eqn:Eg; [|discriminate]. injection Hcg as <-. unfold scale_bins, to_erg. rewrite !map_length. apply Leng. eapply nth_error_In; eauto. }
        assert (Lrow : length row = length (st_bins s)) by (apply (al_subs _ _ Ha); eapply nth_error_In; eauto).
        assert (LE : length (to_erg (mec2 c) (st_bins s)) = length (st_bins s)) by apply map_length.
        assert (Hil : (i < length (st_bins s))%nat). { rewrite <- LE, <- Ldd; auto; try (rewrite LE; auto; apply Ha). eapply nth_error_lt; eauto. }
        destruct (nth_error_Some_ex (st_bins s) i Hil) as [[l u] Hb]. destruct (nth_error_Some_ex (st_dens s) i) as [vi Hvi]; [rewrite (al_dens _ _ Ha); auto|].
        destruct (nth_error_Some_ex row i) as [fi Hfi]; [lia|]. destruct (nth_error_Some_ex cg i) as [cb Hcb]; [lia|].
        pose proof (change_entry s eng inj left0 t g cg i cb Ha Hc Hcg Hcb) as Ecb. subst cb.
        assert (He0 : nth_error (to_erg (mec2 c) (st_bins s)) i = Some (l * mec2 c, u * mec2 c)) by (unfold to_erg; rewrite nth_error_map, Hb; auto).
        destruct (Hd i _ _ _ _ vi fi He0 Hcb Hvi Hfi) as (_ & _ & Edi). rewrite Ed in Edi. injection Edi as ->.
        rewrite nth_error_map in Hq. destruct (nth_error inj g) as [q0|] eqn:Eq0; [|discriminate]. injection Hq as <-. unfold scale in Eq. rewrite nth_error_map in Eq.
        destruct (nth_error q0 i) as [y|] eqn:Ey; [|discriminate]. injection Eq as <-.
        rewrite (inj_entry s eng inj left0 t g row q0 i vi fi y Ha Hc Hrow Eq0 Hvi Hfi Ey).
        destruct (before_step ne d s eng inj left0 t g i l u Hgo Hr Hlt Hc) as (Ht & l0 & u0 & a & H0 & Ha0 & El & Eu & W); auto. { eapply nth_error_lt; eauto. }
        pose proof Hp as Hp'. red in Hp'. rewrite Hauto in Hp'.
        pose proof (factor_half c (v_mec _ Hv) ltac:(lra) ltac:(lra) l0 u0 l u _ _ _ _ a t HD1 H0 Ha0 Ht El Eu W) as F.
        destruct (reached_nonneg ne d s Hn Hsp Hr) as [Hdn Hsn].
        assert (0 <= vi) by (apply Hdn; eapply nth_error_In; eauto). assert (0 <= fi) by (eapply (Hsn row); eapply nth_error_In; eauto).
        pose proof (group_rate_nonneg c (fun x => x) (st_abs s) g i (reached_abs ne d s Hf Hr)) as Hab.
        set (rel := group_rate c (fun x => x) (st_rel s) g i) in *. set (ab := group_rate c (fun x => x) (st_abs s) g i) in *.
        match type of F with _ <= ?z => set (fac := z) in * end.
        assert (Hrel : - (1 / 2) <= rel * t). { destruct W as [_ _ _ W _]. destruct (Rle_dec 0 rel); [assert (0 <= rel * t) by (apply Rmult_le_pos; lra); lra|].
          assert (0 <= - rel * a) by (apply Rmult_le_pos; lra). lra. }
        assert (Hvf : 0 <= vi * fi) by (apply Rmult_le_pos; auto). assert (0 <= ab * t) by (apply Rmult_le_pos; lra).
        replace (vi * fi * fac + (vi * fi * rel + ab) * t) with (vi * fi * (fac + rel * t) + ab * t) by ring.
        assert (0 <= vi * fi * (fac + rel * t)) by (apply Rmult_le_pos; lra). lra. }
  destruct (M _ Eo); tauto.
Qed.

(** C13 *)
Lemma thm_reuse ne d s d' s' i : optimize c = true -> distinct_names c -> reached np c ne d s -> st_elapsed s < total c -> step np c s d = (d', Ok s') ->
  (i < length (st_bins s))%nat ->
  exists d0 s0 k l u v, reached np c ne d0 s0 /\ leads_to np c d0 s0 d s /\ fresh_at c d0 s0 k l u v /\ same_rates s0 k s i /\
    (forall g, (g < length (st_subs s))%nat -> within_limits c l u (group_rate c fst (st_en s) g i) (group_rate c snd (st_en s) g i)
        (group_rate c (fun x => x) (st_rel s) g i) (group_rate c (fun x => x) (st_abs s) g i) (st_elapsed s' - st_elapsed s0)) /\
    (subgroups c = None -> let a := st_elapsed s - st_elapsed s0 in
       nth_error (st_bins s) i = Some (l + group_rate c fst (st_en s) 0 i * a / mec2 c, u + group_rate c snd (st_en s) 0 i * a / mec2 c)).
Proof.
  intros Ho Hn Hr Hlt Hst Hi. apply step_time in Hst as (eng & inj & left0 & t & Hc & Et & _).
  destruct (thm_reuse_age ne d s eng inj left0 t i Ho Hn Hr Hlt Hc Hi) as (d0 & s0 & k & l & u & v & R0 & R1 & F0 & Same & Hel & W & Hpo).
  exists d0, s0, k, l, u, v. do 4 (split; auto). split; auto.
  intros g Hgl. replace (st_elapsed s' - st_elapsed s0) with (st_elapsed s - st_elapsed s0 + t) by lra. auto.
Qed.
End Auto2.
