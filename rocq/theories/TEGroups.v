(** A step with subgroups: proofs for C17 (subgroups) and C81. *)
From Verif Require Import Base TEUtils TimeEvolution ListFacts TEIndexFacts TEStageFacts TEStepFacts TELoopFacts TEInv TEForward Spec_TE TEInitFacts TEThm1 TEThm2 TEThm4 TEThm5 TEReach TEAuto TEReuse TEThm8 Spec_Groups Spec_Bins TEBins.

(** ** regridding *)
Lemma forallb_zero d : forallb (fun v => Reqb v 0) d = true <-> forall v, In v d -> v = 0.
Proof.
  rewrite forallb_forall. split; intros H v Hv; [apply Reqb_true|apply Reqb_true]; auto.
Qed.
Lemma forallb_bins (b g : list bin) : length b = length g -> (forallb (fun x => x) (map2 bin_eqb b g) = true <-> b = g).
Proof.
  revert g; induction b as [|[l u] b IH]; intros [|[l' u'] g] L; try discriminate; simpl; [tauto|].
  simpl in L. rewrite andb_true_iff, IH by lia. unfold bin_eqb. simpl. rewrite andb_true_iff, !Reqb_true. split.
  - intros [[-> ->] ->]. auto.
  - intros E. injection E as -> -> ->. auto.
Qed.
Lemma select_points (x y : list R) : length x = length y ->
  select (map (fun v => negb (Reqb v 0)) y) x = map fst (filter (fun p => negb (Reqb (snd p) 0)) (combine x y)) /\
  select (map (fun v => negb (Reqb v 0)) y) y = map snd (filter (fun p => negb (Reqb (snd p) 0)) (combine x y)).
Proof.
  revert y; induction x as [|a x IH]; intros [|b y] L; try discriminate; auto. simpl in L. destruct (IH y) as [E1 E2]; [lia|].
  cbn [map combine filter fst snd]. unfold select in *. simpl. destruct (Reqb b 0); simpl; rewrite ?E1, ?E2; auto.
Qed.

Lemma correct_first_nth lo l i a : nth_error l i = Some a -> exists a', nth_error (correct_first lo l) i = Some a' /\
  (a' = a \/ (i = 0%nat /\ a' = lo /\ a < lo /\ (lo - a) / a < 1 / 10 ^ 10)).
Proof.
  destruct l as [|x l]; [destruct i; discriminate|]. intros H. unfold correct_first.
  destruct (Rltb_spec x lo) as [H1|H1]; cbn [andb]; [|exists a; auto].
  destruct (Rltb_spec ((lo - x) / x) (1 / 10 ^ 10)) as [H2|H2]; [|exists a; auto].
  destruct i as [|i]; simpl in H; [|exists a; auto]. injection H as ->. exists lo. split; auto. 
Qed.
Lemma correct_last_nth hi l i a : nth_error l i = Some a -> exists a', nth_error (correct_last hi l) i = Some a' /\
  (a' = a \/ (S i = length l /\ a' = hi /\ hi < a /\ (a - hi) / hi < 1 / 10 ^ 10)).
Proof.
  intros H. unfold correct_last. destruct (rev l) as [|x r] eqn:E. { apply (f_equal (@rev R)) in E. rewrite rev_involutive in E. subst l. destruct i; discriminate. }
  apply (f_equal (@rev R)) in E. rewrite rev_involutive in E. simpl in E.
  destruct (Rltb_spec hi x) as [H1|H1]; cbn [andb]; [|exists a; auto].
  destruct (Rltb_spec ((x - hi) / hi) (1 / 10 ^ 10)) as [H2|H2]; [|exists a; auto].
  simpl rev. subst l. destruct (Nat.lt_ge_cases i (length (rev r))) as [Hi|Hi].
  - rewrite nth_error_app1 in H |- * by auto. exists a; auto.
  - assert (i = length (rev r)). { apply nth_error_lt in H. rewrite app_length in H. simpl in H. lia. } subst i.
    rewrite nth_error_app2, Nat.sub_diag in H |- * by auto. simpl in H |- *. injection H as ->. exists hi. split; auto. right. rewrite app_length. simpl. split; [lia|]. auto.
Qed.
Lemma touched_bounds lo hi (g : list bin) : lo <= hi -> touched lo hi g (map2 (fun x (y : bin) => (x, snd y)) (correct_bounds lo hi (lbs g)) g).
Proof.
  intros Hle. split. { apply map2_length_eq; auto. rewrite correct_bounds_length, lbs_length. auto. }
  intros i l u Hi. assert (Hl : nth_error (lbs g) i = Some l). { unfold lbs. rewrite nth_error_map, Hi. auto. }
  destruct (correct_first_nth lo _ _ _ Hl) as (a & Ha & Ca). destruct (correct_last_nth hi _ _ _ Ha) as (a' & Ha' & Ca').
  exists a'. split. { rewrite nth_error_map2. unfold correct_bounds. rewrite Ha', Hi. auto. }
  rewrite correct_first_length, lbs_length in Ca'. destruct Ca' as [->|(E1 & E2 & E3 & E4)].
  - destruct Ca as [->|Ca]; auto.
  - destruct Ca as [->|(F1 & F2 & F3 & F4)]; [right; right; auto|]. subst a. lra.
Qed.

Lemma regrid_sound np g rest g' ds : regrid_groups np g rest = Ok (g', ds) ->
  (forall b d, In (b, d) rest -> length b = length g /\ length d = length g) ->
  regrid np g rest g' ds /\ length g' = length g /\ length ds = length rest /\ forall d, In d ds -> length d = length g.
Proof.
  revert g g' ds. induction rest as [|[b d] rest IH]; intros g g' ds H L; simpl in H.
  - injection H as <- <-. split; [constructor|]. split; auto. split; auto. intros d [].
  - destruct (L b d) as [Lb Ld]; [simpl; auto|].
    destruct (forallb (fun v => Reqb v 0) d || forallb (fun x => x) (map2 bin_eqb b g))%bool eqn:E.
    + apply bind_Ok in H as ([g1 ds1] & H1 & H). injection H as <- <-. destruct (IH _ _ _ H1) as (R1 & R2 & R3 & R4). { intros; apply L; simpl; auto. }
      split. { apply (rg_same np g (b, d) rest g1 ds1); auto. simpl. apply orb_true_iff in E as [E|E]; [left; apply forallb_zero|right; apply forallb_bins]; auto. }
      split; auto. split; [simpl; auto|]. intros d0 [<-|Hd]; auto.
    + apply bind_Ok in H as (dd & H1 & H). apply orb_false_iff in E as [E1 E2].
      apply interpolated_Ok in H1 as (-> & Lx & Hs). cbv zeta in *.
      assert (Lbd : length (lbs b) = length d) by (rewrite lbs_length; lia).
      destruct (select_points (lbs b) d Lbd) as [P1 P2]. change (lbs b) with (map fst b) in P1 at 2, P2.
      rewrite P1 in Hs, Lx. rewrite P1, P2 in H.
      change (filter (fun p => negb (Reqb (snd p) 0)) (combine (map fst b) d)) with (points (b, d)) in *.
      set (xs := map fst (points (b, d))) in *. set (ns := map snd (points (b, d))) in *.
      simpl in H. apply bind_Ok in H as ([g1 ds1] & H1 & H). injection H as <- <-.
      assert (Hle : list_min xs <= list_max xs). { destruct xs as [|x xs]; [simpl in Lx; lia|]. apply Rle_trans with x; [apply list_min_le|apply list_max_ge]; simpl; auto. }
      pose proof (touched_bounds (list_min xs) (list_max xs) g Hle) as T. set (g2 := map2 (fun x (y : bin) => (x, snd y)) (correct_bounds (list_min xs) (list_max xs) (lbs g)) g) in *. pose proof (proj1 T) as L2.
      destruct (IH _ _ _ H1) as (R1 & R2 & R3 & R4). { intros b0 d0 Hin. destruct (L b0 d0); [simpl; auto|]. lia. }
      assert (Ev : map (dist_eval np (DInterp xs ns)) (correct_bounds (list_min xs) (list_max xs) (lbs g)) = map (fun x => dist_eval np (DInterp xs ns) (fst x)) g2).
      { rewrite <- map_map. f_equal. unfold g2. assert (Lc : length (correct_bounds (list_min xs) (list_max xs) (lbs g)) = length g) by (rewrite correct_bounds_length, lbs_length; auto).
        revert Lc. generalize (correct_bounds (list_min xs) (list_max xs) (lbs g)). clear. induction g as [|y g IH]; intros [|x l] L; simpl in *; try discriminate; auto. f_equal. auto. }
      change (regrid np g ((b, d) :: rest) g1 (map (dist_eval np (DInterp xs ns)) (correct_bounds (list_min xs) (list_max xs) (lbs g)) :: ds1) /\ length g1 = length g /\
        length (map (dist_eval np (DInterp xs ns)) (correct_bounds (list_min xs) (list_max xs) (lbs g)) :: ds1) = length ((b, d) :: rest) /\
        forall d0, In d0 (map (dist_eval np (DInterp xs ns)) (correct_bounds (list_min xs) (list_max xs) (lbs g)) :: ds1) -> length d0 = length g).
      rewrite Ev.
      split. { refine (rg_interp np g (b, d) rest xs ns g2 g1 ds1 _ _ eq_refl eq_refl Lx _ T R1).
        - simpl. intros Hz. apply forallb_zero in Hz. congruence.
        - simpl. intros Hb. apply forallb_bins in Hb; [|auto]. congruence.
        - apply strict_increasing. auto. }
      split; [lia|]. split; [simpl; auto|]. intros d0 [<-|Hd]; [rewrite map_length; auto|]. rewrite (R4 _ Hd). auto.
Qed.

(** ** one evaluation for all groups *)
Section Groups.
Variable np : numpy.
Hypothesis Hnp : numpy_ok np.
Variable c : cfg.
Hypothesis Hv : valid c.

Lemma nth_of {A} (l : list A) i x d : nth_error l i = Some x -> nth i l d = x.
Proof. intros H. apply nth_error_nth. auto. Qed.

Lemma groups_eval e dens subs ch inj b n sg : apply_time_eval np c e dens subs ch inj = Ok (b, n, sg) ->
  length dens = length e -> (forall r, In r subs -> length r = length e) ->
  (forall r, In r ch -> length r = length e) -> (forall r, In r inj -> length r = length e) ->
  (length subs <= length ch)%nat /\ (length subs <= length inj)%nat /\
  exists tables, length tables = length subs /\ put_together np subs tables b n sg /\
    forall g t, nth_error tables g = Some t -> length (fst t) = length e /\ length (snd t) = length e /\
      forall i l u cl cu v f q row cg qg, nth_error subs g = Some row -> nth_error ch g = Some cg -> nth_error inj g = Some qg ->
        nth_error e i = Some (l, u) -> nth_error cg i = Some (cl, cu) -> nth_error dens i = Some v -> nth_error row i = Some f -> nth_error qg i = Some q ->
        0 < l + cl < u + cu /\ nth_error (fst t) i = Some ((l + cl) / mec2 c, (u + cu) / mec2 c) /\
        nth_error (snd t) i = Some (v * f * ((u - l) / ((u + cu) - (l + cl))) + q) /\ 0 <= v * f * ((u - l) / ((u + cu) - (l + cl))) + q.
Proof.
  intros H L1 L2 L3 L4. destruct (apply_time_eval_spec np Hnp c _ _ _ _ _ _ _ _ (v_mec _ Hv) H L1 L2 L3 L4) as (Lb' & Ln' & Lsg & Lrow & _ & _ & Hne).
  unfold apply_time_eval in H. apply bind_Ok in H as (xs & Hxs & H). apply bind_Ok in H as (ys & Hys & H).
  destruct (groups_detail c _ _ _ _ _ Hxs) as (Lx & Lch & Hd). destruct (inject_detail _ _ _ Hys) as (Ly & Linj & Hi).
  split; auto. split; [lia|]. exists ys. split; [lia|].
  assert (D : forall g t, nth_error ys g = Some t -> exists b1 d1 q row cg, nth_error xs g = Some (b1, d1) /\ nth_error inj g = Some q /\ nth_error subs g = Some row /\ nth_error ch g = Some cg /\
    t = (b1, map2 Rplus d1 q) /\ length b1 = length e /\ length d1 = length e /\ length q = length e).
  { intros g t Ht. destruct (nth_error_Some_ex xs g) as [[b1 d1] Hx]; [rewrite <- Ly; eapply nth_error_lt; eauto|].
    destruct (Hd _ _ _ Hx) as (row & cg & E1 & E2 & Lb & Ld & _). destruct (Hi _ _ _ Hx) as (q & E3 & E4 & _). rewrite Ht in E4. injection E4 as ->.
    exists b1, d1, q, row, cg. do 5 (split; auto).
    assert (length cg = length e) by (apply L3; eapply nth_error_In; eauto). split; auto.
    split; [apply Ld; auto; apply L2; eapply nth_error_In; eauto|]. apply L4; eapply nth_error_In; eauto. }
  split.
  - destruct ys as [|[b0 d0] rest]; [discriminate|]. apply bind_Ok in H as ([b2 ds] & H1 & H).
    assert (Eb : b2 = b /\ col_sum (length dens) (d0 :: ds) = n /\ map2 (new_row (col_sum (length dens) (d0 :: ds))) subs (d0 :: ds) = sg) by (split; [|split]; congruence). clear H. destruct Eb as (-> & En & Es).
    destruct (D 0%nat _ eq_refl) as (b1 & d1 & q & row & cg & _ & _ & _ & _ & E & Lb1 & Ld1 & Lq). assert (b0 = b1 /\ d0 = map2 Rplus d1 q) as [-> Ed0] by (split; congruence). clear E.
    assert (Ld0 : length d0 = length e) by (rewrite Ed0; apply map2_length_eq; auto).
    destruct (regrid_sound np b1 rest b ds H1) as (R1 & R2 & R3 & R4).
    { intros bb dd Hin. apply In_nth_error in Hin as [g Hg]. destruct (D (S g) _ Hg) as (b3 & d3 & q3 & _ & _ & _ & _ & _ & _ & E & A1 & A2 & A3). injection E as -> ->. split; [lia|]. rewrite Lb1. apply map2_length_eq; auto. }
    exists (b1, d0), rest, ds. split; auto. split; auto. split; [lia|]. split; [simpl in *; lia|]. split; [intros r Hr; rewrite Lb'; auto|].
    intros i Hi0. cbv zeta. cbn [snd].
    assert (Lr : forall r, In r (d0 :: ds) -> length r = length dens) by (intros r [<-|Hr]; [lia|rewrite (R4 _ Hr); lia]).
    assert (Ei : nth_error n i = Some (Rsum (map (fun p => nth i p 0) (d0 :: ds)))). { rewrite <- En. apply col_sum_nth; auto. lia. }
    split; [apply nth_of; auto|]. set (tot := Rsum _) in *. intros g Hg.
    destruct (nth_error_Some_ex subs g) as [rg Erg]; [simpl in *; lia|]. destruct (nth_error_Some_ex (d0 :: ds) g) as [pg Epg]; [simpl in *; lia|].
    assert (Esg : nth_error sg g = Some (new_row n rg pg)). { rewrite <- Es, nth_error_map2, Erg, Epg, En. auto. }
    destruct (nth_error_Some_ex rg i) as [o Eo]. { rewrite (L2 rg) by (eapply nth_error_In; eauto). lia. }
    destruct (nth_error_Some_ex pg i) as [w Ew]. { rewrite (Lr pg) by (eapply nth_error_In; eauto). lia. }
    assert (En2 : entry sg g i = if Reqb tot 0 then o else w / tot).
    { unfold entry. rewrite (nth_of _ _ _ _ Esg). apply nth_of. unfold new_row. rewrite nth_error_map2.
      assert (Ec : nth_error (combine rg pg) i = Some (o, w)).
      { clear - Eo Ew. revert rg pg Eo Ew. induction i as [|i IH]; intros [|a rg] [|b pg] Eo Ew; try discriminate; simpl in *; [injection Eo as ->; injection Ew as ->; auto|auto]. }
      rewrite Ec, Ei. auto. }
    unfold entry in *. rewrite (nth_of _ _ _ _ Epg), (nth_of _ _ _ _ Ew), (nth_of _ _ _ _ Erg), (nth_of _ _ _ _ Eo). rewrite En2.
    destruct (Reqb_spec tot 0); split; intros; try contradiction; auto.
  - intros g t Ht. destruct (D g t Ht) as (b1 & d1 & q & row & cg & Ex & Eq & Er & Ec & -> & Lb1 & Ld1 & Lq). simpl.
    split; auto. split; [apply map2_length_eq; auto|].
    intros i l u cl cu v f qi row0 cg0 qg Hr Hc Hq He Hcl Hvi Hf Hqi.
    rewrite Hr in Er. injection Er as <-. rewrite Hc in Ec. injection Ec as <-. rewrite Hq in Eq. injection Eq as <-.
    destruct (Hd _ _ _ Ex) as (row1 & cg1 & F1 & F2 & _ & _ & Hdet). rewrite Hr in F1. injection F1 as <-. rewrite Hc in F2. injection F2 as <-.
    destruct (Hdet i l u cl cu v f He Hcl Hvi Hf) as (P & B & Dd). split; auto. split; auto.
    assert (Ep : nth_error (map2 Rplus d1 qg) i = Some (v * f * ((u - l) / ((u + cu) - (l + cl))) + qi)). { rewrite nth_error_map2, Dd, Hqi. auto. }
    split; auto. destruct (Hi _ _ _ Ex) as (q1 & G1 & _ & G3). rewrite Hq in G1. injection G1 as <-. apply G3. eapply nth_error_In; eauto.
Qed.

(** injected densities *)
Lemma inj_rows s eng inj left0 t g row q i v f x : aligned c s -> choose_step c s = Ok (eng, inj, left0, t) -> (length (st_subs s) <= ngroups c)%nat -> nth_error (st_subs s) g = Some row ->
  nth_error inj g = Some q -> nth_error (st_dens s) i = Some v -> nth_error row i = Some f -> nth_error q i = Some x ->
  x = v * f * group_rate c (fun y => y) (st_rel s) g i + group_rate c (fun y => y) (st_abs s) g i.
Proof.
  intros Ha Hc Hle Hrow Hq Hvi Hf Hx.
  apply choose_step_Ok in Hc as (ken & krel & kabs & dr & step0 & H1 & H2 & H3 & He & Hdr & Hinj & _ & _).
  set (n := length (st_bins s)) in *. destruct (calc_shapes c s _ _ _ Ha H1 H2 H3) as (L1 & L2 & L3). fold n in L1, L2, L3.
  assert (Ldg : length (to_densities_grouped (st_dens s) (st_subs s)) = length (st_subs s)) by apply map_length.
  pose proof (rates_ok_len _ _ _ (al_rel c s Ha)) as Lrel. pose proof (rates_ok_len _ _ _ (al_abs c s Ha)) as Lab. fold n in Lrel, Lab.
  assert (Hi : (i < n)%nat). { unfold n. rewrite <- (al_dens _ _ Ha). eapply nth_error_lt; eauto. }
  assert (Hg0 : (g < length (st_subs s))%nat) by (eapply nth_error_lt; eauto).
  set (relg := sum_change_rates Rplus 0 n krel (subgroups c)) in *. set (absg := sum_change_rates Rplus 0 n kabs (subgroups c)) in *.
  assert (Lr : length relg = ngroups c) by (unfold relg; apply sum_change_rates_rows). assert (La : length absg = ngroups c) by (unfold absg; apply sum_change_rates_rows).
  destruct (nth_error_Some_ex relg g) as [rr Hrr]; [lia|]. destruct (nth_error_Some_ex absg g) as [ra Hra]; [lia|].
  destruct (nth_error_Some_ex rr i) as [r Hri]; [rewrite (L2 rr) by (eapply nth_error_In; eauto); auto|].
  destruct (nth_error_Some_ex ra i) as [a Hai]; [rewrite (L3 ra) by (eapply nth_error_In; eauto); auto|].
  rewrite <- (group_rate_rows c n _ _ _ _ _ _ H2 Lrel Hrr Hri Hi), <- (group_rate_rows c n _ _ _ _ _ _ H3 Lab Hra Hai Hi).
  assert (Edg : nth_error (to_densities_grouped (st_dens s) (st_subs s)) g = Some (map2 Rmult (st_dens s) row)). { unfold to_densities_grouped. rewrite nth_error_map, Hrow. auto. }
  assert (Edr : length dr = length relg /\ nth_error dr g = Some (map2 Rmult (map2 Rmult (st_dens s) row) rr)).
  { unfold bcast_rows in Hdr. destruct (Nat.eqb_spec (length (to_densities_grouped (st_dens s) (st_subs s))) (length relg)) as [El|Nl].
    - injection Hdr as <-. split; [apply map2_length_eq; auto|]. rewrite nth_error_map2, Edg, Hrr. auto.
    - destruct (to_densities_grouped (st_dens s) (st_subs s)) as [|d0 [|d1 dg]] eqn:Ed; [destruct g; discriminate| |].
      + injection Hdr as <-. split; [apply map_length|]. rewrite nth_error_map, Hrr. destruct g as [|g]; [|destruct g; discriminate]. simpl in Edg. injection Edg as ->. auto.
      + destruct relg as [|y0 [|? ?]]; try discriminate. simpl in Ldg, Lr. lia. }
  destruct Edr as [Ldr Edr]. unfold bcast_rows in Hinj. destruct (Nat.eqb_spec (length dr) (length absg)); [|lia]. injection Hinj as <-.
  rewrite nth_error_map2, Edr, Hra in Hq. injection Hq as <-. rewrite nth_error_map2, nth_error_map2, nth_error_map2, Hvi, Hf, Hri, Hai in Hx. injection Hx as <-. auto.
Qed.

(** one evaluation from a reached state: [rates] the energy rates of the groups *)
Lemma eval_moved s eng inj left0 t split rl ru (gr : list (list bin)) b n sg : aligned c s -> choose_step c s = Ok (eng, inj, left0, t) ->
  length split = length (st_subs s) -> (forall r, In r split -> length r = length (st_bins s)) -> length gr = ngroups c -> (forall r, In r gr -> length r = length (st_bins s)) ->
  (forall g row i x, nth_error gr g = Some row -> nth_error row i = Some x -> x = (rl g i, ru g i)) ->
  apply_time_eval np c (to_erg (mec2 c) (st_bins s)) (st_dens s) split (map (scale_bins t) gr) (map (scale t) inj) = Ok (b, n, sg) ->
  exists tables, length tables = length (st_subs s) /\ (forall g tb, nth_error tables g = Some tb -> group_moved c s split t rl ru g tb) /\ put_together np split tables b n sg.
Proof.
  intros Ha Hc Lsp Lspr Lgr Lgrr Hgr Hap. set (N := length (st_bins s)) in *. pose proof (v_mec _ Hv) as Hmec.
  pose proof (al_dens c s Ha) as Ld. fold N in Ld. destruct (al_subs c s Ha) as [_ Ls]. fold N in Ls.
  assert (LE : length (to_erg (mec2 c) (st_bins s)) = N) by (unfold to_erg; rewrite map_length; auto).
  destruct (choose_step_shapes c _ _ _ _ _ Ha Hc) as (_ & Linj & _). fold N in Linj.
  destruct (groups_eval _ _ _ _ _ _ _ _ Hap) as (K1 & K2 & tables & Lt & Hput & Hdet); rewrite ?LE; auto.
  { intros r Hr. apply in_map_iff in Hr as (r0 & <- & Hr). unfold scale_bins. rewrite map_length. auto. }
  { intros r Hr. apply in_map_iff in Hr as (r0 & <- & Hr). unfold scale. rewrite map_length. auto. }
  rewrite map_length in K1, K2. exists tables. split; [lia|]. split; auto.
  intros g tb Htb. destruct (Hdet g tb Htb) as (A1 & A2 & A3). rewrite LE in A1, A2. split; auto. split; auto.
  intros i l u Hb. cbv zeta. assert (Hi : (i < N)%nat) by (eapply nth_error_lt; eauto).
  assert (Hg : (g < length (st_subs s))%nat) by (rewrite <- Lsp, <- Lt; eapply nth_error_lt; eauto).
  destruct (nth_error_Some_ex split g) as [row Er]; [lia|]. destruct (nth_error_Some_ex (st_subs s) g) as [row0 Er0]; [lia|].
  destruct (nth_error_Some_ex gr g) as [cg Ec]; [lia|]. destruct (nth_error_Some_ex inj g) as [qg Eq]; [lia|].
  destruct (nth_error_Some_ex (st_dens s) i) as [v Ev]; [lia|].
  destruct (nth_error_Some_ex row i) as [f Ef]; [rewrite (Lspr row) by (eapply nth_error_In; eauto); auto|].
  destruct (nth_error_Some_ex row0 i) as [f0 Ef0]; [rewrite (Ls row0) by (eapply nth_error_In; eauto); auto|].
  destruct (nth_error_Some_ex cg i) as [x Ex]; [rewrite (Lgrr cg) by (eapply nth_error_In; eauto); auto|].
  destruct (nth_error_Some_ex qg i) as [q Eqi]; [rewrite (Linj qg) by (eapply nth_error_In; eauto); auto|].
  pose proof (Hgr _ _ _ _ Ec Ex) as ->.
  assert (Eq' : q = v * f0 * group_rate c (fun y => y) (st_rel s) g i + group_rate c (fun y => y) (st_abs s) g i).
  { apply (inj_rows s eng inj left0 t g row0 qg i v f0 q); auto. lia. }
  destruct (A3 i (l * mec2 c) (u * mec2 c) (rl g i * t) (ru g i * t) v f (q * t) row (scale_bins t cg) (scale t qg)) as (P & B & D & Nn); auto.
  { rewrite nth_error_map, Ec. auto. } { rewrite nth_error_map, Eq. auto. }
  { unfold to_erg. rewrite nth_error_map, Hb. auto. } { unfold scale_bins. rewrite nth_error_map, Ex. auto. } { unfold scale. rewrite nth_error_map, Eqi. auto. }
  unfold entry. rewrite (nth_of _ _ _ _ Er), (nth_of _ _ _ _ Ef), (nth_of _ _ _ _ Er0), (nth_of _ _ _ _ Ef0), (nth_of _ _ _ _ Ev).
  exists (v * f * ((u * mec2 c - l * mec2 c) / (u * mec2 c + ru g i * t - (l * mec2 c + rl g i * t))) + q * t).
  replace (l + rl g i * t / mec2 c) with ((l * mec2 c + rl g i * t) / mec2 c) by (field; lra).
  replace (u + ru g i * t / mec2 c) with ((u * mec2 c + ru g i * t) / mec2 c) by (field; lra).
  split; auto. split; auto. split. { assert (0 < / mec2 c) by (apply Rinv_0_lt_compat; auto). unfold Rdiv. split; [apply Rmult_lt_0_compat; lra|apply Rmult_lt_compat_r; lra]. }
  split; auto. rewrite <- Eq'. field. split; [lra|]. lra.
Qed.

(** stages 3 to 5 when there is nothing to do *)
Lemma kept_stage s s' b n sg d eng left0 t b' n' sg' m left' mask : all_pos (lbs b) -> length n = length b -> sg <> [] -> (forall r, In r sg -> length r = length b) ->
  stage345 np c b n sg d eng = Ok (b', n', sg', m) ->
  (if optimize c then
       exists l1, remap m (map (fun x => ext_sub x t) left0) (Some (Some 0)) = Ok l1 /\
        let l2 := map2 (fun x (bb : bin) => if Reqb (snd bb) 0 then Some 0 else x) l1 b' in
        mask = map (fun x => ext_ltb x t) l2 /\ left' = map2 (fun (m : bool) x => if m then Some 0 else x) mask l2
     else mask = map (fun _ => true) n' /\ left' = st_left s) ->
  st_bins s' = update_bin_ub b' mask -> st_dens s' = n' -> st_subs s' = sg' -> kept np c s' b n sg.
Proof.
  intros Pb Ln Hne Lr H345 Hmask Eb En Es Hb0 Hmt Hinc. unfold stage345, sort_and_merge_bins in H345. rewrite Hb0, Hmt in H345.
  rewrite sort_id in H345; auto.
  2: { intros i x y Hx Hy. apply (Hinc i). unfold lbs in Hx, Hy. split; rewrite nth_error_map; [rewrite Hx|rewrite Hy]; auto. }
  cbn [bind] in H345. change (map Z.of_nat (seq 0 (length b))) with (arange (length b)) in *. rewrite (remap_subgroups_arange _ _ Hne Lr) in H345. cbn [bind] in H345.
  assert (E : b' = b /\ n' = n /\ sg' = sg /\ m = arange (length b)) by (repeat split; congruence). destruct E as (-> & -> & -> & ->).
  split; [|split; congruence]. rewrite Eb. apply lbs_update.
  destruct (mask_length_step c s b n (arange (length b)) left0 t mask left') as [Lm _]; auto; unfold arange; rewrite ?map_length, ?seq_length; auto.
Qed.

Lemma rates_of_known (r : rates bin) k N : known r = Ok k -> (forall kv, In kv r -> length (snd kv) = N) ->
  (forall row, In row (sum_change_rates add_bin (0, 0) N k (subgroups c)) -> length row = N) ->
  forall g row i x, nth_error (sum_change_rates add_bin (0, 0) N k (subgroups c)) g = Some row -> nth_error row i = Some x -> x = (group_rate c fst r g i, group_rate c snd r g i).
Proof.
  intros Hk L Lr g row i x Hg Hx. apply (group_rate_edges c N r k g row i x); auto. rewrite <- (Lr row) by (eapply nth_error_In; eauto). eapply nth_error_lt; eauto.
Qed.

Lemma thm_groups ne d s d' s' : method c = Euler -> reached np c ne d s -> step np c s d = (d', Ok s') ->
  let dt := st_elapsed s' - st_elapsed s in
  exists tables b n split, length tables = length (st_subs s) /\
    (forall g t, nth_error tables g = Some t -> group_moved c s (st_subs s) dt (group_rate c fst (st_en s)) (group_rate c snd (st_en s)) g t) /\
    put_together np (st_subs s) tables b n split /\ update_distribution np b n = Ok d' /\ kept np c s' b n split /\ through np (cells b n split) d' /\
    settled np c (dist_eval np d') (group_rate c fst (st_en s) 0 0) (group_rate c fst (st_en s) 0 (length (st_bins s) - 1)) (cells b n split) (cells (st_bins s') (st_dens s') (st_subs s')).
Proof.
  intros Hm Hr Hst. cbv zeta. pose proof (reached_aligned np Hnp c Hv _ _ _ Hr) as Ha.
  pose proof (step_Ok np c s d d' s' Hst) as (eng & inj & left0 & t & b & n & sg & m & left' & mask & pen & pab & prel & Hc & Ht & Hmask & _ & _ & _ & Eb & En & Es & _ & Et & _).
  apply apply_time_changes_Ok in Ht as (b2 & n2 & s2 & dd & eng' & H12 & H345).
  apply stage12_Ok in H12 as (-> & Hu & H12). rewrite Hm in H12. destruct H12 as [Hap ->].
  replace (st_elapsed s' - st_elapsed s) with t by lra.
  destruct (choose_step_shapes c _ _ _ _ _ Ha Hc) as (Leng & Linj & Leg).
  pose proof (choose_step_Ok c s eng inj left0 t Hc) as (ken & krel & kabs & dr & step0 & Ken & Krel & Kabs & Eeng & _). cbv zeta in Eeng.
  destruct (al_subs c s Ha) as [Hsne Ls].
  destruct (eval_moved s eng inj left0 t (st_subs s) (group_rate c fst (st_en s)) (group_rate c snd (st_en s)) eng b2 n2 s2 Ha Hc eq_refl Ls Leg Leng) as (tables & Lt & Hmv & Hput); auto.
  { rewrite Eeng in *. apply rates_of_known; auto. apply rates_ok_len with (1 := al_en c s Ha). }
  exists tables, b2, n2, s2. split; auto. split; auto. split; auto. split; auto.
  destruct (apply_time_eval_spec np Hnp c _ _ _ _ _ _ _ _ (v_mec _ Hv) Hap) as (A1 & A2 & A3 & A4 & A5 & _).
  { unfold to_erg. rewrite map_length. apply Ha. } { unfold to_erg. rewrite map_length. auto. }
  { intros r Hin. apply in_map_iff in Hin as (r0 & <- & Hin). unfold scale_bins, to_erg. rewrite !map_length. auto. }
  { intros r Hin. apply in_map_iff in Hin as (r0 & <- & Hin). unfold scale, to_erg. rewrite !map_length. auto. }
  assert (Q1 : length n2 = length b2) by lia. assert (Q2 : s2 <> []). { intros ->. destruct (st_subs s); [congruence|discriminate]. }
  assert (Q3 : forall r, In r s2 -> length r = length b2). { intros r Hr0. rewrite (A4 r Hr0). lia. }
  split; [eapply (kept_stage s s' b2 n2 s2); eauto|]. split; [apply update_through; auto|].
  eapply (step_settled np Hnp c s s' b2 n2 s2 dd eng left0 t b n sg m left' mask (group_rate c fst (st_en s)) (group_rate c snd (st_en s))); eauto.
  rewrite Eeng in *. apply rates_of_known; auto. apply rates_ok_len with (1 := al_en c s Ha).
Qed.

Lemma thm_heun_groups ne d s d' s' : method c = Heun -> reached np c ne d s -> step np c s d = (d', Ok s') ->
  let dt := st_elapsed s' - st_elapsed s in
  exists tables1 b1 n1 split1 d1 en1 tables b n split,
    length tables1 = length (st_subs s) /\
    (forall g t, nth_error tables1 g = Some t -> group_moved c s (st_subs s) dt (group_rate c fst (st_en s)) (group_rate c snd (st_en s)) g t) /\
    put_together np (st_subs s) tables1 b1 n1 split1 /\ update_distribution np b1 n1 = Ok d1 /\
    energy_rates_at c d1 b1 n1 split1 en1 /\
    length tables = length (st_subs s) /\
    (forall g t, nth_error tables g = Some t -> group_moved c s split1 dt
      (fun g i => (group_rate c fst (st_en s) g i + group_rate c fst en1 g i) / 2) (fun g i => (group_rate c snd (st_en s) g i + group_rate c snd en1 g i) / 2) g t) /\
    put_together np split1 tables b n split /\ update_distribution np b n = Ok d' /\ kept np c s' b n split /\ through np (cells b n split) d' /\
    settled np c (dist_eval np d') ((group_rate c fst (st_en s) 0 0 + group_rate c fst en1 0 0) / 2) ((group_rate c fst (st_en s) 0 (length (st_bins s) - 1) + group_rate c fst en1 0 (length (st_bins s) - 1)) / 2) (cells b n split) (cells (st_bins s') (st_dens s') (st_subs s')).
Proof.
  intros Hm Hr Hst. cbv zeta. pose proof (reached_aligned np Hnp c Hv _ _ _ Hr) as Ha.
  pose proof (step_Ok np c s d d' s' Hst) as (eng & inj & left0 & t & b & n & sg & m & left' & mask & pen & pab & prel & Hc & Ht & Hmask & _ & _ & _ & Eb & En & Es & _ & Et & _).
  apply apply_time_changes_Ok in Ht as (b2 & n2 & s2 & dd & eng' & H12 & H345).
  apply stage12_Ok in H12 as (-> & Hu & H12). rewrite Hm in H12. destruct H12 as (b1 & n1 & s1 & d1 & en1 & ken1 & Hap1 & Hu1 & Hen1 & Hk1 & Eeng' & Hap2).
  replace (st_elapsed s' - st_elapsed s) with t by lra.
  destruct (choose_step_shapes c _ _ _ _ _ Ha Hc) as (Leng & Linj & Leg).
  pose proof (choose_step_Ok c s eng inj left0 t Hc) as (ken & krel & kabs & dr & step0 & Ken & Krel & Kabs & Eeng & _). cbv zeta in Eeng.
  destruct (al_subs c s Ha) as [Hsne Ls]. pose proof (rates_ok_len _ _ _ (al_en c s Ha)) as Len. set (N := length (st_bins s)) in *.
  assert (LE : length (to_erg (mec2 c) (st_bins s)) = N) by (unfold to_erg; rewrite map_length; auto).
  assert (G1 : forall g row i x, nth_error eng g = Some row -> nth_error row i = Some x -> x = (group_rate c fst (st_en s) g i, group_rate c snd (st_en s) g i)).
  { rewrite Eeng in *. apply rates_of_known; auto. }
  destruct (eval_moved s eng inj left0 t (st_subs s) (group_rate c fst (st_en s)) (group_rate c snd (st_en s)) eng b1 n1 s1 Ha Hc eq_refl Ls Leg Leng G1 Hap1) as (tables1 & Lt1 & Hmv1 & Hput1).
  assert (S1 : forall l (q : list (list bin)), (forall r, In r q -> length r = N) -> forall r, In r (map (scale_bins l) q) -> length r = length (to_erg (mec2 c) (st_bins s))).
  { intros l q Hq r Hin. apply in_map_iff in Hin as (r0 & <- & Hin). unfold scale_bins. rewrite map_length, LE. auto. }
  assert (S2 : forall r, In r (map (scale t) inj) -> length r = length (to_erg (mec2 c) (st_bins s))).
  { intros r Hin. apply in_map_iff in Hin as (r0 & <- & Hin). unfold scale. rewrite map_length, LE. auto. }
  destruct (apply_time_eval_spec np Hnp c _ _ _ _ _ _ _ _ (v_mec _ Hv) Hap1) as (B1 & B2 & B3 & B4 & _).
  { rewrite LE. apply Ha. } { rewrite LE. auto. } { apply S1. auto. } { auto. }
  rewrite LE in B1, B2. assert (B4' : forall r, In r s1 -> length r = N) by (intros; rewrite <- LE; auto).
  assert (F1 : fresh_rates shape2 (en_fns c) d1 b1 n1 s1 en1).
  { eapply recalc_fresh; [left; reflexivity| | | |exact Hen1]; [lia| |]. { intros ->. destruct (st_subs s); [congruence|discriminate]. } intros r0 Hr0. rewrite (B4' _ Hr0). auto. }
  destruct (fresh_rates_ok _ _ _ _ _ _ _ F1) as [Ok1 _]. pose proof (rates_ok_len _ _ _ Ok1) as Len1. rewrite B1 in Len1, Eeng'.
  set (gr1 := sum_change_rates add_bin (0, 0) N ken1 (subgroups c)) in *.
  assert (Lg1 : forall r, In r gr1 -> length r = N). { unfold gr1. eapply sum_change_rates_length; eauto. rewrite <- B1. exact Ok1. }
  assert (Ln1 : length gr1 = ngroups c) by (unfold gr1; apply sum_change_rates_rows).
  assert (G2 : forall g row i x, nth_error gr1 g = Some row -> nth_error row i = Some x -> x = (group_rate c fst en1 g i, group_rate c snd en1 g i)).
  { unfold gr1. apply rates_of_known; auto. }
  assert (Lav : forall r, In r eng' -> length r = N). { intros r Hin. rewrite Eeng' in Hin. apply In_map2 in Hin as (x & y & Hx & Hy & ->). apply map2_length_eq; auto. }
  assert (G3 : forall g row i x, nth_error eng' g = Some row -> nth_error row i = Some x -> x = ((group_rate c fst (st_en s) g i + group_rate c fst en1 g i) / 2, (group_rate c snd (st_en s) g i + group_rate c snd en1 g i) / 2)).
  { intros g row i x Hg Hx. rewrite Eeng', nth_error_map2 in Hg. destruct (nth_error eng g) as [r1|] eqn:E1; [|discriminate]. destruct (nth_error gr1 g) as [r2|] eqn:E2; [|discriminate]. injection Hg as <-.
    rewrite nth_error_map2 in Hx. destruct (nth_error r1 i) as [x1|] eqn:E3; [|discriminate]. destruct (nth_error r2 i) as [x2|] eqn:E4; [|discriminate]. injection Hx as <-.
    rewrite (G1 _ _ _ _ E1 E3), (G2 _ _ _ _ E2 E4). reflexivity. }
  destruct (eval_moved s eng inj left0 t s1 (fun g i => (group_rate c fst (st_en s) g i + group_rate c fst en1 g i) / 2) (fun g i => (group_rate c snd (st_en s) g i + group_rate c snd en1 g i) / 2)
     eng' b2 n2 s2 Ha Hc B3 B4') as (tables2 & Lt2 & Hmv2 & Hput2); auto.
  { rewrite Eeng'. rewrite map2_length_eq with (n := ngroups c); auto. }
  exists tables1, b1, n1, s1, d1, en1, tables2, b2, n2, s2. do 4 (split; auto). split.
  { unfold energy_rates_at. eapply Forall2_impl; [|exact F1]. intros kf kv (E & vals & Ekv & out & Ho & Hun & Lv). split; auto. simpl in Ho, Hun. rewrite interlace_flat_map in Ho.
    exists out. split; auto. destruct (pairs_nth2 _ _ Hun) as [L1 H2]. rewrite Lv in L1. split; auto. split; [rewrite Ekv, map_length; auto|].
    intros i Hi. destruct (H2 i) as (x & y & A & B & C0); [lia|]. exists x, y. split; auto. split; auto. rewrite Ekv, nth_error_map, C0. auto. }
  do 4 (split; auto).
  destruct (apply_time_eval_spec np Hnp c _ _ _ _ _ _ _ _ (v_mec _ Hv) Hap2) as (A1 & A2 & A3 & A4 & A5 & _).
  { rewrite LE. apply Ha. } { rewrite LE. auto. } { apply S1. auto. } { auto. }
  assert (Q1 : length n2 = length b2) by lia. assert (Q2 : s2 <> []). { intros ->. destruct s1; [destruct (st_subs s); [congruence|discriminate]|discriminate]. }
  assert (Q3 : forall r, In r s2 -> length r = length b2). { intros r Hr0. rewrite (A4 r Hr0). lia. }
  split; [eapply (kept_stage s s' b2 n2 s2); eauto|]. split; [apply update_through; auto|].
  eapply (step_settled np Hnp c s s' b2 n2 s2 dd eng' left0 t b n sg m left' mask (fun g i => (group_rate c fst (st_en s) g i + group_rate c fst en1 g i) / 2) (fun g i => (group_rate c snd (st_en s) g i + group_rate c snd en1 g i) / 2)); eauto.
Qed.
(** ** steps that are accepted *)
Lemma recalc_fwd e dens subs ch : (forall g row, nth_error subs g = Some row -> exists cg, nth_error ch g = Some cg /\
    forall i l u cl cu, nth_error e i = Some (l, u) -> nth_error cg i = Some (cl, cu) -> 0 < l + cl < u + cu) ->
  exists xs, recalc_groups c e dens subs ch = Ok xs.
Proof.
  revert ch. induction subs as [|row subs IH]; intros ch H; simpl; [eauto|].
  destruct (H 0%nat row eq_refl) as (cg & Ec & Hc). destruct ch as [|c0 ch]; [discriminate|]. simpl in Ec. injection Ec as ->.
  destruct (IH ch) as [xs Hxs]. { intros g r Hg. apply (H (S g) r Hg). }
  unfold recalc_gamma_bins_and_density, recalc_energy_bins_and_density_increase.
  assert (Hnew : forall x, In x (map2 (fun (b c : bin) => (fst b + fst c, snd b + snd c)) e cg) -> 0 < fst x < snd x).
  { intros x Hx. apply In_nth_error in Hx as [i Hi]. rewrite nth_error_map2 in Hi. destruct (nth_error e i) as [[l u]|] eqn:E1; [|discriminate]. destruct (nth_error cg i) as [[cl cu]|] eqn:E2; [|discriminate].
    injection Hi as <-. simpl. eapply Hc; eauto. }
  set (new := map2 _ e cg) in *.
  assert (X : forall p : bin -> bool, (forall x, 0 < fst x < snd x -> p x = false) -> existsb p new = false).
  { intros p Hp. apply not_true_iff_false. intros E. apply existsb_exists in E as (x & Hx & E). rewrite Hp in E; [discriminate|auto]. }
  rewrite X. 2: { intros x Hx. rewrite (proj2 (Rleb_false (fst x) 0)), (proj2 (Rleb_false (snd x) 0)) by lra. auto. }
  rewrite X. 2: { intros x Hx. apply Rltb_false. lra. }
  rewrite X. 2: { intros x Hx. apply Reqb_false. lra. }
  cbn [bind]. rewrite Hxs. cbn [bind]. eauto.
Qed.
Lemma inject_fwd xs inj : (forall g b d, nth_error xs g = Some (b, d) -> exists q, nth_error inj g = Some q /\ forall v, In v (map2 Rplus d q) -> 0 <= v) ->
  exists ys, inject_groups xs inj = Ok ys.
Proof.
  revert inj. induction xs as [|[b d] xs IH]; intros inj H; simpl; [eauto|].
  destruct (H 0%nat b d eq_refl) as (q & Eq & Hq). destruct inj as [|q0 inj]; [discriminate|]. simpl in Eq. injection Eq as ->.
  destruct (IH inj) as [ys Hys]. { intros g b0 d0 Hg. apply (H (S g) b0 d0 Hg). }
  assert (E : existsb (fun v => Rltb v 0) (map2 Rplus d q) = false).
  { apply not_true_iff_false. intros E. apply existsb_exists in E as (v & Hv0 & E). apply Rltb_true in E. apply Hq in Hv0. lra. }
  rewrite E, Hys. cbn [bind]. eauto.
Qed.
Lemma regrid_fwd t0 ts : (forall t, In t ts -> length (fst t) = length (fst t0) /\ length (snd t) = length (fst t0)) -> can_join np t0 ts ->
  exists r, regrid_groups np (fst t0) ts = Ok r.
Proof.
  assert (Z : forall (t : list bin * list R), (forall v, In v (snd t) -> v = 0) -> forallb (fun v => Reqb v 0) (snd t) = true). { intros t H. apply forallb_zero. auto. }
  intros L [H|H].
  - revert L H. induction ts as [|[b d] ts IH]; intros L H; cbn [regrid_groups]; [eauto|].
    destruct IH as [[g ds] E]. { intros t Ht. apply L. simpl; auto. } { intros t Ht. apply H. simpl; auto. }
    assert (C : (forallb (fun v => Reqb v 0) d || forallb (fun x => x) (map2 bin_eqb b (fst t0)))%bool = true).
    { apply orb_true_iff. destruct (H (b, d)) as [X|X]; [simpl; auto|left; apply (Z (b, d)); auto|]. right. apply forallb_bins; auto. destruct (L (b, d)); simpl in *; auto. }
    rewrite C, E. cbn [bind]. eauto.
  - generalize (fst t0) at 1. intros g. assert (L' : forall t, In t ts -> length (fst t) = length (snd t)). { intros t Ht. destruct (L t Ht). lia. } clear L. revert g L' H.
    induction ts as [|[b d] ts IH]; intros g L H; cbn [regrid_groups]; [eauto|].
    assert (IH' : forall g, exists r, regrid_groups np g ts = Ok r). { intros g0. apply IH. { intros t Ht. apply L. simpl; auto. } intros t Ht. apply H. simpl; auto. }
    destruct (forallb (fun v => Reqb v 0) d || forallb (fun x => x) (map2 bin_eqb b g))%bool eqn:C. { destruct (IH' g) as [[g' ds] E]. rewrite E. cbn [bind]. eauto. }
    apply orb_false_iff in C as [C _]. destruct (H (b, d)) as [X|[X1 X2]]; [simpl; auto|pose proof (Z (b, d) X) as Zx; cbn [snd] in Zx; congruence|].
    assert (Lbd : length (lbs b) = length d). { rewrite lbs_length. apply (L (b, d)). simpl; auto. }
    destruct (select_points (lbs b) d Lbd) as [P1 P2]. change (lbs b) with (map fst b) in P1 at 2, P2.
    change (filter (fun p => negb (Reqb (snd p) 0)) (combine (map fst b) d)) with (points (b, d)) in *.
    unfold interpolated. rewrite P1, P2. rewrite map_length. destruct (Nat.ltb_spec (length (points (b, d))) 2); [lia|]. rewrite map_map.
    rewrite (proj2 (strict_increasing (map (fun x => lg np (fst x)) (points (b, d))))) by auto. cbn [bind]. unfold dist_call. 
    destruct (IH' (map2 (fun x (y : bin) => (x, snd y)) (correct_bounds (list_min (map fst (points (b, d)))) (list_max (map fst (points (b, d)))) (lbs g)) g)) as [[g' ds] E]. rewrite E. cbn [bind]. eauto.
Qed.

Lemma thm_accepts ne d s eng inj left0 t t0 ts : method c = Euler -> reached np c ne d s -> choose_step c s = Ok (eng, inj, left0, t) ->
  length (t0 :: ts) = length (st_subs s) -> (length (st_subs s) <= match subgroups c with None => 1 | Some gs => length gs end)%nat ->
  (forall g tb, nth_error (t0 :: ts) g = Some tb -> group_moved c s (st_subs s) t (group_rate c fst (st_en s)) (group_rate c snd (st_en s)) g tb) ->
  can_join np t0 ts ->
  exists b n split, put_together np (st_subs s) (t0 :: ts) b n split /\ forall d', update_distribution np b n = Ok d' -> fst (step np c s d) = d'.
Proof.
  intros Hm Hr Hc Lt LG Hmv Hj. pose proof (reached_aligned np Hnp c Hv _ _ _ Hr) as Ha. set (N := length (st_bins s)) in *. pose proof (v_mec _ Hv) as Hmec.
  pose proof (al_dens c s Ha) as Ld. fold N in Ld. destruct (al_subs c s Ha) as [Hsne Ls]. fold N in Ls.
  assert (LE : length (to_erg (mec2 c) (st_bins s)) = N) by (unfold to_erg; rewrite map_length; auto).
  destruct (choose_step_shapes c _ _ _ _ _ Ha Hc) as (Leng & Linj & Leg). fold N in Leng, Linj.
  pose proof (choose_step_Ok c s eng inj left0 t Hc) as (ken & krel & kabs & dr & step0 & Ken & Krel & Kabs & Eeng & Hdr & Hinj & _). cbv zeta in Eeng.
  assert (G1 : forall g row i x, nth_error eng g = Some row -> nth_error row i = Some x -> x = (group_rate c fst (st_en s) g i, group_rate c snd (st_en s) g i)).
  { rewrite Eeng in *. apply rates_of_known; auto. apply rates_ok_len with (1 := al_en c s Ha). }
  change (length (st_subs s) <= ngroups c)%nat in LG.
  assert (LI : (length (st_subs s) <= length inj)%nat).
  { destruct (calc_shapes c s _ _ _ Ha Ken Krel Kabs) as (K1 & K2 & K3). fold N in K1, K2, K3.
    cbv zeta in Hdr, Hinj. fold N in Hdr, Hinj.
    set (relg := sum_change_rates Rplus 0 N krel (subgroups c)) in *. set (absg := sum_change_rates Rplus 0 N kabs (subgroups c)) in *.
    assert (Lr : length relg = ngroups c) by (unfold relg; apply sum_change_rates_rows). assert (La : length absg = ngroups c) by (unfold absg; apply sum_change_rates_rows).
    assert (B : forall (f : list R -> list R -> list R) m k r, bcast_rows f m k = Ok r -> (length m <= length r)%nat \/ (length k < length m)%nat).
    { intros f m k r H. unfold bcast_rows in H. destruct (Nat.eqb_spec (length m) (length k)). { injection H as <-. left. rewrite map2_length. lia. }
      destruct m as [|x [|y m]]. { left; simpl; lia. } { injection H as <-. rewrite map_length. destruct k; simpl; [right|left]; lia. }
      destruct k as [|z [|w k]]; try discriminate. right. simpl. lia. }
    assert (B2 : forall (f : list R -> list R -> list R) m k r, bcast_rows f m k = Ok r -> (length m <= length k)%nat -> (length r <= length k)%nat).
    { intros f m k r H Hle. unfold bcast_rows in H. destruct (Nat.eqb_spec (length m) (length k)). { injection H as <-. rewrite map2_length. lia. }
      destruct m as [|x [|y m]]. { destruct k as [|z [|w k]]; try discriminate. injection H as <-. simpl. lia. } { injection H as <-. rewrite map_length. lia. }
      destruct k as [|z [|w k]]; try discriminate. simpl in *. lia. }
    assert (Ldg : length (to_densities_grouped (st_dens s) (st_subs s)) = length (st_subs s)) by apply map_length.
    pose proof (B _ _ _ _ Hdr). pose proof (B2 _ _ _ _ Hdr). pose proof (B _ _ _ _ Hinj). lia. }
  set (E := to_erg (mec2 c) (st_bins s)) in *.
  assert (CH : forall g row, nth_error (st_subs s) g = Some row -> exists cg, nth_error eng g = Some cg /\ length cg = N).
  { intros g row Hg. assert (Hlt := nth_error_lt _ _ _ Hg). destruct (nth_error_Some_ex eng g) as [cg Hcg]; [lia|]. exists cg. split; auto. apply Leng. eapply nth_error_In; eauto. }
  assert (EE : forall i l u, nth_error E i = Some (l, u) -> exists l0 u0, nth_error (st_bins s) i = Some (l0, u0) /\ l = l0 * mec2 c /\ u = u0 * mec2 c).
  { intros i l u H. unfold E, to_erg in H. rewrite nth_error_map in H. destruct (nth_error (st_bins s) i) as [[l0 u0]|]; [|discriminate]. simpl in H. exists l0, u0. split; auto. split; congruence. }
  assert (TB : forall g row, nth_error (st_subs s) g = Some row -> exists tb, nth_error (t0 :: ts) g = Some tb). { intros g row Hg. apply nth_error_Some_ex. rewrite Lt. eapply nth_error_lt; eauto. }
  assert (IM : 0 < / mec2 c) by (apply Rinv_0_lt_compat; auto).
  assert (EQ : forall a b, a + b / mec2 c = (a * mec2 c + b) / mec2 c) by (intros; field; lra).
  destruct (recalc_fwd E (st_dens s) (st_subs s) (map (scale_bins t) eng)) as [xs Hxs].
  { intros g row Hg. destruct (CH g row Hg) as (cg & Ecg & Lcg). exists (scale_bins t cg). split; [rewrite nth_error_map, Ecg; auto|].
    intros i l u cl cu Hi Hc0. destruct (EE i l u Hi) as (l0 & u0 & Hb & -> & ->). unfold scale_bins in Hc0. rewrite nth_error_map in Hc0. destruct (nth_error cg i) as [x|] eqn:Ex; [|discriminate].
    pose proof (G1 _ _ _ _ Ecg Ex) as ->. simpl in Hc0. destruct (TB g row Hg) as [tb Htb]. destruct (Hmv g tb Htb) as (_ & _ & H). destruct (H i l0 u0 Hb) as (v' & _ & _ & (P1 & P2) & _).
    rewrite !EQ in P1. rewrite !EQ in P2. assert (cl = group_rate c fst (st_en s) g i * t) by congruence. assert (cu = group_rate c snd (st_en s) g i * t) by congruence. subst cl cu.
    unfold Rdiv in P1, P2. split; [apply (Rmult_lt_reg_r (/ mec2 c)); lra|apply (Rmult_lt_reg_r (/ mec2 c)); lra]. }
  destruct (groups_detail c _ _ _ _ _ Hxs) as (Lx & _ & Hd).
  assert (Key : forall g b d0, nth_error xs g = Some (b, d0) -> exists q, nth_error (map (scale t) inj) g = Some q /\ nth_error (t0 :: ts) g = Some (b, map2 Rplus d0 q) /\ forall v, In v (map2 Rplus d0 q) -> 0 <= v).
  { intros g b d0 Hx. destruct (Hd g b d0 Hx) as (row & cg & Erow & Ecg & Lb & Ld0 & Hval).
    destruct (CH g row Erow) as (cg0 & Ecg0 & Lcg0). rewrite nth_error_map, Ecg0 in Ecg. assert (cg = scale_bins t cg0) by (simpl in Ecg; congruence). subst cg. clear Ecg.
    assert (Lrow : length row = N) by (apply Ls; eapply nth_error_In; eauto).
    assert (Lsc : length (scale_bins t cg0) = length E) by (unfold scale_bins; rewrite map_length; lia).
    specialize (Lb Lsc). specialize (Ld0 Lsc ltac:(lia) ltac:(lia)).
    destruct (nth_error_Some_ex inj g) as [q0 Eq0]. { assert (T := nth_error_lt _ _ _ Erow). lia. }
    assert (Lq0 : length q0 = N) by (apply Linj; eapply nth_error_In; eauto).
    exists (scale t q0). split; [rewrite nth_error_map, Eq0; auto|]. destruct (TB g row Erow) as [tb Htb]. destruct (Hmv g tb Htb) as (T1 & T2 & H). fold N in T1, T2.
    assert (Each : forall i, (i < N)%nat -> nth_error (fst tb) i = nth_error b i /\ exists v', nth_error (snd tb) i = Some v' /\ 0 <= v' /\ nth_error (map2 Rplus d0 (scale t q0)) i = Some v').
    { intros i Hi. destruct (nth_error_Some_ex (st_bins s) i) as [[l u] Hb]; [auto|]. destruct (H i l u Hb) as (v' & B1 & B2 & P & Nn & Eqn).
      destruct (nth_error_Some_ex cg0 i) as [x Ex]; [lia|]. pose proof (G1 _ _ _ _ Ecg0 Ex) as ->.
      destruct (nth_error_Some_ex (st_dens s) i) as [v Ev]; [lia|]. destruct (nth_error_Some_ex row i) as [f Ef]; [lia|]. destruct (nth_error_Some_ex q0 i) as [q Eqi]; [lia|].
      assert (Eq' : q = v * f * group_rate c (fun y => y) (st_rel s) g i + group_rate c (fun y => y) (st_abs s) g i).
      { apply (inj_rows s eng inj left0 t g row q0 i v f q); auto. }
      destruct (Hval i (l * mec2 c) (u * mec2 c) (group_rate c fst (st_en s) g i * t) (group_rate c snd (st_en s) g i * t) v f) as (Q1 & Q2 & Q3); auto.
      { unfold E, to_erg. rewrite nth_error_map, Hb. auto. } { unfold scale_bins. rewrite nth_error_map, Ex. auto. }
      unfold entry in Eqn. rewrite (nth_of _ _ _ _ Erow), (nth_of _ _ _ _ Ef), (nth_of _ _ _ _ Ev), <- Eq' in Eqn.
      rewrite !EQ in B1, Eqn, P. split; [rewrite B1, Q2; auto|]. exists v'. split; auto. split; auto.
      rewrite nth_error_map2, Q3. unfold scale. rewrite nth_error_map, Eqi. simpl. f_equal.
      set (a := l * mec2 c + group_rate c fst (st_en s) g i * t) in *. set (z := u * mec2 c + group_rate c snd (st_en s) g i * t) in *.
      apply (Rmult_eq_reg_r (z / mec2 c - a / mec2 c)); [|lra]. rewrite Eqn. field. split; lra. }
    assert (E1 : fst tb = b). { apply nth_error_ext; [lia|]. intros i x y Hx0 Hy0. destruct (Each i) as [X _]. { rewrite <- T1. eapply nth_error_lt; eauto. } congruence. }
    assert (E2 : snd tb = map2 Rplus d0 (scale t q0)). { apply nth_error_ext; [rewrite map2_length; unfold scale; rewrite map_length; lia|]. intros i x y Hx0 Hy0. destruct (Each i) as (_ & v' & X1 & _ & X2). { rewrite <- T2. eapply nth_error_lt; eauto. } congruence. }
    split. { rewrite Htb. destruct tb. simpl in E1, E2. congruence. }
    intros v Hin. apply In_nth_error in Hin as [i Hi]. destruct (Each i) as (_ & v' & _ & X2 & X3). { rewrite <- T2, E2. eapply nth_error_lt; eauto. } assert (v = v') by congruence. lra. }
  destruct (inject_fwd xs (map (scale t) inj)) as [ys Hys]. { intros g b d0 Hx. destruct (Key g b d0 Hx) as (q & A & _ & B). eauto. }
  destruct (inject_detail _ _ _ Hys) as (Ly & _ & Hi).
  assert (EY : ys = t0 :: ts).
  { apply nth_error_ext; [lia|]. intros g y z Hy Hz. destruct (nth_error_Some_ex xs g) as [[b d0] Hx]; [rewrite <- Ly; eapply nth_error_lt; eauto|].
    destruct (Key g b d0 Hx) as (q & A & B & _). destruct (Hi g b d0 Hx) as (q' & A' & B' & _). rewrite A in A'. injection A' as <-. congruence. }
  destruct (regrid_fwd t0 ts) as [[g' ds] Hrg]; auto. { intros tb Hin. apply In_nth_error in Hin as [g Hg]. destruct (Hmv (S g) tb Hg) as (T1 & T2 & _). destruct (Hmv 0%nat t0 eq_refl) as (T3 & _). lia. }
  assert (Hap : exists b n sg, apply_time_eval np c E (st_dens s) (st_subs s) (map (scale_bins t) eng) (map (scale t) inj) = Ok (b, n, sg)).
  { unfold apply_time_eval. rewrite Hxs. cbn [bind]. rewrite Hys, EY. cbn [bind]. destruct t0 as [b0 d0]. simpl fst in Hrg. rewrite Hrg. cbn [bind]. eauto. }
  destruct Hap as (b & n & sg & Hap).
  destruct (eval_moved s eng inj left0 t (st_subs s) (group_rate c fst (st_en s)) (group_rate c snd (st_en s)) eng b n sg Ha Hc eq_refl Ls Leg Leng G1 Hap) as (tables & Ltb & Hmv' & Hput).
  assert (ET : tables = t0 :: ts).
  { apply nth_error_ext; [lia|]. intros g y z Hy Hz. destruct (Hmv' g y Hy) as (T1 & T2 & H1). destruct (Hmv g z Hz) as (U1 & U2 & H2). fold N in T1, T2, U1, U2.
    assert (Each : forall i, (i < N)%nat -> nth_error (fst y) i = nth_error (fst z) i /\ nth_error (snd y) i = nth_error (snd z) i).
    { intros i Hlt. destruct (nth_error_Some_ex (st_bins s) i) as [[l u] Hb]; [auto|]. destruct (H1 i l u Hb) as (v1 & A1 & A2 & P & _ & E1). destruct (H2 i l u Hb) as (v2 & B1 & B2 & _ & _ & E2).
      split; [congruence|]. rewrite A2, B2. f_equal. eapply Rmult_eq_reg_r; [rewrite E1; symmetry; exact E2|]. lra. }
    destruct y as [y1 y2], z as [z1 z2]; cbn [fst snd] in *. f_equal.
    - apply nth_error_ext; [lia|]. intros i p q Hp Hq. destruct (Each i) as [X _]. { rewrite <- T1. eapply nth_error_lt; eauto. } congruence.
    - apply nth_error_ext; [lia|]. intros i p q Hp Hq. destruct (Each i) as [_ X]. { rewrite <- T2. eapply nth_error_lt; eauto. } congruence. }
  rewrite ET in Hput. exists b, n, sg. split; auto. intros d' Hu.
  assert (S12 : stage12 np c E (st_dens s) (st_subs s) eng inj t d = (d', Ok (b, n, sg, d', eng))).
  { unfold stage12. unfold bindS at 1, lift at 1. rewrite Hap. unfold set_distribution. unfold bindS at 1. unfold bindS at 1, lift at 1. rewrite Hu. rewrite Hm. reflexivity. }
  unfold step, apply_time_changes, bindS, lift, get, ret. rewrite Hc. fold E. rewrite S12.
  destruct (stage345 np c b n sg d' eng) as [[[[b5 n5] s5] m5]|]; [|reflexivity].
  destruct (if optimize c then _ else _) as [[left' mask]|]; [|reflexivity].
  repeat match goal with |- fst (match ?x with Ok _ => _ | Err _ => _ end) = _ => destruct x; [|reflexivity] end. reflexivity.
Qed.
End Groups.
