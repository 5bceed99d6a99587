(** C101: runs tend to the solution of the kinetic equation as the steps get shorter. *)
From Coquelicot Require Import Coquelicot.
From Verif Require Import Base MathUtils Conversion Spectra Blob Synchrotron Losses Props_Blob.
From Verif Require Import TEUtils TimeEvolution ListFacts TEIndexFacts TEStageFacts TEStepFacts TELoopFacts TEInv TEForward TEZero Spec_TE NumpyInst TEShift TEExamples Spec_Move TEMove Props_Move.
From Verif Require Import Spec_Kinetic KineticFacts KineticGrid.
Open Scope R_scope.

(** along a track the kinetic equation is an equation for N(s) = n(s, G(s)) *)
Theorem C101_along E E' r q m T n g G : m <> 0 -> solves_kinetic E E' r q m T n -> track E m T g G ->
  along E E' r q m T G (n 0 g) (fun s => n s (G s)).
Proof.
  intros Hm Hn (G0 & HG). split; [rewrite G0; auto|]. intros s Hs. destruct (HG s Hs) as [Gp Gd]. destruct (Hn s (G s) Hs Gp) as (ns & ng & Hd & Eq).
  apply is_derive_Reals. replace (n s (G s) * (r (G s) - E' (G s) / m) + q (G s)) with (ns * 1 + ng * (E (G s) / m)).
  - apply (derivable_pt_lim_comp_2d n (fun s => s) G); auto; [apply derivable_pt_lim_id|apply is_derive_Reals; auto].
  - replace (n s (G s) * (r (G s) - E' (G s) / m) + q (G s)) with (n s (G s) * r (G s) + q (G s) - n s (G s) * E' (G s) / m) by (field; auto). rewrite <- Eq. field. auto.
Qed.
Print Assumptions C101_along.

Lemma range_of (G : nat -> R -> R) T (gs : list R) : 0 <= T -> (forall i g s, nth_error gs i = Some g -> 0 <= s <= T -> 0 < G i s /\ continuity_pt (G i) s) ->
  exists lo hi, 0 < lo /\ lo <= hi /\ forall i g s, nth_error gs i = Some g -> 0 <= s <= T -> lo <= G i s <= hi.
Proof.
  intros HT. revert G. induction gs as [|g gs IH]; intros G H.
  - exists 1, 1. split; [lra|]. split; [lra|]. intros [|i]; discriminate.
  - destruct (IH (fun i => G (S i)) (fun i => H (S i))) as (lo & hi & H1 & H2 & H3).
    assert (H0 : forall s, 0 <= s <= T -> 0 < G O s /\ continuity_pt (G O) s) by (intros s Hs; apply (H O g); auto).
    destruct (continuity_ab_min (G O) 0 T HT (fun s Hs => proj2 (H0 s Hs))) as (x & Hx & Ix). destruct (continuity_ab_maj (G O) 0 T HT (fun s Hs => proj2 (H0 s Hs))) as (y & Hy & Iy).
    exists (Rmin lo (G O x)), (Rmax hi (G O y)). pose proof (Rmin_l lo (G O x)). pose proof (Rmin_r lo (G O x)). pose proof (Rmax_l hi (G O y)). pose proof (Rmax_r hi (G O y)).
    split; [apply Rmin_glb_lt; auto; apply H0; auto|]. split; [lra|]. intros [|i] g' s Hi Hs; [specialize (Hx s Hs); specialize (Hy s Hs); lra|specialize (H3 i g' s Hi Hs); lra].
Qed.
Lemma choose_each {A B} (l : list A) (dflt : B) : forall (P : nat -> A -> B -> Prop), (forall i x, nth_error l i = Some x -> exists f, P i x f) -> exists F, forall i x, nth_error l i = Some x -> P i x (F i).
Proof.
  induction l as [|x l IH]; intros P H.
  - exists (fun _ => dflt). intros [|i]; discriminate.
  - destruct (IH (fun i => P (S i)) (fun i => H (S i))) as (F & HF). destruct (H O x eq_refl) as (f & Hf).
    exists (fun i => match i with O => f | S i => F i end). intros [|i] y Hy; [injection Hy as <-; auto|auto].
Qed.
Lemma combine_split_nth (gs ns : list R) i g v : nth_error (combine gs ns) i = Some (g, v) <-> nth_error gs i = Some g /\ nth_error ns i = Some v.
Proof.
  revert ns i. induction gs as [|a l IH]; intros [|b ns] [|i]; simpl; try (split; [discriminate|intros [? ?]; discriminate]); [split; [intros H; injection H as -> ->; auto|intros [H1 H2]; congruence]|apply IH].
Qed.
Lemma combine_fst (gs ns : list R) : length ns = length gs -> map fst (combine gs ns) = gs.
Proof. revert ns. induction gs as [|g l IH]; intros [|v ns] Ln; try discriminate; auto. simpl. f_equal. apply IH. simpl in Ln. congruence. Qed.
Lemma combine_snd (gs ns : list R) : length ns = length gs -> map snd (combine gs ns) = ns.
Proof. revert ns. induction gs as [|g l IH]; intros [|v ns] Ln; try discriminate; auto. simpl. f_equal. apply IH. simpl in Ln. congruence. Qed.
Lemma filter_map_comm {A B} (f : B -> bool) (h : A -> B) l : length (filter f (map h l)) = length (filter (fun x => f (h x)) l).
Proof. induction l as [|x l IH]; simpl; auto. destruct (f (h x)); simpl; auto. Qed.

Theorem C101_converges np T m ens rels abss gs me ne ns E' (G N D : nat -> R -> R) eps : numpy_ok np -> (forall x y, 0 < x -> x < y -> lg np x < lg np y) ->
  0 < m -> 0 < T -> 0 < eps ->
  gs <> [] -> increasing gs -> dist_call np ne gs = (gs, ns) -> nonneg ns ->
  let E := total_rate ens in let r := total_rate rels in let q := total_rate abss in
  fed q ns ->
  (forall x, 0 < x -> is_derive E x (E' x) /\ continuity_pt E' x /\ continuity_pt r x /\ continuity_pt q x /\ 0 <= q x) ->
  (forall i g v, nth_error gs i = Some g -> nth_error ns i = Some v ->
     track E m T g (G i) /\ along E E' r q m T (G i) v (N i) /\ width_effect E E' m T (G i) (D i)) ->
  let follows (s : R) (y : result) := r_time y = s /\ length (r_gamma y) = length gs /\ length (r_dens y) = length gs /\
    forall i g' v', nth_error (r_gamma y) i = Some g' -> nth_error (r_dens y) i = Some v' ->
      Rabs (g' - G i s) <= eps /\ N i s * exp (- D i s) - eps <= v' <= N i s * exp (D i s) + eps in
  exists k0, forall k, (k0 <= k)%nat ->
  exists d recs x, evaluate np (rates_cfg T (T / INR k) ens rels abss m gs me) k ne = (d, recs, Ok x) /\
    length recs = k /\ follows T x /\ (forall i y, nth_error recs i = Some y -> follows (INR (S i) * (T / INR k)) y).
Proof.
  intros Hnp Hlg Hm HT He Hne Inc En Nn E r q Hfed Hreg Hsol follows.
  assert (Ln : length ns = length gs). { pose proof (dist_call_length np ne gs) as X. rewrite En in X. simpl in X. apply X. }
  assert (Hv : forall i g, nth_error gs i = Some g -> exists v, nth_error ns i = Some v). { intros i g Hi. destruct (nth_error ns i) as [v|] eqn:Ev; eauto. apply nth_error_None in Ev. assert (i < length gs)%nat by (apply nth_error_Some; congruence). lia. }
  assert (Gd : forall i g s, nth_error gs i = Some g -> 0 <= s <= T -> 0 < G i s /\ is_derive (G i) s (E (G i s) / m)). { intros i g s Hi Hs. destruct (Hv i g Hi) as [v Hvi]. destruct (Hsol i g v Hi Hvi) as ((_ & Q) & _). apply Q; auto. }
  assert (Gc : forall i g s, nth_error gs i = Some g -> 0 <= s <= T -> continuity_pt (G i) s). { intros i g s Hi Hs. apply continuity_pt_filterlim. apply (ex_derive_continuous (G i)). eexists. apply (Gd i g); auto. }
  destruct (range_of G T gs (Rlt_le _ _ HT)) as (lo & hi & L1 & L2 & L3). { intros i g s Hi Hs. split; [apply (Gd i g); auto|apply (Gc i g); auto]. }
  set (a := lo / 2). set (b := 2 * hi). pose proof dl_pos as Dp. assert (Hab : a <= b * (1 + dl)) by (unfold a, b; nra).
  assert (Cp : forall x, a <= x <= b * (1 + dl) -> 0 < x) by (intros x Hx; unfold a in Hx; lra).
  destruct (bounded_on E' a (b * (1 + dl)) Hab) as (L & HL0 & HL). { intros x Hx. apply (Hreg x (Cp x Hx)). }
  assert (Lip : forall x y, a <= x <= b * (1 + dl) -> a <= y <= b * (1 + dl) -> Rabs (E x - E y) <= L * Rabs (x - y)).
  { assert (Le : forall x y, a <= x <= b * (1 + dl) -> a <= y <= b * (1 + dl) -> x <= y -> Rabs (E x - E y) <= L * Rabs (x - y)).
    { intros x y Hx Hy Hxy. destruct (derive_mean E E' x (y - x)) as (u & Hu & Eu); [lra| |]. { intros u Hu. apply (Hreg u). apply Cp. lra. } replace (x + (y - x)) with y in * by ring.
      rewrite Rabs_minus_sym, Eu, Rabs_mult, (Rabs_minus_sym x y), Rmult_comm. apply Rmult_le_compat_r; [apply Rabs_pos|]. apply HL. lra. }
    intros x y Hx Hy. destruct (Rle_dec x y); [apply Le; auto|]. rewrite (Rabs_minus_sym (E x)), (Rabs_minus_sym x). apply Le; auto. lra. }
  assert (A1 : 0 < a) by (unfold a; lra). assert (A2 : a < lo) by (unfold a; lra). assert (A3 : hi < b) by (unfold b; lra).
  destruct (E_bound E m a lo hi b L Hm A1 A2 L2 A3 HL0 Lip) as (M & HM0 & HM).
  assert (posab : forall x, a < x < b -> 0 < x) by (intros; lra).
  assert (Cr : forall i g s, nth_error gs i = Some g -> 0 <= s <= T -> continuity_pt (fun s => r (G i s)) s /\ continuity_pt (fun s => q (G i s)) s /\ continuity_pt (fun s => slope E m (G i s)) s /\ continuity_pt (fun s => E' (G i s)) s).
  { intros i g s Hi Hs. destruct (Gd i g s Hi Hs) as [Gp _]. pose proof (Gc i g s Hi Hs) as Cg. pose proof (L3 i g s Hi Hs) as Gi. destruct (Hreg _ Gp) as (_ & Q1 & Q2 & Q3 & _).
    split; [apply (continuity_pt_comp (G i) r); auto|]. split; [apply (continuity_pt_comp (G i) q); auto|]. split; [|apply (continuity_pt_comp (G i) E'); auto].
    apply (continuity_pt_comp (G i) (slope E m)); auto. apply (slope_continuous E m a b L A1 HL0 Lip). lra. }
  (* the density with the slope over a bin in place of the derivative *)
  destruct (choose_each (combine gs ns) (fun _ : R => 0) (fun i p f => f 0 = snd p /\ forall s, 0 <= s <= T -> is_derive f s (f s * (r (G i s) - slope E m (G i s)) + q (G i s)))) as (N1 & HN1).
  { intros i [g v] Hi. apply combine_split_nth in Hi as [Hg Hvi]. apply (linear_solution (fun s => r (G i s) - slope E m (G i s)) (fun s => q (G i s)) T v); [lra| |].
    - intros s Hs. destruct (Cr i g s Hg Hs) as (Q1 & Q2 & Q3 & Q4). apply (continuity_pt_minus (fun s => r (G i s)) (fun s => slope E m (G i s))); auto.
    - intros s Hs. apply (Cr i g s Hg Hs). }
  assert (Sw : forall i g v, nth_error gs i = Some g -> nth_error ns i = Some v -> forall s, 0 <= s <= T -> N i s * exp (- D i s) <= N1 i s <= N i s * exp (D i s)).
  { intros i g v Hg Hvi. destruct (Hsol i g v Hg Hvi) as ((G0 & _) & (N0 & HN) & (D0 & HD)). destruct (HN1 i (g, v) (proj2 (combine_split_nth _ _ _ _ _) (conj Hg Hvi))) as (N10 & HN1').
    simpl in N10. apply (sandwich (N1 i) (N i) (D i) (fun s => Derive (D i) s) (fun s => r (G i s) - slope E m (G i s)) (fun s => r (G i s) - E' (G i s) / m) (fun s => q (G i s)) T); try lra.
    - intros s Hs. destruct (Cr i g s Hg Hs) as (Q1 & Q2 & Q3 & Q4). apply (continuity_pt_minus (fun s => r (G i s)) (fun s => slope E m (G i s))); auto.
    - intros s Hs. destruct (Cr i g s Hg Hs) as (Q1 & Q2 & Q3 & Q4). apply (continuity_pt_minus (fun s => r (G i s)) (fun s => E' (G i s) / m)); auto.
      apply (continuity_pt_mult (fun s => E' (G i s)) (fun _ => / m)); auto. apply continuity_pt_const. intros ? ?; auto.
    - intros s Hs. destruct (Gd i g s Hg Hs) as [Gp _]. apply (Hreg _ Gp).
    - rewrite N0. apply Nn. eapply nth_error_In; eauto.
    - intros s Hs. destruct (Gd i g s Hg Hs) as [Gp _]. destruct (HD s Hs) as (dd & Hd & Hb). rewrite (is_derive_unique _ _ _ Hd). split; [apply HN1'; auto|]. split; [apply HN; auto|]. split; auto.
      replace (r (G i s) - slope E m (G i s) - (r (G i s) - E' (G i s) / m)) with (- (((E (G i s * (1 + 1 / 10000)) - E (G i s)) / (G i s / 10000) - E' (G i s)) * / m)) by (unfold slope, dl; field; lra).
      rewrite Rabs_Ropp, Rabs_mult, (Rabs_right (/ m)) by (left; apply Rinv_0_lt_compat; auto). apply Rmult_le_reg_r with m; auto. rewrite Rmult_assoc, Rinv_l, Rmult_1_r by lra. lra. }
  (* the grid *)
  assert (Br : forall x, a < x < b -> continuity_pt r x) by (intros x Hx; apply (Hreg x (posab x Hx))).
  assert (Bq : forall x, a < x < b -> continuity_pt q x) by (intros x Hx; apply (Hreg x (posab x Hx))).
  assert (Bp : forall x, a < x < b -> 0 <= q x) by (intros x Hx; apply (Hreg x (posab x Hx))).
  destruct (grid_good np E r q m T a lo hi b L M Hlg Hm HT A1 A2 L2 A3 HL0 Lip Br Bq Bp HM0 HM me (combine gs ns) G N1) with (eps := eps) as (t0 & Ht0 & Gg); auto.
  { rewrite combine_fst by auto. intros i x y Hx Hy. apply (Inc i). split; auto. }
  { destruct Hfed as [F|[F1 F2]]; [left|right; split; auto; rewrite combine_length, Ln, Nat.min_id; lia]. rewrite <- (combine_snd gs ns Ln), filter_map_comm in F. eapply Nat.le_trans; [exact F|].
    rewrite <- (map_id (combine gs ns)) at 2. apply count_le. intros [g v] Hin Hf. apply negb_true_iff, Reqb_false in Hf. apply Rltb_true. simpl in *. pose proof (Nn v (in_combine_r _ _ _ _ Hin)). lra. }
  { intros i g v Hi. destruct (HN1 i (g, v) Hi) as (N10 & HN1'). apply combine_split_nth in Hi as [Hg Hvi]. destruct (Hsol i g v Hg Hvi) as ((G0 & _) & _). split; auto. split; auto. split; [apply Nn; eapply nth_error_In; eauto|].
    intros s Hs. split; [apply (L3 i g); auto|]. split; [apply (Gd i g); auto|apply HN1'; auto]. }
  destruct (above_INR (T / t0)) as [k0 Hk0]. exists (S k0). intros k Hk. assert (Hkp : 0 < INR k) by (apply lt_0_INR; lia). assert (Hkk : INR k0 <= INR k) by (apply le_INR; lia).
  set (t := T / INR k). assert (Ht : 0 < t) by (unfold t; apply Rdiv_lt_0_compat; auto). assert (Et : INR k * t = T) by (unfold t; field; lra).
  assert (Htt : t <= t0). { unfold t. apply (proj2 (Rle_div_l T t0 (INR k) Hkp)). apply Rlt_le in Hk0. apply (proj1 (Rle_div_l T (INR k0) t0 Ht0)) in Hk0. nra. }
  destruct (Gg t Ht Htt k Et) as [Leg Err].
  destruct (C91_recursion np T t m ens rels abss gs me ne k ns) as (d & recs & x & H1 & H2 & H3 & H4 & H5 & H6); auto.
  { intros g Hg. apply In_nth_error in Hg as [i Hi]. destruct (Hv i g Hi) as [v Hvi]. destruct (Hsol i g v Hi Hvi) as ((G0 & _) & _). rewrite <- G0. apply (Gd i g); auto. lra. }
  assert (FO : forall j y, (j <= k)%nat -> r_time y = INR j * t -> r_gamma y = map fst (map (after_steps j me E r q m t) (combine gs ns)) -> r_dens y = map snd (map (after_steps j me E r q m t) (combine gs ns)) -> follows (INR j * t) y).
  { intros j y Hj Y1 Y2 Y3. split; auto. rewrite Y2, Y3, !map_length, combine_length, Ln, Nat.min_id. split; auto. split; auto.
    intros i g' v' Hg' Hv'. rewrite nth_error_map in Hg', Hv'. destruct (nth_error (map (after_steps j me E r q m t) (combine gs ns)) i) as [[x' w']|] eqn:Ei; [|discriminate]. simpl in Hg', Hv'. injection Hg' as <-. injection Hv' as <-.
    destruct (Err j i x' w' Hj Ei) as [B1 B2]. rewrite nth_error_map in Ei. destruct (nth_error (combine gs ns) i) as [[g v]|] eqn:Ep; [|discriminate]. apply combine_split_nth in Ep as [Hg Hvi].
    assert (Hs : 0 <= INR j * t <= T). { split; [apply Rmult_le_pos; [apply pos_INR|lra]|]. rewrite <- Et. apply Rmult_le_compat_r; [lra|]. apply le_INR; auto. }
    pose proof (Sw i g v Hg Hvi _ Hs) as S. apply Rabs_le_between in B2. split; auto. lra. }
  exists d, recs, x. split; [exact H1|]. split; [auto|]. split.
  - rewrite <- Et. apply FO; auto. rewrite Et. auto.
  - intros i y Hy. assert (i < length recs)%nat by (apply nth_error_Some; congruence). destruct (H6 i y Hy) as (Q1 & Q2 & Q3). apply FO; auto. lia.
Qed.
Print Assumptions C101_converges.

(** the same for a solution n(s, g) of the kinetic equation *)
Theorem C101_kinetic np T m ens rels abss gs me ne ns E' n (G D : nat -> R -> R) eps : numpy_ok np -> (forall x y, 0 < x -> x < y -> lg np x < lg np y) ->
  0 < m -> 0 < T -> 0 < eps ->
  gs <> [] -> increasing gs -> dist_call np ne gs = (gs, ns) -> nonneg ns ->
  let E := total_rate ens in let r := total_rate rels in let q := total_rate abss in
  fed q ns ->
  (forall x, 0 < x -> is_derive E x (E' x) /\ continuity_pt E' x /\ continuity_pt r x /\ continuity_pt q x /\ 0 <= q x) ->
  solves_kinetic E E' r q m T n ->
  (forall i g v, nth_error gs i = Some g -> nth_error ns i = Some v -> v = n 0 g) ->
  (forall i g, nth_error gs i = Some g -> track E m T g (G i) /\ width_effect E E' m T (G i) (D i)) ->
  let follows (s : R) (y : result) := r_time y = s /\ length (r_gamma y) = length gs /\ length (r_dens y) = length gs /\
    forall i g' v', nth_error (r_gamma y) i = Some g' -> nth_error (r_dens y) i = Some v' ->
      Rabs (g' - G i s) <= eps /\ n s (G i s) * exp (- D i s) - eps <= v' <= n s (G i s) * exp (D i s) + eps in
  exists k0, forall k, (k0 <= k)%nat ->
  exists d recs x, evaluate np (rates_cfg T (T / INR k) ens rels abss m gs me) k ne = (d, recs, Ok x) /\
    length recs = k /\ follows T x /\ (forall i y, nth_error recs i = Some y -> follows (INR (S i) * (T / INR k)) y).
Proof.
  intros Hnp Hlg Hm HT He Hne Inc En Nn E r q Hfed Hreg Hn H0 Htr.
  apply (C101_converges np T m ens rels abss gs me ne ns E' G (fun i s => n s (G i s)) D eps); auto. intros i g v Hg Hv. destruct (Htr i g Hg) as [H1 H2]. split; auto. split; auto.
  rewrite (H0 i g v Hg Hv). apply C101_along; auto. lra.
Qed.
Print Assumptions C101_kinetic.
(** a flat distribution with losses proportional to the energy stays flat and
    gets denser; here the bin width has no effect *)
Example C101_flat me eps : 0 < eps -> exists k0, forall k, (k0 <= k)%nat ->
  exists d recs x, evaluate np0 (rates_cfg 2 (2 / INR k) [("loss"%string, fun g => - g)] [] [] 1 [10; 100; 1000] me) k ex_ne = (d, recs, Ok x) /\ length recs = k /\
  forall i g v, nth_error (r_gamma x) i = Some g -> nth_error (r_dens x) i = Some v -> Rabs (g - 10 ^ S i * exp (-2)) <= eps /\ Rabs (v - exp 2) <= eps.
Proof.
  intros He. assert (E1 : forall g, total_rate [("loss"%string, fun g => - g)] g = - g) by (intros; unfold total_rate; simpl; ring). assert (E0 : forall g, total_rate [] g = 0) by reflexivity.
  destruct (C101_kinetic np0 2 1 [("loss"%string, fun g => - g)] [] [] [10; 100; 1000] me ex_ne [1; 1; 1] (fun _ => -1) (fun s _ => exp s) (fun i s => 10 ^ S i * exp (- s)) (fun _ _ => 0) eps) as (k0 & Hk0); try lra.
  - apply np0_ok.
  - intros. apply log10_lt; auto.
  - discriminate.
  - intros [|[|[|i]]] u v [A B]; simpl in A, B; try discriminate; try (destruct i; discriminate); injection A as <-; injection B as <-; lra.
  - simpl. unfold correct_bounds, correct_first, correct_last. decide_R. simpl. decide_R. simpl. decide_R. reflexivity.
  - intros v H; simpl in H; intuition; subst; lra.
  - left. simpl. decide_R. simpl. lia.
  - intros x Hx. split; [apply (is_derive_ext (fun g => - g)); [intros; symmetry; apply E1|auto_derive; auto; ring]|]. split; [apply continuity_pt_const; intros ? ?; auto|]. change (total_rate []) with (fun _ : R => 0). split; [apply continuity_pt_const; intros ? ?; auto|]. split; [apply continuity_pt_const; intros ? ?; auto|lra].
  - intros s g Hs Hg. exists (exp s), 0. split; [apply differentiable_pt_lim_proj1_0, derivable_pt_lim_exp|]. rewrite !E0, E1. field.
  - intros i g v Hg Hv. rewrite exp_0. destruct i as [|[|[|i]]]; simpl in Hv; try congruence. destruct i; discriminate.
  - intros i g Hg. assert (Eg : g = 10 ^ S i) by (destruct i as [|[|[|i]]]; simpl in Hg; [| | |destruct i; discriminate]; injection Hg as <-; ring). split; split.
    + rewrite Ropp_0, exp_0, Eg. ring.
    + intros s Hs. split; [apply Rmult_lt_0_compat; [apply pow_lt; lra|apply exp_pos]|]. rewrite E1. generalize (10 ^ S i). intros c. auto_derive; auto. field.
    + auto.
    + intros s Hs. exists 0. split; [apply (is_derive_const 0)|]. rewrite !E1. assert (P : 0 < 10 ^ S i * exp (- s)) by (apply Rmult_lt_0_compat; [apply pow_lt; lra|apply exp_pos]). set (x := 10 ^ S i * exp (- s)) in *.
      match goal with |- Rabs ?z <= _ => replace z with 0 by (field; lra) end. rewrite Rabs_R0. lra.
  - exists k0. intros k Hk. destruct (Hk0 k Hk) as (d & recs & x & H1 & H2 & (_ & _ & _ & H3) & _). exists d, recs, x. split; auto. split; auto. intros i g v Hg Hv. destruct (H3 i g v Hg Hv) as [B1 B2]. split; [replace (-2) with (- (2)) by ring; exact B1|].
    rewrite Ropp_0, exp_0 in B2. apply Rabs_le. lra.
Qed.

(** ** synchrotron losses, escape and injection *)
Section Cooled.
Variables (K g tau v T : R) (q : R -> R).
Hypotheses (HK : 0 <= K) (Hg : 0 < g) (Htau : 0 < tau) (HT : 0 < T) (Hq : forall x, 0 < x -> continuity_pt q x).
Let den s := 1 + K * g * s.
Lemma den_pos s : 0 <= s -> 1 <= den s.
Proof. intros Hs. unfold den. assert (0 <= K * g * s) by (apply Rmult_le_pos; auto; apply Rmult_le_pos; lra). lra. Qed.
Lemma cooled_den s : cooled K s g = g / den s.
Proof. reflexivity. Qed.
Lemma cooled_derive s : 0 < den s -> is_derive (fun s => cooled K s g) s (- (K * cooled K s g ^ 2)).
Proof. intros Hs. unfold cooled. unfold den in Hs. auto_derive; [lra|]. field. lra. Qed.
Lemma cooled_positive s : 0 < den s -> 0 < cooled K s g.
Proof. intros Hs. rewrite cooled_den. apply Rdiv_lt_0_compat; auto. Qed.
Let fl u := q (cooled K u g) * / den u ^ 2 * exp (u / tau).
Lemma fl_continuous u : 0 < den u -> continuous fl u.
Proof.
  intros Hu. unfold fl. apply (continuous_mult (fun u => q (cooled K u g) * / den u ^ 2) (fun u => exp (u / tau))).
  - apply (continuous_mult (fun u => q (cooled K u g)) (fun u => / den u ^ 2)).
    + apply (continuous_comp (fun u => cooled K u g) q); [apply (ex_derive_continuous (fun u => cooled K u g)); eexists; apply cooled_derive; auto|]. apply continuity_pt_filterlim, Hq, cooled_positive; auto.
    + apply (ex_derive_continuous (fun u => / den u ^ 2)). unfold den in *. auto_derive. apply Rgt_not_eq. apply (pow_lt _ 2 Hu).
  - apply (ex_derive_continuous (fun u => exp (u / tau))). auto_derive. auto.
Qed.
Lemma den_mono x y : x <= y -> den x <= den y.
Proof. intros H. unfold den. assert (K * g * x <= K * g * y) by (apply Rmult_le_compat_l; auto; apply Rmult_le_pos; lra). lra. Qed.
Lemma fl_derive s : 0 <= s -> is_derive (fun s => RInt fl 0 s) s (fl s).
Proof.
  intros Hs. assert (Hd : 0 < / (2 * (K * g + 1))). { apply Rinv_0_lt_compat. assert (0 <= K * g) by (apply Rmult_le_pos; lra). lra. }
  apply (is_derive_RInt fl (fun x => RInt fl 0 x) 0 s); [|apply fl_continuous; pose proof (den_pos s Hs); lra].
  exists (mkposreal _ Hd). intros x Hx. apply (RInt_correct fl 0 x). apply (ex_RInt_continuous fl). intros z Hz. apply fl_continuous.
  change (Rabs (x - s) < / (2 * (K * g + 1))) in Hx. apply Rabs_def2 in Hx. assert (Kg : 0 <= K * g) by (apply Rmult_le_pos; lra).
  assert (Hz' : - / (2 * (K * g + 1)) <= z). { pose proof (Rmin_l 0 x). destruct (Rmin_case 0 x (fun y => - / (2 * (K * g + 1)) <= y)); try lra. }
  apply Rlt_le_trans with (den (- / (2 * (K * g + 1)))); [|apply den_mono; auto]. unfold den. assert (K * g * / (2 * (K * g + 1)) <= 1 / 2). { apply Rmult_le_reg_r with (2 * (K * g + 1)); [lra|]. rewrite Rmult_assoc, Rinv_l by lra. lra. } lra.
Qed.
Lemma cooled_density_form s : 0 <= s -> cooled_density K tau q s g v = den s ^ 2 * exp (- s / tau) * (v + RInt fl 0 s).
Proof.
  intros Hs. unfold cooled_density. pose proof (den_pos s Hs) as Ds. replace (g / cooled K s g) with (den s) by (rewrite cooled_den; field; lra).
  rewrite (RInt_ext _ (fun u => scal (den s ^ 2 * exp (- s / tau)) (fl u))).
  - rewrite (RInt_scal fl 0 s). { unfold scal; simpl; unfold mult; simpl. match goal with |- ?a = ?b => change (@eq R a b) end. ring. }
    apply (ex_RInt_continuous fl). intros z Hz. rewrite Rmin_left, Rmax_right in Hz by lra. apply fl_continuous. pose proof (den_pos z ltac:(lra)). lra.
  - intros u Hu. rewrite Rmin_left, Rmax_right in Hu by lra. pose proof (den_pos u ltac:(lra)) as Du. unfold scal; simpl; unfold mult; simpl. match goal with |- ?a = ?b => change (@eq R a b) end.
    unfold fl. replace (- (s - u) / tau) with (- s / tau + u / tau) by (field; lra). rewrite exp_plus. replace (g / cooled K u g) with (den u) by (rewrite cooled_den; field; lra). field. lra.
Qed.
Lemma cooled_along : along (fun x => - (K * x ^ 2)) (fun x => - (2 * K * x)) (fun _ => - / tau) q 1 T (fun s => cooled K s g) v (fun s => den s ^ 2 * exp (- s / tau) * (v + RInt fl 0 s)).
Proof.
  split.
  - match goal with |- context [RInt ?f 0 0] => replace (RInt f 0 0) with 0 by (symmetry; apply (RInt_point 0 f)) end. unfold den. replace (- 0 / tau) with 0 by (field; lra). rewrite exp_0. ring.
  - intros s Hs. pose proof (den_pos s (proj1 Hs)) as Ds. pose proof (fl_derive s (proj1 Hs)) as Df.
    evar_last. { apply (is_derive_mult (fun s => den s ^ 2 * exp (- s / tau)) (fun s => v + RInt fl 0 s)).
      - unfold den. auto_derive; [exact Logic.I|]. reflexivity.
      - apply (is_derive_plus (fun _ => v) (fun s => RInt fl 0 s)); [apply (is_derive_const v)|exact Df].
      - intros; apply Rmult_comm. }
    unfold plus, mult, zero; simpl. match goal with |- ?a = ?b => change (@eq R a b) end. unfold fl. rewrite cooled_den. fold (den s). set (B := RInt _ 0 s). replace (- s * / tau) with (- s / tau) by reflexivity.
    replace (exp (s / tau)) with (/ exp (- s / tau)). 2: { rewrite <- exp_Ropp. f_equal. field. lra. } pose proof (exp_pos (- s / tau)). unfold den in *. field. split; [lra|]. split; lra.
Qed.
End Cooled.

Theorem C101_cooling np P sy T tau q gs ns ne me name eps : numpy_ok np -> (forall x y, 0 < x -> x < y -> lg np x < lg np y) -> phys_ok P ->
  0 < T -> 0 < tau -> 0 < eps -> (forall x, 0 < x -> continuity_pt q x /\ 0 <= q x) ->
  gs <> [] -> (forall g, In g gs -> 0 < g) -> increasing gs -> dist_call np ne gs = (gs, ns) -> nonneg ns -> fed q ns ->
  let K := 4 / 3 * c_sigmaT P * c_c P * (B_field (sy_blob sy) ^ 2 / (8 * PI)) / mec2_erg P in
  let follows (s : R) (y : result) := r_time y = s /\ length (r_gamma y) = length gs /\ length (r_dens y) = length gs /\
    forall i g v g' v', nth_error gs i = Some g -> nth_error ns i = Some v -> nth_error (r_gamma y) i = Some g' -> nth_error (r_dens y) i = Some v' ->
      let compressed := g / cooled K s g in
      Rabs (g' - cooled K s g) <= eps /\
      cooled_density K tau q s g v * Rpower compressed (- (1 / 10000)) - eps <= v' <= cooled_density K tau q s g v * Rpower compressed (1 / 10000) + eps in
  exists k0, forall k, (k0 <= k)%nat ->
  exists d recs x, evaluate np (escape_cfg T (T / INR k) (name, synchrotron_loss P sy) tau q (mec2_erg P) gs me) k ne = (d, recs, Ok x) /\
    length recs = k /\ follows T x /\ (forall i y, nth_error recs i = Some y -> follows (INR (S i) * (T / INR k)) y).
Proof.
  intros Hnp Hlg HP HT Htau He Hq Hne Pg Inc En Nn Hfed K follows.
  set (A := 4 / 3 * c_sigmaT P * c_c P * (B_field (sy_blob sy) ^ 2 / (8 * PI))).
  assert (Hm : 0 < mec2_erg P). { destruct HP. unfold mec2_erg, rest_energy, mass_of. apply Rmult_lt_0_compat; auto. apply pow_lt; auto. }
  assert (HA : 0 <= A). { destruct HP. unfold A. pose proof PI_RGT_0. apply Rmult_le_pos; [apply Rmult_le_pos; [lra|lra]|]. apply Rdiv_le_0_compat; [apply pow2_ge_0|lra]. }
  set (m := mec2_erg P) in *. assert (EK : K = A / m) by reflexivity. assert (HK : 0 <= K) by (rewrite EK; apply Rdiv_le_0_compat; auto).
  set (e := fun g => synch_loss_rate P sy g * -1).
  assert (HE : forall g, total_rate [(name, e)] g = - (A * g ^ 2)). { intros g. unfold total_rate, e, A, synch_loss_rate, U_B, B_cgs, B_to_cgs. simpl. ring. }
  assert (Hr : forall g, total_rate [("escape"%string, fun _ => - / tau)] g = - / tau) by (intros g; unfold total_rate; simpl; ring).
  assert (Hqq : forall g, total_rate [("injection"%string, q)] g = q g) by (intros g; unfold total_rate; simpl; ring).
  set (gi := fun i => nth i gs 1). set (vi := fun i => nth i ns 0).
  assert (Egi : forall i g, nth_error gs i = Some g -> gi i = g /\ 0 < g) by (intros i g Hi; split; [apply nth_error_nth; auto|apply Pg; eapply nth_error_In; eauto]).
  assert (Evi : forall i v, nth_error ns i = Some v -> vi i = v) by (intros i v Hi; apply nth_error_nth; auto).
  destruct (C101_converges np T m [(name, e)] [("escape"%string, fun _ => - / tau)] [("injection"%string, q)] gs me ne ns (fun x => - (2 * A * x))
     (fun i s => cooled K s (gi i)) (fun i s => (1 + K * gi i * s) ^ 2 * exp (- s / tau) * (vi i + RInt (fun u => q (cooled K u (gi i)) * / (1 + K * gi i * u) ^ 2 * exp (u / tau)) 0 s)) (fun i s => 1 / 10000 * ln (1 + K * gi i * s)) eps) as (k0 & Hk0); auto.
  - destruct Hfed as [F|[F1 F2]]; [left; auto|right; split; auto]. intros g Hg. rewrite Hqq. auto.
  - intros x Hx. destruct (Hq x Hx) as [Q1 Q2]. split.
    + apply (is_derive_ext (fun g => - (A * g ^ 2))); [intros; symmetry; apply HE|]. auto_derive; auto. ring.
    + split; [apply derivable_continuous_pt; apply ex_derive_Reals_0; auto_derive; auto|]. split; [|split; [|rewrite Hqq; auto]].
      * apply (continuity_pt_ext (fun _ => - / tau)); [intros; symmetry; apply Hr|apply continuity_pt_const; intros ? ?; auto].
      * apply (continuity_pt_ext q); [intros; symmetry; apply Hqq|auto].
  - intros i g v Hgi Hvi. destruct (Egi i g Hgi) as [-> Hg]. rewrite (Evi i v Hvi).
    assert (dp : forall s, 0 <= s -> 1 <= 1 + K * g * s) by (intros s Hs; apply (den_pos K g HK Hg s Hs)).
    split; [|split].
    + split; [unfold cooled; field; lra|]. intros s Hs. specialize (dp s (proj1 Hs)). split; [apply cooled_positive; auto; lra|]. rewrite HE. replace (- (A * cooled K s g ^ 2) / m) with (- (K * cooled K s g ^ 2)) by (rewrite EK; field; lra). apply cooled_derive; auto. lra.
    + destruct (cooled_along K g tau v T q HK Hg Htau (fun x Hx => proj1 (Hq x Hx))) as [C0 C1]. split; [exact C0|]. intros s Hs. specialize (C1 s Hs). rewrite Hr, Hqq. cbv beta in C1. replace (- (2 * A * cooled K s g) / m) with (- (2 * K * cooled K s g) / 1) by (rewrite EK; field; lra). exact C1.
    + split; [rewrite Rmult_0_r, Rplus_0_r, ln_1; ring|]. intros s Hs. specialize (dp s (proj1 Hs)). exists (1 / 10000 * (K * g / (1 + K * g * s))). split; [auto_derive; [lra|field; lra]|].
      rewrite !HE. pose proof (cooled_positive K g Hg s ltac:(lra)) as Gp. set (x := cooled K s g) in *.
      replace ((- (A * (x * (1 + 1 / 10000)) ^ 2) - - (A * x ^ 2)) / (x / 10000) - - (2 * A * x)) with (- (A * x / 10000)) by (field; lra).
      rewrite Rabs_Ropp, Rabs_right by (apply Rle_ge, Rmult_le_pos; [apply Rmult_le_pos; lra|lra]). right. unfold x, cooled. rewrite EK. field. split; [lra|]. rewrite EK in dp. replace (m + A * g * s) with (m * (1 + A / m * g * s)) by (field; lra). apply Rgt_not_eq, Rmult_lt_0_compat; lra.
  - assert (FO : forall s y, 0 <= s <= T -> (r_time y = s /\ length (r_gamma y) = length gs /\ length (r_dens y) = length gs /\
       forall i g' v', nth_error (r_gamma y) i = Some g' -> nth_error (r_dens y) i = Some v' ->
      Rabs (g' - cooled K s (gi i)) <= eps /\ (1 + K * gi i * s) ^ 2 * exp (- s / tau) * (vi i + RInt (fun u => q (cooled K u (gi i)) * / (1 + K * gi i * u) ^ 2 * exp (u / tau)) 0 s) * exp (- (1 / 10000 * ln (1 + K * gi i * s))) - eps <= v' <= (1 + K * gi i * s) ^ 2 * exp (- s / tau) * (vi i + RInt (fun u => q (cooled K u (gi i)) * / (1 + K * gi i * u) ^ 2 * exp (u / tau)) 0 s) * exp (1 / 10000 * ln (1 + K * gi i * s)) + eps) -> follows s y).
    { intros s y Hs (Y1 & Y2 & Y3 & Y4). split; auto. split; auto. split; auto. intros i g v g' v' Hgi Hvi Hg' Hv' compressed. specialize (Y4 i g' v' Hg' Hv'). destruct (Egi i g Hgi) as [Eg Hg]. rewrite Eg, (Evi i v Hvi) in Y4.
      pose proof (den_pos K g HK Hg s (proj1 Hs)) as Ds. assert (Ec : compressed = 1 + K * g * s) by (unfold compressed, cooled; field; lra). rewrite Ec. unfold Rpower.
      rewrite (cooled_density_form K g tau v q HK Hg Htau (fun x Hx => proj1 (Hq x Hx)) s (proj1 Hs)). replace (- (1 / 10000) * ln (1 + K * g * s)) with (- (1 / 10000 * ln (1 + K * g * s))) by ring. exact Y4. }
    exists (S k0). intros k Hk. assert (Hkp : 0 < INR k) by (apply lt_0_INR; lia). destruct (Hk0 k ltac:(lia)) as (d & recs & x & H1 & H2 & H3 & H4). exists d, recs, x. split; [exact H1|]. split; auto. split.
    + apply FO; auto. lra.
    + intros i y Hy. assert (Hi : (i < length recs)%nat) by (apply nth_error_Some; congruence). apply FO; [|apply H4; auto]. split.
      * apply Rmult_le_pos; [apply pos_INR|]. apply Rlt_le, Rdiv_lt_0_compat; auto.
      * replace (INR (S i) * (T / INR k)) with (T * (INR (S i) / INR k)) by (field; lra). rewrite <- (Rmult_1_r T) at 2. apply Rmult_le_compat_l; [lra|]. apply (proj2 (Rle_div_l _ _ _ Hkp)). rewrite Rmult_1_l. apply le_INR. lia.
Qed.
Print Assumptions C101_cooling.

(** 1 G, escape within 500 s, injection of g^-2 per second *)
Example C101_case me : let sy := {| sy_blob := ex_blob; sy_ssa := false; sy_integ := trapz |} in
  exists k0, forall k, (k0 <= k)%nat ->
  exists d recs x, evaluate np0 (escape_cfg 1000 (1000 / INR k) ("synchrotron"%string, synchrotron_loss codata sy) 500 (fun g => / g ^ 2) (mec2_erg codata) [10; 100; 1000] me) k ex_ne = (d, recs, Ok x) /\ length recs = k /\ length (r_gamma x) = 3%nat.
Proof.
  intros sy. destruct (C101_cooling np0 codata sy 1000 500 (fun g => / g ^ 2) [10; 100; 1000] [1; 1; 1] ex_ne me "synchrotron"%string 1) as (k0 & Hk0).
  - apply np0_ok.
  - intros. apply log10_lt; auto.
  - apply codata_ok.
  - lra.
  - lra.
  - lra.
  - intros x Hx. split; [|left; apply Rinv_0_lt_compat, pow_lt; auto]. apply derivable_continuous_pt. apply ex_derive_Reals_0. auto_derive. apply Rgt_not_eq. apply (pow_lt _ 2 Hx).
  - discriminate.
  - intros g H; simpl in H; intuition; subst; lra.
  - intros [|[|[|i]]] u v [A B]; simpl in A, B; try discriminate; try (destruct i; discriminate); injection A as <-; injection B as <-; lra.
  - simpl. unfold correct_bounds, correct_first, correct_last. decide_R. simpl. decide_R. simpl. decide_R. reflexivity.
  - intros v H; simpl in H; intuition; subst; lra.
  - left. simpl. decide_R. simpl. lia.
  - exists k0. intros k Hk. destruct (Hk0 k Hk) as (d & recs & x & H1 & H2 & (_ & H3 & _) & _). exists d, recs, x. auto.
Qed.
