(** Slopes, corrections, continuity and interpolated distributions *)
From Verif Require Import Base TEUtils ListFacts TEStepFacts NumpyInst MathUtils Conversion Spectra Spec_Math Spec_Spectra MathFacts SpectraFacts.
From Coquelicot Require Import Coquelicot.
Import ListNotations.
Open Scope list_scope.
Open Scope R_scope.

Ltac req := cbv beta; match goal with |- @eq _ ?a ?b => change (@eq R a b) end.

(** ** logarithmic slopes *)
Lemma ssa_ratio sh k a b g : shape_ok sh -> 0 <= a -> a < g < b -> off_break sh g ->
  ssa_point (build sh k a b) g = - (spectral_index sh g + 2) / g * density (build sh k a b) g.
Proof.
  intros Hok Ha Hg Hb. assert (H0 : 0 < g) by lra. destruct sh as [p|p1 p2 gb|p q g0|p gc|p1 p2 gc gb]; simpl in Hok, Hb; cbn [build spectral_index].
  - inside. unfold npow. rewrite rpow_S by auto. field. lra.
  - destruct (Rdichotomy _ _ Hb) as [L|L].
    + inside. destruct (Rlt_dec g gb); [|lra]. field. lra.
    + inside. rewrite (proj2 (Rleb_false g gb)) by lra. destruct (Rlt_dec g gb); [lra|]. field. lra.
  - inside. reflexivity.
  - inside. field. lra.
  - destruct Hok as [Hc Hgb]. destruct (Rdichotomy _ _ Hb) as [L|L].
    + inside. destruct (Rlt_dec g gb); [|lra]. field. lra.
    + inside. rewrite (proj2 (Rleb_false g gb)) by lra. destruct (Rlt_dec g gb); [lra|]. field. lra.
Qed.
Lemma density_derivative sh k a b g : shape_ok sh -> 0 <= a -> a < g < b -> off_break sh g ->
  is_derive (density (build sh k a b)) g (- spectral_index sh g / g * density (build sh k a b) g).
Proof.
  intros Hok Ha Hg Hb. pose proof (ssa_derivative sh k a b g Hok Ha Hg Hb) as D. rewrite ssa_ratio in D by auto.
  apply is_derive_ext_loc with (fun x => density (build sh k a b) x / x ^ 2 * x ^ 2).
  - apply (locally_in a b); try lra. intros x Hx. req. field. lra.
  - replace (- spectral_index sh g / g * density (build sh k a b) g)
      with (plus (mult (- (spectral_index sh g + 2) / g * density (build sh k a b) g / g ^ 2) (g ^ 2)) (mult (density (build sh k a b) g / g ^ 2) (2 * g))).
    2:{ unfold plus, mult; simpl. field. lra. }
    apply (is_derive_mult (fun x => density (build sh k a b) x / x ^ 2) (fun x => x ^ 2)); auto.
    + auto_derive; auto. ring.
    + intros; apply Rmult_comm.
Qed.
Lemma log_slope sh k a b g : shape_ok sh -> 0 < k -> 0 <= a -> a < g < b -> off_break sh g ->
  is_derive (fun x => ln (density (build sh k a b) x)) g (- spectral_index sh g / g).
Proof.
  intros Hok Hk Ha Hg Hb. pose proof (density_derivative sh k a b g Hok Ha Hg Hb) as D.
  assert (Hp : 0 < density (build sh k a b) g) by (apply density_build_pos; auto; lra).
  replace (- spectral_index sh g / g) with (scal (- spectral_index sh g / g * density (build sh k a b) g) (/ density (build sh k a b) g)).
  2:{ unfold scal; simpl. unfold mult; simpl. field. lra. }
  apply (is_derive_comp ln (density (build sh k a b))); auto. apply is_derive_ln; auto.
Qed.
(** interpolated distribution *)
Lemma ssa_interpolated norm a b f df g : 0 <= a -> a < g < b -> is_derive f (log10 g) (df (log10 g)) ->
  is_derive (fun x => density (Interpolated norm a b f df) x / x ^ 2) g (ssa_point (Interpolated norm a b f df) g / g ^ 2).
Proof.
  intros Ha Hg Hf. assert (H0 : 0 < g) by lra. pose proof ln10_pos.
  apply is_derive_ext_loc with (fun x => norm * pow10 (f (log10 x)) / x ^ 2).
  - apply (locally_in a b); try lra. intros x Hx. inside. reflexivity.
  - inside. unfold pow10. unfold log10 in *.
    assert (Df : ex_derive f (ln g / ln 10)) by (eexists; eauto).
    assert (De : Derive f (ln g / ln 10) = df (ln g / ln 10)) by (apply is_derive_unique; auto).
    auto_derive.
    + repeat split; auto; nra.
    + replace (Derive (fun x : R => f x) (ln g * / ln 10)) with (df (ln g / ln 10)) by (symmetry; exact De).
      unfold Rdiv. field. lra.
Qed.

(** ** in-place correction of the caller's array *)
Lemma correct_first_nth a l i x' : nth_error (correct_first a l) i = Some x' ->
  exists x, nth_error l i = Some x /\ (x' = x \/ (i = O /\ x' = a /\ x < a /\ (a - x) / x < 1 / 10 ^ 10)).
Proof.
  destruct l as [|y l]; cbn [correct_first]. { intros; eauto. }
  destruct (Rltb y a && Rltb ((a - y) / y) (1 / 10 ^ 10)) eqn:E; intros H; [|eauto].
  apply andb_true_iff in E. rewrite !Rltb_true in E. destruct i as [|i]; cbn [nth_error] in *; [|eauto].
  exists y. split; auto. right. apply some_inj in H. subst x'. tauto.
Qed.
Lemma correct_last_nth b l i x' : nth_error (correct_last b l) i = Some x' ->
  exists x, nth_error l i = Some x /\ (x' = x \/ (S i = length l /\ x' = b /\ b < x /\ (x - b) / b < 1 / 10 ^ 10)).
Proof.
  destruct l as [|y l] using rev_ind. { simpl. intros; eauto. } clear IHl.
  rewrite correct_last_snoc. intros H.
  destruct (Nat.lt_ge_cases i (length l)) as [L|L].
  - rewrite nth_error_app1 in * by auto. exists x'. split; auto.
  - rewrite nth_error_app2 in * by auto. rewrite app_length. cbn [length].
    destruct (i - length l)%nat as [|d] eqn:Ed; cbn [nth_error] in *; [|destruct d; discriminate].
    exists y. split; auto. apply some_inj in H. subst x'.
    destruct (Rltb b y && Rltb ((y - b) / b) (1 / 10 ^ 10)) eqn:E; auto. apply andb_true_iff in E. rewrite !Rltb_true in E.
    right. split; [lia|]. tauto.
Qed.
Lemma correct_last_length b l : length (correct_last b l) = length l.
Proof. destruct l as [|y l] using rev_ind; auto. rewrite correct_last_snoc. rewrite !app_length. reflexivity. Qed.
Lemma corrected_length s gs : length (corrected s gs) = length gs.
Proof. destruct s; simpl; auto; unfold correct_bounds; rewrite correct_last_length, correct_first_length; auto. Qed.
Lemma corrected_nth s gs i x' : gamma_min s <= gamma_max s -> nth_error (corrected s gs) i = Some x' ->
  exists x, nth_error gs i = Some x /\
   (x' = x \/ (i = O /\ x' = gamma_min s /\ x < gamma_min s /\ (gamma_min s - x) / x < 1 / 10 ^ 10)
           \/ (S i = length gs /\ x' = gamma_max s /\ gamma_max s < x /\ (x - gamma_max s) / gamma_max s < 1 / 10 ^ 10)).
Proof.
  intros Hr H.
  assert (G : nth_error (correct_bounds (gamma_min s) (gamma_max s) gs) i = Some x' -> exists x, nth_error gs i = Some x /\
   (x' = x \/ (i = O /\ x' = gamma_min s /\ x < gamma_min s /\ (gamma_min s - x) / x < 1 / 10 ^ 10)
           \/ (S i = length gs /\ x' = gamma_max s /\ gamma_max s < x /\ (x - gamma_max s) / gamma_max s < 1 / 10 ^ 10))).
  { clear H. intros H. unfold correct_bounds in H. apply correct_last_nth in H. destruct H as (x1 & H1 & C1).
    apply correct_first_nth in H1. destruct H1 as (x & H & C). exists x. split; auto.
    rewrite correct_first_length in C1. destruct C1 as [->|(A1 & A2 & A3 & A4)]; [tauto|].
    destruct C as [->|(B1 & B2 & B3 & B4)]; [tauto|]. lra. }
  destruct s; try (apply G; exact H). simpl in H. eauto.
Qed.
Lemma corrected_inside_nth s gs i g : (0 < i)%nat -> (S i < length gs)%nat -> nth_error gs i = Some g -> nth_error (corrected s gs) i = Some g.
Proof.
  intros H0 H1 Hg.
  assert (G : nth_error (correct_bounds (gamma_min s) (gamma_max s) gs) i = Some g).
  { unfold correct_bounds.
    assert (A : nth_error (correct_first (gamma_min s) gs) i = Some g).
    { destruct gs as [|x gs]; simpl in *; auto. destruct (Rltb _ _ && _); auto. destruct i; [lia|]. auto. }
    assert (L : length (correct_first (gamma_min s) gs) = length gs) by apply correct_first_length.
    set (l := correct_first (gamma_min s) gs) in *. clearbody l. destruct l as [|x l _] using rev_ind; [destruct i; discriminate|].
    rewrite correct_last_snoc. rewrite app_length in L. simpl in L. rewrite nth_error_app1 in A |- * by lia. auto. }
  destruct s; try exact G. exact Hg.
Qed.

(** drift of a shared array *)
Definition ramp (i : nat) : R := 10 * (1 + 1 / 10 ^ 11) ^ i.
Definition ramp_call (i : nat) : spectrum := PowerLaw 1 2 (ramp i) (ramp i + 10 ^ 10).
Lemma ramp_pos i : 0 < ramp i.
Proof. unfold ramp. apply Rmult_lt_0_compat; [lra|]. apply pow_lt. lra. Qed.
Lemma ramp_S i : ramp (S i) = ramp i * (1 + 1 / 10 ^ 11).
Proof. unfold ramp. rewrite <- tech_pow_Rmult. ring. Qed.
Lemma ramp_step i rest last0 : (forall x, In x (rest ++ last0 :: nil) -> x <= 10 ^ 10) ->
  fst (evaluate (ramp_call (S i)) (ramp i :: rest ++ last0 :: nil)) = ramp (S i) :: rest ++ last0 :: nil.
Proof.
  intros H. pose proof (ramp_pos i) as Hi. pose proof (ramp_pos (S i)) as HS. unfold evaluate, ramp_call. cbn [fst corrected gamma_min gamma_max].
  unfold correct_bounds. cbn [correct_first].
  rewrite (proj2 (Rltb_true (ramp i) (ramp (S i)))) by (rewrite ramp_S; lra).
  rewrite (proj2 (Rltb_true _ _)).
  2:{ replace ((ramp (S i) - ramp i) / ramp i) with (1 / 10 ^ 11) by (rewrite ramp_S; field; lra). lra. }
  simpl andb. cbv iota. change (ramp (S i) :: rest ++ last0 :: nil) with ((ramp (S i) :: rest) ++ last0 :: nil). rewrite correct_last_snoc.
  assert (last0 <= 10 ^ 10) by (apply H; apply in_or_app; right; left; auto).
  rewrite (proj2 (Rltb_false _ last0)) by lra. reflexivity.
Qed.
Lemma ramp_run n rest last0 : (forall x, In x (rest ++ last0 :: nil) -> x <= 10 ^ 10) ->
  after_calls (map ramp_call (seq 1 n)) (ramp 0 :: rest ++ last0 :: nil) = ramp n :: rest ++ last0 :: nil.
Proof.
  intros H. assert (G : forall m i, after_calls (map ramp_call (seq (S i) m)) (ramp i :: rest ++ last0 :: nil) = ramp (i + m) :: rest ++ last0 :: nil).
  { induction m as [|m IH]; intros i; simpl seq; simpl map. { rewrite Nat.add_0_r. reflexivity. }
    unfold after_calls. cbn [fold_left]. rewrite ramp_step by auto. fold (after_calls (map ramp_call (seq (S (S i)) m)) (ramp (S i) :: rest ++ last0 :: nil)).
    rewrite IH. f_equal. f_equal. lia. }
  apply (G n O).
Qed.
Lemma default_grid_split : exists rest last0, gamma_e_to_integrate = ramp 0 :: rest ++ last0 :: nil /\ (forall x, In x (rest ++ last0 :: nil) -> x <= 10 ^ 10).
Proof.
  assert (B : forall x, In x gamma_e_to_integrate -> x <= 10 ^ 10).
  { intros x Hx. unfold gamma_e_to_integrate in Hx.
    assert (E1 : log10 10 = 1) by apply log10_10.
    assert (P9 : 0 < pow10 9) by apply pow10_pos.
    assert (E9 : log10 (pow10 9) = 9) by apply log10_pow10.
    assert (V9 : pow10 9 = 10 ^ 9). { unfold pow10. fold (Rpower 10 9). replace 9 with (INR 9) by (simpl; lra). apply Rpower_pow; lra. }
    rewrite <- E9 in Hx. replace 1 with (log10 10) in Hx by exact E1.
    apply grid_in in Hx; try lra. }
  remember gamma_e_to_integrate as l. assert (L : length l = 200%nat) by (subst; apply logspace_length).
  assert (H0 : nth_error l 0 = Some (ramp 0)).
  { subst l. unfold gamma_e_to_integrate. rewrite logspace_nth by lia. simpl INR. rewrite Rmult_0_l, Rplus_0_r.
    f_equal. unfold pow10, ramp. rewrite Rmult_1_l, exp_ln by lra. simpl. ring. }
  destruct l as [|x l]; [discriminate|]. simpl in H0. injection H0 as ->.
  destruct l as [|y l _] using rev_ind; [discriminate|].
  exists l, y. split; auto. intros x Hx. apply B. right; auto.
Qed.
Lemma grid_drift M : exists n, M < hd 0 (after_calls (map ramp_call (seq 1 n)) gamma_e_to_integrate).
Proof.
  destruct default_grid_split as (rest & l0 & E & H). rewrite E.
  destruct (Pow_x_infinity (1 + 1 / 10 ^ 11)) with (b := Rabs M + 1) as [N HN]. { rewrite Rabs_right; lra. }
  exists N. rewrite ramp_run by auto. cbn [hd]. specialize (HN N (le_n N)).
  rewrite Rabs_right in HN by (apply Rle_ge, pow_le; lra). unfold ramp. pose proof (Rle_abs M). pose proof (Rabs_pos M). lra.
Qed.

(** ** continuity at the break *)
Lemma continuous_ext_left_right (f f1 f2 : R -> R) x : continuous f1 x -> continuous f2 x -> f1 x = f x -> f2 x = f x ->
  locally x (fun y => f y = f1 y \/ f y = f2 y) -> continuous f x.
Proof.
  intros C1 C2 E1 E2 [e He]. intros P HP. 
  assert (H1 : locally x (fun y => P (f1 y))) by (apply C1; rewrite E1; exact HP).
  assert (H2 : locally x (fun y => P (f2 y))) by (apply C2; rewrite E2; exact HP).
  destruct H1 as [d1 H1]. destruct H2 as [d2 H2].
  assert (Hm : 0 < Rmin e (Rmin d1 d2)). { apply Rmin_pos; [apply cond_pos|apply Rmin_pos; apply cond_pos]. }
  exists (mkposreal _ Hm). intros y Hy. simpl in Hy.
  assert (Hye : ball x e y). { apply (ball_le x (Rmin e (Rmin d1 d2))); auto. apply Rmin_l. }
  destruct (He y Hye) as [->| ->].
  - apply H1. apply (ball_le x (Rmin e (Rmin d1 d2))); auto. eapply Rle_trans; [apply Rmin_r|apply Rmin_l].
  - apply H2. apply (ball_le x (Rmin e (Rmin d1 d2))); auto. eapply Rle_trans; [apply Rmin_r|apply Rmin_r].
Qed.
Lemma rpower_1_base y : Rpower 1 y = 1.
Proof. unfold Rpower. rewrite ln_1, Rmult_0_r, exp_0. reflexivity. Qed.
Lemma bpl_continuous k p1 p2 gb a b : 0 < gb -> a < gb < b -> continuous (density (BrokenPowerLaw k p1 p2 gb a b)) gb.
Proof.
  intros Hb H. assert (H0 : 0 < gb / gb) by (apply Rdiv_lt_0_compat; auto).
  apply (continuous_ext_left_right _ (fun x => k * Rpower (x / gb) (- p1)) (fun x => k * Rpower (x / gb) (- p2))).
  - unfold Rpower. apply (ex_derive_continuous (fun x => k * exp (- p1 * ln (x / gb)))). auto_derive. unfold Rdiv in H0. first [exact H0|split; [exact H0|exact Logic.I]|split; [exact H0|lra]].
  - unfold Rpower. apply (ex_derive_continuous (fun x => k * exp (- p2 * ln (x / gb)))). auto_derive. unfold Rdiv in H0. first [exact H0|split; [exact H0|exact Logic.I]|split; [exact H0|lra]].
  - inside. reflexivity.
  - inside. unfold npow. replace (gb / gb) with 1 by (field; lra). rewrite !rpower_1_base. reflexivity.
  - apply (locally_in a b); try lra. intros x Hx. inside. destruct (Rleb x gb); auto.
Qed.
Lemma ecbpl_continuous k p1 p2 gc gb a b : 0 < gb -> a < gb < b -> continuous (density (ExpCutoffBrokenPowerLaw k p1 p2 gc gb a b)) gb.
Proof.
  intros Hb H. assert (H0 : 0 < gb / gb) by (apply Rdiv_lt_0_compat; auto).
  apply (continuous_ext_left_right _ (fun x => k * Rpower (x / gb) (- p1) * exp (- x / gc)) (fun x => k * Rpower (x / gb) (- p2) * exp (- x / gc))).
  - unfold Rpower. apply (ex_derive_continuous (fun x => k * exp (- p1 * ln (x / gb)) * exp (- x / gc))). auto_derive. unfold Rdiv in H0. first [exact H0|split; [exact H0|exact Logic.I]|split; [exact H0|lra]].
  - unfold Rpower. apply (ex_derive_continuous (fun x => k * exp (- p2 * ln (x / gb)) * exp (- x / gc))). auto_derive. unfold Rdiv in H0. first [exact H0|split; [exact H0|exact Logic.I]|split; [exact H0|lra]].
  - inside. reflexivity.
  - inside. unfold npow. replace (gb / gb) with 1 by (field; lra). rewrite !rpower_1_base. reflexivity.
  - apply (locally_in a b); try lra. intros x Hx. inside. destruct (Rleb x gb); auto.
Qed.

(** ** interpolated tables *)
Definition nonzero (n : list R) : list bool := map (fun v => negb (Reqb v 0)) n.
Lemma select_pair (gamma : list R) : forall n i g v, nth_error gamma i = Some g -> nth_error n i = Some v -> v <> 0 ->
  exists j, nth_error (select (nonzero n) gamma) j = Some g /\ nth_error (select (nonzero n) n) j = Some v.
Proof.
  induction gamma as [|g0 gamma IH]; intros [|v0 n] i g v Hg Hv Hz; try (destruct i; discriminate).
  destruct i as [|i]; simpl in Hg, Hv |- *.
  - injection Hg as ->. injection Hv as ->. rewrite (proj2 (Reqb_false v 0)) by auto. exists O. auto.
  - destruct (IH n i g v Hg Hv Hz) as (j & A & B). unfold nonzero in *.
    destruct (negb (Reqb v0 0)); [exists (S j)|exists j]; auto.
Qed.
Lemma select_src (gamma : list R) : forall n g, In g (select (nonzero n) gamma) -> exists i v, nth_error gamma i = Some g /\ nth_error n i = Some v /\ v <> 0.
Proof.
  induction gamma as [|g0 gamma IH]; intros [|v0 n] g Hg; simpl in Hg; try contradiction.
  destruct (Reqb_spec v0 0) as [E|E]; simpl in Hg.
  - destruct (IH n g Hg) as (i & v & A). exists (S i), v. auto.
  - destruct Hg as [->|Hg]; [exists O, v0; auto|]. destruct (IH n g Hg) as (i & v & A). exists (S i), v. auto.
Qed.
Lemma nth_error_map_some {A B} (f : A -> B) l i a : nth_error l i = Some a -> nth_error (map f l) i = Some (f a).
Proof. intros H. rewrite nth_error_map, H. reflexivity. Qed.

Section Interp.
Variable mk : list R -> list R -> res ((R -> R) * (R -> R)).
Variables (gamma n : list R) (cm3 : bool) (norm : R) (m : mass_arg) (s : spectrum) (pt : particle).
Hypothesis Hinit : interpolated_init mk gamma n cm3 norm m = Ok (s, pt).

Lemma interp_inv : exists fd, mk (map log10 (select (nonzero n) gamma)) (map log10 (select (nonzero n) n)) = Ok fd /\
  s = Interpolated norm (list_min (select (nonzero n) gamma)) (list_max (select (nonzero n) gamma)) (fst fd) (snd fd) /\
  select (nonzero n) gamma <> [] /\ check_mass m = Ok pt /\ cm3 = true.
Proof.
  unfold interpolated_init in Hinit. destruct gamma as [|g0 gm]; [discriminate|].
  destruct (check_mass m) as [p|e]; [|discriminate]. simpl bind in Hinit. destruct cm3; [|discriminate]. simpl negb in Hinit. cbv iota zeta in Hinit.
  fold (nonzero n) in Hinit.
  destruct (mk _ _) as [fd|e] eqn:E; [|discriminate]. simpl bind in Hinit.
  destruct (select (nonzero n) (g0 :: gm)) as [|x xs] eqn:Es; [discriminate|].
  injection Hinit as <- <-. exists fd. repeat split; auto. discriminate.
Qed.
Lemma interp_reproduces i g v : (forall xs ys fd, mk xs ys = Ok fd -> forall j x y, nth_error xs j = Some x -> nth_error ys j = Some y -> fst fd x = y) ->
  nth_error gamma i = Some g -> nth_error n i = Some v -> 0 < v -> density s g = norm * v.
Proof.
  intros Hmk Hg Hv Hp. destruct interp_inv as (fd & E & -> & Hne & _).
  destruct (select_pair gamma n i g v Hg Hv ltac:(lra)) as (j & A & B).
  unfold density. rewrite (proj2 (in_range_true _ _)).
  - f_equal. rewrite (Hmk _ _ _ E j (log10 g) (log10 v)).
    + apply pow10_log10; auto.
    + apply nth_error_map_some; auto.
    + apply nth_error_map_some; auto.
  - simpl. split; [apply list_min_le|apply list_max_ge]; eapply nth_error_In; eauto.
Qed.
Lemma interp_below g : (forall i x v, nth_error gamma i = Some x -> nth_error n i = Some v -> v <> 0 -> g < x) -> density s g = 0.
Proof.
  intros H. destruct interp_inv as (fd & _ & -> & Hne & _). apply density_outside. left. simpl.
  destruct (select_src gamma n _ (list_min_In _ Hne)) as (i & v & A & B & C). eapply H; eauto.
Qed.
Lemma interp_above g : (forall i x v, nth_error gamma i = Some x -> nth_error n i = Some v -> v <> 0 -> x < g) -> density s g = 0.
Proof.
  intros H. destruct interp_inv as (fd & _ & -> & Hne & _). apply density_outside. right. simpl.
  destruct (select_src gamma n _ (list_max_In _ Hne)) as (i & v & A & B & C). eapply H; eauto.
Qed.
Lemma interp_nonneg g : 0 <= norm -> 0 <= density s g.
Proof.
  intros H. destruct interp_inv as (fd & _ & -> & Hne & _). unfold density. destruct (in_range _ g); [|lra].
  apply Rmult_le_pos; auto. left. apply pow10_pos.
Qed.
Lemma interp_inner g i1 g1 v1 i2 g2 v2 : 0 < norm -> nth_error gamma i1 = Some g1 -> nth_error n i1 = Some v1 -> v1 <> 0 ->
  nth_error gamma i2 = Some g2 -> nth_error n i2 = Some v2 -> v2 <> 0 -> g1 <= g <= g2 -> 0 < density s g.
Proof.
  intros H A1 B1 C1 A2 B2 C2 Hg. destruct interp_inv as (fd & _ & -> & Hne & _). unfold density. rewrite (proj2 (in_range_true _ _)).
  - apply Rmult_lt_0_compat; auto. apply pow10_pos.
  - simpl. destruct (select_pair _ _ _ _ _ A1 B1 C1) as (j1 & D1 & _). destruct (select_pair _ _ _ _ _ A2 B2 C2) as (j2 & D2 & _).
    split; [apply Rle_trans with g1; [apply list_min_le; eapply nth_error_In; eauto|lra]|apply Rle_trans with g2; [lra|apply list_max_ge; eapply nth_error_In; eauto]].
Qed.
End Interp.
