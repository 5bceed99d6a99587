(** Facts about the particle distributions *)
From Verif Require Import Base TEUtils ListFacts NumpyInst MathUtils Conversion Spectra Spec_Math Spec_Spectra MathFacts.
From Coquelicot Require Import Coquelicot.
Import ListNotations.
Open Scope list_scope.
Open Scope R_scope.
Notation Forall := List.Forall (only parsing).

Lemma npow_pos x y : 0 < npow x y.
Proof. apply exp_pos. Qed.
Lemma build_min sh k a b : gamma_min (build sh k a b) = a.
Proof. destruct sh; reflexivity. Qed.
Lemma build_max sh k a b : gamma_max (build sh k a b) = b.
Proof. destruct sh; reflexivity. Qed.
Lemma in_range_build sh k a b g : in_range (build sh k a b) g = Rleb a g && Rleb g b.
Proof. unfold in_range. rewrite build_min, build_max. reflexivity. Qed.
Lemma in_range_true s g : in_range s g = true <-> gamma_min s <= g <= gamma_max s.
Proof. unfold in_range. rewrite andb_true_iff, !Rleb_true. reflexivity. Qed.

(** ** support, sign, linearity *)
Lemma density_outside s g : g < gamma_min s \/ gamma_max s < g -> density s g = 0.
Proof.
  intros H. unfold density. destruct (in_range s g) eqn:E; auto. apply in_range_true in E. lra.
Qed.
Lemma density_build_k sh k a b g : density (build sh k a b) g = k * density (build sh 1 a b) g.
Proof.
  unfold density. rewrite !in_range_build. destruct (Rleb a g && Rleb g b); [|ring].
  destruct sh; simpl; ring.
Qed.
Lemma density_build_pos sh k a b g : 0 < k -> a <= g <= b -> 0 < density (build sh k a b) g.
Proof.
  intros Hk Hg. unfold density. rewrite in_range_build. rewrite (proj2 (Rleb_true a g)), (proj2 (Rleb_true g b)) by lra. simpl.
  destruct sh; simpl; repeat apply Rmult_lt_0_compat; auto; apply exp_pos.
Qed.
Lemma density_nonneg_build sh k a b g : 0 <= k -> 0 <= density (build sh k a b) g.
Proof.
  intros Hk. unfold density. destruct (in_range (build sh k a b) g); [|lra].
  destruct sh; simpl; repeat apply Rmult_le_pos; auto; left; apply exp_pos.
Qed.
Lemma density_rescaled c s g : density (rescaled c s) g = c * density s g.
Proof.
  unfold density. assert (E : in_range (rescaled c s) g = in_range s g) by (destruct s; reflexivity). rewrite E.
  destruct (in_range s g); [|ring]. destruct s; simpl; ring.
Qed.
Lemma ssa_rescaled c s g : ssa_point (rescaled c s) g = c * ssa_point s g.
Proof.
  destruct s; cbn [rescaled ssa_point].
  - unfold in_range; simpl. ring.
  - unfold in_range; simpl. destruct (Rleb gmin g && Rleb g gmax); [|ring]. unfold Rdiv. ring.
  - change (LogParabola (c * k) p q g0 gmin gmax) with (rescaled c (LogParabola k p q g0 gmin gmax)). rewrite density_rescaled. simpl. ring.
  - change (ExpCutoffPowerLaw (c * k) p gc gmin gmax) with (rescaled c (ExpCutoffPowerLaw k p gc gmin gmax)). rewrite density_rescaled. simpl. ring.
  - change (ExpCutoffBrokenPowerLaw (c * k) p1 p2 gc gb gmin gmax) with (rescaled c (ExpCutoffBrokenPowerLaw k p1 p2 gc gb gmin gmax)).
    rewrite density_rescaled. unfold in_range; simpl. destruct (Rleb gmin g && Rleb g gmax); ring.
  - change (Interpolated (c * norm) gmin gmax f df) with (rescaled c (Interpolated norm gmin gmax f df)). rewrite density_rescaled.
    cbv zeta. unfold Rdiv. ring.
  - ring.
Qed.
Lemma corrected_rescaled c s gs : corrected (rescaled c s) gs = corrected s gs.
Proof. destruct s; reflexivity. Qed.
Lemma map2_map_map {A B C} (f : A -> B -> C) (g : B -> A) l : map2 f (map g l) l = map (fun x => f (g x) x) l.
Proof. induction l; simpl; congruence. Qed.
Lemma integrate_eq s integ lo hi gp : (match s with EmptyDist _ _ => False | _ => True end) ->
  integrate s integ lo hi gp =
  (let gs := corrected s (np_logspace (log10 (match lo with Some g => g | None => gamma_min s end))
                                       (log10 (match hi with Some g => g | None => gamma_max s end)) 200) in
   integ (map (fun g => density s g * npow g gp) gs) gs).
Proof. intros H. destruct s; try contradiction; unfold integrate, evaluate; cbv zeta; rewrite map2_map_map; reflexivity. Qed.
Lemma integrate_rescaled c s lo hi gp : integrate (rescaled c s) trapz lo hi gp = c * integrate s trapz lo hi gp.
Proof.
  destruct s as [| | | | | |a b]; try (rewrite !integrate_eq by exact Logic.I; cbv zeta; rewrite corrected_rescaled; cbn [rescaled gamma_min gamma_max]; rewrite <- trapz_scale; f_equal; rewrite map_map; apply map_ext; intros g; match goal with |- density ?x _ * _ = c * (density ?y _ * _) => change x with (rescaled c y) end; rewrite density_rescaled; ring).
  simpl. ring.
Qed.
Lemma integrate_rescaled_loglog c s lo hi gp : 0 < c ->
  (forall g, In g (corrected s (np_logspace (log10 (match lo with Some g => g | None => gamma_min s end))
                                       (log10 (match hi with Some g => g | None => gamma_max s end)) 200)) ->
     let v := density s g * npow g gp in v = 0 \/ (representable v /\ representable (c * v))) ->
  integrate (rescaled c s) trapz_loglog lo hi gp = c * integrate s trapz_loglog lo hi gp.
Proof.
  intros Hc H.
  destruct s as [| | | | | |a b]; try (rewrite !integrate_eq by exact Logic.I; cbv zeta; rewrite corrected_rescaled; cbn [rescaled gamma_min gamma_max] in *; rewrite <- loglog_scale; auto; [f_equal; rewrite map_map; apply map_ext; intros g; match goal with |- density ?x _ * _ = c * (density ?y _ * _) => change x with (rescaled c y) end; rewrite density_rescaled; ring|intros v Hv; apply in_map_iff in Hv; destruct Hv as (g & <- & Hg); apply H; auto]).
  simpl. ring.
Qed.

(** ** in-place corrections *)
Lemma correct_first_length a l : length (correct_first a l) = length l.
Proof. destruct l as [|x l]; simpl; auto. destruct (Rltb x a && _); reflexivity. Qed.
Lemma correct_last_snoc b l x : correct_last b (l ++ x :: nil) =
  l ++ (if Rltb b x && Rltb ((x - b) / b) (1 / 10 ^ 10) then b else x) :: nil.
Proof.
  unfold correct_last. rewrite rev_app_distr. simpl rev. cbn [app].
  destruct (Rltb b x && _); auto. simpl. rewrite rev_involutive. reflexivity.
Qed.
Lemma correct_first_id a l : (forall x l', l = x :: l' -> a <= x) -> correct_first a l = l.
Proof. destruct l as [|x l]; simpl; auto. intros H. rewrite (proj2 (Rltb_false x a)) by (apply (H x l); auto). reflexivity. Qed.
Lemma correct_last_id b l : (forall x l', l = l' ++ x :: nil -> x <= b) -> correct_last b l = l.
Proof.
  intros H. destruct l as [|x l] using rev_ind; auto. rewrite correct_last_snoc.
  rewrite (proj2 (Rltb_false b x)) by (apply (H x l); auto). reflexivity.
Qed.
Lemma corrected_id s gs : (forall g, In g gs -> gamma_min s <= g <= gamma_max s) -> corrected s gs = gs.
Proof.
  intros H. assert (E : correct_bounds (gamma_min s) (gamma_max s) gs = gs).
  { unfold correct_bounds. rewrite correct_first_id. 2:{ intros x l ->. apply (H x). left; auto. }
    apply correct_last_id. intros x l ->. apply (H x). apply in_or_app. right; left; auto. }
  destruct s; simpl; auto.
Qed.

(** ** the grid between gamma_min and gamma_max *)
Lemma grid_in a b n g : 0 < a -> a <= b -> In g (np_logspace (log10 a) (log10 b) n) -> a <= g <= b.
Proof.
  intros Ha Hab H. destruct (In_nth_error _ _ H) as [i Hi].
  assert (Hn : (i < n)%nat). { pose proof (nth_error_Some (np_logspace (log10 a) (log10 b) n) i) as T. rewrite logspace_length in T. apply T. congruence. }
  rewrite logspace_nth in Hi by auto. apply some_inj in Hi. subst g.
  assert (L : log10 a <= log10 b). { destruct Hab as [Hab| ->]; [left; apply log10_lt; auto|right; auto]. }
  assert (M : forall x y, x <= y -> pow10 x <= pow10 y). { intros x y [Hx| ->]; [left; apply pow10_lt; auto|right; auto]. }
  destruct (Nat.eq_dec n 1) as [->|Hn1].
  { assert (i = O) by lia. subst i. simpl INR. rewrite Rmult_0_l, Rplus_0_r. rewrite pow10_log10 by auto. lra. }
  assert (Hd : 0 < INR (n - 1)) by (apply lt_0_INR; lia).
  assert (0 <= INR i) by apply pos_INR. assert (INR i <= INR (n - 1)) by (apply le_INR; lia).
  set (w := (log10 b - log10 a) / INR (n - 1)). assert (Hw : 0 <= w) by (apply Rdiv_le_0_compat; lra).
  assert (Ew : INR (n - 1) * w = log10 b - log10 a) by (unfold w; field; lra).
  split.
  - apply Rle_trans with (pow10 (log10 a)); [rewrite pow10_log10; lra|]. apply M. assert (0 <= INR i * w) by (apply Rmult_le_pos; auto). lra.
  - apply Rle_trans with (pow10 (log10 b)); [|rewrite pow10_log10; lra]. apply M. assert (INR i * w <= INR (n - 1) * w) by (apply Rmult_le_compat_r; auto). lra.
Qed.
Lemma shape_integral_eq sh k a b gp : 0 < a -> a <= b -> shape_integral sh k a b a b gp
  = trapz (map (fun g => density (build sh k a b) g * npow g gp) (np_logspace (log10 a) (log10 b) 200)) (np_logspace (log10 a) (log10 b) 200).
Proof.
  intros Ha Hab. unfold shape_integral, evaluate. rewrite map2_map_map, corrected_id; auto.
  intros g Hg. rewrite build_min, build_max. apply (grid_in a b 200); auto.
Qed.
Lemma integrate_build sh k a b gp : 0 < a -> a <= b -> integrate (build sh k a b) trapz None None gp = shape_integral sh k a b a b gp.
Proof.
  intros Ha Hab. rewrite integrate_eq by (destruct sh; exact Logic.I). rewrite shape_integral_eq by auto. cbv zeta.
  rewrite build_min, build_max, corrected_id; auto. intros g Hg. rewrite build_min, build_max. apply (grid_in a b 200); auto.
Qed.
Lemma shape_integral_k sh k a b gp : 0 < a -> a <= b -> shape_integral sh k a b a b gp = k * shape_integral sh 1 a b a b gp.
Proof.
  intros Ha Hab. rewrite !shape_integral_eq by auto. rewrite <- trapz_scale. f_equal. rewrite map_map. apply map_ext.
  intros g. rewrite density_build_k. ring.
Qed.
Lemma trapz_all_pos x y : incr x -> (2 <= length x)%nat -> length y = length x -> (forall v, In v y -> 0 < v) -> 0 < trapz y x.
Proof.
  intros Hx Hl Hy H. destruct x as [|x0 [|x1 x]]; simpl in Hl; try lia. destruct y as [|y0 [|y1 y]]; try discriminate.
  apply trapz_pos; auto. { apply List.Forall_forall. intros v Hv. left. auto. }
  assert (0 < y0) by (apply H; simpl; auto). assert (0 < y1) by (apply H; simpl; auto). lra.
Qed.
Lemma shape_integral_pos sh a b gp : 0 < a -> a < b -> 0 < shape_integral sh 1 a b a b gp.
Proof.
  intros Ha Hab. rewrite shape_integral_eq by lra. apply trapz_all_pos.
  - apply logspace_incr, log10_lt; auto.
  - rewrite logspace_length. lia.
  - apply map_length.
  - intros v Hv. apply in_map_iff in Hv. destruct Hv as (g & <- & Hg). apply Rmult_lt_0_compat; [|apply npow_pos].
    apply density_build_pos; [lra|]. apply (grid_in a b 200); auto. lra.
Qed.

(** ** derivatives *)
Definition core (sh : shape) (k : R) (g : R) : R :=
  match sh with
  | ShPL p => k * Rpower g (- p)
  | ShBPL p1 p2 gb => k * Rpower (g / gb) (- p1)
  | ShLP p q g0 => k * Rpower (g / g0) (- p - q * log10 (g / g0))
  | ShECPL p gc => k * Rpower g (- p) * exp (- g / gc)
  | ShECBPL p1 p2 gc gb => k * Rpower (g / gb) (- p1) * exp (- g / gc)
  end.
Lemma rpow_S x p : 0 < x -> Rpower x (- p - 1) = Rpower x (- p) / x.
Proof. intros. unfold Rminus. rewrite Rpower_plus, (Rpower_Ropp x 1), Rpower_1 by auto. reflexivity. Qed.

Lemma d_pl k p g : 0 < g -> is_derive (fun x => k * Rpower x (- p) / x ^ 2) g (- (p + 2) / g * (k * Rpower g (- p)) / g ^ 2).
Proof. intros H. unfold Rpower. auto_derive. { repeat split; try lra; nra. } field. lra. Qed.
Lemma d_bpl k p gb g : 0 < gb -> 0 < g -> is_derive (fun x => k * Rpower (x / gb) (- p) / x ^ 2) g (- (p + 2) / g * (k * Rpower (g / gb) (- p)) / g ^ 2).
Proof.
  intros Hb H. assert (0 < g / gb) by (apply Rdiv_lt_0_compat; auto). unfold Rpower. auto_derive.
  { unfold Rdiv in H0. repeat split; try lra; nra. } unfold Rdiv. field. lra.
Qed.
Lemma d_lp k p q g0 g : 0 < g0 -> 0 < g ->
  is_derive (fun x => k * Rpower (x / g0) (- p - q * log10 (x / g0)) / x ^ 2) g
    (- (p + 2 * q * log10 (g / g0) + 2) / g * (k * Rpower (g / g0) (- p - q * log10 (g / g0))) / g ^ 2).
Proof.
  intros Hb H. assert (0 < g / g0) by (apply Rdiv_lt_0_compat; auto). pose proof ln10_pos. unfold Rpower, log10. auto_derive.
  { unfold Rdiv in H0. repeat split; try lra; nra. } unfold Rdiv, Rminus. field. lra.
Qed.
Lemma d_ecpl k p gc g : 0 < gc -> 0 < g -> is_derive (fun x => k * Rpower x (- p) * exp (- x / gc) / x ^ 2) g
  ((- (p + 2) / g + - 1 / gc) * (k * Rpower g (- p) * exp (- g / gc)) / g ^ 2).
Proof. intros Hc H. unfold Rpower. auto_derive. { repeat split; try lra; nra. } unfold Rdiv. field. lra. Qed.
Lemma d_ecbpl k p gc gb g : 0 < gc -> 0 < gb -> 0 < g -> is_derive (fun x => k * Rpower (x / gb) (- p) * exp (- x / gc) / x ^ 2) g
  ((- (p + 2) / g + - 1 / gc) * (k * Rpower (g / gb) (- p) * exp (- g / gc)) / g ^ 2).
Proof.
  intros Hc Hb H. assert (0 < g / gb) by (apply Rdiv_lt_0_compat; auto). unfold Rpower. auto_derive.
  { unfold Rdiv in H0. repeat split; try lra; nra. } unfold Rdiv. field. lra.
Qed.

(** inside the range and on one side of the break the density is one formula *)
Lemma locally_side a b gb g (Q : R -> Prop) : a < g -> g < b -> g <> gb ->
  (forall x, a < x < b -> (g < gb -> x < gb) -> (gb < g -> gb < x) -> Q x) -> locally g Q.
Proof.
  intros Ha Hb Hne H. destruct (Rdichotomy _ _ Hne) as [L|L].
  - apply (locally_interval Q g a (Rmin b gb)); simpl; auto. { apply Rmin_glb_lt; auto. }
    intros y Hy1 Hy2. simpl in *. pose proof (Rmin_l b gb). pose proof (Rmin_r b gb). apply H; lra.
  - apply (locally_interval Q g (Rmax a gb) b); simpl; auto. { apply Rmax_lub_lt; auto. }
    intros y Hy1 Hy2. simpl in *. pose proof (Rmax_l a gb). pose proof (Rmax_r a gb). apply H; lra.
Qed.
Lemma locally_in a b g (Q : R -> Prop) : a < g -> g < b -> (forall x, a < x < b -> Q x) -> locally g Q.
Proof. intros Ha Hb H. apply (locally_interval Q g a b); simpl; auto. Qed.

Ltac inside := unfold ssa_point, ssa_prefactor; unfold density; rewrite ?in_range_build; unfold in_range; cbn [gamma_min gamma_max];
  repeat (rewrite (proj2 (Rleb_true _ _)) by lra); cbn [andb]; cbv zeta.

Lemma ssa_derivative sh k a b g : shape_ok sh -> 0 <= a -> a < g < b -> off_break sh g ->
  is_derive (fun x => density (build sh k a b) x / x ^ 2) g (ssa_point (build sh k a b) g / g ^ 2).
Proof.
  intros Hok Ha Hg Hb. assert (H0 : 0 < g) by lra. destruct sh as [p|p1 p2 gb|p q g0|p gc|p1 p2 gc gb]; simpl in Hok, Hb; cbn [build].
  - apply is_derive_ext_loc with (fun x => k * Rpower x (- p) / x ^ 2).
    + apply (locally_in a b); try lra. intros x Hx. inside. reflexivity.
    + inside. unfold npow. rewrite rpow_S by auto. replace (k * (- (p + 2) * (Rpower g (- p) / g)) / g ^ 2) with (- (p + 2) / g * (k * Rpower g (- p)) / g ^ 2) by (field; lra).
      apply d_pl; auto.
  - destruct (Rdichotomy _ _ Hb) as [L|L].
    + apply is_derive_ext_loc with (fun x => k * Rpower (x / gb) (- p1) / x ^ 2).
      * apply (locally_side a b gb); try lra. intros x Hx S1 S2. specialize (S1 L). inside. reflexivity.
      * inside. unfold npow. replace (k * - (p1 + 2) / g * Rpower (g / gb) (- p1) / g ^ 2) with (- (p1 + 2) / g * (k * Rpower (g / gb) (- p1)) / g ^ 2) by (field; lra).
        apply d_bpl; auto.
    + apply is_derive_ext_loc with (fun x => k * Rpower (x / gb) (- p2) / x ^ 2).
      * apply (locally_side a b gb); try lra. intros x Hx S1 S2. specialize (S2 L). inside. rewrite (proj2 (Rleb_false x gb)) by lra. reflexivity.
      * inside. rewrite (proj2 (Rleb_false g gb)) by lra. unfold npow.
        replace (k * - (p2 + 2) / g * Rpower (g / gb) (- p2) / g ^ 2) with (- (p2 + 2) / g * (k * Rpower (g / gb) (- p2)) / g ^ 2) by (field; lra).
        apply d_bpl; auto.
  - apply is_derive_ext_loc with (fun x => k * Rpower (x / g0) (- p - q * log10 (x / g0)) / x ^ 2).
    + apply (locally_in a b); try lra. intros x Hx. inside. reflexivity.
    + inside. apply d_lp; auto.
  - apply is_derive_ext_loc with (fun x => k * Rpower x (- p) * exp (- x / gc) / x ^ 2).
    + apply (locally_in a b); try lra. intros x Hx. inside. reflexivity.
    + inside. apply d_ecpl; auto.
  - destruct Hok as [Hc Hgb]. destruct (Rdichotomy _ _ Hb) as [L|L].
    + apply is_derive_ext_loc with (fun x => k * Rpower (x / gb) (- p1) * exp (- x / gc) / x ^ 2).
      * apply (locally_side a b gb); try lra. intros x Hx S1 S2. specialize (S1 L). inside. reflexivity.
      * inside. apply d_ecbpl; auto.
    + apply is_derive_ext_loc with (fun x => k * Rpower (x / gb) (- p2) * exp (- x / gc) / x ^ 2).
      * apply (locally_side a b gb); try lra. intros x Hx S1 S2. specialize (S2 L). inside. rewrite (proj2 (Rleb_false x gb)) by lra. reflexivity.
      * inside. rewrite (proj2 (Rleb_false g gb)) by lra. apply d_ecbpl; auto.
Qed.
