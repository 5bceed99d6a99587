(** C28 to C35 and C69: particle distributions *)
From Verif Require Import Base TEUtils ListFacts TEStepFacts NumpyInst MathUtils Conversion Spectra Spec_Math Spec_Spectra MathFacts SpectraFacts SpectraFacts2.
From Coquelicot Require Import Coquelicot.
Import ListNotations.
Open Scope list_scope.
Open Scope R_scope.

(** ** C28 *)
Theorem C28_support : forall sh k a b g, (g < a \/ b < g) -> density (build sh k a b) g = 0.
Proof. intros sh k a b g H. apply density_outside. rewrite build_min, build_max. exact H. Qed.
Print Assumptions C28_support.

Theorem C28_positive : forall sh k a b g, shape_ok sh -> 0 < a -> 0 < k -> a <= g <= b -> 0 < density (build sh k a b) g.
Proof. exact (fun sh k a b g _ _ Hk Hg => density_build_pos sh k a b g Hk Hg). Qed.
Print Assumptions C28_positive.

(** evaluate on an array is the density at the (corrected) elements *)
Theorem C28_array : forall s gs, (forall g, In g gs -> gamma_min s <= g <= gamma_max s) -> evaluate s gs = (gs, map (density s) gs).
Proof. intros s gs H. unfold evaluate. rewrite corrected_id; auto. Qed.
Print Assumptions C28_array.

Example C28_case : 0 < density (build (ShBPL 2 3 1000) 1e-8 10 1e6) 5000 /\ density (build (ShBPL 2 3 1000) 1e-8 10 1e6) 9 = 0.
Proof. split; [apply C28_positive; simpl; lra|apply C28_support; lra]. Qed.

(** ** C29 *)
Theorem C29_analytic : forall sh k a b g, shape_ok sh -> 0 <= a -> a < g < b -> off_break sh g ->
  is_derive (fun x => density (build sh k a b) x / x ^ 2) g (ssa_point (build sh k a b) g / g ^ 2).
Proof. exact ssa_derivative. Qed.
Print Assumptions C29_analytic.

Theorem C29_interpolated : forall norm a b f df g, 0 <= a -> a < g < b -> is_derive f (log10 g) (df (log10 g)) ->
  is_derive (fun x => density (Interpolated norm a b f df) x / x ^ 2) g (ssa_point (Interpolated norm a b f df) g / g ^ 2).
Proof. exact ssa_interpolated. Qed.
Print Assumptions C29_interpolated.

Theorem C29_array : forall s gs, (forall a b, s <> EmptyDist a b) -> (forall g, In g gs -> gamma_min s <= g <= gamma_max s) ->
  evaluate_SSA_integrand s gs = Ok (gs, map (ssa_point s) gs).
Proof.
  intros s gs He H. assert (Hc : corrected s gs = gs) by (apply corrected_id; auto).
  assert (M2 : forall (f : R -> R -> R) l, map2 f l l = map (fun g => f g g) l) by (intros f l; induction l; simpl; congruence).
  destruct s; unfold evaluate_SSA_integrand; cbv zeta; rewrite ?Hc, ?M2; try reflexivity. exfalso. eapply He. reflexivity.
Qed.
Print Assumptions C29_array.

Theorem C29_empty_has_none : forall a b gs, evaluate_SSA_integrand (EmptyDist a b) gs = Err AttributeError.
Proof. reflexivity. Qed.
Print Assumptions C29_empty_has_none.

Example C29_case : is_derive (fun x => density (build (ShLP 2 (1 / 10) 1000) 1 10 1e7) x / x ^ 2) 5000 (ssa_point (build (ShLP 2 (1 / 10) 1000) 1 10 1e7) 5000 / 5000 ^ 2).
Proof. apply C29_analytic; simpl; auto; lra. Qed.

(** ** C69: the documented spectral indices, as logarithmic slopes *)
Theorem C69_slopes : forall sh k a b g, shape_ok sh -> 0 < k -> 0 <= a -> a < g < b -> off_break sh g ->
  is_derive (fun x => ln (density (build sh k a b) x)) g (- spectral_index sh g / g).
Proof. exact log_slope. Qed.
Print Assumptions C69_slopes.

(** normalisation points: gamma = 1 for the power law, the break, the reference energy *)
Theorem C69_normalisation : forall k a b g p1 p2 q gc, a <= g <= b -> 0 < g ->
  (g = 1 -> density (PowerLaw k p1 a b) g = k /\ density (ExpCutoffPowerLaw k p1 gc a b) g = k * exp (- (1) / gc)) /\
  density (BrokenPowerLaw k p1 p2 g a b) g = k /\
  density (ExpCutoffBrokenPowerLaw k p1 p2 gc g a b) g = k * exp (- g / gc) /\
  density (LogParabola k p1 q g a b) g = k.
Proof.
  intros k a b g p1 p2 q gc H Hg. assert (E : g / g = 1) by (field; lra).
  split; [intros ->; split|split; [|split]]; inside; unfold npow; rewrite ?E, ?rpower_1_base; ring.
Qed.
Print Assumptions C69_normalisation.

Example C69_case : is_derive (fun x => ln (density (BrokenPowerLaw 1 2 3 1000 10 1e6) x)) 5000 (- (3) / 5000).
Proof.
  assert (E : spectral_index (ShBPL 2 3 1000) 5000 = 3) by (simpl; destruct (Rlt_dec 5000 1000); lra).
  pose proof (C69_slopes (ShBPL 2 3 1000) 1 10 1e6 5000) as H. rewrite E in H. apply H; simpl; lra.
Qed.

(** ** C30 *)
Theorem C30_total_density : forall n m sh a b s pt, 0 < a -> a <= b ->
  from_total_density n m sh (Some a) (Some b) = Ok (s, pt) -> integrate s trapz None None 0 = n.
Proof.
  intros n m sh a b s pt Ha Hab. unfold from_total_density, div_res, construct.
  destruct (Reqb_spec (shape_integral sh 1 a b a b 0) 0) as [E|E]; [discriminate|]. simpl bind. destruct (check_mass m); [|discriminate]. simpl bind. intros H.
  injection H as <- <-. rewrite integrate_build, shape_integral_k by auto. field. auto.
Qed.
Print Assumptions C30_total_density.

Theorem C30_total_energy_density : forall P u m sh a b s pt, 0 < a -> a <= b ->
  from_total_energy_density P u m sh (Some a) (Some b) = Ok (s, pt) -> rest_energy P pt * integrate s trapz None None 1 = u.
Proof.
  intros P u m sh a b s pt Ha Hab. unfold from_total_energy_density, div_res, construct. cbv zeta.
  destruct (Reqb_spec (mc2_of P m * shape_integral sh 1 a b a b 1) 0) as [E|E]; [discriminate|]. simpl bind. destruct (check_mass m) eqn:Em; [|discriminate]. simpl bind. intros H.
  injection H as <- <-. rewrite integrate_build, shape_integral_k by auto.
  assert (Hm : mc2_of P m = rest_energy P a0) by (destruct m; simpl in Em; try discriminate; injection Em as <-; reflexivity).
  rewrite Hm in *. field. split; intros F; apply E; rewrite F; ring.
Qed.
Print Assumptions C30_total_energy_density.

Theorem C30_total_energy : forall P W V m sh a b s pt, 0 < a -> a <= b ->
  from_total_energy P W V m sh (Some a) (Some b) = Ok (s, pt) -> V * (rest_energy P pt * integrate s trapz None None 1) = W.
Proof.
  intros P W V m sh a b s pt Ha Hab. unfold from_total_energy. unfold div_res at 1. destruct (Reqb_spec V 0) as [E|E]; [discriminate|]. simpl bind.
  intros H. rewrite (C30_total_energy_density P (W / V) m sh a b s pt Ha Hab H). field. auto.
Qed.
Print Assumptions C30_total_energy.

(** they succeed for every proper range, electron or proton mass, non-zero volume *)
Theorem C30_succeeds : forall P n W V m sh a b pt, phys_ok P -> 0 < a -> a < b -> V <> 0 -> check_mass m = Ok pt ->
  (exists s, from_total_density n m sh (Some a) (Some b) = Ok (s, pt)) /\
  (exists s, from_total_energy_density P n m sh (Some a) (Some b) = Ok (s, pt)) /\
  (exists s, from_total_energy P W V m sh (Some a) (Some b) = Ok (s, pt)).
Proof.
  intros P n W V m sh a b pt HP Ha Hab HV Hm.
  assert (I0 := shape_integral_pos sh a b 0 Ha Hab). assert (I1 := shape_integral_pos sh a b 1 Ha Hab).
  assert (M : 0 < mc2_of P m). { destruct HP. destruct m; simpl in *; try discriminate; unfold rest_energy, mass_of; apply Rmult_lt_0_compat; auto; apply Rmult_lt_0_compat; lra. }
  assert (M1 : 0 < mc2_of P m * shape_integral sh 1 a b a b 1) by (apply Rmult_lt_0_compat; auto).
  unfold from_total_energy, from_total_density, from_total_energy_density, construct, div_res. cbv zeta.
  rewrite (proj2 (Reqb_false _ 0)) by lra. rewrite (proj2 (Reqb_false (mc2_of P m * _) 0)) by lra. rewrite (proj2 (Reqb_false V 0)) by auto.
  simpl bind. rewrite Hm. simpl bind. split; [|split]; eexists; reflexivity.
Qed.
Print Assumptions C30_succeeds.

(** without both limits among the keyword arguments: UnboundLocalError *)
Theorem C30_missing_limits : forall P n m sh gmin gmax, gmin = None \/ gmax = None ->
  from_total_density n m sh gmin gmax = Err UnboundLocalError /\ from_total_energy_density P n m sh gmin gmax = Err UnboundLocalError.
Proof. intros P n m sh gmin gmax [->| ->]; split; try reflexivity; destruct gmin; reflexivity. Qed.
Print Assumptions C30_missing_limits.

Example C30_case : exists s, from_total_density 1000 MassElectron (ShPL 2) (Some 10) (Some 1e5) = Ok (s, Electron) /\ integrate s trapz None None 0 = 1000.
Proof.
  destruct (C30_succeeds codata 1000 1 1 MassElectron (ShPL 2) 10 1e5 Electron codata_ok) as ([s Hs] & _); try lra; auto.
  exists s. split; auto. apply (C30_total_density 1000 MassElectron (ShPL 2) 10 1e5 s Electron); auto; lra.
Qed.

(** ** C31 *)
Theorem C31_value : forall n m sh a b pt, a <= 1 <= b -> check_mass m = Ok pt ->
  exists s, from_density_at_gamma_1 n m sh a b = Ok (s, pt) /\ density s 1 = n /\ gamma_min s = a /\ gamma_max s = b.
Proof.
  intros n m sh a b pt H Hm. unfold from_density_at_gamma_1, div_res, construct.
  assert (D : 0 < density (build sh 1 a b) 1) by (apply density_build_pos; lra).
  rewrite (proj2 (Reqb_false _ 0)) by lra. simpl bind. rewrite Hm. simpl bind. eexists. split; [reflexivity|].
  rewrite density_build_k, build_min, build_max. split; auto. field. lra.
Qed.
Print Assumptions C31_value.

Theorem C31_division_by_zero : forall n m sh a b, 1 < a \/ b < 1 -> from_density_at_gamma_1 n m sh a b = Err NonFinite.
Proof.
  intros n m sh a b H. unfold from_density_at_gamma_1. rewrite C28_support by tauto. unfold div_res. rewrite (proj2 (Reqb_true 0 0)) by auto. reflexivity.
Qed.
Print Assumptions C31_division_by_zero.

Example C31_case : from_density_at_gamma_1 1e-13 MassElectron (ShPL 2.1) 10 1e5 = Err NonFinite.
Proof. apply C31_division_by_zero. lra. Qed.

(** ** C32 *)
Theorem C32_linear : forall c s g lo hi gp,
  density (rescaled c s) g = c * density s g /\ ssa_point (rescaled c s) g = c * ssa_point s g /\
  integrate (rescaled c s) trapz lo hi gp = c * integrate s trapz lo hi gp.
Proof. exact (fun c s g lo hi gp => conj (density_rescaled c s g) (conj (ssa_rescaled c s g) (integrate_rescaled c s lo hi gp))). Qed.
Print Assumptions C32_linear.

Theorem C32_loglog : forall c s lo hi gp, 0 < c ->
  (forall g, In g (fst (evaluate s (np_logspace (log10 (match lo with Some g => g | None => gamma_min s end))
                                       (log10 (match hi with Some g => g | None => gamma_max s end)) 200))) ->
     let v := density s g * npow g gp in v = 0 \/ (representable v /\ representable (c * v))) ->
  integrate (rescaled c s) trapz_loglog lo hi gp = c * integrate s trapz_loglog lo hi gp.
Proof. exact integrate_rescaled_loglog. Qed.
Print Assumptions C32_loglog.

(** case: doubling the flat distribution 1 on [1, 10] *)
Example C32_case : integrate (PowerLaw (2 * 1) 0 1 10) trapz_loglog None None 0 = 2 * integrate (PowerLaw 1 0 1 10) trapz_loglog None None 0.
Proof.
  apply (C32_loglog 2 (PowerLaw 1 0 1 10) None None 0); [lra|]. intros g Hg. cbn [gamma_min gamma_max] in Hg.
  unfold evaluate in Hg. rewrite corrected_id in Hg. 2:{ intros x Hx. simpl. apply (grid_in 1 10 200); auto; lra. }
  cbn [fst] in Hg. apply grid_in in Hg; try lra.
  assert (E : density (PowerLaw 1 0 1 10) g * npow g 0 = 1). { inside. unfold npow. rewrite Ropp_0, Rpower_O by lra. ring. }
  cbv zeta. rewrite E. right. pose proof ftiny_lt_1. assert (2 <= fmax).
  { unfold fmax. assert (2 ^ 1 <= 2 ^ 1023) by (apply Rle_pow; [lra|lia]). assert (/ 2 ^ 52 < 1). { rewrite <- Rinv_1. apply Rinv_lt_contravar; [rewrite Rmult_1_l; apply pow_lt; lra|]. apply Rlt_pow_R1; [lra|lia]. }
    rewrite pow_1 in H0. nra. }
  split; split; lra.
Qed.

(** ** C33 *)
Theorem C33_one_call : forall s gs i x', gamma_min s <= gamma_max s ->
  length (fst (evaluate s gs)) = length gs /\
  (nth_error (fst (evaluate s gs)) i = Some x' ->
   exists x, nth_error gs i = Some x /\
   (x' = x \/ (i = O /\ x' = gamma_min s /\ x < gamma_min s /\ (gamma_min s - x) / x < 1 / 10 ^ 10)
           \/ (S i = length gs /\ x' = gamma_max s /\ gamma_max s < x /\ (x - gamma_max s) / gamma_max s < 1 / 10 ^ 10))).
Proof. exact (fun s gs i x' H => conj (corrected_length s gs) (corrected_nth s gs i x' H)). Qed.
Print Assumptions C33_one_call.

Theorem C33_interior : forall s gs i g, (0 < i)%nat -> (S i < length gs)%nat -> nth_error gs i = Some g -> nth_error (fst (evaluate s gs)) i = Some g.
Proof. exact corrected_inside_nth. Qed.
Print Assumptions C33_interior.

(** the shared default grid can drift without bound over a sequence of calls,
    each with a proper range *)
Theorem C33_drift : forall M, exists ss,
  (forall s, In s ss -> 0 < gamma_min s < gamma_max s) /\ M < hd 0 (after_calls ss gamma_e_to_integrate).
Proof.
  intros M. destruct (grid_drift M) as [n H]. exists (map ramp_call (seq 1 n)). split; auto.
  intros s Hs. apply in_map_iff in Hs. destruct Hs as (i & <- & _). simpl. pose proof (ramp_pos i). lra.
Qed.
Print Assumptions C33_drift.

(** case: a first element 1e-11 below gamma_min is moved onto it *)
Example C33_case : fst (evaluate (PowerLaw 1 2 10 1000) [10 - 1 / 10 ^ 11; 100]%list) = [10; 100]%list.
Proof.
  unfold evaluate, corrected, correct_bounds. cbn [fst gamma_min gamma_max correct_first].
  rewrite (proj2 (Rltb_true (10 - 1 / 10 ^ 11) 10)) by lra. rewrite (proj2 (Rltb_true _ (1 / 10 ^ 10))).
  - simpl andb. cbv iota. apply (correct_last_id 1000 [10; 100]%list). intros x l E. destruct l as [|a [|b l]]; simpl in E; try discriminate.
    + injection E as _ <-. lra.
    + destruct l; discriminate.
  - apply (Rmult_lt_reg_r (10 - 1 / 10 ^ 11)); [lra|]. unfold Rdiv at 1. rewrite Rmult_assoc, Rinv_l by lra. lra.
Qed.

(** ** C34 *)
Theorem C34_continuous : forall k p1 p2 gc gb a b, 0 < gb -> a < gb < b ->
  continuous (density (BrokenPowerLaw k p1 p2 gb a b)) gb /\ continuous (density (ExpCutoffBrokenPowerLaw k p1 p2 gc gb a b)) gb.
Proof. exact (fun k p1 p2 gc gb a b H1 H2 => conj (bpl_continuous k p1 p2 gb a b H1 H2) (ecbpl_continuous k p1 p2 gc gb a b H1 H2)). Qed.
Print Assumptions C34_continuous.

Theorem C34_values : forall k p1 p2 p q gc g a b, 0 < g -> a <= g <= b ->
  density (BrokenPowerLaw k p1 p2 g a b) g = k /\
  density (ExpCutoffBrokenPowerLaw k p1 p2 gc g a b) g = k * exp (- g / gc) /\
  density (LogParabola k p q g a b) g = k.
Proof.
  intros k p1 p2 p q gc g a b Hg H. destruct (C69_normalisation k a b g p1 p2 q gc H Hg) as (_ & A & B & _).
  destruct (C69_normalisation k a b g p p2 q gc H Hg) as (_ & _ & _ & C). auto.
Qed.
Print Assumptions C34_values.

Theorem C34_equal_indices : forall k p gb a b g, 0 < gb -> 0 < a ->
  density (BrokenPowerLaw k p p gb a b) g = density (PowerLaw (k * Rpower gb p) p a b) g.
Proof.
  intros k p gb a b g Hb Ha. unfold density. change (in_range (PowerLaw (k * Rpower gb p) p a b) g) with (in_range (BrokenPowerLaw k p p gb a b) g).
  destruct (in_range _ g) eqn:E; auto. apply in_range_true in E. simpl in E. cbv zeta. unfold npow.
  replace (if Rleb g gb then p else p) with p by (destruct (Rleb g gb); auto).
  unfold Rdiv. rewrite <- Rpower_mult_distr by (try apply Rinv_0_lt_compat; lra).
  rewrite Rmult_assoc. f_equal. rewrite Rmult_comm. f_equal. unfold Rpower. rewrite ln_Rinv by auto. f_equal. ring.
Qed.
Print Assumptions C34_equal_indices.

Example C34_case : continuous (density (BrokenPowerLaw 1 2 3 1000 10 1e7)) 1000.
Proof. apply (C34_continuous 1 2 3 1 1000 10 1e7); lra. Qed.

(** ** C35 *)
(** an interpolator class that passes through its nodes *)
Definition through_nodes (mk : list R -> list R -> res ((R -> R) * (R -> R))) : Prop :=
  forall xs ys fd, mk xs ys = Ok fd -> forall j x y, nth_error xs j = Some x -> nth_error ys j = Some y -> fst fd x = y.

Theorem C35_reproduces : forall mk gamma n cm3 norm m s pt i g v, through_nodes mk ->
  interpolated_init mk gamma n cm3 norm m = Ok (s, pt) -> nth_error gamma i = Some g -> nth_error n i = Some v -> 0 < v -> density s g = norm * v.
Proof. exact (fun mk gamma n cm3 norm m s pt i g v Hmk H => interp_reproduces mk gamma n cm3 norm m s pt H i g v Hmk). Qed.
Print Assumptions C35_reproduces.

Theorem C35_outside : forall mk gamma n cm3 norm m s pt g, interpolated_init mk gamma n cm3 norm m = Ok (s, pt) ->
  (forall i x v, nth_error gamma i = Some x -> nth_error n i = Some v -> v <> 0 -> g < x) \/
  (forall i x v, nth_error gamma i = Some x -> nth_error n i = Some v -> v <> 0 -> x < g) -> density s g = 0.
Proof.
  intros mk gamma n cm3 norm m s pt g H [A|A]; [eapply interp_below; eauto|eapply interp_above; eauto].
Qed.
Print Assumptions C35_outside.

Theorem C35_nonnegative : forall mk gamma n cm3 norm m s pt g, interpolated_init mk gamma n cm3 norm m = Ok (s, pt) -> 0 <= norm -> 0 <= density s g.
Proof. exact (fun mk gamma n cm3 norm m s pt g H => interp_nonneg mk gamma n cm3 norm m s pt H g). Qed.
Print Assumptions C35_nonnegative.

(** a zero density tabulated between two non-zero ones is not reproduced *)
Theorem C35_inner_zero : forall mk gamma n cm3 norm m s pt g i1 g1 v1 i2 g2 v2, interpolated_init mk gamma n cm3 norm m = Ok (s, pt) -> 0 < norm ->
  nth_error gamma i1 = Some g1 -> nth_error n i1 = Some v1 -> v1 <> 0 ->
  nth_error gamma i2 = Some g2 -> nth_error n i2 = Some v2 -> v2 <> 0 -> g1 <= g <= g2 -> 0 < density s g.
Proof. exact (fun mk gamma n cm3 norm m s pt g i1 g1 v1 i2 g2 v2 H => interp_inner mk gamma n cm3 norm m s pt H g i1 g1 v1 i2 g2 v2). Qed.
Print Assumptions C35_inner_zero.

Theorem C35_rejects : forall mk gamma n norm m, (gamma = nil -> interpolated_init mk gamma n true norm m = Err IndexError) /\
  (gamma <> nil -> (exists pt, check_mass m = Ok pt) -> interpolated_init mk gamma n false norm m = Err (ValueError "Provide a particle distribution in cm-3")).
Proof.
  intros mk gamma n norm m. split; [intros ->; reflexivity|]. intros Hg [pt Hm]. unfold interpolated_init. destruct gamma; [congruence|]. rewrite Hm. reflexivity.
Qed.
Print Assumptions C35_rejects.

Definition mk_linear (xs ys : list R) : res ((R -> R) * (R -> R)) :=
  if strictly_increasingb xs && Nat.eqb (length ys) (length xs) then Ok (lin_interp xs ys, fun _ => 0) else Err (ValueError "x").
Lemma mk_linear_nodes : through_nodes mk_linear.
Proof.
  intros xs ys fd H j x y Hx Hy. unfold mk_linear in H. destruct (strictly_increasingb xs) eqn:E; [|discriminate]. destruct (Nat.eqb_spec (length ys) (length xs)); [|discriminate].
  injection H as <-. simpl. apply (interp_node np0 np0_exact xs ys j x y); auto.
  clear -E. induction xs as [|u xs IH]; intros i a b Ha Hb. { destruct i; discriminate. }
  destruct xs as [|w xs]. { destruct i; simpl in Hb; [discriminate|destruct i; discriminate]. }
  simpl in E. apply andb_true_iff in E. destruct E as [E1 E2]. destruct i as [|i].
  - simpl in *. injection Ha as <-. injection Hb as <-. apply Rltb_true; auto.
  - apply (IH E2 i); auto.
Qed.
Example C35_case : exists s pt, interpolated_init mk_linear [10; 100; 1000]%list [1; 0; 4]%list true 2 MassElectron = Ok (s, pt) /\
  density s 1000 = 2 * 4 /\ 0 < density s 100 /\ density s 5 = 0.
Proof.
  assert (H : exists s pt, interpolated_init mk_linear [10; 100; 1000]%list [1; 0; 4]%list true 2 MassElectron = Ok (s, pt)).
  { unfold interpolated_init. simpl check_mass. simpl bind. cbv zeta. simpl negb. cbv iota. simpl map.
    rewrite (proj2 (Reqb_false 1 0)), (proj2 (Reqb_true 0 0)), (proj2 (Reqb_false 4 0)) by lra. simpl. unfold mk_linear. simpl.
    rewrite (proj2 (Rltb_true (log10 10) (log10 1000))) by (apply log10_lt; lra). simpl. eauto. }
  destruct H as (s & pt & H). exists s, pt. split; auto. split; [|split].
  - apply (C35_reproduces mk_linear _ _ _ _ _ s pt 2 1000 4 mk_linear_nodes H); auto. lra.
  - apply (C35_inner_zero mk_linear _ _ _ _ _ s pt 100 0 10 1 2 1000 4 H); auto; lra.
  - apply (C35_outside mk_linear _ _ _ _ _ s pt 5 H). left. intros i x v Hx _ _.
    destruct i as [|[|[|i]]]; simpl in Hx; try (injection Hx as <-; lra). destruct i; discriminate.
Qed.
