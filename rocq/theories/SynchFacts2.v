(** Structure of the synchrotron SEDs *)
From Verif Require Import Base TEUtils NumpyInst MathUtils Conversion Spectra Blob Synchrotron Spec_Math Spec_Spectra Spec_Blob Spec_Rad MathFacts SpectraFacts BlobFacts Calculus SynchFacts.
From Coquelicot Require Import Coquelicot.
Import ListNotations.
Open Scope list_scope.
Open Scope R_scope.

Section S.
Variable P : phys.
Definition flux_pt (integ : integrator_t) (z dl dd b rb : R) (s : spectrum) (g : list R) (n : R) : R :=
  let eps := nu_to_epsilon_prime P n z dd Electron in
  dd ^ 4 / (4 * PI * dl ^ 2) * eps *
  integ (map (fun x => 4 / 3 * PI * rb ^ 3 * density s x * single_particle_synch_power P b eps x (c_me P)) g) g.
Definition tau_pt (integ : integrator_t) (z dd b rb : R) (s : spectrum) (g : list R) (n : R) : R :=
  let eps := nu_to_epsilon_prime P n z dd Electron in
  2 * (tau_prefactor P eps * integ (map (fun x => ssa_point s x * single_particle_synch_power P b eps x (c_me P)) g) g) * rb.

Lemma sed_plain nu z dl dd b rb s integ gamma :
  evaluate_sed_flux P nu z dl dd b rb s false integ gamma = Ok (corrected s gamma, map (flux_pt integ z dl dd b rb s (corrected s gamma)) nu).
Proof.
  unfold evaluate_sed_flux, evaluate. cbv zeta. f_equal. f_equal. apply map_ext. intros n. rewrite map2_map_map. reflexivity.
Qed.
Lemma ssa_array s g : (forall a b, s <> EmptyDist a b) -> corrected s g = g -> evaluate_SSA_integrand s g = Ok (g, map (ssa_point s) g).
Proof.
  intros He Hc. assert (M2 : forall (f : R -> R -> R) l, map2 f l l = map (fun g => f g g) l) by (intros f l; induction l; simpl; congruence).
  destruct s; unfold evaluate_SSA_integrand; cbv zeta; rewrite ?Hc, ?M2; try reflexivity. exfalso. eapply He. reflexivity.
Qed.
Lemma tau_plain nu z dd b rb s integ g : (forall a b, s <> EmptyDist a b) -> corrected s g = g ->
  evaluate_tau_ssa P nu z dd b rb s integ g = Ok (g, map (tau_pt integ z dd b rb s g) nu).
Proof.
  intros He Hc. unfold evaluate_tau_ssa. rewrite ssa_array by auto. cbn [bind]. f_equal. f_equal. apply map_ext. intros n. rewrite map2_map_map. reflexivity.
Qed.
Lemma map2_map_both {A B C D} (f : B -> C -> D) (g : A -> B) (h : A -> C) l : map2 f (map g l) (map h l) = map (fun x => f (g x) (h x)) l.
Proof. induction l; simpl; congruence. Qed.
Lemma sed_ssa nu z dl dd b rb s integ gamma : (forall a b, s <> EmptyDist a b) -> gamma_min s <= gamma_max s ->
  evaluate_sed_flux P nu z dl dd b rb s true integ gamma =
  Ok (corrected s gamma, map (fun n => flux_pt integ z dl dd b rb s (corrected s gamma) n * tau_to_attenuation (tau_pt integ z dd b rb s (corrected s gamma) n)) nu).
Proof.
  intros He Hm. unfold evaluate_sed_flux, evaluate. rewrite tau_plain by (auto; apply corrected_idem; auto). cbn [bind fst snd]. f_equal. f_equal.
  rewrite map2_map_both. apply map_ext. intros n. rewrite map2_map_map. reflexivity.
Qed.
Lemma flux_pt_nonneg integ z dl dd b rb s g n : phys_ok P -> offered integ -> incr g -> (forall v, In v g -> 0 < v) ->
  0 < 1 + z -> 0 < dl -> 0 < dd -> 0 < b -> 0 < rb -> 0 < n -> (forall x, 0 <= density s x) -> 0 <= flux_pt integ z dl dd b rb s g n.
Proof.
  intros HP Ho Hi Hg Hz Hdl Hdd Hb Hrb Hn Hd. pose proof PI_RGT_0. unfold flux_pt. cbv zeta.
  pose proof (eps_pos P n z dd Electron HP Hn Hz Hdd). assert (0 < dl ^ 2) by (apply pow_lt; auto). assert (0 < dd ^ 4) by (apply pow_lt; auto). assert (0 < rb ^ 3) by (apply pow_lt; auto).
  apply Rmult_le_pos. { apply Rmult_le_pos; [|lra]. left. apply Rdiv_lt_0_compat; auto. nra. }
  apply offered_nonneg; auto. intros v Hv. apply in_map_iff in Hv. destruct Hv as (x & <- & Hx).
  pose proof (power_pos P b (nu_to_epsilon_prime P n z dd Electron) x (c_me P) HP Hb). specialize (Hd x).
  apply Rmult_le_pos; [|lra]. apply Rmult_le_pos; auto. nra.
Qed.
Lemma tau_pt_nonneg integ z dd b rb s g n : phys_ok P -> offered integ -> incr g -> (forall v, In v g -> 0 < v) ->
  0 < 1 + z -> 0 < dd -> 0 < b -> 0 < rb -> 0 < n -> (forall x, In x g -> ssa_point s x <= 0) -> 0 <= tau_pt integ z dd b rb s g n.
Proof.
  intros HP Ho Hi Hg Hz Hdd Hb Hrb Hn Hd. pose proof PI_RGT_0. unfold tau_pt. cbv zeta.
  pose proof (eps_pos P n z dd Electron HP Hn Hz Hdd) as He. apply Rmult_le_pos; [|lra]. apply Rmult_le_pos; [lra|].
  set (I := integ _ g). assert (HI : I <= 0).
  { apply offered_nonpos; auto. intros v Hv. apply in_map_iff in Hv. destruct Hv as (x & <- & Hx). specialize (Hd x Hx).
    pose proof (power_pos P b (nu_to_epsilon_prime P n z dd Electron) x (c_me P) HP Hb). nra. }
  assert (HT : tau_prefactor P (nu_to_epsilon_prime P n z dd Electron) <= 0).
  { destruct HP. unfold tau_prefactor, lambda_c, mass_of. assert (0 < (c_h P / (c_me P * c_c P) / c_c P) ^ 3).
    { apply pow_lt. repeat apply Rdiv_lt_0_compat; auto. nra. }
    assert (0 < 8 * PI * c_me P * nu_to_epsilon_prime P n z dd Electron ^ 2). { apply Rmult_lt_0_compat; [|apply pow_lt; auto]. apply Rmult_lt_0_compat; [lra|auto]. }
    assert (- 1 / (8 * PI * c_me P * nu_to_epsilon_prime P n z dd Electron ^ 2) < 0). { unfold Rdiv. pose proof (Rinv_0_lt_compat _ H1). lra. }
    nra. }
  nra.
Qed.
End S.

Lemma ssa_point_nonpos sh k a b g : shape_ok sh -> 0 <= k -> 0 < g -> absorbing sh g -> ssa_point (build sh k a b) g <= 0.
Proof.
  intros Hok Hk Hg Ha. pose proof (density_nonneg_build sh k a b g Hk) as Hd. pose proof (Rinv_0_lt_compat _ Hg) as Hi.
  destruct sh as [p|p1 p2 gb|p q g0|p gc|p1 p2 gc gb]; simpl in Hok, Ha; cbn [build] in *; unfold ssa_point, ssa_prefactor; unfold Rdiv in *.
  - destruct (in_range _ g); [|lra]. pose proof (npow_pos g (- p - 1)). assert (- (p + 2) * npow g (- p - 1) <= 0) by nra. nra.
  - destruct (in_range _ g); [|lra]. cbv zeta. set (i := if Rleb g gb then p1 else p2). assert (-2 <= i) by (unfold i; destruct (Rleb g gb); tauto).
    pose proof (npow_pos (g * / gb) (- i)). assert (k * - (i + 2) <= 0) by nra. assert (k * - (i + 2) * / g <= 0) by nra. nra.
  - assert (- (p + 2 * q * log10 (g * / g0) + 2) * / g <= 0) by nra. nra.
  - pose proof (Rinv_0_lt_compat _ Hok). assert (- (p + 2) * / g + - (1) * / gc <= 0) by nra. nra.
  - destruct (in_range _ g); [|lra]. cbv zeta. set (i := if Rleb g gb then p1 else p2). assert (-2 <= i) by (unfold i; destruct (Rleb g gb); tauto).
    destruct Hok as [Hc Hb]. pose proof (Rinv_0_lt_compat _ Hc). assert (- (i + 2) * / g + - (1) * / gc <= 0) by nra. nra.
Qed.
(** approximating the factor by 1 below 1e-3 *)
Lemma att_lower t : 0 < t -> 1 - 3 * t / 8 < att t.
Proof.
  intros H. assert (T : t ^ 3 - 3 * t ^ 4 / 8 < 3 * att_num t).
  { assert (3 * att_num 0 - (0 ^ 3 - 3 * 0 ^ 4 / 8) < 3 * att_num t - (t ^ 3 - 3 * t ^ 4 / 8)); [|rewrite att_num_0 in *; simpl in *; lra].
    apply (strict_incr (fun t => 3 * att_num t - (t ^ 3 - 3 * t ^ 4 / 8)) (fun t => 3 * (t * (1 - exp (- t))) - (3 * t ^ 2 - 3 * t ^ 3 / 2))); auto.
    - intros x _. unfold att_num. auto_derive; auto. field.
    - intros x Hx. assert (E : x - x ^ 2 / 2 < 1 - exp (- x)).
      { assert ((1 - exp (- 0)) - (0 - 0 ^ 2 / 2) < (1 - exp (- x)) - (x - x ^ 2 / 2)); [|rewrite Ropp_0, exp_0 in *; simpl in *; lra].
        apply (strict_incr (fun x => (1 - exp (- x)) - (x - x ^ 2 / 2)) (fun x => exp (- x) - (1 - x))); try lra.
        - intros y _. auto_derive; auto. field.
        - intros y Hy. pose proof (exp_gt (- y)). assert (1 + - y < exp (- y)) by (apply H0; lra). lra. }
      simpl in *. nra. }
  assert (0 < t ^ 3) by (apply pow_lt; auto). unfold att. apply (Rmult_lt_reg_r (t ^ 3)); auto. unfold Rdiv at 2. rewrite Rmult_assoc, Rinv_l by lra. simpl in *. nra.
Qed.

(** ** maximum and its first index *)
Lemma fold_max_ge l : forall a, a <= fold_left Rmax l a /\ (forall x, In x l -> x <= fold_left Rmax l a).
Proof.
  induction l as [|y l IH]; intros a; simpl. { split; [lra|tauto]. } destruct (IH (Rmax a y)) as [A B].
  pose proof (Rmax_l a y). pose proof (Rmax_r a y). split; [lra|]. intros x [<-|Hx]; [lra|auto].
Qed.
Lemma argmax_spec l : forall pre best ibest, nth_error pre ibest = Some best -> (forall j x, nth_error pre j = Some x -> x <= best) -> (forall j x, (j < ibest)%nat -> nth_error pre j = Some x -> x < best) ->
  let i := argmax_from best ibest (length pre) l in
  exists m, nth_error (pre ++ l) i = Some m /\ m = fold_left Rmax l best /\ (forall j x, nth_error (pre ++ l) j = Some x -> x <= m) /\ (forall j x, (j < i)%nat -> nth_error (pre ++ l) j = Some x -> x < m).
Proof.
  induction l as [|y l IH]; intros pre best ib H1 H2 H3; cbv zeta.
  - simpl. rewrite app_nil_r. exists best. auto.
  - cbn [argmax_from fold_left]. assert (Eapp : pre ++ y :: l = (pre ++ y :: nil) ++ l) by (rewrite <- app_assoc; reflexivity).
    assert (El : S (length pre) = length (pre ++ y :: nil)) by (rewrite app_length; simpl; lia). rewrite Eapp, El.
    assert (Hib : (ib < length pre)%nat) by (apply nth_error_Some; congruence).
    assert (Inv : forall j x, nth_error (pre ++ y :: nil) j = Some x -> nth_error pre j = Some x \/ (j = length pre /\ x = y)).
    { intros j x Hj. destruct (Nat.lt_ge_cases j (length pre)) as [L|L]. { rewrite nth_error_app1 in Hj by auto. auto. }
      rewrite nth_error_app2 in Hj by auto. destruct (j - length pre)%nat eqn:D; simpl in Hj; [|destruct n; discriminate]. injection Hj as <-. right. split; auto. lia. }
    destruct (Rltb_spec best y) as [L|L].
    + rewrite Rmax_right by lra. apply IH.
      * rewrite nth_error_app2 by lia. rewrite Nat.sub_diag. reflexivity.
      * intros j x Hj. apply Inv in Hj. destruct Hj as [Hj|[_ ->]]; [|lra]. specialize (H2 j x Hj). lra.
      * intros j x Hlt Hj. apply Inv in Hj. destruct Hj as [Hj|[-> _]]; [|lia]. specialize (H2 j x Hj). lra.
    + rewrite Rmax_left by lra. apply IH.
      * rewrite nth_error_app1 by auto. auto.
      * intros j x Hj. apply Inv in Hj. destruct Hj as [Hj|[_ ->]]; [eauto|lra].
      * intros j x Hlt Hj. apply Inv in Hj. destruct Hj as [Hj|[-> _]]; [eauto|lia].
Qed.
