(** C96: the energy density of the disk against the exact integral over its rings. *)
From Verif Require Import Base TEUtils ListFacts NumpyInst MathUtils Conversion Spectra Blob Geometry Targets Spec_Math Spec_Geom Spec_Thermal Spec_Beams Spec_Field MathFacts SpectraFacts BlobFacts Calculus SynchFacts Props_Geometry TargetFacts Props_Targets Props_Beams Props_Blob AbsorptionFacts Props_Opacity Props_FarField.
From Coquelicot Require Import Coquelicot.
From Coq Require Import String List.
Import ListNotations.
Open Scope list_scope.
Open Scope R_scope.

(** ** trapezia of a continuous function *)
Lemma cells_err (f F : R -> R) e : forall xs, (forall i a b, nth_error xs i = Some a -> nth_error xs (S i) = Some b -> Rabs ((b - a) * (f a + f b) / 2 - (F b - F a)) <= e * (b - a)) ->
  forall a b, nth_error xs 0 = Some a -> nth_error xs (length xs - 1) = Some b -> Rabs (over xs f - (F b - F a)) <= e * (b - a).
Proof.
  induction xs as [|x l IH]; intros H a b Ha Hb; [discriminate|]. cbn [nth_error] in Ha. apply some_inj in Ha. subst a.
  destruct l as [|y l].
  - cbn in Hb. apply some_inj in Hb. subst b. unfold over. simpl. rewrite !Rminus_eq_0, Rmult_0_r, Rabs_R0. lra.
  - assert (IH' : Rabs (over (y :: l) f - (F b - F y)) <= e * (b - y)).
    { apply IH; auto. - intros i u v Hu Hv. apply (H (S i)); auto. - simpl in Hb |- *. rewrite Nat.sub_0_r. auto. }
    pose proof (H 0%nat x y eq_refl eq_refl) as H0. rewrite over_cons2. apply Rabs_le. apply Rabs_le_between in H0. apply Rabs_le_between in IH'. lra.
Qed.
Lemma trapz_limit f a b : a < b -> (forall x, a <= x <= b -> continuous f x) -> is_lim_seq (fun n => over (linspace a b (S (S n))) f) (RInt f a b).
Proof.
  intros Hab Hc. apply is_lim_seq_spec. intros eps. assert (He : 0 < eps / (2 * (b - a))) by (apply Rdiv_lt_0_compat; [apply cond_pos|lra]).
  destruct (unifcont_1d f a b Hc (mkposreal _ He)) as [del Hd].
  assert (Hd' : forall x y, a <= x <= b -> a <= y <= b -> Rabs (y - x) < del -> Rabs (f y - f x) <= eps / (2 * (b - a))).
  { intros x y Hx Hy Hxy. destruct (Rle_dec (Rabs (f y - f x)) (eps / (2 * (b - a)))) as [L|L]; auto. exfalso. apply (Hd x y Hx Hy Hxy). intros B. apply L. left. exact B. }
  destruct (nfloor_ex ((b - a) / del)) as [N HN]. { apply Rdiv_le_0_compat; [lra|apply cond_pos]. }
  exists (S N). intros n Hn. set (h := (b - a) / INR (S (S n) - 1)).
  assert (Hn1 : INR N + 1 < INR (S (S n) - 1)). { replace (S (S n) - 1)%nat with (S n) by lia. rewrite <- S_INR. apply lt_INR. lia. }
  pose proof (cond_pos del) as Hdp. pose proof (pos_INR N) as HN0.
  assert (Hh : 0 < h < del). { split; [apply Rdiv_lt_0_compat; lra|]. unfold h. apply (proj2 (Rlt_div_l (b - a) del (INR (S (S n) - 1)) ltac:(lra))). destruct HN as [_ HN]. apply (proj2 (Rlt_div_l (b - a) (INR N + 1) del Hdp)) in HN || (apply (Rmult_lt_compat_r del) in HN; auto; unfold Rdiv in HN; rewrite Rmult_assoc, Rinv_l in HN by lra). nra. }
  assert (Hex : forall u v, a <= u <= b -> a <= v <= b -> ex_RInt f u v).
  { intros u v Hu Hv. apply (@ex_RInt_continuous R_CompleteNormedModule). intros x Hx. apply Hc. unfold Rmin, Rmax in Hx. destruct (Rle_dec u v); lra. }
  assert (K : Rabs (over (linspace a b (S (S n))) f - (RInt f a b - RInt f a a)) <= eps / (2 * (b - a)) * (b - a)).
  { apply (cells_err f (fun x => RInt f a x)).
    - intros i u v Hu Hv. assert (Hi : (S i < S (S n))%nat) by (rewrite <- (linspace_length a b (S (S n))); apply nth_error_Some; congruence).
      assert (Iu : a <= u <= b) by (apply linspace_in with (S (S n)); [lra|]; apply nth_error_In with i; auto). assert (Iv : a <= v <= b) by (apply linspace_in with (S (S n)); [lra|]; apply nth_error_In with (S i); auto).
      rewrite linspace_nth in Hu, Hv by lia. apply some_inj in Hu. apply some_inj in Hv. fold h in Hu, Hv. rewrite S_INR in Hv. assert (Huv : v - u = h) by (rewrite <- Hu, <- Hv; ring). clear Hu Hv.
      assert (C : RInt f a v - RInt f a u = RInt f u v). { rewrite <- (RInt_Chasles f a u v); [unfold plus; simpl; ring|apply Hex; lra|apply Hex; lra]. } rewrite C.
      assert (B : forall w, u <= w <= v -> (v - u) * (f w - eps / (2 * (b - a))) <= RInt f u v <= (v - u) * (f w + eps / (2 * (b - a)))).
      { intros w Hw. assert (HK : forall x, u < x < v -> Rabs (f x - f w) <= eps / (2 * (b - a))). { intros x Hx. apply Hd'; try lra. apply Rabs_def1; lra. } split.
        - replace ((v - u) * (f w - eps / (2 * (b - a)))) with (RInt (fun _ => f w - eps / (2 * (b - a))) u v) by (rewrite RInt_const; unfold scal; simpl; unfold mult; simpl; ring).
          apply RInt_le; [lra|apply ex_RInt_const|apply Hex; lra|]. intros x Hx. specialize (HK x Hx). apply Rabs_le_between in HK. lra.
        - replace ((v - u) * (f w + eps / (2 * (b - a)))) with (RInt (fun _ => f w + eps / (2 * (b - a))) u v) by (rewrite RInt_const; unfold scal; simpl; unfold mult; simpl; ring).
          apply RInt_le; [lra|apply Hex; lra|apply ex_RInt_const|]. intros x Hx. specialize (HK x Hx). apply Rabs_le_between in HK. lra. }
      pose proof (B u ltac:(lra)) as Bu. pose proof (B v ltac:(lra)) as Bv. apply Rabs_le. lra.
    - apply linspace_first. lia.
    - rewrite linspace_length. apply linspace_last. lia. }
  rewrite RInt_point in K. unfold zero in K; simpl in K. rewrite Rminus_0_r in K. replace (eps / (2 * (b - a)) * (b - a)) with (eps / 2) in K by (field; lra). pose proof (cond_pos eps). lra.
Qed.

(** ** the exact density *)
Definition flux_of (P : phys) (d : ssdisk) (R_ : R) : R := disk_flux P (sd_M_BH d) (sd_m_dot d) (sd_R_in d) R_.
Definition kd (P : phys) (d : ssdisk) : R := 3 * c_G P * sd_M_BH d * sd_m_dot d / (8 * PI).
Definition prof (ri x : R) : R := (1 - sqrt (ri / x)) / x ^ 2.
Lemma prof_range ri x : 0 < ri -> ri <= x -> 0 <= prof ri x.
Proof. intros Hi Hx. pose proof (phi_range ri x Hi Hx). unfold prof. apply Rdiv_le_0_compat; [lra|apply pow_lt; lra]. Qed.
Lemma prof_cont ri x : 0 < ri -> 0 < x -> continuous (prof ri) x.
Proof.
  intros Hi Hx. assert (0 < ri / x) by (apply Rdiv_lt_0_compat; lra). apply (ex_derive_continuous (prof ri)). unfold prof. auto_derive. repeat split; try lra; auto; try (apply Rgt_not_eq; nra); nra.
Qed.
Lemma prof_int ri ro : 0 < ri -> ri <= ro -> is_RInt (prof ri) ri ro ((1 - 3 * (ri / ro) + 2 * (ri / ro) * sqrt (ri / ro)) / (3 * ri)).
Proof.
  intros Hi Ho. set (H := fun x => - / x + 2 / 3 * sqrt ri / (x * sqrt x)).
  replace ((1 - 3 * (ri / ro) + 2 * (ri / ro) * sqrt (ri / ro)) / (3 * ri)) with (minus (H ro) (H ri)).
  2:{ unfold minus, plus, opp; simpl. unfold H. rewrite sqrt_div by lra. assert (S1 : 0 < sqrt ri) by (apply sqrt_lt_R0; lra). assert (S2 : 0 < sqrt ro) by (apply sqrt_lt_R0; lra). field. repeat split; lra. }
  apply (is_RInt_derive H (prof ri)).
  - intros x. rewrite Rmin_left, Rmax_right by lra. intros Hx. unfold H. assert (Hs : 0 < sqrt x) by (apply sqrt_lt_R0; lra). assert (Es : sqrt x * sqrt x = x) by (apply sqrt_sqrt; lra). auto_derive; [repeat split; try lra; nra|].
    unfold prof. rewrite sqrt_div by lra. set (s := sqrt x) in *. set (q := sqrt ri). rewrite <- Es. field. lra.
  - intros x. rewrite Rmin_left, Rmax_right by lra. intros Hx. apply prof_cont; lra.
Qed.
Lemma flux_prof P d x : 0 < x -> 2 * flux_of P d x * (2 * PI * x) = 4 * PI * kd P d * prof (sd_R_in d) x.
Proof. intros Hx. pose proof PI_RGT_0. unfold flux_of, disk_flux, kd, prof. field. lra. Qed.

(** what the two faces radiate together, and the share of L_disk *)
Theorem C96_power : forall P M L eta R_in R_out units d, phys_ok P -> ssdisk_init P M L eta R_in R_out units = Ok d ->
  0 < M -> 0 < eta -> 0 < sd_R_in d -> sd_R_in d <= sd_R_out d ->
  let x := sd_R_in d / sd_R_out d in
  is_RInt (fun R_ => 2 * flux_of P d R_ * (2 * PI * R_)) (sd_R_in d) (sd_R_out d) (L * (sd_R_g d / (2 * eta * sd_R_in d)) * (1 - 3 * x + 2 * x * sqrt x)).
Proof.
  intros P M L eta ri ro un d HP Hd HM He Hi Ho x. pose proof HP as []. pose proof PI_RGT_0.
  assert (EE : sd_R_g d = c_G P * M / c_c P ^ 2 /\ sd_M_BH d = M /\ sd_m_dot d = L / (eta * c_c P ^ 2)).
  { unfold ssdisk_init in Hd. destruct un, ri as [a|a], ro as [c|c]; try discriminate; apply (f_equal (fun x => match x with Ok y => y | Err _ => d end)) in Hd; cbv beta iota in Hd; rewrite <- Hd; cbn [sd_R_g sd_M_BH sd_m_dot]; (repeat split; reflexivity). }
  destruct EE as (E1 & E2 & E3).
  apply (is_RInt_ext (fun R_ => scal (4 * PI * kd P d) (prof (sd_R_in d) R_))).
  { intros y. rewrite Rmin_left, Rmax_right by lra. intros Hy. rewrite flux_prof by lra. reflexivity. }
  replace (L * (sd_R_g d / (2 * eta * sd_R_in d)) * (1 - 3 * x + 2 * x * sqrt x)) with (scal (4 * PI * kd P d) ((1 - 3 * (sd_R_in d / sd_R_out d) + 2 * (sd_R_in d / sd_R_out d) * sqrt (sd_R_in d / sd_R_out d)) / (3 * sd_R_in d))).
  - apply (@is_RInt_scal R_NormedModule). apply prof_int; lra.
  - fold x. unfold scal; simpl; unfold mult; simpl. unfold kd. rewrite E1, E2, E3. field. repeat split; lra.
Qed.
Print Assumptions C96_power.

Lemma cells_le (f F : R -> R) : forall xs, (forall i a b, nth_error xs i = Some a -> nth_error xs (S i) = Some b -> (b - a) * (f a + f b) / 2 <= F b - F a) ->
  forall a b, nth_error xs 0 = Some a -> nth_error xs (length xs - 1) = Some b -> over xs f <= F b - F a.
Proof.
  induction xs as [|x l IH]; intros H a b Ha Hb; [discriminate|]. cbn [nth_error] in Ha. apply some_inj in Ha. subst a.
  destruct l as [|y l].
  - cbn in Hb. apply some_inj in Hb. subst b. unfold over. simpl. lra.
  - assert (IH' : over (y :: l) f <= F b - F y). { apply IH; auto. - intros i u v Hu Hv. apply (H (S i)); auto. - simpl in Hb |- *. rewrite Nat.sub_0_r. auto. }
    pose proof (H 0%nat x y eq_refl eq_refl) as H0. rewrite over_cons2. lra.
Qed.
Lemma inv_cell t : 1 <= t -> (/ sqrt t ^ 3 + / sqrt (t + 1) ^ 3) / 2 <= 2.32 * (/ sqrt t - / sqrt (t + 1)).
Proof.
  intros Ht. assert (Ha : 0 < sqrt t) by (apply sqrt_lt_R0; lra). assert (Hb : 0 < sqrt (t + 1)) by (apply sqrt_lt_R0; lra). assert (EA : sqrt t ^ 2 = t) by (apply pow2_sqrt; lra). assert (EB : sqrt (t + 1) ^ 2 = t + 1) by (apply pow2_sqrt; lra).
  set (a := sqrt t) in *. set (b := sqrt (t + 1)) in *. assert (BA : b ^ 2 = a ^ 2 + 1) by lra. assert (A1 : 1 <= a ^ 2) by lra. assert (HA : 0 < a ^ 2) by lra.
  assert (W : a * b <= 0.35356 * (b ^ 2 + 2 * a ^ 2)). { pose proof (pow2_ge_0 (b - 1.41421 * a)). nra. }
  assert (Q : a ^ 4 + b ^ 4 + a * b * (a ^ 2 + b ^ 2) <= 4.64 * (a ^ 2 * b ^ 2)).
  { replace (a ^ 4) with ((a ^ 2) ^ 2) by ring. replace (b ^ 4) with ((b ^ 2) ^ 2) by ring. set (A := a ^ 2) in *. set (B := b ^ 2) in *. assert (a * b * (A + B) <= 0.35356 * (B + 2 * A) * (A + B)) by (apply Rmult_le_compat_r; lra). assert (0 <= (B - A) * (2 * A - B)) by (apply Rmult_le_pos; lra). assert (B * A <= 2 * A * A) by (apply Rmult_le_compat_r; lra). nra. }
  assert (D : (b - a) * (a + b) = 1) by (transitivity (b ^ 2 - a ^ 2); [ring|lra]).
  assert (P3 : 0 < a ^ 3 * b ^ 3) by (apply Rmult_lt_0_compat; apply pow_lt; auto). apply Rmult_le_reg_r with (a ^ 3 * b ^ 3); auto. apply Rmult_le_reg_r with (a + b); [lra|].
  replace ((/ a ^ 3 + / b ^ 3) / 2 * (a ^ 3 * b ^ 3) * (a + b)) with ((a ^ 4 + b ^ 4 + a * b * (a ^ 2 + b ^ 2)) / 2) by (field; lra).
  replace (2.32 * (/ a - / b) * (a ^ 3 * b ^ 3) * (a + b)) with (2.32 * (a ^ 2 * b ^ 2) * ((b - a) * (a + b))) by (field; lra). rewrite D. lra.
Qed.
Section Exact.
Variables (P : phys) (d : ssdisk) (r : R).
Hypotheses (HP : phys_ok P) (HM : 0 < sd_M_BH d) (Hmd : 0 < sd_m_dot d) (Hi : 0 < sd_R_in d) (Ho : sd_R_in d < sd_R_out d) (Hr : 0 < r).
Let ri := sd_R_in d.
Let ro := sd_R_out d.
Let K := kd P d / c_c P.
Let ring (x : R) : R := K * (prof ri x / (r ^ 2 + x ^ 2)).
Lemma kd_pos : 0 < kd P d.
Proof. pose proof HP as []. unfold kd. pos. Qed.
Lemma K_pos : 0 < K.
Proof. pose proof HP as []. apply Rdiv_lt_0_compat; [apply kd_pos|auto]. Qed.
Lemma ring_cont x : 0 < x -> continuous ring x.
Proof.
  intros Hx. unfold ring. assert (0 < ri / x) by (apply Rdiv_lt_0_compat; auto). assert (0 < r ^ 2 + x ^ 2) by nra.
  apply (ex_derive_continuous (fun x => K * (prof ri x / (r ^ 2 + x ^ 2)))). unfold prof. auto_derive. repeat split; try lra; auto; try (apply Rgt_not_eq; nra); nra.
Qed.
Lemma rings_int u v : 0 < u -> 0 < v -> ex_RInt ring u v.
Proof.
  intros Hu Hv. apply (@ex_RInt_continuous R_CompleteNormedModule). intros x Hx. apply ring_cont. unfold Rmin in Hx. destruct (Rle_dec u v); lra.
Qed.
Lemma rings_ring : rings_density P (flux_of P d) ri ro r = RInt ring ri ro.
Proof.
  unfold rings_density. apply RInt_ext. intros x. rewrite Rmin_left, Rmax_right by (unfold ri, ro; lra). intros Hx. fold ri ro in Hi. assert (0 < x) by lra. rewrite flux_prof by lra. pose proof HP as []. pose proof PI_RGT_0. unfold ring, K. fold ri. assert (0 < r ^ 2 + x ^ 2) by nra. match goal with |- ?a = ?b => change (@eq R a b) end. field. repeat split; lra.
Qed.
Lemma rings_bounds : let A := (1 - 3 * (ri / ro) + 2 * (ri / ro) * sqrt (ri / ro)) / (3 * ri) in
  K * (A / (r ^ 2 + ro ^ 2)) <= RInt ring ri ro <= K * (A / (r ^ 2 + ri ^ 2)).
Proof.
  intros A. pose proof (prof_int ri ro Hi (Rlt_le _ _ Ho)) as HA. fold A in HA. fold ri in Hi. fold ri ro in Ho. pose proof K_pos as HK.
  assert (E : forall w, RInt (fun x => K * (prof ri x / w)) ri ro = K * (A / w)).
  { intros w. apply (@is_RInt_unique R_CompleteNormedModule). replace (K * (A / w)) with (scal (K / w) A) by (unfold scal; simpl; unfold mult; simpl; unfold Rdiv; ring). apply (is_RInt_ext (fun x => scal (K / w) (prof ri x))); [intros x _; unfold scal; simpl; unfold mult; simpl; unfold Rdiv; ring|]. apply (@is_RInt_scal R_NormedModule). auto. }
  assert (EX : forall w, ex_RInt (fun x => K * (prof ri x / w)) ri ro).
  { intros w. exists (scal (K / w) A). apply (is_RInt_ext (fun x => scal (K / w) (prof ri x))); [intros x _; unfold scal; simpl; unfold mult; simpl; unfold Rdiv; ring|]. apply (@is_RInt_scal R_NormedModule). auto. }
  assert (R2 : 0 < r ^ 2) by (apply pow_lt; auto).
  rewrite <- !E. split.
  - apply RInt_le; [lra|apply EX|apply rings_int; lra|]. intros x Hx. unfold ring. apply Rmult_le_compat_l; [lra|]. apply Rmult_le_compat_l; [apply prof_range; lra|]. assert (0 < x ^ 2) by (apply pow_lt; lra). assert (x ^ 2 <= ro ^ 2) by (apply pow_incr; lra). apply Rinv_le_contravar; lra.
  - apply RInt_le; [lra|apply rings_int; lra|apply EX|]. intros x Hx. unfold ring. apply Rmult_le_compat_l; [lra|]. apply Rmult_le_compat_l; [apply prof_range; lra|]. assert (0 < ri ^ 2) by (apply pow_lt; lra). assert (ri ^ 2 <= x ^ 2) by (apply pow_incr; lra). apply Rinv_le_contravar; lra.
Qed.

(** the rays of the code are these rings, seen as functions of the cosine *)
Let g (m : R) : R := r * sqrt (/ m ^ 2 - 1).
Let ray (m : R) : R := K * ((1 - sqrt (ri / g m)) / (m * g m ^ 3)).
Lemma inv2_pos m : 0 < m < 1 -> 0 < / m ^ 2 - 1.
Proof. intros Hm. assert (1 < / m ^ 2); [|lra]. rewrite <- Rinv_1 at 1. apply Rinv_lt_contravar; [|nra]. assert (0 < m ^ 2) by pos. lra. Qed.
Lemma g_pos m : 0 < m < 1 -> 0 < g m.
Proof. intros Hm. unfold g. apply Rmult_lt_0_compat; auto. apply sqrt_lt_R0. apply inv2_pos; auto. Qed.
Lemma g_sq m : 0 < m < 1 -> g m ^ 2 = r ^ 2 / m ^ 2 - r ^ 2.
Proof. intros Hm. unfold g. rewrite Rpow_mult_distr, pow2_sqrt by (pose proof (inv2_pos m Hm); lra). field. lra. Qed.
Lemma disk_ray_eq m : 0 < m < 1 -> ri <= g m -> disk_ray P d r m = ray m.
Proof.
  intros Hm Hg. unfold disk_ray, ray. rewrite tan_acos by lra. fold (g m). rewrite sigma_T4 by auto. fold ri. unfold K, kd. pose proof HP as []. pose proof PI_RGT_0. pose proof (g_pos m Hm). field. repeat split; lra.
Qed.
Lemma ray_cont m : 0 < m < 1 -> continuous ray m.
Proof.
  intros Hm. pose proof (g_pos m Hm) as Hg. pose proof (inv2_pos m Hm) as Hv. assert (0 < ri / g m) by (apply Rdiv_lt_0_compat; auto). assert (0 < m * g m ^ 3) by (apply Rmult_lt_0_compat; [lra|apply pow_lt; auto]).
  apply (ex_derive_continuous ray). unfold ray, g in *. auto_derive. replace (m * (m * 1)) with (m ^ 2) by ring. repeat split; auto; try lra; apply Rgt_not_eq; first [exact Hg|exact H0|nra].
Qed.
Let mu0 : R := r / sqrt (r ^ 2 + ro ^ 2).
Let mu1 : R := r / sqrt (r ^ 2 + ri ^ 2).
Lemma mu_sq y : 0 < y -> (r / sqrt (r ^ 2 + y ^ 2)) ^ 2 = r ^ 2 / (r ^ 2 + y ^ 2) /\ 0 < r / sqrt (r ^ 2 + y ^ 2) < 1 /\ g (r / sqrt (r ^ 2 + y ^ 2)) = y.
Proof.
  intros Hy. assert (H : 0 < r ^ 2 + y ^ 2) by nra. assert (Hs : 0 < sqrt (r ^ 2 + y ^ 2)) by (apply sqrt_lt_R0; auto). assert (E : (r / sqrt (r ^ 2 + y ^ 2)) ^ 2 = r ^ 2 / (r ^ 2 + y ^ 2)) by (unfold Rdiv at 1; rewrite Rpow_mult_distr, pow_inv, pow2_sqrt by lra; reflexivity).
  assert (H0 : 0 < r / sqrt (r ^ 2 + y ^ 2)) by (apply Rdiv_lt_0_compat; auto). split; auto. split.
  - split; auto. apply (proj2 (Rlt_div_l r 1 _ Hs)). rewrite Rmult_1_l. rewrite <- (sqrt_pow2 r) at 1 by lra. apply sqrt_lt_1_alt. nra.
  - unfold g. rewrite E. replace (/ (r ^ 2 / (r ^ 2 + y ^ 2)) - 1) with ((y / r) ^ 2) by (field; split; nra). rewrite sqrt_pow2 by (apply Rlt_le, Rdiv_lt_0_compat; auto). field. lra.
Qed.
Lemma mu01 : 0 < mu0 /\ mu0 < mu1 /\ mu1 < 1.
Proof.
  fold ri in Hi. fold ri ro in Ho. destruct (mu_sq ro ltac:(lra)) as (_ & B0 & _). destruct (mu_sq ri Hi) as (_ & B1 & _). fold mu0 in B0. fold mu1 in B1. split; [lra|]. split; [|lra]. unfold mu0, mu1. apply Rmult_lt_compat_l; auto. apply Rinv_lt_contravar; [|apply sqrt_lt_1_alt; nra]. apply Rmult_lt_0_compat; apply sqrt_lt_R0; nra.
Qed.
Lemma g_ge m : mu0 <= m <= mu1 -> ri <= g m.
Proof.
  intros Hm. pose proof mu01 as M. destruct (mu_sq ri Hi) as (_ & B1 & E1). fold mu1 in E1, B1. rewrite <- E1. unfold g. apply Rmult_le_compat_l; [lra|]. apply sqrt_le_1_alt. apply Rplus_le_compat_r. apply Rinv_le_contravar; [apply pow_lt; lra|]. apply pow_incr. lra.
Qed.
Lemma ray_ring : is_RInt ray mu0 mu1 (RInt ring ri ro).
Proof.
  pose proof mu01 as M. fold ri in Hi. fold ri ro in Ho. destruct (mu_sq ro ltac:(lra)) as (_ & _ & E0). destruct (mu_sq ri Hi) as (_ & _ & E1). fold mu0 in E0. fold mu1 in E1.
  set (dg := fun m => - r / (m ^ 3 * sqrt (/ m ^ 2 - 1))).
  assert (C : is_RInt (fun y => scal (dg y) (ring (g y))) mu0 mu1 (RInt ring (g mu0) (g mu1))).
  { apply (@is_RInt_comp R_CompleteNormedModule).
    - intros x. rewrite Rmin_left, Rmax_right by lra. intros Hx. apply ring_cont. apply g_pos. lra.
    - intros x. rewrite Rmin_left, Rmax_right by lra. intros Hx. pose proof (inv2_pos x ltac:(lra)) as Hv. assert (Hs : 0 < sqrt (/ x ^ 2 - 1)) by (apply sqrt_lt_R0; auto). split.
      + unfold g, dg. auto_derive; replace (x * (x * 1)) with (x ^ 2) by (simpl; lra); [repeat split; auto; try lra; nra|]. change (/ x ^ 2 + - (1)) with (/ x ^ 2 - 1). set (sq := sqrt (/ x ^ 2 - 1)) in *. field. split; lra.
      + apply (ex_derive_continuous dg). unfold dg. auto_derive. change (x * (x * 1)) with (x ^ 2). assert (X1 : 0 < x) by lra. assert (X2 : 0 < x ^ 2) by (apply pow_lt; auto). assert (Q3 : 0 < x * x ^ 2 * sqrt (/ x ^ 2 - 1)) by (apply Rmult_lt_0_compat; [apply Rmult_lt_0_compat; auto|exact Hs]). split; [lra|]. split; [exact Hv|]. split; [apply Rgt_not_eq; exact Q3|auto]. }
  rewrite E0, E1 in C. apply is_RInt_opp in C. rewrite <- (opp_RInt_swap ring ri ro) in C by (apply rings_int; lra). rewrite opp_opp in C. revert C. apply is_RInt_ext.
  intros x. rewrite Rmin_left, Rmax_right by lra. intros Hx. pose proof (inv2_pos x ltac:(lra)) as Hv. assert (Hs : 0 < sqrt (/ x ^ 2 - 1)) by (apply sqrt_lt_R0; auto). pose proof (g_sq x ltac:(lra)) as G2. pose proof (g_pos x ltac:(lra)) as Gp.
  unfold scal; simpl; unfold mult, opp; simpl. unfold ring, ray, prof. replace (r ^ 2 + g x ^ 2) with (r ^ 2 / x ^ 2) by (rewrite G2; lra). unfold dg. replace (sqrt (/ x ^ 2 - 1)) with (g x / r) by (unfold g; field; lra). 
  match goal with |- ?a = ?b => change (@eq R a b) end. field. repeat split; lra.
Qed.

Lemma grid_in_range n m : In m (linspace mu0 mu1 n) -> mu0 <= m <= mu1 /\ 0 < m < 1 /\ disk_ray P d r m = ray m.
Proof.
  intros Hm. pose proof mu01 as M. apply linspace_in in Hm; [|lra]. split; auto. split; [lra|]. apply disk_ray_eq; [lra|]. apply g_ge; auto.
Qed.
Lemma refine_limit : is_lim_seq (fun n => over (linspace mu0 mu1 (S (S n))) (disk_ray P d r)) (RInt ring ri ro).
Proof.
  pose proof mu01 as M. rewrite <- (@is_RInt_unique R_CompleteNormedModule _ _ _ _ ray_ring). apply (is_lim_seq_ext (fun n => over (linspace mu0 mu1 (S (S n))) ray)).
  - intros n. apply over_ext. intros m Hm. symmetry. apply (grid_in_range (S (S n)) m Hm).
  - apply trapz_limit; [lra|]. intros x Hx. apply ray_cont. lra.
Qed.

(** ** the sum of the code misses the inner disk *)
Let h : R := (mu1 - mu0) / 99.
Let q : R := sqrt (2 * mu0 * h).
Lemma h_pos : 0 < h.
Proof. pose proof mu01. unfold h. lra. Qed.
Lemma q_pos : 0 < q.
Proof. pose proof mu01. pose proof h_pos. unfold q. apply sqrt_lt_R0. nra. Qed.
(** cosine mu1 - t h *)
Lemma ray_le t : 1 <= t <= 99 -> ray (mu1 - t * h) <= K / (r ^ 3 * q ^ 3) / sqrt t ^ 3 /\ 0 <= ray (mu1 - t * h).
Proof.
  intros Ht. pose proof mu01 as M. pose proof h_pos as Hh. set (m := mu1 - t * h). assert (Hm : mu0 <= m <= mu1) by (unfold m; assert (99 * h = mu1 - mu0) by (unfold h; field); nra).
  pose proof (g_ge m Hm) as Hg. pose proof (phi_range ri (g m) Hi Hg) as Hphi. pose proof K_pos as HK. assert (G0 : 0 < g m) by (apply g_pos; lra). assert (G3 : 0 < g m ^ 3) by (apply pow_lt; auto). assert (Hst : 0 < sqrt t) by (apply sqrt_lt_R0; lra). pose proof q_pos as Hq.
  split.
  - assert (GL : r * q * sqrt t <= m * g m).
    { apply Rsqr_incr_0_var; [|apply Rmult_le_pos; lra]. unfold Rsqr. replace (m * g m * (m * g m)) with (m ^ 2 * g m ^ 2) by ring. rewrite g_sq by lra. replace (m ^ 2 * (r ^ 2 / m ^ 2 - r ^ 2)) with (r ^ 2 * (1 - m ^ 2)) by (field; lra).
      replace (r * q * sqrt t * (r * q * sqrt t)) with (r ^ 2 * (q ^ 2 * (sqrt t) ^ 2)) by ring. unfold q. rewrite !pow2_sqrt by nra. apply Rmult_le_compat_l; [apply pow2_ge_0|]. assert (t * h = mu1 - m) by (unfold m; ring). replace (2 * mu0 * h * t) with (2 * mu0 * (t * h)) by ring. rewrite H. nra. }
    unfold ray. unfold Rdiv. rewrite !Rmult_assoc. apply Rmult_le_compat_l; [lra|]. rewrite <- Rinv_mult.
    assert (B : (r * q * sqrt t) ^ 3 <= (m * g m) ^ 3) by (apply pow_incr; split; [|auto]; apply Rmult_le_pos; [apply Rmult_le_pos; lra|lra]).
    apply Rle_trans with (1 * / (m * g m ^ 3)). { apply Rmult_le_compat_r; [|unfold Rdiv in Hphi; lra]. left. apply Rinv_0_lt_compat. apply Rmult_lt_0_compat; lra. }
    rewrite Rmult_1_l. apply Rinv_le_contravar; [repeat apply Rmult_lt_0_compat; try apply pow_lt; lra|]. replace (r ^ 3 * q ^ 3 * sqrt t ^ 3) with ((r * q * sqrt t) ^ 3) by ring. eapply Rle_trans; [exact B|]. rewrite Rpow_mult_distr. apply Rmult_le_compat_r; [lra|]. assert (m ^ 2 <= 1) by nra. replace (m ^ 3) with (m * m ^ 2) by ring. nra.
  - unfold ray. apply Rmult_le_pos; [lra|]. apply Rdiv_le_0_compat; [lra|]. apply Rmult_lt_0_compat; lra.
Qed.
Lemma ray_last : ray mu1 = 0.
Proof.
  unfold ray. destruct (mu_sq ri Hi) as (_ & _ & E). fold mu1 in E. rewrite E. unfold Rdiv at 2. rewrite Rinv_r by (fold ri in Hi; lra). rewrite sqrt_1. unfold Rdiv. ring.
Qed.
Lemma code_sum_le : over (linspace mu0 mu1 100) (disk_ray P d r) <= 2.82 * (h * (K / (r ^ 3 * q ^ 3))).
Proof.
  pose proof mu01 as M. pose proof h_pos as Hh. pose proof K_pos as HK. pose proof q_pos as Hq. rewrite (over_ext _ ray) by (intros m Hm; apply (grid_in_range 100 m Hm)).
  set (k0 := K / (r ^ 3 * q ^ 3)). assert (Hk0 : 0 < k0) by (unfold k0; apply Rdiv_lt_0_compat; auto; apply Rmult_lt_0_compat; apply pow_lt; auto).
  set (F := fun m => h * k0 * (if Rlt_dec ((mu1 - m) / h) (1 / 2) then 2.82 else 2.32 / sqrt ((mu1 - m) / h))).
  assert (Hhk : 0 < h * k0) by (apply Rmult_lt_0_compat; auto).
  apply Rle_trans with (F mu1 - F mu0).
  - apply (cells_le ray F).
    + intros i a b Ha Hb. assert (Hi' : (S i < 100)%nat) by (rewrite <- (linspace_length mu0 mu1 100); apply nth_error_Some; congruence).
      rewrite linspace_nth in Ha, Hb by lia. apply some_inj in Ha. apply some_inj in Hb. change (100 - 1)%nat with 99%nat in Ha, Hb. replace (INR 99) with 99 in Ha, Hb by (simpl; lra). fold h in Ha, Hb. rewrite S_INR in Hb.
      assert (H99 : 99 * h = mu1 - mu0) by (unfold h; field). assert (Ht : exists n, (S i + n = 99)%nat) by (exists (99 - S i)%nat; lia). destruct Ht as [n Hn]. assert (EN : INR i + 1 + INR n = 99). { rewrite <- S_INR, <- plus_INR, Hn. simpl. lra. }
      set (t := INR n) in *. assert (Eb : b = mu1 - t * h) by (rewrite <- Hb; replace (INR i) with (98 - t) by lra; lra). assert (Ea : a = mu1 - (t + 1) * h) by (rewrite <- Ha; replace (INR i) with (98 - t) by lra; lra).
      assert (Hi0 : 0 <= INR i) by apply pos_INR. assert (Qb : (mu1 - b) / h = t) by (rewrite Eb; field; lra). assert (Qa : (mu1 - a) / h = t + 1) by (rewrite Ea; field; lra). unfold F. rewrite Qa, Qb. replace (b - a) with h by (rewrite Ea, Eb; ring).
      assert (T0 : 0 <= t) by apply pos_INR. destruct (ray_le (t + 1) ltac:(lra)) as [Ra _]. rewrite <- Ea in Ra. fold k0 in Ra. destruct (Rlt_dec (t + 1) (1 / 2)) as [L|_]; [lra|]. destruct n as [|n].
      * assert (Et : t = 0) by reflexivity. rewrite Et in *. destruct (Rlt_dec 0 (1 / 2)) as [_|L]; [|lra]. rewrite Rplus_0_l, sqrt_1 in *. assert (Bz : b = mu1) by lra. rewrite Bz, ray_last. replace (1 ^ 3) with 1 in Ra by ring. nra.
      * assert (T1 : 1 <= t) by (unfold t; rewrite S_INR; pose proof (pos_INR n); lra). destruct (Rlt_dec t (1 / 2)) as [L|_]; [lra|]. destruct (ray_le t ltac:(lra)) as [Rb _]. rewrite <- Eb in Rb. fold k0 in Rb. pose proof (inv_cell t T1) as IC.
        unfold Rdiv in *. replace (h * k0 * (2.32 * / sqrt t) - h * k0 * (2.32 * / sqrt (t + 1))) with (h * (k0 * (2.32 * (/ sqrt t - / sqrt (t + 1))))) by lra. rewrite Rmult_assoc. apply Rmult_le_compat_l; [lra|]. apply Rle_trans with (k0 * ((/ sqrt t ^ 3 + / sqrt (t + 1) ^ 3) * / 2)); [lra|]. apply Rmult_le_compat_l; lra.
    + apply linspace_first. lia.
    + rewrite linspace_length. apply linspace_last. lia.
  - unfold F. replace ((mu1 - mu1) / h) with 0 by (field; lra). destruct (Rlt_dec 0 (1 / 2)) as [_|L]; [|lra]. assert (E99 : (mu1 - mu0) / h = 99) by (unfold h; field; lra). rewrite E99. destruct (Rlt_dec 99 (1 / 2)) as [L|_]; [lra|]. assert (0 < 2.32 / sqrt 99) by (apply Rdiv_lt_0_compat; [lra|apply sqrt_lt_R0; lra]). nra.
Qed.
Lemma code_under : 100 * ri <= ro -> ro <= r -> over (linspace mu0 mu1 100) (disk_ray P d r) <= 45 * (1 + (ro / r) ^ 2) ^ 3 * (ri / ro) * RInt ring ri ro.
Proof.
  intros Hx Hro. eapply Rle_trans; [apply code_sum_le|]. pose proof rings_bounds as LB. cbv zeta in LB. destruct LB as [LB _].
  fold ri in Hi. fold ri ro in Ho. pose proof K_pos as HK. fold K in LB, HK. pose proof mu01 as M. pose proof h_pos as Hh. pose proof q_pos as Hq. set (v := (ro / r) ^ 2). assert (Hv0 : 0 < ro / r) by (apply Rdiv_lt_0_compat; lra). assert (Hv : 0 < v) by (unfold v; apply pow_lt; auto).
  assert (ER : r ^ 2 + ro ^ 2 = r ^ 2 * (1 + v)) by (unfold v; field; lra). assert (Hr2 : 0 < r ^ 2) by (apply pow_lt; auto).
  assert (Hx1 : 0 < ri / ro) by (apply Rdiv_lt_0_compat; lra). assert (Hx2 : ri / ro <= 1 / 100) by (apply (proj2 (Rle_div_l ri (1 / 100) ro ltac:(lra))); lra).
  destruct (mu_sq ro ltac:(lra)) as (E0 & _ & _). fold mu0 in E0. destruct (mu_sq ri Hi) as (E1 & _ & _). fold mu1 in E1. rewrite ER in E0. replace (r ^ 2 / (r ^ 2 * (1 + v))) with (/ (1 + v)) in E0 by (field; lra).
  assert (Hiv : 0 < / (1 + v) < 1). { split; [apply Rinv_0_lt_compat; lra|]. rewrite <- Rinv_1. apply Rinv_lt_contravar; lra. }
  assert (S3 : / (1 + v) <= mu0). { apply Rsqr_incr_0_var; [|lra]. unfold Rsqr. replace (mu0 * mu0) with (mu0 ^ 2) by ring. rewrite E0. nra. }
  set (w := (ri / r) ^ 2). assert (Hw : 0 <= w <= v / 10000). { unfold w, v. split; [apply pow2_ge_0|]. replace ((ro / r) ^ 2 / 10000) with ((ro / r / 100) ^ 2) by (field; lra). apply pow_incr. split; [apply Rlt_le, Rdiv_lt_0_compat; lra|]. unfold Rdiv. assert (0 < / r) by (apply Rinv_0_lt_compat; auto). nra. }
  assert (V1 : v <= 1). { unfold v. replace 1 with (1 ^ 2) by ring. apply pow_incr. split; [lra|]. apply (proj2 (Rle_div_l ro 1 r Hr)). lra. }
  assert (E1' : mu1 ^ 2 = / (1 + w)). { rewrite E1. assert (RR : 0 < r ^ 2 + ri ^ 2) by (pose proof (pow2_ge_0 ri); lra). replace (1 + w) with ((r ^ 2 + ri ^ 2) / r ^ 2) by (unfold w; field; lra). rewrite Rinv_div. reflexivity. }
  assert (SE : 0.999 * v / (1 + v) <= mu1 ^ 2 - mu0 ^ 2).
  { rewrite E0, E1'. apply Rmult_le_reg_r with (1 + v); [lra|]. replace (0.999 * v / (1 + v) * (1 + v)) with (0.999 * v) by (field; lra). replace ((/ (1 + w) - / (1 + v)) * (1 + v)) with ((v - w) / (1 + w)) by (field; lra). apply (proj1 (Rle_div_r (0.999 * v) (v - w) (1 + w) ltac:(lra))). nra. }
  assert (S2 : 0.098 * (ro / r) / (1 + v) <= q).
  { apply Rsqr_incr_0_var; [|lra]. unfold Rsqr. replace (q * q) with (q ^ 2) by ring. unfold q. rewrite pow2_sqrt by nra. replace (0.098 * (ro / r) / (1 + v) * (0.098 * (ro / r) / (1 + v))) with (0.098 * 0.098 * (ro / r) ^ 2 / (1 + v) * / (1 + v)) by (unfold Rdiv; ring). fold v. replace (0.098 * 0.098) with 0.009604 by lra.
    assert (H2 : (mu1 ^ 2 - mu0 ^ 2) / 198 <= h) by (unfold h; nra). assert (HB : 0 < v / (1 + v)) by (apply Rdiv_lt_0_compat; lra).
    apply Rle_trans with ((2 * h) * / (1 + v)); [|replace (2 * mu0 * h) with (2 * h * mu0) by lra; apply Rmult_le_compat_l; lra]. apply Rmult_le_compat_r; [lra|]. unfold Rdiv in *. lra. }
  assert (C0 : 0 < 0.098 * (ro / r) / (1 + v)) by (apply Rdiv_lt_0_compat; lra).
  assert (U1 : 2.82 * (h * (K / (r ^ 3 * q ^ 3))) <= 14.5 * (K * (1 + v) ^ 2 / (r ^ 2 * ro))).
  { assert (EQ : q ^ 3 = 2 * mu0 * h * q) by (replace (q ^ 3) with (q ^ 2 * q) by ring; unfold q at 1; rewrite pow2_sqrt by nra; lra). rewrite EQ. assert (0 < r ^ 3) by (apply pow_lt; auto).
    assert (EQ2 : forall c, 2 * c * (h * (K / (r ^ 3 * (2 * mu0 * h * q)))) = c * (K / r ^ 3) * / (mu0 * q)) by (intros c; field; repeat split; lra). replace 2.82 with (2 * 1.41) by lra. rewrite EQ2.
    assert (B : / (mu0 * q) <= / (/ (1 + v) * (0.098 * (ro / r) / (1 + v)))) by (apply Rinv_le_contravar; [apply Rmult_lt_0_compat; lra|apply Rmult_le_compat; lra]).
    assert (0 < K / r ^ 3) by (apply Rdiv_lt_0_compat; auto). apply Rle_trans with (1.41 * (K / r ^ 3) * / (/ (1 + v) * (0.098 * (ro / r) / (1 + v)))); [apply Rmult_le_compat_l; lra|].
    assert (EQ3 : forall c c', c' <> 0 -> c * (K / r ^ 3) * / (/ (1 + v) * (c' * (ro / r) / (1 + v))) = c / c' * (K * (1 + v) ^ 2 / (r ^ 2 * ro))) by (intros c c' Hc'; field; repeat split; lra). rewrite EQ3 by lra. assert (0 < K * (1 + v) ^ 2 / (r ^ 2 * ro)) by (apply Rdiv_lt_0_compat; [apply Rmult_lt_0_compat; [lra|apply pow_lt; lra]|apply Rmult_lt_0_compat; lra]). apply Rmult_le_compat_r; lra. }
  eapply Rle_trans; [exact U1|]. set (A := (1 - 3 * (ri / ro) + 2 * (ri / ro) * sqrt (ri / ro)) / (3 * ri)) in *.
  assert (HA : 0.97 / (3 * ri) <= A). { unfold A. apply Rmult_le_compat_r; [left; apply Rinv_0_lt_compat; lra|]. assert (0 <= 2 * (ri / ro) * sqrt (ri / ro)) by (apply Rmult_le_pos; [lra|apply sqrt_pos]). lra. }
  set (W := 45 * (1 + v) ^ 3 * (ri / ro)). assert (HW : 0 < W) by (unfold W; apply Rmult_lt_0_compat; [apply Rmult_lt_0_compat; [lra|apply pow_lt; lra]|lra]).
  apply Rle_trans with (W * (K * (0.97 / (3 * ri) / (r ^ 2 + ro ^ 2)))).
  - rewrite ER. unfold W. assert (EQ4 : forall c, 45 * (1 + v) ^ 3 * (ri / ro) * (K * (c / (3 * ri) / (r ^ 2 * (1 + v)))) = 45 * c / 3 * (K * (1 + v) ^ 2 / (r ^ 2 * ro))) by (intros c; field; repeat split; lra). rewrite EQ4. assert (0 < K * (1 + v) ^ 2 / (r ^ 2 * ro)) by (apply Rdiv_lt_0_compat; [apply Rmult_lt_0_compat; [lra|apply pow_lt; lra]|apply Rmult_lt_0_compat; lra]). apply Rmult_le_compat_r; lra.
  - apply Rmult_le_compat_l; [lra|]. eapply Rle_trans; [|exact LB]. apply Rmult_le_compat_l; [lra|]. apply Rmult_le_compat_r; [left; apply Rinv_0_lt_compat; nra|]. exact HA.
Qed.
End Exact.

(** far away it is a point source of that power *)
Theorem C96_far : forall P d r, phys_ok P -> 0 < sd_M_BH d -> 0 < sd_m_dot d -> 0 < sd_R_in d -> sd_R_in d < sd_R_out d -> 0 < r ->
  let power := RInt (fun R_ => 2 * flux_of P d R_ * (2 * PI * R_)) (sd_R_in d) (sd_R_out d) in
  source_density P power (sqrt (r ^ 2 + sd_R_out d ^ 2)) <= rings_density P (flux_of P d) (sd_R_in d) (sd_R_out d) r <= source_density P power (sqrt (r ^ 2 + sd_R_in d ^ 2)).
Proof.
  intros P d r HP HM Hm Hi Ho Hr power. pose proof HP as []. pose proof PI_RGT_0. rewrite rings_ring by auto.
  pose proof (rings_bounds P d r HP HM Hm Hi Ho Hr) as B. cbv zeta in B. set (A := (1 - 3 * (sd_R_in d / sd_R_out d) + 2 * (sd_R_in d / sd_R_out d) * sqrt (sd_R_in d / sd_R_out d)) / (3 * sd_R_in d)) in *.
  assert (EP : power = 4 * PI * kd P d * A).
  { unfold power. apply (@is_RInt_unique R_CompleteNormedModule). apply (is_RInt_ext (fun R_ => scal (4 * PI * kd P d) (prof (sd_R_in d) R_))).
    - intros y. rewrite Rmin_left, Rmax_right by lra. intros Hy. rewrite flux_prof by lra. reflexivity.
    - apply (@is_RInt_scal R_NormedModule). apply prof_int; lra. }
  unfold source_density. rewrite EP, !pow2_sqrt by nra. assert (0 < r ^ 2) by nra. pose proof (pow2_ge_0 (sd_R_out d)). pose proof (pow2_ge_0 (sd_R_in d)).
  assert (Q : forall w, 0 < w -> 4 * PI * kd P d * A / (4 * PI * c_c P * w) = kd P d / c_c P * (A / w)) by (intros w Hw; field; repeat split; lra). rewrite !Q by lra. exact B.
Qed.
Print Assumptions C96_far.

(** ** C96 *)
(** the disk of a constructed object *)
Lemma init_pos P M L eta ri ro un d : phys_ok P -> ssdisk_init P M L eta ri ro un = Ok d -> 0 < M -> 0 < L -> 0 < eta -> 0 < sd_M_BH d /\ 0 < sd_m_dot d.
Proof.
  intros [] Hd HM HL He. assert (0 < L / (eta * c_c P ^ 2)) by (apply Rdiv_lt_0_compat; auto; apply Rmult_lt_0_compat; auto; apply pow_lt; auto).
  unfold ssdisk_init in Hd. destruct un, ri as [a|a], ro as [c|c]; try discriminate; apply (f_equal (fun x => match x with Ok y => y | Err _ => d end)) in Hd; cbv beta iota in Hd; rewrite <- Hd; cbn [sd_M_BH sd_m_dot]; auto.
Qed.
Lemma some_blob : exists b beta, 1 <= Gamma b /\ Beta b = Ok beta.
Proof.
  set (b := {| R_b := 1; redshift := 0; d_L := 1; delta_D := 1; Gamma := 5 / 3; B_field := 1; n_e := PowerLaw 1 2 10 100; n_p_opt := None; xi := 1; gamma_e_size := 10; gamma_p_size := 10 |}).
  assert (G : 1 <= Gamma b) by (cbn [Gamma b]; unfold b; cbn [Gamma]; lra). destruct (Beta_exists b G) as [beta HB]. exists b, beta. auto.
Qed.
(** the value is the 100-point sum; with more points it tends to the exact density *)
Theorem C96_refinement_partial : forall P M L eta R_in R_out units d r, phys_ok P -> ssdisk_init P M L eta R_in R_out units = Ok d ->
  0 < M -> 0 < L -> 0 < eta -> 0 < sd_R_in d -> sd_R_in d < sd_R_out d -> 0 < r ->
  let sum n := over (linspace (r / sqrt (r ^ 2 + sd_R_out d ^ 2)) (r / sqrt (r ^ 2 + sd_R_in d ^ 2)) n) (disk_ray P d r) in
  ssdisk_u P d r None = Ok (sum 100%nat) /\ is_lim_seq (fun n => sum (S (S n))) (rings_density P (flux_of P d) (sd_R_in d) (sd_R_out d) r).
Proof.
  intros P M L eta ri ro un d r HP Hd HM HL He Hi Ho Hr sum. destruct (init_pos _ _ _ _ _ _ _ _ HP Hd HM HL He) as [H1 H2]. destruct some_blob as (b & beta & HG & HB). split.
  - destruct (C51_disk P M L eta ri ro un d r b beta HP Hd HM HL He Hi Ho Hr HG HB) as [E _]. rewrite E, trapz_over. reflexivity.
  - rewrite rings_ring by auto. apply (refine_limit P d r); auto.
Qed.
Print Assumptions C96_refinement_partial.
(** at distances beyond the outer radius the sum misses all but a fraction of order R_in / R_out *)
Theorem C96_underestimate : forall P M L eta R_in R_out units d r, phys_ok P -> ssdisk_init P M L eta R_in R_out units = Ok d ->
  0 < M -> 0 < L -> 0 < eta -> 0 < sd_R_in d -> 100 * sd_R_in d <= sd_R_out d -> sd_R_out d <= r ->
  exists u, ssdisk_u P d r None = Ok u /\
    u <= 45 * (1 + (sd_R_out d / r) ^ 2) ^ 3 * (sd_R_in d / sd_R_out d) * rings_density P (flux_of P d) (sd_R_in d) (sd_R_out d) r.
Proof.
  intros P M L eta ri ro un d r HP Hd HM HL He Hi Ho Hr. destruct (init_pos _ _ _ _ _ _ _ _ HP Hd HM HL He) as [H1 H2]. assert (Ho' : sd_R_in d < sd_R_out d) by lra. assert (Hr' : 0 < r) by lra.
  destruct (C96_refinement_partial P M L eta ri ro un d r HP Hd HM HL He Hi Ho' Hr') as [E _]. eexists. split; [exact E|]. rewrite rings_ring by auto. apply (code_under P d r); auto.
Qed.
Print Assumptions C96_underestimate.
(** so it is not the energy density of the disk, not even within a factor of three *)
Theorem C96_density_refuted : exists d, ssdisk_init codata (1e8 * M_sun) 1e46 (1 / 12) (Plain 6) (Plain 1000) true = Ok d /\
  forall r, 10 * sd_R_out d <= r -> exists u, ssdisk_u codata d r None = Ok u /\
    0 < rings_density codata (flux_of codata d) (sd_R_in d) (sd_R_out d) r /\ u < 0.3 * rings_density codata (flux_of codata d) (sd_R_in d) (sd_R_out d) r.
Proof.
  pose proof codata_ok as K. pose proof K as []. destruct (ssdisk_init codata (1e8 * M_sun) 1e46 (1 / 12) (Plain 6) (Plain 1000) true) as [d|e] eqn:Hd; [|discriminate]. exists d. split; auto. intros r Hr.
  assert (HM : 0 < 1e8 * M_sun) by (unfold M_sun; lra). assert (HL : 0 < 1e46) by lra. assert (He : 0 < 1 / 12) by lra. destruct (init_pos _ _ _ _ _ _ _ _ K Hd HM HL He) as [H1 H2].
  assert (EE : exists g, 0 < g /\ sd_R_in d = 6 * g /\ sd_R_out d = 1000 * g).
  { exists (c_G codata * (1e8 * M_sun) / c_c codata ^ 2). unfold ssdisk_init in Hd. apply (f_equal (fun x => match x with Ok y => y | Err _ => d end)) in Hd. cbv beta iota in Hd. rewrite <- Hd. cbn [sd_R_in sd_R_out]. split; [|split; reflexivity]. apply Rdiv_lt_0_compat; [apply Rmult_lt_0_compat; auto|apply pow_lt; auto]. }
  destruct EE as (g & Hg & Ei & Eo). assert (Hi : 0 < sd_R_in d) by lra. assert (Ho : 100 * sd_R_in d <= sd_R_out d) by lra. assert (Hr1 : sd_R_out d <= r) by lra.
  destruct (C96_underestimate codata _ _ _ _ _ _ d r K Hd HM HL He Hi Ho Hr1) as (u & E & B). exists u. split; auto.
  assert (HU : 0 < rings_density codata (flux_of codata d) (sd_R_in d) (sd_R_out d) r).
  { rewrite rings_ring by (auto; lra). destruct (rings_bounds codata d r K H1 H2 Hi ltac:(lra) ltac:(lra)) as [LB _]. eapply Rlt_le_trans; [|exact LB]. apply Rmult_lt_0_compat; [apply Rdiv_lt_0_compat; [apply kd_pos; auto|auto]|]. replace (sd_R_in d / sd_R_out d) with 0.006 by (rewrite Ei, Eo; replace (6 * g / (1000 * g)) with (6 / 1000) by (field; lra); lra). apply Rdiv_lt_0_compat; [|nra]. apply Rdiv_lt_0_compat; [|lra]. pose proof (sqrt_pos 0.006). lra. }
  split; auto. eapply Rle_lt_trans; [exact B|]. apply Rmult_lt_compat_r; auto. replace (sd_R_in d / sd_R_out d) with 0.006 by (rewrite Ei, Eo; replace (6 * g / (1000 * g)) with (6 / 1000) by (field; lra); lra).
  assert (V : 0 <= (sd_R_out d / r) ^ 2 <= 0.01). { split; [apply pow2_ge_0|]. replace 0.01 with (0.1 ^ 2) by lra. apply pow_incr. split; [apply Rlt_le, Rdiv_lt_0_compat; lra|]. apply (proj2 (Rle_div_l (sd_R_out d) 0.1 r ltac:(lra))). lra. }
  assert ((1 + (sd_R_out d / r) ^ 2) ^ 3 <= 1.01 ^ 3) by (apply pow_incr; lra). lra.
Qed.
Print Assumptions C96_density_refuted.
(** the example of the documentation: 6 and 200 gravitational radii *)
Example C96_case : exists d, ex_disk = Ok d /\ 0 < sd_R_in d /\ sd_R_in d < sd_R_out d /\ 0 < sd_R_g d /\
  is_RInt (fun R_ => 2 * flux_of codata d R_ * (2 * PI * R_)) (sd_R_in d) (sd_R_out d) (1e46 * (1 - 0.09 + 0.06 * sqrt 0.03)).
Proof.
  pose proof codata_ok as K. pose proof K as []. unfold ex_disk. destruct (ssdisk_init codata (1e8 * M_sun) 1e46 (1 / 12) (Plain 6) (Plain 200) true) as [d|e] eqn:Hd; [|discriminate]. exists d. split; auto.
  assert (EE : 0 < sd_R_g d /\ sd_R_in d = 6 * sd_R_g d /\ sd_R_out d = 200 * sd_R_g d).
  { assert (HM : 0 < 1e8 * M_sun) by (unfold M_sun; lra). unfold ssdisk_init in Hd. apply (f_equal (fun x => match x with Ok y => y | Err _ => d end)) in Hd. cbv beta iota in Hd. rewrite <- Hd. cbn [sd_R_in sd_R_out sd_R_g]. split; [|split; reflexivity]. apply Rdiv_lt_0_compat; [apply Rmult_lt_0_compat; auto|apply pow_lt; auto]. }
  destruct EE as (Hg & Ei & Eo). split; [lra|]. split; [lra|]. split; auto.
  pose proof (C96_power codata _ _ _ _ _ _ d K Hd ltac:(unfold M_sun; lra) ltac:(lra) ltac:(lra) ltac:(lra)) as Q. cbv zeta in Q. replace (sd_R_in d / sd_R_out d) with 0.03 in Q by (rewrite Ei, Eo; replace (6 * sd_R_g d / (200 * sd_R_g d)) with (6 / 200) by (field; lra); lra).
  replace (1e46 * (sd_R_g d / (2 * (1 / 12) * sd_R_in d)) * (1 - 3 * 0.03 + 2 * 0.03 * sqrt 0.03)) with (1e46 * (1 - 0.09 + 0.06 * sqrt 0.03)) in Q; auto.
  rewrite Ei. replace (sd_R_g d / (2 * (1 / 12) * (6 * sd_R_g d))) with 1 by (field; lra). lra.
Qed.
Print Assumptions C96_case.
