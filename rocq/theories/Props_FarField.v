(** C95: energy densities of the broad line region and the torus against the
    exact integrals and against a point source. *)
From Verif Require Import Base TEUtils ListFacts NumpyInst MathUtils Conversion Spectra Blob Geometry Targets Spec_Math Spec_Geom Spec_Thermal Spec_Beams Spec_Field MathFacts SpectraFacts BlobFacts Calculus SynchFacts Props_Geometry TargetFacts Props_Targets Props_Beams Props_Blob AbsorptionFacts Props_Opacity.
From Coquelicot Require Import Coquelicot.
From Coq Require Import String List.
Import ListNotations.
Open Scope list_scope.
Open Scope R_scope.

(** trapezia against an antiderivative, cell by cell *)
Lemma cells_bounds (f F : R -> R) C : forall xs, (forall i a b, nth_error xs i = Some a -> nth_error xs (S i) = Some b ->
    F b - F a <= (b - a) * (f a + f b) / 2 <= C * (F b - F a)) ->
  forall a b, nth_error xs 0 = Some a -> nth_error xs (length xs - 1) = Some b -> F b - F a <= over xs f <= C * (F b - F a).
Proof.
  induction xs as [|x l IH]; intros H a b Ha Hb; [discriminate|]. injection Ha as <-.
  destruct l as [|y l].
  - injection Hb as <-. unfold over. simpl. lra.
  - assert (IH' : F b - F y <= over (y :: l) f <= C * (F b - F y)).
    { apply IH; auto. - intros i u v Hu Hv. apply (H (S i)); auto. - simpl in Hb |- *. rewrite Nat.sub_0_r. auto. }
    pose proof (H 0%nat x y eq_refl eq_refl) as H0. unfold over in IH' |- *. cbn [map trapezia] in IH' |- *. lra.
Qed.
Lemma log_cell w : 1 <= w -> ln w <= (w - / w) / 2 /\ (w - / w) / 2 <= ln w * ((w + / w) / 2).
Proof.
  intros H. split.
  - assert (X : (1 - / 1) / 2 - ln 1 <= (w - / w) / 2 - ln w).
    { apply (mono_incr (fun x => (x - / x) / 2 - ln x) (fun x => (1 - / x) ^ 2 / 2)); auto.
      - intros x Hx. auto_derive; [split; lra|]. field. lra.
      - intros x Hx. pose proof (pow2_ge_0 (1 - / x)). lra. }
    rewrite ln_1, Rinv_1 in X. lra.
  - assert (X : ln 1 * ((1 + / 1) / 2) - (1 - / 1) / 2 <= ln w * ((w + / w) / 2) - (w - / w) / 2).
    { apply (mono_incr (fun x => ln x * ((x + / x) / 2) - (x - / x) / 2) (fun x => ln x * (1 - / x ^ 2) / 2)); auto.
      - intros x Hx. auto_derive; [repeat split; lra|]. field. lra.
      - intros x Hx. assert (0 <= ln x) by (rewrite <- ln_1; apply ln_le; lra). assert (/ x ^ 2 <= 1) by (rewrite <- Rinv_1; apply Rinv_le_contravar; [lra|nra]). 
        assert (0 <= ln x * (1 - / x ^ 2)) by (apply Rmult_le_pos; lra). lra. }
    rewrite ln_1, Rinv_1 in X. lra.
Qed.
Lemma avg_inv_mono w q : 1 <= w -> w <= q -> (w + / w) / 2 <= (q + / q) / 2.
Proof.
  intros H1 H2. assert (w + / w <= q + / q); [|lra].
  apply (mono_incr (fun x => x + / x) (fun x => 1 - / x ^ 2)); auto.
  - intros x Hx. auto_derive; [lra|]. field. lra.
  - intros x Hx. assert (/ x ^ 2 <= 1) by (rewrite <- Rinv_1; apply Rinv_le_contravar; [lra|nra]). lra.
Qed.

(** atanh(s)/s *)
Lemma atanh_bounds s : 0 < s < 1 -> 2 * s <= ln ((1 + s) / (1 - s)) <= 2 * s / (1 - s ^ 2).
Proof.
  intros Hs. rewrite ln_div by lra. split.
  - assert (X : ln (1 + 0) - ln (1 - 0) - 2 * 0 <= ln (1 + s) - ln (1 - s) - 2 * s).
    { apply (mono_incr (fun x => ln (1 + x) - ln (1 - x) - 2 * x) (fun x => 2 * x ^ 2 / (1 - x ^ 2))); [lra| |].
      - intros x Hx. auto_derive; [repeat split; lra|]. field. repeat split; nra.
      - intros x Hx. apply Rdiv_le_0_compat; nra. }
    rewrite Rplus_0_r, Rminus_0_r, ln_1 in X. lra.
  - assert (X : 2 * 0 / (1 - 0 ^ 2) - (ln (1 + 0) - ln (1 - 0)) <= 2 * s / (1 - s ^ 2) - (ln (1 + s) - ln (1 - s))).
    { apply (mono_incr (fun x => 2 * x / (1 - x ^ 2) - (ln (1 + x) - ln (1 - x))) (fun x => 4 * x ^ 2 / (1 - x ^ 2) ^ 2)); [lra| |].
      - intros x Hx. assert (1 - x ^ 2 <> 0) by nra. auto_derive; [repeat split; try lra; nra|]. field. repeat split; nra.
      - intros x Hx. assert (0 < 1 - x ^ 2) by nra. apply Rdiv_le_0_compat; [nra|apply pow_lt; auto]. }
    rewrite Rplus_0_r, Rminus_0_r, ln_1 in X. replace (2 * 0 / (1 - 0 ^ 2)) with 0 in X by (field; lra). lra.
Qed.

Lemma shell_dist2 R_ r m : -1 <= m <= 1 -> dist (on_sight_line r 0 1) (spherical R_ m 0) ^ 2 = r ^ 2 + R_ ^ 2 - 2 * r * R_ * m.
Proof.
  intros Hm. rewrite <- (C50_shell_distance m R_ r 0 Hm). unfold x_re_shell. rewrite pow2_sqrt; [ring|].
  pose proof (pow2_ge_0 (R_ * m - r)). pose proof (pow2_ge_0 R_). assert (m ^ 2 <= 1) by nra. nra.
Qed.
Lemma shell_F R_ r m : 0 < R_ -> 0 < r -> r <> R_ -> -1 <= m <= 1 ->
  is_derive (fun mu => - ln (r ^ 2 + R_ ^ 2 - 2 * r * R_ * mu) / (2 * r * R_)) m (1 / (r ^ 2 + R_ ^ 2 - 2 * r * R_ * m)).
Proof.
  intros HR Hr Hne Hm. pose proof (shell_x2 R_ r m HR ltac:(lra) Hm Hne) as X. auto_derive; [replace (r * (r * 1) + R_ * (R_ * 1) + - (2 * r * R_ * m)) with (r ^ 2 + R_ ^ 2 - 2 * r * R_ * m) by ring; auto|].
  field. repeat split; try lra.
Qed.
(** closed form of the exact density *)
Lemma shell_exact P lum R_ r : phys_ok P -> 0 < R_ -> 0 < r -> r <> R_ ->
  is_RInt (fun mu => lum * (1 / 2) / (4 * PI * c_c P * dist (on_sight_line r 0 1) (spherical R_ mu 0) ^ 2)) (-1) 1
    (lum / (8 * PI * c_c P) * ((- ln (r ^ 2 + R_ ^ 2 - 2 * r * R_ * 1) / (2 * r * R_)) - (- ln (r ^ 2 + R_ ^ 2 - 2 * r * R_ * -1) / (2 * r * R_)))).
Proof.
  intros [] HR Hr Hne. pose proof PI_RGT_0.
  apply (is_RInt_ext (fun mu => scal (lum / (8 * PI * c_c P)) (1 / (r ^ 2 + R_ ^ 2 - 2 * r * R_ * mu)))).
  { intros x. rewrite Rmin_left, Rmax_right by lra. intros Hx. rewrite shell_dist2 by lra. pose proof (shell_x2 R_ r x HR ltac:(lra) ltac:(lra) Hne). unfold scal; simpl; unfold mult; simpl. field. repeat split; lra. }
  apply (@is_RInt_scal R_NormedModule).
  apply (is_RInt_derive (fun mu => - ln (r ^ 2 + R_ ^ 2 - 2 * r * R_ * mu) / (2 * r * R_)) (fun mu => 1 / (r ^ 2 + R_ ^ 2 - 2 * r * R_ * mu))).
  - intros x. rewrite Rmin_left, Rmax_right by lra. intros Hx. apply shell_F; auto.
  - intros x. rewrite Rmin_left, Rmax_right by lra. intros Hx. pose proof (shell_x2 R_ r x HR ltac:(lra) Hx Hne).
    apply (ex_derive_continuous (fun mu => 1 / (r ^ 2 + R_ ^ 2 - 2 * r * R_ * mu))). auto_derive. replace (r * (r * 1) + R_ * (R_ * 1) + - (2 * r * R_ * x)) with (r ^ 2 + R_ ^ 2 - 2 * r * R_ * x) by ring. lra.
Qed.

Lemma INR_49 : INR 49 = 49.
Proof. simpl. lra. Qed.
(** the code's sum over 50 polar cosines *)
Lemma blr_sum_bounds P t r : phys_ok P -> 0 <= blr_xi t * blr_L_disk t -> 0 < blr_R_line t -> 0 < r -> r <> blr_R_line t ->
  let U := shell_density P (blr_xi t * blr_L_disk t) (blr_R_line t) r in
  let q := 1 + 4 * r * blr_R_line t / (49 * (r - blr_R_line t) ^ 2) in
  U <= blr_sum P t r (fun _ => 1) <= (q + / q) / 2 * U.
Proof.
  intros HP HL HR Hr Hne U q. pose proof HP as []. pose proof PI_RGT_0. set (R_ := blr_R_line t) in *. set (k := blr_xi t * blr_L_disk t / (8 * PI * c_c P)).
  set (F := fun mu => - ln (r ^ 2 + R_ ^ 2 - 2 * r * R_ * mu) / (2 * r * R_)). set (f := fun mu => 1 / (r ^ 2 + R_ ^ 2 - 2 * r * R_ * mu)).
  assert (HU : U = k * (F 1 - F (-1))). { unfold U, shell_density. apply (@is_RInt_unique R_CompleteNormedModule). apply shell_exact; auto. }
  assert (Hk : 0 <= k) by (unfold k; apply Rdiv_le_0_compat; [lra|pos]).
  assert (HS : blr_sum P t r (fun _ => 1) = k * over (linspace (-1) 1 50) f).
  { unfold blr_sum. fold k R_. f_equal. rewrite trapz_over. apply over_ext. intros m Hm. apply linspace_in in Hm; [|lra]. rewrite shell_dist2 by auto. unfold f. ring. }
  assert (B : F 1 - F (-1) <= over (linspace (-1) 1 50) f <= (q + / q) / 2 * (F 1 - F (-1))).
  { apply cells_bounds.
    - intros i a b Ha Hb. assert (Hi : (S i < 50)%nat) by (rewrite <- (linspace_length (-1) 1 50); apply nth_error_Some; congruence).
      assert (Ia : -1 <= a <= 1) by (apply linspace_in with 50%nat; [lra|]; apply nth_error_In with i; auto). assert (Ib : -1 <= b <= 1) by (apply linspace_in with 50%nat; [lra|]; apply nth_error_In with (S i); auto).
      rewrite linspace_nth in Ha, Hb by lia. apply some_inj in Ha. apply some_inj in Hb. change (50 - 1)%nat with 49%nat in Ha, Hb. rewrite S_INR in Hb. rewrite INR_49 in Ha, Hb. assert (Hh : b - a = 2 / 49) by lra. clear Ha Hb.
      pose proof (shell_x2 R_ r a HR ltac:(lra) Ia Hne) as Ya. pose proof (shell_x2 R_ r b HR ltac:(lra) Ib Hne) as Yb. assert (Hc : 0 < 2 * r * R_) by pos.
      set (ya := r ^ 2 + R_ ^ 2 - 2 * r * R_ * a) in *. set (yb := r ^ 2 + R_ ^ 2 - 2 * r * R_ * b) in *. set (c := 2 * r * R_) in *.
      assert (Hy : ya = yb + c * (2 / 49)) by (unfold ya, yb; fold c; rewrite <- Hh; ring).
      assert (Hw1 : 1 <= ya / yb). { apply (proj1 (Rle_div_r 1 ya yb Yb)). nra. }
      assert (D2 : 0 < (r - R_) ^ 2). { assert (r - R_ <> 0) by lra. pose proof (pow2_ge_0 (r - R_)). pose proof (pow_nonzero (r - R_) 2 ltac:(auto)). lra. }
      assert (Hw2 : ya / yb <= q). { unfold q. rewrite Hy. replace ((yb + c * (2 / 49)) / yb) with (1 + c * (2 / 49) / yb) by (field; lra). replace (4 * r * R_ / (49 * (r - R_) ^ 2)) with (c * (2 / 49) / (r - R_) ^ 2) by (unfold c; field; lra).
        apply Rplus_le_compat_l. apply Rmult_le_compat_l; [nra|]. apply Rinv_le_contravar; auto. unfold yb, c. assert (0 <= r * R_ * (1 - b)) by (apply Rmult_le_pos; nra). nra. }
      assert (EF : F b - F a = ln (ya / yb) / c). { unfold F. fold c ya yb. rewrite ln_div by lra. field. lra. }
      assert (ET : (b - a) * (f a + f b) / 2 = (ya / yb - / (ya / yb)) / 2 / c). { unfold f. fold c ya yb. rewrite Hh. replace (2 / 49) with ((ya - yb) / c) by (rewrite Hy; field; lra). field. repeat split; lra. }
      destruct (log_cell (ya / yb) Hw1) as [L1 L2]. pose proof (avg_inv_mono (ya / yb) q Hw1 Hw2) as L3. assert (L0 : 0 <= ln (ya / yb)) by (rewrite <- ln_1; apply ln_le; lra).
      rewrite EF, ET. split; [apply Rmult_le_compat_r; [left; apply Rinv_0_lt_compat; lra|]; auto|].
      replace ((q + / q) / 2 * (ln (ya / yb) / c)) with ((ln (ya / yb) * ((q + / q) / 2)) / c) by (field; split; [lra|]; unfold q; assert (0 <= 4 * r * R_ / (49 * (r - R_) ^ 2)) by (apply Rdiv_le_0_compat; nra); lra).
      apply Rmult_le_compat_r; [left; apply Rinv_0_lt_compat; lra|]. nra.
    - apply linspace_first. lia.
    - rewrite linspace_length. apply linspace_last. lia. }
  rewrite HU, HS. split; [apply Rmult_le_compat_l; lra|]. replace ((q + / q) / 2 * (k * (F 1 - F (-1)))) with (k * ((q + / q) / 2 * (F 1 - F (-1)))) by ring. apply Rmult_le_compat_l; lra.
Qed.

(** ** C95: the broad line region *)
Theorem C95_shell_value : forall P lum R_ r, phys_ok P -> 0 < R_ -> 0 < r -> r <> R_ ->
  shell_density P lum R_ r = lum / (8 * PI * c_c P * r * R_) * ln ((r + R_) / Rabs (r - R_)).
Proof.
  intros P lum R_ r HP HR Hr Hne. pose proof HP as []. pose proof PI_RGT_0. unfold shell_density. rewrite (@is_RInt_unique R_CompleteNormedModule _ _ _ _ (shell_exact P lum R_ r HP HR Hr Hne)).
  assert (HA : 0 < Rabs (r - R_)) by (apply Rabs_pos_lt; lra).
  replace (r ^ 2 + R_ ^ 2 - 2 * r * R_ * 1) with (Rabs (r - R_) ^ 2) by (rewrite RPow_abs, (Rabs_pos_eq _ (pow2_ge_0 _)); ring). replace (r ^ 2 + R_ ^ 2 - 2 * r * R_ * -1) with ((r + R_) ^ 2) by ring.
  rewrite ln_div by lra. rewrite !ln_pow by lra. simpl INR. field. repeat split; lra.
Qed.
Print Assumptions C95_shell_value.
Lemma shell_nonneg P lum R_ r : phys_ok P -> 0 <= lum -> 0 < R_ -> 0 < r -> r <> R_ -> 0 <= shell_density P lum R_ r.
Proof.
  intros HP HL HR Hr Hne. rewrite C95_shell_value by auto. pose proof HP as []. pose proof PI_RGT_0. apply Rmult_le_pos; [apply Rdiv_le_0_compat; [lra|pos]|]. assert (HA : 0 < Rabs (r - R_)) by (apply Rabs_pos_lt; lra).
  rewrite <- ln_1. apply ln_le; [lra|]. apply (proj1 (Rle_div_r 1 (r + R_) _ HA)). rewrite Rmult_1_l. apply Rabs_le. lra.
Qed.
Theorem C95_blr : forall P t r, phys_ok P -> 0 <= blr_xi t * blr_L_disk t -> 0 < blr_R_line t -> 0 < r -> r <> blr_R_line t ->
  let U := shell_density P (blr_xi t * blr_L_disk t) (blr_R_line t) r in
  let q := 1 + 4 * r * blr_R_line t / (49 * (r - blr_R_line t) ^ 2) in
  exists u, blr_u P t r None = Ok u /\ U <= u <= (q + / q) / 2 * U.
Proof.
  intros P t r HP HL HR Hr Hne U q. exists (blr_sum P t r (fun _ => 1)). split; [|apply blr_sum_bounds; auto].
  destruct (Beta_exists {| R_b := 1; redshift := 0; d_L := 1; delta_D := 1; Gamma := 5 / 3; B_field := 1; n_e := PowerLaw 1 2 10 100; n_p_opt := None; xi := 1; gamma_e_size := 10; gamma_p_size := 10 |} ltac:(cbn [Gamma]; lra)) as [beta HB].
  apply (blr_u_eq P t r _ beta HR ltac:(lra) Hne HB).
Qed.
Print Assumptions C95_blr.

(** at half the radius or nearer to the black hole, and at twice the radius or farther, within 1.4 per cent *)
Lemma avg_inv_le q : 1 <= q -> (q + / q) / 2 <= 1 + (q - 1) ^ 2 / 2.
Proof.
  intros H. assert (/ q <= 1 - (q - 1) + (q - 1) ^ 2); [|lra]. apply Rmult_le_reg_l with q; [lra|]. rewrite Rinv_r by lra. set (e := q - 1). replace q with (1 + e) by (unfold e; ring). assert (0 <= e) by (unfold e; lra). assert (0 <= e ^ 3) by (apply pow_le; auto). nra.
Qed.
Theorem C95_blr_accuracy : forall P t r, phys_ok P -> 0 <= blr_xi t * blr_L_disk t -> 0 < blr_R_line t -> 0 < r -> (2 * r <= blr_R_line t \/ 2 * blr_R_line t <= r) ->
  let U := shell_density P (blr_xi t * blr_L_disk t) (blr_R_line t) r in
  exists u, blr_u P t r None = Ok u /\ U <= u <= 1.014 * U.
Proof.
  intros P t r HP HL HR Hr Hd U. assert (Hne : r <> blr_R_line t) by lra. destruct (C95_blr P t r HP HL HR Hr Hne) as (u & E & B1 & B2). exists u. split; auto. split; auto. fold U in B1, B2.
  eapply Rle_trans; [exact B2|]. assert (0 <= U) by (apply shell_nonneg; auto). apply Rmult_le_compat_r; auto. set (R_ := blr_R_line t) in *.
  assert (D2 : 0 < (r - R_) ^ 2). { assert (r - R_ <> 0) by lra. pose proof (pow2_ge_0 (r - R_)). pose proof (pow_nonzero (r - R_) 2 ltac:(auto)). lra. }
  assert (Q1 : 0 <= 4 * r * R_ / (49 * (r - R_) ^ 2)) by (apply Rdiv_le_0_compat; nra). assert (Q2 : 4 * r * R_ / (49 * (r - R_) ^ 2) <= 8 / 49).
  { apply (proj2 (Rle_div_l (4 * r * R_) (8 / 49) (49 * (r - R_) ^ 2) ltac:(lra))). assert (r * R_ <= 2 * (r - R_) ^ 2); [|lra]. destruct Hd as [Hd|Hd]; nra. }
  eapply Rle_trans; [apply avg_inv_le; lra|]. nra.
Qed.
Print Assumptions C95_blr_accuracy.

(** far outside the shell it is a point source, deep inside it is uniform *)
Lemma shell_far P lum R_ r : phys_ok P -> 0 <= lum -> 0 < R_ -> R_ < r ->
  source_density P lum r <= shell_density P lum R_ r <= source_density P lum r / (1 - (R_ / r) ^ 2).
Proof.
  intros HP HL HR Hr. rewrite C95_shell_value by (auto; lra). pose proof HP as []. pose proof PI_RGT_0. unfold source_density. rewrite Rabs_pos_eq by lra.
  assert (Hs : 0 < R_ / r < 1). { split; [apply Rdiv_lt_0_compat; lra|]. apply (proj2 (Rlt_div_l R_ 1 r ltac:(lra))). lra. }
  destruct (atanh_bounds (R_ / r) Hs) as [A1 A2]. replace ((1 + R_ / r) / (1 - R_ / r)) with ((r + R_) / (r - R_)) in A1, A2 by (field; lra).
  assert (K : 0 <= lum / (8 * PI * c_c P * r * R_)) by (apply Rdiv_le_0_compat; [lra|pos]). split.
  - replace (lum / (4 * PI * c_c P * r ^ 2)) with (lum / (8 * PI * c_c P * r * R_) * (2 * (R_ / r))) by (field; repeat split; lra). apply Rmult_le_compat_l; auto.
  - assert (0 < 1 - (R_ / r) ^ 2) by nra. replace (lum / (4 * PI * c_c P * r ^ 2) / (1 - (R_ / r) ^ 2)) with (lum / (8 * PI * c_c P * r * R_) * (2 * (R_ / r) / (1 - (R_ / r) ^ 2))) by (field; repeat split; try lra; nra). apply Rmult_le_compat_l; auto.
Qed.
Lemma shell_swap P lum R_ r : phys_ok P -> 0 < R_ -> 0 < r -> r <> R_ -> shell_density P lum R_ r = shell_density P lum r R_.
Proof.
  intros HP HR Hr Hne. rewrite !C95_shell_value by (auto; lra). rewrite (Rabs_minus_sym R_ r). rewrite (Rplus_comm R_ r). f_equal. f_equal. ring.
Qed.
Theorem C95_blr_far : forall P t r, phys_ok P -> 0 <= blr_xi t * blr_L_disk t -> 0 < blr_R_line t -> 2 * blr_R_line t <= r ->
  let pt := source_density P (blr_xi t * blr_L_disk t) r in
  exists u, blr_u P t r None = Ok u /\ pt <= u <= 1.014 * (pt / (1 - (blr_R_line t / r) ^ 2)).
Proof.
  intros P t r HP HL HR Hr pt. destruct (C95_blr_accuracy P t r HP HL HR ltac:(lra) ltac:(auto)) as (u & E & B1 & B2). exists u. split; auto. destruct (shell_far P (blr_xi t * blr_L_disk t) (blr_R_line t) r HP HL HR ltac:(lra)) as [F1 F2]. fold pt in F1, F2. split; lra.
Qed.
Print Assumptions C95_blr_far.
Theorem C95_blr_deep : forall P t r, phys_ok P -> 0 <= blr_xi t * blr_L_disk t -> 0 < r -> 2 * r <= blr_R_line t ->
  let un := source_density P (blr_xi t * blr_L_disk t) (blr_R_line t) in
  exists u, blr_u P t r None = Ok u /\ un <= u <= 1.014 * (un / (1 - (r / blr_R_line t) ^ 2)).
Proof.
  intros P t r HP HL HR Hr un. destruct (C95_blr_accuracy P t r HP HL ltac:(lra) ltac:(lra) ltac:(auto)) as (u & E & B1 & B2). exists u. split; auto. rewrite shell_swap in B1, B2 by (auto; lra). destruct (shell_far P (blr_xi t * blr_L_disk t) r (blr_R_line t) HP HL HR ltac:(lra)) as [F1 F2]. fold un in F1, F2. split; lra.
Qed.
Print Assumptions C95_blr_deep.

(** close to the shell the 50 points do not resolve the near side: the value exceeds the exact one by any factor *)
Lemma over_last : forall xs f i a b, nondecr xs -> (forall x, In x xs -> 0 <= f x) -> S (S i) = length xs -> nth_error xs i = Some a -> nth_error xs (S i) = Some b -> (b - a) * (f a + f b) / 2 <= over xs f.
Proof.
  induction xs as [|x [|y l] IH]; intros f i a b Hi Hf Hn Ha Hb; [discriminate|simpl in Hn; lia|]. destruct Hi as [Hi1 Hi2]. rewrite over_cons2.
  destruct i as [|i].
  - simpl in Ha, Hb. apply some_inj in Ha. apply some_inj in Hb. subst. assert (0 <= over (b :: l) f) by (apply over_nonneg; auto; intros z Hz; apply Hf; right; auto). lra.
  - assert (0 <= f x) by (apply Hf; left; auto). assert (0 <= f y) by (apply Hf; right; left; auto). assert (S (S i) = length (y :: l)) by (simpl in Hn |- *; lia). assert (Hf' : forall z, In z (y :: l) -> 0 <= f z) by (intros z Hz; apply Hf; right; auto). pose proof (IH f i a b Hi2 Hf' ltac:(auto) Ha Hb). nra.
Qed.
Theorem C95_blr_near : forall P t K, phys_ok P -> 0 < blr_xi t * blr_L_disk t -> 0 < blr_R_line t -> 0 < K ->
  exists d, 0 < d /\ forall r, r <> blr_R_line t -> Rabs (r - blr_R_line t) < d ->
  exists u, blr_u P t r None = Ok u /\ K * shell_density P (blr_xi t * blr_L_disk t) (blr_R_line t) r < u.
Proof.
  intros P t K HP HL HR HK. set (R_ := blr_R_line t) in *. exists (Rmin (R_ / 2) (R_ / (147 * K))).
  assert (H1 : 0 < R_ / (147 * K)) by (apply Rdiv_lt_0_compat; lra). split; [apply Rmin_glb_lt; lra|]. intros r Hne Hd. assert (Hd1 : Rabs (r - R_) < R_ / 2) by (eapply Rlt_le_trans; [exact Hd|apply Rmin_l]). assert (Hd2 : Rabs (r - R_) < R_ / (147 * K)) by (eapply Rlt_le_trans; [exact Hd|apply Rmin_r]).
  assert (Hr : R_ / 2 < r < 3 / 2 * R_) by (apply Rabs_def2 in Hd1; lra). set (dl := Rabs (r - R_)) in *. assert (Hdl : 0 < dl) by (apply Rabs_pos_lt; lra).
  exists (blr_sum P t r (fun _ => 1)). split.
  { destruct (Beta_exists {| R_b := 1; redshift := 0; d_L := 1; delta_D := 1; Gamma := 5 / 3; B_field := 1; n_e := PowerLaw 1 2 10 100; n_p_opt := None; xi := 1; gamma_e_size := 10; gamma_p_size := 10 |} ltac:(cbn [Gamma]; lra)) as [beta HB].
    apply (blr_u_eq P t r _ beta HR ltac:(lra) Hne HB). }
  rewrite C95_shell_value by (auto; lra). fold dl. pose proof HP as []. pose proof PI_RGT_0. set (k := blr_xi t * blr_L_disk t / (8 * PI * c_c P)). assert (Hk : 0 < k) by (unfold k; apply Rdiv_lt_0_compat; [lra|pos]).
  set (f := fun mu => 1 / (r ^ 2 + R_ ^ 2 - 2 * r * R_ * mu)).
  assert (HS : blr_sum P t r (fun _ => 1) = k * over (linspace (-1) 1 50) f).
  { unfold blr_sum. fold k R_. f_equal. rewrite trapz_over. apply over_ext. intros m Hm. apply linspace_in in Hm; [|lra]. rewrite shell_dist2 by auto. unfold f. ring. }
  assert (LB : 1 / 49 / dl ^ 2 <= over (linspace (-1) 1 50) f).
  { eapply Rle_trans; [|apply (over_last (linspace (-1) 1 50) f 48 (1 - 2 / 49) 1)].
    - assert (0 < f (1 - 2 / 49)) by (unfold f; apply Rdiv_lt_0_compat; [lra|]; apply shell_x2; lra). unfold f at 2. replace (r ^ 2 + R_ ^ 2 - 2 * r * R_ * 1) with (dl ^ 2) by (unfold dl; rewrite RPow_abs, (Rabs_pos_eq _ (pow2_ge_0 _)); ring).
      assert (0 < / dl ^ 2) by (apply Rinv_0_lt_compat; nra). unfold Rdiv at 2. unfold Rdiv at 4. lra.
    - apply incr_nondecr. apply linspace_incr. lra.
    - intros x Hx. apply linspace_in in Hx; [|lra]. unfold f. left. apply Rdiv_lt_0_compat; [lra|]. apply shell_x2; lra.
    - rewrite linspace_length. reflexivity.
    - rewrite linspace_nth by lia. f_equal. change (50 - 1)%nat with 49%nat. rewrite INR_49. replace (INR 48) with 48 by (simpl; lra). lra.
    - rewrite linspace_nth by lia. f_equal. change (50 - 1)%nat with 49%nat. rewrite INR_49. lra. }
  rewrite HS. replace (K * (blr_xi t * blr_L_disk t / (8 * PI * c_c P * r * R_) * ln ((r + R_) / dl))) with (k * (K * (ln ((r + R_) / dl) / (r * R_)))) by (unfold k; field; repeat split; lra).
  apply Rmult_lt_compat_l; auto. eapply Rlt_le_trans; [|exact LB].
  assert (HX : 0 < (r + R_) / dl) by (apply Rdiv_lt_0_compat; lra). pose proof (ln_le_sub1 ((r + R_) / dl) HX) as HL1. assert (0 < r * R_) by nra.
  apply Rle_lt_trans with (K * ((r + R_) / dl / (r * R_))).
  { apply Rmult_le_compat_l; [lra|]. apply Rmult_le_compat_r; [left; apply Rinv_0_lt_compat; auto|lra]. }
  assert (HK2 : dl * (147 * K) < R_) by (apply (proj2 (Rlt_div_r dl R_ (147 * K) ltac:(lra))); auto).
  apply (proj1 (Rlt_div_r _ _ (dl ^ 2) ltac:(nra))). replace (K * ((r + R_) / dl / (r * R_)) * dl ^ 2) with ((dl * K) * ((r + R_) / (r * R_))) by (field; repeat split; lra).
  assert (G : (r + R_) / (r * R_) <= 3 / R_). { apply (proj2 (Rle_div_l (r + R_) (3 / R_) (r * R_) ltac:(lra))). replace (3 / R_ * (r * R_)) with (3 * r) by (field; lra). lra. }
  assert (0 < dl * K) by nra. apply Rle_lt_trans with (dl * K * (3 / R_)); [apply Rmult_le_compat_l; lra|].
  apply Rmult_lt_reg_r with R_; auto. replace (dl * K * (3 / R_) * R_) with (3 * (dl * K)) by (field; lra). lra.
Qed.
Print Assumptions C95_blr_near.

(** in the frame of the blob: the point-source value is approached only for r much larger than Gamma R *)
Lemma boost_ratio G beta d e : 0 <= beta < 1 -> G ^ 2 * (1 - beta ^ 2) = 1 -> 0 <= 1 - d <= e ->
  (G * (1 - beta)) ^ 2 <= (G * (1 - beta * d)) ^ 2 <= (1 + 2 * G ^ 2 * e) ^ 2 * (G * (1 - beta)) ^ 2.
Proof.
  intros Hb HG Hd. assert (HG2 : 0 <= G ^ 2) by apply pow2_ge_0. rewrite !Rpow_mult_distr. split.
  - apply Rmult_le_compat_l; auto. apply pow_incr. nra.
  - replace ((1 + 2 * G ^ 2 * e) ^ 2 * (G ^ 2 * (1 - beta) ^ 2)) with (G ^ 2 * ((1 + 2 * G ^ 2 * e) * (1 - beta)) ^ 2) by ring. apply Rmult_le_compat_l; auto. apply pow_incr. split; [nra|].
    assert (E : G ^ 2 * (1 - beta) * (1 + beta) = 1) by (transitivity (G ^ 2 * (1 - beta ^ 2)); [ring|auto]). assert (H1 : 1 <= 2 * (G ^ 2 * (1 - beta))). { assert (0 <= G ^ 2 * (1 - beta)) by (apply Rmult_le_pos; lra). nra. } 
    replace ((1 + 2 * G ^ 2 * e) * (1 - beta)) with (1 - beta + 2 * (G ^ 2 * (1 - beta)) * e) by ring. nra.
Qed.
Theorem C95_blr_boosted : forall P t r b beta, phys_ok P -> 0 <= blr_xi t * blr_L_disk t -> 0 < blr_R_line t -> 2 * blr_R_line t <= r -> 1 <= Gamma b -> Beta b = Ok beta ->
  let pt := source_density P (blr_xi t * blr_L_disk t) r * (Gamma b * (1 - beta)) ^ 2 in
  exists u, blr_u P t r (Some b) = Ok u /\ pt <= u <= 1.014 * (1 + 2 * (Gamma b * blr_R_line t / r) ^ 2) ^ 2 / (1 - (blr_R_line t / r) ^ 2) * pt.
Proof.
  intros P t r b beta HP HL HR Hr HG HB pt. destruct (beta_props b beta HB HG) as [HB1 HB2]. destruct (C51_blr_outside P t r b beta HR ltac:(lra) HB) as [E1 E2].
  destruct (C95_blr_far P t r HP HL HR Hr) as (u0 & E0 & U1 & U2). rewrite E1 in E0. assert (E0q : blr_sum P t r (fun _ => 1) = u0) by congruence. clear E0. rename E0q into E0. rewrite E2. eexists. split; [reflexivity|].
  set (R_ := blr_R_line t) in *. set (src := source_density P (blr_xi t * blr_L_disk t) r) in *. set (D := (Gamma b * (1 - beta)) ^ 2) in *. assert (HD : 0 <= D) by apply pow2_ge_0.
  set (M := (1 + 2 * (Gamma b * R_ / r) ^ 2) ^ 2).
  assert (Hdir : forall m, -1 <= m <= 1 -> 0 <= 1 - blr_direction t r m <= (R_ / r) ^ 2).
  { intros m Hm. unfold blr_direction. fold R_. pose proof (shell_dist2 R_ r m Hm) as X. set (x := dist (on_sight_line r 0 1) (spherical R_ m 0)) in *. pose proof (shell_x2 R_ r m HR ltac:(lra) Hm ltac:(lra)) as X0. rewrite <- X in X0.
    assert (Hx : 0 < x). { assert (0 <= x) by (unfold x, dist; apply sqrt_pos). destruct (Req_dec x 0) as [Z|Z]; [rewrite Z in X0; lra|lra]. }
    assert (N0 : 0 < r - R_ * m) by nra. assert (N1 : r - R_ * m <= x). { apply Rsqr_incr_0_var; [|lra]. unfold Rsqr. assert (0 <= R_ ^ 2 * (1 - m ^ 2)) by (apply Rmult_le_pos; nra). nra. }
    assert (Q1 : (r - R_ * m) / x <= 1) by (apply (proj2 (Rle_div_l (r - R_ * m) 1 x Hx)); lra). assert (Q0 : 0 <= (r - R_ * m) / x) by (apply Rdiv_le_0_compat; lra). split; [lra|].
    set (d := (r - R_ * m) / x) in *. apply Rle_trans with (1 - d ^ 2); [nra|]. unfold d. replace (1 - ((r - R_ * m) / x) ^ 2) with (R_ ^ 2 * (1 - m ^ 2) / x ^ 2).
    2:{ apply Rmult_eq_reg_r with (x ^ 2); [|lra]. replace (R_ ^ 2 * (1 - m ^ 2) / x ^ 2 * x ^ 2) with (R_ ^ 2 * (1 - m ^ 2)) by (field; lra). replace ((1 - ((r - R_ * m) / x) ^ 2) * x ^ 2) with (x ^ 2 - (r - R_ * m) ^ 2) by (field; lra). rewrite X. ring. }
    apply (proj2 (Rle_div_l (R_ ^ 2 * (1 - m ^ 2)) ((R_ / r) ^ 2) (x ^ 2) X0)). rewrite X. replace ((R_ / r) ^ 2 * (r ^ 2 + R_ ^ 2 - 2 * r * R_ * m)) with (R_ ^ 2 * (1 + (R_ / r) ^ 2 - 2 * (R_ / r) * m)) by (field; lra). apply Rmult_le_compat_l; [apply pow2_ge_0|]. pose proof (pow2_ge_0 (R_ / r - m)). nra. }
  assert (Hpt : forall m, -1 <= m <= 1 -> D <= (Gamma b * (1 - beta * blr_direction t r m)) ^ 2 <= M * D).
  { intros m Hm. pose proof (boost_ratio (Gamma b) beta (blr_direction t r m) ((R_ / r) ^ 2) ltac:(lra) ltac:(lra) (Hdir m Hm)) as [K1 K2]. split; auto. unfold M. replace (2 * (Gamma b * R_ / r) ^ 2) with (2 * Gamma b ^ 2 * (R_ / r) ^ 2) by (field; lra). auto. }
  assert (Hnd : nondecr (linspace (-1) 1 50)) by (apply incr_nondecr; apply linspace_incr; lra).
  assert (Hw : forall m, In m (linspace (-1) 1 50) -> 0 <= 1 / dist (on_sight_line r 0 1) (spherical R_ m 0) ^ 2).
  { intros m Hm. apply linspace_in in Hm; [|lra]. rewrite shell_dist2 by auto. left. apply Rdiv_lt_0_compat; [lra|]. apply shell_x2; lra. }
  unfold blr_sum in *. fold R_ in E0 |- *. pose proof HP as []. pose proof PI_RGT_0. set (k := blr_xi t * blr_L_disk t / (8 * PI * c_c P)) in *. assert (Hk : 0 <= k) by (unfold k; apply Rdiv_le_0_compat; [lra|pos]). rewrite trapz_over in E0 |- *.
  set (O := over (linspace (-1) 1 50)) in *. set (w := fun m => 1 / dist (on_sight_line r 0 1) (spherical R_ m 0) ^ 2) in *.
  set (g := fun m => 1 / dist (on_sight_line r 0 1) (spherical R_ m 0) ^ 2 * (Gamma b * (1 - beta * blr_direction t r m)) ^ 2).
  assert (O1 : D * O (fun m => w m * 1) <= O g). { unfold O. rewrite over_scale. apply over_le; auto. intros m Hm. pose proof (Hw m Hm). pose proof (linspace_in (-1) 1 50 m ltac:(lra) Hm) as Hm'. destruct (Hpt m Hm') as [K1 K2]. unfold g. fold (w m). fold (w m) in H0. rewrite Rmult_1_r, Rmult_comm. apply Rmult_le_compat_l; auto. }
  assert (O2 : O g <= M * D * O (fun m => w m * 1)). { unfold O. rewrite over_scale. apply over_le; auto. intros m Hm. pose proof (Hw m Hm). pose proof (linspace_in (-1) 1 50 m ltac:(lra) Hm) as Hm'. destruct (Hpt m Hm') as [K1 K2]. unfold g. fold (w m). fold (w m) in H0. rewrite Rmult_1_r, (Rmult_comm (M * D)). apply Rmult_le_compat_l; auto. }
  change (k * O (fun m => w m * 1) = u0) in E0. unfold pt. split.
  - apply Rle_trans with (D * u0); [nra|]. rewrite <- E0. replace (D * (k * O (fun m => w m * 1))) with (k * (D * O (fun m => w m * 1))) by ring. apply Rmult_le_compat_l; auto.
  - apply Rle_trans with (M * D * u0). { rewrite <- E0. replace (M * D * (k * O (fun m => w m * 1))) with (k * (M * D * O (fun m => w m * 1))) by ring. apply Rmult_le_compat_l; auto. }
    assert (HM : 0 <= M) by apply pow2_ge_0. replace (1.014 * M / (1 - (R_ / r) ^ 2) * (src * D)) with (M * D * (1.014 * (src / (1 - (R_ / r) ^ 2)))).
    + apply Rmult_le_compat_l; auto. apply Rmult_le_pos; auto.
    + unfold Rdiv. ring.
Qed.
Print Assumptions C95_blr_boosted.

(** ** C95: the torus *)
Theorem C95_torus : forall P t r, phys_ok P -> 0 < r -> dt_u P t r None = Ok (source_density P (dt_xi t * dt_L_disk t) r / (1 + (dt_R t / r) ^ 2)).
Proof.
  intros P t r [] Hr. unfold dt_u, source_density. assert (0 < r ^ 2) by pos. pose proof (pow2_ge_0 (dt_R t)). pose proof PI_RGT_0. assert (0 < 4 * PI * c_c P * (dt_R t ^ 2 + r ^ 2)) by (apply Rmult_lt_0_compat; [pos|lra]). rewrite div_ok by lra. cbn [bind]. f_equal. field. repeat split; try lra.
Qed.
Print Assumptions C95_torus.
Theorem C95_torus_boosted : forall P t r b beta, phys_ok P -> 0 <= dt_xi t * dt_L_disk t -> 0 < r -> 1 <= Gamma b -> Beta b = Ok beta ->
  let pt := source_density P (dt_xi t * dt_L_disk t) r * (Gamma b * (1 - beta)) ^ 2 in
  let s2 := (dt_R t / r) ^ 2 in
  exists u, dt_u P t r (Some b) = Ok u /\
    (1 + beta * Gamma b ^ 2 * s2 / (2 * (1 + s2))) ^ 2 / (1 + s2) * pt <= u <= (1 + Gamma b ^ 2 * s2) ^ 2 / (1 + s2) * pt.
Proof.
  intros P t r b beta HP HL Hr HG HB pt s2. destruct (beta_props b beta HB HG) as [HB1 HB2]. destruct (C51_torus P t r b beta HP Hr HG HB) as [_ E]. rewrite E. eexists. split; [reflexivity|].
  assert (Hs : 0 <= s2) by apply pow2_ge_0. assert (X : dist (on_sight_line r 0 1) (spherical (dt_R t) 0 0) = r * sqrt (1 + s2)).
  { rewrite <- C50_ring_distance. unfold x_re_ring. rewrite <- (sqrt_pow2 r) at 2 by lra. rewrite <- sqrt_mult by (try apply pow2_ge_0; lra). f_equal. unfold s2. field. lra. }
  rewrite X. set (y := sqrt (1 + s2)). assert (Y2 : y ^ 2 = 1 + s2) by (apply pow2_sqrt; lra). assert (Y1 : 1 <= y) by (apply Rle_trans with (sqrt 1); [rewrite sqrt_1; lra|unfold y; apply sqrt_le_1_alt; lra]).
  pose proof HP as []. pose proof PI_RGT_0. set (k := source_density P (dt_xi t * dt_L_disk t) r). assert (Hk : 0 <= k) by (unfold k, source_density; apply Rdiv_le_0_compat; [lra|pos]).
  replace (dt_xi t * dt_L_disk t / (4 * PI * c_c P * (r * y) ^ 2) * (Gamma b * (1 - beta * (r / (r * y)))) ^ 2) with (k / (1 + s2) * (Gamma b ^ 2 * (1 - beta / y) ^ 2)) by (rewrite <- Y2; unfold k, source_density; field; repeat split; lra).
  assert (Hk2 : 0 <= k / (1 + s2)) by (apply Rdiv_le_0_compat; lra). unfold pt. fold k. set (G := Gamma b) in *. assert (HG2 : 0 <= G ^ 2) by apply pow2_ge_0.
  assert (EG : G ^ 2 * (1 - beta) * (1 + beta) = 1) by (transitivity (G ^ 2 * (1 - beta ^ 2)); [ring|auto]). assert (Hg : 0 <= G ^ 2 * (1 - beta)) by (apply Rmult_le_pos; lra).
  assert (Hy : 1 - / y = s2 / (y * (1 + y))) by (replace s2 with (y ^ 2 - 1) by lra; field; lra).
  assert (Hy1 : 1 - / y <= s2 / 2). { rewrite Hy. apply (proj2 (Rle_div_l s2 (s2 / 2) (y * (1 + y)) ltac:(nra))). nra. }
  assert (Hy2 : s2 / (2 * (1 + s2)) <= 1 - / y). { rewrite Hy. apply Rmult_le_compat_l; auto. apply Rinv_le_contravar; [nra|]. rewrite <- Y2. nra. }
  assert (Hy0 : 0 <= s2 / (2 * (1 + s2))) by (apply Rdiv_le_0_compat; lra).
  split.
  - replace ((1 + beta * G ^ 2 * s2 / (2 * (1 + s2))) ^ 2 / (1 + s2) * (k * (G * (1 - beta)) ^ 2)) with (k / (1 + s2) * (G ^ 2 * ((1 + beta * G ^ 2 * (s2 / (2 * (1 + s2)))) * (1 - beta)) ^ 2)) by (field; lra).
    apply Rmult_le_compat_l; auto. apply Rmult_le_compat_l; auto. apply pow_incr. set (v := s2 / (2 * (1 + s2))) in *. split. { apply Rmult_le_pos; [|lra]. assert (0 <= beta * G ^ 2 * v) by (apply Rmult_le_pos; [apply Rmult_le_pos; lra|lra]). lra. }
    replace ((1 + beta * G ^ 2 * v) * (1 - beta)) with (1 - beta + beta * (G ^ 2 * (1 - beta)) * v) by ring. assert (G ^ 2 * (1 - beta) <= 1) by nra. assert (beta * (G ^ 2 * (1 - beta)) * v <= beta * v). { rewrite Rmult_assoc. apply Rmult_le_compat_l; [lra|]. nra. }
    unfold Rdiv. nra.
  - replace ((1 + G ^ 2 * s2) ^ 2 / (1 + s2) * (k * (G * (1 - beta)) ^ 2)) with (k / (1 + s2) * (G ^ 2 * ((1 + G ^ 2 * s2) * (1 - beta)) ^ 2)) by (field; lra).
    apply Rmult_le_compat_l; auto. apply Rmult_le_compat_l; auto. apply pow_incr. assert (/ y <= 1) by (rewrite <- Rinv_1; apply Rinv_le_contravar; lra). assert (0 < / y) by (apply Rinv_0_lt_compat; lra). unfold Rdiv. split; [nra|].
    replace ((1 + G ^ 2 * s2) * (1 - beta)) with (1 - beta + (G ^ 2 * (1 - beta)) * s2) by ring. assert (1 / 2 <= G ^ 2 * (1 - beta)) by nra. nra.
Qed.
Print Assumptions C95_torus_boosted.

Example C95_case : exists t, blr_init codata 1e45 (1 / 10) "Lyalpha" 1e17 = Ok t /\ 0 <= blr_xi t * blr_L_disk t /\ 0 < blr_R_line t /\ 2 * blr_R_line t <= 1e18 /\
  (exists u, blr_u codata t 1e18 None = Ok u /\ source_density codata 1e44 1e18 <= u <= 1.025 * source_density codata 1e44 1e18) /\ 0 < source_density codata 1e44 1e18.
Proof.
  eexists. split; [reflexivity|]. cbn [blr_xi blr_L_disk blr_R_line]. split; [lra|]. split; [lra|]. split; [lra|]. pose proof codata_ok as K. pose proof K as []. assert (S : 0 < source_density codata 1e44 1e18) by (unfold source_density; apply Rdiv_lt_0_compat; [lra|]; apply Rmult_lt_0_compat; [pos|]; apply pow_lt; lra). split; auto.
  match goal with |- exists u, blr_u codata ?t _ None = _ /\ _ => destruct (C95_blr_far codata t 1e18 K ltac:(cbn [blr_xi blr_L_disk]; lra) ltac:(cbn [blr_R_line]; lra) ltac:(cbn [blr_R_line]; lra)) as (u & E & B) end.
  cbn [blr_xi blr_L_disk blr_R_line] in B. exists u. split; auto. replace (1 / 10 * 1e45) with 1e44 in B by lra. replace (1 - (1e17 / 1e18) ^ 2) with (99 / 100) in B by lra. lra.
Qed.
Print Assumptions C95_case.
