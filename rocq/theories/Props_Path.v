(** C108: the path along which the opacities are integrated is long enough *)
From Verif Require Import Base TEUtils ListFacts NumpyInst MathUtils Conversion Spectra Blob Synchrotron Geometry Targets Absorption Spec_Math Spec_Spectra Spec_Blob Spec_Rad Spec_Geom Spec_Beams MathFacts SpectraFacts BlobFacts Props_Geometry TargetFacts Props_Targets Props_FarField AbsorptionFacts Props_Absorption Props_Opacity TensorGrid Spec_Opacity Props_Limits.
From Coquelicot Require Import Coquelicot.
From Coq Require Import String List Lra Lia.
Import ListNotations.
Open Scope list_scope.
Open Scope R_scope.

(** ** the cross section is at most three quarters of the Thomson cross section *)
Theorem C108_cross_section : forall P s, phys_ok P -> 0 <= sigma P s <= 3 / 4 * c_sigmaT P.
Proof.
  intros P s HP. split; [apply sigma_nonneg; auto|]. pose proof HP as []. unfold sigma. destruct (Rltb_spec s 1) as [Hs|Hs]; [lra|]. apply Rnot_lt_le in Hs. cbv zeta.
  pose proof (beta_range s Hs) as B. set (b := sqrt (1 - 1 / s)) in *. clearbody b. assert (B2 : 0 <= b ^ 2 < 1) by nra. assert (B4 : 0 <= b ^ 4 <= b ^ 2) by (replace (b ^ 4) with (b ^ 2 * b ^ 2) by ring; nra).
  assert (L : clog ((1 + b) / (1 - b)) <= 2 * b / (1 - b ^ 2)).
  { destruct (Rle_lt_or_eq_dec 0 b) as [B0|B0]; try lra.
    - destruct (atanh_bounds b ltac:(lra)) as [_ A]. eapply Rle_trans; [|exact A]. assert (R1 : 1 <= (1 + b) / (1 - b)). { apply Rmult_le_reg_r with (1 - b); [lra|]. unfold Rdiv. rewrite Rmult_assoc, Rinv_l by lra. lra. }
      pose proof ftiny_lt_1. pose proof fmax_gt_1. unfold clog. rewrite Rmax_left by lra. unfold Rmin. destruct (Rle_dec _ fmax); [lra|]. left. apply ln_increasing; lra.
    - subst b. replace ((1 + 0) / (1 - 0)) with 1 by field. rewrite clog_ln, ln_1; [lra|]. pose proof ftiny_lt_1. pose proof fmax_gt_1. split; lra. }
  set (q := clog ((1 + b) / (1 - b))) in *. clearbody q.
  assert (K : (1 - b ^ 2) * ((3 - b ^ 4) * q + - (2) * b * (2 - b ^ 2)) <= 4).
  { apply Rle_trans with ((3 - b ^ 4) * (2 * b) - 2 * b * (2 - b ^ 2) * (1 - b ^ 2)).
    - assert ((1 - b ^ 2) * q <= 2 * b). { apply Rle_trans with ((1 - b ^ 2) * (2 * b / (1 - b ^ 2))); [apply Rmult_le_compat_l; lra|right; field; lra]. }
      assert ((3 - b ^ 4) * ((1 - b ^ 2) * q) <= (3 - b ^ 4) * (2 * b)) by (apply Rmult_le_compat_l; lra). lra.
    - replace ((3 - b ^ 4) * (2 * b) - 2 * b * (2 - b ^ 2) * (1 - b ^ 2)) with (2 * (b * (1 + 3 * b ^ 2 - 2 * b ^ 4))) by ring.
      assert (0 <= (1 - b) ^ 2 * (2 * b ^ 3 + 4 * b ^ 2 + 3 * b + 2)). { apply Rmult_le_pos; [apply pow2_ge_0|]. assert (0 <= b ^ 3) by (apply pow_le; lra). lra. }
      assert ((1 - b) ^ 2 * (2 * b ^ 3 + 4 * b ^ 2 + 3 * b + 2) = 2 - b * (1 + 3 * b ^ 2 - 2 * b ^ 4)) by ring. lra. }
  replace (3 / 16 * c_sigmaT P * (1 - b ^ 2) * ((3 - b ^ 4) * q + - (2) * b * (2 - b ^ 2))) with (3 / 16 * c_sigmaT P * ((1 - b ^ 2) * ((3 - b ^ 4) * q + - (2) * b * (2 - b ^ 2)))) by ring.
  replace (3 / 4 * c_sigmaT P) with (3 / 16 * c_sigmaT P * 4) by field. apply Rmult_le_compat_l; [lra|exact K].
Qed.
Print Assumptions C108_cross_section.

(** ** one emitting element and one point of the path *)
Lemma observer_unit ms : -1 <= ms <= 1 -> dot (observer ms) (observer ms) = 1.
Proof. intros H. unfold observer. rewrite spherical_norm; [ring|auto]. Qed.
Lemma cs_abs p q : Rabs (dot p q) <= sqrt (dot p p) * sqrt (dot q q).
Proof.
  assert (Pos : forall x, 0 <= dot x x). { intros [a b c]. unfold dot. cbn [px py pz]. pose proof (Rle_0_sqr a). pose proof (Rle_0_sqr b). pose proof (Rle_0_sqr c). unfold Rsqr in *. lra. }
  rewrite <- sqrt_mult by auto. rewrite <- sqrt_Rsqr_abs. apply sqrt_le_1_alt. unfold Rsqr. apply cauchy_schwarz.
Qed.
Lemma along r u ms q : -1 <= ms <= 1 -> let v := Spec_Geom.minus (on_sight_line r u ms) q in let w := Spec_Geom.minus (on_sight_line r 0 ms) q in
  dot v (observer ms) = u + dot w (observer ms) /\ dot v v = u * u + 2 * u * dot w (observer ms) + dot w w.
Proof.
  intros H v w. assert (A : 0 <= 1 - ms ^ 2) by nra. pose proof (sqrt_sqrt _ A) as S. unfold v, w, Spec_Geom.minus, on_sight_line, observer, spherical, dot. cbn [px py pz]. rewrite cos_0, sin_0. set (s := sqrt (1 - ms ^ 2)) in *. split.
  - transitivity ((u * (s * s) + u * ms ^ 2) + (- px q * s - 0 + (r - pz q) * ms)); [ring|]. rewrite S. ring.
  - transitivity ((u * u) * (s * s + ms ^ 2) - 2 * u * s * px q + 2 * u * ms * (r - pz q) + px q * px q + py q * py q + (r - pz q) * (r - pz q)); [ring|]. rewrite S. ring.
Qed.
(** far out the target photons move in the same direction as the gamma ray *)
Lemma beyond P ms e1 lum eps r u q R_ L0 : -1 <= ms <= 1 -> 0 <= r * ms -> 0 <= r -> 0 <= R_ -> dot q q <= R_ * R_ -> R_ < L0 -> L0 <= u ->
  e1 * eps * (r + R_) ^ 2 <= 4 * (L0 - R_) ^ 2 -> phys_ok P -> absorbed P ms e1 (shine P lum eps q (on_sight_line r u ms)) = 0.
Proof.
  intros Hms Hrm Hr HR Hq HL Hu Hc HP. destruct (along r u ms q Hms) as [Ev Ew]. set (v := Spec_Geom.minus (on_sight_line r u ms) q) in *. set (w := Spec_Geom.minus (on_sight_line r 0 ms) q) in *. set (a := dot w (observer ms)) in *.
  assert (Sq : sqrt (dot q q) <= R_). { apply Rle_trans with (sqrt (R_ * R_)); [apply sqrt_le_1_alt; auto|right; apply sqrt_square; auto]. }
  assert (Ha : - R_ <= a).
  { assert (E : a = r * ms - dot q (observer ms)). { unfold a, w, Spec_Geom.minus, on_sight_line, dot, observer, spherical. cbn [px py pz]. ring. }
    pose proof (cs_abs q (observer ms)) as CS. rewrite observer_unit, sqrt_1, Rmult_1_r in CS by auto. apply Rabs_le_between in CS. lra. }
  assert (Hw : dot w w <= (r + R_) ^ 2).
  { assert (E : dot w w = r * r - 2 * r * pz q + dot q q). { unfold w, Spec_Geom.minus, on_sight_line, dot. cbn [px py pz]. ring. }
    assert (Z : - R_ <= pz q). { assert (pz q * pz q <= R_ * R_). { unfold dot in Hq. pose proof (Rle_0_sqr (px q)). pose proof (Rle_0_sqr (py q)). unfold Rsqr in *. lra. } apply Rnot_lt_le. intros K. nra. }
    rewrite E. assert (0 <= r * (pz q + R_)) by (apply Rmult_le_pos; lra). simpl. lra. }
  set (W := r + R_) in *. assert (Hh : 0 < u + a) by lra. set (h := u + a) in *.
  assert (Hv : dot v v = h * h + (dot w w - a * a)) by (rewrite Ew; unfold h; ring).
  assert (Perp : 0 <= dot w w - a * a). { pose proof (cauchy_schwarz w (observer ms)) as CS. rewrite observer_unit in CS by auto. fold a in CS. lra. }
  unfold absorbed, shine. cbv zeta. cbn [b_u b_eps b_dir]. unfold dist. fold v. set (d := sqrt (dot v v)).
  assert (Hd : d * d = dot v v) by (apply sqrt_sqrt; rewrite Hv; nra). assert (Hd0 : 0 <= d) by apply sqrt_pos. assert (Hdh : h <= d) by (apply Rnot_lt_le; intros K; nra).
  assert (Ec : dot (times (/ d) v) (observer ms) = h / d). { transitivity (/ d * dot v (observer ms)); [unfold dot, times; cbn [px py pz]; ring|]. rewrite Ev. fold h. field. lra. }
  rewrite Ec. assert (Sm : 0 <= 1 - h / d <= W ^ 2 / (2 * h ^ 2)).
  { assert (h / d <= 1) by (apply Rmult_le_reg_r with d; [lra|]; unfold Rdiv; rewrite Rmult_assoc, Rinv_l by lra; lra). split; [lra|].
    apply Rmult_le_reg_r with (d * (2 * h ^ 2)); [apply Rmult_lt_0_compat; [lra|]; simpl; nra|].
    replace ((1 - h / d) * (d * (2 * h ^ 2))) with ((d - h) * (2 * h ^ 2)) by (field; lra). replace (W ^ 2 / (2 * h ^ 2) * (d * (2 * h ^ 2))) with (W ^ 2 * d) by (field; lra).
    assert ((d - h) * (d + h) <= W ^ 2) by (replace ((d - h) * (d + h)) with (d * d - h * h) by ring; rewrite Hd, Hv; nra).
    apply Rle_trans with ((d - h) * (d + h) * d); [|apply Rmult_le_compat_r; lra]. rewrite Rmult_assoc. apply Rmult_le_compat_l; [lra|]. simpl. nra. }
  assert (S1 : e1 * eps * (1 - h / d) / 2 <= 1).
  { destruct (Rle_dec (e1 * eps) 0) as [N|N]; [assert (e1 * eps * (1 - h / d) <= 0) by nra; lra|]. assert (0 < h ^ 2) by (simpl; nra).
    assert (e1 * eps * (1 - h / d) <= e1 * eps * (W ^ 2 / (2 * h ^ 2))) by (apply Rmult_le_compat_l; lra).
    assert (e1 * eps * (W ^ 2 / (2 * h ^ 2)) <= 2); [|lra]. apply Rmult_le_reg_r with (2 * h ^ 2); [lra|]. replace (e1 * eps * (W ^ 2 / (2 * h ^ 2)) * (2 * h ^ 2)) with (e1 * eps * W ^ 2) by (field; lra).
    eapply Rle_trans; [exact Hc|]. replace (2 * (2 * h ^ 2)) with (4 * h ^ 2) by ring. apply Rmult_le_compat_l; [lra|]. apply pow_incr. unfold h. lra. }
  destruct (C54_cross_section P HP) as (Z0 & Z1 & _). destruct S1 as [S1|S1]; [rewrite (Z0 _ S1)|rewrite S1, Z1]; ring.
Qed.
(** what one element absorbs at most *)
Lemma absorbed_bound P ms e1 lum eps p q m : phys_ok P -> -1 <= ms <= 1 -> 0 <= lum -> 0 < eps -> 0 < m -> m <= dist p q ->
  0 <= absorbed P ms e1 (shine P lum eps q p) <= 3 / 2 * c_sigmaT P * (lum / (4 * PI * c_c P * m ^ 2) / (eps * (c_me P * c_c P ^ 2))).
Proof.
  intros HP Hms Hl He Hm Hd. pose proof HP as []. pose proof PI_RGT_0. unfold absorbed, shine. cbv zeta. cbn [b_u b_eps b_dir]. set (d := dist p q) in *. set (v := Spec_Geom.minus p q).
  set (c := dot (times (/ d) v) (observer ms)). assert (C : -1 <= c <= 1).
  { assert (Ec : c = dot v (observer ms) / d) by (unfold c, dot, times; cbn [px py pz]; field; lra). pose proof (cs_abs v (observer ms)) as CS. rewrite observer_unit, sqrt_1, Rmult_1_r in CS by auto. change (sqrt (dot v v)) with d in CS. apply Rabs_le_between in CS.
    rewrite Ec. split; apply Rmult_le_reg_r with d; try lra; unfold Rdiv; rewrite Rmult_assoc, Rinv_l by lra; lra. }
  set (K := 4 * PI * c_c P). assert (HK : 0 < K) by (unfold K; pos). set (E := eps * (c_me P * c_c P ^ 2)). assert (HE : 0 < E) by (unfold E; pos).
  pose proof (C108_cross_section P (e1 * eps * (1 - c) / 2) HP) as Sg. set (sg := sigma P _) in *. assert (M : 0 < m ^ 2 <= d ^ 2) by (split; [apply pow_lt; auto|apply pow_incr; lra]).
  assert (N0 : 0 <= lum / (K * d ^ 2) / E). { unfold Rdiv. repeat apply Rmult_le_pos; auto; left; apply Rinv_0_lt_compat; auto. apply Rmult_lt_0_compat; lra. }
  assert (N1 : lum / (K * d ^ 2) / E <= lum / (K * m ^ 2) / E).
  { unfold Rdiv. apply Rmult_le_compat_r; [left; apply Rinv_0_lt_compat; auto|]. apply Rmult_le_compat_l; auto. apply Rinv_le_contravar; [apply Rmult_lt_0_compat; lra|]. apply Rmult_le_compat_l; lra. }
  split; [apply Rmult_le_pos; [apply Rmult_le_pos|]; lra|].
  apply Rle_trans with (2 * (lum / (K * m ^ 2) / E) * (3 / 4 * c_sigmaT P)); [|right; field; repeat split; lra].
  apply Rmult_le_compat; try lra; [apply Rmult_le_pos; lra|]. apply Rmult_le_compat; lra.
Qed.

(** ** the whole line of sight *)
Lemma RInt_between (f : R -> R) a b B : a <= b -> ex_RInt f a b -> (forall x, a <= x <= b -> 0 <= f x <= B) -> 0 <= RInt f a b <= B * (b - a).
Proof.
  intros Hab Ex H. split.
  - replace 0 with (RInt (fun _ => 0) a b) by (rewrite RInt_const; unfold scal; cbn; unfold mult; cbn; ring). apply RInt_le; auto; [apply ex_RInt_const|]. intros x Hx. apply H. lra.
  - replace (B * (b - a)) with (RInt (fun _ => B) a b) by (rewrite RInt_const; unfold scal; cbn; unfold mult; cbn; ring). apply RInt_le; auto; [apply ex_RInt_const|]. intros x Hx. apply H. lra.
Qed.
Lemma RInt_null (f : R -> R) a b : a <= b -> (forall x, a <= x <= b -> f x = 0) -> RInt f a b = 0.
Proof. intros Hab H. rewrite (RInt_ext f (fun _ => 0)). - rewrite RInt_const. unfold scal. cbn. unfold mult. cbn. ring. - intros x Hx. rewrite Rmin_left, Rmax_right in Hx by lra. apply H. lra. Qed.
Lemma whole_line (g : R -> R) h L0 L B : 0 <= h -> h <= L0 -> L0 <= L -> (forall a b, 0 <= a <= L -> 0 <= b <= L -> ex_RInt g a b) -> (forall x, 0 <= x <= h -> 0 <= g x <= B) -> (forall x, L0 <= x <= L -> g x = 0) ->
  RInt g h L0 = RInt g h L /\ 0 <= RInt g 0 L - RInt g h L <= B * h.
Proof.
  intros Hh HL0 HL Ex Hb Hz.
  assert (C1 : RInt g 0 L = RInt g 0 h + RInt g h L) by (symmetry; apply (RInt_Chasles g 0 h L); apply Ex; lra).
  assert (C2 : RInt g h L = RInt g h L0 + RInt g L0 L) by (symmetry; apply (RInt_Chasles g h L0 L); apply Ex; lra).
  rewrite (RInt_null g L0 L HL Hz) in C2. pose proof (RInt_between g 0 h B Hh ltac:(apply Ex; lra) Hb) as K. split; lra.
Qed.
Lemma ex_line (F : R -> R -> R) L a2 b2 : 0 < L -> a2 < b2 -> nice _ (dom2 0 L a2 b2) near2 (fun x => F (snd (fst x)) (snd x)) ->
  (forall u, 0 <= u <= L -> ex_RInt (F u) a2 b2) /\ forall a b, 0 <= a <= L -> 0 <= b <= L -> ex_RInt (fun u => RInt (F u) a2 b2) a b.
Proof.
  intros HL H2 Nf. split.
  - intros u Hu. apply (slice_integrable _ _ _ near1_narrows a2 b2 H2 _ Nf (tt, u)). split; [exact Logic.I|exact Hu].
  - pose proof (nice_integral _ _ _ near1_narrows a2 b2 H2 _ Nf) as N1. cbn [fst snd] in N1.
    intros a b Ha Hb. apply (uc1_integrable 0 L); auto; [lra|]. exact (slice _ _ _ near0_narrows 0 L (fun y => RInt (fun x => F (snd y) x) a2 b2) N1 tt Logic.I).
Qed.
Lemma ex_line3 (F : R -> R -> R -> R) L a2 b2 a3 b3 : 0 < L -> a2 < b2 -> a3 < b3 -> nice _ (dom3 0 L a2 b2 a3 b3) near3 (fun x => F (snd (fst (fst x))) (snd (fst x)) (snd x)) ->
  (forall u v, 0 <= u <= L -> a2 <= v <= b2 -> ex_RInt (F u v) a3 b3) /\ (forall u, 0 <= u <= L -> ex_RInt (fun v => RInt (F u v) a3 b3) a2 b2) /\
  forall a b, 0 <= a <= L -> 0 <= b <= L -> ex_RInt (fun u => RInt (fun v => RInt (F u v) a3 b3) a2 b2) a b.
Proof.
  intros HL H2 H3 Nf. split.
  - intros u v Hu Hv. apply (slice_integrable _ _ _ near2_narrows a3 b3 H3 _ Nf (tt, u, v)). split; [split; [exact Logic.I|exact Hu]|exact Hv].
  - pose proof (nice_integral _ _ _ near2_narrows a3 b3 H3 _ Nf) as N1. cbn [fst snd] in N1. apply (ex_line (fun u v => RInt (F u v) a3 b3) L a2 b2); auto.
Qed.
(** the path of the code and the distance it neglects close to the blob, for a viewing angle *)
Definition first_step (ms r : R) : R := if Rlt_dec ms 1 then r / 10 ^ 5 else 0.
Lemma axis_shift r u : on_sight_line r u 1 = on_sight_line (r + u) 0 1.
Proof. unfold on_sight_line. replace (1 - 1 ^ 2) with 0 by ring. rewrite sqrt_0. f_equal; ring. Qed.
Lemma shift_path (g : R -> R) r : 0 < r -> ex_RInt (fun u => g (r + u)) 0 ((10 ^ 5 - 1) * r) -> RInt g r (10 ^ 5 * r) = RInt (fun u => g (r + u)) 0 ((10 ^ 5 - 1) * r).
Proof.
  intros Hr Ex. assert (Eg : ex_RInt g r (10 ^ 5 * r)).
  { apply (ex_RInt_ext (fun y => scal 1 ((fun u => g (r + u)) (1 * y + - r)))). { intros x _. unfold scal. cbn. unfold mult. cbn. rewrite !Rmult_1_l. f_equal. ring. }
    apply (ex_RInt_comp_lin (fun u => g (r + u)) 1 (- r) r (10 ^ 5 * r)). replace (1 * r + - r) with 0 by ring. replace (1 * (10 ^ 5 * r) + - r) with ((10 ^ 5 - 1) * r) by ring. auto. }
  pose proof (RInt_comp_lin g 1 r 0 ((10 ^ 5 - 1) * r)) as E. rewrite Rmult_0_r, Rplus_0_l in E. replace (1 * ((10 ^ 5 - 1) * r) + r) with (10 ^ 5 * r) in E by ring. specialize (E Eg). rewrite <- E.
  apply RInt_ext. intros x _. unfold scal. cbn. unfold mult. cbn. rewrite !Rmult_1_l. f_equal. ring.
Qed.

(** ** the opacities against the integral along the whole line of sight *)
Theorem C108_torus : forall P t r z ms n e L, phys_ok P -> 0 <= dt_L_disk t -> 0 <= dt_xi t -> 0 < dt_epsilon t -> 0 <= dt_R t -> 0 < r -> 0 <= ms <= 1 -> 0 < e ->
  dt_R t < (10 ^ 5 - 1) * r -> gamma_ray P z n * dt_epsilon t * (r + dt_R t) ^ 2 <= 4 * ((10 ^ 5 - 1) * r - dt_R t) ^ 2 -> 10 ^ 5 * r <= L ->
  let from h := RInt (fun u => whole_ring P (dt_xi t * dt_L_disk t) (dt_epsilon t) (dt_R t) (on_sight_line r u ms) (absorbed P ms (gamma_ray P z n))) h L in
  let photons := dt_xi t * dt_L_disk t / (4 * PI * c_c P * r ^ 2) / (dt_epsilon t * (c_me P * c_c P ^ 2)) in
  0 <= from 0 - from (first_step ms r) <= 3 / 2 * c_sigmaT P * photons * first_step ms r /\
  exists N, forall nmu nphi nl, (N <= nphi)%nat -> (N <= nl)%nat ->
  exists v, tau P {| ab_target := TDustTorus t; ab_r := Some r; ab_z := z; ab_mu_s := ms; ab_mu_size := nmu; ab_phi_size := nphi; ab_l_size := nl |} (n :: nil) = Ok (Some (v :: nil)) /\
    Rabs (v - from (first_step ms r)) <= e.
Proof.
  intros P t r z ms n e L HP HL Hx He HR Hr Hms He0 Hfar Hc HLL from photons. pose proof PI_RGT_0. pose proof HP as []. set (e1 := gamma_ray P z n) in *. set (lum := dt_xi t * dt_L_disk t) in *. assert (Hlum : 0 <= lum) by (apply Rmult_le_pos; auto).
  set (f := fun u phi => absorbed P ms e1 (shine P (lum / (2 * PI)) (dt_epsilon t) (spherical (dt_R t) 0 phi) (on_sight_line r u ms))).
  assert (Far : forall u phi, 0 <= u -> r <= dist (on_sight_line r u ms) (spherical (dt_R t) 0 phi)).
  { intros u phi Hu. apply ring_far; auto. unfold on_sight_line. cbn [pz]. assert (0 <= u * ms) by (apply Rmult_le_pos; lra). lra. }
  assert (L0 : 0 < L) by lra.
  assert (Nf : nice _ (dom2 0 L 0 (2 * PI)) near2 (fun x => f (snd (fst x)) (snd x))).
  { unfold f. apply (nice_absorbed _ _ _ near2_narrows P ms _ _ _ (fun x => on_sight_line r (snd (fst x)) ms) (fun x => spherical (dt_R t) 0 (snd x)) r); auto.
    - intros [[[] u] phi] [[_ Hu] _]. cbn [fst snd] in *. apply Far; lra.
    - apply nice_sight; [apply near2_narrows|apply nice_const|apply (nice_first _ _ _ _ _ snd), nice_last; auto].
    - apply nice_spherical; [apply near2_narrows|apply nice_const|apply nice_last; lra]. }
  destruct (ex_line f L 0 (2 * PI) L0 ltac:(lra) Nf) as [Ex1 Ex2]. set (g := fun u => RInt (f u) 0 (2 * PI)) in *.
  assert (Gb : forall u, 0 <= u <= L -> 0 <= g u <= 3 / 2 * c_sigmaT P * photons).
  { intros u Hu. pose proof (RInt_between (f u) 0 (2 * PI) (3 / 2 * c_sigmaT P * (lum / (2 * PI) / (4 * PI * c_c P * r ^ 2) / (dt_epsilon t * (c_me P * c_c P ^ 2)))) ltac:(lra) (Ex1 u Hu)) as K.
    replace (3 / 2 * c_sigmaT P * photons) with (3 / 2 * c_sigmaT P * (lum / (2 * PI) / (4 * PI * c_c P * r ^ 2) / (dt_epsilon t * (c_me P * c_c P ^ 2))) * (2 * PI - 0)) by (unfold photons; fold lum; field; repeat split; lra).
    apply K. intros phi _. apply absorbed_bound; auto; try lra. - unfold Rdiv. apply Rmult_le_pos; auto. left. apply Rinv_0_lt_compat. lra. - apply Far. lra. }
  assert (Gz : forall u, (10 ^ 5 - 1) * r <= u -> g u = 0).
  { intros u Hu. apply RInt_null; [lra|]. intros phi _. unfold f. apply (beyond P ms e1 _ _ r u _ (dt_R t) ((10 ^ 5 - 1) * r)); auto; try lra. - apply Rmult_le_pos; lra. - rewrite spherical_norm by lra. lra. }
  change (from 0) with (RInt g 0 L). change (from (first_step ms r)) with (RInt g (first_step ms r) L).
  destruct (Rlt_dec ms 1) as [M|M].
  - unfold first_step. destruct (Rlt_dec ms 1); [|lra].
    destruct (whole_line g (r / 10 ^ 5) (10 ^ 5 * r) L (3 / 2 * c_sigmaT P * photons) ltac:(lra) ltac:(lra) HLL Ex2 ltac:(intros x Hx0; apply Gb; lra) ltac:(intros x Hx0; apply Gz; lra)) as [W1 W2]. split; auto.
    destruct (C103_torus_off_axis P t r z ms n e HP HL Hx He Hr ltac:(lra) He0) as [N HN]. exists N. intros nmu nphi nl H1 H2. destruct (HN nmu nphi nl H1 H2) as (v & Ev & K). exists v. split; auto.
    fold e1 lum in K. change (RInt _ (r / 10 ^ 5) (10 ^ 5 * r)) with (RInt g (r / 10 ^ 5) (10 ^ 5 * r)) in K. rewrite <- W1. exact K.
  - assert (ms = 1) by lra. subst ms. unfold first_step. destruct (Rlt_dec 1 1); [lra|].
    destruct (whole_line g 0 ((10 ^ 5 - 1) * r) L (3 / 2 * c_sigmaT P * photons) ltac:(lra) ltac:(lra) ltac:(lra) Ex2 ltac:(intros x Hx0; apply Gb; lra) ltac:(intros x Hx0; apply Gz; lra)) as [W1 W2]. split; auto.
    destruct (C103_torus_on_axis P t r z n e HP HL Hx He HR Hr He0) as [N HN]. exists N. intros nmu nphi nl H1 H2. destruct (HN nmu nphi nl H1 H2) as (v & Ev & K). exists v. split; auto.
    fold e1 lum in K.
    set (G := fun l => whole_ring P lum (dt_epsilon t) (dt_R t) (on_sight_line l 0 1) (absorbed P 1 e1)) in K.
    assert (EG : forall u, g u = G (r + u)). { intros u. unfold g, G, f, whole_ring. rewrite axis_shift. reflexivity. }
    rewrite (shift_path G r Hr) in K.
    + rewrite (RInt_ext _ g) in K by (intros x _; symmetry; apply EG). rewrite <- W1. exact K.
    + apply (ex_RInt_ext g); [intros x _; apply EG|]. apply Ex2; lra.
Qed.
Print Assumptions C108_torus.

Theorem C108_blr : forall P t r z ms n e L, phys_ok P -> 0 <= blr_L_disk t -> 0 <= blr_xi t -> 0 < blr_epsilon t -> 1 <= blr_R_line t -> blr_R_line t * (1 + 1 / 10 ^ 4) + 1 / 10 ^ 8 < r -> 0 <= ms <= 1 -> 0 < e ->
  gamma_ray P z n * blr_epsilon t <= 10 ^ 9 -> 10 ^ 5 * r <= L ->
  let from h := RInt (fun u => whole_shell P (blr_xi t * blr_L_disk t) (blr_epsilon t) (blr_R_line t) (on_sight_line r u ms) (absorbed P ms (gamma_ray P z n))) h L in
  let photons := blr_xi t * blr_L_disk t / (4 * PI * c_c P * (r - blr_R_line t) ^ 2) / (blr_epsilon t * (c_me P * c_c P ^ 2)) in
  0 <= from 0 - from (first_step ms r) <= 3 / 2 * c_sigmaT P * photons * first_step ms r /\
  exists N, forall nmu nphi nl, (N <= nmu)%nat -> (N <= nphi)%nat -> (N <= nl)%nat ->
  exists v, tau P {| ab_target := TBLR t; ab_r := Some r; ab_z := z; ab_mu_s := ms; ab_mu_size := nmu; ab_phi_size := nphi; ab_l_size := nl |} (n :: nil) = Ok (Some (v :: nil)) /\
    Rabs (v - from (first_step ms r)) <= e.
Proof.
  intros P t r z ms n e L HP HL Hx He HR Hrr Hms He0 Hc' HLL from photons. pose proof PI_RGT_0. pose proof HP as []. assert (Hr : 0 < r) by lra. assert (HrR : blr_R_line t < r) by lra.
  set (e1 := gamma_ray P z n) in *. set (lum := blr_xi t * blr_L_disk t) in *. assert (Hlum : 0 <= lum) by (apply Rmult_le_pos; auto). set (R_ := blr_R_line t) in *.
  assert (Hc : e1 * blr_epsilon t * (r + R_) ^ 2 <= 4 * ((10 ^ 5 - 1) * r - R_) ^ 2).
  { assert ((r + R_) ^ 2 <= (2 * r) ^ 2) by (apply pow_incr; lra). assert (((10 ^ 5 - 2) * r) ^ 2 <= ((10 ^ 5 - 1) * r - R_) ^ 2) by (apply pow_incr; lra). assert (0 < r ^ 2) by (apply pow_lt; auto). assert (0 <= (r + R_) ^ 2) by apply pow2_ge_0.
    apply Rle_trans with (10 ^ 9 * (r + R_) ^ 2); [apply Rmult_le_compat_r; auto|]. rewrite Rpow_mult_distr in H0, H1. lra. }
  set (f := fun u phi mu => absorbed P ms e1 (shine P (lum / (4 * PI)) (blr_epsilon t) (spherical R_ mu phi) (on_sight_line r u ms))).
  assert (Far : forall u phi mu, 0 <= u -> -1 <= mu <= 1 -> r - R_ <= dist (on_sight_line r u ms) (spherical R_ mu phi)).
  { intros u phi mu Hu Hmu. apply shell_far; auto; try lra. rewrite sight_norm by lra. assert (0 <= u * r * ms) by (repeat apply Rmult_le_pos; lra). assert (0 <= u * u) by nra. lra. }
  assert (L0 : 0 < L) by lra.
  assert (Nf : nice _ (dom3 0 L 0 (2 * PI) (-1) 1) near3 (fun x => f (snd (fst (fst x))) (snd (fst x)) (snd x))).
  { unfold f. apply (nice_absorbed _ _ _ near3_narrows P ms _ _ _ (fun x => on_sight_line r (snd (fst (fst x))) ms) (fun x => spherical R_ (snd x) (snd (fst x))) (r - R_)); auto; try lra.
    - intros [[[[] u] phi] mu] [[[_ Hu] _] Hm]. cbn [fst snd] in *. apply Far; lra.
    - apply nice_sight; [apply near3_narrows|apply nice_const|apply (nice_first _ _ _ _ _ (fun x => snd (fst x))), (nice_first _ _ _ _ _ snd), nice_last; auto].
    - apply nice_spherical; [apply near3_narrows|apply nice_last; lra|apply (nice_first _ _ _ _ _ snd), nice_last; lra]. }
  destruct (ex_line3 f L 0 (2 * PI) (-1) 1 L0 ltac:(lra) ltac:(lra) Nf) as (Ex0 & Ex1 & Ex2). set (g := fun u => RInt (fun phi => RInt (f u phi) (-1) 1) 0 (2 * PI)) in *.
  assert (Gb : forall u, 0 <= u <= L -> 0 <= g u <= 3 / 2 * c_sigmaT P * photons).
  { intros u Hu. set (B := 3 / 2 * c_sigmaT P * (lum / (4 * PI) / (4 * PI * c_c P * (r - R_) ^ 2) / (blr_epsilon t * (c_me P * c_c P ^ 2)))).
    pose proof (RInt_between (fun phi => RInt (f u phi) (-1) 1) 0 (2 * PI) (B * 2) ltac:(lra) (Ex1 u Hu)) as K.
    replace (3 / 2 * c_sigmaT P * photons) with (B * 2 * (2 * PI - 0)) by (unfold B, photons; fold lum; field; repeat split; lra).
    apply K. intros phi Hphi. replace 2 with (1 - -1) by ring. apply RInt_between; [lra|apply Ex0; auto|]. intros mu Hmu. apply absorbed_bound; auto; try lra. - unfold Rdiv. apply Rmult_le_pos; auto. left. apply Rinv_0_lt_compat. lra. - apply Far; lra. }
  assert (Gz : forall u, (10 ^ 5 - 1) * r <= u -> g u = 0).
  { intros u Hu. apply RInt_null; [lra|]. intros phi _. apply RInt_null; [lra|]. intros mu Hmu. unfold f. apply (beyond P ms e1 _ _ r u _ R_ ((10 ^ 5 - 1) * r)); auto; try lra. - apply Rmult_le_pos; lra. - rewrite spherical_norm by lra. lra. }
  change (from 0) with (RInt g 0 L). change (from (first_step ms r)) with (RInt g (first_step ms r) L).
  destruct (Rlt_dec ms 1) as [M|M].
  - unfold first_step. destruct (Rlt_dec ms 1); [|lra].
    destruct (whole_line g (r / 10 ^ 5) (10 ^ 5 * r) L (3 / 2 * c_sigmaT P * photons) ltac:(lra) ltac:(lra) HLL Ex2 ltac:(intros x Hx0; apply Gb; lra) ltac:(intros x Hx0; apply Gz; lra)) as [W1 W2]. split; auto.
    destruct (C103_blr_off_axis P t r z ms n e HP HL Hx He HR Hrr ltac:(lra) He0) as [N HN]. exists N. intros nmu nphi nl H3 H1 H2. destruct (HN nmu nphi nl H3 H1 H2) as (v & Ev & K). exists v. split; auto.
    fold e1 lum in K. change (RInt _ (r / 10 ^ 5) (10 ^ 5 * r)) with (RInt g (r / 10 ^ 5) (10 ^ 5 * r)) in K. rewrite <- W1. exact K.
  - assert (ms = 1) by lra. subst ms. unfold first_step. destruct (Rlt_dec 1 1); [lra|].
    destruct (whole_line g 0 ((10 ^ 5 - 1) * r) L (3 / 2 * c_sigmaT P * photons) ltac:(lra) ltac:(lra) ltac:(lra) Ex2 ltac:(intros x Hx0; apply Gb; lra) ltac:(intros x Hx0; apply Gz; lra)) as [W1 W2]. split; auto.
    destruct (C103_blr_on_axis P t r z n e HP HL Hx He HR Hrr He0) as [N HN]. exists N. intros nmu nphi nl H3 H1 H2. destruct (HN nmu nphi nl H3 H1 H2) as (v & Ev & K). exists v. split; auto.
    fold e1 lum in K.
    set (G := fun l => whole_shell P lum (blr_epsilon t) (blr_R_line t) (on_sight_line l 0 1) (absorbed P 1 e1)) in K.
    assert (EG : forall u, g u = G (r + u)). { intros u. unfold g, G, f, whole_shell. rewrite axis_shift. reflexivity. }
    rewrite (shift_path G r Hr) in K.
    + rewrite (RInt_ext _ g) in K by (intros x _; symmetry; apply EG). rewrite <- W1. exact K.
    + apply (ex_RInt_ext g); [intros x _; apply EG|]. apply Ex2; lra.
Qed.
Print Assumptions C108_blr.

(** ** the range of radii is needed: a torus a hundred thousand times further than the end of the path *)
Lemma axis_dist l R_ phi : 0 <= R_ -> dist (on_sight_line l 0 1) (spherical R_ 0 phi) = sqrt (l * l + R_ * R_).
Proof.
  intros HR. unfold dist. f_equal. unfold dot, Spec_Geom.minus, on_sight_line, spherical. cbn [px py pz]. replace (1 - 0 ^ 2) with 1 by ring. rewrite sqrt_1. pose proof (sin2_cos2 phi) as T. unfold Rsqr in T.
  transitivity (l * l + R_ * R_ * (sin phi * sin phi + cos phi * cos phi)); [ring|]. rewrite T. ring.
Qed.
Lemma fmax_19 : 19 < fmax.
Proof.
  unfold fmax. assert (A : 2 ^ 5 <= 2 ^ 1023) by (apply Rle_pow; [lra|lia]). assert (B : / 2 ^ 52 < 1) by (rewrite <- Rinv_1; apply Rinv_lt_contravar; [rewrite Rmult_1_l; apply pow_lt; lra|apply Rlt_pow_R1; [lra|lia]]).
  apply Rlt_le_trans with (1 * 2 ^ 5); [lra|]. apply Rmult_le_compat; try lra.
Qed.
Lemma cross_section_above P s : phys_ok P -> 2 <= s <= 4 -> 3 / 64 * c_sigmaT P <= sigma P s.
Proof.
  intros HP Hs. pose proof HP as []. unfold sigma. destruct (Rltb_spec s 1) as [H|_]; [lra|]. cbv zeta. pose proof (beta_range s ltac:(lra)) as B.
  assert (I : 1 / 4 <= 1 / s <= 1 / 2). { split; apply Rmult_le_reg_r with s; try lra; unfold Rdiv; rewrite ?Rmult_assoc, ?Rinv_l by lra; lra. }
  assert (Q : sqrt (1 - 1 / s) ^ 2 = 1 - 1 / s) by (apply pow2_sqrt; lra). set (b := sqrt (1 - 1 / s)) in *. clearbody b. assert (B1 : 1 / 2 <= b <= 9 / 10) by nra.
  destruct (atanh_bounds b ltac:(lra)) as [A _]. assert (R1 : 1 <= (1 + b) / (1 - b) <= 19). { split; apply Rmult_le_reg_r with (1 - b); try lra; unfold Rdiv; rewrite Rmult_assoc, Rinv_l by lra; lra. }
  rewrite clog_ln by (pose proof ftiny_lt_1; pose proof fmax_19; split; lra). set (q := ln _) in *. clearbody q.
  assert (B2 : 1 / 4 <= b ^ 2 <= 3 / 4) by lra. assert (B4 : 0 <= b ^ 4 <= 9 / 16) by (replace (b ^ 4) with (b ^ 2 * b ^ 2) by ring; nra).
  assert (K : 1 <= (3 - b ^ 4) * q + - (2) * b * (2 - b ^ 2)).
  { apply Rle_trans with ((3 - b ^ 4) * (2 * b) + - (2) * b * (2 - b ^ 2)).
    - replace ((3 - b ^ 4) * (2 * b) + - (2) * b * (2 - b ^ 2)) with (2 * b * (1 + b ^ 2 * (1 - b ^ 2))) by ring. assert (0 <= b ^ 2 * (1 - b ^ 2)) by (apply Rmult_le_pos; lra). nra.
    - apply Rplus_le_compat_r, Rmult_le_compat_l; lra. }
  assert (T : 3 / 64 * c_sigmaT P <= 3 / 16 * c_sigmaT P * (1 - b ^ 2)) by nra. apply Rle_trans with (3 / 16 * c_sigmaT P * (1 - b ^ 2) * 1); [lra|]. apply Rmult_le_compat_l; lra.
Qed.
Theorem C108_range_needed : forall P t r z n L, phys_ok P -> 0 < dt_L_disk t -> 0 < dt_xi t -> 0 < dt_epsilon t -> 0 < r -> dt_R t = 10 ^ 9 * r -> gamma_ray P z n * dt_epsilon t = 8 -> dt_R t <= L ->
  let whole := RInt (fun u => whole_ring P (dt_xi t * dt_L_disk t) (dt_epsilon t) (dt_R t) (on_sight_line r u 1) (absorbed P 1 (gamma_ray P z n))) 0 L in
  exists N, forall nmu nphi nl, (N <= nphi)%nat -> (N <= nl)%nat ->
  exists v, tau P {| ab_target := TDustTorus t; ab_r := Some r; ab_z := z; ab_mu_s := 1; ab_mu_size := nmu; ab_phi_size := nphi; ab_l_size := nl |} (n :: nil) = Ok (Some (v :: nil)) /\ 0 < whole /\ 10 * v <= whole.
Proof.
  intros P t r z n L HP HL Hx He Hr ER Ee HLL whole. pose proof PI_RGT_0. pose proof HP as []. set (e1 := gamma_ray P z n) in *. set (lum := dt_xi t * dt_L_disk t) in *. assert (Hlum : 0 < lum) by (apply Rmult_lt_0_compat; auto). set (R_ := dt_R t) in *.
  set (E := dt_epsilon t * (c_me P * c_c P ^ 2)). assert (HE : 0 < E) by (unfold E; pos). set (W := lum / (2 * PI) / (4 * PI * c_c P * R_ ^ 2) / E).
  assert (HW : 0 < W). { unfold W. assert (0 < R_ ^ 2) by (apply pow_lt; lra). unfold Rdiv. repeat apply Rmult_lt_0_compat; auto; apply Rinv_0_lt_compat; auto; pos. }
  set (f := fun u phi => absorbed P 1 e1 (shine P (lum / (2 * PI)) (dt_epsilon t) (spherical R_ 0 phi) (on_sight_line r u 1))).
  assert (Far : forall u phi, 0 <= u -> R_ <= dist (on_sight_line r u 1) (spherical R_ 0 phi)).
  { intros u phi Hu. rewrite axis_shift, axis_dist by lra. rewrite <- (sqrt_square R_) at 1 by lra. apply sqrt_le_1_alt. nra. }
  assert (L0 : 0 < L) by lra. assert (Hl2 : 0 <= lum / (2 * PI)) by (unfold Rdiv; apply Rmult_le_pos; [lra|left; apply Rinv_0_lt_compat; lra]).
  assert (Nf : nice _ (dom2 0 L 0 (2 * PI)) near2 (fun x => f (snd (fst x)) (snd x))).
  { unfold f. apply (nice_absorbed _ _ _ near2_narrows P 1 _ _ _ (fun x => on_sight_line r (snd (fst x)) 1) (fun x => spherical R_ 0 (snd x)) R_); auto; try lra.
    - intros [[[] u] phi] [[_ Hu] _]. cbn [fst snd] in *. apply Far; lra.
    - apply nice_sight; [apply near2_narrows|apply nice_const|apply (nice_first _ _ _ _ _ snd), nice_last; auto].
    - apply nice_spherical; [apply near2_narrows|apply nice_const|apply nice_last; lra]. }
  destruct (ex_line f L 0 (2 * PI) L0 ltac:(lra) Nf) as [Ex1 Ex2]. set (g := fun u => RInt (f u) 0 (2 * PI)) in *. set (B := 3 / 2 * c_sigmaT P * W * (2 * PI - 0)).
  assert (Gb : forall u, 0 <= u <= L -> 0 <= g u <= B).
  { intros u Hu. apply (RInt_between (f u) 0 (2 * PI)); [lra|apply Ex1; auto|]. intros phi _. unfold W, E. apply absorbed_bound; auto; try lra. apply Far. lra. }
  assert (Ga : forall u, 0 <= u <= R_ / 2 - r -> B / 80 <= g u).
  { intros u Hu. assert (F : forall phi, 3 / 160 * c_sigmaT P * W <= f u phi).
    { intros phi. unfold f, absorbed, shine. cbv zeta. cbn [b_u b_eps b_dir]. fold E. set (d := dist _ _). assert (Ed : d = sqrt ((r + u) * (r + u) + R_ * R_)) by (unfold d; rewrite axis_shift; apply axis_dist; lra).
      pose proof (Far u phi ltac:(lra)) as Fd. fold d in Fd. assert (Ed2 : d ^ 2 = (r + u) * (r + u) + R_ * R_) by (rewrite Ed; apply pow2_sqrt; nra).
      assert (Ec : dot (times (/ d) (Spec_Geom.minus (on_sight_line r u 1) (spherical R_ 0 phi))) (observer 1) = (r + u) / d).
      { unfold dot, times, Spec_Geom.minus, on_sight_line, observer, spherical. cbn [px py pz]. replace (1 - 1 ^ 2) with 0 by ring. rewrite sqrt_0. field. lra. }
      rewrite Ec. set (c := (r + u) / d). assert (C : 0 <= c <= 1 / 2). { unfold c. split; [apply Rmult_le_pos; [lra|left; apply Rinv_0_lt_compat; lra]|]. apply Rmult_le_reg_r with d; [lra|]. unfold Rdiv. rewrite Rmult_assoc, Rinv_l by lra. lra. }
      rewrite Ee. pose proof (cross_section_above P (8 * (1 - c) / 2) HP ltac:(lra)) as S. set (sg := sigma P _) in *.
      assert (K : W * (4 / 5) <= lum / (2 * PI) / (4 * PI * c_c P * d ^ 2) / E).
      { unfold W. replace (lum / (2 * PI) / (4 * PI * c_c P * R_ ^ 2) / E * (4 / 5)) with (lum / (2 * PI) * / (4 * PI * c_c P * (R_ ^ 2 * (5 / 4))) * / E) by (field; repeat split; lra).
        unfold Rdiv at 1. apply Rmult_le_compat_r; [left; apply Rinv_0_lt_compat; auto|]. apply Rmult_le_compat_l; auto. apply Rinv_le_contravar; [assert (0 < d ^ 2) by (apply pow_lt; lra); pos|]. apply Rmult_le_compat_l; [left; pos|]. rewrite Ed2. nra. }
      set (k := lum / (2 * PI) / (4 * PI * c_c P * d ^ 2) / E) in *. apply Rle_trans with (1 / 2 * (W * (4 / 5)) * (3 / 64 * c_sigmaT P)); [lra|]. apply Rmult_le_compat; try lra. apply Rmult_le_compat; lra. }
    unfold g. replace (B / 80) with (RInt (fun _ => 3 / 160 * c_sigmaT P * W) 0 (2 * PI)). - apply RInt_le; [lra|apply ex_RInt_const|apply Ex1; lra|intros; apply F]. - rewrite RInt_const. unfold B, scal. cbn. unfold mult. cbn. field. }
  assert (HB : 0 < B) by (unfold B; apply Rmult_lt_0_compat; [apply Rmult_lt_0_compat; [lra|exact HW]|lra]). change whole with (RInt g 0 L).
  assert (Low : B / 80 * (R_ / 2 - r) <= RInt g 0 L).
  { assert (C1 : RInt g 0 L = RInt g 0 (R_ / 2 - r) + RInt g (R_ / 2 - r) L) by (symmetry; apply (RInt_Chasles g 0 (R_ / 2 - r) L); apply Ex2; lra). rewrite C1.
    pose proof (RInt_between g (R_ / 2 - r) L B ltac:(lra) ltac:(apply Ex2; lra) ltac:(intros; apply Gb; lra)) as T.
    assert (U : B / 80 * (R_ / 2 - r) <= RInt g 0 (R_ / 2 - r)); [|lra]. replace (B / 80 * (R_ / 2 - r)) with (RInt (fun _ => B / 80) 0 (R_ / 2 - r)). - apply RInt_le; [lra|apply ex_RInt_const|apply Ex2; lra|intros; apply Ga; lra]. - rewrite RInt_const. unfold scal. cbn. unfold mult. cbn. ring. }
  set (e := B * r). assert (He0 : 0 < e) by (apply Rmult_lt_0_compat; auto).
  destruct (C103_torus_on_axis P t r z n e HP ltac:(lra) ltac:(lra) He ltac:(fold R_; lra) Hr He0) as [N HN]. exists N. intros nmu nphi nl H1 H2. destruct (HN nmu nphi nl H1 H2) as (v & Ev & K). exists v. split; auto.
  fold e1 lum R_ in K. set (G := fun l => whole_ring P lum (dt_epsilon t) R_ (on_sight_line l 0 1) (absorbed P 1 e1)) in K.
  assert (EG : forall u, g u = G (r + u)). { intros u. unfold g, G, f, whole_ring. rewrite axis_shift. reflexivity. }
  assert (Br : 0 < B * r) by (apply Rmult_lt_0_compat; auto). rewrite ER in Low.
  rewrite (shift_path G r Hr) in K.
  - rewrite (RInt_ext _ g) in K by (intros x _; symmetry; apply EG).
    pose proof (RInt_between g 0 ((10 ^ 5 - 1) * r) B ltac:(lra) ltac:(apply Ex2; lra) ltac:(intros; apply Gb; lra)) as T. apply Rabs_le_between in K. unfold e in K. split; lra.
  - apply (ex_RInt_ext g); [intros x _; apply EG|]. apply Ex2; lra.
Qed.
Print Assumptions C108_range_needed.

(** ** concrete cases *)
Example C108_torus_case : let t := {| dt_L_disk := 2 * 10 ^ 46; dt_xi := 1 / 2; dt_T := 1000; dt_R := 10 ^ 19; dt_epsilon := 27 / 10 ^ 7 * / 6 |} in
  exists N, forall nmu nphi nl, (N <= nphi)%nat -> (N <= nl)%nat ->
  exists v, tau codata {| ab_target := TDustTorus t; ab_r := Some (10 ^ 18); ab_z := 1; ab_mu_s := 4 / 5; ab_mu_size := nmu; ab_phi_size := nphi; ab_l_size := nl |} (10 ^ 28 :: nil) = Ok (Some (v :: nil)) /\
    Rabs (v - RInt (fun u => whole_ring codata (dt_xi t * dt_L_disk t) (dt_epsilon t) (dt_R t) (on_sight_line (10 ^ 18) u (4 / 5)) (absorbed codata (4 / 5) (gamma_ray codata 1 (10 ^ 28)))) (10 ^ 13) (10 ^ 30)) <= 1 / 1000.
Proof.
  intros t. assert (E : first_step (4 / 5) (10 ^ 18) = 10 ^ 13) by (unfold first_step; destruct (Rlt_dec (4 / 5) 1); lra). rewrite <- E.
  apply (C108_torus codata t (10 ^ 18) 1 (4 / 5) (10 ^ 28) (1 / 1000) (10 ^ 30)); [apply codata_ok|unfold t; cbn [dt_L_disk dt_xi dt_epsilon dt_R]; try lra ..].
  unfold gamma_ray. simpl. lra.
Qed.
Example C108_blr_case : let t := {| blr_L_disk := 2 * 10 ^ 46; blr_xi := 1 / 40; blr_line := "Lyalpha"; blr_lambda := 1 / 10 ^ 5; blr_epsilon := 2 / 10 ^ 5; blr_R_line := 10 ^ 17 |} in
  exists N, forall nmu nphi nl, (N <= nmu)%nat -> (N <= nphi)%nat -> (N <= nl)%nat ->
  exists v, tau codata {| ab_target := TBLR t; ab_r := Some (2 * 10 ^ 17); ab_z := 1; ab_mu_s := 1; ab_mu_size := nmu; ab_phi_size := nphi; ab_l_size := nl |} (10 ^ 26 :: nil) = Ok (Some (v :: nil)) /\
    Rabs (v - RInt (fun u => whole_shell codata (blr_xi t * blr_L_disk t) (blr_epsilon t) (blr_R_line t) (on_sight_line (2 * 10 ^ 17) u 1) (absorbed codata 1 (gamma_ray codata 1 (10 ^ 26)))) 0 (10 ^ 30)) <= 1 / 1000.
Proof.
  intros t. assert (E : first_step 1 (2 * 10 ^ 17) = 0) by (unfold first_step; destruct (Rlt_dec 1 1); lra). rewrite <- E.
  apply (C108_blr codata t (2 * 10 ^ 17) 1 1 (10 ^ 26) (1 / 1000) (10 ^ 30)); [apply codata_ok|unfold t; cbn [blr_L_disk blr_xi blr_epsilon blr_R_line]; try lra ..].
  unfold gamma_ray. simpl. lra.
Qed.
Example C108_range_case : let t := {| dt_L_disk := 2 * 10 ^ 46; dt_xi := 1 / 2; dt_T := 1000; dt_R := 10 ^ 19; dt_epsilon := 8 / gamma_ray codata 0 (10 ^ 28) |} in
  exists N, forall nmu nphi nl, (N <= nphi)%nat -> (N <= nl)%nat ->
  exists v, tau codata {| ab_target := TDustTorus t; ab_r := Some (10 ^ 10); ab_z := 0; ab_mu_s := 1; ab_mu_size := nmu; ab_phi_size := nphi; ab_l_size := nl |} (10 ^ 28 :: nil) = Ok (Some (v :: nil)) /\
    10 * v <= RInt (fun u => whole_ring codata (dt_xi t * dt_L_disk t) (dt_epsilon t) (dt_R t) (on_sight_line (10 ^ 10) u 1) (absorbed codata 1 (gamma_ray codata 0 (10 ^ 28)))) 0 (10 ^ 20).
Proof.
  intros t. assert (G : 0 < gamma_ray codata 0 (10 ^ 28)) by (unfold gamma_ray; simpl; lra).
  destruct (C108_range_needed codata t (10 ^ 10) 0 (10 ^ 28) (10 ^ 20)) as [N HN]; [apply codata_ok|unfold t; cbn [dt_L_disk dt_xi dt_epsilon dt_R]; try lra ..].
  - unfold Rdiv. apply Rmult_lt_0_compat; [lra|apply Rinv_0_lt_compat; auto].
  - field. lra.
  - exists N. intros nmu nphi nl H1 H2. destruct (HN nmu nphi nl H1 H2) as (v & Ev & _ & K). exists v. split; auto.
Qed.
