(** C104: ExternalCompton.sed_flux converges to an integral over the electrons
    and the emitting surface of the target when all its grids are refined. *)
From Verif Require Import Base TEUtils ListFacts NumpyInst MathUtils Conversion Spectra Blob Synchrotron Kernels Geometry Targets SSC ExternalCompton Spec_Math Spec_Spectra Spec_Blob Spec_Rad Spec_Geom Spec_Beams Spec_Emission Spec_Opacity Spec_Surface MathFacts SpectraFacts SpectraFacts2 BlobFacts Calculus AbsorptionFacts SynchFacts SynchFacts2 Props_Blob Props_Synch ComptonFacts TargetFacts Props_EC Props_Beams Props_Opacity Props_Thermal Props_Emission SynchPower Props_Budget Props_Refine Riemann Props_Refine2 TensorGrid Props_Limits JumpGrid BeamGrid.
From Coquelicot Require Import Coquelicot.
From Coq Require Import List Lra Lia.
Import ListNotations.
Open Scope list_scope.
Open Scope R_scope.

(** ** the beams *)
Section Beams.
Variable X : Type.
Variable D : X -> Prop.
Variable near : R -> X -> X -> Prop.
Hypothesis Hn : narrows near.
Local Notation nc := (nice X D near).
Lemma nice_dot (p : X -> point) o : nice_point X D near p -> nc (fun x => dot (p x) o).
Proof.
  intros (A & B & C). unfold dot. apply (nice_plus X D near Hn); [apply (nice_plus X D near Hn)|]; (apply (nice_mult X D near Hn); [auto|apply nice_const]).
Qed.
Lemma nice_shine P lum eps (p q : X -> point) m o : phys_ok P -> 0 < m -> (forall x, D x -> m <= dist (p x) (q x)) -> nice_point X D near p -> nice_point X D near q ->
  nc (fun x => b_u (shine P lum eps (q x) (p x))) /\ nc (fun x => dot (b_dir (shine P lum eps (q x) (p x))) o).
Proof.
  intros HP Hm Hd (P1 & P2 & P3) (Q1 & Q2 & Q3). pose proof HP as []. pose proof PI_RGT_0.
  pose proof (nice_minus X D near Hn _ _ P1 Q1) as D1. pose proof (nice_minus X D near Hn _ _ P2 Q2) as D2. pose proof (nice_minus X D near Hn _ _ P3 Q3) as D3.
  assert (Hx : nc (fun x => dist (p x) (q x))).
  { apply (nice_ext X D near (fun x => sqrt ((px (p x) - px (q x)) * (px (p x) - px (q x)) + (py (p x) - py (q x)) * (py (p x) - py (q x)) + (pz (p x) - pz (q x)) * (pz (p x) - pz (q x))))); [reflexivity|].
    apply nice_comp; auto. { intros t. apply continuity_pt_filterlim, continuous_sqrt. }
    apply (nice_plus X D near Hn); [apply (nice_plus X D near Hn)|]; apply (nice_mult X D near Hn); auto. }
  pose proof (nice_inv X D near _ m Hm Hd Hx) as Hi. split.
  - apply (nice_ext X D near (fun x => lum / (4 * PI * c_c P) * (/ dist (p x) (q x)) ^ 2)).
    + intros x Dx. specialize (Hd x Dx). cbn [shine b_u]. field. repeat split; lra.
    + apply (nice_mult X D near Hn); [apply nice_const|]. apply nice_pow; auto.
  - cbn [shine b_dir]. apply nice_dot. unfold nice_point, times, Spec_Geom.minus. cbn [px py pz]. split; [|split]; apply (nice_mult X D near Hn); auto.
Qed.
End Beams.

(** ** sums of converging summands over converging grids *)
Section Fields.
Variable Fn : nat -> beam -> R.
Variable F : beam -> R.
Definition uniformly {X : Type} (D : X -> Prop) (bm : X -> beam) : Prop := forall e, 0 < e -> exists N, forall n x, (N <= n)%nat -> D x -> Rabs (Fn n (bm x) - F (bm x)) <= e.
Lemma field1 (bm : R -> beam) a b : a < b -> nice _ (dom1 a b) near1 (fun z => F (bm (snd z))) -> uniformly (dom1 a b) (fun z => bm (snd z)) ->
  forall e, 0 < e -> exists N, forall n k, (N <= n)%nat -> (N <= k)%nat -> Rabs (over (linspace a b k) (fun u => Fn n (bm u)) - RInt (fun u => F (bm u)) a b) <= e.
Proof.
  intros Hab Nf U e He. destruct (over1 a b Hab (fun u => F (bm u)) Nf (e / 2) ltac:(lra)) as (d & Hd & K). destruct (fine_linspace a b d Hab Hd) as [N1 HN1].
  assert (He' : 0 < e / 2 / (b - a)) by (apply Rdiv_lt_0_compat; lra). destruct (U _ He') as [N2 HN2]. exists (Nat.max N1 N2). intros n k Hnn Hk. specialize (HN1 k ltac:(lia)). specialize (K _ HN1).
  assert (B : Rabs (over (linspace a b k) (fun u => Fn n (bm u)) - over (linspace a b k) (fun u => F (bm u))) <= e / 2 / (b - a) * (b - a)).
  { rewrite over_linear. apply (over_small _ a b d); auto. intros u Hu. apply (HN2 n (tt, u)); [lia|]. split; [exact Logic.I|exact Hu]. }
  replace (e / 2 / (b - a) * (b - a)) with (e / 2) in B by (field; lra). apply Rabs_le_between in K. apply Rabs_le_between in B. apply Rabs_le. lra.
Qed.
Lemma field2 (bm : R -> R -> beam) a b a2 b2 : a < b -> a2 < b2 -> nice _ (dom2 a b a2 b2) near2 (fun z => F (bm (snd (fst z)) (snd z))) -> uniformly (dom2 a b a2 b2) (fun z => bm (snd (fst z)) (snd z)) ->
  forall e, 0 < e -> exists N, forall n k k2, (N <= n)%nat -> (N <= k)%nat -> (N <= k2)%nat ->
  Rabs (over (linspace a b k) (fun u => over (linspace a2 b2 k2) (fun v => Fn n (bm u v))) - RInt (fun u => RInt (fun v => F (bm u v)) a2 b2) a b) <= e.
Proof.
  intros Hab Hab2 Nf U e He. destruct (over2 a b a2 b2 Hab Hab2 (fun u v => F (bm u v)) Nf (e / 2) ltac:(lra)) as (d & Hd & K). destruct (fine_linspace a b d Hab Hd) as [N1 HN1]. destruct (fine_linspace a2 b2 d Hab2 Hd) as [N3 HN3].
  assert (He' : 0 < e / 2 / (b - a) / (b2 - a2)) by (repeat apply Rdiv_lt_0_compat; lra). destruct (U _ He') as [N2 HN2]. exists (Nat.max N1 (Nat.max N2 N3)). intros n k k2 Hnn Hk Hk2. specialize (HN1 k ltac:(lia)). specialize (HN3 k2 ltac:(lia)). specialize (K _ _ HN1 HN3).
  assert (B : Rabs (over (linspace a b k) (fun u => over (linspace a2 b2 k2) (fun v => Fn n (bm u v))) - over (linspace a b k) (fun u => over (linspace a2 b2 k2) (fun v => F (bm u v)))) <= e / 2 / (b - a) / (b2 - a2) * (b2 - a2) * (b - a)).
  { rewrite over_linear. apply (over_small _ a b d); auto. intros u Hu. rewrite over_linear. apply (over_small _ a2 b2 d); auto. intros v Hv. apply (HN2 n ((tt, u), v)); [lia|]. split; [split; [exact Logic.I|exact Hu]|exact Hv]. }
  replace (e / 2 / (b - a) / (b2 - a2) * (b2 - a2) * (b - a)) with (e / 2) in B by (field; lra). apply Rabs_le_between in K. apply Rabs_le_between in B. apply Rabs_le. lra.
Qed.
End Fields.
(** half a turn does not change the integral over a turn *)
Lemma half_turn (g : R -> R) : (forall x, g (x + 2 * PI) = g x) -> ex_RInt (fun x => g (x + PI)) 0 (2 * PI) -> RInt (fun x => g (x + PI)) 0 (2 * PI) = RInt g 0 (2 * PI).
Proof.
  intros Hp Hex. pose proof PI_RGT_0. set (G := fun x => g (x + PI)) in *.
  assert (E1 : ex_RInt G 0 PI) by (apply (ex_RInt_Chasles_1 G 0 PI (2 * PI)); auto; lra). assert (E2 : ex_RInt G PI (2 * PI)) by (apply (ex_RInt_Chasles_2 G 0 PI (2 * PI)); auto; lra).
  assert (S1 : is_RInt (fun y => scal 1 (G (1 * y + PI))) 0 PI (RInt G PI (2 * PI))).
  { apply (is_RInt_comp_lin G 1 PI 0 PI). replace (1 * 0 + PI) with PI by ring. replace (1 * PI + PI) with (2 * PI) by ring. apply (@RInt_correct R_CompleteNormedModule). auto. }
  assert (S2 : is_RInt (fun y => scal 1 (G (1 * y + - PI))) PI (2 * PI) (RInt G 0 PI)).
  { apply (is_RInt_comp_lin G 1 (- PI) PI (2 * PI)). replace (1 * PI + - PI) with 0 by ring. replace (1 * (2 * PI) + - PI) with PI by ring. apply (@RInt_correct R_CompleteNormedModule). auto. }
  assert (T1 : is_RInt g 0 PI (RInt G PI (2 * PI))). { revert S1. apply is_RInt_ext. intros x _. unfold scal; simpl. unfold mult; simpl. unfold G. replace (1 * x + PI + PI) with (x + 2 * PI) by ring. rewrite Hp. ring. }
  assert (T2 : is_RInt g PI (2 * PI) (RInt G 0 PI)). { revert S2. apply is_RInt_ext. intros x _. unfold scal; simpl. unfold mult; simpl. unfold G. replace (1 * x + - PI + PI) with x by ring. ring. }
  pose proof (is_RInt_Chasles g 0 PI (2 * PI) _ _ T1 T2) as T. rewrite (@is_RInt_unique R_CompleteNormedModule _ _ _ _ T). rewrite <- (RInt_Chasles G 0 PI (2 * PI)) by auto. unfold plus; simpl. ring.
Qed.
Lemma shell_clear R_ mu phi p r : 0 <= R_ -> 0 <= r -> -1 <= mu <= 1 -> dot p p = r * r -> Rabs (r - R_) <= dist p (spherical R_ mu phi).
Proof.
  intros HR Hr Hmu Hp. set (q := spherical R_ mu phi). pose proof (spherical_norm R_ mu phi Hmu) as Eq. fold q in Eq. pose proof (cauchy_schwarz p q) as CS. rewrite Eq, Hp in CS.
  assert (Hd : dot p q <= r * R_). { apply Rnot_lt_le. intros K. assert (0 <= r * R_) by (apply Rmult_le_pos; auto). nra. }
  unfold dist. rewrite <- sqrt_Rsqr_abs. apply sqrt_le_1_alt. unfold Rsqr.
  replace (dot (Spec_Geom.minus p q) (Spec_Geom.minus p q)) with (dot p p + dot q q - 2 * dot p q) by (unfold dot, Spec_Geom.minus; cbn [px py pz]; ring). rewrite Eq, Hp. lra.
Qed.
Lemma spherical_turn R_ mu phi : spherical R_ mu (phi + 2 * PI) = spherical R_ mu phi.
Proof. unfold spherical. replace (phi + 2 * PI) with (phi + 2 * INR 1 * PI) by (simpl; ring). rewrite cos_period, sin_period. reflexivity. Qed.

(** ** the disk *)
Section Disk.
Variable P : phys.
Variables M L md eta Ri Ro r : R.
Hypothesis HP : phys_ok P.
Hypothesis Hr : 0 < r.
Hypothesis Hi : 0 < Ri.
Hypothesis Hio : Ri < Ro.
Hypothesis HM : 0 < M.
Definition cosine (x : R) : R := r / sqrt (r ^ 2 + x ^ 2).
Lemma hyp_pos x : 0 < r ^ 2 + x ^ 2.
Proof. assert (0 < r ^ 2) by (apply pow_lt; auto). pose proof (pow2_ge_0 x). lra. Qed.
Lemma cosine_sq x : cosine x ^ 2 = r ^ 2 / (r ^ 2 + x ^ 2).
Proof. unfold cosine. pose proof (hyp_pos x) as H. assert (S : sqrt (r ^ 2 + x ^ 2) ^ 2 = r ^ 2 + x ^ 2) by (apply pow2_sqrt; lra). assert (0 < sqrt (r ^ 2 + x ^ 2)) by (apply sqrt_lt_R0; auto). rewrite <- S at 2. field. lra. Qed.
Lemma cosine_range x : 0 < x -> 0 < cosine x < 1.
Proof.
  intros Hx. unfold cosine. assert (0 < sqrt (r ^ 2 + x ^ 2)) by (apply sqrt_lt_R0, hyp_pos). split; [apply Rdiv_lt_0_compat; auto|]. apply (proj2 (Rlt_div_l r 1 _ H)). rewrite Rmult_1_l. rewrite <- (sqrt_pow2 r) at 1 by lra. apply sqrt_lt_1_alt. assert (0 < x ^ 2) by (apply pow_lt; auto). pose proof (pow2_ge_0 r). lra.
Qed.
Lemma cosine_decr x y : 0 < x -> x < y -> cosine y < cosine x.
Proof.
  intros Hx Hxy. unfold cosine. pose proof (hyp_pos x). pose proof (hyp_pos y). unfold Rdiv. apply Rmult_lt_compat_l; auto. apply Rinv_lt_contravar; [apply Rmult_lt_0_compat; apply sqrt_lt_R0; auto|]. apply sqrt_lt_1_alt. assert (x ^ 2 < y ^ 2) by nra. lra.
Qed.
Definition radius (mu : R) : R := r * tan (acos mu).
Lemma radius_eq mu : 0 < mu < 1 -> radius mu = r * sqrt (/ mu ^ 2 - 1).
Proof. intros H. unfold radius. rewrite Props_Targets.tan_acos by lra. reflexivity. Qed.
Lemma radius_cosine x : 0 < x -> radius (cosine x) = x.
Proof.
  intros Hx. pose proof (cosine_range x Hx) as H. rewrite radius_eq by auto. rewrite cosine_sq. pose proof (hyp_pos x). assert (0 < r ^ 2) by (apply pow_lt; auto). replace (/ (r ^ 2 / (r ^ 2 + x ^ 2)) - 1) with ((x / r) ^ 2) by (field; lra). rewrite sqrt_pow2 by (apply Rlt_le, Rdiv_lt_0_compat; auto). field. lra.
Qed.
Lemma radius_range mu : cosine Ro <= mu <= cosine Ri -> Ri <= radius mu.
Proof.
  intros H. pose proof (cosine_range Ro ltac:(lra)). pose proof (cosine_range Ri Hi) as HRi. rewrite <- (radius_cosine Ri Hi). rewrite !radius_eq by lra. apply Rmult_le_compat_l; [lra|]. apply sqrt_le_1_alt. unfold Rminus. apply Rplus_le_compat_r. apply Rinv_le_contravar; [apply pow_lt; lra|]. apply pow_incr. lra.
Qed.
Let a := cosine Ro.
Let b := cosine Ri.
Let Hab : a < b. Proof. apply cosine_decr; lra. Qed.
Let Ha : 0 < a. Proof. apply cosine_range; lra. Qed.
Let Hb : b < 1. Proof. apply cosine_range; lra. Qed.
Definition disk_ring (phi mu : R) : beam :=
  {| b_u := 2 * disk_flux P M md Ri (radius mu) * (r ^ 2 / mu ^ 3) / (4 * PI * c_c P * (r / mu) ^ 2); b_eps := disk_photon P M L eta (radius mu); b_dir := spherical 1 mu phi |}.
Local Notation DD := (dom2 0 (2 * PI) a b).
Lemma radius_nice : nice _ DD near2 (fun z => radius (snd z)).
Proof.
  apply (nice_ext _ _ _ (fun z => r * sqrt ((/ snd z) ^ 2 - 1))).
  { intros z [_ Hz]. rewrite radius_eq by (pose proof Ha; pose proof Hb; lra). rewrite pow_inv. reflexivity. }
  apply (nice_mult _ _ _ near2_narrows); [apply nice_const|]. apply (nice_comp _ _ _ sqrt); [intros t; apply continuity_pt_filterlim, continuous_sqrt|]. apply (nice_minus _ _ _ near2_narrows); [|apply nice_const]. apply nice_pow; [apply near2_narrows|].
  apply (nice_inv _ _ _ _ a); [apply Ha|intros z [_ Hz]; lra|apply nice_last; apply Hab].
Qed.
Lemma inv_radius_nice : nice _ DD near2 (fun z => / radius (snd z)).
Proof. apply (nice_inv _ _ _ _ Ri); auto; [intros z [_ Hz]; apply radius_range; auto|apply radius_nice]. Qed.
Lemma disk_u_nice : nice _ DD near2 (fun z => b_u (disk_ring (snd (fst z)) (snd z))).
Proof.
  pose proof HP as []. pose proof PI_RGT_0. pose proof near2_narrows as N2.
  apply (nice_ext _ _ _ (fun z => 2 * (3 * c_G P * M * md / (8 * PI)) / (4 * PI * c_c P) * (/ radius (snd z)) ^ 3 * (1 - sqrt (Ri / radius (snd z))) * / snd z)).
  { intros z [_ Hz]. pose proof (radius_range (snd z) Hz). pose proof Ha. unfold disk_ring, disk_flux. cbn [b_u]. set (q := sqrt _). set (R_ := radius _) in *. set (m := snd z) in *. field. repeat split; lra. }
  pose proof inv_radius_nice as Nr. apply (nice_mult _ _ _ N2); [apply (nice_mult _ _ _ N2)|].
  - apply (nice_mult _ _ _ N2); [apply nice_const|]. apply nice_pow; auto.
  - apply (nice_minus _ _ _ N2); [apply nice_const|]. apply (nice_comp _ _ _ sqrt); [intros t; apply continuity_pt_filterlim, continuous_sqrt|]. apply (nice_mult _ _ _ N2 (fun _ => Ri) (fun z => / radius (snd z))); [apply nice_const|auto].
  - apply (nice_inv _ _ _ _ a); [apply Ha|intros z [_ Hz]; lra|apply nice_last; apply Hab].
Qed.
Lemma disk_e_nice : nice _ DD near2 (fun z => b_eps (disk_ring (snd (fst z)) (snd z))) /\ exists m0, 0 < m0 /\ forall z, DD z -> m0 <= b_eps (disk_ring (snd (fst z)) (snd z)).
Proof.
  pose proof HP as []. pose proof near2_narrows as N2. set (kk := c_c P ^ 2 / (c_G P * M)). assert (Hk : 0 < kk) by (unfold kk; pos). set (lo := Ri * kk). assert (Hlo : 0 < lo) by (unfold lo; apply Rmult_lt_0_compat; auto).
  set (c0 := 2.7e-4 * Rpower (L / (1.26e46 * (M / (1e8 * M_sun))) / (M / (1e8 * M_sun) * eta)) (1 / 4)). assert (Hc0 : 0 < c0) by (unfold c0; apply Rmult_lt_0_compat; [lra|apply exp_pos]).
  set (u := fun z : unit * R * R => - (3 / 4) * ln (Rmax (radius (snd z) * kk) lo)).
  assert (Nu : nice _ DD near2 u). { unfold u. apply (nice_mult _ _ _ N2); [apply nice_const|]. apply (nice_comp _ _ _ (fun t => ln (Rmax t lo))).
    - intros t. apply (continuity_pt_comp (fun t => Rmax t lo) ln); [apply cont_max_r|]. apply continuity_pt_filterlim. apply (ex_derive_continuous ln). auto_derive. eapply Rlt_le_trans; [exact Hlo|apply Rmax_r].
    - apply (nice_mult _ _ _ N2); [apply radius_nice|apply nice_const]. }
  assert (Ee : forall z, DD z -> c0 * exp (u z) = b_eps (disk_ring (snd (fst z)) (snd z))).
  { intros z [_ Hz]. unfold disk_ring, disk_photon. cbn [b_eps]. cbv zeta. unfold c0, u, Rpower at 3. f_equal. f_equal. f_equal. f_equal. rewrite Rmax_left by (unfold lo; apply Rmult_le_compat_r; [lra|apply radius_range; auto]). unfold kk. unfold Rdiv. ring. }
  split.
  - apply (nice_ext _ _ _ (fun z => c0 * exp (u z))); auto. apply (nice_mult _ _ _ N2); [apply nice_const|]. apply (nice_comp _ _ _ exp); auto. intros t. apply derivable_continuous_pt, derivable_pt_exp.
  - destruct (proj2 Nu) as [B HB]. exists (c0 * exp (- B)). split; [apply Rmult_lt_0_compat; auto; apply exp_pos|]. intros z Hz. rewrite <- Ee by auto. apply Rmult_le_compat_l; [lra|]. specialize (HB z Hz). apply Rabs_le_between in HB.
    destruct (Rle_lt_or_eq_dec (- B) (u z)) as [K|K]; [lra|left; apply exp_increasing; auto|rewrite K; lra].
Qed.
Variable F : beam -> R.
Hypothesis Hlin : forall c u ep d, F {| b_u := c * u; b_eps := ep; b_dir := d |} = c * F {| b_u := u; b_eps := ep; b_dir := d |}.
Hypothesis Hnice : nice _ DD near2 (fun z => F (disk_ring (snd (fst z)) (snd z))).
(** from the cosine to the radius *)
Lemma disk_radii phi : 0 <= phi <= 2 * PI -> RInt (fun mu => F (disk_ring phi mu)) a b =
  RInt (fun R_ => F {| b_u := 2 * disk_flux P M md Ri R_ * R_ / (4 * PI * c_c P * (r ^ 2 + R_ ^ 2)); b_eps := disk_photon P M L eta R_; b_dir := spherical 1 (r / sqrt (r ^ 2 + R_ ^ 2)) phi |}) Ri Ro.
Proof.
  intros Hphi. pose proof HP as []. pose proof PI_RGT_0. set (f := fun mu => F (disk_ring phi mu)).
  assert (U : uc1 a b f). { apply (slice _ (dom1 0 (2 * PI)) near1 near1_narrows a b (fun z => F (disk_ring (snd (fst z)) (snd z))) Hnice (tt, phi)). split; [exact Logic.I|exact Hphi]. }
  set (fc := fun x => f (clamp a b x)).
  assert (Cc : forall x, continuous fc x).
  { intros x. apply continuity_pt_filterlim. intros e He. destruct (U (e / 2) ltac:(lra)) as (d & Hd & K). exists d. split; [lra|]. intros y [_ Hy]. cbn. cbn in Hy. unfold R_dist in *. apply Rle_lt_trans with (e / 2); [|lra]. apply K; try (apply clamp_in; pose proof Hab; lra). eapply Rle_lt_trans; [apply clamp_close; pose proof Hab; lra|exact Hy]. }
  assert (E1 : RInt f a b = RInt fc a b). { apply int_ext; [pose proof Hab; lra|]. intros x Hx. unfold fc. rewrite clamp_id by lra. reflexivity. }
  set (dg := fun x => - (r * x / ((r ^ 2 + x ^ 2) * sqrt (r ^ 2 + x ^ 2)))).
  assert (Dg : forall x, is_derive cosine x (dg x)).
  { intros x. pose proof (hyp_pos x) as Hx. assert (Hs : 0 < sqrt (r ^ 2 + x ^ 2)) by (apply sqrt_lt_R0; auto). assert (S : sqrt (r ^ 2 + x ^ 2) ^ 2 = r ^ 2 + x ^ 2) by (apply pow2_sqrt; lra). unfold cosine, dg. 
    replace (r ^ 2) with (r * r) in * by ring. replace (x ^ 2) with (x * x) in * by ring. 
    evar_last. { auto_derive; [|reflexivity]. replace (x * (x * 1)) with (x * x) by ring. replace (r * (r * 1)) with (r * r) by ring. repeat split; auto; lra. }
    replace (x * (x * 1)) with (x * x) by ring. replace (r * (r * 1)) with (r * r) by ring. set (q := sqrt _) in *. rewrite <- S. field. lra. }
  pose proof (RInt_comp fc cosine dg Ri Ro) as K.
  assert (E2 : RInt (fun y => scal (dg y) (fc (cosine y))) Ri Ro = RInt fc b a).
  { apply K; [intros; apply Cc|]. intros x _. split; [apply Dg|]. unfold dg. apply (ex_derive_continuous (fun x => - (r * x / ((r ^ 2 + x ^ 2) * sqrt (r ^ 2 + x ^ 2))))). pose proof (hyp_pos x). assert (0 < sqrt (r ^ 2 + x ^ 2)) by (apply sqrt_lt_R0; auto). auto_derive. unfold pow in *. repeat split; auto; apply Rgt_not_eq; apply Rmult_lt_0_compat; auto. }
  rewrite E1, <- opp_RInt_swap by (apply (@ex_RInt_continuous R_CompleteNormedModule); intros; apply Cc). rewrite <- E2.
  assert (Ex : ex_RInt (fun y => scal (dg y) (fc (cosine y))) Ri Ro).
  { apply (@ex_RInt_continuous R_CompleteNormedModule). intros x _. apply (continuous_mult (dg : R_UniformSpace -> R_AbsRing) (fun x : R_UniformSpace => fc (cosine x) : R_AbsRing)).
    - unfold dg. apply (ex_derive_continuous (fun x => - (r * x / ((r ^ 2 + x ^ 2) * sqrt (r ^ 2 + x ^ 2))))). pose proof (hyp_pos x). assert (0 < sqrt (r ^ 2 + x ^ 2)) by (apply sqrt_lt_R0; auto). auto_derive. unfold pow in *. repeat split; auto; apply Rgt_not_eq; apply Rmult_lt_0_compat; auto.
    - apply (continuous_comp cosine fc); [|apply Cc]. apply (ex_derive_continuous cosine). exists (dg x). apply Dg. }
  rewrite <- RInt_opp by auto. apply int_ext; [lra|]. intros x Hx. match goal with |- _ = ?t => change (- (dg x * fc (cosine x)) = t) end. unfold fc.
  assert (Hcx : a <= cosine x <= b) by (split; left; apply cosine_decr; lra). rewrite clamp_id by auto. unfold f, disk_ring. rewrite radius_cosine by lra. pose proof (cosine_range x ltac:(lra)) as Hc.
  set (u0 := 2 * disk_flux P M md Ri x). 
  replace (u0 * (r ^ 2 / cosine x ^ 3) / (4 * PI * c_c P * (r / cosine x) ^ 2)) with (/ cosine x * (u0 / (4 * PI * c_c P))) by (field; repeat split; lra).
  pose proof (hyp_pos x) as Hh. replace (u0 * x / (4 * PI * c_c P * (r ^ 2 + x ^ 2))) with (x / (r ^ 2 + x ^ 2) * (u0 / (4 * PI * c_c P))) by (field; repeat split; lra).
  rewrite !Hlin. fold (cosine x). set (T := F _). assert (Hs : 0 < sqrt (r ^ 2 + x ^ 2)) by (apply sqrt_lt_R0; auto). unfold dg, cosine. field. repeat split; lra.
Qed.
End Disk.

(** ** the field of a target *)
Section Targets.
Variable P : phys.
Variable s : spectrum.
Variables dl dd es V ms : R.
Hypothesis HP : phys_ok P.
Hypothesis Hdd : 0 < dd.
Hypothesis Hgm : 0 < gamma_min s.
Hypothesis Hgg : gamma_min s < gamma_max s.
Hypothesis Hcw : continuous_within s.
Hypothesis Hes : 0 < es.
Hypothesis Hms : -1 <= ms <= 1.
Let Fn (n : nat) : beam -> R := scattered_sed P dl dd ms es (combine (log_grid 10 (10 ^ 9) n) (map (fun x => V * x) (snd (evaluate s (map (fun g => g / dd) (log_grid 10 (10 ^ 9) n)))))).
Let F : beam -> R := scattered_integral P dl dd ms es (fun g => V * density s (g / dd)) 10 (10 ^ 9).
Lemma scattered_linear c u ep d : (exists x, x = ep /\ 0 < x) -> dot d (observer ms) <= 1 -> F {| b_u := c * u; b_eps := ep; b_dir := d |} = c * F {| b_u := u; b_eps := ep; b_dir := d |}.
Proof.
  intros (x & Ex & Hx) Hd. subst x. unfold F, scattered_integral. cbv zeta. cbn [b_u b_eps b_dir]. set (co := dot _ _) in *.
  assert (Ex : ex_RInt (fun g => V * density s (g / dd) * (c_c P * (u / ep) * (1 - co)) * compton_cross_section P g es ep co) 10 (10 ^ 9)) by (apply compton_int; auto; lra).
  replace (RInt (fun g => V * density s (g / dd) * (c_c P * (c * u / ep) * (1 - co)) * compton_cross_section P g es ep co) 10 (10 ^ 9)) with (c * RInt (fun g => V * density s (g / dd) * (c_c P * (u / ep) * (1 - co)) * compton_cross_section P g es ep co) 10 (10 ^ 9)); [ring|].
  rewrite <- int_scale by auto. apply (@RInt_ext R_CompleteNormedModule). intros g _. match goal with |- ?a = ?b => change (@eq R a b) end. unfold Rdiv. ring.
Qed.
Lemma good_beams {X : Type} (D : X -> Prop) near (bm : X -> beam) m0 : narrows near -> nice X D near (fun x => b_u (bm x)) -> nice X D near (fun x => b_eps (bm x)) -> nice X D near (fun x => dot (b_dir (bm x)) (observer ms)) ->
  0 < m0 -> (forall x, D x -> m0 <= b_eps (bm x)) -> (forall x, D x -> dot (b_dir (bm x)) (observer ms) <= 1) ->
  nice X D near (fun x => F (bm x)) /\ uniformly Fn F D bm.
Proof.
  intros Hn HU HE HC Hm0 Em0 C1. split.
  - apply (beam_nice X D near Hn bm m0 ms); auto.
  - intros e He. apply (beam_grid X D near Hn bm m0 ms); auto.
Qed.
Lemma target_limit t r r' e : target_ok t r' -> (r' = Some r \/ exists c, t = TCMB c) -> (forall d, t = TDustTorus d -> 0 <= dt_R d) -> 0 < e ->
  exists N, forall n nmu nphi, (N <= n)%nat -> (N <= nmu)%nat -> (N <= nphi)%nat -> Rabs (axis_field P t r nmu nphi (Fn n) - whole_field P t r F) <= e.
Proof.
  intros Ht Hr HR He. pose proof PI_RGT_0 as Hpi. assert (H2 : 0 < 2 * PI) by lra. assert (H1 : -1 < 1) by lra. assert (OB : dot (observer ms) (observer ms) = 1) by (apply spherical_unit; auto).
  assert (Hpr : dot (on_sight_line r 0 1) (on_sight_line r 0 1) = r * r) by (rewrite sight_norm by lra; ring).
  assert (Npt : forall (X : Type) (D : X -> Prop) near, nice_point X D near (fun _ => on_sight_line r 0 1)) by (intros X D near; split; [|split]; apply nice_const).
  destruct t as [t|t|t|t|t|t|]; cbn [target_ok] in Ht; try (exfalso; exact Ht); cbn [axis_field whole_field]; cbv zeta.
  - (* the sky *)
    set (bm := fun phi mu => {| b_u := cmb_u_0 t / (4 * PI); b_eps := cmb_epsilon_0 t; b_dir := spherical 1 mu phi |}).
    destruct (good_beams (dom2 0 (2 * PI) (-1) 1) near2 (fun z => bm (snd (fst z)) (snd z)) (cmb_epsilon_0 t)) as [Nf U]; try apply near2_narrows; try apply Ht.
    { apply (nice_const _ _ _ (cmb_u_0 t / (4 * PI))). } { apply (nice_const _ _ _ (cmb_epsilon_0 t)). }
    { cbn [bm b_dir]. apply (nice_dot _ _ _ near2_narrows (fun z => spherical 1 (snd z) (snd (fst z)))). apply nice_spherical; [apply near2_narrows|apply nice_last; lra|apply (nice_first _ _ _ _ _ snd), nice_last; lra]. }
    { intros z _. cbn [bm b_eps]. lra. }
    { intros z [_ Hz]. cbn [bm b_dir]. apply schwarz; auto. apply spherical_unit; auto. }
    destruct (field2 Fn F bm 0 (2 * PI) (-1) 1 H2 H1 Nf U e He) as [N HN]. exists N. intros n nmu nphi A B C. apply (HN n nphi nmu); auto.
  - (* a point *)
    destruct Ht as (HL & Hep & h & Eh & Hh). assert (h = r) by (destruct Hr as [Hr|(c & Hr)]; congruence). subst h. set (bm := shine P (ps_L_0 t) (ps_epsilon_0 t) (spherical 0 0 0) (on_sight_line r 0 1)).
    destruct (good_beams dom0 near0 (fun _ => bm) (ps_epsilon_0 t)) as [_ U]; try apply near0_narrows; try (apply nice_const); auto.
    { intros z _. unfold bm. cbn [shine b_eps]. lra. }
    { intros z _. apply shine_dir; auto. }
    destruct (U e He) as [N HN]. exists N. intros n nmu nphi A _ _. apply (HN n tt A Logic.I).
  - (* the disk *)
    destruct Ht as (HLd & HM & Heta & Hi & Hio & h & E & Hh). assert (h = r) by (destruct Hr as [Hr|(t' & Hr)]; congruence). subst h.
    set (md := sd_L_disk t / (sd_eta t * c_c P ^ 2)). set (bm := disk_ring P (sd_M_BH t) (sd_L_disk t) md (sd_eta t) (sd_R_in t) r). set (a := cosine r (sd_R_out t)). set (b := cosine r (sd_R_in t)). assert (Hab : a < b) by (apply cosine_decr; lra).
    assert (Ha : 0 < a) by (apply cosine_range; lra). assert (Hb : b < 1) by (apply cosine_range; lra).
    destruct (disk_e_nice P (sd_M_BH t) (sd_L_disk t) md (sd_eta t) (sd_R_in t) (sd_R_out t) r HP Hh Hi Hio HM) as [Ne (m0 & Hm0 & Em0)].
    destruct (good_beams (dom2 0 (2 * PI) a b) near2 (fun z => bm (snd (fst z)) (snd z)) m0) as [Nf U]; auto; try apply near2_narrows.
    { apply (disk_u_nice P (sd_M_BH t) (sd_L_disk t) md (sd_eta t) (sd_R_in t) (sd_R_out t) r); auto. }
    { unfold bm, disk_ring. cbn [b_dir]. apply (nice_dot _ _ _ near2_narrows (fun z => spherical 1 (snd z) (snd (fst z)))). apply nice_spherical; [apply near2_narrows|apply nice_last; lra|apply (nice_first _ _ _ _ _ snd), nice_last; lra]. }
    { intros z [_ Hz]. unfold bm, disk_ring. cbn [b_dir]. apply schwarz; auto. apply spherical_unit. lra. }
    destruct (field2 Fn F bm 0 (2 * PI) a b H2 Hab Nf U e He) as [N HN]. exists N. intros n nmu nphi A B C.
    match goal with |- Rabs (?x - ?y) <= e => replace y with (RInt (fun u => RInt (fun v => F (bm u v)) a b) 0 (2 * PI)) end; [apply (HN n nphi nmu); auto|].
    unfold whole_disk. apply int_ext; [lra|]. intros phi Hphi.
    set (F' := fun b0 => if Rlt_dec 0 (b_eps b0) then if Rle_dec (dot (b_dir b0) (observer ms)) 1 then F b0 else 0 else 0).
    assert (EF : forall x mu ph, -1 <= mu <= 1 -> F {| b_u := x; b_eps := disk_photon P (sd_M_BH t) (sd_L_disk t) (sd_eta t) ph; b_dir := spherical 1 mu phi |} = F' {| b_u := x; b_eps := disk_photon P (sd_M_BH t) (sd_L_disk t) (sd_eta t) ph; b_dir := spherical 1 mu phi |}).
    { intros x mu ph Hmu. unfold F'. cbn [b_eps b_dir]. destruct (Rlt_dec _ _) as [K|K]; [|exfalso; apply K, disk_photon_pos]. destruct (Rle_dec _ 1) as [K'|K']; auto. exfalso. apply K'. apply schwarz; auto. apply spherical_unit; auto. }
    assert (EF' : forall ph mu, -1 <= mu <= 1 -> F (bm ph mu) = F' (bm ph mu)).
    { intros ph mu Hmu. unfold F'. cbn [bm disk_ring b_eps b_dir]. destruct (Rlt_dec _ _) as [K|K]; [|exfalso; apply K, disk_photon_pos]. destruct (Rle_dec _ 1) as [K'|K']; auto. exfalso. apply K'. apply schwarz; auto. apply spherical_unit; auto. }
    rewrite (int_ext (fun v => F (bm phi v)) (fun v => F' (bm phi v)) a b) by (try lra; intros x Hx; apply EF'; lra).
    pose proof (disk_radii P (sd_M_BH t) (sd_L_disk t) md (sd_eta t) (sd_R_in t) (sd_R_out t) r HP Hh Hi Hio F') as DR. fold bm a b in DR. rewrite DR.
    + apply int_ext; [lra|]. intros x Hx. symmetry. apply EF. pose proof (cosine_range r Hh x ltac:(lra)) as Q. unfold cosine in Q. lra.
    + intros c u ep d. unfold F'. cbn [b_eps b_dir]. destruct (Rlt_dec 0 ep); [|ring]. destruct (Rle_dec _ 1); [|ring]. apply scattered_linear; eauto.
    + apply (nice_ext _ _ _ (fun z => F (bm (snd (fst z)) (snd z)))); auto. intros z [_ Hz]. apply EF'. lra.
    + lra.
  - (* a shell *)
    destruct Ht as (HL & Hxi & Hep & HRl & h & Eh & Hh & Hne). assert (h = r) by (destruct Hr as [Hr|(c & Hr)]; congruence). subst h.
    set (q := fun phi mu => spherical (blr_R_line t) mu phi). set (lum := blr_xi t * blr_L_disk t / (4 * PI)).
    assert (Far : forall ph mu, -1 <= mu <= 1 -> Rabs (r - blr_R_line t) <= dist (on_sight_line r 0 1) (q ph mu)) by (intros; apply shell_clear; auto; lra).
    assert (Rp : 0 < Rabs (r - blr_R_line t)) by (apply Rabs_pos_lt; lra).
    set (bm := fun phi mu => shine P lum (blr_epsilon t) (q (phi + PI) mu) (on_sight_line r 0 1)).
    destruct (nice_shine _ (dom2 0 (2 * PI) (-1) 1) near2 near2_narrows P lum (blr_epsilon t) (fun _ => on_sight_line r 0 1) (fun z => q (snd (fst z) + PI) (snd z)) (Rabs (r - blr_R_line t)) (observer ms) HP Rp) as [Nu Nc]; auto.
    { intros z [_ Hz]. apply Far; auto. }
    { apply nice_spherical; [apply near2_narrows|apply nice_last; lra|apply (nice_plus _ _ _ near2_narrows); [apply (nice_first _ _ _ _ _ snd), nice_last; lra|apply nice_const]]. }
    destruct (good_beams (dom2 0 (2 * PI) (-1) 1) near2 (fun z => bm (snd (fst z)) (snd z)) (blr_epsilon t)) as [Nf U]; auto; try apply near2_narrows.
    { apply (nice_const _ _ _ (blr_epsilon t)). } { intros z _. cbn [bm shine b_eps]. lra. } { intros z _. apply shine_dir; auto. }
    destruct (field2 Fn F bm 0 (2 * PI) (-1) 1 H2 H1 Nf U e He) as [N HN]. exists N. intros n nmu nphi A B C.
    match goal with |- Rabs (?x - ?y) <= e => replace y with (RInt (fun u => RInt (fun v => F (bm u v)) (-1) 1) 0 (2 * PI)) end; [apply (HN n nphi nmu); auto|].
    unfold whole_shell. fold lum. apply (half_turn (fun phi => RInt (fun mu => F (shine P lum (blr_epsilon t) (spherical (blr_R_line t) mu phi) (on_sight_line r 0 1))) (-1) 1)).
    + intros x. apply (@RInt_ext R_CompleteNormedModule). intros y _. rewrite spherical_turn. reflexivity.
    + refine (slice_integrable unit dom0 near0 near0_narrows 0 (2 * PI) H2 (fun z => RInt (fun mu => F (bm (snd z) mu)) (-1) 1) _ tt Logic.I). apply (nice_integral _ (dom1 0 (2 * PI)) near1 near1_narrows (-1) 1 H1 _ Nf).
  - (* a ring *)
    destruct Ht as (HL & Hxi & Hep & h & Eh & Hh). assert (h = r) by (destruct Hr as [Hr|(c & Hr)]; congruence). subst h. specialize (HR t eq_refl).
    set (lum := dt_xi t * dt_L_disk t / (2 * PI)). set (bm := fun phi => shine P lum (dt_epsilon t) (spherical (dt_R t) 0 (phi + PI)) (on_sight_line r 0 1)).
    destruct (nice_shine _ (dom1 0 (2 * PI)) near1 near1_narrows P lum (dt_epsilon t) (fun _ => on_sight_line r 0 1) (fun z => spherical (dt_R t) 0 (snd z + PI)) r (observer ms) HP Hh) as [Nu Nc]; auto.
    { intros z _. apply ring_far; auto. unfold on_sight_line. cbn [pz]. lra. }
    { apply nice_spherical; [apply near1_narrows|apply nice_const|apply (nice_plus _ _ _ near1_narrows); [apply nice_last; lra|apply nice_const]]. }
    destruct (good_beams (dom1 0 (2 * PI)) near1 (fun z => bm (snd z)) (dt_epsilon t)) as [Nf U]; auto; try apply near1_narrows.
    { apply (nice_const _ _ _ (dt_epsilon t)). } { intros z _. cbn [bm shine b_eps]. lra. } { intros z _. apply shine_dir; auto. }
    destruct (field1 Fn F bm 0 (2 * PI) H2 Nf U e He) as [N HN]. exists N. intros n nmu nphi A B C.
    match goal with |- Rabs (?x - ?y) <= e => replace y with (RInt (fun u => F (bm u)) 0 (2 * PI)) end; [apply (HN n nphi); auto|].
    unfold whole_ring. fold lum. apply (half_turn (fun phi => F (shine P lum (dt_epsilon t) (spherical (dt_R t) 0 phi) (on_sight_line r 0 1)))).
    + intros x. rewrite spherical_turn. reflexivity.
    + apply (slice_integrable unit dom0 near0 near0_narrows 0 (2 * PI) H2 (fun z => F (bm (snd z))) Nf tt Logic.I).
Qed.
End Targets.

(** an ExternalCompton object with [n] Lorentz factors, after set_mu(nmu) and set_phi(nphi) *)
Definition regridded (n k nmu nphi : nat) (e : ec) : ec :=
  {| ec_blob := set_sizes n k (ec_blob e); ec_target := ec_target e; ec_r := ec_r e; ec_integ := ec_integ e; ec_mu_size := nmu; ec_phi_size := nphi |}.
Theorem C104_external_compton : forall P e r ms nu tol, phys_ok P -> ec_ok e -> (forall t, ec_target e = TDustTorus t -> 0 <= dt_R t) -> ec_integ e = trapz ->
  mu_s (ec_blob e) = Ok ms -> (ec_r e = Some r \/ exists t, ec_target e = TCMB t) ->
  0 < gamma_min (n_e (ec_blob e)) -> gamma_min (n_e (ec_blob e)) < gamma_max (n_e (ec_blob e)) -> continuous_within (n_e (ec_blob e)) -> 0 < nu -> 0 < tol ->
  let b := ec_blob e in
  let es := c_h P * nu * (1 + redshift b) / (c_me P * c_c P ^ 2) in
  exists N, forall n k nmu nphi, (N <= n)%nat -> (N <= nmu)%nat -> (N <= nphi)%nat ->
  exists v, ec_sed_flux P (regridded n k nmu nphi e) (nu :: nil) = Ok (Some (v :: nil)) /\
    Rabs (v - whole_field P (ec_target e) r (scattered_integral P (d_L b) (delta_D b) ms es (fun g => population b (n_e b) (g / delta_D b)) 10 (10 ^ 9))) <= tol.
Proof.
  intros P e r ms nu tol HP Hok Hdt Hi Hms Hr Hgm Hgg Hc Hnu Htol b es. pose proof Hok as (Hz & Hdl & Hdd & Hrb & Hd & (ms' & Hms' & Hmr) & Ho & Ht). fold b in Hz, Hdl, Hdd, Hrb, Hms, Hgm, Hgg, Hc. assert (ms' = ms) by (fold b in Hms'; congruence). subst ms'.
  assert (Hes : 0 < es) by (unfold es; pose proof HP as []; pos).
  destruct (target_limit P (n_e b) (d_L b) (delta_D b) es (4 / 3 * PI * R_b b ^ 3) ms HP Hdd Hgm Hgg Hc Hes Hmr (ec_target e) r (ec_r e) tol Ht Hr Hdt Htol) as [N HN].
  exists N. intros n k nmu nphi A B C. eexists. split; [|apply (HN n nmu nphi A B C)].
  rewrite (C74_superposition P (regridded n k nmu nphi e) (nu :: nil) r ms); auto; [|intros x [<-|[]]; auto].
  cbn [map regridded ec_blob ec_target ec_mu_size ec_phi_size]. fold b. cbn [set_sizes gamma_e_size R_b n_e delta_D d_L redshift]. rewrite external_grid. reflexivity.
Qed.
Print Assumptions C104_external_compton.
(** a blob above a disk, and one above a dust torus *)
Definition over_disk : ec :=
  {| ec_blob := ec_blob ex_ec; ec_target := TDisk {| sd_M_BH := 2 * 10 ^ 42; sd_L_disk := 2 * 10 ^ 46; sd_eta := 1 / 12; sd_R_in := 10 ^ 15; sd_R_out := 3 * 10 ^ 16;
       sd_R_in_tilde := 6; sd_R_out_tilde := 180; sd_L_Edd := 1.26e47; sd_l_Edd := 0.16; sd_m_dot := 2.7e26; sd_R_g := 1.5e14 |};
     ec_r := Some (10 ^ 17); ec_integ := trapz; ec_mu_size := 100; ec_phi_size := 50 |}.
Example C104_case : (exists N, forall n k nmu nphi, (N <= n)%nat -> (N <= nmu)%nat -> (N <= nphi)%nat ->
    exists v, ec_sed_flux codata (regridded n k nmu nphi ex_ec) (10 ^ 22 :: nil) = Ok (Some (v :: nil)) /\
      Rabs (v - whole_field codata (ec_target ex_ec) 1e18 (scattered_integral codata 1e28 1 (1 / 2) (c_h codata * 10 ^ 22 * (1 + 1) / (c_me codata * c_c codata ^ 2)) (fun g => population (ec_blob ex_ec) (PowerLaw 1 2 10 100) (g / 1)) 10 (10 ^ 9))) <= 1e-20) /\
  exists N, forall n k nmu nphi, (N <= n)%nat -> (N <= nmu)%nat -> (N <= nphi)%nat ->
    exists v, ec_sed_flux codata (regridded n k nmu nphi over_disk) (10 ^ 22 :: nil) = Ok (Some (v :: nil)) /\
      Rabs (v - whole_field codata (ec_target over_disk) (10 ^ 17) (scattered_integral codata 1e28 1 (1 / 2) (c_h codata * 10 ^ 22 * (1 + 1) / (c_me codata * c_c codata ^ 2)) (fun g => population (ec_blob ex_ec) (PowerLaw 1 2 10 100) (g / 1)) 10 (10 ^ 9))) <= 1e-20.
Proof.
  destruct C48_case as (H1 & H2 & H3 & H4 & H5 & (m & Hm & Hmr) & H7 & H8).
  assert (Em : mu_s (ec_blob ex_ec) = Ok (1 / 2)). { unfold ex_ec. cbn [ec_blob]. rewrite mu_s_ok by (cbn [Gamma delta_D]; lra). cbn [Gamma delta_D]. f_equal. replace (1 - / (5 / 3) ^ 2) with ((4 / 5) ^ 2) by lra. rewrite sqrt_pow2 by lra. lra. }
  assert (Hc : continuous_within (PowerLaw 1 2 10 100)) by (apply (proj1 C97_distributions (ShPL 2) 1 10 100); [lra|exact Logic.I]).
  split.
  - apply (C104_external_compton codata ex_ec 1e18 (1 / 2) (10 ^ 22) 1e-20); auto; [apply codata_ok|exact C48_case| | | | |]; try (unfold ex_ec; cbn [ec_blob n_e gamma_min gamma_max]; lra); try lra. intros t Et. unfold ex_ec in Et. cbn [ec_target] in Et. injection Et as <-. cbn [dt_R]. lra.
  - apply (C104_external_compton codata over_disk (10 ^ 17) (1 / 2) (10 ^ 22) 1e-20); auto; [apply codata_ok| | | | | |]; try (unfold over_disk, ex_ec; cbn [ec_blob n_e gamma_min gamma_max]; lra); try lra.
    + refine (conj H1 (conj H2 (conj H3 (conj H4 (conj H5 (conj _ (conj _ _))))))). { exists (1 / 2). split; [exact Em|lra]. } { left. reflexivity. } unfold over_disk. cbn [ec_target ec_r target_ok sd_L_disk sd_M_BH sd_eta sd_R_in sd_R_out]. repeat (split; [lra|]). exists (10 ^ 17). split; [reflexivity|lra].
    + intros t Et. discriminate.
Qed.
