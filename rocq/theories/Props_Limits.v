(** C103: the opacities computed on the grids of set_mu, set_phi and set_l tend
    to the integral over the emitting surface and along the photon path *)
From Verif Require Import Base TEUtils ListFacts NumpyInst MathUtils Conversion Spectra Blob Synchrotron Geometry Targets Absorption Spec_Math Spec_Spectra Spec_Blob Spec_Rad Spec_Geom Spec_Beams Spec_Emission MathFacts SpectraFacts SpectraFacts2 BlobFacts SynchFacts SynchFacts2 Props_Synch Props_Geometry TargetFacts Props_Targets Props_EC Props_Beams AbsorptionFacts Props_Absorption Props_Opacity Props_Refine TensorGrid Spec_Opacity.
From Coquelicot Require Import Coquelicot.
From Coq Require Import String List Lra Lia.
Import ListNotations.
Open Scope list_scope.
Open Scope R_scope.

(** ** the grids *)
Lemma INR_above x : exists N, x < INR N.
Proof.
  destruct (Rle_dec 0 x) as [H|H]; [|exists 0%nat; simpl; lra]. destruct (nfloor_ex x H) as [N HN]. exists (S N). rewrite S_INR. lra.
Qed.
Lemma fine_linspace a b d : a < b -> 0 < d -> exists N, forall n, (N <= n)%nat -> fine a b d (linspace a b n).
Proof.
  intros Hab Hd. destruct (INR_above ((b - a) / d)) as [N HN]. exists (N + 2)%nat. intros n Hn.
  assert (Hm : INR N <= INR (n - 1)) by (apply le_INR; lia). assert (Hp : 0 < INR (n - 1)) by (apply lt_0_INR; lia).
  assert (Hw : 0 < (b - a) / INR (n - 1) < d). { split; [apply Rdiv_lt_0_compat; lra|]. apply Rmult_lt_reg_r with (INR (n - 1)); auto. unfold Rdiv. rewrite Rmult_assoc, Rinv_l, Rmult_1_r by lra. assert ((b - a) / d < INR (n - 1)) by lra. apply Rmult_lt_compat_r with (r := d) in H; auto. unfold Rdiv in H. rewrite Rmult_assoc, Rinv_l in H by lra. lra. }
  split; [rewrite linspace_nth by lia; f_equal; simpl INR; ring|]. split; [rewrite linspace_length, linspace_nth by lia; f_equal; field; lra|].
  intros i u v Hu Hv. assert (Hi : (S i < n)%nat) by (rewrite <- (linspace_length a b n); apply nth_error_Some; congruence). rewrite linspace_nth in Hu, Hv by lia. apply some_inj in Hu. apply some_inj in Hv. subst u v.
  set (w := (b - a) / INR (n - 1)) in *. assert (Hb : INR (n - 1) * w = b - a) by (unfold w; field; lra). assert (INR (S i) <= INR (n - 1)) by (apply le_INR; lia). pose proof (pos_INR i). rewrite S_INR in *. repeat split; nra.
Qed.
Lemma fine_log a b d : 0 < a -> a < b -> 0 < d -> exists N, forall n, (N <= n)%nat -> fine a b d (log_grid a b n).
Proof.
  intros Ha Hab Hd. set (M := b * (b / a) * ln (b / a)). destruct (INR_above (M / d)) as [N HN]. exists (N + 2)%nat. intros [|[|n]] Hn; try lia.
  destruct (grid_ends a b n Ha Hab) as (E1 & E2). split; auto. split; auto. intros i u v Hu Hv. destruct (grid_mesh a b n i u v Ha Hab Hu Hv) as (Iu & Iv & Huv & Hm). repeat split; try lra.
  eapply Rle_lt_trans; [exact Hm|]. fold M. assert (Hp : 0 < INR (S n)) by (apply lt_0_INR; lia). assert (INR N <= INR (S n)) by (apply le_INR; lia). apply Rmult_lt_reg_r with (INR (S n)); auto. unfold Rdiv. rewrite Rmult_assoc, Rinv_l, Rmult_1_r by lra.
  assert (K : M / d < INR (S n)) by lra. apply Rmult_lt_compat_r with (r := d) in K; auto. unfold Rdiv in K. rewrite Rmult_assoc, Rinv_l in K by lra. lra.
Qed.
Lemma log10_pow n : log10 (10 ^ n) = INR n.
Proof. unfold log10. rewrite ln_pow by lra. pose proof ln10_pos. field. lra. Qed.
Lemma fine_path_on r d : 0 < r -> 0 < d -> exists N, forall n, (N <= n)%nat -> fine r (10 ^ 5 * r) d (map (fun x => x * r) (np_logspace 0 5 n)).
Proof.
  intros Hr Hd. destruct (fine_log 1 (10 ^ 5) (d / r) ltac:(lra) ltac:(lra) ltac:(apply Rdiv_lt_0_compat; auto)) as [N HN]. exists N. intros n Hn. specialize (HN n Hn). unfold log_grid in HN.
  replace (log10 1) with 0 in HN by (unfold log10; rewrite ln_1; field; apply Rgt_not_eq, ln10_pos). rewrite log10_pow in HN. replace (INR 5) with 5 in HN by (simpl; ring).
  apply (fine_map _ _ _ r) in HN; auto. replace (d / r * r) with d in HN by (field; lra). rewrite Rmult_1_l in HN. exact HN.
Qed.
Lemma fine_path_off r d : 0 < r -> 0 < d -> exists N, forall n, (N <= n)%nat -> fine (r / 10 ^ 5) (10 ^ 5 * r) d (map (fun x => x * r) (np_logspace (- (5)) 5 n)).
Proof.
  intros Hr Hd. destruct (fine_log (/ 10 ^ 5) (10 ^ 5) (d / r) ltac:(lra) ltac:(lra) ltac:(apply Rdiv_lt_0_compat; auto)) as [N HN]. exists N. intros n Hn. specialize (HN n Hn). unfold log_grid in HN.
  replace (log10 (/ 10 ^ 5)) with (- (5)) in HN. 2:{ unfold log10. rewrite ln_Rinv by lra. rewrite ln_pow by lra. pose proof ln10_pos. replace (INR 5) with 5 by (simpl; ring). field. lra. } rewrite log10_pow in HN. replace (INR 5) with 5 in HN by (simpl; ring).
  apply (fine_map _ _ _ r) in HN; auto. replace (d / r * r) with d in HN by (field; lra). replace (/ 10 ^ 5 * r) with (r / 10 ^ 5) in HN by (unfold Rdiv; ring). exact HN.
Qed.

(** ** the integrand *)
Lemma clog_cont t : continuity_pt clog t.
Proof.
  apply continuity_pt_filterlim. unfold clog. apply (continuous_comp (fun x => Rmin (Rmax x ftiny) fmax) ln).
  - apply (continuous_comp (fun x => Rmax x ftiny) (fun y => Rmin y fmax)); [apply cont_max|apply cont_min].
  - apply (ex_derive_continuous ln). auto_derive. apply Rmin_glb_lt; [|pose proof fmax_gt_1; lra]. eapply Rlt_le_trans; [|apply Rmax_r]. apply ftiny_pos.
Qed.

Lemma sigma_cont P t : continuity_pt (sigma P) t.
Proof.
  set (bt := fun s => sqrt (1 - / Rmax s 1)).
  set (h := fun b => 3 / 16 * c_sigmaT P * (1 - b ^ 2) * ((3 - b ^ 4) * clog ((1 + b) / (1 - b)) + - (2) * b * (2 - b ^ 2))).
  assert (Hb : forall s, 0 <= bt s < 1). { intros s. unfold bt. split; [apply sqrt_pos|]. apply Rlt_le_trans with (sqrt 1); [|rewrite sqrt_1; lra]. pose proof (Rmax_r s 1). assert (0 < / Rmax s 1) by (apply Rinv_0_lt_compat; lra). apply sqrt_lt_1_alt. assert (/ Rmax s 1 <= 1) by (rewrite <- Rinv_1 at 2; apply Rinv_le_contravar; lra). lra. }
  assert (E : forall s, sigma P s = h (bt s)).
  { intros s. unfold sigma, bt. destruct (Rltb_spec s 1) as [K|K].
    - rewrite Rmax_right by lra. rewrite Rinv_1, Rminus_eq_0, sqrt_0. unfold h. replace ((1 + 0) / (1 - 0)) with 1 by field. rewrite clog_ln by (split; [pose proof ftiny_lt_1|pose proof fmax_gt_1]; lra). rewrite ln_1. ring.
    - rewrite Rmax_left by lra. replace (1 / s) with (/ s) by (unfold Rdiv; ring). unfold h. cbv zeta. reflexivity. }
  assert (Cb : continuity_pt bt t). { unfold bt. apply (continuity_pt_comp (fun s => 1 - / Rmax s 1) sqrt). { apply continuity_pt_minus; [apply continuity_pt_const; intros x y; reflexivity|]. apply (continuity_pt_inv (fun s => Rmax s 1)); [apply cont_max_r|pose proof (Rmax_r t 1); lra]. } apply continuity_pt_filterlim. apply continuous_sqrt. }
  assert (Ch : continuity_pt h (bt t)).
  { destruct (Hb t) as [B0 B1]. set (b := bt t) in *. unfold h. apply (continuity_pt_mult (fun b => 3 / 16 * c_sigmaT P * (1 - b ^ 2))); [apply continuity_pt_filterlim, (ex_derive_continuous (fun b => 3 / 16 * c_sigmaT P * (1 - b ^ 2))); auto_derive; auto|].
    apply (continuity_pt_plus (fun b => (3 - b ^ 4) * clog ((1 + b) / (1 - b)))); [|apply continuity_pt_filterlim, (ex_derive_continuous (fun b => - (2) * b * (2 - b ^ 2))); auto_derive; auto].
    apply (continuity_pt_mult (fun b => 3 - b ^ 4)); [apply continuity_pt_filterlim, (ex_derive_continuous (fun b => 3 - b ^ 4)); auto_derive; auto|].
    apply (continuity_pt_comp (fun b => (1 + b) / (1 - b)) clog); [|apply clog_cont]. apply continuity_pt_filterlim, (ex_derive_continuous (fun b => (1 + b) / (1 - b))). auto_derive. lra. }
  apply (continuity_pt_ext (fun s => h (bt s))); [intros s; symmetry; apply E|]. apply (continuity_pt_comp bt h); auto.
Qed.

Section Integrand.
Variable X : Type.
Variable D : X -> Prop.
Variable near : R -> X -> X -> Prop.
Hypothesis Hn : narrows near.
Local Notation nc := (nice X D near).
Definition nice_point (p : X -> point) : Prop := nc (fun x => px (p x)) /\ nc (fun x => py (p x)) /\ nc (fun x => pz (p x)).
Lemma nice_pow f n : nc f -> nc (fun x => f x ^ n).
Proof. intros H. induction n as [|n IH]; cbn [pow]; [apply nice_const|]. apply (nice_mult X D near Hn f (fun x => f x ^ n)); auto. Qed.
Lemma nice_absorbed P ms e1 lum eps (p q : X -> point) m : phys_ok P -> 0 < eps -> 0 < m -> (forall x, D x -> m <= dist (p x) (q x)) -> nice_point p -> nice_point q ->
  nc (fun x => absorbed P ms e1 (shine P lum eps (q x) (p x))).
Proof.
  intros HP He Hm Hd (P1 & P2 & P3) (Q1 & Q2 & Q3). pose proof HP as []. pose proof PI_RGT_0.
  pose proof (nice_minus X D near Hn _ _ P1 Q1) as D1. pose proof (nice_minus X D near Hn _ _ P2 Q2) as D2. pose proof (nice_minus X D near Hn _ _ P3 Q3) as D3.
  assert (Hx : nc (fun x => dist (p x) (q x))).
  { apply (nice_ext X D near (fun x => sqrt ((px (p x) - px (q x)) * (px (p x) - px (q x)) + (py (p x) - py (q x)) * (py (p x) - py (q x)) + (pz (p x) - pz (q x)) * (pz (p x) - pz (q x))))); [reflexivity|].
    apply nice_comp; auto. { intros t. apply continuity_pt_filterlim, continuous_sqrt. }
    apply (nice_plus X D near Hn); [apply (nice_plus X D near Hn)|]; apply (nice_mult X D near Hn); auto. }
  pose proof (nice_inv X D near _ m Hm Hd Hx) as Hi.
  assert (Hc : nc (fun x => 1 - dot (times (/ dist (p x) (q x)) (Spec_Geom.minus (p x) (q x))) (observer ms))).
  { apply (nice_minus X D near Hn); [apply nice_const|]. unfold dot, times, Spec_Geom.minus. cbn [px py pz].
    apply (nice_plus X D near Hn); [apply (nice_plus X D near Hn)|]; (apply (nice_mult X D near Hn); [|apply nice_const]); apply (nice_mult X D near Hn); auto. }
  apply (nice_ext X D near (fun x => (1 - dot (times (/ dist (p x) (q x)) (Spec_Geom.minus (p x) (q x))) (observer ms)) * (lum / (4 * PI * c_c P) / (eps * (c_me P * c_c P ^ 2)) * (/ dist (p x) (q x)) ^ 2) * sigma P (e1 * eps / 2 * (1 - dot (times (/ dist (p x) (q x)) (Spec_Geom.minus (p x) (q x))) (observer ms))))).
  { intros x Dx. specialize (Hd x Dx). unfold absorbed, shine. cbv zeta. cbn [b_u b_eps b_dir]. set (d := dist (p x) (q x)) in *. set (c := dot _ _). replace (e1 * eps * (1 - c) / 2) with (e1 * eps / 2 * (1 - c)) by field. set (sg := sigma P _). assert (d <> 0) by lra. field. repeat split; lra. }
  apply (nice_mult X D near Hn); [apply (nice_mult X D near Hn); [exact Hc|]|].
  - apply (nice_mult X D near Hn); [apply nice_const|]. apply nice_pow. exact Hi.
  - apply nice_comp; [apply sigma_cont|]. apply (nice_mult X D near Hn); [apply nice_const|exact Hc].
Qed.
Lemma nice_spherical d (mu phi : X -> R) : nc mu -> nc phi -> nice_point (fun x => spherical d (mu x) (phi x)).
Proof.
  intros Hm Hp. assert (Hs : nc (fun x => sqrt (1 - mu x ^ 2))). { apply (nice_comp X D near sqrt); [intros t; apply continuity_pt_filterlim, continuous_sqrt|]. apply (nice_minus X D near Hn); [apply nice_const|]. apply nice_pow; auto. }
  assert (Hcos : nc (fun x => cos (phi x))) by (apply (nice_comp X D near cos); auto; apply continuity_cos). assert (Hsin : nc (fun x => sin (phi x))) by (apply (nice_comp X D near sin); auto; apply continuity_sin).
  unfold nice_point, spherical. cbn [px py pz]. split; [|split].
  - apply (nice_mult X D near Hn); auto. apply (nice_mult X D near Hn); auto. apply nice_const.
  - apply (nice_mult X D near Hn); auto. apply (nice_mult X D near Hn); auto. apply nice_const.
  - apply (nice_mult X D near Hn); auto. apply nice_const.
Qed.
Lemma nice_sight (r u : X -> R) ms : nc r -> nc u -> nice_point (fun x => on_sight_line (r x) (u x) ms).
Proof.
  intros Hr Hu. unfold nice_point, on_sight_line. cbn [px py pz]. split; [|split].
  - apply (nice_mult X D near Hn); auto. apply nice_const.
  - apply nice_const.
  - apply (nice_plus X D near Hn); auto. apply (nice_mult X D near Hn); auto. apply nice_const.
Qed.
End Integrand.

(** ** distances *)
Lemma ring_far R_ phi p m : 0 < m -> m <= pz p -> m <= dist p (spherical R_ 0 phi).
Proof.
  intros Hm H. unfold dist. replace m with (sqrt (m * m)) by (apply sqrt_square; lra). apply sqrt_le_1_alt. unfold dot, Spec_Geom.minus, spherical. cbn [px py pz]. set (a := px p - _). set (b := py p - _). pose proof (Rle_0_sqr a). pose proof (Rle_0_sqr b). unfold Rsqr in *. replace (pz p - R_ * 0) with (pz p) by ring. nra.
Qed.
Lemma cauchy_schwarz p q : dot p q * dot p q <= dot p p * dot q q.
Proof.
  unfold dot. destruct p as [a b c], q as [x y z]. cbn [px py pz].
  pose proof (Rle_0_sqr (a * y - b * x)). pose proof (Rle_0_sqr (a * z - c * x)). pose proof (Rle_0_sqr (b * z - c * y)). unfold Rsqr in *. lra.
Qed.
Lemma spherical_norm R_ mu phi : -1 <= mu <= 1 -> dot (spherical R_ mu phi) (spherical R_ mu phi) = R_ * R_.
Proof.
  intros H. unfold dot, spherical. cbn [px py pz]. assert (A : 0 <= 1 - mu ^ 2) by nra. pose proof (sqrt_sqrt _ A) as S. pose proof (sin2_cos2 phi) as T. unfold Rsqr in T.
  transitivity (R_ * R_ * (sqrt (1 - mu ^ 2) * sqrt (1 - mu ^ 2)) * (sin phi * sin phi + cos phi * cos phi) + R_ * R_ * mu ^ 2); [ring|]. rewrite S, T. ring.
Qed.
Lemma shell_far R_ mu phi p r : 0 <= R_ -> R_ < r -> -1 <= mu <= 1 -> r * r <= dot p p -> r - R_ <= dist p (spherical R_ mu phi).
Proof.
  intros HR Hr Hmu Hp. set (q := spherical R_ mu phi). pose proof (spherical_norm R_ mu phi Hmu) as Eq. fold q in Eq. pose proof (cauchy_schwarz p q) as CS. rewrite Eq in CS.
  assert (Hpp : 0 <= dot p p) by nra. set (L := sqrt (dot p p)). assert (EL : L * L = dot p p) by (apply sqrt_sqrt; auto). assert (HL0 : 0 <= L) by apply sqrt_pos. assert (HL : r <= L) by (apply Rnot_lt_le; intros K; nra).
  assert (Hd : dot p q <= L * R_). { apply Rnot_lt_le. intros K. rewrite <- EL in CS. assert (0 <= L * R_) by (apply Rmult_le_pos; auto). nra. }
  unfold dist. replace (r - R_) with (sqrt ((r - R_) * (r - R_))) by (apply sqrt_square; lra). apply sqrt_le_1_alt. 
  replace (dot (Spec_Geom.minus p q) (Spec_Geom.minus p q)) with (dot p p + dot q q - 2 * dot p q) by (unfold dot, Spec_Geom.minus; cbn [px py pz]; ring). rewrite Eq, <- EL. nra.
Qed.
Lemma sight_norm r u ms : -1 <= ms <= 1 -> dot (on_sight_line r u ms) (on_sight_line r u ms) = r * r + u * u + 2 * u * r * ms.
Proof.
  intros H. unfold dot, on_sight_line. cbn [px py pz]. assert (A : 0 <= 1 - ms ^ 2) by nra. pose proof (sqrt_sqrt _ A) as S. transitivity (u * u * (sqrt (1 - ms ^ 2) * sqrt (1 - ms ^ 2)) + (r + u * ms) ^ 2); [ring|]. rewrite S. ring.
Qed.
(** on the axis the azimuth does not matter *)
Lemma axis_azimuth P e1 lum eps R_ mu phi l : absorbed P 1 e1 (shine P lum eps (spherical R_ mu (phi + PI)) (on_sight_line l 0 1)) = absorbed P 1 e1 (shine P lum eps (spherical R_ mu phi) (on_sight_line l 0 1)).
Proof.
  assert (Ed : dist (on_sight_line l 0 1) (spherical R_ mu (phi + PI)) = dist (on_sight_line l 0 1) (spherical R_ mu phi)). { unfold dist. f_equal. unfold dot, Spec_Geom.minus, on_sight_line, spherical. cbn [px py pz]. rewrite neg_cos, neg_sin. ring. }
  unfold absorbed, shine. cbv zeta. cbn [b_u b_eps b_dir]. rewrite Ed. set (d := / dist _ _).
  assert (Ec : dot (times d (Spec_Geom.minus (on_sight_line l 0 1) (spherical R_ mu (phi + PI)))) (observer 1) = dot (times d (Spec_Geom.minus (on_sight_line l 0 1) (spherical R_ mu phi))) (observer 1)).
  { assert (O : observer 1 = {| px := 0; py := 0; pz := 1 |}). { unfold observer, spherical. replace (1 - 1 ^ 2) with 0 by ring. rewrite sqrt_0. f_equal; ring. }
    rewrite O. unfold dot, times, Spec_Geom.minus, on_sight_line, spherical. cbn [px py pz]. ring. }
  rewrite Ec. reflexivity.
Qed.

(** ** torus *)
Lemma five r : 0 < r -> r < 10 ^ 5 * r /\ r / 10 ^ 5 < 10 ^ 5 * r /\ 0 < r / 10 ^ 5.
Proof. intros H. repeat split; lra. Qed.
Theorem C103_torus_on_axis : forall P t r z n e, phys_ok P -> 0 <= dt_L_disk t -> 0 <= dt_xi t -> 0 < dt_epsilon t -> 0 <= dt_R t -> 0 < r -> 0 < e ->
  exists N, forall nmu nphi nl, (N <= nphi)%nat -> (N <= nl)%nat ->
  exists v, tau P {| ab_target := TDustTorus t; ab_r := Some r; ab_z := z; ab_mu_s := 1; ab_mu_size := nmu; ab_phi_size := nphi; ab_l_size := nl |} (n :: nil) = Ok (Some (v :: nil)) /\
    Rabs (v - RInt (fun l => whole_ring P (dt_xi t * dt_L_disk t) (dt_epsilon t) (dt_R t) (on_sight_line l 0 1) (absorbed P 1 (gamma_ray P z n))) r (10 ^ 5 * r)) <= e.
Proof.
  intros P t r z n e HP HL Hx He HR Hr He0. pose proof PI_RGT_0. destruct (five r Hr) as (F1 & _ & _).
  set (f := fun l phi => absorbed P 1 (gamma_ray P z n) (shine P (dt_xi t * dt_L_disk t / (2 * PI)) (dt_epsilon t) (spherical (dt_R t) 0 phi) (on_sight_line l 0 1))).
  assert (Nf : nice _ (dom2 r (10 ^ 5 * r) 0 (2 * PI)) near2 (fun x => f (snd (fst x)) (snd x))).
  { unfold f. apply (nice_absorbed _ _ _ near2_narrows P 1 _ _ _ (fun x => on_sight_line (snd (fst x)) 0 1) (fun x => spherical (dt_R t) 0 (snd x)) r); auto.
    - intros [[[] l] phi] [[_ Hl] _]. cbn [fst snd] in *. apply ring_far; auto. unfold on_sight_line. cbn [pz]. lra.
    - apply nice_sight; [apply near2_narrows|apply (nice_first _ _ _ _ _ snd), nice_last; auto|apply nice_const].
    - apply nice_spherical; [apply near2_narrows|apply nice_const|apply nice_last; lra]. }
  destruct (over2 r (10 ^ 5 * r) 0 (2 * PI) F1 ltac:(lra) f Nf e He0) as (d & Hd & K). destruct (fine_path_on r d Hr Hd) as [N1 HN1]. destruct (fine_linspace 0 (2 * PI) d ltac:(lra) Hd) as [N2 HN2]. exists (Nat.max N1 N2). intros nmu nphi nl Hp Hl.
  set (a := Build_absorber _ _ _ _ _ _ _). assert (Hok : absorber_ok a). { unfold absorber_ok, a. cbn [ab_mu_s ab_target ab_r]. repeat (split; [lra|]). eexists. split; [reflexivity|auto]. }
  destruct (C56_supported P a (n :: nil) HP Hok ltac:(exact Logic.I)) as (tv & E & EL & _). { unfold avoids, a. cbn [ab_target ab_r ab_mu_s]. intros Q. lra. }
  destruct tv as [|v [|]]; try discriminate. exists v. split; auto. pose proof (C76_torus_on_axis P a (n :: nil) t r (v :: nil) HP Hok eq_refl HR eq_refl eq_refl E) as V. cbn [map] in V. injection V as ->.
  unfold a. cbn [ab_l_size ab_mu_size ab_phi_size ab_z]. unfold axis_field, ring_field. cbv zeta. fold (gamma_ray P z n). unfold whole_ring. fold f.
  match goal with |- Rabs (?v - _) <= _ => replace v with (over (map (fun x => x * r) (np_logspace 0 5 nl)) (fun l => over (linspace 0 (2 * PI) nphi) (f l))) end.
  2:{ apply over_ext. intros l _. apply over_ext. intros p _. unfold f. symmetry. apply axis_azimuth. }
  apply K; [apply HN1|apply HN2]; lia.
Qed.
Print Assumptions C103_torus_on_axis.
Theorem C103_torus_off_axis : forall P t r z ms n e, phys_ok P -> 0 <= dt_L_disk t -> 0 <= dt_xi t -> 0 < dt_epsilon t -> 0 < r -> 0 <= ms < 1 -> 0 < e ->
  exists N, forall nmu nphi nl, (N <= nphi)%nat -> (N <= nl)%nat ->
  exists v, tau P {| ab_target := TDustTorus t; ab_r := Some r; ab_z := z; ab_mu_s := ms; ab_mu_size := nmu; ab_phi_size := nphi; ab_l_size := nl |} (n :: nil) = Ok (Some (v :: nil)) /\
    Rabs (v - RInt (fun u => whole_ring P (dt_xi t * dt_L_disk t) (dt_epsilon t) (dt_R t) (on_sight_line r u ms) (absorbed P ms (gamma_ray P z n))) (r / 10 ^ 5) (10 ^ 5 * r)) <= e.
Proof.
  intros P t r z ms n e HP HL Hx He Hr Hms He0. pose proof PI_RGT_0. destruct (five r Hr) as (_ & F1 & F2).
  set (f := fun u phi => absorbed P ms (gamma_ray P z n) (shine P (dt_xi t * dt_L_disk t / (2 * PI)) (dt_epsilon t) (spherical (dt_R t) 0 phi) (on_sight_line r u ms))).
  assert (Nf : nice _ (dom2 (r / 10 ^ 5) (10 ^ 5 * r) 0 (2 * PI)) near2 (fun x => f (snd (fst x)) (snd x))).
  { unfold f. apply (nice_absorbed _ _ _ near2_narrows P ms _ _ _ (fun x => on_sight_line r (snd (fst x)) ms) (fun x => spherical (dt_R t) 0 (snd x)) r); auto.
    - intros [[[] u] phi] [[_ Hu] _]. cbn [fst snd] in *. apply ring_far; auto. unfold on_sight_line. cbn [pz]. assert (0 <= u * ms) by (apply Rmult_le_pos; lra). lra.
    - apply nice_sight; [apply near2_narrows|apply nice_const|apply (nice_first _ _ _ _ _ snd), nice_last; auto].
    - apply nice_spherical; [apply near2_narrows|apply nice_const|apply nice_last; lra]. }
  destruct (over2 (r / 10 ^ 5) (10 ^ 5 * r) 0 (2 * PI) F1 ltac:(lra) f Nf e He0) as (d & Hd & K). destruct (fine_path_off r d Hr Hd) as [N1 HN1]. destruct (fine_linspace 0 (2 * PI) d ltac:(lra) Hd) as [N2 HN2]. exists (Nat.max N1 N2). intros nmu nphi nl Hp Hl.
  set (a := Build_absorber _ _ _ _ _ _ _). assert (Hok : absorber_ok a). { unfold absorber_ok, a. cbn [ab_mu_s ab_target ab_r]. repeat (split; [lra|]). eexists. split; [reflexivity|auto]. }
  destruct (C56_supported P a (n :: nil) HP Hok ltac:(exact Logic.I)) as (tv & E & EL & _). { unfold avoids, a. cbn [ab_target ab_r ab_mu_s]. intros _ u Hu _. unfold on_sight_line. cbn [pz]. assert (0 <= u * ms) by (apply Rmult_le_pos; lra). lra. }
  destruct tv as [|v [|]]; try discriminate. exists v. split; auto. pose proof (C76_torus_off_axis P a (n :: nil) t r (v :: nil) HP Hok eq_refl eq_refl ltac:(unfold a; cbn [ab_mu_s]; lra) E) as V. cbn [map] in V. injection V as ->.
  unfold a. cbn [ab_l_size ab_mu_size ab_phi_size ab_z ab_mu_s]. unfold ring_field. fold (gamma_ray P z n). unfold whole_ring. apply (K _ _ (HN1 (2 * nl)%nat ltac:(lia)) (HN2 nphi ltac:(lia))).
Qed.
Print Assumptions C103_torus_off_axis.

(** ** broad line region, blob outside the shell *)
Lemma logspace_one n x : In x (np_logspace 0 5 n) -> 1 <= x.
Proof.
  intros H. apply in_map_iff in H. destruct H as (y & <- & Hy). apply linspace_in in Hy; [|lra]. assert (E : pow10 0 = 1) by (unfold pow10; rewrite Rmult_0_l, exp_0; reflexivity).
  destruct (proj1 Hy) as [K|K]; [apply pow10_lt in K; lra|rewrite <- K; lra].
Qed.
Lemma far_not_nudged Rs l : 1 <= Rs -> Rs * (1 + 1 / 10 ^ 4) + 1 / 10 ^ 8 < l -> nudged Rs l l = l.
Proof. intros HR Hl. unfold nudged. destruct (Rle_dec _ _) as [K|]; auto. exfalso. rewrite Rabs_right in K by lra. lra. Qed.
Theorem C103_blr_on_axis : forall P t r z n e, phys_ok P -> 0 <= blr_L_disk t -> 0 <= blr_xi t -> 0 < blr_epsilon t -> 1 <= blr_R_line t -> blr_R_line t * (1 + 1 / 10 ^ 4) + 1 / 10 ^ 8 < r -> 0 < e ->
  exists N, forall nmu nphi nl, (N <= nmu)%nat -> (N <= nphi)%nat -> (N <= nl)%nat ->
  exists v, tau P {| ab_target := TBLR t; ab_r := Some r; ab_z := z; ab_mu_s := 1; ab_mu_size := nmu; ab_phi_size := nphi; ab_l_size := nl |} (n :: nil) = Ok (Some (v :: nil)) /\
    Rabs (v - RInt (fun l => whole_shell P (blr_xi t * blr_L_disk t) (blr_epsilon t) (blr_R_line t) (on_sight_line l 0 1) (absorbed P 1 (gamma_ray P z n))) r (10 ^ 5 * r)) <= e.
Proof.
  intros P t r z n e HP HL Hx He HR Hrr He0. pose proof PI_RGT_0. assert (Hr : 0 < r) by lra. assert (HrR : blr_R_line t < r) by lra. destruct (five r Hr) as (F1 & _ & _). pose proof HP as [].
  set (f := fun l phi mu => absorbed P 1 (gamma_ray P z n) (shine P (blr_xi t * blr_L_disk t / (4 * PI)) (blr_epsilon t) (spherical (blr_R_line t) mu phi) (on_sight_line l 0 1))).
  assert (Far : forall l phi mu, r <= l -> -1 <= mu <= 1 -> r - blr_R_line t <= dist (on_sight_line l 0 1) (spherical (blr_R_line t) mu phi)).
  { intros l phi mu Hl Hmu. apply shell_far; auto; try lra. rewrite sight_norm by lra. nra. }
  assert (Nf : nice _ (dom3 r (10 ^ 5 * r) 0 (2 * PI) (-1) 1) near3 (fun x => f (snd (fst (fst x))) (snd (fst x)) (snd x))).
  { unfold f. apply (nice_absorbed _ _ _ near3_narrows P 1 _ _ _ (fun x => on_sight_line (snd (fst (fst x))) 0 1) (fun x => spherical (blr_R_line t) (snd x) (snd (fst x))) (r - blr_R_line t)); auto; try lra.
    - intros [[[[] l] phi] mu] [[[_ Hl] _] Hm]. cbn [fst snd] in *. apply Far; lra.
    - apply nice_sight; [apply near3_narrows|apply (nice_first _ _ _ _ _ (fun x => snd (fst x))), (nice_first _ _ _ _ _ snd), nice_last; auto|apply nice_const].
    - apply nice_spherical; [apply near3_narrows|apply nice_last; lra|apply (nice_first _ _ _ _ _ snd), nice_last; lra]. }
  destruct (over3 r (10 ^ 5 * r) 0 (2 * PI) (-1) 1 F1 ltac:(lra) ltac:(lra) f Nf e He0) as (d & Hd & K). destruct (fine_path_on r d Hr Hd) as [N1 HN1]. destruct (fine_linspace 0 (2 * PI) d ltac:(lra) Hd) as [N2 HN2]. destruct (fine_linspace (-1) 1 d ltac:(lra) Hd) as [N3 HN3].
  exists (Nat.max N1 (Nat.max N2 N3)). intros nmu nphi nl Hmu Hp Hl. specialize (HN1 nl ltac:(lia)). specialize (HN2 nphi ltac:(lia)). specialize (HN3 nmu ltac:(lia)).
  set (ls := map (fun x => x * r) (np_logspace 0 5 nl)) in *. assert (Hls : forall l, In l ls -> r <= l). { intros l Hi. apply in_map_iff in Hi. destruct Hi as (x & <- & Hi). apply logspace_one in Hi. nra. }
  assert (Ep : blr_path (blr_R_line t) r nl = ls). { rewrite blr_path_nudged by auto. fold ls. rewrite (map_ext_in _ (fun l => l)); [apply map_id|]. intros l Hi. apply far_not_nudged; auto. specialize (Hls l Hi). lra. }
  exists (over ls (fun l => over (linspace 0 (2 * PI) nphi) (fun phi => over (linspace (-1) 1 nmu) (f l phi)))). split; [|apply (K _ _ _ HN1 HN2 HN3)].
  unfold tau, ab_the_r. cbn [ab_target ab_r ab_mu_s ab_z ab_l_size bind]. destruct (Reqb_spec 1 1) as [_|?]; [|contradiction]. unfold tau_blr. cbv zeta. unfold ab_phi, ab_mu. cbn [ab_phi_size ab_mu_size]. rewrite Ep.
  assert (Pos : forall l m, In l ls -> In m (linspace (-1) 1 nmu) -> 0 < x_re_shell m (blr_R_line t) l). { intros l m Hi Hm. apply linspace_in in Hm; [|lra]. rewrite (C50_shell_distance m (blr_R_line t) l 0) by auto. eapply Rlt_le_trans; [|apply Far; auto]. lra. }
  rewrite existsb_false_intro. 2:{ intros m Hm. apply existsb_false_intro. intros l Hi. apply reqb_pos. auto. }
  cbn [bind map]. do 3 f_equal. rewrite trapz_over, over_scale. apply over_ext. intros l Hi. rewrite trapz_over, over_scale. apply over_ext. intros p _. rewrite trapz_over, over_scale. apply over_ext. intros m Hm. pose proof (Pos l m Hi Hm) as Hx0.
  unfold f. rewrite <- axis_azimuth. apply linspace_in in Hm; [|lra]. unfold absorbed. cbn [shine b_u b_eps b_dir]. cbv zeta. rewrite dir_shell by (auto; lra). rewrite <- C50_shell_distance by auto. rewrite eps_1_eq by auto. unfold gamma_ray. field. repeat split; lra.
Qed.
Print Assumptions C103_blr_on_axis.
Theorem C103_blr_off_axis : forall P t r z ms n e, phys_ok P -> 0 <= blr_L_disk t -> 0 <= blr_xi t -> 0 < blr_epsilon t -> 1 <= blr_R_line t -> blr_R_line t * (1 + 1 / 10 ^ 4) + 1 / 10 ^ 8 < r -> 0 <= ms < 1 -> 0 < e ->
  exists N, forall nmu nphi nl, (N <= nmu)%nat -> (N <= nphi)%nat -> (N <= nl)%nat ->
  exists v, tau P {| ab_target := TBLR t; ab_r := Some r; ab_z := z; ab_mu_s := ms; ab_mu_size := nmu; ab_phi_size := nphi; ab_l_size := nl |} (n :: nil) = Ok (Some (v :: nil)) /\
    Rabs (v - RInt (fun u => whole_shell P (blr_xi t * blr_L_disk t) (blr_epsilon t) (blr_R_line t) (on_sight_line r u ms) (absorbed P ms (gamma_ray P z n))) (r / 10 ^ 5) (10 ^ 5 * r)) <= e.
Proof.
  intros P t r z ms n e HP HL Hx He HR Hrr Hms He0. pose proof PI_RGT_0. assert (Hr : 0 < r) by lra. assert (HrR : blr_R_line t < r) by lra. destruct (five r Hr) as (_ & F1 & F2). pose proof HP as [].
  set (f := fun u phi mu => absorbed P ms (gamma_ray P z n) (shine P (blr_xi t * blr_L_disk t / (4 * PI)) (blr_epsilon t) (spherical (blr_R_line t) mu phi) (on_sight_line r u ms))).
  assert (Far : forall u phi mu, 0 <= u -> -1 <= mu <= 1 -> r - blr_R_line t <= dist (on_sight_line r u ms) (spherical (blr_R_line t) mu phi)).
  { intros u phi mu Hu Hmu. apply shell_far; auto; try lra. rewrite sight_norm by lra. assert (0 <= u * r * ms) by (repeat apply Rmult_le_pos; lra). assert (0 <= u * u) by nra. lra. }
  assert (Nf : nice _ (dom3 (r / 10 ^ 5) (10 ^ 5 * r) 0 (2 * PI) (-1) 1) near3 (fun x => f (snd (fst (fst x))) (snd (fst x)) (snd x))).
  { unfold f. apply (nice_absorbed _ _ _ near3_narrows P ms _ _ _ (fun x => on_sight_line r (snd (fst (fst x))) ms) (fun x => spherical (blr_R_line t) (snd x) (snd (fst x))) (r - blr_R_line t)); auto; try lra.
    - intros [[[[] u] phi] mu] [[[_ Hu] _] Hm]. cbn [fst snd] in *. apply Far; lra.
    - apply nice_sight; [apply near3_narrows|apply nice_const|apply (nice_first _ _ _ _ _ (fun x => snd (fst x))), (nice_first _ _ _ _ _ snd), nice_last; auto].
    - apply nice_spherical; [apply near3_narrows|apply nice_last; lra|apply (nice_first _ _ _ _ _ snd), nice_last; lra]. }
  destruct (over3 (r / 10 ^ 5) (10 ^ 5 * r) 0 (2 * PI) (-1) 1 F1 ltac:(lra) ltac:(lra) f Nf e He0) as (d & Hd & K). destruct (fine_path_off r d Hr Hd) as [N1 HN1]. destruct (fine_linspace 0 (2 * PI) d ltac:(lra) Hd) as [N2 HN2]. destruct (fine_linspace (-1) 1 d ltac:(lra) Hd) as [N3 HN3].
  exists (Nat.max N1 (Nat.max N2 N3)). intros nmu nphi nl Hmu Hp Hl. specialize (HN1 (2 * nl)%nat ltac:(lia)). specialize (HN2 nphi ltac:(lia)). specialize (HN3 nmu ltac:(lia)).
  set (us := map (fun x => x * r) (np_logspace (- (5)) 5 (2 * nl))) in *. assert (Hus : forall u, In u us -> 0 <= u). { intros u Hi. left. exact (path_pos _ _ _ r _ Hr Hi). }
  assert (Ep : blr_path_mu_s (blr_R_line t) r ms (2 * nl) = us).
  { unfold blr_path_mu_s. cbv zeta. fold us. rewrite existsb_false_intro; auto. intros u Hi. specialize (Hus u Hi). unfold isclose_line, min_rel_distance. rewrite (Rabs_right (blr_R_line t)) by lra. destruct (Rleb_spec (Rabs (sqrt (r ^ 2 + u ^ 2 + 2 * u * r * ms) - blr_R_line t)) (1 / 10 ^ 8 + 1 / 10 ^ 4 * blr_R_line t)) as [Q|Q]; auto. exfalso.
    assert (r <= sqrt (r ^ 2 + u ^ 2 + 2 * u * r * ms)). { apply Rle_trans with (sqrt (r * r)); [right; symmetry; apply sqrt_square; lra|]. apply sqrt_le_1_alt. assert (0 <= u * r * ms) by (repeat apply Rmult_le_pos; lra). assert (0 <= u * u) by nra. lra. }
    rewrite Rabs_right in Q by lra. lra. }
  exists (over us (fun u => over (linspace 0 (2 * PI) nphi) (fun phi => over (linspace (-1) 1 nmu) (f u phi)))). split; [|apply (K _ _ _ HN1 HN2 HN3)].
  unfold tau, ab_the_r. cbn [ab_target ab_r ab_mu_s ab_z ab_l_size bind]. destruct (Reqb_spec ms 1) as [?|_]; [lra|]. unfold tau_blr_mu_s. cbv zeta. unfold ab_phi, ab_mu. cbn [ab_phi_size ab_mu_size]. rewrite Ep.
  assert (Pos : forall u p m, In u us -> In m (linspace (-1) 1 nmu) -> 0 < x_re_shell_mu_s (blr_R_line t) r p m u ms). { intros u p m Hi Hm. apply linspace_in in Hm; [|lra]. rewrite C50_shell_mu_s_distance by lra. eapply Rlt_le_trans; [|apply Far; auto]. lra. }
  rewrite existsb_false_intro. 2:{ intros m Hm. apply existsb_false_intro. intros p _. apply existsb_false_intro. intros u Hi. apply reqb_pos. auto. }
  cbn [bind map]. do 3 f_equal. rewrite trapz_over, over_scale. apply over_ext. intros u Hi. rewrite trapz_over, over_scale. apply over_ext. intros p _. rewrite trapz_over, over_scale. apply over_ext. intros m Hm. pose proof (Pos u p m Hi Hm) as Hx0.
  unfold f. apply linspace_in in Hm; [|lra]. pose proof (C50_shell_direction (blr_R_line t) r p m u ms ltac:(lra) Hm Hx0) as D. rewrite C50_shell_mu_s_distance in Hx0 by lra. unfold absorbed. cbn [shine b_u b_eps b_dir]. cbv zeta. rewrite (dir_between _ _ _ _ ms D Hx0), C50_shell_mu_s_distance by lra. rewrite eps_1_eq by auto. unfold gamma_ray. field. repeat split; lra.
Qed.
Print Assumptions C103_blr_off_axis.

(** ** concrete cases *)
Example C103_torus_case : let t := {| dt_L_disk := 2 * 10 ^ 46; dt_xi := 1 / 2; dt_T := 1000; dt_R := 10 ^ 19; dt_epsilon := 27 / 10 ^ 7 * / 6 |} in
  exists N, forall nmu nphi nl, (N <= nphi)%nat -> (N <= nl)%nat ->
  exists v, tau codata {| ab_target := TDustTorus t; ab_r := Some (10 ^ 18); ab_z := 1; ab_mu_s := 4 / 5; ab_mu_size := nmu; ab_phi_size := nphi; ab_l_size := nl |} (10 ^ 28 :: nil) = Ok (Some (v :: nil)) /\
    Rabs (v - RInt (fun u => whole_ring codata (dt_xi t * dt_L_disk t) (dt_epsilon t) (dt_R t) (on_sight_line (10 ^ 18) u (4 / 5)) (absorbed codata (4 / 5) (gamma_ray codata 1 (10 ^ 28)))) (10 ^ 18 / 10 ^ 5) (10 ^ 5 * 10 ^ 18)) <= 1 / 1000.
Proof. intros t. apply C103_torus_off_axis; [apply codata_ok|unfold t; cbn [dt_L_disk dt_xi dt_epsilon]; lra ..]. Qed.
Example C103_blr_case : let t := {| blr_L_disk := 2 * 10 ^ 46; blr_xi := 1 / 40; blr_line := "Lyalpha"; blr_lambda := 1 / 10 ^ 5; blr_epsilon := 2 / 10 ^ 5; blr_R_line := 10 ^ 17 |} in
  exists N, forall nmu nphi nl, (N <= nmu)%nat -> (N <= nphi)%nat -> (N <= nl)%nat ->
  exists v, tau codata {| ab_target := TBLR t; ab_r := Some (2 * 10 ^ 17); ab_z := 1; ab_mu_s := 1; ab_mu_size := nmu; ab_phi_size := nphi; ab_l_size := nl |} (10 ^ 26 :: nil) = Ok (Some (v :: nil)) /\
    Rabs (v - RInt (fun l => whole_shell codata (blr_xi t * blr_L_disk t) (blr_epsilon t) (blr_R_line t) (on_sight_line l 0 1) (absorbed codata 1 (gamma_ray codata 1 (10 ^ 26)))) (2 * 10 ^ 17) (10 ^ 5 * (2 * 10 ^ 17))) <= 1 / 1000.
Proof. intros t. apply C103_blr_on_axis; [apply codata_ok|unfold t; cbn [blr_L_disk blr_xi blr_epsilon blr_R_line]; lra ..]. Qed.
