(** C76: the static formula of the point source at a fixed angle *)
From Verif Require Import Base TEUtils ListFacts NumpyInst MathUtils Conversion Spectra Blob Synchrotron Geometry Targets Absorption Spec_Math Spec_Spectra Spec_Blob Spec_Rad Spec_Geom Spec_Beams Props_Opacity.
From Coq Require Import Lra List.
From Coquelicot Require Import Coquelicot.
Import ListNotations.
Open Scope list_scope.
Open Scope R_scope.

Lemma inv_sq_RInt k r M : 0 < r -> r < M -> is_RInt (fun l => k / l ^ 2) r M (k * (/ r - / M)).
Proof.
  intros Hr HM. replace (k * (/ r - / M)) with (minus (- (k / M)) (- (k / r))) by (unfold minus, plus, opp; simpl; unfold Rdiv; ring).
  apply (is_RInt_derive (fun l => - (k / l))).
  - intros x. rewrite Rmin_left, Rmax_right by lra. intros Hx. auto_derive; [lra|]. field. lra.
  - intros x. rewrite Rmin_left, Rmax_right by lra. intros Hx. apply (ex_derive_continuous (fun l => k / l ^ 2)). auto_derive. simpl. nra.
Qed.
Lemma lim_inv k r : 0 < r -> is_lim (fun M => k * (/ r - / M)) p_infty (k / r).
Proof.
  intros Hr. replace (Finite (k / r)) with (Rbar_mult k (Rbar_minus (/ r) 0)) by (simpl; f_equal; field; lra).
  apply is_lim_scal_l. apply is_lim_minus'; [apply is_lim_const|]. apply (is_lim_inv (fun x => x) p_infty p_infty); [apply is_lim_id|discriminate].
Qed.

(** evaluate_tau_ps_behind_blob at any angle: the gamma ray runs up the axis
    from r to infinity and meets at each height l the light of the point source
    at the origin, but under the angle given by mu_s *)
Theorem C76_point_source_fixed_angle : forall P nu z mu_s e0 L0 r i n, phys_ok P -> 0 < r -> e0 <> 0 -> nth_error nu i = Some n ->
  exists t, nth_error (tau_ps_behind_blob P nu z mu_s e0 L0 r) i = Some t /\
    let field l := absorbed P mu_s (c_h P * n * (1 + z) / (c_me P * c_c P ^ 2)) (shine P L0 e0 (spherical 0 0 0) (spherical l 1 0)) in
    (forall M, r < M -> ex_RInt field r M) /\ is_lim (fun M => RInt field r M) p_infty t.
Proof.
  intros P nu z mu_s e0 L0 r i n HP Hr He Hn. unfold tau_ps_behind_blob. rewrite nth_error_map, Hn. cbn [option_map]. eexists. split; [reflexivity|]. cbv zeta. pose proof HP as []. pose proof PI_RGT_0.
  rewrite eps_1_eq by auto. set (e1 := c_h P * n * (1 + z) / (c_me P * c_c P ^ 2)). set (sg := sigma P (e0 * e1 * (1 - mu_s) / 2)).
  set (k := L0 / (4 * PI * e0 * c_me P * c_c P ^ 3) * ((1 - mu_s) * sg)).
  set (field := fun l : R => absorbed P mu_s e1 (shine P L0 e0 (spherical 0 0 0) (spherical l 1 0))).
  assert (F : forall l, 0 < l -> field l = k / l ^ 2).
  { intros l Hl. assert (S1 : sqrt (1 - 1 ^ 2) = 0) by (replace (1 - 1 ^ 2) with 0 by ring; apply sqrt_0).
    assert (D : Spec_Geom.dist (spherical l 1 0) (spherical 0 0 0) = l).
    { unfold Spec_Geom.dist, dot, Spec_Geom.minus, spherical. cbn [px py pz]. rewrite S1. match goal with |- sqrt ?x = _ => replace x with (l ^ 2) by ring end. apply sqrt_pow2. lra. }
    assert (C : dot (times (/ l) (Spec_Geom.minus (spherical l 1 0) (spherical 0 0 0))) (observer mu_s) = mu_s).
    { unfold dot, times, Spec_Geom.minus, observer, spherical. cbn [px py pz]. rewrite S1. field. lra. }
    unfold field, absorbed, shine. cbv zeta. cbn [b_u b_eps b_dir]. rewrite D, C. unfold k, sg. replace (e1 * e0 * (1 - mu_s) / 2) with (e0 * e1 * (1 - mu_s) / 2) by (unfold Rdiv; ring). field. repeat split; lra. }
  assert (I : forall M, r < M -> is_RInt field r M (k * (/ r - / M))).
  { intros M HM. apply is_RInt_ext with (fun l => k / l ^ 2); [|apply inv_sq_RInt; auto]. intros l. rewrite Rmin_left by lra. intros Hl. symmetry. apply F. lra. }
  split. { intros M HM. eexists. apply I. auto. }
  replace (L0 / (4 * PI * e0 * c_me P * c_c P ^ 3) * ((1 - mu_s) * sg / r)) with (k / r) by (unfold k, Rdiv; ring).
  apply is_lim_ext_loc with (fun M => k * (/ r - / M)); [|apply lim_inv; auto]. exists r. intros M HM. symmetry. apply is_RInt_unique. apply I. auto.
Qed.
Print Assumptions C76_point_source_fixed_angle.
(** the formula is not trivially zero: at right angles, well above the threshold *)
Example C76_fixed_angle_case : phys_ok codata /\ 0 < 1e17 /\ 1e-5 <> 0 /\ nth_error (1e27 :: nil) 0 = Some 1e27 /\
  exists s, tau_ps_behind_blob codata (1e27 :: nil) 0 0 1e-5 1e46 1e17 = (1e46 / (4 * PI * 1e-5 * c_me codata * c_c codata ^ 3) * ((1 - 0) * sigma codata s / 1e17) :: nil) /\ 1 < s.
Proof.
  split; [exact codata_ok|]. split; [lra|]. split; [lra|]. split; [reflexivity|]. eexists. split; [reflexivity|].
  rewrite eps_1_eq by exact codata_ok. unfold codata. cbn [c_h c_me c_c]. lra.
Qed.
