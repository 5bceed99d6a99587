(** Property C88: the scattering kernel of the external Compton SEDs against the
    Klein-Nishina cross section. *)
From Coq Require Import Reals Lra Lia.
From Verif Require Import Base TEUtils ListFacts NumpyInst MathUtils Conversion Spectra Blob Synchrotron Geometry Targets Kernels Spec_Math Spec_Geom Spec_Spectra Spec_Blob Spec_Rad Spec_Beams MathFacts SpectraFacts BlobFacts Calculus AbsorptionFacts TargetFacts ExternalCompton Props_Geometry Props_Targets Props_Compton Props_EC Props_Beams Props_Opacity Props_SynchPower.
From Coquelicot Require Import Coquelicot.
From Coq Require Import List.
Import ListNotations.
Open Scope list_scope.
Open Scope R_scope.

(** ** specification *)
(** Klein-Nishina: a photon of energy e (in units of m_e c^2) hits an electron at
    rest and is scattered by the angle arccos ct; energy of the scattered photon
    and cross section per unit solid angle *)
Definition recoiled (e ct : R) : R := e / (1 + e * (1 - ct)).
Definition kn_solid_angle (P : phys) (e ct : R) : R :=
  let e' := recoiled e ct in 3 * c_sigmaT P / (16 * PI) * (e' / e) ^ 2 * (e / e' + e' / e - (1 - ct ^ 2)).
(** total cross section (Rybicki & Lightman 7.5) *)
Definition klein_nishina (P : phys) (x : R) : R :=
  3 / 4 * c_sigmaT P * ((1 + x) / x ^ 3 * (2 * x * (1 + x) / (1 + 2 * x) - ln (1 + 2 * x)) + ln (1 + 2 * x) / (2 * x) - (1 + 3 * x) / (1 + 2 * x) ^ 2).

(** ** the kernel at the energy that belongs to a scattering angle *)
Theorem C88_angle : forall gamma epsilon mu_s mu phi ct, 0 < gamma -> 0 < epsilon -> cos_psi mu_s mu phi < 1 -> -1 <= ct < 1 ->
  let e := gamma * epsilon * (1 - cos_psi mu_s mu phi) in
  let es := gamma * recoiled e ct * (1 - ct) in
  compton_kernel gamma es epsilon mu_s mu phi = e / recoiled e ct + recoiled e ct / e - (1 - ct ^ 2).
Proof.
  intros g ep ms mu phi ct Hg Hep Hc Hct e es. assert (He : 0 < e) by (unfold e; apply Rmult_lt_0_compat; [apply Rmult_lt_0_compat; auto|lra]).
  assert (Hd : 0 < 1 + e * (1 - ct)). { assert (0 < e * (1 - ct)) by (apply Rmult_lt_0_compat; lra). lra. }
  assert (Hr : 0 < recoiled e ct) by (apply Rdiv_lt_0_compat; auto). assert (Hes : 0 < es) by (unfold es; apply Rmult_lt_0_compat; [apply Rmult_lt_0_compat; auto|lra]).
  destruct (C45_kernel g es ep ms mu phi Hg Hes Hep ltac:(lra)) as (_ & K & _). fold e in K.
  assert (S : es <= 2 * g * e / (1 + 2 * e)). { unfold es, recoiled. replace (2 * g * e / (1 + 2 * e)) with (g * e * (2 / (1 + 2 * e))) by (field; lra). replace (g * (e / (1 + e * (1 - ct))) * (1 - ct)) with (g * e * ((1 - ct) / (1 + e * (1 - ct)))) by (field; lra).
    apply Rmult_le_compat_l. { apply Rmult_le_pos; lra. } apply (proj2 (Rle_div_l (1 - ct) (2 / (1 + 2 * e)) _ Hd)). replace (2 / (1 + 2 * e) * (1 + e * (1 - ct))) with ((2 + 2 * e * (1 - ct)) / (1 + 2 * e)) by (field; lra). apply (proj1 (Rle_div_r (1 - ct) (2 + 2 * e * (1 - ct)) (1 + 2 * e) ltac:(lra))). nra. }
  apply K in S. revert S. unfold compton_kernel. cbv zeta. fold e. destruct (get_gamma_min es ep ms mu phi) as [gm|]; [|congruence]. destruct (Rleb gm g); [|congruence]. intros _.
  unfold es, recoiled. field. repeat split; try lra.
Qed.
Print Assumptions C88_angle.

(** ** integrals over the scattered energy *)
Section Scatter.
Variables (sT g e : R).
Hypothesis Hg : 0 < g.
Hypothesis He : 0 < e.
Definition dsig (es : R) : R := 3 / 8 * sT / (g * e) * ((1 - es / g) + 1 / (1 - es / g) - 2 * es / (g * e * (1 - es / g)) + (es / (g * e * (1 - es / g))) ^ 2).
Definition top : R := 2 * g * e / (1 + 2 * e).
Lemma top_range : 0 < top < g.
Proof.
  unfold top. split. { pos. } apply (proj2 (Rlt_div_l (2 * g * e) g (1 + 2 * e) ltac:(lra))). nra.
Qed.
(** energy for 1 - ct = t *)
Definition at_angle (t : R) : R := g * e * t / (1 + e * t).
Lemma at_angle_top : at_angle 0 = 0 /\ at_angle 2 = top.
Proof. unfold at_angle, top. split; field; lra. Qed.
Definition shape (t : R) : R := let y := / (1 + e * t) in y ^ 3 + y - y ^ 2 * (2 * t - t ^ 2).
Lemma dsig_cont es : es < g -> continuous dsig es.
Proof.
  intros H. apply (ex_derive_continuous dsig). unfold dsig. assert (0 < 1 - es / g). { assert (es / g < 1) by (apply (proj2 (Rlt_div_l es 1 g Hg)); lra). lra. }
  assert (0 < g * e * (1 - es / g)) by pos. auto_derive. repeat split; lra.
Qed.
Lemma at_angle_range t : 0 <= t <= 2 -> 0 <= at_angle t <= top.
Proof.
  intros H. unfold at_angle, top. assert (0 <= e * t) by (apply Rmult_le_pos; lra). split. { apply Rmult_le_pos. { apply Rmult_le_pos; [|lra]. apply Rmult_le_pos; lra. } left. apply Rinv_0_lt_compat. lra. }
  apply (proj2 (Rle_div_l (g * e * t) _ (1 + e * t) ltac:(lra))). replace (2 * g * e / (1 + 2 * e) * (1 + e * t)) with (g * e * (2 * (1 + e * t) / (1 + 2 * e))) by (field; lra). apply Rmult_le_compat_l; [apply Rmult_le_pos; lra|].
  apply (proj1 (Rle_div_r t (2 * (1 + e * t)) (1 + 2 * e) ltac:(lra))). nra.
Qed.
(** change of variable *)
Lemma subst_int (w : R -> R) : (forall x, continuous w x) -> is_RInt (fun t => 3 / 8 * sT * (w (at_angle t) * shape t)) 0 2 (RInt (fun es => w es * dsig es) 0 top).
Proof.
  intros Hw. destruct at_angle_top as [E0 E2]. rewrite <- E0 at 2. rewrite <- E2.
  eapply is_RInt_ext; [|apply (is_RInt_comp (fun es => w es * dsig es) at_angle (fun t => g * e / (1 + e * t) ^ 2))].
  - intros t Ht. rewrite Rmin_left, Rmax_right in Ht by lra. assert (0 < 1 + e * t) by nra. unfold scal; simpl; unfold mult; simpl. unfold dsig, at_angle, shape. cbv zeta. set (W := w _). field. repeat split; try lra.
  - intros t Ht. rewrite Rmin_left, Rmax_right in Ht by lra. apply (continuous_mult w dsig); auto. apply dsig_cont. pose proof (at_angle_range t Ht). pose proof top_range. lra.
  - intros t Ht. rewrite Rmin_left, Rmax_right in Ht by lra. assert (0 < 1 + e * t) by nra. split.
    + unfold at_angle. auto_derive; [lra|]. field. lra.
    + apply (ex_derive_continuous (fun t => g * e / (1 + e * t) ^ 2)). auto_derive. assert (0 < (1 + e * t) * ((1 + e * t) * 1)) by (rewrite Rmult_1_r; apply Rmult_lt_0_compat; lra). lra.
Qed.
Lemma w_ex (w : R -> R) : (forall x, continuous w x) -> is_RInt (fun es => w es * dsig es) 0 top (RInt (fun es => w es * dsig es) 0 top).
Proof.
  intros Hw. apply (@RInt_correct R_CompleteNormedModule). apply (@ex_RInt_continuous R_CompleteNormedModule). intros x Hx. pose proof top_range. rewrite Rmin_left, Rmax_right in Hx by lra. apply (continuous_mult w dsig); auto. apply dsig_cont. lra.
Qed.
(** the closed form *)
Lemma total_int : is_RInt dsig 0 top (3 / 4 * sT * ((1 + e) / e ^ 3 * (2 * e * (1 + e) / (1 + 2 * e) - ln (1 + 2 * e)) + ln (1 + 2 * e) / (2 * e) - (1 + 3 * e) / (1 + 2 * e) ^ 2)).
Proof.
  pose proof top_range as Ht.
  set (A := fun es => - (3 / 8 * sT / e) * (let y := 1 - es / g in y ^ 2 / 2 + ln y - 2 / e * (ln y - y) + / e ^ 2 * (- / y - 2 * ln y + y))).
  assert (I : is_RInt dsig 0 top (minus (A top) (A 0))).
  { apply (is_RInt_derive A dsig).
    - intros x Hx. rewrite Rmin_left, Rmax_right in Hx by lra. assert (0 < 1 - x / g). { assert (x / g < 1) by (apply (proj2 (Rlt_div_l x 1 g Hg)); lra). lra. } unfold A, dsig. cbv zeta. auto_derive; [repeat split; lra|]. assert (g - x <> 0). { intros Q. assert (x / g = 1) by (replace x with g by lra; field; lra). lra. } field. repeat split; lra.
    - intros x Hx. rewrite Rmin_left, Rmax_right in Hx by lra. apply dsig_cont. lra. }
  assert (ET : 1 - top / g = / (1 + 2 * e)) by (unfold top; field; lra). assert (E0 : 1 - 0 / g = 1) by (field; lra).
  evar_last; [exact I|]. unfold minus, plus, opp; simpl. unfold A. cbv zeta. rewrite ET, E0, ln_Rinv, ln_1 by lra. set (L := ln (1 + 2 * e)). field. repeat split; lra.
Qed.
(** bounds of the cross section in the rest frame *)
Lemma shape_bounds t : 0 <= t <= 2 -> (1 - 2 * e * t) * (2 - 2 * t + t ^ 2) <= shape t <= 2 - 2 * t + t ^ 2.
Proof.
  intros H. unfold shape. cbv zeta. assert (Het : 0 <= e * t) by (apply Rmult_le_pos; lra). set (y := / (1 + e * t)). assert (Ey : y * (1 + e * t) = 1) by (unfold y; field; lra).
  assert (Hy : 0 < y <= 1). { split; [apply Rinv_0_lt_compat; lra|]. rewrite <- Rinv_1. apply Rinv_le_contravar; lra. }
  assert (H1 : 1 - y <= e * t). { assert (0 <= (1 - y) * (e * t)) by (apply Rmult_le_pos; lra). lra. } set (s2 := 2 * t - t ^ 2). assert (Hs : 0 <= s2 <= 1) by (unfold s2; pose proof (pow2_ge_0 (t - 1)); assert (0 <= t * (2 - t)) by (apply Rmult_le_pos; lra); split; lra). replace (2 - 2 * t + t ^ 2) with (2 - s2) by (unfold s2; ring).
  assert (D : (2 - s2) - (y ^ 3 + y - y ^ 2 * s2) = (1 - y) * ((1 + y + y ^ 2) + 1 - s2 * (1 + y))) by ring.
  assert (B : 0 <= (1 + y + y ^ 2) + 1 - s2 * (1 + y) <= 2 * (2 - s2)) . { split. { assert (0 <= (1 - s2) * (1 + y)) by (apply Rmult_le_pos; lra). pose proof (pow2_ge_0 y). lra. } assert (0 <= (1 - y) * (y + 2 - s2)) by (apply Rmult_le_pos; lra). lra. }
  split; [|assert (0 <= (1 - y) * ((1 + y + y ^ 2) + 1 - s2 * (1 + y))) by (apply Rmult_le_pos; lra); lra].
  assert ((1 - y) * ((1 + y + y ^ 2) + 1 - s2 * (1 + y)) <= e * t * (2 * (2 - s2))) by (apply Rmult_le_compat; lra). lra.
Qed.
Lemma poly_int c0 c1 c2 c3 c4 : is_RInt (fun t => c0 + c1 * t + c2 * t ^ 2 + c3 * t ^ 3 + c4 * t ^ 4) 0 2 (2 * c0 + 2 * c1 + 8 / 3 * c2 + 4 * c3 + 32 / 5 * c4).
Proof.
  assert (I : is_RInt (fun t => c0 + c1 * t + c2 * t ^ 2 + c3 * t ^ 3 + c4 * t ^ 4) 0 2 (minus ((fun t => c0 * t + c1 * t ^ 2 / 2 + c2 * t ^ 3 / 3 + c3 * t ^ 4 / 4 + c4 * t ^ 5 / 5) 2) ((fun t => c0 * t + c1 * t ^ 2 / 2 + c2 * t ^ 3 / 3 + c3 * t ^ 4 / 4 + c4 * t ^ 5 / 5) 0))).
  { apply (is_RInt_derive (fun t => c0 * t + c1 * t ^ 2 / 2 + c2 * t ^ 3 / 3 + c3 * t ^ 4 / 4 + c4 * t ^ 5 / 5)).
    - intros x _. auto_derive; auto. simpl. field.
    - intros x _. apply (ex_derive_continuous (fun t => c0 + c1 * t + c2 * t ^ 2 + c3 * t ^ 3 + c4 * t ^ 4)). auto_derive. auto. }
  evar_last; [exact I|]. unfold minus, plus, opp; simpl. field.
Qed.
End Scatter.
Lemma cross_dsig P g es eps c : compton_cross_section P g es eps c = if Rle_dec es (top g (g * eps * (1 - c))) then dsig (c_sigmaT P) g (g * eps * (1 - c)) es else 0.
Proof. reflexivity. Qed.
Lemma cross_int P g eps c X (w : R -> R) : 0 < g -> 0 < eps -> c < 1 -> g <= X -> (forall x, continuous w x) ->
  is_RInt (fun es => w es * compton_cross_section P g es eps c) 0 X (RInt (fun es => w es * dsig (c_sigmaT P) g (g * eps * (1 - c)) es) 0 (top g (g * eps * (1 - c)))).
Proof.
  intros Hg Hep Hc HX Hw. set (e := g * eps * (1 - c)). assert (He : 0 < e) by (unfold e; apply Rmult_lt_0_compat; [apply Rmult_lt_0_compat; auto|lra]).
  pose proof (top_range g e Hg He) as Ht. set (V := RInt _ 0 _). replace V with (plus V 0) by (unfold plus; simpl; ring). apply (@is_RInt_Chasles R_NormedModule) with (top g e).
  - eapply is_RInt_ext; [|apply (w_ex (c_sigmaT P) g e Hg He w Hw)]. intros x Hx. rewrite Rmin_left, Rmax_right in Hx by lra. rewrite cross_dsig. fold e. destruct (Rle_dec x (top g e)); [reflexivity|lra].
  - eapply is_RInt_ext; [|apply zero_int]. intros x Hx. rewrite Rmin_left, Rmax_right in Hx by lra. rewrite cross_dsig. fold e. destruct (Rle_dec x (top g e)); lra.
Qed.
Lemma const1_cont : forall x : R, continuous (fun _ : R => 1) x.
Proof. intros x. apply continuous_const. Qed.
Lemma id_cont : forall x : R, continuous (fun x : R => x) x.
Proof. intros x. apply continuous_id. Qed.

(** ** C88: total cross section *)
Lemma kernel_cross P g es eps ms mu phi : 0 < g -> 0 < es -> 0 < eps -> cos_psi ms mu phi < 1 ->
  3 * c_sigmaT P / (8 * g * (g * eps * (1 - cos_psi ms mu phi))) * compton_kernel g es eps ms mu phi = compton_cross_section P g es eps (cos_psi ms mu phi).
Proof.
  intros Hg Hes Hep Hc. pose proof (cross_kernel P g es eps ms mu phi Hg Hes Hep ltac:(lra)) as CK. set (c := cos_psi ms mu phi) in *. apply Rmult_eq_reg_l with (1 - c); [|lra]. rewrite CK. field. repeat split; lra.
Qed.
Lemma kn_unit P g eps c : phys_ok P -> 0 < g -> 0 < eps -> c < 1 -> RInt (fun es => 1 * dsig (c_sigmaT P) g (g * eps * (1 - c)) es) 0 (top g (g * eps * (1 - c))) = klein_nishina P (g * eps * (1 - c)).
Proof.
  intros HP Hg Hep Hc. assert (He : 0 < g * eps * (1 - c)) by (apply Rmult_lt_0_compat; [apply Rmult_lt_0_compat; auto|lra]).
  apply (@is_RInt_unique R_CompleteNormedModule). eapply is_RInt_ext; [|apply (total_int (c_sigmaT P) g _ Hg He)]. intros x _. simpl. ring.
Qed.
Theorem C88_total : forall P gamma epsilon mu_s mu phi X, phys_ok P -> 0 < gamma -> 0 < epsilon -> cos_psi mu_s mu phi < 1 -> gamma <= X ->
  let e := gamma * epsilon * (1 - cos_psi mu_s mu phi) in
  is_RInt (fun es => 3 * c_sigmaT P / (8 * gamma * e) * compton_kernel gamma es epsilon mu_s mu phi) 0 X (klein_nishina P e).
Proof.
  intros P g ep ms mu phi X HP Hg Hep Hc HX e. unfold e. rewrite <- (kn_unit P g ep) by auto. eapply is_RInt_ext; [|apply cross_int; auto; apply const1_cont].
  intros x Hx. rewrite Rmin_left in Hx by lra. cbv beta. rewrite Rmult_1_l. symmetry. apply kernel_cross; auto. lra.
Qed.
Print Assumptions C88_total.
(** it is the cross section per unit solid angle summed over all directions *)
Theorem C88_solid_angle : forall P e, phys_ok P -> 0 < e -> is_RInt (fun ct => 2 * PI * kn_solid_angle P e ct) (-1) 1 (klein_nishina P e).
Proof.
  intros P e HP He. pose proof PI_RGT_0. pose proof HP as []. pose proof (subst_int (c_sigmaT P) 1 e ltac:(lra) He (fun _ => 1) const1_cont) as I.
  assert (E := kn_unit P 1 e 0 HP ltac:(lra) He ltac:(lra)). replace (1 * e * (1 - 0)) with e in E by ring. cbv beta in I. rewrite E in I. apply (@is_RInt_swap R_NormedModule) in I.
  assert (I' : is_RInt (fun t => 3 / 8 * c_sigmaT P * (1 * shape e t)) (-1 * -1 + 1) (-1 * 1 + 1) (opp (klein_nishina P e))). { replace (-1 * -1 + 1) with 2 by ring. replace (-1 * 1 + 1) with 0 by ring. exact I. }
  apply (is_RInt_comp_lin _ (-1) 1 (-1) 1) in I'. apply (is_RInt_scal _ _ _ (-1)) in I'.
  replace (klein_nishina P e) with (scal (-1) (opp (klein_nishina P e))) by (unfold scal, opp; simpl; unfold mult; simpl; ring).
  eapply is_RInt_ext; [|exact I']. intros ct Hct. rewrite Rmin_left, Rmax_right in Hct by lra. unfold scal; simpl; unfold mult; simpl. unfold kn_solid_angle, recoiled, shape. cbv zeta. replace (-1 * ct + 1) with (1 - ct) by ring.
  assert (0 < 1 + e * (1 - ct)). { assert (0 < e * (1 - ct)) by (apply Rmult_lt_0_compat; lra). lra. } field. repeat split; lra.
Qed.
Print Assumptions C88_solid_angle.

(** ** bounds from the Thomson limit *)
Lemma w_bounds sT g e (w lo hi : R -> R) A B : 0 < sT -> 0 < g -> 0 < e -> (forall x, continuous w x) ->
  (forall t, 0 < t < 2 -> lo t <= w (at_angle g e t) * shape e t <= hi t) -> is_RInt lo 0 2 A -> is_RInt hi 0 2 B ->
  3 / 8 * sT * A <= RInt (fun es => w es * dsig sT g e es) 0 (top g e) <= 3 / 8 * sT * B.
Proof.
  intros Hs Hg He Hw Hb IA IB. pose proof (subst_int sT g e Hg He w Hw) as I. apply (is_RInt_scal _ _ _ (3 / 8 * sT)) in IA. apply (is_RInt_scal _ _ _ (3 / 8 * sT)) in IB.
  split; [apply (is_RInt_le _ _ 0 2 _ _ ltac:(lra) IA I)|apply (is_RInt_le _ _ 0 2 _ _ ltac:(lra) I IB)]; intros t Ht; specialize (Hb t Ht); unfold scal; simpl; unfold mult; simpl; apply Rmult_le_compat_l; lra.
Qed.
Theorem C88_thomson : forall P x, phys_ok P -> 0 < x -> c_sigmaT P * (1 - 2 * x) <= klein_nishina P x <= c_sigmaT P.
Proof.
  intros P x HP Hx. pose proof HP as []. assert (E := kn_unit P 1 x 0 HP ltac:(lra) Hx ltac:(lra)). replace (1 * x * (1 - 0)) with x in E by ring. rewrite <- E.
  destruct (w_bounds (c_sigmaT P) 1 x (fun _ => 1) (fun t => 2 + (- 2 - 4 * x) * t + (1 + 4 * x) * t ^ 2 + (- 2 * x) * t ^ 3 + 0 * t ^ 4) (fun t => 2 + (- (2)) * t + 1 * t ^ 2 + 0 * t ^ 3 + 0 * t ^ 4)
    (2 * 2 + 2 * (- 2 - 4 * x) + 8 / 3 * (1 + 4 * x) + 4 * (- 2 * x) + 32 / 5 * 0) (2 * 2 + 2 * (- (2)) + 8 / 3 * 1 + 4 * 0 + 32 / 5 * 0) ltac:(lra) ltac:(lra) Hx const1_cont) as [L U].
  - intros t Ht. pose proof (shape_bounds x Hx t ltac:(lra)). lra.
  - apply poly_int.
  - apply poly_int.
  - split; [eapply Rle_trans; [|apply L]|eapply Rle_trans; [apply U|]]; lra.
Qed.
Print Assumptions C88_thomson.
(** the mean energy of the scattered photons *)
Lemma energy_bounds P g e : phys_ok P -> 0 < g -> 0 < e ->
  c_sigmaT P * g * e * (1 - 21 / 5 * e) <= RInt (fun es => es * dsig (c_sigmaT P) g e es) 0 (top g e) <= c_sigmaT P * g * e.
Proof.
  intros HP Hg He. pose proof HP as [].
  destruct (w_bounds (c_sigmaT P) g e (fun x => x) (fun t => g * e * (0 + 2 * t + (- 2 - 6 * e) * t ^ 2 + (1 + 6 * e) * t ^ 3 + (- 3 * e) * t ^ 4)) (fun t => g * e * (0 + 2 * t + (- (2)) * t ^ 2 + 1 * t ^ 3 + 0 * t ^ 4))
    (g * e * (2 * 0 + 2 * 2 + 8 / 3 * (- 2 - 6 * e) + 4 * (1 + 6 * e) + 32 / 5 * (- 3 * e))) (g * e * (2 * 0 + 2 * 2 + 8 / 3 * (- (2)) + 4 * 1 + 32 / 5 * 0)) ltac:(lra) Hg He id_cont) as [L U].
  - intros t Ht. pose proof (shape_bounds e He t ltac:(lra)) as [S1 S2]. assert (0 < 1 + e * t) by nra. unfold at_angle. assert (Hge : 0 < g * e) by pos.
    replace (g * e * t / (1 + e * t) * shape e t) with (g * e * (t / (1 + e * t) * shape e t)) by (field; lra).
    set (y := / (1 + e * t)) in *. assert (Ey : y * (1 + e * t) = 1) by (unfold y; field; lra). assert (Hy : 0 < y) by (apply Rinv_0_lt_compat; lra). unfold Rdiv. fold y.
    assert (Hp : 1 <= 2 - 2 * t + t ^ 2). { pose proof (pow2_ge_0 (t - 1)). lra. }
    assert (Het : 0 < e * t) by pos. assert (Hy1 : y <= 1) by nra. assert (Hy2 : 1 - e * t <= y) by nra.
    split.
    + apply Rmult_le_compat_l; [lra|]. replace (0 + 2 * t + (- 2 - 6 * e) * t ^ 2 + (1 + 6 * e) * t ^ 3 + - 3 * e * t ^ 4) with (t * ((1 - 3 * (e * t)) * (2 - 2 * t + t ^ 2))) by ring. rewrite Rmult_assoc. apply Rmult_le_compat_l; [lra|].
      assert (Hsh : 0 <= shape e t). { unfold shape. fold y. cbv zeta. assert (2 * t - t ^ 2 <= 1) by lra. simpl. nra. }
      set (p := 2 - 2 * t + t ^ 2) in *. set (x := e * t) in *. set (S := shape e t) in *.
      (* y S >= (1 - 3 x) p *) assert (Q1 : (1 - x) * S <= y * S) by (apply Rmult_le_compat_r; lra).
      assert (Q2 : S - x * p <= (1 - x) * S) by (assert (x * S <= x * p) by (apply Rmult_le_compat_l; lra); lra). replace (2 * e * t) with (2 * x) in S1 by (unfold x; ring). lra.
    + apply Rmult_le_compat_l; [lra|]. replace (0 + 2 * t + - (2) * t ^ 2 + 1 * t ^ 3 + 0 * t ^ 4) with (t * (2 - 2 * t + t ^ 2)) by ring. rewrite Rmult_assoc. apply Rmult_le_compat_l; [lra|].
      apply Rle_trans with (y * (2 - 2 * t + t ^ 2)); [apply Rmult_le_compat_l; lra|]. nra.
  - apply (@is_RInt_scal R_NormedModule _ _ _ (g * e)), poly_int.
  - apply (@is_RInt_scal R_NormedModule _ _ _ (g * e)), poly_int.
  - split; [eapply Rle_trans; [|apply L]|eapply Rle_trans; [apply U|]]; lra.
Qed.
Theorem C88_energy : forall P gamma epsilon mu_s mu phi X, phys_ok P -> 0 < gamma -> 0 < epsilon -> cos_psi mu_s mu phi < 1 -> gamma <= X ->
  let e := gamma * epsilon * (1 - cos_psi mu_s mu phi) in
  exists E, is_RInt (fun es => es * (3 * c_sigmaT P / (8 * gamma * e) * compton_kernel gamma es epsilon mu_s mu phi)) 0 X E /\
  c_sigmaT P * (gamma * e) * (1 - 21 / 5 * e) <= E <= c_sigmaT P * (gamma * e).
Proof.
  intros P g ep ms mu phi X HP Hg Hep Hc HX e. assert (He : 0 < e) by (unfold e; apply Rmult_lt_0_compat; [apply Rmult_lt_0_compat; auto|lra]).
  eexists. split.
  - eapply is_RInt_ext; [|apply (cross_int P g ep (cos_psi ms mu phi) X (fun x => x)); auto; apply id_cont]. intros x Hx. rewrite Rmin_left in Hx by lra. cbv beta. f_equal. symmetry. apply kernel_cross; auto. lra.
  - fold e. pose proof (energy_bounds P g e HP Hg He) as [A B]. split; [|lra]. eapply Rle_trans; [|exact A]. lra.
Qed.
Print Assumptions C88_energy.

(** ** the photon field of a target as a sum of beams *)
Definition lit (ms : R) (b : beam) : Prop := 0 <= b_u b /\ 0 < b_eps b /\ -1 <= dot (b_dir b) (observer ms) <= 1.
Definition wsum (l : list (R * beam)) (F : beam -> R) : R := fold_right (fun p s => fst p * F (snd p) + s) 0 l.
Definition superposition (ms : R) (L : (beam -> R) -> R) : Prop := exists l, (forall p, In p l -> 0 <= fst p /\ lit ms (snd p)) /\ forall F, L F = wsum l F.
Lemma wsum_app l l' F : wsum (l ++ l') F = wsum l F + wsum l' F.
Proof. unfold wsum. induction l as [|p l IH]; cbn [fold_right app map fst snd]; [ring|]. rewrite IH. ring. Qed.
Lemma wsum_scale k l F : wsum (map (fun p => (k * fst p, snd p)) l) F = k * wsum l F.
Proof. unfold wsum. induction l as [|p l IH]; cbn [fold_right app map fst snd]; [ring|]. rewrite IH. ring. Qed.
Lemma wsum_div d l G : wsum l (fun x => G x / d) = wsum l G / d.
Proof. unfold wsum. induction l as [|p l IH]; cbn [fold_right]; [unfold Rdiv; ring|]. rewrite IH. unfold Rdiv. ring. Qed.
Lemma super_one ms b : lit ms b -> superposition ms (fun F => F b).
Proof. intros H. exists ((1, b) :: nil). split. { intros p [<-|[]]. cbn. split; [lra|auto]. } intros F. unfold wsum. cbn [fold_right fst snd]. ring. Qed.
Lemma super_add ms L1 L2 : superposition ms L1 -> superposition ms L2 -> superposition ms (fun F => L1 F + L2 F).
Proof.
  intros (l1 & H1 & E1) (l2 & H2 & E2). exists (l1 ++ l2). split. { intros p Hp. apply in_app_iff in Hp. destruct Hp; auto. } intros F. rewrite wsum_app, E1, E2. auto.
Qed.
Lemma super_scale ms k L : 0 <= k -> superposition ms L -> superposition ms (fun F => k * L F).
Proof.
  intros Hk (l & H & E). exists (map (fun p => (k * fst p, snd p)) l). split. { intros p Hp. apply in_map_iff in Hp. destruct Hp as (q & <- & Hq). cbn. destruct (H q Hq). split; auto. apply Rmult_le_pos; auto. } intros F. rewrite wsum_scale, E. auto.
Qed.
Lemma super_ext ms L L' : (forall F, L' F = L F) -> superposition ms L -> superposition ms L'.
Proof. intros HE (l & H & E). exists l. split; auto. intros F. rewrite HE. auto. Qed.
Lemma super_over ms (L : R -> (beam -> R) -> R) xs : incr xs -> (forall x, In x xs -> superposition ms (L x)) -> superposition ms (fun F => over xs (fun x => L x F)).
Proof.
  induction xs as [|x0 xs IH]; intros Hi H. { exists nil. split; [intros p []|]. intros F. reflexivity. } destruct xs as [|x1 xs]. { exists nil. split; [intros p []|]. intros F. reflexivity. }
  pose proof Hi as [H01 Hi'].
  apply super_ext with (fun F => (x1 - x0) / 2 * (L x0 F + L x1 F) + over (x1 :: xs) (fun x => L x F)). { intros F. rewrite over_cons2. field. }
  apply super_add. { apply super_scale; [lra|]. apply super_add; apply H; cbn; auto. } apply IH; auto. intros x Hx. apply H. right. auto.
Qed.
Lemma field_super P t r r' ms nmu nphi : phys_ok P -> -1 <= ms <= 1 -> target_ok t r' -> (r' = Some r \/ exists c, t = TCMB c) -> (forall d, t = TDustTorus d -> 0 <= dt_R d) ->
  superposition ms (axis_field P t r nmu nphi).
Proof.
  intros HP Hms Ht Hr HdtR. pose proof HP as []. pose proof PI_RGT_0. assert (Hphi : incr (linspace 0 (2 * PI) nphi)) by (apply linspace_incr; lra). assert (Hmu : incr (linspace (-1) 1 nmu)) by (apply linspace_incr; lra).
  destruct t as [t|t|t|t|t|t|]; cbn [target_ok] in Ht; try (exfalso; exact Ht); cbn [axis_field].
  - destruct Ht as (Hu & He). unfold isotropic_field. apply super_over; auto. intros p _. apply super_over; auto. intros m Hm. apply linspace_in in Hm; [|lra]. apply super_one. unfold lit. cbn [b_u b_eps b_dir]. split; [pos|]. split; auto. rewrite dir_spherical. apply C49_range; auto.
  - destruct Ht as (Hu & He & h & Eh & Hh). assert (h = r) by (destruct Hr as [Hr|(t' & Hr)]; congruence). subst h. apply super_one. unfold lit. cbn [shine b_u b_eps b_dir].
    assert (Dr : dist (on_sight_line r 0 1) (spherical 0 0 0) = r). { unfold dist, dot, Spec_Geom.minus, on_sight_line, spherical. cbn [px py pz]. transitivity (sqrt (r ^ 2)); [f_equal; ring | apply sqrt_pow2; lra]. } rewrite Dr.
    split; [pos|]. split; auto. replace (dot _ _) with ms; auto. unfold dot, times, Spec_Geom.minus, on_sight_line, spherical, observer. cbn [px py pz]. unfold spherical. cbn [px py pz]. field. lra.
  - destruct Ht as (HLd & HM & He & Hi & Hio & h & Eh & Hh). assert (h = r) by (destruct Hr as [Hr|(t' & Hr)]; congruence). subst h. unfold disk_field. apply super_over; auto. intros p _. apply super_over.
    { rewrite <- (disk_mus P (sd_M_BH t)) by auto. assert (Hrg : 0 < R_g P (sd_M_BH t)) by (unfold R_g; pos). unfold to_R_g_units. apply mu_grid_incr; [pos|pos|]. unfold Rdiv. apply Rmult_lt_compat_r; auto. pos. }
    intros m Hm. rewrite <- (disk_mus P (sd_M_BH t)) in Hm by auto. assert (Hrg : 0 < R_g P (sd_M_BH t)) by (unfold R_g; pos). unfold to_R_g_units in Hm. apply mu_grid_in in Hm; [| pos | pos | unfold Rdiv; apply Rmult_lt_compat_r; auto; pos]. destruct Hm as (Hm1 & _ & Hm2). unfold radius_of in Hm2.
    apply super_one. unfold lit. cbn [b_u b_eps b_dir]. rewrite dir_spherical. split; [|split; [apply disk_photon_pos|apply C49_range; auto; lra]]. rewrite Props_Targets.tan_acos by lra.
    set (q := sqrt (/ m ^ 2 - 1)) in *. assert (Hq : sd_R_in t <= r * q). { apply Rmult_le_reg_r with (/ R_g P (sd_M_BH t)); [apply Rinv_0_lt_compat; auto|]. destruct Hm2 as [Hm2 _]. unfold Rdiv in Hm2. eapply Rle_trans; [exact Hm2|]. right. ring. }
    unfold disk_flux. pose proof (phi_range (sd_R_in t) (r * q) Hi Hq). assert (0 < r * q) by lra. assert (0 < m) by lra. assert (0 <= 1 - sqrt (sd_R_in t / (r * q))) by lra. assert (0 < q) by (apply Rmult_lt_reg_l with r; lra). pos.
  - destruct Ht as (HLd & Hx & He & HR & h & Eh & Hh & Hne). assert (h = r) by (destruct Hr as [Hr|(t' & Hr)]; congruence). subst h. unfold shell_field. apply super_over; auto. intros p _. apply super_over; auto. intros m Hm. apply linspace_in in Hm; [|lra].
    assert (Hxr : 0 < x_re_shell m (blr_R_line t) r). { unfold x_re_shell. apply sqrt_lt_R0. pose proof (shell_x2 (blr_R_line t) r m HR ltac:(lra) Hm Hne). lra. }
    apply super_one. unfold lit. cbn [shine b_u b_eps b_dir]. rewrite (dir_shell m (blr_R_line t) r ms p Hm ltac:(lra) Hxr). rewrite <- C50_shell_distance by auto. split; [pos|]. split; auto. apply C49_range; auto. apply C50_mu_star; auto. lra.
  - destruct Ht as (HLd & Hx & He & h & Eh & Hh). assert (h = r) by (destruct Hr as [Hr|(t' & Hr)]; congruence). subst h. specialize (HdtR t eq_refl). assert (0 < r ^ 2) by pos. pose proof (pow2_ge_0 (dt_R t)). assert (Hxr : 0 < x_re_ring (dt_R t) r) by (unfold x_re_ring; apply sqrt_lt_R0; lra).
    unfold ring_field. apply super_over; auto. intros p _. apply super_one. unfold lit. cbn [shine b_u b_eps b_dir]. rewrite dir_ring by auto. rewrite <- C50_ring_distance. split; [pos|]. split; auto. apply C49_range; auto.
    assert (r <= x_re_ring (dt_R t) r). { unfold x_re_ring. rewrite <- (sqrt_pow2 r) at 1 by lra. apply sqrt_le_1_alt. lra. }
    assert (0 < r / x_re_ring (dt_R t) r) by pos. split; [lra|]. apply Rmult_le_reg_r with (x_re_ring (dt_R t) r); auto. unfold Rdiv. rewrite Rmult_assoc, Rinv_l by lra. lra.
Qed.
Lemma wsum_int ms l (F : R -> beam -> R) (G : beam -> R) a b : (forall p, In p l -> 0 <= fst p /\ lit ms (snd p)) -> (forall x, lit ms x -> is_RInt (fun t => F t x) a b (G x)) -> is_RInt (fun t => wsum l (F t)) a b (wsum l G).
Proof.
  intros Hl HF. induction l as [|p l IH]; unfold wsum in *; cbn [fold_right] in *; [apply zero_int|]. apply (@is_RInt_plus R_NormedModule). { apply (@is_RInt_scal R_NormedModule). apply HF. apply Hl. left. auto. } apply IH. intros q Hq. apply Hl. right. auto.
Qed.
Lemma wsum_le ms l (F G : beam -> R) : (forall p, In p l -> 0 <= fst p /\ lit ms (snd p)) -> (forall x, lit ms x -> F x <= G x) -> wsum l F <= wsum l G.
Proof.
  intros Hl HF. unfold wsum. induction l as [|p l IH]; cbn [fold_right]; [lra|]. destruct (Hl p (or_introl eq_refl)) as [A B]. apply HF in B. specialize (IH ltac:(intros q Hq; apply Hl; right; auto)). assert (fst p * F (snd p) <= fst p * G (snd p)) by (apply Rmult_le_compat_l; auto). lra.
Qed.
Lemma trapezia_int (A : Type) (l : list (R * A)) (f : R * A -> R -> R) (E : R * A -> R) a b : (forall p, In p l -> is_RInt (f p) a b (E p)) ->
  is_RInt (fun t => trapezia (map (fun p => (fst p, f p t)) l)) a b (trapezia (map (fun p => (fst p, E p)) l)).
Proof.
  induction l as [|p0 l IH]; intros H; [cbn; apply zero_int|]. destruct l as [|p1 l]; [cbn; apply zero_int|].
  cbn [map trapezia]. apply (@is_RInt_plus R_NormedModule). 2:{ apply IH. intros p Hp. apply H. right. auto. }
  pose proof (H p0 (or_introl eq_refl)) as I0. pose proof (H p1 (or_intror (or_introl eq_refl))) as I1.
  pose proof (is_RInt_scal _ _ _ ((fst p1 - fst p0) / 2) _ (is_RInt_plus _ _ _ _ _ _ I0 I1)) as I2.
  replace ((fst p1 - fst p0) * (E p0 + E p1) / 2) with (scal ((fst p1 - fst p0) / 2) (plus (E p0) (E p1))) by (unfold scal, plus; simpl; unfold mult; simpl; field).
  eapply is_RInt_ext; [|exact I2]. intros t _. unfold scal, plus; simpl; unfold mult; simpl. field.
Qed.
Lemma trapezia_le (A : Type) (l : list (R * A)) (f g : R * A -> R) : incr (map fst l) -> (forall p, In p l -> f p <= g p) -> trapezia (map (fun p => (fst p, f p)) l) <= trapezia (map (fun p => (fst p, g p)) l).
Proof.
  induction l as [|p0 l IH]; intros Hi H; [cbn; lra|]. destruct l as [|p1 l]; [cbn; lra|]. destruct Hi as [H01 Hi]. cbn [map] in *.
  cbn [trapezia]. apply Rplus_le_compat. 2:{ apply IH; auto. intros p Hp. apply H. right. auto. } assert (f p0 <= g p0) by (apply H; left; auto). assert (f p1 <= g p1) by (apply H; right; left; auto). unfold Rdiv. apply Rmult_le_compat_r; [lra|]. apply Rmult_le_compat_l; lra.
Qed.

(** ** C88: the photons of the external Compton SEDs *)
(** scatterings per unit time of the electrons with the photons of one beam *)
Definition collisions (P : phys) (mu_s : R) (electrons : list (R * R)) (b : beam) : R :=
  let c := dot (b_dir b) (observer mu_s) in
  let photons := b_u b / (b_eps b * (c_me P * c_c P ^ 2)) in
  trapezia (map (fun gN => (fst gN, snd gN * (c_c P * photons * (1 - c) * klein_nishina P (fst gN * b_eps b * (1 - c))))) electrons).
(** energy per unit time that the electrons give to the photons of one beam in
    the Thomson limit (and to the first order beyond it for [recoil] = 21/5) *)
Definition thomson_power (P : phys) (mu_s recoil : R) (electrons : list (R * R)) (b : beam) : R :=
  let c := dot (b_dir b) (observer mu_s) in
  trapezia (map (fun gN => (fst gN, snd gN * (c_c P * b_u b * c_sigmaT P * (fst gN * (1 - c)) ^ 2 * (1 - recoil * (fst gN * b_eps b * (1 - c)))))) electrons).

Section Beam.
Variables (P : phys) (ms : R) (gammas Ns : list R) (X : R).
Hypothesis HP : phys_ok P.
Hypothesis Hinc : incr gammas.
Hypothesis Hlen : length Ns = length gammas.
Hypothesis Hgam : forall g, In g gammas -> 0 < g <= X.
Let electrons := combine gammas Ns.
Lemma beam_int (w : R -> R) b (V : R * R -> R) : lit ms b -> (forall x, continuous w x) ->
  (forall gN, In gN electrons -> dot (b_dir b) (observer ms) < 1 -> V gN = RInt (fun es => w es * dsig (c_sigmaT P) (fst gN) (fst gN * b_eps b * (1 - dot (b_dir b) (observer ms))) es) 0 (top (fst gN) (fst gN * b_eps b * (1 - dot (b_dir b) (observer ms))))) ->
  is_RInt (fun es => w es * trapezia (map (fun gN => (fst gN, snd gN * (c_c P * (b_u b / b_eps b) * (1 - dot (b_dir b) (observer ms))) * compton_cross_section P (fst gN) es (b_eps b) (dot (b_dir b) (observer ms)))) electrons)) 0 X
    (trapezia (map (fun gN => (fst gN, snd gN * (c_c P * (b_u b / b_eps b) * (1 - dot (b_dir b) (observer ms))) * V gN)) electrons)).
Proof.
  intros (Hu & He & Hc) Hw HV. set (c := dot (b_dir b) (observer ms)) in *. set (k := c_c P * (b_u b / b_eps b) * (1 - c)).
  eapply is_RInt_ext. 2:{ apply (trapezia_int R electrons (fun gN es => w es * (snd gN * k * compton_cross_section P (fst gN) es (b_eps b) c)) (fun gN => snd gN * k * V gN)).
    intros [g n] Hp. pose proof (HV _ Hp) as HVp. apply in_combine_l in Hp. apply Hgam in Hp. cbn [fst snd] in *. destruct (Req_dec c 1) as [E|E].
    - assert (k = 0) by (unfold k; rewrite E; ring). rewrite H. replace (n * 0 * V (g, n)) with 0 by ring. apply (is_RInt_ext (fun _ : R => 0)); [intros t _; simpl; ring|apply zero_int].
    - rewrite HVp by lra. pose proof (cross_int P g (b_eps b) c X w ltac:(lra) He ltac:(lra) ltac:(lra) Hw) as I. apply (is_RInt_scal _ _ _ (n * k)) in I. eapply is_RInt_ext; [|exact I]. intros es _. unfold scal; simpl; unfold mult; simpl. ring. }
  intros es _. cbv beta. rewrite <- !trapz_pairs. rewrite <- trapz_scale, !map_map. cbn [fst snd]. reflexivity.
Qed.
Lemma beam_photons dl dd q h b : 0 < dl -> 0 < q -> 0 < h -> lit ms b -> 
  is_RInt (fun nu => scattered_sed P dl dd ms (q * nu) electrons b / (h * nu ^ 2)) 0 (X / q) (q / h * (dd ^ 3 / (4 * PI * dl ^ 2)) * (c_me P * c_c P ^ 2) * collisions P ms electrons b).
Proof.
  intros Hdl Hq Hh Hb. pose proof PI_RGT_0 as Hpi. pose proof HP as HP'. destruct HP' as [Hme _ _ Hcc _ HsT _ _ _].
  pose proof (beam_int (fun _ => 1) b (fun gN => klein_nishina P (fst gN * b_eps b * (1 - dot (b_dir b) (observer ms)))) Hb const1_cont) as I.
  assert (I' := I ltac:(intros [g n] Hp Hc; apply in_combine_l in Hp; apply Hgam in Hp; cbn [fst]; symmetry; apply kn_unit; auto; [lra|apply Hb])). clear I. destruct Hb as (Hu & He & Hc). unfold collisions. cbv zeta. set (c := dot (b_dir b) (observer ms)) in *.
  set (T := trapezia _) in I'. replace (q / h * (dd ^ 3 / (4 * PI * dl ^ 2)) * (c_me P * c_c P ^ 2) * _) with (q / h * (dd ^ 3 / (4 * PI * dl ^ 2)) * T).
  2:{ unfold T. rewrite <- !trapz_pairs. rewrite Rmult_assoc with (r2 := c_me P * c_c P ^ 2). f_equal. rewrite <- trapz_scale, !map_map. cbn [fst snd]. f_equal. apply map_ext. intros gN. field. assert (0 < c_c P ^ 2) by pos. repeat split; lra. }
  set (W := fun es => 1 * _) in I'. assert (I2 : is_RInt W (q * 0 + 0) (q * (X / q) + 0) T). { replace (q * 0 + 0) with 0 by ring. replace (q * (X / q) + 0) with X by (field; lra). exact I'. }
  apply (is_RInt_comp_lin W q 0 0 (X / q)) in I2. apply (is_RInt_scal _ _ _ (q / h * (dd ^ 3 / (4 * PI * dl ^ 2)))) in I2. destruct (Rle_lt_dec (X / q) 0) as [Hx|Hx].
  - assert (HX : X <= 0). { replace X with (X / q * q) by (field; lra). nra. } destruct gammas as [|g gs] eqn:Eg; [|exfalso; specialize (Hgam g (or_introl eq_refl)); lra]. unfold electrons in *. cbn [combine map trapezia] in *. unfold T. rewrite Rmult_0_r. apply (is_RInt_ext (fun _ : R => 0)); [|apply zero_int]. intros nu _. unfold scattered_sed. cbn [map trapezia]. unfold Rdiv. simpl. ring.
  - eapply is_RInt_ext; [|exact I2]. intros nu Hnu. rewrite Rmin_left in Hnu by lra. cbv beta. unfold W, scattered_sed. cbv zeta. fold c. replace (q * nu + 0) with (q * nu) by ring. unfold scal; simpl; unfold mult; simpl. set (Z := trapezia _). field. repeat split; lra.
Qed.
Lemma power_le recoil1 recoil2 b (V : R * R -> R) : lit ms b -> (forall n, In n Ns -> 0 <= n) ->
  (forall gN, In gN electrons -> dot (b_dir b) (observer ms) < 1 -> let e := fst gN * b_eps b * (1 - dot (b_dir b) (observer ms)) in
     c_sigmaT P * fst gN * e * (1 - recoil1 * e) <= V gN <= c_sigmaT P * fst gN * e * (1 - recoil2 * e)) ->
  thomson_power P ms recoil1 electrons b <= trapezia (map (fun gN => (fst gN, snd gN * (c_c P * (b_u b / b_eps b) * (1 - dot (b_dir b) (observer ms))) * V gN)) electrons) <= thomson_power P ms recoil2 electrons b.
Proof.
  intros (Hu & He & Hc) HN HV. unfold thomson_power. cbv zeta in *. set (c := dot (b_dir b) (observer ms)) in *. pose proof HP as HP'. destruct HP' as [Hme _ _ Hcc _ HsT _ _ _].
  assert (Hfst : map fst electrons = gammas). { unfold electrons. clear -Hlen. revert Ns Hlen. induction gammas as [|g gs IH]; intros [|n ns] H; cbn in *; try discriminate; auto. f_equal. apply IH. congruence. }
  assert (Hk : forall gN, In gN electrons -> 0 <= snd gN * (c_c P * (b_u b / b_eps b) * (1 - c))). { intros [g n] Hp. apply in_combine_r in Hp. apply HN in Hp. cbn [snd]. assert (0 <= 1 - c) by lra. pos. }
  split; apply trapezia_le; try (rewrite Hfst; auto); intros [g n] Hp; pose proof (Hk _ Hp) as Hkp; pose proof (HV _ Hp) as HVp; cbn [fst snd] in *; (destruct (Req_dec c 1) as [E|E]; [rewrite E; right; unfold Rdiv; ring|]); destruct (HVp ltac:(lra)) as [A B].
  - eapply Rle_trans; [|apply Rmult_le_compat_l; [exact Hkp|exact A]]. right. field. lra.
  - eapply Rle_trans; [apply Rmult_le_compat_l; [exact Hkp|exact B]|]. right. field. lra.
Qed.
Lemma beam_energy dl dd q b : 0 < dl -> 0 < dd -> 0 < q -> 0 < X -> lit ms b -> (forall n, In n Ns -> 0 <= n) ->
  is_RInt (fun nu => scattered_sed P dl dd ms (q * nu) electrons b / nu) 0 (X / q) (RInt (fun nu => scattered_sed P dl dd ms (q * nu) electrons b / nu) 0 (X / q)) /\
  dd ^ 3 / (4 * PI * dl ^ 2) * thomson_power P ms (21 / 5) electrons b <= RInt (fun nu => scattered_sed P dl dd ms (q * nu) electrons b / nu) 0 (X / q) <= dd ^ 3 / (4 * PI * dl ^ 2) * thomson_power P ms 0 electrons b.
Proof.
  intros Hdl Hdd Hq HX Hb HN. pose proof PI_RGT_0 as Hpi. pose proof HP as HP'. destruct HP' as [Hme _ _ Hcc _ HsT _ _ _].
  set (V := fun gN : R * R => RInt (fun es => es * dsig (c_sigmaT P) (fst gN) (fst gN * b_eps b * (1 - dot (b_dir b) (observer ms))) es) 0 (top (fst gN) (fst gN * b_eps b * (1 - dot (b_dir b) (observer ms))))).
  pose proof (beam_int (fun x => x) b V Hb id_cont ltac:(intros gN _ _; reflexivity)) as I.
  assert (B := power_le (21 / 5) 0 b V Hb HN). pose proof Hb as (Hu & He & Hc). set (c := dot (b_dir b) (observer ms)) in *.
  assert (HVb : forall gN, In gN electrons -> c < 1 -> let e := fst gN * b_eps b * (1 - c) in c_sigmaT P * fst gN * e * (1 - 21 / 5 * e) <= V gN <= c_sigmaT P * fst gN * e * (1 - 0 * e)).
  { intros [g n] Hp Hc1. apply in_combine_l in Hp. apply Hgam in Hp. cbv zeta. cbn [fst]. unfold V. cbn [fst]. set (e := g * b_eps b * (1 - c)). assert (He' : 0 < e) by (unfold e; apply Rmult_lt_0_compat; [apply Rmult_lt_0_compat; lra|lra]). pose proof (energy_bounds P g e HP ltac:(lra) He'). lra. }
  specialize (B HVb). set (T := trapezia (map (fun gN => (fst gN, snd gN * (c_c P * (b_u b / b_eps b) * (1 - c)) * V gN)) electrons)) in *.
  set (W := fun es => es * _) in I. assert (I2 : is_RInt W (q * 0 + 0) (q * (X / q) + 0) T). { replace (q * 0 + 0) with 0 by ring. replace (q * (X / q) + 0) with X by (field; lra). exact I. }
  set (D := dd ^ 3 / (4 * PI * dl ^ 2)). assert (HD : 0 < D) by (unfold D; pos).
  apply (is_RInt_comp_lin W q 0 0 (X / q)) in I2. apply (is_RInt_scal _ _ _ D) in I2. assert (Hx : 0 < X / q) by (apply Rdiv_lt_0_compat; auto).
  assert (I3 : is_RInt (fun nu => scattered_sed P dl dd ms (q * nu) electrons b / nu) 0 (X / q) (D * T)).
  { eapply is_RInt_ext; [|exact I2]. intros nu Hnu. rewrite Rmin_left in Hnu by lra. cbv beta. unfold W, scattered_sed. cbv zeta. fold c. replace (q * nu + 0) with (q * nu) by ring. unfold scal; simpl; unfold mult; simpl. set (Z := trapezia _). unfold D. field. repeat split; lra. }
  rewrite (@is_RInt_unique R_CompleteNormedModule _ _ _ _ I3). split; auto. split; apply Rmult_le_compat_l; lra.
Qed.
End Beam.
Lemma ext_range n g : In g (np_logspace 1 9 n) -> 0 < g <= 1e9.
Proof.
  intros H. split; [eapply logspace_pos; eauto|]. unfold np_logspace in H. apply in_map_iff in H. destruct H as (x & <- & Hx). apply linspace_in in Hx; [|lra].
  assert (E9 : pow10 9 = 1e9). { unfold pow10. replace 9 with (INR 9) by (simpl; lra). change (exp (INR 9 * ln 10)) with (Rpower 10 (INR 9)). rewrite Rpower_pow by lra. lra. }
  rewrite <- E9. destruct (Req_dec x 9) as [->|Hne]; [lra|]. left. apply pow10_lt. lra.
Qed.
(** The photons per unit area and time (the SED divided by h nu and by nu,
    integrated over nu) are the scatterings of the electrons of the blob with
    the photons of the target with the Klein-Nishina cross section. *)
Theorem C88_photons : forall P e r ms hi F, phys_ok P -> ec_ok e -> (forall t, ec_target e = TDustTorus t -> 0 <= dt_R t) -> ec_integ e = trapz ->
  mu_s (ec_blob e) = Ok ms -> (ec_r e = Some r \/ exists t, ec_target e = TCMB t) ->
  let b := ec_blob e in
  let gammas := np_logspace 1 9 (gamma_e_size b) in
  let electrons := combine gammas (map (fun n => 4 / 3 * PI * R_b b ^ 3 * n) (snd (evaluate (n_e b) (map (fun g => g / delta_D b) gammas)))) in
  (forall nu, 0 < nu -> ec_sed_flux P e (nu :: nil) = Ok (Some (F nu :: nil))) -> 1e9 <= c_h P * hi * (1 + redshift b) / (c_me P * c_c P ^ 2) ->
  is_RInt (fun nu => F nu / (c_h P * nu ^ 2)) 0 hi
    ((1 + redshift b) * delta_D b ^ 3 / (4 * PI * d_L b ^ 2) * axis_field P (ec_target e) r (ec_mu_size e) (ec_phi_size e) (collisions P ms electrons)).
Proof.
  intros P e r ms hi F HP Hok HdtR Hint Hms Hr b gammas electrons HF Hhi. pose proof Hok as (Hz & Hdl & Hdd & Hrb & Hd & (ms' & Hms' & Hmr) & Ho & Ht). fold b in Hz, Hdl, Hdd, Hrb, Hd, Hms, Hms'. assert (ms' = ms) by congruence. subst ms'. clear Hms'. pose proof PI_RGT_0 as Hpi.
  pose proof HP as HP'. destruct HP' as [Hme _ Hh Hcc _ HsT _ _ _].
  destruct (field_super P (ec_target e) r (ec_r e) ms (ec_mu_size e) (ec_phi_size e) HP Hmr Ht Hr HdtR) as (l & Hl & El).
  set (q := c_h P * (1 + redshift b) / (c_me P * c_c P ^ 2)). assert (Hq : 0 < q) by (unfold q; pos). replace (c_h P * hi * (1 + redshift b) / (c_me P * c_c P ^ 2)) with (q * hi) in Hhi by (unfold q, Rdiv; ring).
  assert (Hhi0 : 0 < hi). { apply Rmult_lt_reg_l with q; lra. }
  set (Ns := map (fun n => 4 / 3 * PI * R_b b ^ 3 * n) (snd (evaluate (n_e b) (map (fun g => g / delta_D b) gammas)))) in *.
  assert (HL : length Ns = length gammas) by apply (Ne_length (n_e b) (delta_D b) (R_b b) gammas).
  assert (Hg : forall g, In g gammas -> 0 < g <= q * hi) by (intros g Hg; apply ext_range in Hg; lra).
  rewrite El. replace ((1 + redshift b) * delta_D b ^ 3 / (4 * PI * d_L b ^ 2) * wsum l (collisions P ms electrons)) with (wsum l (fun x => q / c_h P * (delta_D b ^ 3 / (4 * PI * d_L b ^ 2)) * (c_me P * c_c P ^ 2) * collisions P ms electrons x)).
  2:{ rewrite <- (wsum_scale _ l). unfold wsum. clear -Hme Hcc Hh Hpi Hdl. induction l as [|p l IH]; cbn [fold_right map fst snd]; auto. rewrite IH. f_equal. unfold q. field. assert (0 < c_c P ^ 2) by pos. repeat split; lra. }
  eapply is_RInt_ext. 2:{ apply (wsum_int ms l (fun nu x => scattered_sed P (d_L b) (delta_D b) ms (q * nu) electrons x / (c_h P * nu ^ 2))); [exact Hl|]. intros x Hx.
    pose proof (beam_photons P ms gammas Ns (q * hi) HP (logspace_incr 1 9 _ ltac:(lra)) HL Hg (d_L b) (delta_D b) q (c_h P) x Hdl Hq Hh Hx) as B. replace (q * hi / q) with hi in B by (field; lra). exact B. }
  intros nu Hnu. rewrite Rmin_left in Hnu by lra. assert (Hn0 : 0 < nu) by lra. specialize (HF nu Hn0).
  rewrite (C74_superposition P e (nu :: nil) r ms HP Hok HdtR Hint Hms Hr) in HF by (intros n [<-|[]]; auto). cbv zeta in HF. fold b gammas Ns electrons in HF. cbn [map] in HF. assert (EF : F nu = wsum l (scattered_sed P (d_L b) (delta_D b) ms (q * nu) electrons)).
  { rewrite <- El. apply (f_equal (fun r => match r with Ok (Some (x :: _)) => x | _ => 0 end)) in HF. cbv beta iota in HF. rewrite <- HF. f_equal. f_equal. unfold q, Rdiv. ring. }
  rewrite EF. apply wsum_div.
Qed.
Print Assumptions C88_photons.
(** Their energy lies between the Thomson limit and its first correction. *)
Theorem C88_power : forall P e r ms hi F, phys_ok P -> ec_ok e -> (forall t, ec_target e = TDustTorus t -> 0 <= dt_R t) -> ec_integ e = trapz ->
  mu_s (ec_blob e) = Ok ms -> (ec_r e = Some r \/ exists t, ec_target e = TCMB t) ->
  let b := ec_blob e in
  let gammas := np_logspace 1 9 (gamma_e_size b) in
  let electrons := combine gammas (map (fun n => 4 / 3 * PI * R_b b ^ 3 * n) (snd (evaluate (n_e b) (map (fun g => g / delta_D b) gammas)))) in
  (forall nu, 0 < nu -> ec_sed_flux P e (nu :: nil) = Ok (Some (F nu :: nil))) -> 1e9 <= c_h P * hi * (1 + redshift b) / (c_me P * c_c P ^ 2) ->
  exists E, band_flux F 0 hi E /\
    delta_D b ^ 3 / (4 * PI * d_L b ^ 2) * axis_field P (ec_target e) r (ec_mu_size e) (ec_phi_size e) (thomson_power P ms (21 / 5) electrons) <= E /\
    E <= delta_D b ^ 3 / (4 * PI * d_L b ^ 2) * axis_field P (ec_target e) r (ec_mu_size e) (ec_phi_size e) (thomson_power P ms 0 electrons).
Proof.
  intros P e r ms hi F HP Hok HdtR Hint Hms Hr b gammas electrons HF Hhi. pose proof Hok as (Hz & Hdl & Hdd & Hrb & Hd & (ms' & Hms' & Hmr) & Ho & Ht). fold b in Hz, Hdl, Hdd, Hrb, Hd, Hms, Hms'. assert (ms' = ms) by congruence. subst ms'. clear Hms'. pose proof PI_RGT_0 as Hpi.
  pose proof HP as HP'. destruct HP' as [Hme _ Hh Hcc _ HsT _ _ _].
  destruct (field_super P (ec_target e) r (ec_r e) ms (ec_mu_size e) (ec_phi_size e) HP Hmr Ht Hr HdtR) as (l & Hl & El).
  set (q := c_h P * (1 + redshift b) / (c_me P * c_c P ^ 2)). assert (Hq : 0 < q) by (unfold q; pos). replace (c_h P * hi * (1 + redshift b) / (c_me P * c_c P ^ 2)) with (q * hi) in Hhi by (unfold q, Rdiv; ring).
  assert (Hhi0 : 0 < hi). { apply Rmult_lt_reg_l with q; lra. }
  set (Ns := map (fun n => 4 / 3 * PI * R_b b ^ 3 * n) (snd (evaluate (n_e b) (map (fun g => g / delta_D b) gammas)))) in *.
  assert (HL : length Ns = length gammas) by apply (Ne_length (n_e b) (delta_D b) (R_b b) gammas).
  assert (HN : forall n, In n Ns -> 0 <= n) by (apply Ne_nonneg; auto). assert (Hinc : incr gammas) by (apply logspace_incr; lra).
  assert (Hg : forall g, In g gammas -> 0 < g <= q * hi) by (intros g Hg; apply ext_range in Hg; lra).
  set (I := fun x => RInt (fun nu => scattered_sed P (d_L b) (delta_D b) ms (q * nu) electrons x / nu) 0 hi).
  assert (HB : forall x, lit ms x -> is_RInt (fun nu => scattered_sed P (d_L b) (delta_D b) ms (q * nu) electrons x / nu) 0 hi (I x) /\
     delta_D b ^ 3 / (4 * PI * d_L b ^ 2) * thomson_power P ms (21 / 5) electrons x <= I x <= delta_D b ^ 3 / (4 * PI * d_L b ^ 2) * thomson_power P ms 0 electrons x).
  { intros x Hx. pose proof (beam_energy P ms gammas Ns (q * hi) HP Hinc HL Hg (d_L b) (delta_D b) q x Hdl Hdd Hq ltac:(lra) Hx HN) as B. replace (q * hi / q) with hi in B by (field; lra). exact B. }
  exists (wsum l I). split; [|split].
  - red. eapply is_RInt_ext. 2:{ apply (wsum_int ms l (fun nu x => scattered_sed P (d_L b) (delta_D b) ms (q * nu) electrons x / nu) I); [exact Hl|]. intros x Hx. apply HB. auto. }
    intros nu Hnu. rewrite Rmin_left in Hnu by lra. assert (Hn0 : 0 < nu) by lra. specialize (HF nu Hn0).
    rewrite (C74_superposition P e (nu :: nil) r ms HP Hok HdtR Hint Hms Hr) in HF by (intros n [<-|[]]; auto). cbv zeta in HF. fold b gammas Ns electrons in HF. cbn [map] in HF. assert (EF : F nu = wsum l (scattered_sed P (d_L b) (delta_D b) ms (q * nu) electrons)).
    { rewrite <- El. apply (f_equal (fun r => match r with Ok (Some (x :: _)) => x | _ => 0 end)) in HF. cbv beta iota in HF. rewrite <- HF. f_equal. f_equal. unfold q, Rdiv. ring. }
    rewrite EF. apply wsum_div.
  - rewrite El, <- wsum_scale. eapply Rle_trans; [|apply (wsum_le ms l (fun x => delta_D b ^ 3 / (4 * PI * d_L b ^ 2) * thomson_power P ms (21 / 5) electrons x) I Hl)]. 2:{ intros x Hx. exact (proj1 (proj2 (HB x Hx))). } right. unfold wsum. clear. induction l as [|p l IH]; cbn [fold_right map fst snd]; auto. rewrite IH. f_equal. ring.
  - rewrite El, <- wsum_scale. eapply Rle_trans; [apply (wsum_le ms l I (fun x => delta_D b ^ 3 / (4 * PI * d_L b ^ 2) * thomson_power P ms 0 electrons x) Hl)|]. { intros x Hx. exact (proj2 (proj2 (HB x Hx))). } right. unfold wsum. clear. induction l as [|p l IH]; cbn [fold_right map fst snd]; auto. rewrite IH. f_equal. ring.
Qed.
Print Assumptions C88_power.

(** ** cases *)
(** head-on collision with a photon of 1e-4 m_e c^2 and gamma = 1000: the cross
    section is between 0.6 and 1 times that of Thomson *)
Example C88_case : is_RInt (fun es => 3 * c_sigmaT codata / (8 * 1000 * 0.2) * compton_kernel 1000 es 1e-4 1 (-1) 0) 0 1000 (klein_nishina codata 0.2) /\
  0.6 * c_sigmaT codata <= klein_nishina codata 0.2 <= c_sigmaT codata.
Proof.
  assert (Hc : cos_psi 1 (-1) 0 = -1). { unfold cos_psi. replace (1 - 1 ^ 2) with 0 by ring. rewrite sqrt_0. ring. }
  pose proof (C88_total codata 1000 1e-4 1 (-1) 0 1000 codata_ok ltac:(lra) ltac:(lra)) as T. rewrite Hc in T. specialize (T ltac:(lra) ltac:(lra)). cbv zeta in T. replace (1000 * 1e-4 * (1 - -1)) with 0.2 in T by lra. split; [exact T|].
  pose proof (C88_thomson codata 0.2 codata_ok ltac:(lra)). pose proof codata_ok as []. lra.
Qed.
Example C88_case_angle : compton_kernel 1000 (1000 * recoiled 0.2 0 * (1 - 0)) 1e-4 1 (-1) 0 = 1.2 + 1 / 1.2 - 1.
Proof.
  assert (Hc : cos_psi 1 (-1) 0 = -1). { unfold cos_psi. replace (1 - 1 ^ 2) with 0 by ring. rewrite sqrt_0. ring. }
  pose proof (C88_angle 1000 1e-4 1 (-1) 0 0 ltac:(lra) ltac:(lra)) as T. rewrite Hc in T. specialize (T ltac:(lra) ltac:(lra)). cbv zeta in T. replace (1000 * 1e-4 * (1 - -1)) with 0.2 in T by lra. rewrite T. unfold recoiled. lra.
Qed.
Example C88_case_ec : ec_ok ex_ec /\ mu_s (ec_blob ex_ec) = Ok (1 / 2) /\ ec_r ex_ec = Some 1e18 /\ 1e9 <= c_h codata * 1e30 * (1 + redshift (ec_blob ex_ec)) / (c_me codata * c_c codata ^ 2).
Proof.
  split; [exact C48_case|]. split. { unfold ex_ec. cbn [ec_blob]. rewrite mu_s_ok by (cbn [Gamma delta_D]; lra). cbn [Gamma delta_D]. f_equal. replace (1 - / (5 / 3) ^ 2) with ((4 / 5) ^ 2) by lra. rewrite sqrt_pow2 by lra. lra. }
  split; [reflexivity|]. unfold ex_ec, codata. cbn [ec_blob redshift c_h c_me c_c]. set (m := 9.1093837015e-28 * 29979245800 ^ 2). assert (Hm : 0 < m <= 8.19e-7) by (unfold m; lra). apply (proj1 (Rle_div_r 1e9 _ m ltac:(lra))). lra.
Qed.
