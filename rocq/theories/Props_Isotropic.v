(** Property C89: the scattering kernel of the synchrotron self Compton SED
    against the kernel of the external Compton SEDs, and the energy that the
    scattered photons carry. *)
From Coq Require Import Reals Lra Lia.
From Verif Require Import Base TEUtils ListFacts NumpyInst MathUtils Conversion Spectra Blob Synchrotron SSC Geometry Kernels Spec_Math Spec_Spectra Spec_Blob Spec_Rad Spec_Beams Spec_Emission MathFacts SpectraFacts BlobFacts Calculus AbsorptionFacts SynchFacts SynchFacts2 ComptonFacts TargetFacts Props_Synch Props_Blob Props_Fit Props_Opacity Props_Compton Props_Beams Props_Emission Props_SynchPower Props_KleinNishina.
From Coquelicot Require Import Coquelicot.
From Coq Require Import List.
Import ListNotations.
Open Scope list_scope.
Open Scope R_scope.

(** ** the kernel is the average over the directions of the photons *)
Lemma cos_psi_axis mu phi : cos_psi 1 mu phi = mu.
Proof. unfold cos_psi. replace (1 - 1 ^ 2) with 0 by ring. rewrite sqrt_0. ring. Qed.
Section Average.
Variables (g ep es phi : R).
Hypothesis Hg : 0 < g.
Hypothesis Hep : 0 < ep.
Hypothesis Hes : 0 < es < g.
Let q := es / (4 * g * ep * (g - es)).
Let y := 1 - es / g.
Lemma q_pos : 0 < q.
Proof. unfold q. assert (0 < g - es) by lra. pos. Qed.
Lemma y_pos : 0 < y.
Proof. unfold y. assert (es / g < 1) by (apply (proj2 (Rlt_div_l es 1 g Hg)); lra). lra. Qed.
(** kernel at the collision angle arccos mu *)
Lemma kernel_mu mu : mu < 1 -> compton_kernel g es ep 1 mu phi = if Rle_dec mu (1 - 2 * q) then y + 1 / y - 8 * q / (1 - mu) + 16 * q ^ 2 / (1 - mu) ^ 2 else 0.
Proof.
  intros Hmu. set (e := g * ep * (1 - mu)). assert (He : 0 < e) by (unfold e; pos; lra).
  assert (Q : es <= 2 * g * e / (1 + 2 * e) <-> mu <= 1 - 2 * q).
  { rewrite <- (Rle_div_r es (2 * g * e) (1 + 2 * e)) by lra. assert (Hd : 0 < 2 * (g * ep * (g - es))) by (pos; lra). assert (E2 : 2 * q * (2 * (g * ep * (g - es))) = es) by (unfold q; field; lra).
    split; intros H.
    - apply Rmult_le_reg_r with (2 * (g * ep * (g - es))); auto. unfold e in H. nra.
    - apply Rmult_le_compat_r with (r := 2 * (g * ep * (g - es))) in H; [|lra]. unfold e. nra. }
  assert (C : cos_psi 1 mu phi <= 1) by (rewrite cos_psi_axis; lra).
  destruct (Rle_dec mu (1 - 2 * q)) as [L|L].
  - apply Q in L. assert (Ee : e = g * ep * (1 - cos_psi 1 mu phi)) by (rewrite cos_psi_axis; reflexivity).
    destruct (Props_Beams.kernel_value g es ep 1 mu phi Hg (proj1 Hes) Hep C e Ee L) as (E & _ & _). cbv zeta in E. rewrite E. fold y. unfold q, e, y. field. repeat split; lra.
  - destruct (C45_kernel g es ep 1 mu phi Hg (proj1 Hes) Hep C) as (_ & K & _). rewrite cos_psi_axis in K. fold e in K. destruct (Req_dec (compton_kernel g es ep 1 mu phi) 0) as [Z|Z]; auto. apply K, Q in Z. contradiction.
Qed.
Lemma average_int : q <= 1 -> is_RInt (fun mu => compton_kernel g es ep 1 mu phi) (-1) 1 (4 * (2 * q * ln q + (1 - q) * ((y + 1 / y) / 2 + 2 * q))).
Proof.
  intros Hq1. pose proof q_pos as Hq. pose proof y_pos as Hy. set (f := fun mu => y + 1 / y - 8 * q / (1 - mu) + 16 * q ^ 2 / (1 - mu) ^ 2). set (A := fun mu => (y + 1 / y) * mu + 8 * q * ln (1 - mu) + 16 * q ^ 2 / (1 - mu)).
  assert (I : is_RInt f (-1) (1 - 2 * q) (Hierarchy.minus (A (1 - 2 * q)) (A (-1)))).
  { apply (is_RInt_derive A f); intros x Hx; rewrite Rmin_left, Rmax_right in Hx by lra.
    - unfold A, f. auto_derive; [repeat split; lra|]. field. repeat split; lra.
    - apply (ex_derive_continuous f). unfold f. auto_derive. repeat split; try lra. assert (0 < (1 - x) * ((1 - x) * 1)) by (rewrite Rmult_1_r; apply Rmult_lt_0_compat; lra). lra. }
  set (V := 4 * _). replace V with (plus (Hierarchy.minus (A (1 - 2 * q)) (A (-1))) 0).
  2:{ unfold plus, Hierarchy.minus, plus, opp; simpl. unfold A, V. replace (1 - (1 - 2 * q)) with (2 * q) by ring. replace (1 - -1) with 2 by ring. rewrite ln_mult by lra. field. repeat split; lra. }
  apply (@is_RInt_Chasles R_NormedModule) with (1 - 2 * q).
  - eapply is_RInt_ext; [|exact I]. intros x Hx. rewrite Rmin_left, Rmax_right in Hx by lra. rewrite kernel_mu by lra. destruct (Rle_dec x (1 - 2 * q)); [reflexivity|lra].
  - eapply is_RInt_ext; [|apply zero_int]. intros x Hx. rewrite Rmin_left, Rmax_right in Hx by lra. rewrite kernel_mu by lra. destruct (Rle_dec x (1 - 2 * q)); [lra|reflexivity].
Qed.
Lemma average_zero : 1 < q -> is_RInt (fun mu => compton_kernel g es ep 1 mu phi) (-1) 1 0.
Proof.
  intros Hq. eapply is_RInt_ext; [|apply zero_int]. intros x Hx. rewrite Rmin_left, Rmax_right in Hx by lra. rewrite kernel_mu by lra. destruct (Rle_dec x (1 - 2 * q)); [lra|reflexivity].
Qed.
End Average.
Theorem C89_average : forall gamma epsilon es phi, 0 < gamma <= 2 ^ 510 -> 0 < epsilon -> 0 < es < gamma ->
  1 / (4 * gamma ^ 2) <= es / (4 * gamma * epsilon * (gamma - es)) ->
  is_RInt (fun mu => compton_kernel gamma es epsilon 1 mu phi) (-1) 1 (4 * isotropic_kernel gamma epsilon es).
Proof.
  intros g ep es phi Hg Hep Hes Hq. pose proof (jones_eq codata g ep es Hg Hep) as J. unfold jones_cross_section in J. cbv zeta in J. pose proof codata_ok as [_ _ _ _ _ HsT _ _ _]. assert (Hg2 : 0 < g ^ 2) by (apply pow_lt; lra).
  assert (Hk : 0 < 3 * c_sigmaT codata / (4 * ep * g ^ 2)) by pos. set (k := 3 * c_sigmaT codata / (4 * ep * g ^ 2)) in *. clearbody k.
  destruct (Rlt_dec es g) as [_|?]; [|lra]. destruct (Rle_dec (1 / (4 * g ^ 2)) (es / (4 * g * ep * (g - es)))) as [_|?]; [|contradiction].
  destruct (Rle_dec (es / (4 * g * ep * (g - es))) 1) as [L|L].
  - apply Rmult_eq_reg_l in J; [|lra]. rewrite <- J. evar_last; [apply (average_int g ep es phi (proj1 Hg) Hep Hes L)|]. set (q := es / (4 * g * ep * (g - es))). set (l := ln q). unfold q. field. assert (0 < g - es) by lra. assert (4 * g * ep * (g - es) + 4 * g * ep * es = 4 * g * ep * g) by ring. assert (0 < g * ep) by (apply Rmult_lt_0_compat; lra). repeat split; nra.
  - replace (4 * isotropic_kernel g ep es) with 0. 2:{ assert (k * isotropic_kernel g ep es = 0) as Z by lra. apply Rmult_integral in Z. lra. } apply (average_zero g ep es phi (proj1 Hg) Hep Hes). lra.
Qed.
Print Assumptions C89_average.
(** the kernel of the Thomson limit *)
Definition G0 (q : R) : R := 2 * q * ln q + (1 + 2 * q) * (1 - q).
Lemma qlnq_ge q : 0 < q -> 2 * q - 2 * sqrt q <= q * ln q.
Proof.
  intros H. assert (Hs : 0 < sqrt q) by (apply sqrt_lt_R0; auto). assert (E : q = sqrt q * sqrt q) by (rewrite sqrt_sqrt; lra). set (s := sqrt q) in *.
  assert (L : ln q = 2 * ln s) by (rewrite E, ln_mult by auto; ring). rewrite L. pose proof (ln_ge_1inv s Hs) as K. rewrite E. apply Rmult_le_compat_l with (r := 2 * (s * s)) in K; [|nra]. replace (2 * (s * s) * (1 - / s)) with (2 * (s * s) - 2 * s) in K by (field; lra). lra.
Qed.
Lemma G0_ge q : 0 < q <= 1 -> (1 - q) / 8 <= G0 q.
Proof.
  intros H. pose proof (qlnq_ge q (proj1 H)) as K. assert (Hs : 0 < sqrt q) by (apply sqrt_lt_R0; lra). assert (E : q = sqrt q ^ 2) by (simpl; rewrite Rmult_1_r, sqrt_sqrt; lra). set (s := sqrt q) in *.
  assert (Hs1 : s <= 1). { destruct (Rle_lt_dec s 1); auto. exfalso. assert (1 < s ^ 2) by (simpl; nra). lra. }
  assert (C : 0 <= 2 * s ^ 3 + 2 * s ^ 2 - 25 / 8 * s + 7 / 8). { assert (0 <= 2 * s * (s - 46 / 100) ^ 2) by (apply Rmult_le_pos; [lra|apply pow2_ge_0]). pose proof (pow2_ge_0 (s - 462 / 1000)). nra. }
  assert (D : 0 <= (1 - s) * (2 * s ^ 3 + 2 * s ^ 2 - 25 / 8 * s + 7 / 8)) by (apply Rmult_le_pos; lra).
  unfold G0. replace (q * ln q) with (q * ln q) by reflexivity. apply Rle_trans with (2 * (2 * q - 2 * s) + (1 + 2 * q) * (1 - q)); [|lra]. rewrite E. lra.
Qed.
(** photons that lose energy or keep it up to the factor 4 gamma^2: left out by
    the isotropic kernel *)
Theorem C89_left_out : forall gamma epsilon es phi, 1 <= gamma -> 0 < epsilon -> 0 < es < gamma ->
  es / (4 * gamma * epsilon * (gamma - es)) < 1 / (4 * gamma ^ 2) ->
  isotropic_kernel gamma epsilon es = 0 /\ exists A, is_RInt (fun mu => compton_kernel gamma es epsilon 1 mu phi) (-1) 1 A /\ 0 < A.
Proof.
  intros g ep es phi Hg Hep Hes Hq. assert (Hg2 : 1 <= g ^ 2) by (simpl; nra). set (q := es / (4 * g * ep * (g - es))) in *. pose proof (q_pos g ep es ltac:(lra) Hep Hes) as Q0. fold q in Q0.
  assert (H4 : 1 / (4 * g ^ 2) <= 1 / 4). { apply (proj2 (Rle_div_l 1 (1 / 4) (4 * g ^ 2) ltac:(lra))). lra. }
  split.
  - destruct (C46_kernel g ep es ltac:(lra) Hep) as (_ & K & _). destruct (Req_dec (isotropic_kernel g ep es) 0) as [Z|Z]; auto. exfalso. revert Z. unfold isotropic_kernel. cbv zeta. destruct (Reqb_spec (4 * g * ep * (1 - es / g)) 0); [lra|].
    replace (es / g / (4 * g * ep * (1 - es / g))) with q. 2:{ unfold q. field. repeat split; lra. } destruct (Rleb_spec (1 / (4 * g ^ 2)) q); [lra|]. cbn [andb]. lra.
  - eexists. split; [apply (average_int g ep es phi ltac:(lra) Hep Hes); fold q; lra|]. fold q. pose proof (y_pos g es ltac:(lra) Hes) as Y0. set (y := 1 - es / g) in *. assert (Y2 : 2 <= y + 1 / y). { assert (0 <= (1 - y) ^ 2 / y) by (apply Rmult_le_pos; [apply pow2_ge_0|left; apply Rinv_0_lt_compat; auto]). replace (y + 1 / y) with (2 + (1 - y) ^ 2 / y) by (field; lra). lra. }
    assert (1 - q <= (1 - q) * ((y + 1 / y) / 2)) by (rewrite <- (Rmult_1_r (1 - q)) at 1; apply Rmult_le_compat_l; lra). pose proof (G0_ge q ltac:(lra)) as G. unfold G0 in G. lra.
Qed.
Print Assumptions C89_left_out.

(** ** photons scattered by one electron *)
Section Jones.
Variables (P : phys) (g e : R).
Hypothesis HP : phys_ok P.
Hypothesis Hg : 1 <= g.
Hypothesis He : 0 < e.
Let G := 4 * g * e.
Let qm := 1 / (4 * g ^ 2).
Let sT := c_sigmaT P.
Definition q_of (es : R) : R := es / (4 * g * e * (g - es)).
Definition es_of (q : R) : R := g * (4 * g * e) * q / (1 + 4 * g * e * q).
Definition Fq (q : R) : R := G0 q + (G * q) ^ 2 / (1 + G * q) * (1 - q) / 2.
Lemma G_pos : 0 < G.
Proof. unfold G. pos; lra. Qed.
Lemma qm_range : 0 < qm <= 1 / 4.
Proof. unfold qm. assert (1 <= g ^ 2) by (simpl; nra). split; [pos; lra|]. apply (proj2 (Rle_div_l 1 (1 / 4) (4 * g ^ 2) ltac:(lra))). lra. Qed.
Lemma es_range q : 0 < q -> 0 < es_of q < g.
Proof.
  intros H. pose proof G_pos. unfold es_of. fold G. assert (0 < G * q) by pos. split; [pos; lra|]. apply (proj2 (Rlt_div_l (g * G * q) g (1 + G * q) ltac:(lra))). nra.
Qed.
Lemma q_es q : 0 < q -> q_of (es_of q) = q.
Proof.
  intros H. pose proof G_pos. pose proof (es_range q H). unfold q_of, es_of. fold G. assert (0 < G * q) by pos. unfold G in *. field. repeat split; try lra. 
Qed.
Lemma q_mono a b : a < g -> b < g -> (a <= b <-> q_of a <= q_of b).
Proof.
  intros Ha Hb. pose proof G_pos. assert (0 < g * e) by (apply Rmult_lt_0_compat; lra). unfold q_of. assert (0 < 4 * g * e * (g - a)) by (pos; lra). assert (0 < 4 * g * e * (g - b)) by (pos; lra).
  assert (D : b / (4 * g * e * (g - b)) - a / (4 * g * e * (g - a)) = (b - a) * / (4 * e * (g - a) * (g - b))) by (field; repeat split; lra).
  assert (0 < / (4 * e * (g - a) * (g - b))) by (pos; lra). split; intros K.
  - assert (0 <= (b - a) * / (4 * e * (g - a) * (g - b))) by (apply Rmult_le_pos; lra). lra.
  - destruct (Rle_lt_dec a b); auto. exfalso. assert (0 < (a - b) * / (4 * e * (g - a) * (g - b))) by (apply Rmult_lt_0_compat; lra). lra.
Qed.
Definition jpt (es : R) : R := 3 * sT / (4 * e * g ^ 2) * Fq (q_of es).
Lemma jpt_cont es : 0 < es < g -> continuous jpt es.
Proof.
  intros H. pose proof G_pos as HG. apply (ex_derive_continuous jpt). unfold jpt, Fq, G0, q_of. assert (Hd : 0 < 4 * g * e * (g - es)) by (assert (0 < g - es) by lra; pos; lra). assert (Hq : 0 < es / (4 * g * e * (g - es))) by (apply Rdiv_lt_0_compat; lra).
  assert (0 < G * (es / (4 * g * e * (g - es)))) by pos. auto_derive. change (g + - es) with (g - es). change (es * / (4 * g * e * (g - es))) with (es / (4 * g * e * (g - es))). repeat split; lra.
Qed.
Lemma jones_jpt es : 0 < es -> jones_cross_section P g e es = if Rle_dec (es_of qm) es then if Rle_dec es (es_of 1) then jpt es else 0 else 0.
Proof.
  intros H. pose proof qm_range as Hq. pose proof (es_range qm (proj1 Hq)) as R0. pose proof (es_range 1 ltac:(lra)) as R1. unfold jones_cross_section. cbv zeta. change (es / (4 * g * e * (g - es))) with (q_of es). fold qm.
  destruct (Rlt_dec es g) as [L|L].
  - assert (E1 : es_of qm <= es <-> qm <= q_of es). { rewrite (q_mono _ _ (proj2 R0) L), (q_es qm (proj1 Hq)). tauto. }
    assert (E2 : es <= es_of 1 <-> q_of es <= 1). { rewrite (q_mono _ _ L (proj2 R1)), (q_es 1 ltac:(lra)). tauto. }
    destruct (Rle_dec qm (q_of es)) as [A|A]; destruct (Rle_dec (es_of qm) es) as [A'|A']; try tauto. destruct (Rle_dec (q_of es) 1) as [B|B]; destruct (Rle_dec es (es_of 1)) as [B'|B']; try tauto. 
  - destruct (Rle_dec (es_of qm) es); auto. destruct (Rle_dec es (es_of 1)); auto. lra.
Qed.
Lemma es_ends : es_of qm <= es_of 1.
Proof. pose proof qm_range as Hq. pose proof (es_range qm (proj1 Hq)) as R0. pose proof (es_range 1 ltac:(lra)) as R1. apply (q_mono _ _ (proj2 R0) (proj2 R1)). rewrite !q_es by lra. lra. Qed.
Lemma jones_int (w : R -> R) X : (forall x, continuous w x) -> g <= X ->
  is_RInt (fun q => 3 * sT * (w (es_of q) * Fq q / (1 + G * q) ^ 2)) qm 1 (RInt (fun es => w es * jpt es) (es_of qm) (es_of 1)) /\
  is_RInt (fun es => w es * jones_cross_section P g e es) 0 X (RInt (fun es => w es * jpt es) (es_of qm) (es_of 1)).
Proof.
  intros Hw HX. pose proof qm_range as Hq. pose proof (es_range qm (proj1 Hq)) as R0. pose proof (es_range 1 ltac:(lra)) as R1. pose proof es_ends as HE. pose proof G_pos as HG. pose proof HP as [_ _ _ _ _ HsT _ _ _]. split.
  - eapply is_RInt_ext; [|apply (is_RInt_comp (fun es => w es * jpt es) es_of (fun q => g * G / (1 + G * q) ^ 2))].
    + intros q Hq'. rewrite Rmin_left, Rmax_right in Hq' by lra. assert (0 < G * q) by (apply Rmult_lt_0_compat; lra). unfold scal; simpl; unfold mult; simpl. unfold jpt. rewrite q_es by lra. set (W := w _). set (FF := Fq q). unfold G in *. field. repeat split; lra.
    + intros q Hq'. rewrite Rmin_left, Rmax_right in Hq' by lra. apply (continuous_mult w jpt); auto. apply jpt_cont. apply es_range. lra.
    + intros q Hq'. rewrite Rmin_left, Rmax_right in Hq' by lra. assert (0 < G * q) by (apply Rmult_lt_0_compat; lra). split.
      * unfold es_of. fold G. auto_derive; [lra|]. field. lra.
      * apply (ex_derive_continuous (fun q => g * G / (1 + G * q) ^ 2)). auto_derive. assert (0 < (1 + G * q) * ((1 + G * q) * 1)) by (rewrite Rmult_1_r; apply Rmult_lt_0_compat; lra). lra.
  - set (V := RInt _ _ _). replace V with (plus 0 (plus V 0)) by (unfold plus; simpl; ring). apply (@is_RInt_Chasles R_NormedModule) with (es_of qm); [|apply (@is_RInt_Chasles R_NormedModule) with (es_of 1)].
    + eapply is_RInt_ext; [|apply zero_int]. intros x Hx. rewrite Rmin_left, Rmax_right in Hx by lra. simpl. rewrite jones_jpt by lra. destruct (Rle_dec (es_of qm) x); [lra|]. simpl. ring.
    + eapply is_RInt_ext. 2:{ apply (@RInt_correct R_CompleteNormedModule). apply (@ex_RInt_continuous R_CompleteNormedModule). intros x Hx. rewrite Rmin_left, Rmax_right in Hx by lra. apply (continuous_mult w jpt); auto. apply jpt_cont. lra. }
      intros x Hx. rewrite Rmin_left, Rmax_right in Hx by lra. simpl. rewrite jones_jpt by lra. destruct (Rle_dec (es_of qm) x); [|lra]. destruct (Rle_dec x (es_of 1)); [reflexivity|lra].
    + eapply is_RInt_ext; [|apply zero_int]. intros x Hx. rewrite Rmin_left, Rmax_right in Hx by lra. simpl. rewrite jones_jpt by lra. destruct (Rle_dec (es_of qm) x); destruct (Rle_dec x (es_of 1)); try lra; simpl; ring.
Qed.
(** bounds from the Thomson limit *)
Lemma Fq_bounds q : 0 < q <= 1 -> G0 q * (1 - 2 * (G * q)) <= Fq q / (1 + G * q) ^ 2 <= G0 q /\ G0 q * (1 - 3 * (G * q)) <= Fq q / (1 + G * q) ^ 3 <= G0 q.
Proof.
  intros H. pose proof G_pos as HG. pose proof (G0_ge q H) as H0. assert (Hx : 0 < G * q) by (apply Rmult_lt_0_compat; lra). unfold Fq. set (x := G * q) in *. set (z := G0 q) in *.
  set (r := x ^ 2 / (1 + x) * (1 - q) / 2). assert (Er : r * (2 * (1 + x)) = x ^ 2 * (1 - q)) by (unfold r; field; lra).
  assert (Hr : 0 <= r). { unfold r, Rdiv. apply Rmult_le_pos; [|lra]. apply Rmult_le_pos; [|lra]. apply Rmult_le_pos; [apply pow2_ge_0|left; apply Rinv_0_lt_compat; lra]. }
  assert (Hz : 0 <= z) by lra.
  assert (U2 : z + r <= z * (1 + x) ^ 2). { assert (r <= z * (2 * x + x ^ 2)); [|lra]. apply Rmult_le_reg_r with (2 * (1 + x)); [lra|]. rewrite Er. assert ((1 - q) * (x ^ 2) <= 8 * z * x ^ 2) by (apply Rmult_le_compat_r; [apply pow2_ge_0|lra]). assert (0 <= z * x * (2 * (2 + x) * (1 + x) - 8 * x)). { apply Rmult_le_pos; [apply Rmult_le_pos; lra|]. nra. } nra. }
  assert (P2 : 0 < (1 + x) ^ 2) by (apply pow_lt; lra). assert (P3 : 0 < (1 + x) ^ 3) by (apply pow_lt; lra).
  assert (L2 : (1 - 2 * x) * (1 + x) ^ 2 <= 1) by (assert (0 <= x ^ 2 * (3 + 2 * x)) by (apply Rmult_le_pos; [apply pow2_ge_0|lra]); lra).
  assert (L3 : (1 - 3 * x) * (1 + x) ^ 3 <= 1) by (assert (0 <= x ^ 2 * (6 + 8 * x + 3 * x ^ 2)) by (apply Rmult_le_pos; [apply pow2_ge_0|nra]); lra).
  repeat split.
  - apply (proj1 (Rle_div_r (z * (1 - 2 * x)) (z + r) _ P2)). assert (z * ((1 - 2 * x) * (1 + x) ^ 2) <= z * 1) by (apply Rmult_le_compat_l; lra). lra.
  - apply (proj2 (Rle_div_l (z + r) z _ P2)). lra.
  - apply (proj1 (Rle_div_r (z * (1 - 3 * x)) (z + r) _ P3)). assert (z * ((1 - 3 * x) * (1 + x) ^ 3) <= z * 1) by (apply Rmult_le_compat_l; lra). lra.
  - apply (proj2 (Rle_div_l (z + r) z _ P3)). assert (z * (1 + x) ^ 2 <= z * (1 + x) ^ 3); [|lra]. apply Rmult_le_compat_l; auto. assert (0 <= (1 + x) ^ 2 * x) by (apply Rmult_le_pos; lra). lra.
Qed.
End Jones.
Lemma G0_int0 a : 0 < a <= 1 -> is_RInt G0 a 1 (1 / 3 - (a ^ 2 * ln a + a - 2 / 3 * a ^ 3)).
Proof.
  intros H. set (A := fun q => q ^ 2 * ln q + q - 2 / 3 * q ^ 3).
  assert (I : is_RInt G0 a 1 (Hierarchy.minus (A 1) (A a))).
  { apply (is_RInt_derive A G0); intros x Hx; rewrite Rmin_left, Rmax_right in Hx by lra.
    - unfold A, G0. auto_derive; [lra|]. field. lra.
    - apply (ex_derive_continuous G0). unfold G0. auto_derive. lra. }
  evar_last; [exact I|]. unfold Hierarchy.minus, plus, opp; simpl. unfold A. rewrite ln_1. field.
Qed.
Lemma G0_int1 a : 0 < a <= 1 -> is_RInt (fun q => q * G0 q) a 1 (1 / 9 - (2 / 3 * a ^ 3 * ln a + a ^ 3 / 9 + a ^ 2 / 2 - a ^ 4 / 2)).
Proof.
  intros H. set (A := fun q => 2 / 3 * q ^ 3 * ln q + q ^ 3 / 9 + q ^ 2 / 2 - q ^ 4 / 2).
  assert (I : is_RInt (fun q => q * G0 q) a 1 (Hierarchy.minus (A 1) (A a))).
  { apply (is_RInt_derive A (fun q => q * G0 q)); intros x Hx; rewrite Rmin_left, Rmax_right in Hx by lra.
    - unfold A, G0. auto_derive; [lra|]. field. lra.
    - apply (ex_derive_continuous (fun q => q * G0 q)). unfold G0. auto_derive. lra. }
  evar_last; [exact I|]. unfold Hierarchy.minus, plus, opp; simpl. unfold A. rewrite ln_1. field.
Qed.
Lemma G0_int2 a : 0 < a <= 1 -> is_RInt (fun q => q ^ 2 * G0 q) a 1 (7 / 120 - (a ^ 4 * ln a / 2 + a ^ 4 / 8 + a ^ 3 / 3 - 2 / 5 * a ^ 5)).
Proof.
  intros H. set (A := fun q => q ^ 4 * ln q / 2 + q ^ 4 / 8 + q ^ 3 / 3 - 2 / 5 * q ^ 5).
  assert (I : is_RInt (fun q => q ^ 2 * G0 q) a 1 (Hierarchy.minus (A 1) (A a))).
  { apply (is_RInt_derive A (fun q => q ^ 2 * G0 q)); intros x Hx; rewrite Rmin_left, Rmax_right in Hx by lra.
    - unfold A, G0. auto_derive; [lra|]. field. lra.
    - apply (ex_derive_continuous (fun q => q ^ 2 * G0 q)). unfold G0. auto_derive. lra. }
  evar_last; [exact I|]. unfold Hierarchy.minus, plus, opp; simpl. unfold A. rewrite ln_1. field.
Qed.
Lemma ends_bounds a : 0 < a <= 1 / 4 -> 0 <= a ^ 2 * ln a + a - 2 / 3 * a ^ 3 <= a /\ 0 <= 2 / 3 * a ^ 3 * ln a + a ^ 3 / 9 + a ^ 2 / 2 - a ^ 4 / 2 <= 19 / 36 * a ^ 2 /\ 0 <= a ^ 4 * ln a / 2 + a ^ 4 / 8 + a ^ 3 / 3 - 2 / 5 * a ^ 5.
Proof.
  intros H. assert (L : - (1 / 2) <= a * ln a <= 0).
  { split. { pose proof (qlnq_ge a (proj1 H)) as K. assert (E : a = sqrt a ^ 2) by (simpl; rewrite Rmult_1_r, sqrt_sqrt; lra). set (s := sqrt a) in *. pose proof (pow2_ge_0 (s - 1 / 2)). lra. }
    assert (ln a <= 0) by (rewrite <- ln_1; apply ln_le; lra). nra. }
  set (l := a * ln a) in *. replace (a ^ 2 * ln a + a - 2 / 3 * a ^ 3) with (a * (l + 1 - 2 / 3 * a ^ 2)) by (unfold l; ring).
  replace (2 / 3 * a ^ 3 * ln a + a ^ 3 / 9 + a ^ 2 / 2 - a ^ 4 / 2) with (a ^ 2 * (2 / 3 * l + a / 9 + 1 / 2 - a ^ 2 / 2)) by (unfold l; field). replace (a ^ 4 * ln a / 2 + a ^ 4 / 8 + a ^ 3 / 3 - 2 / 5 * a ^ 5) with (a ^ 3 * (l / 2 + a / 8 + 1 / 3 - 2 / 5 * a ^ 2)) by (unfold l; field).
  assert (A2 : 0 <= a ^ 2 <= 1 / 16) by (split; [apply pow2_ge_0|simpl; nra]). assert (0 <= a ^ 3) by (apply pow_le; lra). repeat split.
  - apply Rmult_le_pos; lra.
  - rewrite <- (Rmult_1_r a) at 3. apply Rmult_le_compat_l; lra.
  - apply Rmult_le_pos; lra.
  - rewrite (Rmult_comm (19 / 36)). apply Rmult_le_compat_l; lra.
  - apply Rmult_le_pos; lra.
Qed.
Lemma one_bounds P g e X : phys_ok P -> 1 <= g -> 0 < e -> g <= X ->
  (exists N, is_RInt (fun es => jones_cross_section P g e es) 0 X N /\ c_sigmaT P * (1 - 8 / 3 * (g * e) - 3 / (4 * g ^ 2)) <= N <= c_sigmaT P) /\
  (exists E, is_RInt (fun es => es * jones_cross_section P g e es) 0 X E /\ 4 / 3 * c_sigmaT P * g ^ 2 * e * (1 - 63 / 10 * (g * e) - 1 / (3 * g ^ 4)) <= E <= 4 / 3 * c_sigmaT P * g ^ 2 * e).
Proof.
  intros HP Hg He HX. pose proof HP as [_ _ _ _ _ HsT _ _ _]. pose proof (G_pos g e Hg He) as HG. pose proof (qm_range g Hg) as Hq. set (qm := 1 / (4 * g ^ 2)) in *. set (G := 4 * g * e) in *. set (sT := c_sigmaT P) in *.
  destruct (ends_bounds qm Hq) as (B0 & B1 & B2). pose proof (G0_int0 qm ltac:(lra)) as I0. pose proof (G0_int1 qm ltac:(lra)) as I1. pose proof (G0_int2 qm ltac:(lra)) as I2.
  set (e0 := qm ^ 2 * ln qm + qm - 2 / 3 * qm ^ 3) in *. set (e1 := 2 / 3 * qm ^ 3 * ln qm + qm ^ 3 / 9 + qm ^ 2 / 2 - qm ^ 4 / 2) in *. set (e2 := qm ^ 4 * ln qm / 2 + qm ^ 4 / 8 + qm ^ 3 / 3 - 2 / 5 * qm ^ 5) in *. clearbody e0 e1 e2.
  assert (Hg2 : 1 <= g ^ 2) by (simpl; nra). split.
  - destruct (jones_int P g e HP Hg He (fun _ => 1) X const1_cont HX) as [J1 J2]. fold qm in J1, J2. fold G sT in J1. set (N := RInt _ _ _) in *. exists N. split. { eapply is_RInt_ext; [|exact J2]. intros x _. simpl. ring. }
    assert (IL : is_RInt (fun q => 3 * sT * (G0 q - 2 * G * (q * G0 q))) qm 1 (3 * sT * ((1 / 3 - e0) - 2 * G * (1 / 9 - e1)))). { apply (@is_RInt_scal R_NormedModule (fun q => G0 q - 2 * G * (q * G0 q))). apply (@is_RInt_minus R_NormedModule G0); [exact I0|]. apply (@is_RInt_scal R_NormedModule (fun q => q * G0 q)). exact I1. }
    assert (IU : is_RInt (fun q => 3 * sT * G0 q) qm 1 (3 * sT * (1 / 3 - e0))) by (apply (@is_RInt_scal R_NormedModule G0); exact I0).
    assert (L : 3 * sT * ((1 / 3 - e0) - 2 * G * (1 / 9 - e1)) <= N).
    { apply (is_RInt_le _ _ qm 1 _ _ ltac:(lra) IL J1). intros x Hx. apply Rmult_le_compat_l; [lra|]. destruct (Fq_bounds g e Hg He x ltac:(lra)) as ((F1 & _) & _). fold G in F1. rewrite Rmult_1_l. eapply Rle_trans; [|exact F1]. lra. }
    assert (U : N <= 3 * sT * (1 / 3 - e0)). { apply (is_RInt_le _ _ qm 1 _ _ ltac:(lra) J1 IU). intros x Hx. apply Rmult_le_compat_l; [lra|]. destruct (Fq_bounds g e Hg He x ltac:(lra)) as ((_ & F1) & _). fold G in F1. rewrite Rmult_1_l. exact F1. }
    split; [|assert (0 <= sT * e0) by (apply Rmult_le_pos; lra); lra]. apply Rle_trans with (2 := L). replace (3 / (4 * g ^ 2)) with (3 * qm) by (unfold qm; field; lra). replace (8 / 3 * (g * e)) with (2 / 3 * G) by (unfold G; field).
    replace (3 * sT * (1 / 3 - e0 - 2 * G * (1 / 9 - e1))) with (sT * (1 - 2 / 3 * G - 3 * e0 + 6 * (G * e1))) by field. apply Rmult_le_compat_l; [lra|]. assert (0 <= G * e1) by (apply Rmult_le_pos; lra). lra.
  - destruct (jones_int P g e HP Hg He (fun x => x) X id_cont HX) as [J1 J2]. fold qm in J1, J2. fold G sT in J1. set (E := RInt _ _ _) in *. exists E. split. { exact J2. }
    set (k := 3 * sT * (g * G)). assert (Hk : 0 < k) by (unfold k; pos; lra).
    assert (J1' : is_RInt (fun q => k * (q * (Fq g e q / (1 + G * q) ^ 3))) qm 1 E). { eapply is_RInt_ext; [|exact J1]. intros x Hx. rewrite Rmin_left, Rmax_right in Hx by lra. assert (0 < G * x) by (apply Rmult_lt_0_compat; lra). simpl. unfold es_of. fold G. unfold k. set (FF := Fq g e x). field. lra. }
    assert (IL : is_RInt (fun q => k * (q * G0 q - 3 * G * (q ^ 2 * G0 q))) qm 1 (k * ((1 / 9 - e1) - 3 * G * (7 / 120 - e2)))). { apply (@is_RInt_scal R_NormedModule (fun q => q * G0 q - 3 * G * (q ^ 2 * G0 q))). apply (@is_RInt_minus R_NormedModule (fun q => q * G0 q)); [exact I1|]. apply (@is_RInt_scal R_NormedModule (fun q => q ^ 2 * G0 q)). exact I2. }
    assert (IU : is_RInt (fun q => k * (q * G0 q)) qm 1 (k * (1 / 9 - e1))) by (apply (@is_RInt_scal R_NormedModule (fun q => q * G0 q)); exact I1).
    assert (L : k * ((1 / 9 - e1) - 3 * G * (7 / 120 - e2)) <= E).
    { apply (is_RInt_le _ _ qm 1 _ _ ltac:(lra) IL J1'). intros x Hx. apply Rmult_le_compat_l; [lra|]. destruct (Fq_bounds g e Hg He x ltac:(lra)) as (_ & (F1 & _)). fold G in F1. apply Rmult_le_compat_l with (r := x) in F1; [|lra]. eapply Rle_trans; [|exact F1]. lra. }
    assert (U : E <= k * (1 / 9 - e1)). { apply (is_RInt_le _ _ qm 1 _ _ ltac:(lra) J1' IU). intros x Hx. apply Rmult_le_compat_l; [lra|]. apply Rmult_le_compat_l; [lra|]. destruct (Fq_bounds g e Hg He x ltac:(lra)) as (_ & (_ & F1)). fold G in F1. exact F1. }
    replace (4 / 3 * sT * g ^ 2 * e) with (k / 9) by (unfold k, G; field). split; [|assert (0 <= k * e1) by (apply Rmult_le_pos; lra); lra]. apply Rle_trans with (2 := L).
    replace (k * (1 / 9 - e1 - 3 * G * (7 / 120 - e2))) with (k / 9 * (1 - 9 * e1 - 63 / 40 * G + 27 * (G * e2))) by field. apply Rmult_le_compat_l; [lra|]. assert (0 <= G * e2) by (apply Rmult_le_pos; lra). replace (63 / 10 * (g * e)) with (63 / 40 * G) by (unfold G; field). assert (Eq2 : 1 / (3 * g ^ 4) = 16 / 3 * qm ^ 2) by (unfold qm; field; lra). rewrite Eq2. pose proof (pow2_ge_0 qm). lra.
Qed.
(** an electron and a photon of an isotropic field: cross section and mean
    energy of the scattered photon *)
Theorem C89_photons : forall P gamma epsilon X, phys_ok P -> 1 <= gamma <= 2 ^ 510 -> 0 < epsilon -> gamma <= X ->
  exists N, is_RInt (fun es => 3 * c_sigmaT P / (4 * epsilon * gamma ^ 2) * isotropic_kernel gamma epsilon es) 0 X N /\
    c_sigmaT P * (1 - 8 / 3 * (gamma * epsilon) - 3 / (4 * gamma ^ 2)) <= N <= c_sigmaT P.
Proof.
  intros P g e X HP Hg He HX. destruct (one_bounds P g e X HP (proj1 Hg) He HX) as ((N & I & B) & _). exists N. split; auto. eapply is_RInt_ext; [|exact I]. intros x _. simpl. apply jones_eq; auto. lra.
Qed.
Print Assumptions C89_photons.
Theorem C89_energy : forall P gamma epsilon X, phys_ok P -> 1 <= gamma <= 2 ^ 510 -> 0 < epsilon -> gamma <= X ->
  exists E, is_RInt (fun es => es * (3 * c_sigmaT P / (4 * epsilon * gamma ^ 2) * isotropic_kernel gamma epsilon es)) 0 X E /\
    4 / 3 * c_sigmaT P * gamma ^ 2 * epsilon * (1 - 63 / 10 * (gamma * epsilon) - 1 / (3 * gamma ^ 4)) <= E <= 4 / 3 * c_sigmaT P * gamma ^ 2 * epsilon.
Proof.
  intros P g e X HP Hg He HX. destruct (one_bounds P g e X HP (proj1 Hg) He HX) as (_ & (N & I & B)). exists N. split; auto. eapply is_RInt_ext; [|exact I]. intros x _. simpl. rewrite jones_eq; auto. lra.
Qed.
Print Assumptions C89_energy.

(** ** the synchrotron self Compton SED *)
(** synchrotron photons in the blob that belong to the SED [synch] at the
    frequencies [nus]: photon energies (in units of m_e c^2) and energy
    densities per unit energy *)
Definition synch_field (P : phys) (b : blob) (nus synch : list R) : list (R * R) :=
  map (fun nF => let eps := comoving_energy P b (fst nF) in (eps, sphere_density P (R_b b) (4 * PI * d_L b ^ 2 * snd nF / (delta_D b ^ 4 * eps)))) (combine nus synch).
(** power that an electron gives to photons of energy eps and energy density u
    in the Thomson limit *)
Definition thomson_loss (P : phys) (u g : R) : R := 4 / 3 * c_sigmaT P * c_c P * u * g ^ 2.
Lemma synch_nonneg P b ssa nus synch : phys_ok P -> emitter_ok b (n_e b) -> gamma_min (n_e b) < gamma_max (n_e b) -> (forall g, 0 <= density (n_e b) g) -> (forall n, In n nus -> 0 < n) ->
  synch_sed_flux P {| sy_blob := b; sy_ssa := ssa; sy_integ := trapz |} nus = Ok synch -> length synch = length nus /\ forall F, In F synch -> 0 <= F.
Proof.
  intros HP Hb Hlt Hd Hn Hs. pose proof Hb as []. unfold synch_sed_flux in Hs. cbn [sy_blob sy_ssa sy_integ] in Hs. set (g := gamma_e b) in *.
  assert (Hg : forall x, In x g -> gamma_min (n_e b) <= x <= gamma_max (n_e b)) by (intros x; apply grid_in; auto). assert (Cg : corrected (n_e b) g = g) by (apply corrected_id; auto).
  assert (Hi : incr g) by (apply logspace_incr, log10_lt; auto).
  assert (N : forall n, In n nus -> 0 <= flux_pt P trapz (redshift b) (d_L b) (delta_D b) (B_field b) (R_b b) (n_e b) g n). { intros n Hn'. apply flux_pt_nonneg; auto. { left. reflexivity. } intros v Hv. apply Hg in Hv. lra. }
  destruct ssa.
  - assert (D : (forall a c, n_e b <> EmptyDist a c) \/ evaluate_SSA_integrand (n_e b) g = Err AttributeError) by (destruct (n_e b); [left; congruence .. | right; reflexivity]).
    destruct D as [D|D]. 2:{ unfold evaluate_sed_flux, evaluate, evaluate_tau_ssa in Hs. rewrite Cg, D in Hs. cbn [bind] in Hs. congruence. }
    rewrite sed_ssa in Hs by auto. cbn [bind snd] in Hs. apply ok_inj_eq in Hs. subst synch. rewrite map_length, Cg. split; auto. intros F HF. apply in_map_iff in HF. destruct HF as (n & <- & Hn'). pose proof (attenuation_range (tau_pt P trapz (redshift b) (delta_D b) (B_field b) (R_b b) (n_e b) g n)). specialize (N n Hn'). apply Rmult_le_pos; lra.
  - rewrite sed_plain in Hs. cbn [bind snd] in Hs. apply ok_inj_eq in Hs. subst synch. rewrite map_length, Cg. split; auto. intros F HF. apply in_map_iff in HF. destruct HF as (n & <- & Hn'). auto.
Qed.
Theorem C89_ssc : forall P b ssa hi synch F, phys_ok P -> emitter_ok b (n_e b) -> 1 <= gamma_min (n_e b) -> gamma_min (n_e b) < gamma_max (n_e b) -> gamma_max (n_e b) <= 2 ^ 510 ->
  (forall g, 0 <= density (n_e b) g) ->
  let frequencies := np_logspace 5 30 200 in
  let electrons := log_grid (gamma_min (n_e b)) (gamma_max (n_e b)) (gamma_e_size b) in
  synch_sed_flux P {| sy_blob := b; sy_ssa := ssa; sy_integ := trapz |} frequencies = Ok synch ->
  (forall nu, 0 < nu -> ssc_sed_flux P {| sc_blob := b; sc_ssa := ssa; sc_integ := trapz |} (nu :: nil) = Ok (F nu :: nil)) ->
  gamma_max (n_e b) <= comoving_energy P b hi ->
  exists E, band_flux F 0 hi E /\
    received b (trapezia (map (fun eu => (fst eu, over electrons (fun g => population b (n_e b) g * (thomson_loss P (snd eu) g * (1 - 63 / 10 * (g * fst eu) - 1 / (3 * g ^ 4)))))) (synch_field P b frequencies synch))) <= E /\
    E <= received b (over electrons (fun g => population b (n_e b) g * thomson_loss P (trapezia (synch_field P b frequencies synch)) g)).
Proof.
  intros P b ssa hi synch F HP Hb H1 Hlt Hmax Hd frequencies electrons Hs HF Hhi. pose proof Hb as []. pose proof HP as []. pose proof PI_RGT_0 as Hpi.
  assert (Hnu : forall n, In n frequencies -> 0 < n) by (intros n; apply logspace_pos).
  destruct (synch_nonneg P b ssa frequencies synch HP Hb Hlt Hd Hnu Hs) as [HL HN].
  set (mc2 := c_me P * c_c P ^ 2). assert (Hm : 0 < mc2) by (unfold mc2; pos).
  set (k := c_h P * (1 + redshift b) / (delta_D b * mc2)). assert (Hk : 0 < k) by (unfold k; pos). assert (Ek : forall n, comoving_energy P b n = k * n). { intros n. unfold comoving_energy, comoving, k. fold mc2. field. split; lra. }
  set (X := comoving_energy P b hi) in *. assert (EX : X = k * hi) by apply Ek. assert (Hhi0 : 0 < hi). { apply Rmult_lt_reg_l with k; lra. }
  assert (Hel : forall g, In g electrons -> gamma_min (n_e b) <= g <= gamma_max (n_e b)) by (intros x; apply grid_in; lra). assert (Hnd : nondecr electrons) by (apply incr_nondecr, logspace_incr, log10_lt; lra).
  assert (Hpop : forall x, 0 <= population b (n_e b) x). { intros x. unfold population. apply Rmult_le_pos; auto. left. pos. }
  set (fld := synch_field P b frequencies synch).
  assert (Hfld : forall p, In p fld -> 0 < fst p /\ 0 <= snd p).
  { intros p Hp. apply in_map_iff in Hp. destruct Hp as ([n x] & <- & Hp). cbn [fst snd]. pose proof (in_combine_l _ _ _ _ Hp) as Hp1. apply Hnu in Hp1. apply in_combine_r, HN in Hp. rewrite Ek. assert (0 < k * n) by pos. split; auto. unfold sphere_density, Rdiv. assert (0 < d_L b ^ 2) by pos. assert (0 < delta_D b ^ 4) by pos.
    apply Rmult_le_pos; [|left; pos]. apply Rmult_le_pos; [|left; pos]. apply Rmult_le_pos; [|left; pos]. apply Rmult_le_pos; auto. left. pos. }
  assert (Hinc : incr (map fst fld)).
  { replace (map fst fld) with (map (fun n => k * n) frequencies). { apply incr_map; [intros x y Hxy; apply Rmult_lt_compat_l; auto|apply logspace_incr; lra]. }
    unfold fld, synch_field. rewrite map_map. cbn [fst]. clear - HL Ek. clearbody frequencies k. revert synch HL. induction frequencies as [|n l IH]; intros [|x s] HL; try discriminate; auto. cbn [map combine fst]. rewrite <- Ek, <- IH by (cbn in HL; congruence). reflexivity. }
  set (V := fun e g => RInt (fun es => es * jones_cross_section P g e es) 0 X).
  assert (HV : forall e g, 0 < e -> In g electrons -> is_RInt (fun es => es * jones_cross_section P g e es) 0 X (V e g) /\ 4 / 3 * c_sigmaT P * g ^ 2 * e * (1 - 63 / 10 * (g * e) - 1 / (3 * g ^ 4)) <= V e g <= 4 / 3 * c_sigmaT P * g ^ 2 * e).
  { intros e g He Hg. apply Hel in Hg. destruct (one_bounds P g e X HP ltac:(lra) He ltac:(lra)) as (_ & E & I & B). unfold V. rewrite (@is_RInt_unique R_CompleteNormedModule _ _ _ _ I). auto. }
  set (D := delta_D b ^ 4 / (4 * PI * d_L b ^ 2)). assert (HD : 0 < D) by (unfold D; pos; lra). assert (ED : forall l, received b l = D * l) by (intros l; unfold received, D, Rdiv; ring).
  set (EE := fun p : R * R => snd p / fst p * c_c P * over electrons (fun g => population b (n_e b) g * V (fst p) g)).
  assert (I1 : is_RInt (fun t => trapezia (map (fun p => (fst p, t * (snd p / fst p * c_c P * over electrons (fun g => population b (n_e b) g * jones_cross_section P g (fst p) t)))) fld)) 0 X (trapezia (map (fun p => (fst p, EE p)) fld))).
  { apply (trapezia_int R fld (fun p t => t * (snd p / fst p * c_c P * over electrons (fun g => population b (n_e b) g * jones_cross_section P g (fst p) t)))). intros p Hp. apply Hfld in Hp.
    eapply is_RInt_ext. 2:{ apply (@is_RInt_scal R_NormedModule). apply (over_int electrons (fun g t => population b (n_e b) g * (t * jones_cross_section P g (fst p) t)) (fun g => population b (n_e b) g * V (fst p) g)). intros g Hg. apply (is_RInt_scal (fun t => t * jones_cross_section P g (fst p) t)). apply HV; [lra|auto]. }
    intros t _. unfold scal; simpl; unfold mult; simpl. set (kk := snd p / fst p * c_c P). replace (t * (kk * over electrons (fun g => population b (n_e b) g * jones_cross_section P g (fst p) t))) with (kk * (t * over electrons (fun g => population b (n_e b) g * jones_cross_section P g (fst p) t))) by ring. f_equal. rewrite over_scale. apply over_ext. intros g _. ring. }
  exists (D * trapezia (map (fun p => (fst p, EE p)) fld)). split; [|split].
  - red. assert (I3 : is_RInt (fun t => trapezia (map (fun p => (fst p, t * (snd p / fst p * c_c P * over electrons (fun g => population b (n_e b) g * jones_cross_section P g (fst p) t)))) fld)) (k * 0 + 0) (k * hi + 0) (trapezia (map (fun p => (fst p, EE p)) fld))).
    { replace (k * 0 + 0) with 0 by ring. replace (k * hi + 0) with X by (rewrite EX; ring). exact I1. }
    apply (is_RInt_comp_lin _ k 0 0 hi) in I3. apply (is_RInt_scal _ _ _ D) in I3. eapply is_RInt_ext; [|exact I3].
    intros n Hn. rewrite Rmin_left in Hn by lra. cbv beta. unfold scal. simpl. unfold mult. simpl. specialize (HF n ltac:(lra)). rewrite (C77_ssc P b ssa (n :: nil) synch HP Hb Hmax Hs) in HF. cbv zeta in HF. cbn [map] in HF.
    apply (f_equal (fun r => match r with Ok (x :: _) => x | _ => 0 end)) in HF. cbv beta iota in HF. rewrite <- HF. fold frequencies electrons mc2. rewrite ED, Ek. replace (k * n + 0) with (k * n) by ring. set (t := k * n). 
    replace (D * (t ^ 2 * mc2 * trapezia (map (fun nF => (comoving_energy P b (fst nF), sphere_density P (R_b b) (4 * PI * d_L b ^ 2 * snd nF / (delta_D b ^ 4 * comoving_energy P b (fst nF))) / (comoving_energy P b (fst nF) * mc2) * c_c P * over electrons (fun g => population b (n_e b) g * jones_cross_section P g (comoving_energy P b (fst nF)) t))) (combine frequencies synch))) / n)
      with (D * (k * (t * mc2 * trapezia (map (fun nF => (comoving_energy P b (fst nF), sphere_density P (R_b b) (4 * PI * d_L b ^ 2 * snd nF / (delta_D b ^ 4 * comoving_energy P b (fst nF))) / (comoving_energy P b (fst nF) * mc2) * c_c P * over electrons (fun g => population b (n_e b) g * jones_cross_section P g (comoving_energy P b (fst nF)) t))) (combine frequencies synch))))) by (unfold t; field; lra).
    f_equal. f_equal. rewrite trapezia_scale, map_map. unfold fld, synch_field. rewrite map_map. cbn [fst snd]. f_equal. apply map_ext_in. intros [x y] Hxy. apply in_combine_l, Hnu in Hxy. cbn [fst snd]. f_equal. rewrite Ek. assert (0 < k * x) by pos. field. split; lra.
  - rewrite ED. apply Rmult_le_compat_l; [lra|]. apply (trapezia_le R fld (fun eu => over electrons (fun g => population b (n_e b) g * (thomson_loss P (snd eu) g * (1 - 63 / 10 * (g * fst eu) - 1 / (3 * g ^ 4))))) EE); auto.
    intros p Hp. apply Hfld in Hp. destruct Hp as [Hp1 Hp2]. unfold EE. rewrite over_scale. apply over_le; auto. intros g Hg. destruct (HV (fst p) g Hp1 Hg) as (_ & B & _). apply Hel in Hg.
    assert (Hc : 0 <= snd p / fst p * c_c P * population b (n_e b) g). { apply Rmult_le_pos; auto. apply Rmult_le_pos; [|lra]. apply Rmult_le_pos; [lra|]. left. apply Rinv_0_lt_compat. auto. }
    apply Rmult_le_compat_l with (r := snd p / fst p * c_c P * population b (n_e b) g) in B; auto. unfold thomson_loss. set (w := 1 - 63 / 10 * (g * fst p) - 1 / (3 * g ^ 4)) in *. clearbody w. 
    replace (snd p / fst p * c_c P * population b (n_e b) g * (4 / 3 * c_sigmaT P * g ^ 2 * fst p * w)) with (population b (n_e b) g * (4 / 3 * c_sigmaT P * c_c P * snd p * g ^ 2 * w)) in B by (field; lra). lra.
  - rewrite ED. apply Rmult_le_compat_l; [lra|]. set (u := trapezia fld). 
    replace (over electrons (fun g => population b (n_e b) g * thomson_loss P u g)) with (trapezia (map (fun p => (fst p, snd p * over electrons (fun g => population b (n_e b) g * thomson_loss P 1 g))) fld)).
    2:{ set (O := over electrons (fun g => population b (n_e b) g * thomson_loss P 1 g)). transitivity (O * u). { unfold u. rewrite trapezia_scale. f_equal. apply map_ext. intros p. f_equal. ring. } rewrite Rmult_comm. unfold O. rewrite over_scale. apply over_ext. intros g _. unfold thomson_loss. ring. }
    apply (trapezia_le R fld EE); auto. intros p Hp. apply Hfld in Hp. destruct Hp as [Hp1 Hp2]. unfold EE. rewrite !over_scale. apply over_le; auto. intros g Hg. destruct (HV (fst p) g Hp1 Hg) as (_ & _ & B). apply Hel in Hg.
    assert (Hc : 0 <= snd p / fst p * c_c P * population b (n_e b) g). { apply Rmult_le_pos; auto. apply Rmult_le_pos; [|lra]. apply Rmult_le_pos; [lra|]. left. apply Rinv_0_lt_compat. auto. }
    apply Rmult_le_compat_l with (r := snd p / fst p * c_c P * population b (n_e b) g) in B; auto. unfold thomson_loss. 
    replace (snd p / fst p * c_c P * population b (n_e b) g * (4 / 3 * c_sigmaT P * g ^ 2 * fst p)) with (snd p * (population b (n_e b) g * (4 / 3 * c_sigmaT P * c_c P * 1 * g ^ 2))) in B by (field; lra). lra.
Qed.
Print Assumptions C89_ssc.

(** ** cases *)
Example C89_case : is_RInt (fun mu => compton_kernel 1000 1 1e-6 1 mu 0) (-1) 1 (4 * isotropic_kernel 1000 1e-6 1) /\
  isotropic_kernel 1000 1e-6 1e-9 = 0 /\
  exists E, is_RInt (fun es => es * (3 * c_sigmaT codata / (4 * 1e-6 * 1000 ^ 2) * isotropic_kernel 1000 1e-6 es)) 0 1000 E /\ 0.99 * (4 / 3 * c_sigmaT codata) <= E <= 4 / 3 * c_sigmaT codata.
Proof.
  assert (Big : 1000 <= 2 ^ 510). { apply Rle_trans with (2 ^ 10); [simpl; lra|]. apply Rle_pow; [lra|lia]. }
  split; [|split].
  - apply C89_average; lra.
  - apply (C89_left_out 1000 1e-6 1e-9 0); lra.
  - destruct (C89_energy codata 1000 1e-6 1000 codata_ok ltac:(lra) ltac:(lra) ltac:(lra)) as (E & I & B). exists E. split; auto. pose proof codata_ok as [_ _ _ _ _ HsT _ _ _]. split; [|lra]. apply Rle_trans with (2 := proj1 B).
    replace (4 / 3 * c_sigmaT codata * 1000 ^ 2 * 1e-6 * (1 - 63 / 10 * (1000 * 1e-6) - 1 / (3 * 1000 ^ 4))) with (4 / 3 * c_sigmaT codata * (1 - 63 / 10 / 1000 - 1 / (3 * 1000 ^ 4))) by (simpl; lra). lra.
Qed.
Example C89_case_ssc : exists F synch E,
  synch_sed_flux codata {| sy_blob := ex_blob; sy_ssa := true; sy_integ := trapz |} (np_logspace 5 30 200) = Ok synch /\
  (forall nu, 0 < nu -> ssc_sed_flux codata {| sc_blob := ex_blob; sc_ssa := true; sc_integ := trapz |} (nu :: nil) = Ok (F nu :: nil)) /\
  band_flux F 0 1e30 E /\
  E <= received ex_blob (over (log_grid 10 1e5 200) (fun g => population ex_blob (n_e ex_blob) g * thomson_loss codata (trapezia (synch_field codata ex_blob (np_logspace 5 30 200) synch)) g)).
Proof.
  destruct C77_case as (synch & Hs & Hmax). assert (Hd : forall g, 0 <= density (n_e ex_blob) g) by (intros g; apply (density_nonneg_build (ShPL 2.1)); lra).
  set (F := fun nu => match ssc_sed_flux codata {| sc_blob := ex_blob; sc_ssa := true; sc_integ := trapz |} (nu :: nil) with Ok (x :: _) => x | _ => 0 end).
  assert (HF : forall nu, 0 < nu -> ssc_sed_flux codata {| sc_blob := ex_blob; sc_ssa := true; sc_integ := trapz |} (nu :: nil) = Ok (F nu :: nil)).
  { intros nu _. unfold F. rewrite (C77_ssc codata ex_blob true (nu :: nil) synch codata_ok ex_emitter Hmax Hs). reflexivity. }
  assert (Hhi : gamma_max (n_e ex_blob) <= comoving_energy codata ex_blob 1e30).
  { unfold comoving_energy, comoving, codata, ex_blob. cbn [n_e gamma_max redshift delta_D c_h c_me c_c]. set (m := 9.1093837015e-28 * 29979245800 ^ 2). assert (Hm : 0 < m <= 8.19e-7) by (unfold m; lra). apply (proj1 (Rle_div_r 1e5 _ m ltac:(lra))). lra. }
  destruct (C89_ssc codata ex_blob true 1e30 synch F codata_ok ex_emitter) as (E & HE & _ & HU); auto.
  { unfold ex_blob. cbn [n_e gamma_min]. lra. } { unfold ex_blob. cbn [n_e gamma_min gamma_max]. lra. }
  exists F, synch, E. split; [exact Hs|]. split; [exact HF|]. split; [exact HE|]. exact HU.
Qed.
