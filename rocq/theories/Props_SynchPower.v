(** Property C86: what the synchrotron SED radiates in all is what the
    particles lose. *)
From Coq Require Import Reals Lra Lia.
From Verif Require Import Base TEUtils ListFacts NumpyInst MathUtils Conversion Spectra Blob Synchrotron Spec_Math Spec_Spectra Spec_Blob Spec_Rad Spec_Beams Spec_Emission MathFacts SpectraFacts BlobFacts Calculus AbsorptionFacts SynchFacts SynchFacts2 Props_Blob Props_Synch Props_Beams TargetFacts Props_Opacity Props_Thermal Props_Emission SynchPower.
From Coquelicot Require Import Coquelicot.
From Coq Require Import List.
Import ListNotations.
Open Scope list_scope.
Open Scope R_scope.

(** ** specification *)
(** critical frequency of a particle of mass m *)
Definition critical (P : phys) (m B g : R) : R := 3 * c_e P * B * g ^ 2 / (4 * PI * m * c_c P).
(** energy a particle of mass m loses per unit time: that of an electron of the
    same Lorentz factor times (m_e / m)^2 *)
Definition lost (P : phys) (m B g : R) : R := total_power P B g * (c_me P / m) ^ 2.
(** [E] is the flux (erg / cm2 / s) in the band from [lo] to [hi] of a source
    whose SED (nu F_nu) at frequency nu is [F nu] *)
Definition band_flux (F : R -> R) (lo hi E : R) : Prop := is_RInt (fun nu => F nu / nu) lo hi E.

(** ** one particle *)
Definition kappa (P : phys) : R := 9 * sqrt 3 / 2 * (c_e P ^ 4 / (c_me P ^ 2 * c_c P ^ 4 * c_sigmaT P)).
Lemma sqrt3 : 1.73205 <= sqrt 3 <= 1.73206.
Proof.
  split.
  - rewrite <- (sqrt_Rsqr 1.73205) by lra. apply sqrt_le_1_alt. unfold Rsqr. lra.
  - rewrite <- (sqrt_Rsqr 1.73206) by lra. apply sqrt_le_1_alt. unfold Rsqr. lra.
Qed.
Lemma kappa_codata : 0.9303 <= kappa codata <= 0.9305.
Proof.
  unfold kappa. pose proof sqrt3. set (r := c_e codata ^ 4 / _).
  assert (0.11936 <= r <= 0.11938). { unfold r, codata. cbn [c_e c_me c_c c_sigmaT]. clear. set (d := _ * _ * _). assert (Hd : 0 < d) by (unfold d; lra). split; [apply (proj1 (Rle_div_r 0.11936 _ _ Hd))|apply (proj2 (Rle_div_l _ 0.11938 _ Hd))]; unfold d; lra. }
  split; nra.
Qed.
Lemma critical_pos P m B g : phys_ok P -> 0 < m -> 0 < B -> 0 < g -> 0 < critical P m B g.
Proof.
  intros HP Hm HB Hg. pose proof HP as []. pose proof PI_RGT_0. unfold critical. pos.
Qed.
Lemma power_int P m B g a b : phys_ok P -> 0 < m -> 0 < B -> 0 < g -> 0 < a -> a <= b ->
  is_RInt (synch_power P m B g) a b (kappa P * lost P m B g * RInt synch_shape (a / critical P m B g) (b / critical P m B g)).
Proof.
  intros HP Hm HB Hg Ha Hb. pose proof HP as []. pose proof PI_RGT_0. pose proof (critical_pos P m B g HP Hm HB Hg) as Hc. set (c := critical P m B g) in *.
  set (K := sqrt 3 * c_e P ^ 3 * B / (m * c_c P ^ 2)).
  assert (EK : kappa P * lost P m B g = K * c). { unfold kappa, lost, total_power, K, c, critical. field. repeat split; lra. }
  assert (Hca : 0 < a / c) by (apply Rdiv_lt_0_compat; auto). assert (Hcab : a / c <= b / c) by (apply Rmult_le_compat_r; auto; left; apply Rinv_0_lt_compat; auto).
  pose proof (RInt_correct synch_shape (a / c) (b / c) (shape_ex _ _ Hca Hcab)) as I0.
  assert (I1 : is_RInt synch_shape (/ c * a + 0) (/ c * b + 0) (RInt synch_shape (a / c) (b / c))). { replace (/ c * a + 0) with (a / c) by (unfold Rdiv; ring). replace (/ c * b + 0) with (b / c) by (unfold Rdiv; ring). exact I0. }
  apply (is_RInt_comp_lin synch_shape (/ c) 0 a b) in I1. apply (is_RInt_scal _ _ _ (K * c)) in I1. rewrite EK.
  eapply is_RInt_ext; [|exact I1]. intros x _. unfold scal. simpl. unfold mult. simpl. unfold synch_power. cbv zeta. fold (critical P m B g). fold c. fold K.
  replace (/ c * x + 0) with (x / c) by (unfold Rdiv; ring). field. lra.
Qed.
Lemma lost_pos P m B g : phys_ok P -> 0 < m -> 0 < B -> 0 < g -> 0 < lost P m B g.
Proof.
  intros HP Hm HB Hg. pose proof HP as []. pose proof PI_RGT_0. unfold lost, total_power.
  pos.
Qed.
Lemma power_bounds m B g a b E : 0 < m -> 0 < B -> 0 < g -> 0 < a -> a <= b -> is_RInt (synch_power codata m B g) a b E ->
  0 <= E <= 1.005 * lost codata m B g /\
  (a <= 0.000001 * critical codata m B g -> 11 * critical codata m B g <= b -> 0.995 * lost codata m B g <= E).
Proof.
  intros Hm HB Hg Ha Hb HE. pose proof (power_int codata m B g a b codata_ok Hm HB Hg Ha Hb) as HI.
  assert (EE := eq_trans (eq_sym (@is_RInt_unique R_CompleteNormedModule _ _ _ _ HE)) (@is_RInt_unique R_CompleteNormedModule _ _ _ _ HI)). clear HI HE. subst E. pose proof (critical_pos codata m B g codata_ok Hm HB Hg) as Hc. pose proof (lost_pos codata m B g codata_ok Hm HB Hg) as Hl. pose proof kappa_codata as Hk.
  set (c := critical codata m B g) in *. set (k := kappa codata) in *. set (l := lost codata m B g) in *.
  assert (Hca : 0 < a / c) by (apply Rdiv_lt_0_compat; auto). assert (Hcab : a / c <= b / c) by (apply Rmult_le_compat_r; auto; left; apply Rinv_0_lt_compat; auto).
  pose proof (shape_total_up _ _ Hca Hcab) as U. assert (L0 : 0 <= RInt synch_shape (a / c) (b / c)). { apply RInt_ge_0; auto. { apply shape_ex; auto. } intros x _. left. apply shape_pos. }
  set (S := RInt synch_shape (a / c) (b / c)) in *. split; [split|].
  - apply Rmult_le_pos; auto. apply Rmult_le_pos; lra.
  - rewrite (Rmult_comm k l), Rmult_assoc, (Rmult_comm 1.005). apply Rmult_le_compat_l; [lra|]. nra.
  - intros H1 H2. assert (L : 1.0702 <= S). { apply shape_total_low. { split; auto. apply Rle_div_l; auto. } apply Rle_trans with 11; [lra|]. apply Rle_div_r; auto. }
    rewrite (Rmult_comm k l), Rmult_assoc, (Rmult_comm 0.995). apply Rmult_le_compat_l; [lra|]. nra.
Qed.

(** ** the whole blob *)
Lemma zero_int a b : is_RInt (fun _ : R => 0) a b 0.
Proof. evar_last. { apply @is_RInt_const. } unfold scal; simpl; unfold mult; simpl. ring. Qed.
Lemma over_int xs (f : R -> R -> R) (E : R -> R) a b : (forall x, In x xs -> is_RInt (f x) a b (E x)) -> is_RInt (fun t => over xs (fun x => f x t)) a b (over xs E).
Proof.
  induction xs as [|x0 xs IH]; intros H.
  - cbn. apply zero_int.
  - destruct xs as [|x1 xs].
    + cbn. apply zero_int.
    + rewrite over_cons2. eapply is_RInt_ext. { intros t _. symmetry. apply over_cons2. }
      apply (@is_RInt_plus R_NormedModule). 2:{ apply IH. intros x Hx. apply H. right. auto. }
      pose proof (H x0 (or_introl eq_refl)) as I0. pose proof (H x1 (or_intror (or_introl eq_refl))) as I1.
      pose proof (is_RInt_scal _ _ _ ((x1 - x0) / 2) _ (is_RInt_plus _ _ _ _ _ _ I0 I1)) as I2.
      replace ((x1 - x0) * (E x0 + E x1) / 2) with (scal ((x1 - x0) / 2) (plus (E x0) (E x1))) by (unfold scal, plus; simpl; unfold mult; simpl; field).
      eapply is_RInt_ext; [|exact I2]. intros t _. unfold scal, plus; simpl; unfold mult; simpl. field.
Qed.
Lemma sed_band m b s g lo hi (F : R -> R) : 0 < m -> emitter_ok b s -> gamma_min s < gamma_max s -> (forall x, 0 <= density s x) ->
  g = log_grid (gamma_min s) (gamma_max s) (length g) -> 0 < lo -> lo < hi ->
  (forall n, 0 < n -> F n = received b (comoving b n * over g (fun x => population b s x * synch_power codata m (B_field b) x (comoving b n)))) ->
  exists E, band_flux F lo hi E /\
    0 <= E <= 1.005 * received b (over g (fun x => population b s x * lost codata m (B_field b) x)) /\
    (comoving b lo <= 0.000001 * critical codata m (B_field b) (gamma_min s) -> 11 * critical codata m (B_field b) (gamma_max s) <= comoving b hi ->
     0.995 * received b (over g (fun x => population b s x * lost codata m (B_field b) x)) <= E).
Proof.
  intros Hm Hb Hgm Hd Eg Hlo Hhi HF. pose proof Hb as []. pose proof PI_RGT_0. pose proof codata_ok as HP.
  assert (Hin : forall x, In x g -> gamma_min s <= x <= gamma_max s). { intros x Hx. rewrite Eg in Hx. apply grid_in in Hx; auto. }
  assert (Hnd : nondecr g). { rewrite Eg. apply incr_nondecr, logspace_incr, log10_lt; auto. }
  set (q := (1 + redshift b) / delta_D b). assert (Hq : 0 < q) by (apply Rdiv_lt_0_compat; auto).
  assert (Eq : forall n, comoving b n = n * q) by (intros n; unfold comoving, q, Rdiv; ring).
  assert (Hlo' : 0 < comoving b lo) by (rewrite Eq; apply Rmult_lt_0_compat; auto). assert (Hlh : comoving b lo <= comoving b hi) by (rewrite !Eq; apply Rmult_le_compat_r; lra).
  assert (Hpop : forall x, 0 <= population b s x). { intros x. unfold population. apply Rmult_le_pos; auto. left. pos. }
  set (D := delta_D b ^ 4 / (4 * PI * d_L b ^ 2)). assert (HD : 0 < D). { unfold D. assert (0 < d_L b ^ 2) by (apply pow_lt; auto). assert (0 < delta_D b ^ 4) by (apply pow_lt; auto). apply Rdiv_lt_0_compat; auto. apply Rmult_lt_0_compat; lra. }
  assert (ED : forall l, received b l = D * l) by (intros l; unfold received, D, Rdiv; ring).
  set (E1 := fun x => RInt (synch_power codata m (B_field b) x) (comoving b lo) (comoving b hi)).
  assert (I1 : forall x, In x g -> is_RInt (synch_power codata m (B_field b) x) (comoving b lo) (comoving b hi) (E1 x)).
  { intros x Hx. apply (@RInt_correct R_CompleteNormedModule). eexists. apply power_int; auto. apply Hin in Hx. lra. }
  assert (I2 : is_RInt (fun t => over g (fun x => population b s x * synch_power codata m (B_field b) x t)) (comoving b lo) (comoving b hi) (over g (fun x => population b s x * E1 x))).
  { apply (over_int g (fun x t => population b s x * synch_power codata m (B_field b) x t)). intros x Hx. apply (is_RInt_scal (synch_power codata m (B_field b) x)), I1. auto. }
  exists (D * over g (fun x => population b s x * E1 x)). split; [|].
  - red. assert (I3 : is_RInt (fun t => over g (fun x => population b s x * synch_power codata m (B_field b) x t)) (q * lo + 0) (q * hi + 0) (over g (fun x => population b s x * E1 x))).
    { replace (q * lo + 0) with (comoving b lo) by (rewrite Eq; ring). replace (q * hi + 0) with (comoving b hi) by (rewrite Eq; ring). exact I2. }
    apply (is_RInt_comp_lin _ q 0 lo hi) in I3. apply (is_RInt_scal _ _ _ D) in I3. eapply is_RInt_ext; [|exact I3].
    intros n Hn. rewrite Rmin_left in Hn by lra. cbv beta. unfold scal. simpl. unfold mult. simpl. rewrite HF by lra. rewrite ED, Eq. replace (q * n + 0) with (n * q) by ring. field. lra.
  - rewrite ED. assert (B1 : forall x, In x g -> 0 <= E1 x <= 1.005 * lost codata m (B_field b) x). { intros x Hx. specialize (I1 x Hx). apply Hin in Hx. apply (power_bounds m (B_field b) x _ _ _ Hm em_B ltac:(lra) Hlo' Hlh I1). }
    split; [split|].
    + apply Rmult_le_pos; [lra|]. apply over_nonneg; auto. intros x Hx. apply Rmult_le_pos; auto. apply B1. auto.
    + replace (1.005 * (D * over g (fun x => population b s x * lost codata m (B_field b) x))) with (D * (1.005 * over g (fun x => population b s x * lost codata m (B_field b) x))) by ring.
      apply Rmult_le_compat_l; [lra|]. rewrite over_scale. apply over_le; auto. intros x Hx. specialize (B1 x Hx). specialize (Hpop x). nra.
    + intros C1 C2. replace (0.995 * (D * over g (fun x => population b s x * lost codata m (B_field b) x))) with (D * (0.995 * over g (fun x => population b s x * lost codata m (B_field b) x))) by ring.
      apply Rmult_le_compat_l; [lra|]. rewrite over_scale. apply over_le; auto. intros x Hx. pose proof (Hin x Hx) as Hx'. pose proof (I1 x Hx) as Ix. specialize (Hpop x).
      assert (M : forall u v, 0 < u -> u <= v -> critical codata m (B_field b) u <= critical codata m (B_field b) v).
      { intros u v Hu Hv. pose proof HP as []. unfold critical, Rdiv. apply Rmult_le_compat_r. { left. pos. } apply Rmult_le_compat_l. { left. pos. } apply pow_incr. lra. }
      destruct (power_bounds m (B_field b) x _ _ _ Hm em_B ltac:(lra) Hlo' Hlh Ix) as [_ L].
      assert (0.995 * lost codata m (B_field b) x <= E1 x). { apply L. { pose proof (M (gamma_min s) x ltac:(lra) ltac:(lra)). lra. } pose proof (M x (gamma_max s) ltac:(lra) ltac:(lra)). lra. } nra.
Qed.

(** ** C86 *)
(** A single particle: integrated over any band of frequencies its emission is
    at most 1.005 times what it loses, and at least 0.995 times if the band
    reaches from a millionth of the critical frequency to 11 times it *)
Theorem C86_particle : forall m B g lo hi, 0 < m -> 0 < B -> 0 < g -> 0 < lo -> lo < hi ->
  exists E, is_RInt (fun eps => single_particle_synch_power codata B eps g m) (c_h codata * lo / (m * c_c codata ^ 2)) (c_h codata * hi / (m * c_c codata ^ 2)) E /\
    0 <= E <= 1.005 * lost codata m B g /\
    (lo <= 0.000001 * critical codata m B g -> 11 * critical codata m B g <= hi -> 0.995 * lost codata m B g <= E).
Proof.
  intros m B g lo hi Hm HB Hg Hlo Hhi. pose proof codata_ok as HP. pose proof HP as [].
  set (k := c_h codata / (m * c_c codata ^ 2)). assert (Hk : 0 < k) by (apply Rdiv_lt_0_compat; auto; apply Rmult_lt_0_compat; auto; apply pow_lt; auto).
  pose proof (power_int codata m B g lo hi HP Hm HB Hg Hlo ltac:(lra)) as HI. set (E := kappa codata * _ * _) in HI.
  exists E. split; [|apply power_bounds; auto; lra].
  assert (I1 : is_RInt (synch_power codata m B g) (/ k * (k * lo) + 0) (/ k * (k * hi) + 0) E). { replace (/ k * (k * lo) + 0) with lo by (field; lra). replace (/ k * (k * hi) + 0) with hi by (field; lra). exact HI. }
  apply (is_RInt_comp_lin _ (/ k) 0 (k * lo) (k * hi)) in I1.
  replace (c_h codata * lo / (m * c_c codata ^ 2)) with (k * lo) by (unfold k, Rdiv; ring). replace (c_h codata * hi / (m * c_c codata ^ 2)) with (k * hi) by (unfold k, Rdiv; ring).
  eapply is_RInt_ext; [|exact I1]. intros e He. rewrite Rmin_left in He by nra. unfold scal; simpl; unfold mult; simpl. assert (0 < e) by nra.
  pose proof (power_eq codata m B g (/ k * e) e HP Hm HB Hg) as PE. replace (/ k * e + 0) with (/ k * e) by ring.
  apply (Rmult_eq_reg_l e); [|lra]. rewrite PE. { ring. } unfold k. field. repeat split; lra.
Qed.
Print Assumptions C86_particle.

(** The SED of the electrons of a blob against their energy loss rate *)
Theorem C86_electrons : forall b lo hi F, emitter_ok b (n_e b) -> gamma_min (n_e b) < gamma_max (n_e b) -> (forall g, 0 <= density (n_e b) g) -> 0 < lo -> lo < hi ->
  let sy := {| sy_blob := b; sy_ssa := false; sy_integ := trapz |} in
  let lum := over (log_grid (gamma_min (n_e b)) (gamma_max (n_e b)) (gamma_e_size b)) (fun g => population b (n_e b) g * synch_loss_rate codata sy g) in
  (forall nu, 0 < nu -> synch_sed_flux codata sy (nu :: nil) = Ok (F nu :: nil)) ->
  exists E, band_flux F lo hi E /\ 0 <= E <= 1.005 * received b lum /\
    (comoving b lo <= 0.000001 * critical codata (c_me codata) (B_field b) (gamma_min (n_e b)) ->
     11 * critical codata (c_me codata) (B_field b) (gamma_max (n_e b)) <= comoving b hi -> 0.995 * received b lum <= E).
Proof.
  intros b lo hi F Hb Hg Hd Hlo Hhi sy lum HF. pose proof codata_ok as HP. pose proof HP as []. pose proof PI_RGT_0.
  set (g := log_grid (gamma_min (n_e b)) (gamma_max (n_e b)) (gamma_e_size b)) in *. assert (El : lum = over g (fun x => population b (n_e b) x * lost codata (c_me codata) (B_field b) x)).
  { unfold lum. apply over_ext. intros x _. f_equal. unfold synch_loss_rate, lost, total_power, sy, B_cgs, B_to_cgs. cbn [sy_blob]. set (me := c_me codata) in *. replace (me / me) with 1 by (field; lra). ring. }
  rewrite El. apply sed_band; auto. { unfold g at 1, log_grid. f_equal. unfold g, log_grid. rewrite logspace_length. auto. }
  intros n Hn. specialize (HF n Hn). unfold sy in HF. rewrite C78_synchrotron in HF by auto. cbn [map] in HF. apply (f_equal (fun r => match r with Ok (x :: _) => x | _ => 0 end)) in HF. cbv beta iota in HF. symmetry. exact HF.
Qed.
Print Assumptions C86_electrons.

(** Protons lose (m_e / m_p)^2 of what electrons of the same Lorentz factor lose *)
Theorem C86_protons : forall b s lo hi F, n_p_opt b = Some s -> emitter_ok b s -> gamma_min s < gamma_max s -> (forall g, 0 <= density s g) -> 0 < lo -> lo < hi ->
  let lum := over (log_grid (gamma_min s) (gamma_max s) (gamma_p_size b)) (fun g => population b s g * lost codata (c_mp codata) (B_field b) g) in
  (forall nu, 0 < nu -> proton_sed_flux codata b trapz (nu :: nil) = Ok (F nu :: nil)) ->
  exists E, band_flux F lo hi E /\ 0 <= E <= 1.005 * received b lum /\
    (comoving b lo <= 0.000001 * critical codata (c_mp codata) (B_field b) (gamma_min s) ->
     11 * critical codata (c_mp codata) (B_field b) (gamma_max s) <= comoving b hi -> 0.995 * received b lum <= E).
Proof.
  intros b s lo hi F Hs Hb Hg Hd Hlo Hhi lum HF. pose proof codata_ok as HP. pose proof HP as [].
  unfold lum. apply sed_band; auto. { f_equal. symmetry. apply logspace_length. }
  intros n Hn. specialize (HF n Hn). rewrite (C78_proton _ b s) in HF by auto. cbn [map] in HF. apply (f_equal (fun r => match r with Ok (x :: _) => x | _ => 0 end)) in HF. cbv beta iota in HF. symmetry. exact HF.
Qed.
Print Assumptions C86_protons.

(** a blob with electrons from 10 to 1e5 and 1 G: the band from 1 kHz to 1e19 Hz
    contains everything but half a percent *)
Example C86_case : exists F E, let sy := {| sy_blob := ex_blob; sy_ssa := false; sy_integ := trapz |} in
  let lum := over (log_grid 10 1e5 200) (fun g => population ex_blob (n_e ex_blob) g * synch_loss_rate codata sy g) in
  (forall nu, 0 < nu -> synch_sed_flux codata sy (nu :: nil) = Ok (F nu :: nil)) /\ band_flux F 1000 1e19 E /\
  0.995 * received ex_blob lum <= E <= 1.005 * received ex_blob lum /\ 0 < lum.
Proof.
  pose proof PI_bounds as HPI.
  set (F := fun n => received ex_blob (comoving ex_blob n * over (log_grid (gamma_min (n_e ex_blob)) (gamma_max (n_e ex_blob)) (gamma_e_size ex_blob)) (fun g =>
        population ex_blob (n_e ex_blob) g * synch_power codata (c_me codata) (B_field ex_blob) g (comoving ex_blob n)))).
  assert (Hd : forall g, 0 <= density (n_e ex_blob) g) by (intros g; apply (density_nonneg_build (ShPL 2.1)); lra).
  assert (HF : forall nu, 0 < nu -> synch_sed_flux codata {| sy_blob := ex_blob; sy_ssa := false; sy_integ := trapz |} (nu :: nil) = Ok (F nu :: nil)).
  { intros nu _. rewrite C78_synchrotron by (apply codata_ok || apply ex_emitter). reflexivity. }
  destruct (C86_electrons ex_blob 1000 1e19 F ex_emitter) as (E & HE & HU & HL); auto.
  { unfold ex_blob. cbn [n_e gamma_min gamma_max]. lra. } { lra. } { lra. }
  exists F, E. cbv zeta. unfold ex_blob in HU at 2 3 4, HL at 7 8 9. cbn [n_e gamma_min gamma_max gamma_e_size] in HU, HL.
  split; [exact HF|]. split; [exact HE|]. split.
  - split; [|apply HU]. apply HL.
    + unfold comoving, critical, codata, ex_blob. cbn [redshift delta_D B_field c_e c_c c_me n_e gamma_min gamma_max]. set (d := 4 * PI * _ * _). assert (Hd1 : 0 < d) by (unfold d; lra).
      set (n := 3 * _ * _ * _). assert (400000000 <= n / d); [|lra]. apply (proj1 (Rle_div_r 400000000 n d Hd1)). unfold n, d. lra.
    + unfold comoving, critical, codata, ex_blob. cbn [redshift delta_D B_field c_e c_c c_me n_e gamma_min gamma_max]. set (d := 4 * PI * _ * _). assert (Hd1 : 0 < d) by (unfold d; lra).
      set (n := 3 * _ * _ * _). assert (n / d <= 4.3e16); [|lra]. apply (proj2 (Rle_div_l n 4.3e16 d Hd1)). unfold n, d. lra.
  - set (g := log_grid 10 1e5 200). assert (Hin : forall x, In x g -> 10 <= x <= 1e5) by (intros x Hx; apply grid_in in Hx; auto; lra).
    assert (Hpos : forall x, In x g -> 0 < population ex_blob (n_e ex_blob) x * synch_loss_rate codata {| sy_blob := ex_blob; sy_ssa := false; sy_integ := trapz |} x).
    { intros x Hx. apply Hin in Hx. unfold population, synch_loss_rate, B_cgs, B_to_cgs, density, in_range, ex_blob. cbn [n_e R_b sy_blob B_field gamma_min gamma_max]. rewrite !(proj2 (Rleb_true _ _)) by lra. cbn [andb].
      pose proof codata_ok as []. unfold npow. pos. apply exp_pos. }
    apply over_pos.
    + apply logspace_incr, log10_lt; lra.
    + unfold g, log_grid. rewrite logspace_length. lia.
    + intros x Hx. left. auto.
    + destruct (nth_error g 0) as [x|] eqn:Ex. { apply nth_error_In in Ex. exists x. auto. } unfold g, log_grid in Ex. rewrite logspace_nth in Ex by lia. discriminate.
Qed.
Example C86_proton_case : exists b s, n_p_opt b = Some s /\ emitter_ok b s /\ gamma_min s < gamma_max s /\ (forall g, 0 <= density s g) /\
  exists F, forall nu, 0 < nu -> proton_sed_flux codata b trapz (nu :: nil) = Ok (F nu :: nil).
Proof.
  set (b := set_n_p (PowerLaw 1 2 10 1e6) ex_blob). set (s := PowerLaw 1 2 10 1e6).
  assert (Hb : emitter_ok b s) by (constructor; unfold b, s, ex_blob, set_n_p; cbn [redshift d_L delta_D B_field R_b gamma_min gamma_max]; lra).
  exists b, s. split; [reflexivity|]. split; [exact Hb|]. split; [cbn; lra|]. split; [intros g; apply (density_nonneg_build (ShPL 2)); lra|].
  eexists (fun n => _). intros nu _. rewrite (C78_proton _ b s) by (apply codata_ok || reflexivity || exact Hb). cbn [map]. reflexivity.
Qed.
