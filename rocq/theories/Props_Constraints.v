(** C63: the spectral constraints balance acceleration, crossing and loss *)
From Verif Require Import Base TEUtils ListFacts NumpyInst MathUtils Conversion Spectra Blob Synchrotron SSC Geometry Targets Constraints Spec_Math Spec_Spectra Spec_Blob MathFacts SpectraFacts BlobFacts SynchFacts TargetFacts Props_Targets.
From Coq Require Import List.
Import ListNotations.
Open Scope list_scope.
Open Scope R_scope.

(** the quantities the constraints compare, for an electron of Lorentz factor g *)
Definition energy (P : phys) (g : R) : R := g * c_me P * c_c P ^ 2.
Definition larmor_radius (P : phys) (b : blob) (g : R) : R := energy P g / (c_e P * B_field b).
Definition acceleration_power (P : phys) (b : blob) (g : R) : R := xi b * c_c P * energy P g / larmor_radius P b g.
Definition crossing_time (P : phys) (b : blob) : R := R_b b / c_c P.
(** energy loss in a photon or magnetic energy density u, Thomson regime *)
Definition loss_power (P : phys) (u g : R) : R := 4 / 3 * c_sigmaT P * c_c P * u * g ^ 2.

Lemma energy_pos P g : phys_ok P -> 0 < g -> 0 < energy P g.
Proof. intros [] H. unfold energy. pos. Qed.

(** gamma_max_larmor: exactly the electrons up to it have a Larmor radius within the blob *)
Theorem C63_larmor : forall P b g, phys_ok P -> 0 < B_field b -> 0 < g ->
  (larmor_radius P b g <= R_b b <-> g <= gamma_max_larmor P b) /\ larmor_radius P b (gamma_max_larmor P b) = R_b b.
Proof.
  intros P b g [] HB Hg. unfold larmor_radius, gamma_max_larmor, energy, B_cgs, B_to_cgs, mec2_erg, rest_energy, mass_of. set (K := c_me P * c_c P ^ 2). assert (HK : 0 < K) by (unfold K; pos).
  assert (HE : 0 < c_e P * B_field b) by pos. split.
  - replace (g * c_me P * c_c P ^ 2 / (c_e P * B_field b)) with (g * K / (c_e P * B_field b)) by (unfold K; field; lra). split; intros H.
    + apply Rmult_le_reg_r with K; auto. replace (R_b b * c_e P * B_field b / K * K) with (R_b b * (c_e P * B_field b)) by (field; lra).
      apply Rmult_le_compat_r with (r := c_e P * B_field b) in H; [|lra]. replace (g * K / (c_e P * B_field b) * (c_e P * B_field b)) with (g * K) in H by (field; lra). auto.
    + apply Rmult_le_reg_r with (c_e P * B_field b); auto. replace (g * K / (c_e P * B_field b) * (c_e P * B_field b)) with (g * K) by (field; lra).
      apply Rmult_le_compat_r with (r := K) in H; [|lra]. replace (R_b b * c_e P * B_field b / K * K) with (R_b b * (c_e P * B_field b)) in H by (field; lra). auto.
  - unfold K. field. repeat split; lra.
Qed.
Print Assumptions C63_larmor.

(** gamma_max_ballistic: the acceleration time energy / power reaches the crossing time *)
Lemma acc_time P b g : phys_ok P -> 0 < B_field b -> 0 < xi b -> 0 < g -> energy P g / acceleration_power P b g = g * c_me P * c_c P / (xi b * c_e P * B_field b).
Proof. intros [] HB Hx Hg. unfold acceleration_power, larmor_radius, energy. field. repeat split; lra. Qed.
Theorem C63_ballistic : forall P b g, phys_ok P -> 0 < B_field b -> 0 < xi b -> 0 < g -> 0 < R_b b ->
  (energy P g / acceleration_power P b g <= crossing_time P b <-> g <= gamma_max_ballistic P b) /\
  energy P (gamma_max_ballistic P b) / acceleration_power P b (gamma_max_ballistic P b) = crossing_time P b.
Proof.
  intros P b g HP HB Hx Hg HR. pose proof HP as []. unfold crossing_time.
  assert (HM : 0 < gamma_max_ballistic P b) by (unfold gamma_max_ballistic, gamma_max_larmor, B_cgs, B_to_cgs, mec2_erg, rest_energy, mass_of; pos).
  rewrite !acc_time by auto. set (K := c_me P * c_c P / (xi b * c_e P * B_field b)). assert (HK : 0 < K) by (unfold K; pos).
  assert (E : gamma_max_ballistic P b * K = R_b b / c_c P).
  { unfold K, gamma_max_ballistic, gamma_max_larmor, B_cgs, B_to_cgs, mec2_erg, rest_energy, mass_of. field. repeat split; lra. }
  assert (T : forall x, x * c_me P * c_c P / (xi b * c_e P * B_field b) = x * K) by (intros; unfold K; field; repeat split; lra).
  rewrite !T, E. split; [|reflexivity]. rewrite <- E. split; intros H.
  - apply Rmult_le_reg_r with K; auto.
  - apply Rmult_le_compat_r; lra.
Qed.
Print Assumptions C63_ballistic.

Lemma acc_const P b g : phys_ok P -> 0 < B_field b -> 0 < g -> acceleration_power P b g = xi b * c_c P * c_e P * B_field b.
Proof. intros [] HB Hg. unfold acceleration_power, larmor_radius, energy. field. repeat split; lra. Qed.
Lemma sqrt_ratio_ok x y : 0 <= x -> 0 < y -> sqrt_ratio x y = Ok (sqrt (x / y)).
Proof. intros Hx Hy. unfold sqrt_ratio. rewrite div_ok by lra. cbn [bind]. apply sqrt_ok. unfold Rdiv. apply Rmult_le_pos; auto. apply Rlt_le, Rinv_0_lt_compat; auto. Qed.
Lemma le_sqrt_iff g x : 0 < g -> 0 <= x -> (g <= sqrt x <-> g ^ 2 <= x).
Proof.
  intros Hg Hx. split; intros H.
  - rewrite <- (pow2_sqrt x Hx). apply pow_incr. split; lra.
  - rewrite <- (sqrt_pow2 g) by lra. apply sqrt_le_1_alt; auto.
Qed.
(** balance of the acceleration against the losses in an energy density u *)
Lemma max_balance P b u g : phys_ok P -> 0 < B_field b -> 0 < xi b -> 0 < u -> 0 < g ->
  (loss_power P u g <= acceleration_power P b g <-> g <= sqrt (3 * xi b * c_e P * B_field b / (4 * c_sigmaT P * u))) /\
  loss_power P u (sqrt (3 * xi b * c_e P * B_field b / (4 * c_sigmaT P * u))) = acceleration_power P b (sqrt (3 * xi b * c_e P * B_field b / (4 * c_sigmaT P * u))) /\
  0 < sqrt (3 * xi b * c_e P * B_field b / (4 * c_sigmaT P * u)).
Proof.
  intros HP HB Hx Hu Hg. pose proof HP as []. set (q := 3 * xi b * c_e P * B_field b / (4 * c_sigmaT P * u)). assert (Hq : 0 < q) by (unfold q; pos). pose proof (sqrt_lt_R0 q Hq).
  set (K := 4 / 3 * c_sigmaT P * c_c P * u). assert (HK : 0 < K) by (unfold K; pos). assert (E : xi b * c_c P * c_e P * B_field b = K * q) by (unfold K, q; field; lra).
  split; [|split; auto].
  - rewrite acc_const by auto. rewrite le_sqrt_iff by lra. unfold loss_power. fold K. rewrite E. split; intros H1.
    + apply Rmult_le_reg_l with K; auto.
    + apply Rmult_le_compat_l; lra.
  - rewrite acc_const by auto. unfold loss_power. fold K. rewrite pow2_sqrt by lra. lra.
Qed.
(** cooling break: the loss time reaches the crossing time *)
Lemma break_balance P b u g : phys_ok P -> 0 < u -> 0 < R_b b -> 0 < g ->
  let gb := 3 * mec2_erg P / (4 * c_sigmaT P * u * R_b b) in
  (crossing_time P b <= energy P g / loss_power P u g <-> g <= gb) /\ energy P gb / loss_power P u gb = crossing_time P b /\ 0 < gb.
Proof.
  intros HP Hu HR Hg gb. pose proof HP as []. assert (Hb : 0 < gb) by (unfold gb, mec2_erg, rest_energy, mass_of; pos).
  set (K := 3 * c_me P * c_c P / (4 * c_sigmaT P * u)). assert (HK : 0 < K) by (unfold K; pos).
  assert (T : forall x, 0 < x -> energy P x / loss_power P u x = K / x) by (intros x Hx; unfold K, energy, loss_power; field; repeat split; lra).
  assert (E : K / gb = crossing_time P b) by (unfold K, gb, mec2_erg, rest_energy, mass_of, crossing_time; field; repeat split; lra).
  rewrite !T by auto. split; [|auto]. rewrite <- E. split; intros H.
  - apply Rnot_lt_le. intros C. apply (Rlt_not_le (K / gb) (K / g)); auto. unfold Rdiv. apply Rmult_lt_compat_l; auto. apply Rinv_lt_contravar; auto. pos.
  - unfold Rdiv. apply Rmult_le_compat_l; [lra|]. apply Rinv_le_contravar; auto.
Qed.

(** gamma_max_synch: acceleration against the synchrotron losses of the Synchrotron class *)
Theorem C63_synch : forall P b ssa integ, phys_ok P -> 0 < B_field b -> 0 < xi b ->
  exists G, gamma_max_synch P b = Ok G /\ 0 < G /\
    (forall g, 0 < g -> (synch_loss_rate P {| sy_blob := b; sy_ssa := ssa; sy_integ := integ |} g <= acceleration_power P b g <-> g <= G)) /\
    synch_loss_rate P {| sy_blob := b; sy_ssa := ssa; sy_integ := integ |} G = acceleration_power P b G.
Proof.
  intros P b ssa integ HP HB Hx. pose proof HP as []. pose proof PI_RGT_0. unfold gamma_max_synch, B_cgs, B_to_cgs. rewrite sqrt_ratio_ok by pos.
  assert (HU : 0 < B_field b ^ 2 / (8 * PI)) by pos.
  assert (E : 6 * PI * xi b * c_e P / (c_sigmaT P * B_field b) = 3 * xi b * c_e P * B_field b / (4 * c_sigmaT P * (B_field b ^ 2 / (8 * PI)))) by (field; repeat split; lra).
  rewrite E. eexists. split; [reflexivity|]. destruct (max_balance P b _ 1 HP HB Hx HU ltac:(lra)) as (_ & A & B). split; auto. split.
  - intros g Hg. destruct (max_balance P b _ g HP HB Hx HU Hg) as (C & _). exact C.
  - exact A.
Qed.
Print Assumptions C63_synch.

(** gamma_max_SSC: acceleration against the Thomson losses of the SynchrotronSelfCompton class *)
Theorem C63_SSC : forall P b ssa integ, phys_ok P -> 0 < B_field b -> 0 < xi b -> 0 < u_ph_synch P b ->
  exists G, gamma_max_SSC P b = Ok G /\ 0 < G /\
    (forall g, 0 < g -> (ssc_loss_rate_thomson P {| sc_blob := b; sc_ssa := ssa; sc_integ := integ |} g <= acceleration_power P b g <-> g <= G)) /\
    ssc_loss_rate_thomson P {| sc_blob := b; sc_ssa := ssa; sc_integ := integ |} G = acceleration_power P b G.
Proof.
  intros P b ssa integ HP HB Hx HU. pose proof HP as []. unfold gamma_max_SSC, B_cgs, B_to_cgs. rewrite sqrt_ratio_ok by pos.
  eexists. split; [reflexivity|]. destruct (max_balance P b _ 1 HP HB Hx HU ltac:(lra)) as (_ & A & B). split; auto. split.
  - intros g Hg. destruct (max_balance P b _ g HP HB Hx HU Hg) as (C & _). exact C.
  - exact A.
Qed.
Print Assumptions C63_SSC.

(** gamma_max_EC_DT, gamma_break_EC_DT: losses in the energy density of the torus seen from the blob, at distance r (0 if not given) *)
Theorem C63_EC_DT : forall P b dt r u, phys_ok P -> 0 < B_field b -> 0 < xi b -> 0 < R_b b ->
  dt_u P dt (match r with Some r => r | None => 0 end) (Some b) = Ok u -> 0 < u ->
  (exists G, gamma_max_EC_DT P b dt r = Ok G /\ 0 < G /\
    (forall g, 0 < g -> (loss_power P u g <= acceleration_power P b g <-> g <= G)) /\ loss_power P u G = acceleration_power P b G) /\
  (exists G, gamma_break_EC_DT P b dt r = Ok G /\ 0 < G /\
    (forall g, 0 < g -> (crossing_time P b <= energy P g / loss_power P u g <-> g <= G)) /\ energy P G / loss_power P u G = crossing_time P b).
Proof.
  intros P b dt r u HP HB Hx HR Hdt HU. pose proof HP as []. unfold gamma_max_EC_DT, gamma_break_EC_DT, B_cgs, B_to_cgs. rewrite !Hdt. cbn [bind]. split.
  - rewrite sqrt_ratio_ok by pos. eexists. split; [reflexivity|]. destruct (max_balance P b _ 1 HP HB Hx HU ltac:(lra)) as (_ & A & B). split; auto. split; auto.
    intros g Hg. destruct (max_balance P b _ g HP HB Hx HU Hg) as (C & _). exact C.
  - assert (0 < 4 * c_sigmaT P * u * R_b b) by pos. rewrite div_ok by lra. eexists. split; [reflexivity|]. destruct (break_balance P b _ 1 HP HU HR ltac:(lra)) as (_ & A & B). split; auto. split; auto.
    intros g Hg. destruct (break_balance P b _ g HP HU HR Hg) as (C & _). exact C.
Qed.
Print Assumptions C63_EC_DT.

(** gamma_break_synch and gamma_break_SSC: the same with the loss rates of the two classes *)
Theorem C63_breaks : forall P b ssa integ, phys_ok P -> 0 < B_field b -> 0 < R_b b ->
  (exists G, gamma_break_synch P b = Ok G /\ 0 < G /\
    (forall g, 0 < g -> (crossing_time P b <= energy P g / synch_loss_rate P {| sy_blob := b; sy_ssa := ssa; sy_integ := integ |} g <-> g <= G)) /\
    energy P G / synch_loss_rate P {| sy_blob := b; sy_ssa := ssa; sy_integ := integ |} G = crossing_time P b) /\
  (0 < u_ph_synch P b -> exists G, gamma_break_SSC P b = Ok G /\ 0 < G /\
    (forall g, 0 < g -> (crossing_time P b <= energy P g / ssc_loss_rate_thomson P {| sc_blob := b; sc_ssa := ssa; sc_integ := integ |} g <-> g <= G)) /\
    energy P G / ssc_loss_rate_thomson P {| sc_blob := b; sc_ssa := ssa; sc_integ := integ |} G = crossing_time P b).
Proof.
  intros P b ssa integ HP HB HR. pose proof HP as []. pose proof PI_RGT_0. split.
  - unfold gamma_break_synch, B_cgs, B_to_cgs. assert (HU : 0 < B_field b ^ 2 / (8 * PI)) by pos. assert (0 < c_sigmaT P * B_field b ^ 2 * R_b b) by pos. rewrite div_ok by lra.
    assert (E : 6 * PI * mec2_erg P / (c_sigmaT P * B_field b ^ 2 * R_b b) = 3 * mec2_erg P / (4 * c_sigmaT P * (B_field b ^ 2 / (8 * PI)) * R_b b)) by (field; repeat split; lra).
    rewrite E. eexists. split; [reflexivity|]. destruct (break_balance P b _ 1 HP HU HR ltac:(lra)) as (_ & A & B). split; auto. split.
    + intros g Hg. destruct (break_balance P b _ g HP HU HR Hg) as (C & _). exact C.
    + exact A.
  - intros HU. unfold gamma_break_SSC. assert (0 < 4 * c_sigmaT P * u_ph_synch P b * R_b b) by pos. rewrite div_ok by lra.
    eexists. split; [reflexivity|]. destruct (break_balance P b _ 1 HP HU HR ltac:(lra)) as (_ & A & B). split; auto. split.
    + intros g Hg. destruct (break_balance P b _ g HP HU HR Hg) as (C & _). exact C.
    + exact A.
Qed.
Print Assumptions C63_breaks.

(** the three Lorentz factors of a synchrotron-cooled blob are not independent:
    gamma_max^2 = gamma_break * gamma_max_ballistic *)
Theorem C63_consistency : forall P b Gm Gb, phys_ok P -> 0 < B_field b -> 0 < xi b -> 0 < R_b b ->
  gamma_max_synch P b = Ok Gm -> gamma_break_synch P b = Ok Gb -> Gm ^ 2 = Gb * gamma_max_ballistic P b.
Proof.
  intros P b Gm Gb [] HB Hx HR. pose proof PI_RGT_0. unfold gamma_max_synch, gamma_break_synch, B_cgs, B_to_cgs. rewrite sqrt_ratio_ok by pos.
  assert (0 < c_sigmaT P * B_field b ^ 2 * R_b b) by pos. rewrite div_ok by lra. intros E1 E2. assert (E3 : sqrt (6 * PI * xi b * c_e P / (c_sigmaT P * B_field b)) = Gm) by (injection E1; auto).
  assert (E4 : 6 * PI * mec2_erg P / (c_sigmaT P * B_field b ^ 2 * R_b b) = Gb) by (injection E2; auto). subst Gm Gb. rewrite pow2_sqrt by pos.
  unfold gamma_max_ballistic, gamma_max_larmor, B_cgs, B_to_cgs, mec2_erg, rest_energy, mass_of. field. repeat split; lra.
Qed.
Print Assumptions C63_consistency.

(** no photons, no SSC constraint: both are 0 divisions *)
Theorem C63_no_photons : forall P b, u_ph_synch P b = 0 -> gamma_max_SSC P b = Err NonFinite /\ gamma_break_SSC P b = Err NonFinite.
Proof.
  intros P b H. unfold gamma_max_SSC, gamma_break_SSC, sqrt_ratio, div_res. rewrite H, !Rmult_0_r, Rmult_0_l. unfold Reqb. destruct (Req_EM_T 0 0); [|lra]. split; reflexivity.
Qed.
Print Assumptions C63_no_photons.

(** a blob of 1e16 cm, 1 G *)
Definition c63_blob : blob :=
  {| R_b := 1e16; redshift := 0.1; d_L := 1e27; delta_D := 10; Gamma := 10; B_field := 1; n_e := PowerLaw 1 2 10 1e5; n_p_opt := None; xi := 1; gamma_e_size := 200; gamma_p_size := 200 |}.
Example C63_case : (exists G, gamma_max_synch codata c63_blob = Ok G /\ 0 < G /\
    (forall g, 0 < g -> (synch_loss_rate codata {| sy_blob := c63_blob; sy_ssa := false; sy_integ := trapz |} g <= acceleration_power codata c63_blob g <-> g <= G)) /\
    synch_loss_rate codata {| sy_blob := c63_blob; sy_ssa := false; sy_integ := trapz |} G = acceleration_power codata c63_blob G) /\
  exists u, dt_u codata (dt_init codata 1e46 0.1 1e3 (Some 1e18)) 0 (Some c63_blob) = Ok u /\ 0 < u.
Proof.
  split; [apply C63_synch; [apply codata_ok|simpl; lra|simpl; lra]|].
  pose proof codata_ok as []. pose proof PI_RGT_0. unfold dt_u, dt_init. cbn [dt_R dt_xi dt_L_disk Gamma c63_blob].
  assert (0 < 4 * PI * c_c codata * ((1e18) ^ 2 + 0 ^ 2)) by pos. rewrite div_ok by lra. cbn [bind]. unfold Beta. cbn [Gamma c63_blob]. rewrite div_ok by lra. cbn [bind].
  rewrite sqrt_ok by lra. cbn [bind]. eexists. split; [reflexivity|]. replace (0 / sqrt ((1e18) ^ 2 + 0 ^ 2)) with 0 by (unfold Rdiv; ring). rewrite Rmult_0_r, Rminus_0_r. pos.
Qed.
