(** Property C87: whether particles of higher energy lose energy faster. *)
From Coq Require Import Reals Lra Lia.
From Verif Require Import Base TEUtils ListFacts NumpyInst MathUtils Conversion Spectra Blob Synchrotron Kernels SSC Losses Spec_Math Spec_Spectra Spec_Blob Spec_Rad Spec_Beams Spec_Emission MathFacts SpectraFacts BlobFacts Calculus AbsorptionFacts SynchFacts SynchFacts2 Props_Blob Props_Synch ComptonFacts Props_Compton TargetFacts Props_Beams Props_Opacity Props_Emission.
From Coquelicot Require Import Coquelicot.
From Coq Require Import List.
Import ListNotations.
Open Scope list_scope.
Open Scope R_scope.

(** ** synchrotron, and Compton losses in the Thomson limit *)
Theorem C87_synchrotron : forall P sy g1 g2, phys_ok P -> 0 < B_field (sy_blob sy) -> 0 < g1 -> g1 < g2 -> synch_loss_rate P sy g1 < synch_loss_rate P sy g2.
Proof.
  intros P sy g1 g2 HP HB H1 H2. pose proof HP as []. pose proof PI_RGT_0. unfold synch_loss_rate, B_cgs, B_to_cgs.
  assert (0 < 4 / 3 * c_sigmaT P * c_c P * (B_field (sy_blob sy) ^ 2 / (8 * PI))) by pos. assert (g1 ^ 2 < g2 ^ 2) by (simpl; nra). nra.
Qed.
Print Assumptions C87_synchrotron.
Theorem C87_thomson : forall P s g1 g2, phys_ok P -> 0 < u_ph_synch P (sc_blob s) -> 0 < g1 -> g1 < g2 -> ssc_loss_rate_thomson P s g1 < ssc_loss_rate_thomson P s g2.
Proof.
  intros P s g1 g2 HP HB H1 H2. pose proof HP as []. unfold ssc_loss_rate_thomson.
  assert (0 < 4 / 3 * c_sigmaT P * c_c P * u_ph_synch P (sc_blob s)) by pos. assert (g1 ^ 2 < g2 ^ 2) by (simpl; nra). nra.
Qed.
Print Assumptions C87_thomson.

(** ** integrals over the frequency grid *)
Section Grid.
Variables (nu : list R) (E : R -> R).
Hypothesis Hinc : incr (map E nu).
Definition along (G : R -> R) : R := trapz (map G nu) (map E nu).
Lemma along_mono G H : (forall n, In n nu -> G n <= H n) -> along G <= along H.
Proof.
  intros HH. apply trapz_mono; auto. { rewrite !map_length. auto. } clear Hinc. induction nu as [|a l IH]; cbn; constructor.
  - apply HH. left. auto.
  - apply IH. intros n Hn. apply HH. right. auto.
Qed.
Lemma along_add G H : along (fun n => G n + H n) = along G + along H.
Proof.
  unfold along. rewrite <- trapz_add by (rewrite !map_length; auto). f_equal. clear. induction nu as [|a l IH]; cbn; auto. rewrite IH. auto.
Qed.
Lemma along_scale c G : along (fun n => c * G n) = c * along G.
Proof. unfold along. rewrite <- trapz_scale, map_map. auto. Qed.
Lemma along_nonneg G : (forall n, In n nu -> 0 <= G n) -> 0 <= along G.
Proof. intros HG. apply trapz_nonneg; auto. apply List.Forall_forall. intros x Hx. apply in_map_iff in Hx. destruct Hx as (n & <- & Hn). auto. Qed.
End Grid.
Lemma along_pos E : forall nu, incr (map E nu) -> (2 <= length nu)%nat -> forall G n, (forall m, In m nu -> 0 <= G m) -> In n nu -> 0 < G n -> 0 < along nu E G.
Proof.
  induction nu as [|a l IH]; intros Hi Hl G n HG Hn Hp; [contradiction|]. destruct l as [|b l]; [cbn in Hl; lia|].
  assert (Ha : 0 <= G a) by (apply HG; left; auto). assert (Hb : 0 <= G b) by (apply HG; right; left; auto).
  assert (HG' : forall m, In m (b :: l) -> 0 <= G m) by (intros m Hm; apply HG; right; auto).
  assert (Hi' : incr (map E (b :: l))) by (destruct Hi; auto).
  assert (X : along (a :: b :: l) E G = (G a + G b) * (E b - E a) / 2 + along (b :: l) E G). { unfold along. cbn [map]. rewrite trapz_cons2. field. }
  rewrite X. assert (Hab : E a < E b) by (destruct Hi; auto). pose proof (along_nonneg (b :: l) E Hi' G HG').
  destruct (Rlt_dec 0 (G a + G b)) as [L|L]. { assert (0 < (G a + G b) * (E b - E a) / 2) by (apply Rmult_lt_0_compat; [apply Rmult_lt_0_compat; lra|lra]). lra. }
  assert (G a = 0 /\ G b = 0) as [Ga Gb] by lra. rewrite Ga, Gb. destruct Hn as [<-|[<-|Hn]]; try lra.
  destruct l as [|c l]; [contradiction|]. assert (0 < along (b :: c :: l) E G); [|lra]. apply (IH Hi' ltac:(cbn; lia) G n HG'); auto. right. auto.
Qed.

(** ** the loss rate in terms of the spectrum of the photons *)
Lemma loss_form P s grid : phys_ok P ->
  sed_args nu_to_integrate (redshift (sc_blob s)) (d_L (sc_blob s)) (delta_D (sc_blob s)) (B_field (sc_blob s)) (R_b (sc_blob s)) grid ->
  spaced grid -> nonneg_dist (n_e (sc_blob s)) ->
  let b := sc_blob s in let E n := comoving_energy P b n in
  exists (F U : R -> R) k, 0 < k /\ (forall n, In n nu_to_integrate -> 0 <= U n /\ (0 < F n -> 0 < U n)) /\
    evaluate_sed_flux P nu_to_integrate (redshift b) (d_L b) (delta_D b) (B_field b) (R_b b) (n_e b) false trapz grid = Ok (corrected (n_e b) grid, map F nu_to_integrate) /\
    forall gammas, ssc_loss_rate P s grid gammas = Ok (corrected (n_e b) grid, map (fun g => k * along nu_to_integrate E (fun n => f_KN (4 * g * E n) * U n) * g ^ 2) gammas).
Proof.
  intros HP HA Hs Hd b E. assert (HA' := HA). destruct HA' as [Hz Hdl Hdd Hb Hr _ Hp]. fold b in Hz, Hdl, Hdd, Hb, Hr.
  destruct (C39_nonneg P nu_to_integrate (redshift b) (d_L b) (delta_D b) (B_field b) (R_b b) (n_e b) trapz grid HP HA Hs Hd (or_introl eq_refl)) as (grid' & sed & Es & L & N).
  set (F := flux_pt P trapz (redshift b) (d_L b) (delta_D b) (B_field b) (R_b b) (n_e b) (corrected (n_e b) grid)).
  assert (Es' := Es). rewrite sed_plain in Es'. apply ok_pair_inj in Es'. destruct Es' as [<- <-]. fold F in N, Es.
  assert (EE : map (fun n => nu_to_epsilon_prime P n (redshift b) (delta_D b) Electron) nu_to_integrate = map E nu_to_integrate) by (apply map_ext; intros n; apply eps_comoving; auto).
  assert (Epos : forall n, In n nu_to_integrate -> 0 < E n). { intros n Hn. destruct (eps_grid P (redshift b) (delta_D b) HP Hz Hdd) as [_ Ep]. apply Ep. rewrite EE. apply in_map. auto. }
  exists F, (fun n => evaluate_u_ph_synch_diff P (R_b b) (d_L b) (delta_D b) (E n) (F n)), (4 / 3 * c_sigmaT P * c_c P).
  pose proof HP as []. split; [pos|]. split.
  - intros n Hn. specialize (Epos n Hn). split.
    + apply u_diff_nonneg; auto. apply N. apply in_map. auto.
    + intros HF. unfold evaluate_u_ph_synch_diff. pos.
  - split; [exact Es|]. intros gammas. unfold ssc_loss_rate. fold b. rewrite Es, EE. cbn [bind]. f_equal.
Qed.

(** ** Compton losses with the Klein-Nishina correction *)
(** on either side of 4 gamma epsilon = 1e4 the loss to photons of one energy
    grows with gamma *)
Lemma kn_grows g1 g2 e : 0 < e -> 0 < g1 -> g1 <= g2 -> ~ (4 * g1 * e < 10 ^ 4 <= 4 * g2 * e) -> f_KN (4 * g1 * e) * g1 ^ 2 <= f_KN (4 * g2 * e) * g2 ^ 2.
Proof.
  intros He H1 H2 Hn. assert (P4 : 10 ^ 4 = 10000) by (simpl; lra). assert (Hb1 : 0 < 4 * g1 * e) by (apply Rmult_lt_0_compat; lra). assert (Hb : 4 * g1 * e <= 4 * g2 * e) by (apply Rmult_le_compat_r; lra).
  set (b1 := 4 * g1 * e) in *. set (b2 := 4 * g2 * e) in *.
  assert (Eb : forall f1 f2, f1 * b1 ^ 2 <= f2 * b2 ^ 2 -> f1 * g1 ^ 2 <= f2 * g2 ^ 2).
  { intros f1 f2 H. assert (K : 0 < (4 * e) ^ 2) by (apply pow_lt; lra). apply Rmult_le_reg_r with ((4 * e) ^ 2); auto. unfold b1, b2 in H. replace (f1 * g1 ^ 2 * (4 * e) ^ 2) with (f1 * (4 * g1 * e) ^ 2) by ring. replace (f2 * g2 ^ 2 * (4 * e) ^ 2) with (f2 * (4 * g2 * e) ^ 2) by ring. auto. }
  apply Eb. destruct (Rlt_dec b2 (10 ^ 4)) as [L|L].
  - rewrite !f_KN_low by lra. unfold npow. replace 1.5 with (1 + / 2) by lra. rewrite !Rpower_plus, !Rpower_1, !Rpower_sqrt by lra.
    set (s1 := sqrt (1 + b1)). set (s2 := sqrt (1 + b2)). assert (E1 : s1 * s1 = 1 + b1) by (apply sqrt_sqrt; lra). assert (E2 : s2 * s2 = 1 + b2) by (apply sqrt_sqrt; lra).
    assert (P1 : 1 < s1). { rewrite <- sqrt_1. apply sqrt_lt_1_alt. lra. } assert (P12 : s1 <= s2) by (apply sqrt_le_1_alt; lra). rewrite <- E1, <- E2. replace b1 with (s1 * s1 - 1) by lra. replace b2 with (s2 * s2 - 1) by lra.
    (* (s - 1/s)^2 / s increases *)
    assert (D : forall s, 1 <= s -> 1 / (s * s * s) * (s * s - 1) ^ 2 = s - 2 / s + 1 / s ^ 3) by (intros s Hs; field; lra).
    rewrite !D by lra.
    apply (mono_incr (fun s => s - 2 / s + 1 / s ^ 3) (fun s => 1 + 2 / s ^ 2 - 3 / s ^ 4)); auto.
    + intros x Hx. auto_derive. { repeat split; try lra. change (x ^ 3 <> 0). apply pow_nonzero. lra. } simpl. field. lra.
    + intros x Hx. assert (1 <= x ^ 2) by (simpl; nra). replace (1 + 2 / x ^ 2 - 3 / x ^ 4) with ((x ^ 2 - 1) * (x ^ 2 + 3) / x ^ 4) by (field; lra). apply Rmult_le_pos; [apply Rmult_le_pos; lra|]. left. apply Rinv_0_lt_compat, pow_lt. lra.
  - destruct (Rlt_dec b1 (10 ^ 4)) as [L1|L1]; [exfalso; apply Hn; lra|]. rewrite !f_KN_high by lra. unfold kn_high.
    replace (9 / (2 * b1 ^ 2) * (clog b1 - 11 / 6) * b1 ^ 2) with (9 / 2 * (clog b1 - 11 / 6)) by (field; lra). replace (9 / (2 * b2 ^ 2) * (clog b2 - 11 / 6) * b2 ^ 2) with (9 / 2 * (clog b2 - 11 / 6)) by (field; lra).
    pose proof (clog_mono b1 b2 Hb). lra.
Qed.
(** The claim "the loss rate grows with gamma" holds between Lorentz factors
    that no photon energy e of the grid separates in the sense that 4 gamma e
    passes 1e4, where the code changes from one approximation to the other.
    What is missing for the full claim is refuted below. *)
Theorem C87_ssc_partial : forall P s grid g1 g2, phys_ok P ->
  sed_args nu_to_integrate (redshift (sc_blob s)) (d_L (sc_blob s)) (delta_D (sc_blob s)) (B_field (sc_blob s)) (R_b (sc_blob s)) grid ->
  spaced grid -> nonneg_dist (n_e (sc_blob s)) -> 0 < g1 -> g1 <= g2 ->
  (forall n, In n (np_logspace 5 30 200) -> let e := comoving_energy P (sc_blob s) n in ~ (4 * g1 * e < 10 ^ 4 <= 4 * g2 * e)) ->
  exists grid' r1 r2, ssc_loss_rate P s grid [g1; g2] = Ok (grid', [r1; r2]) /\ 0 <= r1 <= r2.
Proof.
  intros P s grid g1 g2 HP HA Hs Hd H1 H2 Hn. destruct (loss_form P s grid HP HA Hs Hd) as (F & U & k & Hk & HU & _ & EL). rewrite EL. cbn [map].
  eexists. eexists. eexists. split; [reflexivity|]. destruct HA as [Hz Hdl Hdd Hb Hr _ Hp]. set (E := comoving_energy P (sc_blob s)) in *.
  assert (EE : map (fun n => nu_to_epsilon_prime P n (redshift (sc_blob s)) (delta_D (sc_blob s)) Electron) nu_to_integrate = map E nu_to_integrate) by (apply map_ext; intros n; apply eps_comoving; auto).
  destruct (eps_grid P (redshift (sc_blob s)) (delta_D (sc_blob s)) HP Hz Hdd) as [Ei Ep]. rewrite EE in Ei, Ep. assert (Epos : forall n, In n nu_to_integrate -> 0 < E n) by (intros n Hi; apply Ep, in_map; auto).
  assert (R : forall g, k * along nu_to_integrate E (fun n => f_KN (4 * g * E n) * U n) * g ^ 2 = k * along nu_to_integrate E (fun n => f_KN (4 * g * E n) * g ^ 2 * U n)).
  { intros g. rewrite Rmult_assoc. apply Rmult_eq_compat_l. rewrite Rmult_comm. unfold along. rewrite <- trapz_scale, map_map. f_equal. apply map_ext. intros n. ring. }
  rewrite !R. split.
  - apply Rmult_le_pos; [lra|]. apply along_nonneg; auto. intros n Hi. apply Rmult_le_pos; [|apply HU; auto]. apply Rmult_le_pos; [|apply pow2_ge_0]. left. apply f_KN_range. specialize (Epos n Hi). apply Rmult_le_pos; lra.
  - apply Rmult_le_compat_l; [lra|]. apply along_mono; auto. intros n Hi. apply Rmult_le_compat_r; [apply HU; auto|]. exact (kn_grows g1 g2 (E n) (Epos n Hi) H1 H2 (Hn n Hi)).
Qed.
Print Assumptions C87_ssc_partial.

(** Wherever the synchrotron photons of the grid are not absent, the loss rate
    has a downward jump at the Lorentz factor 1e4 / (4 e) *)
Theorem C87_ssc_drop : forall P s grid grid' sed j n x, phys_ok P ->
  sed_args nu_to_integrate (redshift (sc_blob s)) (d_L (sc_blob s)) (delta_D (sc_blob s)) (B_field (sc_blob s)) (R_b (sc_blob s)) grid ->
  spaced grid -> nonneg_dist (n_e (sc_blob s)) ->
  evaluate_sed_flux P (np_logspace 5 30 200) (redshift (sc_blob s)) (d_L (sc_blob s)) (delta_D (sc_blob s)) (B_field (sc_blob s)) (R_b (sc_blob s)) (n_e (sc_blob s)) false trapz grid = Ok (grid', sed) ->
  nth_error (np_logspace 5 30 200) j = Some n -> nth_error sed j = Some x -> 0 < x ->
  let jump := 10 ^ 4 / (4 * comoving_energy P (sc_blob s) n) in
  exists k, 0 < k < 1 /\ forall g, k * jump < g -> g < jump ->
    exists r1 r2, ssc_loss_rate P s grid [g; jump] = Ok (grid', [r1; r2]) /\ r2 < r1.
Proof.
  intros P s grid grid' sed j n x HP HA Hs Hd HE Hj Hx Hp jump.
  assert (P4 : 10 ^ 4 = 10000) by (simpl; lra).
  destruct (loss_form P s grid HP HA Hs Hd) as (F & U & k0 & Hk0 & HU & HE' & EL). fold nu_to_integrate in HE, Hj. rewrite HE' in HE. apply ok_pair_inj in HE. destruct HE as [Eg Es].
  pose proof HA as [Hz Hdl Hdd Hb Hr _ _]. set (E := comoving_energy P (sc_blob s)) in *.
  assert (EE : map (fun n => nu_to_epsilon_prime P n (redshift (sc_blob s)) (delta_D (sc_blob s)) Electron) nu_to_integrate = map E nu_to_integrate) by (apply map_ext; intros m; apply eps_comoving; auto).
  destruct (eps_grid P (redshift (sc_blob s)) (delta_D (sc_blob s)) HP Hz Hdd) as [Ei Ep]. rewrite EE in Ei, Ep. assert (Epos : forall m, In m nu_to_integrate -> 0 < E m) by (intros m Hi; apply Ep, in_map; auto).
  assert (Hin : In n nu_to_integrate) by (eapply nth_error_In; eauto). assert (Hen := Epos n Hin). assert (HFn : F n = x). { rewrite <- Es, nth_error_map, Hj in Hx. cbn in Hx. congruence. }
  assert (HUn : 0 < U n) by (apply HU; auto; lra).
  assert (Hjump : 0 < jump) by (unfold jump; rewrite P4; apply Rdiv_lt_0_compat; lra). assert (Ej : 4 * jump * E n = 10 ^ 4) by (unfold jump; field; lra).
  set (S := fun g => along nu_to_integrate E (fun m => f_KN (4 * g * E m) * U m)) in *.
  set (dl := 1 / (10001 * 101) - 9 / (2 * (10 ^ 4) ^ 2) * (12 - 11 / 6)). assert (Hdl' : 0 < dl) by (unfold dl; rewrite P4; simpl; lra).
  set (ind := fun m => if Req_EM_T m n then dl * U n else 0). set (d := along nu_to_integrate E ind).
  assert (Hd0 : 0 < d). { unfold d. apply along_pos with (n := n); auto. - unfold nu_to_integrate. rewrite logspace_length. lia. - intros m _. unfold ind. destruct (Req_EM_T m n); [|lra]. apply Rmult_le_pos; lra. - unfold ind. destruct (Req_EM_T n n); [|congruence]. apply Rmult_lt_0_compat; lra. }
  assert (HS0 : 0 <= S jump). { apply along_nonneg; auto. intros m Hm. apply Rmult_le_pos; [|apply HU; auto]. left. apply f_KN_range. specialize (Epos m Hm). apply Rmult_le_pos; lra. }
  assert (HSg : forall g, 0 < g -> g < jump -> S jump + d <= S g).
  { intros g Hg Hgj. unfold S, d. rewrite <- along_add. apply along_mono; auto. intros m Hm. specialize (Epos m Hm). destruct (HU m Hm) as [HUm _]. assert (H0 : 0 <= 4 * g * E m) by (apply Rmult_le_pos; lra). assert (Hle : 4 * g * E m <= 4 * jump * E m) by (apply Rmult_le_compat_r; lra).
    unfold ind. destruct (Req_EM_T m n) as [->|Hne].
    - rewrite Ej. assert (Hlt : 4 * g * E n < 10 ^ 4) by (rewrite <- Ej; apply Rmult_lt_compat_r; lra). pose proof (kn_low_ge _ H0 Hlt) as A. rewrite <- f_KN_low in A by auto. pose proof (kn_high_le (10 ^ 4) (Rle_refl _)) as B. rewrite <- f_KN_high in B by lra.
      rewrite <- Rmult_plus_distr_r. apply Rmult_le_compat_r; [lra|]. unfold dl. lra.
    - rewrite Rplus_0_r. apply Rmult_le_compat_r; auto. apply f_KN_decr; auto. }
  exists (1 - d / (2 * (S jump + d))). assert (Hq : 0 < d / (2 * (S jump + d)) <= 1 / 2). { split; [apply Rdiv_lt_0_compat; lra|]. apply (proj2 (Rle_div_l d (1 / 2) (2 * (S jump + d)) ltac:(lra))). lra. }
  set (q := d / (2 * (S jump + d))) in *. assert (Eq : q * (2 * (S jump + d)) = d) by (unfold q; field; lra). split; [lra|]. intros g Hg1 Hg2.
  assert (Hg0 : 0 < g). { apply Rlt_trans with ((1 - q) * jump); auto. apply Rmult_lt_0_compat; lra. } rewrite EL. cbn [map]. rewrite <- Eg. eexists. eexists. split; [reflexivity|]. fold (S g) (S jump).
  specialize (HSg g Hg0 Hg2). rewrite !Rmult_assoc. apply Rmult_lt_compat_l; auto.
  apply Rlt_le_trans with ((S jump + d) * g ^ 2); [|apply Rmult_le_compat_r; auto; apply pow2_ge_0].
  apply Rle_lt_trans with ((S jump + d) * ((1 - q) * jump) ^ 2).
  - replace ((S jump + d) * ((1 - q) * jump) ^ 2) with (((S jump + d) - q * (2 * (S jump + d)) + (S jump + d) * q ^ 2) * jump ^ 2) by ring. rewrite Eq. apply Rmult_le_compat_r; [apply pow2_ge_0|]. assert (0 <= (S jump + d) * q ^ 2) by (apply Rmult_le_pos; [lra|apply pow2_ge_0]). lra.
  - apply Rmult_lt_compat_l; [lra|]. assert (0 < (1 - q) * jump) by (apply Rmult_lt_0_compat; lra). set (w := (1 - q) * jump) in *. simpl. nra.
Qed.
Print Assumptions C87_ssc_drop.

(** ** a blob with electrons from 10 to 1e7 in a field of 1 G, 1e4 / (4 e) for
    the 120th photon energy of the grid lies inside the range of the electrons *)
Definition hot_blob : blob := set_n_e (PowerLaw 1e-13 2.1 10 1e7) ex_blob.
Definition hot_ssc : ssc := {| sc_blob := hot_blob; sc_ssa := false; sc_integ := trapz |}.
Definition hot_grid : list R := [10; 1000; 1e5; 1e7].
Lemma hot_args : sed_args nu_to_integrate (redshift hot_blob) (d_L hot_blob) (delta_D hot_blob) (B_field hot_blob) (R_b hot_blob) hot_grid.
Proof. unfold hot_blob, ex_blob. cbn [set_n_e redshift d_L delta_D B_field R_b]. constructor; try lra; [exact nu_grid_pos|]. intros x H; cbn [hot_grid In] in H; intuition subst; lra. Qed.
Lemma hot_spaced : spaced hot_grid.
Proof. unfold hot_grid, spaced. simpl. lra. Qed.
Lemma hot_ne : nonneg_dist (n_e hot_blob).
Proof. repeat split; try (simpl; lra). intros g. apply (density_nonneg_build (ShPL 2.1)). lra. Qed.
Definition hot_nu : R := pow10 (5 + INR 120 * ((30 - 5) / INR (200 - 1))).
Lemma hot_sed : exists x sed, evaluate_sed_flux codata (np_logspace 5 30 200) (redshift hot_blob) (d_L hot_blob) (delta_D hot_blob) (B_field hot_blob) (R_b hot_blob) (n_e hot_blob) false trapz hot_grid = Ok (hot_grid, sed) /\
  nth_error (np_logspace 5 30 200) 120 = Some hot_nu /\ nth_error sed 120 = Some x /\ 0 < x.
Proof.
  rewrite sed_plain. assert (Ec : corrected (n_e hot_blob) hot_grid = hot_grid). { apply corrected_id. intros g Hg. unfold hot_blob, ex_blob. cbn [set_n_e n_e gamma_min gamma_max]. cbn [hot_grid In] in Hg. intuition subst; lra. }
  rewrite Ec. eexists. eexists. split; [reflexivity|]. assert (E : nth_error (np_logspace 5 30 200) 120 = Some hot_nu) by (apply logspace_nth; lia). split; [exact E|].
  rewrite nth_error_map, E. split; [reflexivity|]. assert (Hn : 0 < hot_nu) by apply pow10_pos. unfold flux_pt. cbv zeta.
  destruct hot_args as [Hz Hdl Hdd Hb Hr _ Hp]. pose proof (eps_pos codata hot_nu (redshift hot_blob) (delta_D hot_blob) Electron codata_ok Hn Hz Hdd) as He. pose proof PI_RGT_0. apply Rmult_lt_0_compat; [pos|].
  assert (Hx : forall x, 10 <= x <= 1e7 -> 0 < 4 / 3 * PI * R_b hot_blob ^ 3 * density (n_e hot_blob) x * single_particle_synch_power codata (B_field hot_blob) (nu_to_epsilon_prime codata hot_nu (redshift hot_blob) (delta_D hot_blob) Electron) x (c_me codata)).
  { intros x Hx. apply Rmult_lt_0_compat; [|apply power_pos; auto using codata_ok]. apply Rmult_lt_0_compat; [pos|]. unfold density, in_range, hot_blob, ex_blob. cbn [set_n_e n_e gamma_min gamma_max]. rewrite !(proj2 (Rleb_true _ _)) by lra. cbn [andb]. unfold npow. pos. apply exp_pos. }
  unfold hot_grid. cbn [map]. apply trapz_pos.
  - cbn [incr]. lra.
  - repeat (constructor; [left; apply Hx; lra|]). constructor.
  - apply Rplus_lt_0_compat; apply Hx; lra.
Qed.
Lemma hot_jump : 1000 < 10 ^ 4 / (4 * comoving_energy codata hot_blob hot_nu) < 1e5.
Proof.
  assert (Hn : 1e20 < hot_nu < 1e21).
  { assert (E : forall m : nat, pow10 (INR m) = 10 ^ m) by (intros m; unfold pow10; rewrite <- Rpower_pow by lra; reflexivity).
    pose proof (E 20%nat) as E20. pose proof (E 21%nat) as E21. rewrite !INR_IZR_INZ in E20, E21. cbn [Z.of_nat Pos.of_succ_nat Pos.succ] in E20, E21.
    replace 1e20 with (10 ^ 20) by lra. replace 1e21 with (10 ^ 21) by lra. rewrite <- E20, <- E21. unfold hot_nu. rewrite !INR_IZR_INZ. cbn [Z.of_nat Pos.of_succ_nat Pos.succ Nat.sub]. split; apply pow10_lt; lra. }
  unfold comoving_energy, comoving, hot_blob, ex_blob, codata. cbn [set_n_e redshift delta_D c_h c_me c_c].
  set (m := 9.1093837015e-28 * 29979245800 ^ 2). assert (Hm : 8.18e-7 <= m <= 8.19e-7) by (unfold m; simpl; lra).
  set (e := 4 * _). assert (He : 0.3 < e < 8).
  { assert (Em : e * m = 4 * (6.62607015e-27 * (hot_nu * (1 + 0.069) / 10))). { unfold e. set (n := 6.62607015e-27 * _). replace (4 * (n / m) * m) with (4 * n * (m * / m)) by (unfold Rdiv; ring). rewrite Rinv_r by lra. lra. }
    split; apply Rmult_lt_reg_r with m; try lra. }
  assert (P4 : 10 ^ 4 = 10000) by (simpl; lra). clearbody e. rewrite P4. split.
  - apply (proj1 (Rlt_div_r 1000 10000 e ltac:(lra))). lra.
  - apply (proj2 (Rlt_div_l 10000 1e5 e ltac:(lra))). lra.
Qed.
(** the loss rate of the electrons of [hot_blob] does not grow with their
    Lorentz factor *)
Theorem C87_ssc_refuted : exists g1 g2 grid' r1 r2, gamma_min (n_e hot_blob) <= g1 /\ g1 < g2 /\ g2 <= gamma_max (n_e hot_blob) /\
  ssc_loss_rate codata hot_ssc hot_grid [g1; g2] = Ok (grid', [r1; r2]) /\ r2 < r1.
Proof.
  destruct hot_sed as (x & sed & E & En & Ex & Hx). destruct (C87_ssc_drop codata hot_ssc hot_grid hot_grid sed 120 hot_nu x codata_ok hot_args hot_spaced hot_ne E En Ex Hx) as (k & Hk & H).
  cbn [hot_ssc sc_blob] in H. pose proof hot_jump as Hj. set (j := 10 ^ 4 / _) in *. assert (Hkj : k * j < j) by nra.
  set (g := (Rmax (k * j) 1000 + j) / 2). assert (Hg : k * j < g < j /\ 1000 < g). { unfold g, Rmax. destruct (Rle_dec (k * j) 1000); lra. }
  destruct (H g) as (r1 & r2 & ER & Hr); try lra. exists g, j, hot_grid, r1, r2. split; [unfold hot_blob, ex_blob; cbn [set_n_e n_e gamma_min]; lra|]. split; [lra|]. split; [unfold hot_blob, ex_blob; cbn [set_n_e n_e gamma_max]; lra|]. split; [exact ER|exact Hr].
Qed.
Print Assumptions C87_ssc_refuted.

(** ** cases *)
Example C87_case : synch_loss_rate codata {| sy_blob := hot_blob; sy_ssa := false; sy_integ := trapz |} 100 < synch_loss_rate codata {| sy_blob := hot_blob; sy_ssa := false; sy_integ := trapz |} 1e4.
Proof. apply C87_synchrotron; auto using codata_ok; unfold hot_blob, ex_blob; cbn [sy_blob set_n_e B_field]; lra. Qed.
(** from the Lorentz factor of the jump to one larger by a fifth, short of the
    next jump, the rate grows *)
Example C87_case_ssc : let g := 10 ^ 4 / (4 * comoving_energy codata hot_blob hot_nu) in
  exists grid' r1 r2, ssc_loss_rate codata hot_ssc hot_grid [g; 1.2 * g] = Ok (grid', [r1; r2]) /\ 0 <= r1 <= r2.
Proof.
  intros g. pose proof hot_jump as Hj. fold g in Hj. apply C87_ssc_partial; try lra; auto using codata_ok, hot_args, hot_spaced, hot_ne.
  intros n Hn. cbv zeta. cbn [hot_ssc sc_blob]. intros [H1 H2].
  assert (K : exists k, 0 < k /\ forall m, comoving_energy codata hot_blob m = k * m).
  { exists (c_h codata * ((1 + redshift hot_blob) / delta_D hot_blob) / (c_me codata * c_c codata ^ 2)). pose proof codata_ok as []. pose proof hot_args as [Hz _ Hdd _ _ _ _]. split; [pos|]. intros m. unfold comoving_energy, comoving, Rdiv. ring. }
  destruct K as (k & Hk & EK). rewrite EK in H1, H2. assert (Hh : 0 < hot_nu) by apply pow10_pos. assert (Eg : 4 * g * (k * hot_nu) = 10 ^ 4). { unfold g. rewrite EK. field. split; lra. }
  apply In_nth_error in Hn. destruct Hn as (i & Hi). assert (Hlt : (i < 200)%nat). { rewrite <- (logspace_length 5 30 200). apply nth_error_Some. congruence. } rewrite logspace_nth in Hi by auto. apply some_inj in Hi.
  set (st := (30 - 5) / INR (200 - 1)) in *. assert (Hst : 0.125 <= st). { unfold st. rewrite INR_IZR_INZ. cbn [Z.of_nat Pos.of_succ_nat Pos.succ Nat.sub]. lra. }
  assert (Hgk : 0 < 4 * g * k) by (apply Rmult_lt_0_compat; lra).
  destruct (Nat.le_gt_cases 120 i) as [L|L].
  - assert (hot_nu <= n); [|nra]. unfold hot_nu. rewrite <- Hi. fold st. apply le_INR in L. destruct (Req_dec (INR 120) (INR i)) as [->|Hne]; [lra|]. left. apply pow10_lt. nra.
  - assert (n * 1.25 <= hot_nu); [|nra]. assert (Hs : 1.25 <= pow10 st). { unfold pow10. assert (L10 : 2 <= ln 10). { rewrite <- (ln_exp 2). left. apply ln_increasing; [apply exp_pos|]. replace 2 with (1 + 1) by lra. rewrite exp_plus. pose proof exp_le_3. pose proof (exp_pos 1). nra. }
    pose proof (exp_ge (st * ln 10)). nra. }
    apply Rle_trans with (n * pow10 st). { apply Rmult_le_compat_l; auto. rewrite <- Hi. left. apply pow10_pos. }
    rewrite <- Hi. unfold pow10. rewrite <- exp_plus, <- Rmult_plus_distr_r. fold (pow10 (5 + INR i * st + st)). unfold hot_nu. fold st. apply (le_INR (S i)) in L. rewrite S_INR in L.
    destruct (Req_dec (INR i + 1) (INR 120)) as [<-|Hne]; [right; f_equal; ring|]. left. apply pow10_lt. nra.
Qed.
