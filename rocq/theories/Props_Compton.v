(** C44 to C47: energy losses, Compton kernels, synchrotron self-Compton; and C41 for the latter *)
From Verif Require Import Base TEUtils ListFacts NumpyInst MathUtils Conversion Spectra Blob Synchrotron Geometry Kernels SSC Losses Spec_Math Spec_Spectra Spec_Blob Spec_Rad MathFacts SpectraFacts BlobFacts SynchFacts SynchFacts2 Props_Blob Props_Synch ComptonFacts.
From Coquelicot Require Import Coquelicot.
Import ListNotations.
Open Scope list_scope.
Open Scope R_scope.

(** ** C44 *)
Theorem C44_synchrotron_loss : forall P sy g, phys_ok P ->
  synch_loss_rate P sy g = 4 / 3 * c_sigmaT P * c_c P * U_B (sy_blob sy) * g ^ 2 /\ 0 <= synch_loss_rate P sy g /\
  (B_field (sy_blob sy) <> 0 -> g <> 0 -> 0 < synch_loss_rate P sy g).
Proof.
  intros P sy g []. pose proof PI_RGT_0. assert (N : forall x, 0 <= x ^ 2) by apply pow2_ge_0. unfold synch_loss_rate, U_B.
  assert (K : 0 < 4 / 3 * c_sigmaT P * c_c P) by (repeat (apply Rmult_lt_0_compat; auto); lra). split; [reflexivity|]. split.
  - apply Rmult_le_pos; auto. apply Rmult_le_pos; [lra|]. apply Rdiv_le_0_compat; auto. lra.
  - intros HB Hg. assert (Q : forall x, x <> 0 -> 0 < x ^ 2) by (intros x Hx; specialize (N x); pose proof (pow_nonzero x 2 Hx); lra).
    apply Rmult_lt_0_compat; auto. apply Rmult_lt_0_compat; auto. apply Rdiv_lt_0_compat; [|lra]. apply Q. unfold B_cgs, B_to_cgs. auto.
Qed.
Print Assumptions C44_synchrotron_loss.

Theorem C44_klein_nishina : (forall b, 0 <= b -> 0 < f_KN b <= 1) /\ (forall b1 b2, 0 <= b1 -> b1 <= b2 -> f_KN b2 <= f_KN b1) /\ f_KN 0 = 1.
Proof.
  split; [exact f_KN_range|]. split; [exact f_KN_decr|]. rewrite f_KN_low by (simpl; lra). unfold npow. rewrite Rplus_0_r. unfold Rpower. rewrite ln_1, Rmult_0_r, exp_0. field.
Qed.
Print Assumptions C44_klein_nishina.

Lemma nu_grid_pos x : In x nu_to_integrate -> 0 < x.
Proof. apply logspace_pos. Qed.
Lemma eps_grid P z dd : phys_ok P -> 0 < 1 + z -> 0 < dd ->
  incr (map (fun n => nu_to_epsilon_prime P n z dd Electron) nu_to_integrate) /\ (forall e, In e (map (fun n => nu_to_epsilon_prime P n z dd Electron) nu_to_integrate) -> 0 < e).
Proof.
  intros HP Hz Hd. split.
  - assert (M : forall l, incr l -> incr (map (fun n => nu_to_epsilon_prime P n z dd Electron) l)).
    { assert (Lt : forall x y, x < y -> nu_to_epsilon_prime P x z dd Electron < nu_to_epsilon_prime P y z dd Electron).
      { intros x y Hxy. pose proof (eps_pos P 1 z dd Electron HP ltac:(lra) Hz Hd).
        assert (E : forall n, nu_to_epsilon_prime P n z dd Electron = nu_to_epsilon_prime P 1 z dd Electron * n).
        { intros n. destruct HP. unfold nu_to_epsilon_prime, nu_to_eps, rest_energy, mass_of. field. repeat split; lra. } rewrite (E x), (E y). nra. }
      induction l as [|a l IH]; [simpl; auto|]. destruct l as [|b l]; [simpl; auto|]. intros [H1 H2]. split; [apply Lt; auto|apply IH; auto]. }
    apply M, logspace_incr. lra.
  - intros e He. apply in_map_iff in He. destruct He as (n & <- & Hn). apply eps_pos; auto. apply nu_grid_pos; auto.
Qed.
Lemma u_diff_nonneg P rb dl dd e x : phys_ok P -> 0 < rb -> 0 < dl -> 0 < dd -> 0 < e -> 0 <= x -> 0 <= evaluate_u_ph_synch_diff P rb dl dd e x.
Proof.
  intros [] Hr Hl Hd He Hx. unfold evaluate_u_ph_synch_diff. assert (0 < rb ^ 2) by (apply pow_lt; auto). assert (0 < dl ^ 2) by (apply pow_lt; auto). assert (0 < dd ^ 4) by (apply pow_lt; auto).
  apply Rmult_le_pos; [|lra]. apply Rdiv_le_0_compat; [nra|]. apply Rmult_lt_0_compat; auto. apply Rmult_lt_0_compat; auto. apply Rmult_lt_0_compat; auto.
Qed.

(** the loss rate with the Klein-Nishina correction lies between 0 and the rate without it computed from
    the same photons, and the ratio of the two decreases with gamma *)
Theorem C44_ssc_loss : forall P s grid gammas, phys_ok P ->
  sed_args nu_to_integrate (redshift (sc_blob s)) (d_L (sc_blob s)) (delta_D (sc_blob s)) (B_field (sc_blob s)) (R_b (sc_blob s)) grid ->
  spaced grid -> nonneg_dist (n_e (sc_blob s)) -> (forall g, In g gammas -> 0 < g) ->
  let b := sc_blob s in
  let eps := map (fun n => nu_to_epsilon_prime P n (redshift b) (delta_D b) Electron) nu_to_integrate in
  exists grid' sed rates,
    evaluate_sed_flux P nu_to_integrate (redshift b) (d_L b) (delta_D b) (B_field b) (R_b b) (n_e b) false trapz grid = Ok (grid', sed) /\
    ssc_loss_rate P s grid gammas = Ok (grid', rates) /\
    let thomson g := 4 / 3 * c_sigmaT P * c_c P * trapz (u_ph_synch_diff P b eps sed) eps * g ^ 2 in
    exists ratio : R -> R, (forall g1 g2, 0 < g1 -> g1 <= g2 -> 0 <= ratio g2 <= ratio g1 /\ ratio g1 <= 1) /\
    rates = map (fun g => ratio g * thomson g) gammas.
Proof.
  intros P s grid gammas HP HA Hs Hd Hg b eps. assert (HA' := HA). destruct HA' as [Hz Hdl Hdd Hb Hr _ Hp].
  destruct (C39_nonneg P nu_to_integrate (redshift b) (d_L b) (delta_D b) (B_field b) (R_b b) (n_e b) trapz grid HP HA Hs Hd (or_introl eq_refl)) as (grid' & sed & E & L & N).
  exists grid', sed. eexists. split; [exact E|]. unfold ssc_loss_rate. fold b. rewrite E. cbn [bind]. fold eps. split; [reflexivity|]. cbv zeta.
  destruct (eps_grid P (redshift b) (delta_D b) HP Hz Hdd) as [Ei Ep]. fold eps in Ei, Ep.
  assert (Le : length sed = length eps) by (unfold eps; rewrite map_length; auto).
  assert (U : all_nonneg (u_ph_synch_diff P b eps sed)).
  { unfold u_ph_synch_diff. clear -HP Hr Hdl Hdd Ep N. revert sed N Ep. induction eps as [|e l IH]; intros [|x sed] N Ep y Hy; simpl in Hy; try contradiction.
    destruct Hy as [<-|Hy]. - apply u_diff_nonneg; auto. apply Ep; left; auto. apply N; left; auto.
    - apply (IH sed); auto. intros v Hv. apply N; right; auto. intros v Hv. apply Ep; right; auto. }
  assert (Lu : length (u_ph_synch_diff P b eps sed) = length eps) by (unfold u_ph_synch_diff; rewrite (map2_length_eq _ _ _ (length eps)); auto).
  set (u := u_ph_synch_diff P b eps sed) in *. clearbody u. clear sed E L N Le.
  set (F g := trapz (map2 (fun e u => f_KN (4 * g * e) * u) eps u) eps).
  assert (F0 : forall g, 0 < g -> 0 <= F g).
  { intros g Hgp. apply trapz_nonneg; auto. apply List.Forall_forall. intros x Hx.
    assert (Q : forall l m, (forall e, In e l -> 0 < e) -> all_nonneg m -> In x (map2 (fun e u => f_KN (4 * g * e) * u) l m) -> 0 <= x).
    { induction l as [|e l IH]; intros [|y m] Hl Hm Hi; simpl in Hi; try contradiction. destruct Hi as [<-|Hi].
      - apply Rmult_le_pos; [|apply Hm; left; auto]. left. apply f_KN_range. specialize (Hl e (or_introl eq_refl)). nra.
      - apply (IH m); auto. intros v Hv; apply Hl; right; auto. intros v Hv; apply Hm; right; auto. }
    apply (Q eps u); auto. }
  assert (FM : forall (h1 h2 : R -> R), (forall e, In e eps -> h1 e <= h2 e) -> trapz (map2 (fun e u => h1 e * u) eps u) eps <= trapz (map2 (fun e u => h2 e * u) eps u) eps).
  { intros h1 h2 Hh. apply trapz_mono; auto. { rewrite (map2_length_eq _ _ _ (length eps)); auto. }
    clear -Hh U. revert u U. induction eps as [|e l IH]; intros [|y m] U; simpl; constructor.
    - apply Rmult_le_compat_r; [apply U; left; auto|apply Hh; left; auto].
    - apply IH. intros v Hv; apply Hh; right; auto. intros v Hv; apply U; right; auto. }
  assert (FD : forall g1 g2, 0 < g1 -> g1 <= g2 -> F g2 <= F g1).
  { intros g1 g2 H1 H2. apply (FM (fun e => f_KN (4 * g2 * e)) (fun e => f_KN (4 * g1 * e))). intros e He. specialize (Ep e He). apply f_KN_decr; nra. }
  set (T := trapz u eps). assert (F1 : forall g, 0 < g -> F g <= T).
  { intros g Hgp. replace T with (trapz (map2 (fun e u => (fun _ => 1) e * u) eps u) eps).
    - apply (FM (fun e => f_KN (4 * g * e)) (fun _ => 1)). intros e He. specialize (Ep e He). apply f_KN_range. nra.
    - unfold T. f_equal. clear -Lu. revert u Lu. induction eps as [|e l IH]; intros [|y m] Lu; simpl in *; try discriminate; auto. rewrite Rmult_1_l. f_equal. apply IH. lia. }
  exists (fun g => F g / T). assert (T0 : 0 <= T) by (specialize (F0 1 ltac:(lra)); specialize (F1 1 ltac:(lra)); lra).
  destruct (Req_dec T 0) as [TZ|TZ].
  - split. { intros g1 g2 H1 H2. rewrite TZ. unfold Rdiv. rewrite Rinv_0, !Rmult_0_r. lra. }
    apply map_ext_in. intros g Hgi. specialize (F0 g (Hg g Hgi)). specialize (F1 g (Hg g Hgi)). change (trapz (map2 _ eps u) eps) with (F g). fold T. replace (F g) with 0 by lra. rewrite TZ. unfold Rdiv. ring.
  - split.
    + intros g1 g2 H1 H2. specialize (FD g1 g2 H1 H2). pose proof (F0 g2 ltac:(lra)). pose proof (F1 g1 H1). assert (0 < / T) by (apply Rinv_0_lt_compat; lra). unfold Rdiv. repeat split; try nra.
      rewrite <- (Rinv_r T) by auto. nra.
    + apply map_ext. intros g. change (trapz (map2 _ eps u) eps) with (F g). fold T. field. auto.
Qed.
Print Assumptions C44_ssc_loss.

(** the energy change functions handed to TimeEvolution *)
Theorem C44_time_evolution_losses : forall P asp sy s grid t_acc ne args, phys_ok P -> proper_dist (asp ne) -> 0 < R_b (sc_blob s) ->
  synchrotron_loss P sy ne args = Ok (map (fun g => - (4 / 3 * c_sigmaT P * c_c P * U_B (sy_blob sy) * g ^ 2)) (fp_gamma args)) /\
  (exists u, 0 <= u /\ ssc_thomson_limit_loss P asp s ne args = Ok (map (fun g => - (4 / 3 * c_sigmaT P * c_c P * u * g ^ 2)) (fp_gamma args))) /\
  ssc_loss P asp s grid ne args = rmap (fun r => map Ropp (snd r)) (ssc_loss_rate P {| sc_blob := set_n_e (asp ne) (sc_blob s); sc_ssa := sc_ssa s; sc_integ := sc_integ s |} grid (fp_gamma args)) /\
  fermi_acceleration P t_acc ne args = Ok (map (fun g => (g * mec2_erg P) / t_acc) (fp_gamma args)).
Proof.
  intros P asp sy s grid t_acc ne args HP (D0 & D1 & D2) Hr. split; [|split; [|split]].
  - unfold synchrotron_loss. f_equal. apply map_ext. intros g. unfold synch_loss_rate, U_B. ring.
  - exists (u_ph_synch P (set_n_e (asp ne) (sc_blob s))). split.
    + destruct HP. unfold u_ph_synch. rewrite eval_gamma_e by (simpl; lra). cbn [snd]. rewrite map2_map_l.
      assert (0 <= U_B (set_n_e (asp ne) (sc_blob s))). { unfold U_B. pose proof PI_RGT_0. apply Rdiv_le_0_compat; [apply pow2_ge_0|lra]. }
      apply Rmult_le_pos. { apply Rmult_le_pos; [|simpl; lra]. apply Rmult_le_pos; lra. }
      apply trapz_nonneg. { apply gamma_e_incr; simpl; lra. } apply List.Forall_forall. intros x Hx. apply in_map_iff in Hx. destruct Hx as (g & <- & _). simpl n_e.
      apply Rmult_le_pos; [apply pow2_ge_0|apply D2].
    + unfold ssc_thomson_limit_loss. cbv zeta. f_equal. apply map_ext. intros g. unfold ssc_loss_rate_thomson. cbn [sc_blob]. ring.
  - unfold ssc_loss. cbv zeta. match goal with |- context [ssc_loss_rate ?a ?b ?c ?d] => destruct (ssc_loss_rate a b c d) as [[g r]|e] end; [|reflexivity].
    cbn [bind rmap snd]. f_equal. apply map_ext. intros x. ring.
  - reflexivity.
Qed.
Print Assumptions C44_time_evolution_losses.

Lemma ex_args_ssc : sed_args nu_to_integrate 0.069 1e27 10 1 1e16 [10; 100; 1000].
Proof. constructor; try lra; [exact nu_grid_pos|]. intros x H; simpl in H; intuition subst; lra. Qed.
Lemma ex_ne : nonneg_dist (n_e ex_blob).
Proof. repeat split; try (simpl; lra). intros g. apply (density_nonneg_build (ShPL 2.1)). lra. Qed.
Example C44_case : exists grid' rates, ssc_loss_rate codata {| sc_blob := ex_blob; sc_ssa := false; sc_integ := trapz |} [10; 100; 1000] [50; 5000] = Ok (grid', rates) /\ length rates = 2%nat.
Proof.
  destruct (C44_ssc_loss codata {| sc_blob := ex_blob; sc_ssa := false; sc_integ := trapz |} [10; 100; 1000] [50; 5000] codata_ok ex_args_ssc ex_spaced ex_ne) as (g & sed & r & _ & E & ratio & _ & Er).
  { intros g Hg; simpl in Hg; intuition subst; lra. } exists g, r. split; auto. rewrite Er. reflexivity.
Qed.
Example C44_case_loss : synchrotron_loss codata {| sy_blob := ex_blob; sy_ssa := false; sy_integ := trapz |} (DEmpty [] []) {| fp_gamma := (10 :: nil); fp_densities := []; fp_subgroups := [] |} =
  Ok (map (fun g => - (4 / 3 * c_sigmaT codata * c_c codata * (1 / (8 * PI)) * g ^ 2)) (10 :: nil)).
Proof.
  assert (Hr : 0 < R_b (sc_blob {| sc_blob := ex_blob; sc_ssa := false; sc_integ := trapz |})) by (simpl; lra).
  assert (Hd : proper_dist (PowerLaw 1 2 10 1e5)). { repeat split; try (simpl; lra). intros g. apply (density_nonneg_build (ShPL 2)). lra. }
  destruct (C44_time_evolution_losses codata (fun _ => PowerLaw 1 2 10 1e5) {| sy_blob := ex_blob; sy_ssa := false; sy_integ := trapz |} _ [] 1 (DEmpty [] [])
    {| fp_gamma := (10 :: nil); fp_densities := []; fp_subgroups := [] |} codata_ok Hd Hr) as (E & _). rewrite E. f_equal. apply map_ext. intros g. unfold U_B, B_cgs, B_to_cgs. simpl. unfold Rdiv. ring.
Qed.

(** ** C45 *)
Ltac nz := let K0 := fresh in intros K0; exfalso; apply K0; reflexivity.
Theorem C45_kernel : forall gamma epsilon_s epsilon mu_s mu phi, 0 < gamma -> 0 < epsilon_s -> 0 < epsilon -> cos_psi mu_s mu phi <= 1 ->
  let ebar := gamma * epsilon * (1 - cos_psi mu_s mu phi) in
  let k := compton_kernel gamma epsilon_s epsilon mu_s mu phi in
  (k <> 0 <-> exists gmin, get_gamma_min epsilon_s epsilon mu_s mu phi = Some gmin /\ gmin <= gamma) /\
  (k <> 0 <-> epsilon_s <= 2 * gamma * ebar / (1 + 2 * ebar)) /\
  (k <> 0 -> 1 <= k /\ epsilon_s < gamma) /\ 0 <= k.
Proof.
  intros g es ep ms mu phi Hg Hes Hep Hc. cbv zeta. unfold compton_kernel, get_gamma_min. cbv zeta. set (c := cos_psi ms mu phi) in *.
  destruct (Reqb_spec (ep * es * (1 - c)) 0) as [E|E].
  - assert (E' : 1 - c = 0) by (destruct (Rmult_integral _ _ E) as [K|K]; auto; nra). rewrite E'.
    split; [|split; [|split]]; [| |nz|lra].
    + split; [nz|]. intros (gm & H & _). discriminate.
    + split; [nz|]. intros H. exfalso. replace (2 * g * (g * ep * 0) / (1 + 2 * (g * ep * 0))) with 0 in H by field. lra.
  - assert (Hc' : 0 < 1 - c) by (destruct (Req_dec (1 - c) 0) as [K|K]; [rewrite K, Rmult_0_r in E; contradiction|lra]).
    set (a := ep * (1 - c)). assert (Ha : 0 < a) by (unfold a; nra). replace (ep * es * (1 - c)) with (a * es) by (unfold a; ring).
    replace (g * ep * (1 - c)) with (g * a) by (unfold a; ring). pose proof (gamma_min_iff g es a Hg Hes Ha) as IFF. pose proof (gamma_min_gt es a g Hes Ha) as GT.
    set (gm := es / 2 * (1 + sqrt (1 + 2 / (a * es)))) in *. assert (Hga : g * a <> 0) by nra.
    destruct (Rleb_spec gm g) as [L|L].
    + pose proof (kernel_value g es (g * a) Hg Hes (GT L) Hga) as V.
      split; [|split; [|split]]; [split; [eauto|lra] | split; [intros _; apply IFF; auto|lra] | auto | lra].
    + split; [|split; [|split]]; [| |nz|lra].
      * split; [nz|]. intros (x & Hx & Hx'). injection Hx as <-. lra.
      * split; [nz|]. intros H. apply IFF in H. lra.
Qed.
Print Assumptions C45_kernel.
(** forward scattering (cos_psi = 1): no scattering at all, gamma_min is infinite *)
Theorem C45_forward : forall gamma epsilon_s epsilon mu_s mu phi, cos_psi mu_s mu phi = 1 ->
  compton_kernel gamma epsilon_s epsilon mu_s mu phi = 0 /\ get_gamma_min epsilon_s epsilon mu_s mu phi = None.
Proof.
  intros g es ep ms mu phi H. unfold compton_kernel, get_gamma_min. rewrite H. replace (ep * es * (1 - 1)) with 0 by ring. rewrite (proj2 (Reqb_true 0 0)); auto.
Qed.
Print Assumptions C45_forward.
Example C45_case : compton_kernel 100 1 0.01 1 0 0 <> 0 /\ compton_kernel 100 99 0.01 1 0 0 = 0.
Proof.
  assert (C : cos_psi 1 0 0 = 0). { unfold cos_psi. replace (1 - 1 ^ 2) with 0 by ring. rewrite sqrt_0. ring. }
  destruct (C45_kernel 100 1 0.01 1 0 0) as (_ & K & _); try lra. destruct (C45_kernel 100 99 0.01 1 0 0) as (_ & K' & _); try lra. rewrite C in *. split.
  - apply K. lra.
  - destruct (Req_dec (compton_kernel 100 99 0.01 1 0 0) 0) as [E|E]; auto. apply K' in E. lra.
Qed.

(** ** C46 *)
Theorem C46_kernel : forall gamma epsilon epsilon_s, 0 < gamma -> 0 < epsilon ->
  let k := isotropic_kernel gamma epsilon epsilon_s in
  0 <= k /\
  (k <> 0 <-> epsilon / (1 + epsilon / gamma) <= epsilon_s < 4 * gamma ^ 2 * epsilon / (1 + 4 * gamma * epsilon)) /\
  (k <> 0 -> epsilon_s < gamma /\ let q := epsilon_s / gamma / (4 * gamma * epsilon * (1 - epsilon_s / gamma)) in 1 / (4 * gamma ^ 2) <= q <= 1 /\ k = F_c q (4 * gamma * epsilon)).
Proof.
  intros g e es Hg He. cbv zeta. unfold isotropic_kernel. cbv zeta.
  assert (H4 : 0 < 4 * g * e) by nra. assert (Hg2 : 0 < 4 * g ^ 2) by (pose proof (pow_lt g 2 Hg); lra).
  set (x := es / g). assert (Ex : es = x * g) by (unfold x; field; lra). clearbody x. subst es.
  assert (B1 : e / (1 + e / g) <= x * g <-> e * (1 - x) <= x * g).
  { replace (e / (1 + e / g)) with (e * g / (g + e)) by (field; split; lra). split; intros K.
    - apply Rmult_le_compat_r with (r := g + e) in K; [|lra]. replace (e * g / (g + e) * (g + e)) with (e * g) in K by (field; lra). nra.
    - apply Rmult_le_reg_r with (g + e); [lra|]. replace (e * g / (g + e) * (g + e)) with (e * g) by (field; lra). nra. }
  assert (B2 : x * g < 4 * g ^ 2 * e / (1 + 4 * g * e) <-> x < 4 * g * e * (1 - x)).
  { replace (4 * g ^ 2 * e / (1 + 4 * g * e)) with (g * (4 * g * e / (1 + 4 * g * e))) by (field; lra). split; intros K.
    - assert (x < 4 * g * e / (1 + 4 * g * e)) by nra. apply Rmult_lt_compat_r with (r := 1 + 4 * g * e) in H; [|lra]. replace (4 * g * e / (1 + 4 * g * e) * (1 + 4 * g * e)) with (4 * g * e) in H by (field; lra). nra.
    - rewrite (Rmult_comm x). apply Rmult_lt_compat_l; auto. apply Rmult_lt_reg_r with (1 + 4 * g * e); [lra|]. replace (4 * g * e / (1 + 4 * g * e) * (1 + 4 * g * e)) with (4 * g * e) by (field; lra). nra. }
  rewrite B1, B2. set (G := 4 * g * e) in *. clear B1 B2.
  destruct (Reqb_spec (G * (1 - x)) 0) as [E|E].
  { assert (x = 1) by nra. subst x. split; [lra|]. split; [|nz]. split; [nz|]. nra. }
  assert (Hx1 : 1 - x <> 0) by (intros K; rewrite K in E; lra). set (q := x / (G * (1 - x))).
  assert (Eq : q * (G * (1 - x)) = x) by (unfold q; field; split; lra).
  destruct (Rleb_spec (1 / (4 * g ^ 2)) q) as [L1|L1]; [destruct (Rleb_spec q 1) as [L2|L2]|]; cbn [andb].
  - assert (Hq : 0 < q). { assert (0 < 1 / (4 * g ^ 2)) by (apply Rdiv_lt_0_compat; lra). lra. }
    assert (Hx : x < 1). { destruct (Rlt_dec x 1); auto. exfalso. assert (1 - x < 0) by lra. assert (q * (G * (1 - x)) < 0); [|lra]. assert (G * (1 - x) < 0) by nra. nra. }
    assert (L1' : e * (1 - x) <= x * g). { apply Rmult_le_compat_r with (r := G * (1 - x) * g) in L1; [|apply Rmult_le_pos; [apply Rmult_le_pos|]; lra].
      replace (q * (G * (1 - x) * g)) with (q * (G * (1 - x)) * g) in L1 by ring. rewrite Eq in L1. replace (1 / (4 * g ^ 2) * (G * (1 - x) * g)) with (e * (1 - x)) in L1 by (unfold G; field; lra). auto. }
    assert (Hgx : x * g < g) by nra.
    destruct (Req_dec q 1) as [Q1|Q1].
    + rewrite Q1, F_c_1. split; [lra|]. split; [|nz]. split; [nz|]. intros [_ K]. exfalso. rewrite Q1 in Eq. lra.
    + pose proof (F_c_pos q G Hq ltac:(lra) ltac:(lra)). split; [lra|]. split; [|auto]. split; [|lra]. intros _. split; auto. rewrite <- Eq at 1. assert (0 < G * (1 - x)) by (apply Rmult_lt_0_compat; lra). nra.
  - split; [lra|]. split; [|nz]. split; [nz|]. intros [K1 K2]. exfalso. assert (0 < x < 1).
    { destruct (Rlt_dec x 1); [split; auto; nra|]. exfalso. assert (G * (1 - x) <= 0) by nra. assert (x * g < 0) by nra. nra. }
    assert (0 < G * (1 - x)) by (apply Rmult_lt_0_compat; lra). nra.
  - split; [lra|]. split; [|nz]. split; [nz|]. intros [K1 K2]. exfalso. assert (0 < x < 1).
    { destruct (Rlt_dec x 1); [split; auto; nra|]. exfalso. assert (G * (1 - x) <= 0) by nra. assert (x * g < 0) by nra. nra. }
    apply Rnot_le_lt in L1. apply Rmult_lt_compat_r with (r := G * (1 - x) * g) in L1; [|apply Rmult_lt_0_compat; [apply Rmult_lt_0_compat|]; lra].
    replace (q * (G * (1 - x) * g)) with (q * (G * (1 - x)) * g) in L1 by ring. rewrite Eq in L1. replace (1 / (4 * g ^ 2) * (G * (1 - x) * g)) with (e * (1 - x)) in L1 by (unfold G; field; lra). lra.
Qed.
Print Assumptions C46_kernel.
Theorem C46_edge : forall gamma_e, F_c 1 gamma_e = 0.
Proof. exact F_c_1. Qed.
Print Assumptions C46_edge.
Example C46_case : isotropic_kernel 100 0.01 1 <> 0 /\ isotropic_kernel 100 0.01 90 = 0 /\ isotropic_kernel 100 0.01 0.001 = 0.
Proof.
  destruct (C46_kernel 100 0.01 1 ltac:(lra) ltac:(lra)) as (_ & K & _). destruct (C46_kernel 100 0.01 90 ltac:(lra) ltac:(lra)) as (_ & K1 & _). destruct (C46_kernel 100 0.01 0.001 ltac:(lra) ltac:(lra)) as (_ & K2 & _).
  split; [|split]. - apply K. lra. - destruct (Req_dec (isotropic_kernel 100 0.01 90) 0) as [E|E]; auto. apply K1 in E. lra.
  - destruct (Req_dec (isotropic_kernel 100 0.01 0.001) 0) as [E|E]; auto. apply K2 in E. lra.
Qed.

(** ** C47 *)
Lemma kernel_nonneg g e es : 0 < g -> 0 < e -> 0 <= isotropic_kernel g e es.
Proof. intros. apply C46_kernel; auto. Qed.
Theorem C47_nonneg : forall P nu z dl dd b rb s ssa integ gamma, phys_ok P -> sed_args nu z dl dd b rb gamma -> spaced gamma -> nonneg_dist s -> gamma_min s <= gamma_max s ->
  (ssa = true -> forall a c, s <> EmptyDist a c) -> offered integ ->
  exists g sed, ssc_evaluate_sed_flux P nu z dl dd b rb s ssa integ gamma = Ok (g, sed) /\ length sed = length nu /\ all_nonneg sed.
Proof.
  intros P nu z dl dd b rb s ssa integ gamma HP HA Hs Hd Hm He Ho.
  assert (HA' : sed_args nu_to_integrate z dl dd b rb gamma) by (destruct HA; constructor; auto; exact nu_grid_pos).
  assert (S : exists sedy, evaluate_sed_flux P nu_to_integrate z dl dd b rb s ssa integ gamma = Ok (corrected s gamma, sedy) /\ length sedy = length nu_to_integrate /\ all_nonneg sedy).
  { destruct ssa.
    - destruct (C40_attenuates P _ _ _ _ _ _ s integ gamma HP HA' Hs Hd Hm (He eq_refl) Ho) as (g & sed & seda & E1 & E2 & N & F). rewrite sed_plain in E1. apply ok_pair_inj in E1. destruct E1 as [<- <-].
      exists seda. split; auto. split; auto. apply Forall2_length in F. rewrite map_length in F. auto.
    - destruct (C39_nonneg P _ _ _ _ _ _ s integ gamma HP HA' Hs Hd Ho) as (g & sed & E & L & N). rewrite E. rewrite sed_plain in E. apply ok_pair_inj in E. destruct E as [<- E]. exists sed. auto. }
  destruct S as (sedy & E & L & N). destruct HA as [Hz Hdl Hdd Hb Hr Hn Hp]. unfold ssc_evaluate_sed_flux. rewrite E. cbn [bind]. unfold evaluate. rewrite corrected_idem by auto.
  eexists. eexists. split; [reflexivity|]. split; [apply map_length|]. destruct (corrected_good s gamma Hd Hp Hs) as [Gi Gp]. set (g := corrected s gamma) in *. clearbody g.
  destruct (eps_grid P z dd HP Hz Hdd) as [Ei Ep]. set (eps := map (fun n => nu_to_epsilon_prime P n z dd Electron) nu_to_integrate) in *. clearbody eps.
  intros x Hx. apply in_map_iff in Hx. destruct Hx as (n & <- & Hnn). cbv zeta. set (es := nu_to_epsilon_prime P n z dd Electron). pose proof PI_RGT_0. assert (HP' := HP). destruct HP'.
  assert (0 < dl ^ 2) by (apply pow_lt; auto). assert (0 < dd ^ 4) by (apply pow_lt; auto). assert (0 < rb ^ 3) by (apply pow_lt; auto).
  apply Rmult_le_pos; [apply Rdiv_le_0_compat; nra|]. apply Rmult_le_pos. { pose proof (pow2_ge_0 es). apply Rmult_le_pos; auto. apply Rmult_le_pos; lra. }
  apply offered_nonneg; auto. clear -HP Hr Hdl Hdd Ep N Ho Gi Gp Hd H2 H. revert sedy N Ep. induction eps as [|e l IH]; intros [|y sedy] N Ep v Hv; cbn [map2 In] in Hv; try contradiction.
  destruct Hv as [<-|Hv].
  - apply offered_nonneg; auto. rewrite map2_map_map. intros w Hw. apply in_map_iff in Hw. destruct Hw as (t & <- & Ht). specialize (Gp t Ht). assert (He : 0 < e) by (apply Ep; left; auto).
    pose proof (kernel_nonneg t e es Gp He). destruct Hd as (_ & _ & Hd). specialize (Hd t).
    assert (0 <= evaluate_u_ph_synch_diff P rb dl dd e y) by (apply u_diff_nonneg; auto; apply N; left; auto).
    apply Rmult_le_pos; auto. apply Rdiv_le_0_compat; [|apply pow_lt; auto]. apply Rmult_le_pos. apply Rdiv_le_0_compat; auto; apply pow_lt; auto. apply Rmult_le_pos; auto. apply Rmult_le_pos; lra.
  - apply (IH sedy); auto. intros w Hw; apply N; right; auto. intros w Hw; apply Ep; right; auto.
Qed.
Print Assumptions C47_nonneg.

Theorem C47_quadratic : forall P nu z dl dd b rb s gamma c g sed,
  ssc_evaluate_sed_flux P nu z dl dd b rb s false trapz gamma = Ok (g, sed) ->
  ssc_evaluate_sed_flux P nu z dl dd b rb (rescaled c s) false trapz gamma = Ok (g, map (fun x => c ^ 2 * x) sed).
Proof.
  intros P nu z dl dd b rb s gamma c g sed H. unfold ssc_evaluate_sed_flux in *. rewrite sed_plain in *. cbn [bind] in *. unfold evaluate in *. rewrite !corrected_rescaled. apply ok_pair_inj in H. destruct H as [<- <-].
  f_equal. f_equal. rewrite map_map. apply map_ext. intros n. set (g2 := corrected s (corrected s gamma)). set (g1 := corrected s gamma). rewrite !map2_map_both.
  set (epl := map (fun n => nu_to_epsilon_prime P n z dd Electron) nu_to_integrate).
  assert (Eq : map (fun n0 => trapz (map2 (fun v g => evaluate_u_ph_synch_diff P rb dl dd (nu_to_epsilon_prime P n0 z dd Electron) (flux_pt P trapz z dl dd b rb (rescaled c s) g1 n0) / nu_to_epsilon_prime P n0 z dd Electron ^ 2 * (4 / 3 * PI * rb ^ 3 * v) / g ^ 2 *
      isotropic_kernel g (nu_to_epsilon_prime P n0 z dd Electron) (nu_to_epsilon_prime P n z dd Electron)) (map (density (rescaled c s)) g2) g2) g2) nu_to_integrate =
    map (Rmult (c ^ 2)) (map (fun n0 => trapz (map2 (fun v g => evaluate_u_ph_synch_diff P rb dl dd (nu_to_epsilon_prime P n0 z dd Electron) (flux_pt P trapz z dl dd b rb s g1 n0) / nu_to_epsilon_prime P n0 z dd Electron ^ 2 * (4 / 3 * PI * rb ^ 3 * v) / g ^ 2 *
      isotropic_kernel g (nu_to_epsilon_prime P n0 z dd Electron) (nu_to_epsilon_prime P n z dd Electron)) (map (density s) g2) g2) g2) nu_to_integrate)).
  { rewrite map_map. apply map_ext. intros m. rewrite <- trapz_scale. f_equal. rewrite !map2_map_map, map_map. apply map_ext. intros x. rewrite density_rescaled.
    assert (F : flux_pt P trapz z dl dd b rb (rescaled c s) g1 m = c * flux_pt P trapz z dl dd b rb s g1 m).
    { unfold flux_pt. cbv zeta. rewrite (map_ext _ (fun x => c * (4 / 3 * PI * rb ^ 3 * density s x * single_particle_synch_power P b (nu_to_epsilon_prime P m z dd Electron) x (c_me P)))).
      2:{ intros y. rewrite density_rescaled. ring. } rewrite <- (map_map _ (Rmult c)), trapz_scale. ring. }
    rewrite F. unfold evaluate_u_ph_synch_diff, Rdiv. ring. }
  unfold epl. rewrite ?map2_map_both. rewrite Eq, trapz_scale. ring.
Qed.
Print Assumptions C47_quadratic.

Lemma offered_zero integ x y : offered integ -> (forall v, In v y -> v = 0) -> integ y x = 0.
Proof.
  intros Ho. revert x. induction y as [|y0 y IH]; intros x H; destruct Ho as [->| ->]; auto; (destruct x as [|x0 x]; [reflexivity|]; destruct y as [|y1 y]; [reflexivity|]; destruct x as [|x1 x]; [reflexivity|]).
  - rewrite trapz_cons2. rewrite IH by (intros v Hv; apply H; right; auto). rewrite (H y0), (H y1) by (simpl; auto). lra.
  - rewrite loglog_cons2. rewrite IH by (intros v Hv; apply H; right; auto). rewrite (H y0) by (simpl; auto). unfold loglog_interval. rewrite (proj2 (Reqb_true 0 0)); auto. simpl. lra.
Qed.
(** no electrons, no SSC: for EmptyDistribution and for any distribution that is zero on the grid *)
Theorem C47_empty : forall P nu z dl dd b rb s integ gamma g sed, offered integ -> (forall x, In x (corrected s (corrected s gamma)) -> density s x = 0) ->
  ssc_evaluate_sed_flux P nu z dl dd b rb s false integ gamma = Ok (g, sed) -> forall x, In x sed -> x = 0.
Proof.
  intros P nu z dl dd b rb s integ gamma g sed Ho Hz H. unfold ssc_evaluate_sed_flux in *. rewrite sed_plain in *. cbn [bind] in *. unfold evaluate in *. apply ok_pair_inj in H. destruct H as [<- <-].
  intros x Hx. apply in_map_iff in Hx. destruct Hx as (n & <- & _). rewrite offered_zero; auto. { ring. }
  rewrite !map2_map_both. intros v Hv. apply in_map_iff in Hv. destruct Hv as (m & <- & _). apply offered_zero; auto. rewrite map2_map_map. intros w Hw. apply in_map_iff in Hw. destruct Hw as (t & <- & Ht).
  rewrite Hz by auto. unfold Rdiv. ring.
Qed.
Print Assumptions C47_empty.

Example C47_case : exists g sed, ssc_evaluate_sed_flux codata [1e12; 1e25] 0.069 1e27 10 1 1e16 (PowerLaw 1 2 10 1e5) true trapz_loglog [10; 100; 1000] = Ok (g, sed) /\ length sed = 2%nat /\ all_nonneg sed.
Proof.
  apply (C47_nonneg codata); auto using codata_ok, ex_spaced.
  - constructor; try lra; intros x H; simpl in H; intuition subst; lra.
  - apply ex_nonneg. lra.
  - simpl; lra.
  - discriminate.
  - right; reflexivity.
Qed.
Example C47_case_empty : exists g sed, ssc_evaluate_sed_flux codata [1e12; 1e25] 0.069 1e27 10 1 1e16 (EmptyDist 10 1e5) false trapz [10; 100; 1000] = Ok (g, sed) /\ length sed = 2%nat /\ (forall x, In x sed -> x = 0).
Proof.
  eexists. eexists. split; [reflexivity|]. split; [reflexivity|].
  refine (C47_empty codata [1e12; 1e25] 0.069 1e27 10 1 1e16 (EmptyDist 10 1e5) trapz [10; 100; 1000] _ _ (or_introl eq_refl) _ eq_refl). intros x _. unfold density. destruct (in_range _ x); reflexivity.
Qed.

(** the object evaluates its blob on the blob's grid with the absorption switch and the integration rule it was given *)
Theorem C47_object : forall P b ssa integ nu,
  ssc_sed_flux P {| sc_blob := b; sc_ssa := ssa; sc_integ := integ |} nu =
  rmap snd (ssc_evaluate_sed_flux P nu (redshift b) (d_L b) (delta_D b) (B_field b) (R_b b) (n_e b) ssa integ (gamma_e b)).
Proof. intros P b ssa integ nu. unfold ssc_sed_flux. cbn [sc_blob sc_ssa sc_integ]. destruct (ssc_evaluate_sed_flux _ _ _ _ _ _ _ _ _ _ _) as [[g s]|e]; reflexivity. Qed.
Print Assumptions C47_object.

(** ** C41 for SSC *)
Theorem C41_ssc_luminosity : forall P s nu, ssc_sed_luminosity P s nu = rmap (map (fun f => 4 * PI * d_L (sc_blob s) ^ 2 * f)) (ssc_sed_flux P s nu).
Proof. intros P s nu. unfold ssc_sed_luminosity. destruct (ssc_sed_flux P s nu); reflexivity. Qed.
Print Assumptions C41_ssc_luminosity.
Lemma ssc_dl P nu z dl dl' dd b rb s ssa integ gamma : phys_ok P -> dl <> 0 -> dl' <> 0 ->
  ssc_evaluate_sed_flux P nu z dl' dd b rb s ssa integ gamma = rmap (fun r => (fst r, map (Rmult ((dl / dl') ^ 2)) (snd r))) (ssc_evaluate_sed_flux P nu z dl dd b rb s ssa integ gamma).
Proof.
  intros HP H H'. unfold ssc_evaluate_sed_flux. rewrite (sed_dl P nu_to_integrate z dl dl') by auto.
  destruct (evaluate_sed_flux P nu_to_integrate z dl dd b rb s ssa integ gamma) as [[g sed]|e]; [|reflexivity]. cbn [rmap bind fst snd]. unfold evaluate. cbn [rmap fst snd].
  assert (Eu : forall eps, map2 (evaluate_u_ph_synch_diff P rb dl' dd) eps (map (Rmult ((dl / dl') ^ 2)) sed) = map2 (evaluate_u_ph_synch_diff P rb dl dd) eps sed).
  { assert (Er : forall e x, evaluate_u_ph_synch_diff P rb dl' dd e ((dl / dl') ^ 2 * x) = evaluate_u_ph_synch_diff P rb dl dd e x).
    { intros e x. unfold evaluate_u_ph_synch_diff. replace (3 * dl' ^ 2 * ((dl / dl') ^ 2 * x)) with (3 * dl ^ 2 * x) by (field; auto). reflexivity. }
    clear -Er. induction sed as [|x sed IH]; intros [|e eps]; cbn [map map2]; auto. rewrite Er, IH. auto. }
  rewrite Eu. f_equal. f_equal. rewrite map_map. apply map_ext. intros n. pose proof PI_RGT_0. field. repeat split; auto; lra.
Qed.
Theorem C41_ssc_no_distance : forall P s nu d, phys_ok P -> d_L (sc_blob s) <> 0 -> d <> 0 ->
  ssc_sed_luminosity P {| sc_blob := set_d_L d (sc_blob s); sc_ssa := sc_ssa s; sc_integ := sc_integ s |} nu = ssc_sed_luminosity P s nu.
Proof.
  intros P [b ssa integ] nu d HP H0 Hd. unfold ssc_sed_luminosity, ssc_sed_flux. cbn [sc_blob sc_ssa sc_integ set_d_L redshift d_L delta_D B_field R_b n_e] in *.
  change (gamma_e (set_d_L d b)) with (gamma_e b). rewrite (ssc_dl P nu (redshift b) (d_L b) d) by auto.
  match goal with |- context [rmap _ ?r] => destruct r as [[g sed]|e] end; [|reflexivity]. cbn [rmap bind fst snd]. f_equal. unfold to_luminosity. rewrite map_map. apply map_ext.
  intros f. field. auto.
Qed.
Print Assumptions C41_ssc_no_distance.
