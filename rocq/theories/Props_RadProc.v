(** C62: flux integrals of the radiative processes *)
From Verif Require Import Base TEUtils ListFacts NumpyInst MathUtils Conversion Spectra Blob Synchrotron RadProc Spec_Math Spec_Spectra Spec_Blob Spec_Rad MathFacts SpectraFacts BlobFacts SynchFacts TargetFacts Props_Synch.
From Coquelicot Require Import Coquelicot.
From Coq Require Import List.
Import ListNotations.
Open Scope list_scope.
Open Scope R_scope.

(** the SED values belong to the frequencies one by one *)
Definition gives (flux : list R -> res (list R)) (nu sed : list R) : Prop := flux nu = Ok sed /\ length sed = length nu.

(** ** the frequency grid *)
Theorem C62_grid : forall P q1 q2 n, 0 < to_Hz P q1 -> to_Hz P q1 < to_Hz P q2 -> (2 <= n)%nat ->
  let nu := nu_logspace P q1 q2 n in
  length nu = n /\ nth_error nu 0 = Some (to_Hz P q1) /\ nth_error nu (n - 1) = Some (to_Hz P q2) /\ incr nu /\
  forall i a b, nth_error nu i = Some a -> nth_error nu (S i) = Some b -> b = a * pow10 ((log10 (to_Hz P q2) - log10 (to_Hz P q1)) / INR (n - 1)).
Proof.
  intros P q1 q2 n H1 H2 Hn nu. unfold nu, nu_logspace. pose proof (log10_lt _ _ H1 H2) as HL.
  assert (Hm : 0 < INR (n - 1)) by (apply lt_0_INR; lia).
  split; [apply logspace_length|]. split; [|split; [|split; [apply logspace_incr; auto|]]].
  - rewrite logspace_nth by lia. f_equal. change (INR 0) with 0. rewrite Rmult_0_l, Rplus_0_r. apply pow10_log10; auto.
  - rewrite logspace_nth by lia. f_equal. replace (log10 (to_Hz P q1) + INR (n - 1) * ((log10 (to_Hz P q2) - log10 (to_Hz P q1)) / INR (n - 1))) with (log10 (to_Hz P q2)) by (field; lra).
    apply pow10_log10; lra.
  - intros i a b Ha Hb. assert (Hi : (S i < n)%nat).
    { pose proof (nth_error_Some (np_logspace (log10 (to_Hz P q1)) (log10 (to_Hz P q2)) n) (S i)) as T. rewrite logspace_length in T. apply T. rewrite Hb. discriminate. }
    rewrite logspace_nth in Ha by lia. rewrite logspace_nth in Hb by lia. apply some_inj in Ha. apply some_inj in Hb. subst a b.
    unfold pow10. rewrite <- exp_plus. f_equal. rewrite S_INR. field. lra.
Qed.
Print Assumptions C62_grid.
(** photon energies and wavelengths select the frequency of that photon *)
Theorem C62_equivalent_units : forall P nu, phys_ok P -> 0 < nu -> to_Hz P (InErg (c_h P * nu)) = nu /\ to_Hz P (InCm (c_c P / nu)) = nu.
Proof. intros P nu [] H. simpl. split; field; lra. Qed.
Print Assumptions C62_equivalent_units.

Lemma map2_div_nonneg sed nu : all_nonneg sed -> (forall x, In x nu -> 0 < x) -> forall f : R -> R, (forall x, 0 < x -> 0 <= f x) -> List.Forall (fun v => 0 <= v) (map2 (fun s x => s * f x) sed nu).
Proof.
  intros Hs Hn f Hf. revert nu Hn. induction sed as [|s sed IH]; intros [|x nu] Hn; simpl; auto. constructor.
  - apply Rmult_le_pos; [apply Hs; left; auto|apply Hf, Hn; left; auto].
  - apply IH; [intros a Ha; apply Hs; right; auto|intros a Ha; apply Hn; right; auto].
Qed.
Lemma eV_pos : 0 < eV_erg.
Proof. unfold eV_erg. lra. Qed.
Lemma to_eV_pos P nu : phys_ok P -> 0 < nu -> 0 < to_eV P nu.
Proof. intros [] H. unfold to_eV. pose proof eV_pos. pos. Qed.
Lemma to_eV_incr P l : phys_ok P -> incr l -> incr (map (to_eV P) l).
Proof. intros [] H. apply incr_map; auto. intros x y Hxy. unfold to_eV. pose proof eV_pos. apply Rmult_lt_compat_r; [apply Rinv_0_lt_compat; auto|]. apply Rmult_lt_compat_l; auto. Qed.
Lemma energy_term sed nu : map2 Rdiv sed nu = map2 (fun s x => s * / x) sed nu.
Proof. reflexivity. Qed.
Lemma flux_term P sed nu : map2 (fun f e => f / eV_erg / e ^ 2) sed (map (to_eV P) nu) = map2 (fun s x => s * (/ eV_erg * / to_eV P x ^ 2)) sed nu.
Proof. revert nu. induction sed as [|s sed IH]; intros [|x nu]; cbn [map map2]; auto. rewrite IH. f_equal. unfold Rdiv. ring. Qed.
Lemma trapz_map_scale_x c y : forall x, trapz y (map (Rmult c) x) = c * trapz y x.
Proof.
  induction y as [|y0 y IH]; intros [|x0 x]; simpl; try ring. destruct y as [|y1 y]; destruct x as [|x1 x]; simpl; try ring.
  specialize (IH (x1 :: x)). simpl in IH. rewrite IH. field.
Qed.
(** trapezium over the photon energies in terms of the frequencies *)
Lemma flux_in_nu P sed nu : phys_ok P -> (forall x, In x nu -> 0 < x) ->
  trapz (map2 (fun f e => f / eV_erg / e ^ 2) sed (map (to_eV P) nu)) (map (to_eV P) nu) = trapz (map2 (fun s x => s * / (c_h P * x ^ 2)) sed nu) nu.
Proof.
  intros [] Hp. pose proof eV_pos. rewrite flux_term. rewrite (map_ext (to_eV P) (Rmult (c_h P / eV_erg))) by (intros x; unfold to_eV, Rdiv; ring).
  rewrite trapz_map_scale_x, <- trapz_scale. f_equal. revert nu Hp. induction sed as [|s sed IH]; intros [|x nu] Hp; cbn [map map2]; auto.
  rewrite IH by (intros a Ha; apply Hp; right; auto). f_equal. assert (0 < x) by (apply Hp; left; auto). unfold to_eV. field. lra.
Qed.

(** ** positivity and linearity *)
Theorem C62_nonneg : forall P flux q1 q2 n sed, phys_ok P -> 0 < to_Hz P q1 -> to_Hz P q1 < to_Hz P q2 ->
  gives flux (nu_logspace P q1 q2 n) sed -> all_nonneg sed ->
  (exists F, energy_flux_integral P flux q1 q2 n = Ok F /\ 0 <= F) /\ (exists N, flux_integral P flux q1 q2 n = Ok N /\ 0 <= N).
Proof.
  intros P flux q1 q2 n sed HP H1 H2 [HG HL] Hs. unfold energy_flux_integral, flux_integral, diff_energy_flux. rewrite HG. cbn [bind].
  pose proof (log10_lt _ _ H1 H2) as Hlt. pose proof (logspace_incr _ _ n Hlt) as Hi. fold (nu_logspace P q1 q2 n) in Hi.
  assert (Hp : forall x, In x (nu_logspace P q1 q2 n) -> 0 < x) by (intros x; apply logspace_pos).
  split; eexists; (split; [reflexivity|]).
  - apply trapz_nonneg; auto. rewrite energy_term. apply (map2_div_nonneg sed (nu_logspace P q1 q2 n) Hs Hp (fun x => / x)). intros x Hx. apply Rlt_le, Rinv_0_lt_compat; auto.
  - rewrite flux_in_nu by auto. apply trapz_nonneg; auto. apply (map2_div_nonneg sed (nu_logspace P q1 q2 n) Hs Hp (fun x => / (c_h P * x ^ 2))). destruct HP. intros x Hx. assert (0 < c_h P * x ^ 2) by pos. apply Rlt_le, Rinv_0_lt_compat; auto.
Qed.
Print Assumptions C62_nonneg.

Theorem C62_linear : forall P flux flux1 flux2 q1 q2 n sed1 sed2 a b, phys_ok P ->
  gives flux1 (nu_logspace P q1 q2 n) sed1 -> gives flux2 (nu_logspace P q1 q2 n) sed2 ->
  flux (nu_logspace P q1 q2 n) = Ok (map2 (fun u v => a * u + b * v) sed1 sed2) ->
  exists F1 F2 N1 N2, energy_flux_integral P flux1 q1 q2 n = Ok F1 /\ energy_flux_integral P flux2 q1 q2 n = Ok F2 /\
    flux_integral P flux1 q1 q2 n = Ok N1 /\ flux_integral P flux2 q1 q2 n = Ok N2 /\
    energy_flux_integral P flux q1 q2 n = Ok (a * F1 + b * F2) /\ flux_integral P flux q1 q2 n = Ok (a * N1 + b * N2).
Proof.
  intros P flux f1 f2 q1 q2 n s1 s2 a b HP [G1 L1] [G2 L2] G. unfold energy_flux_integral, flux_integral, diff_energy_flux. rewrite G1, G2, G. cbn [bind].
  do 4 eexists. do 4 (split; [reflexivity|]). set (nu := nu_logspace P q1 q2 n) in *.
  assert (Hp : forall x, In x nu -> 0 < x) by (intros x; apply logspace_pos).
  assert (T : forall g : R -> R, trapz (map2 (fun s x => s * g x) (map2 (fun u v => a * u + b * v) s1 s2) nu) nu =
    a * trapz (map2 (fun s x => s * g x) s1 nu) nu + b * trapz (map2 (fun s x => s * g x) s2 nu) nu).
  { intros g. rewrite <- trapz_linear.
    - f_equal. clearbody nu. clear - L1 L2. revert s2 nu L1 L2. induction s1 as [|u s1 IH]; intros [|v s2] [|x nu] L1 L2; try discriminate; cbn [map2]; auto.
      rewrite IH by (simpl in *; lia). f_equal. ring.
    - rewrite map2_length. lia.
    - rewrite map2_length. lia. }
  split; f_equal.
  - rewrite !energy_term. apply T.
  - rewrite !flux_in_nu by auto. apply T.
Qed.
Print Assumptions C62_linear.

(** ** differential flux: E^2 times it is the SED (converted from erg to eV) *)
Theorem C62_differential : forall P flux nu sed, phys_ok P -> (forall x, In x nu -> 0 < x) -> gives flux nu sed ->
  exists d, diff_energy_flux P flux nu = Ok d /\ length d = length nu /\
  forall i x v w, nth_error nu i = Some x -> nth_error sed i = Some v -> nth_error d i = Some w -> w * (c_h P * x / 1.602176634e-12) ^ 2 = v / 1.602176634e-12.
Proof.
  intros P flux nu sed HP Hp [G L]. unfold diff_energy_flux. rewrite G. cbn [bind]. eexists. split; [reflexivity|]. split; [rewrite map2_length, map_length; lia|].
  change 1.602176634e-12 with eV_erg. rewrite flux_term. clear G. revert nu Hp L. induction sed as [|s sed IH]; intros [|x0 nu] Hp L [|i] x v w Hx Hv Hw; cbn in Hx, Hv, Hw; try discriminate.
  - apply some_inj in Hx. apply some_inj in Hv. apply some_inj in Hw. subst. assert (0 < x) by (apply Hp; left; auto). pose proof (to_eV_pos P x HP ltac:(auto)). pose proof eV_pos. fold (to_eV P x). field. lra.
  - apply (IH nu ltac:(intros a Ha; apply Hp; right; auto) ltac:(simpl in L; lia) i x v w); auto.
Qed.
Print Assumptions C62_differential.

(** ** the mean photon energy lies in the band: energy flux between h nu_min and h nu_max times the photon flux *)
Theorem C62_mean_energy : forall P flux q1 q2 n sed, phys_ok P -> 0 < to_Hz P q1 -> to_Hz P q1 < to_Hz P q2 -> (2 <= n)%nat ->
  gives flux (nu_logspace P q1 q2 n) sed -> all_nonneg sed ->
  exists F N, energy_flux_integral P flux q1 q2 n = Ok F /\ flux_integral P flux q1 q2 n = Ok N /\
    c_h P * to_Hz P q1 * N <= F <= c_h P * to_Hz P q2 * N.
Proof.
  intros P flux q1 q2 n sed HP H1 H2 Hn [G L] Hs. unfold energy_flux_integral, flux_integral, diff_energy_flux. rewrite G. cbn [bind].
  do 2 eexists. do 2 (split; [reflexivity|]). pose proof (C62_grid P q1 q2 n H1 H2 Hn) as (_ & F0 & FL & Hi & _). cbv zeta in *. set (nu := nu_logspace P q1 q2 n) in *.
  assert (Hr : forall x, In x nu -> to_Hz P q1 <= x <= to_Hz P q2).
  { intros x Hx. unfold nu, nu_logspace, np_logspace in Hx. apply in_map_iff in Hx. destruct Hx as (y & <- & Hy). pose proof (log10_lt _ _ H1 H2).
    apply linspace_in in Hy; [|lra]. rewrite <- (pow10_log10 _ H1) at 1. rewrite <- (pow10_log10 (to_Hz P q2)) by lra. pose proof ln10_pos.
    unfold pow10. split; (destruct (Rle_lt_or_eq_dec _ _ (proj1 Hy)) as [A|A]; destruct (Rle_lt_or_eq_dec _ _ (proj2 Hy)) as [B|B]);
      try (rewrite A; apply Rle_refl); try (rewrite B; apply Rle_refl); apply Rlt_le, exp_increasing, Rmult_lt_compat_r; lra. }
  rewrite flux_in_nu by (auto; intros x Hx; specialize (Hr x Hx); lra). rewrite energy_term, <- !trapz_scale. destruct HP.
  split; apply trapz_mono; auto; try (rewrite ?map_length, map2_length; lia).
  - clear G FL F0 Hi. clearbody nu. clear Hn. revert nu L Hr. induction sed as [|s sed IH]; intros [|x nu] L Hr; cbn [map map2]; try discriminate; auto.
    constructor; [|apply IH; [intros a Ha; apply Hs; right; auto|simpl in L; lia|intros a Ha; apply Hr; right; auto]].
    assert (0 <= s) by (apply Hs; left; auto). destruct (Hr x) as [A B]; [left; auto|]. assert (0 < x) by lra.
    replace (c_h P * to_Hz P q1 * (s * / (c_h P * x ^ 2))) with (s * / x * (to_Hz P q1 / x)) by (field; lra).
    pattern (s * / x) at 2; rewrite <- (Rmult_1_r (s * / x)). apply Rmult_le_compat_l; [apply Rmult_le_pos; [auto|apply Rlt_le, Rinv_0_lt_compat; auto]|]. apply Rmult_le_reg_r with x; auto. replace (to_Hz P q1 / x * x) with (to_Hz P q1) by (field; lra). lra.
  - clear G FL F0 Hi. clearbody nu. clear Hn. revert nu L Hr. induction sed as [|s sed IH]; intros [|x nu] L Hr; cbn [map map2]; try discriminate; auto.
    constructor; [|apply IH; [intros a Ha; apply Hs; right; auto|simpl in L; lia|intros a Ha; apply Hr; right; auto]].
    assert (0 <= s) by (apply Hs; left; auto). destruct (Hr x) as [A B]; [left; auto|]. assert (0 < x) by lra.
    replace (c_h P * to_Hz P q2 * (s * / (c_h P * x ^ 2))) with (s * / x * (to_Hz P q2 / x)) by (field; lra).
    pattern (s * / x) at 1; rewrite <- (Rmult_1_r (s * / x)). apply Rmult_le_compat_l; [apply Rmult_le_pos; [auto|apply Rlt_le, Rinv_0_lt_compat; auto]|]. apply Rmult_le_reg_r with x; auto. replace (to_Hz P q2 / x * x) with (to_Hz P q2) by (field; lra). lra.
Qed.
Print Assumptions C62_mean_energy.

(** ** limits in the wrong order: the integrals change sign *)
Lemma linspace_rev a b n : (2 <= n)%nat -> linspace b a n = rev (linspace a b n).
Proof.
  intros Hn. apply nth_error_ext; [rewrite rev_length, !linspace_length; auto|]. intros i u v Hu Hv.
  assert (Hi : (i < n)%nat). { pose proof (nth_error_Some (linspace b a n) i) as T. rewrite linspace_length in T. apply T. congruence. }
  rewrite linspace_nth in Hu by auto. apply some_inj in Hu. subst u.
  rewrite (nth_error_nth' _ 0) in Hv by (rewrite rev_length, linspace_length; auto). apply some_inj in Hv. subst v. rewrite rev_nth by (rewrite linspace_length; auto).
  rewrite linspace_length. rewrite (nth_error_nth (linspace a b n) (n - S i) 0 (linspace_nth a b n (n - S i) ltac:(lia))).
  assert (0 < INR (n - 1)) by (apply lt_0_INR; lia). replace (n - S i)%nat with (n - 1 - i)%nat by lia. rewrite (minus_INR (n - 1) i) by lia. field. lra.
Qed.
Lemma trapz_snoc2 y ya yb x xa xb : length y = length x -> trapz (y ++ [ya; yb]) (x ++ [xa; xb]) = trapz (y ++ (ya :: nil)) (x ++ (xa :: nil)) + (xb - xa) * (ya + yb) / 2.
Proof.
  intros L. change [ya; yb] with (ya :: (yb :: nil)). change [xa; xb] with (xa :: (xb :: nil)). rewrite trapz_split by auto. rewrite trapz_cons2, trapz_one. ring.
Qed.
Lemma trapz_rev y : forall x, length y = length x -> trapz (rev y) (rev x) = - trapz y x.
Proof.
  induction y as [|y0 y IH]; intros [|x0 x] L; try discriminate. { simpl. ring. }
  destruct y as [|y1 y]; destruct x as [|x1 x]; try discriminate. { simpl. ring. }
  rewrite trapz_cons2. cbn [rev] in *. rewrite <- !app_assoc. cbn [app]. rewrite trapz_snoc2 by (rewrite !rev_length; simpl in L; lia).
  specialize (IH (x1 :: x) ltac:(simpl in *; lia)). cbn [rev] in IH. rewrite IH. field.
Qed.
Lemma map2_map_l (f : R -> R -> R) (g : R -> R) l : map2 f (map g l) l = map (fun x => f (g x) x) l.
Proof. induction l; simpl; congruence. Qed.
Lemma map2_maps (f : R -> R -> R) (g h : R -> R) l : map2 f (map g l) (map h l) = map (fun x => f (g x) (h x)) l.
Proof. induction l; simpl; congruence. Qed.
Theorem C62_reversed : forall P flux F q1 q2 n, phys_ok P -> (2 <= n)%nat -> (forall nu, flux nu = Ok (map F nu)) ->
  exists E N, energy_flux_integral P flux q1 q2 n = Ok E /\ energy_flux_integral P flux q2 q1 n = Ok (- E) /\
    flux_integral P flux q1 q2 n = Ok N /\ flux_integral P flux q2 q1 n = Ok (- N).
Proof.
  intros P flux F q1 q2 n HP Hn HF. assert (R1 : nu_logspace P q2 q1 n = rev (nu_logspace P q1 q2 n)).
  { unfold nu_logspace, np_logspace. rewrite (linspace_rev (log10 (to_Hz P q1))) by auto. apply map_rev. }
  unfold energy_flux_integral, flux_integral, diff_energy_flux. rewrite !HF. cbn [bind]. rewrite R1. set (nu := nu_logspace P q1 q2 n).
  do 2 eexists. split; [reflexivity|]. split; [|split; [reflexivity|]]; f_equal.
  - rewrite <- trapz_rev by (rewrite map2_length, map_length; lia). f_equal. rewrite !map2_map_l. apply map_rev.
  - rewrite <- trapz_rev by (rewrite map2_length, !map_length; lia). rewrite <- map_rev. f_equal. rewrite !map2_maps. apply map_rev.
Qed.
Print Assumptions C62_reversed.

(** ** a process: the synchrotron emission of a blob *)
Theorem C62_synchrotron : forall P sy q1 q2 n, phys_ok P ->
  sed_args [] (redshift (sy_blob sy)) (d_L (sy_blob sy)) (delta_D (sy_blob sy)) (B_field (sy_blob sy)) (R_b (sy_blob sy)) [] ->
  proper_dist (n_e (sy_blob sy)) -> offered (sy_integ sy) -> sy_ssa sy = false -> 0 < to_Hz P q1 -> to_Hz P q1 < to_Hz P q2 -> (2 <= n)%nat ->
  exists F N, energy_flux_integral P (synch_sed_flux P sy) q1 q2 n = Ok F /\ flux_integral P (synch_sed_flux P sy) q1 q2 n = Ok N /\
    0 <= N /\ c_h P * to_Hz P q1 * N <= F <= c_h P * to_Hz P q2 * N.
Proof.
  intros P sy q1 q2 n HP Ha Hd Ho Hs H1 H2 Hn. destruct (C39_object P sy (nu_logspace P q1 q2 n) HP) as (sed & E & L & Hnn); auto.
  { destruct Ha. constructor; auto. intros x. apply logspace_pos. }
  destruct (C62_mean_energy P _ q1 q2 n sed HP H1 H2 Hn (conj E L) Hnn) as (F & N & A & B & C). destruct (C62_nonneg P _ q1 q2 n sed HP H1 H2 (conj E L) Hnn) as (_ & N' & B' & D).
  rewrite B in B'. assert (E' : N = N') by (injection B'; auto). subst N'. exists F, N. auto.
Qed.
Print Assumptions C62_synchrotron.

(** non-trivial case: a process with two known values, 1 to 4 Hz-like band in three points *)
Example C62_case : let flux := fun nu => Ok (map (fun x => 2 * x) nu) in
  gives flux (nu_logspace codata (InHz 1e9) (InHz 4e9) 3) (map (fun x => 2 * x) (nu_logspace codata (InHz 1e9) (InHz 4e9) 3)) /\
  energy_flux_integral codata flux (InHz 1e9) (InHz 4e9) 3 = Ok (2 * (4e9 - 1e9)).
Proof.
  cbv zeta. split; [split; [reflexivity|apply map_length]|]. unfold energy_flux_integral. cbn [bind].
  pose proof (C62_grid codata (InHz 1e9) (InHz 4e9) 3) as T. cbv zeta in T. destruct T as (L & A & B & I & _); [simpl; lra|simpl; lra|lia|].
  set (nu := nu_logspace codata (InHz 1e9) (InHz 4e9) 3) in *. clearbody nu. destruct nu as [|x0 [|x1 [|x2 [|? ?]]]]; try discriminate. cbn in A, B. apply some_inj in A. apply some_inj in B. cbn [map map2].
  destruct I as (I1 & I2 & _). f_equal. rewrite !trapz_cons2, trapz_one. assert (0 < x0) by (rewrite A; lra). replace (2 * x0 / x0) with 2 by (field; lra). replace (2 * x1 / x1) with 2 by (field; lra). replace (2 * x2 / x2) with 2 by (field; lra).
  rewrite A, B. lra.
Qed.
