(** Property C90: volume, particle and energy content of a blob, power of its
    jet, and the energy in its synchrotron photons. *)
From Coq Require Import Reals Lra Lia.
From Verif Require Import Base TEUtils ListFacts NumpyInst MathUtils Conversion Spectra Blob Synchrotron Spec_Math Spec_Spectra Spec_Blob Spec_Rad Spec_Beams Spec_Emission MathFacts SpectraFacts BlobFacts Calculus AbsorptionFacts SynchFacts SynchFacts2 Props_Blob Props_Synch Props_Beams TargetFacts Props_Opacity Props_Thermal Props_Emission SynchPower Props_SynchPower ComptonFacts.
From Coquelicot Require Import Coquelicot.
From Coq Require Import List.
Import ListNotations.
Open Scope list_scope.
Open Scope R_scope.

(** ** specification *)
(** the Lorentz factors at which the distribution [s] is sampled with n points *)
Definition sampled (s : spectrum) (n : nat) : list R := log_grid (gamma_min s) (gamma_max s) n.
(** speed (in units of c) for a Lorentz factor *)
Definition speed (G : R) : R := sqrt (1 - / G ^ 2).
(** Two opposite flows of cross section pi rb^2, with the comoving energy
    density u and the bulk Lorentz factor G: energy per unit time through a
    fixed surface *)
Definition two_sided_power (P : phys) (rb G u : R) : R := 2 * (PI * rb ^ 2) * (speed G * c_c P) * (G ^ 2 * u).
(** The logarithmic slope of [f] between [a] and [b] is at most [s] in absolute
    value *)
Definition slope_le (s : R) (f : R -> R) (a b : R) : Prop :=
  forall x y, a <= x -> x <= y -> y <= b -> f y <= Rpower (y / x) s * f x /\ f x <= Rpower (y / x) s * f y.

(** ** volume *)
Theorem C90_volume : forall b, is_RInt (fun x => PI * (R_b b ^ 2 - x ^ 2)) (- R_b b) (R_b b) (V_b b).
Proof.
  intros b. set (r := R_b b). assert (I : is_RInt (fun x => PI * (r ^ 2 - x ^ 2)) (- r) r (Hierarchy.minus ((fun x => PI * (r ^ 2 * x - x ^ 3 / 3)) r) ((fun x => PI * (r ^ 2 * x - x ^ 3 / 3)) (- r)))).
  { apply (is_RInt_derive (fun x => PI * (r ^ 2 * x - x ^ 3 / 3))).
    - intros x _. auto_derive; auto. field.
    - intros x _. apply (ex_derive_continuous (fun x => PI * (r ^ 2 - x ^ 2))). auto_derive. auto. }
  evar_last; [exact I|]. unfold Hierarchy.minus, plus, opp; simpl. unfold V_b. fold r. field.
Qed.
Print Assumptions C90_volume.

(** ** contents *)
Theorem C90_contents : forall P b, 0 < gamma_min (n_e b) -> gamma_min (n_e b) <= gamma_max (n_e b) ->
  (forall gs, (forall g, In g gs -> gamma_min (n_e b) <= g <= gamma_max (n_e b)) -> N_e b gs = map (population b (n_e b)) gs) /\
  n_e_tot b = over (sampled (n_e b) (gamma_e_size b)) (density (n_e b)) /\
  N_e_tot b = over (sampled (n_e b) (gamma_e_size b)) (population b (n_e b)) /\
  u_e P b = over (sampled (n_e b) (gamma_e_size b)) (fun g => g * (c_me P * c_c P ^ 2) * density (n_e b) g) /\
  W_e P b = over (sampled (n_e b) (gamma_e_size b)) (fun g => g * (c_me P * c_c P ^ 2) * population b (n_e b) g).
Proof.
  intros P b H0 H1. unfold sampled. change (log_grid (gamma_min (n_e b)) (gamma_max (n_e b)) (gamma_e_size b)) with (gamma_e b).
  split; [|split; [|split; [|split]]].
  - intros gs Hg. unfold N_e, evaluate. rewrite corrected_id by auto. cbn [snd]. rewrite map_map. reflexivity.
  - rewrite n_e_tot_eq, trapz_over by auto. reflexivity.
  - unfold N_e_tot. rewrite n_e_tot_eq, trapz_over, over_scale by auto. reflexivity.
  - rewrite u_e_eq, trapz_over, over_scale by auto. apply over_ext. intros g _. unfold mec2_erg, rest_energy, mass_of. ring.
  - unfold W_e. rewrite u_e_eq, trapz_over, !over_scale by auto. apply over_ext. intros g _. unfold mec2_erg, rest_energy, mass_of, V_b, population. ring.
Qed.
Print Assumptions C90_contents.

Theorem C90_protons : forall P b,
  (n_p_opt b = None -> (forall gs, N_p b gs = Err AttributeError) /\ n_p_tot b = Err AttributeError /\ N_p_tot b = Err AttributeError /\ u_p P b = Err AttributeError /\ W_p P b = Err AttributeError) /\
  (forall s, n_p_opt b = Some s -> 0 < gamma_min s -> gamma_min s <= gamma_max s ->
   (forall gs, (forall g, In g gs -> gamma_min s <= g <= gamma_max s) -> N_p b gs = Ok (map (population b s) gs)) /\
   n_p_tot b = Ok (over (sampled s (gamma_p_size b)) (density s)) /\
   N_p_tot b = Ok (over (sampled s (gamma_p_size b)) (population b s)) /\
   u_p P b = Ok (over (sampled s (gamma_p_size b)) (fun g => g * (c_mp P * c_c P ^ 2) * density s g)) /\
   W_p P b = Ok (over (sampled s (gamma_p_size b)) (fun g => g * (c_mp P * c_c P ^ 2) * population b s g))).
Proof.
  intros P b. split.
  - intros H. unfold N_p, n_p_tot, N_p_tot, u_p, W_p, n_p_tot, u_p, n_p. rewrite H. repeat split.
  - intros s H H0 H1. unfold N_p, N_p_tot, W_p, n_p_tot, u_p, n_p, gamma_p. rewrite H. cbn [bind]. fold (log_grid (gamma_min s) (gamma_max s) (gamma_p_size b)). unfold sampled. set (g := log_grid _ _ _).
    assert (E : evaluate s g = (g, map (density s) g)). { unfold evaluate. rewrite corrected_id; auto. intros x. apply grid_in; auto. } rewrite E. cbn [snd]. rewrite map2_map_l, !trapz_over, !over_scale.
    split; [|split; [|split; [|split]]]; try reflexivity.
    + intros gs Hg. unfold evaluate. rewrite corrected_id by auto. cbn [snd]. rewrite map_map. reflexivity.
    + f_equal. apply over_ext. intros x _. unfold mpc2_erg, rest_energy, mass_of. ring.
    + f_equal. apply over_ext. intros x _. unfold mpc2_erg, rest_energy, mass_of, V_b, population. ring.
Qed.
Print Assumptions C90_protons.

(** ** jet *)
Theorem C90_jet : forall P b, 1 < Gamma b -> R_b b <> 0 ->
  U_B b = B_field b ^ 2 / (8 * PI) /\
  P_jet_B P b = Ok (two_sided_power P (R_b b) (Gamma b) (B_field b ^ 2 / (8 * PI))) /\
  (n_p_opt b = None -> P_jet_ke P b = Ok (two_sided_power P (R_b b) (Gamma b) (W_e P b / (4 / 3 * PI * R_b b ^ 3)))) /\
  (forall s w, n_p_opt b = Some s -> W_p P b = Ok w -> P_jet_ke P b = Ok (two_sided_power P (R_b b) (Gamma b) ((W_e P b + w) / (4 / 3 * PI * R_b b ^ 3)))).
Proof.
  intros P b HG HR. pose proof PI_RGT_0. split; [reflexivity|]. unfold P_jet_B, P_jet_ke, u_particles. rewrite jet_prefactor by auto. cbn [bind]. unfold two_sided_power, speed. set (be := sqrt _). split; [|split].
  - f_equal. unfold U_B, B_cgs, B_to_cgs. field. lra.
  - intros Hn. rewrite Hn. cbn [bind]. f_equal. unfold W_e, V_b. field. split; lra.
  - intros s w Hs Hw. rewrite Hs. unfold W_p in Hw. destruct (u_p P b) as [up|e]; [|discriminate]. cbn [bind] in *. assert (Ew : w = V_b b * up) by congruence. subst w. f_equal. unfold W_e, V_b. field. split; lra.
Qed.
Print Assumptions C90_jet.

(** ** sampled totals against the integrals *)
Lemma slope_cell s f x y r I : 0 < x -> x < y -> y <= r * x -> 0 <= s -> (forall t, x <= t <= y -> 0 <= f t) -> slope_le s f x y -> is_RInt f x y I ->
  I <= Rpower r s * ((y - x) * (f x + f y) / 2) /\ (y - x) * (f x + f y) / 2 <= Rpower r s * I.
Proof.
  intros Hx Hxy Hr Hs Hf Hsl HI. assert (R1 : 1 < r) by nra.
  assert (M : forall u v, x <= u -> u <= v -> v <= y -> 1 <= Rpower (v / u) s <= Rpower r s).
  { intros u v Hu Huv Hv. assert (1 <= v / u) by (apply (proj1 (Rle_div_r 1 v u ltac:(lra))); lra). assert (v / u <= r). { apply (proj2 (Rle_div_l v r u ltac:(lra))). nra. }
    split. { rewrite <- (Rpower_O (v / u)) by lra. apply Rle_Rpower; lra. } apply Rle_Rpower_l; lra. }
  assert (P : forall t, x <= t <= y -> f t <= Rpower r s * f x /\ f t <= Rpower r s * f y /\ f x <= Rpower r s * f t /\ f y <= Rpower r s * f t).
  { intros t Ht. destruct (Hsl x t) as [A1 A2]; try lra. destruct (Hsl t y) as [B1 B2]; try lra. pose proof (M x t ltac:(lra) ltac:(lra) ltac:(lra)). pose proof (M t y ltac:(lra) ltac:(lra) ltac:(lra)).
    pose proof (Hf x ltac:(lra)). pose proof (Hf y ltac:(lra)). pose proof (Hf t ltac:(lra)). repeat split; nra. }
  set (A := (f x + f y) / 2). assert (C : forall k, is_RInt (fun _ : R => k) x y (k * (y - x))). { intros k. evar_last. { apply @is_RInt_const. } unfold scal; simpl; unfold mult; simpl. ring. }
  replace ((y - x) * (f x + f y) / 2) with (A * (y - x)) by (unfold A; field). split.
  - replace (Rpower r s * (A * (y - x))) with (Rpower r s * A * (y - x)) by ring. apply (is_RInt_le f (fun _ => Rpower r s * A) x y); auto; [lra|]. intros t Ht. destruct (P t ltac:(lra)) as (P1 & P2 & _). unfold A. lra.
  - apply (is_RInt_le (fun _ => A) (fun t => Rpower r s * f t) x y); auto; [lra| |]. { apply (is_RInt_scal f _ _ (Rpower r s)). auto. } intros t Ht. destruct (P t ltac:(lra)) as (_ & _ & P1 & P2). unfold A. lra.
Qed.
Fixpoint steps (r x : R) (l : list R) : Prop := match l with [] => True | y :: l' => x < y /\ y <= r * x /\ steps r y l' end.
Lemma slope_list s f r l : forall x I, 0 < x -> 0 <= s -> steps r x l -> (forall t, x <= t <= last l x -> 0 <= f t) -> slope_le s f x (last l x) -> is_RInt f x (last l x) I ->
  I <= Rpower r s * over (x :: l) f /\ over (x :: l) f <= Rpower r s * I.
Proof.
  induction l as [|y l IH]; intros x I Hx Hs St Hf Hsl HI.
  - cbn [last] in HI. assert (I = 0). { apply (is_RInt_unique f x x) in HI. rewrite RInt_point in HI. rewrite <- HI. reflexivity. } subst. unfold over. cbn. lra.
  - destruct St as (S1 & S2 & S3). rewrite over_cons2. assert (EL : last (y :: l) x = last l y). { clear. revert x y. induction l as [|z l IH]; intros; auto. simpl. destruct l; auto. apply (IH x y). }
    rewrite EL in *. assert (Hyl : y <= last l y). { clear - S3 S1 Hx. revert y S1 S3. induction l as [|z l IH]; intros; [simpl; lra|]. destruct S3 as (Q1 & Q2 & Q3). assert (EL : last (z :: l) y = last l z). { clear. revert z y. induction l as [|w l IH]; intros; auto. simpl. destruct l; auto. apply (IH z y). } rewrite EL. specialize (IH z ltac:(lra) Q3). lra. }
    assert (E1 : ex_RInt f x y). { apply (ex_RInt_Chasles_1 f x y (last l y)); [lra|]. eexists; eauto. } assert (E2 : ex_RInt f y (last l y)). { apply (ex_RInt_Chasles_2 f x y (last l y)); [lra|]. eexists; eauto. }
    destruct E1 as [I1 H1]. destruct E2 as [I2 H2]. assert (EI : I = I1 + I2). { apply (@is_RInt_unique R_CompleteNormedModule) in HI. rewrite <- HI. apply (@is_RInt_unique R_CompleteNormedModule). apply (@is_RInt_Chasles R_NormedModule f x y); auto. }
    destruct (slope_cell s f x y r I1) as [C1 C2]; auto. { intros t Ht. apply Hf. lra. } { intros u v Hu Hv Hw. apply Hsl; lra. }
    destruct (IH y I2) as [D1 D2]; auto; try lra. { intros t Ht. apply Hf. lra. } { intros u v Hu Hv Hw. apply Hsl; lra. } rewrite EI. split; lra.
Qed.
Lemma steps_map h r m : (forall i, 0 < h i) -> (forall i, h i < h (S i) /\ h (S i) <= r * h i) -> forall k, steps r (h k) (map h (seq (S k) m)) /\ last (map h (seq (S k) m)) (h k) = h (k + m)%nat.
Proof.
  intros Hp Hh. induction m as [|m IH]; intros k.
  - cbn. rewrite Nat.add_0_r. auto.
  - cbn [seq map]. destruct (IH (S k)) as [I1 I2]. split.
    + cbn [steps]. destruct (Hh k). auto.
    + transitivity (last (map h (seq (S (S k)) m)) (h (S k))). { generalize (map h (seq (S (S k)) m)) (h k) (h (S k)). clear. intros l. induction l as [|z l IH]; intros x y; auto. simpl. destruct l; auto. apply (IH x y). } rewrite I2. f_equal. lia.
Qed.
Lemma grid_steps a b n : 0 < a -> a < b -> (2 <= n)%nat -> exists l, log_grid a b n = a :: l /\ steps (Rpower (b / a) (/ INR (n - 1))) a l /\ last l a = b.
Proof.
  intros Ha Hb Hn. set (w := (log10 b - log10 a) / INR (n - 1)). assert (Hd : 0 < INR (n - 1)) by (apply lt_0_INR; lia). pose proof (log10_lt a b Ha Hb). assert (Hw : 0 < w) by (apply Rdiv_lt_0_compat; lra).
  set (h := fun i => pow10 (log10 a + INR i * w)). assert (E0 : h O = a). { unfold h. simpl INR. rewrite Rmult_0_l, Rplus_0_r. apply pow10_log10. auto. }
  assert (El : h (n - 1)%nat = b). { unfold h. replace (log10 a + INR (n - 1) * w) with (log10 b) by (unfold w; field; lra). apply pow10_log10. lra. }
  assert (S1 : forall i, h (S i) = pow10 w * h i). { intros i. unfold h, pow10. rewrite <- exp_plus. f_equal. rewrite S_INR. ring. }
  assert (Er : pow10 w = Rpower (b / a) (/ INR (n - 1))). { unfold pow10, Rpower. f_equal. unfold w, log10. rewrite ln_div by lra. field. split; [lra|]. pose proof ln10_pos. lra. }
  destruct (steps_map h (Rpower (b / a) (/ INR (n - 1))) (n - 1)) with (k := O) as [T1 T2].
  { intros i. apply pow10_pos. } { intros i. split. { apply pow10_lt. rewrite S_INR. lra. } rewrite S1, Er. lra. }
  exists (map h (seq 1 (n - 1))). split; [|split].
  - transitivity (map h (seq 0 n)). { unfold log_grid, np_logspace, linspace. rewrite map_map. reflexivity. } clearbody h w. destruct n as [|n]; [lia|]. replace (S n - 1)%nat with n by lia. cbn [seq map]. rewrite E0. reflexivity.
  - rewrite E0 in T1. exact T1.
  - rewrite E0 in T2. rewrite T2. exact El.
Qed.
Lemma sampled_integral s f a b n I : 0 < a -> a < b -> (2 <= n)%nat -> 0 <= s -> (forall t, a <= t <= b -> 0 <= f t) -> slope_le s f a b -> is_RInt f a b I ->
  I <= Rpower (b / a) (s / INR (n - 1)) * over (log_grid a b n) f /\ over (log_grid a b n) f <= Rpower (b / a) (s / INR (n - 1)) * I.
Proof.
  intros Ha Hb Hn Hs Hf Hsl HI. destruct (grid_steps a b n Ha Hb Hn) as (l & E & St & El). rewrite E.
  replace (Rpower (b / a) (s / INR (n - 1))) with (Rpower (Rpower (b / a) (/ INR (n - 1))) s) by (rewrite Rpower_mult; f_equal; unfold Rdiv; ring).
  apply slope_list; auto; rewrite El; auto.
Qed.
Lemma slope_pow s f a b k : 0 < a -> (forall t, a <= t <= b -> 0 <= f t) -> slope_le s f a b -> slope_le (s + INR k) (fun g => g ^ k * f g) a b.
Proof.
  intros Ha Hf Hs x y Hx Hxy Hy. destruct (Hs x y Hx Hxy Hy) as [H1 H2]. rewrite Rpower_plus, Rpower_pow by (apply Rdiv_lt_0_compat; lra).
  pose proof (Hf x ltac:(lra)). pose proof (Hf y ltac:(lra)). assert (E : y ^ k = (y / x) ^ k * x ^ k). { rewrite <- Rpow_mult_distr. f_equal. field. lra. }
  assert (1 <= (y / x) ^ k). { apply pow_R1_Rle. apply (proj1 (Rle_div_r 1 y x ltac:(lra))). lra. } assert (0 < x ^ k) by (apply pow_lt; lra). set (q := (y / x) ^ k) in *. set (r := Rpower (y / x) s) in *. assert (0 < r) by apply exp_pos. rewrite E. split.
  - replace (r * q * (x ^ k * f x)) with (q * x ^ k * (r * f x)) by ring. apply Rmult_le_compat_l; auto. apply Rmult_le_pos; lra.
  - replace (r * q * (q * x ^ k * f y)) with (x ^ k * ((q * q) * (r * f y))) by ring. apply Rmult_le_compat_l; [lra|]. assert (1 <= q * q) by nra. assert (0 <= r * f y) by (apply Rmult_le_pos; lra). nra.
Qed.

(** The totals are within the factor (gmax / gmin)^((s + k) / (N - 1)) of the
    integrals they stand for: s bounds the logarithmic slope of the density,
    k = 0 for numbers, 1 for energies, 2 for the synchrotron photons, N is the
    number of sampled Lorentz factors *)
Theorem C90_integrals : forall P b s I0 I1 I2, phys_ok P -> emitter_ok b (n_e b) -> gamma_min (n_e b) < gamma_max (n_e b) -> (2 <= gamma_e_size b)%nat -> 0 <= s ->
  (forall g, 0 <= density (n_e b) g) -> slope_le s (density (n_e b)) (gamma_min (n_e b)) (gamma_max (n_e b)) ->
  is_RInt (density (n_e b)) (gamma_min (n_e b)) (gamma_max (n_e b)) I0 ->
  is_RInt (fun g => g * density (n_e b) g) (gamma_min (n_e b)) (gamma_max (n_e b)) I1 ->
  is_RInt (fun g => g ^ 2 * density (n_e b) g) (gamma_min (n_e b)) (gamma_max (n_e b)) I2 ->
  let q k := Rpower (gamma_max (n_e b) / gamma_min (n_e b)) ((s + k) / INR (gamma_e_size b - 1)) in
  let v := 4 / 3 * PI * R_b b ^ 3 in
  I0 / q 0 <= n_e_tot b <= q 0 * I0 /\ v * I0 / q 0 <= N_e_tot b <= q 0 * (v * I0) /\
  c_me P * c_c P ^ 2 * I1 / q 1 <= u_e P b <= q 1 * (c_me P * c_c P ^ 2 * I1) /\ v * (c_me P * c_c P ^ 2 * I1) / q 1 <= W_e P b <= q 1 * (v * (c_me P * c_c P ^ 2 * I1)) /\
  c_sigmaT P * (B_field b ^ 2 / (8 * PI)) * R_b b * I2 / q 2 <= u_ph_synch P b <= q 2 * (c_sigmaT P * (B_field b ^ 2 / (8 * PI)) * R_b b * I2).
Proof.
  intros P b s I0 I1 I2 HP Hb Hg Hn Hs Hd Hsl H0 H1 H2 q v. pose proof Hb as []. pose proof HP as []. pose proof PI_RGT_0.
  assert (Hq : forall k, 0 < q k) by (intros k; apply exp_pos). assert (Hv : 0 < v) by (unfold v; pos).
  assert (G : forall k f I, (forall t, 0 < t -> f t = t ^ k * density (n_e b) t) -> is_RInt f (gamma_min (n_e b)) (gamma_max (n_e b)) I ->
     I <= q (INR k) * over (gamma_e b) f /\ over (gamma_e b) f <= q (INR k) * I).
  { intros k f I Ef HI. apply (sampled_integral (s + INR k) f); auto. { pose proof (pos_INR k). lra. } { intros t Ht. rewrite Ef by lra. apply Rmult_le_pos; auto. apply pow_le. lra. }
    intros x y Hx Hxy Hy. rewrite !Ef by lra. apply (slope_pow s (density (n_e b)) (gamma_min (n_e b)) (gamma_max (n_e b)) k); auto. }
  assert (W : forall k c f I, 0 <= c -> (forall t, 0 < t -> f t = t ^ k * density (n_e b) t) -> is_RInt f (gamma_min (n_e b)) (gamma_max (n_e b)) I ->
     c * I / q (INR k) <= c * over (gamma_e b) f <= q (INR k) * (c * I)).
  { intros k c f I Hc Ef HI. destruct (G k f I Ef HI) as [G1 G2]. split. { apply (proj2 (Rle_div_l (c * I) _ (q (INR k)) (Hq _))). replace (c * over (gamma_e b) f * q (INR k)) with (c * (q (INR k) * over (gamma_e b) f)) by ring. apply Rmult_le_compat_l; auto. } replace (q (INR k) * (c * I)) with (c * (q (INR k) * I)) by ring. apply Rmult_le_compat_l; auto. }
  assert (Hm : 0 < c_me P * c_c P ^ 2) by (apply Rmult_lt_0_compat; auto; apply pow_lt; auto).
  assert (Et : n_e_tot b = 1 * over (gamma_e b) (density (n_e b))) by (rewrite n_e_tot_eq, trapz_over by auto; ring).
  assert (Eu : u_e P b = c_me P * c_c P ^ 2 * over (gamma_e b) (fun g => g * density (n_e b) g)) by (rewrite u_e_eq, trapz_over by auto; reflexivity).
  assert (E0 : forall t, 0 < t -> density (n_e b) t = t ^ 0 * density (n_e b) t) by (intros t _; ring). assert (E1 : forall t, 0 < t -> t * density (n_e b) t = t ^ 1 * density (n_e b) t) by (intros t _; ring).
  split; [|split; [|split; [|split]]].
  - rewrite Et. replace I0 with (1 * I0) by ring. apply (W O); auto. lra.
  - unfold N_e_tot. rewrite Et. replace (V_b b * (1 * over (gamma_e b) (density (n_e b)))) with (v * over (gamma_e b) (density (n_e b))) by (unfold V_b, v; ring). apply (W O); auto. lra.
  - rewrite Eu. apply (W 1%nat (c_me P * c_c P ^ 2) (fun g => g * density (n_e b) g)); auto. lra.
  - unfold W_e. rewrite Eu. replace (V_b b * (c_me P * c_c P ^ 2 * over (gamma_e b) (fun g => g * density (n_e b) g))) with (v * (c_me P * c_c P ^ 2) * over (gamma_e b) (fun g => g * density (n_e b) g)) by (unfold V_b, v; ring). replace (v * (c_me P * c_c P ^ 2 * I1)) with (v * (c_me P * c_c P ^ 2) * I1) by ring.
    apply (W 1%nat (v * (c_me P * c_c P ^ 2)) (fun g => g * density (n_e b) g)); auto. apply Rmult_le_pos; lra.
  - unfold u_ph_synch. rewrite eval_gamma_e by auto. cbn [snd]. rewrite map2_map_l, trapz_over. unfold U_B, B_cgs, B_to_cgs. replace 2 with (INR 2) at 4 12 by (simpl; ring). apply (W 2%nat (c_sigmaT P * (B_field b ^ 2 / (8 * PI)) * R_b b) (fun g => g ^ 2 * density (n_e b) g)); auto. left. pos.
Qed.
Print Assumptions C90_integrals.
Lemma slope_chain s f a m b : 0 < a -> a <= m -> m <= b -> slope_le s f a m -> slope_le s f m b -> slope_le s f a b.
Proof.
  intros Ha Hm Hb H1 H2 x y Hx Hxy Hy. destruct (Rle_or_lt y m) as [L|L]; [apply H1; lra|]. destruct (Rle_or_lt m x) as [L'|L']; [apply H2; lra|].
  destruct (H1 x m) as [A1 A2]; try lra. destruct (H2 m y) as [B1 B2]; try lra.
  assert (E : Rpower (y / x) s = Rpower (y / m) s * Rpower (m / x) s). { rewrite Rpower_mult_distr by (apply Rdiv_lt_0_compat; lra). f_equal. field. split; lra. }
  rewrite E. assert (0 < Rpower (y / m) s) by apply exp_pos. assert (0 < Rpower (m / x) s) by apply exp_pos. split; nra.
Qed.
Lemma slope_power s f k p a b : 0 < a -> 0 <= k -> Rabs p <= s -> (forall t, a <= t <= b -> f t = k * npow t (- p)) -> slope_le s f a b.
Proof.
  intros Ha Hk Hp Hf x y Hx Hxy Hy. rewrite !Hf by lra. unfold npow. assert (E : Rpower y (- p) = Rpower (y / x) (- p) * Rpower x (- p)). { rewrite Rpower_mult_distr; [f_equal; field; lra| |lra]. apply Rdiv_lt_0_compat; lra. }
  assert (H1 : 1 <= y / x) by (apply (proj1 (Rle_div_r 1 y x ltac:(lra))); lra). apply Rabs_le_between in Hp.
  assert (Q1 : Rpower (y / x) (- p) <= Rpower (y / x) s) by (destruct H1 as [H1|H1]; [apply Rle_Rpower; lra|rewrite <- H1; unfold Rpower; rewrite ln_1, !Rmult_0_r; lra]).
  assert (Q2 : 1 <= Rpower (y / x) s * Rpower (y / x) (- p)). { rewrite <- Rpower_plus. destruct H1 as [H1|H1]; [|rewrite <- H1; unfold Rpower; rewrite ln_1, !Rmult_0_r, exp_0; lra]. rewrite <- (Rpower_O (y / x)) at 1 by lra. apply Rle_Rpower; lra. }
  rewrite E. assert (0 < Rpower x (- p)) by apply exp_pos. assert (0 <= k * Rpower x (- p)) by (apply Rmult_le_pos; lra). split; nra.
Qed.
Theorem C90_power_laws :
  (forall k p a b, 0 < a -> 0 <= k -> slope_le (Rabs p) (density (PowerLaw k p a b)) a b) /\
  (forall k p1 p2 gb a b, 0 < a -> a <= gb -> gb <= b -> 0 <= k -> slope_le (Rmax (Rabs p1) (Rabs p2)) (density (BrokenPowerLaw k p1 p2 gb a b)) a b).
Proof.
  assert (IN : forall s g, gamma_min s <= g <= gamma_max s -> in_range s g = true). { intros s g H. unfold in_range. rewrite !(proj2 (Rleb_true _ _)) by lra. reflexivity. }
  split.
  - intros k p a b Ha Hk. apply (slope_power _ _ k p); auto; [lra|]. intros t Ht. unfold density. rewrite IN by (simpl; lra). reflexivity.
  - intros k p1 p2 gb a b Ha H1 H2 Hk. assert (C : forall p t, 0 < t -> k * npow (t / gb) (- p) = k * npow (/ gb) (- p) * npow t (- p)).
    { intros p t Ht. unfold npow. rewrite Rmult_assoc, Rpower_mult_distr; auto; [|apply Rinv_0_lt_compat; lra]. do 2 f_equal. unfold Rdiv. ring. }
    apply (slope_chain _ _ a gb b); auto.
    + apply (slope_power _ _ (k * npow (/ gb) (- p1)) p1); auto. { apply Rmult_le_pos; auto. left. apply exp_pos. } { apply Rmax_l. }
      intros t Ht. unfold density. rewrite IN by (simpl; lra). cbv zeta. rewrite (proj2 (Rleb_true t gb)) by lra. apply C. lra.
    + apply (slope_power _ _ (k * npow (/ gb) (- p2)) p2); auto. { lra. } { apply Rmult_le_pos; auto. left. apply exp_pos. } { apply Rmax_r. }
      intros t Ht. unfold density. rewrite IN by (simpl; lra). cbv zeta. destruct (Rle_or_lt t gb) as [L|L].
      * assert (t = gb) by lra. subst t. rewrite (proj2 (Rleb_true gb gb)) by lra. rewrite <- C by lra. unfold npow. replace (gb / gb) with 1 by (field; lra). unfold Rpower. rewrite ln_1, !Rmult_0_r. reflexivity.
      * rewrite (proj2 (Rleb_false t gb)) by lra. apply C. lra.
Qed.
Print Assumptions C90_power_laws.

(** ** synchrotron photons *)
(** The energy density per unit photon energy that the SSC calculation derives
    from the synchrotron SED adds up to the total energy density of the
    synchrotron photons *)
Theorem C90_photons : forall b lo hi F u, emitter_ok b (n_e b) -> gamma_min (n_e b) < gamma_max (n_e b) -> (forall g, 0 <= density (n_e b) g) -> 0 < lo -> lo < hi ->
  (forall nu, 0 < nu -> synch_sed_flux codata {| sy_blob := b; sy_ssa := false; sy_integ := trapz |} (nu :: nil) = Ok (F nu :: nil)) ->
  (forall nu, 0 < nu -> u_ph_synch_diff codata b (comoving_energy codata b nu :: nil) (F nu :: nil) = u (comoving_energy codata b nu) :: nil) ->
  exists U, is_RInt u (comoving_energy codata b lo) (comoving_energy codata b hi) U /\ 0 <= U <= 1.005 * u_ph_synch codata b /\
    (comoving b lo <= 0.000001 * critical codata (c_me codata) (B_field b) (gamma_min (n_e b)) ->
     11 * critical codata (c_me codata) (B_field b) (gamma_max (n_e b)) <= comoving b hi -> 0.995 * u_ph_synch codata b <= U).
Proof.
  intros b lo hi F u Hb Hg Hd Hlo Hhi HF Hu. pose proof codata_ok as HP. pose proof HP as []. pose proof Hb as []. pose proof PI_RGT_0.
  destruct (C86_electrons b lo hi F Hb Hg Hd Hlo Hhi HF) as (E & HE & HU & HL). set (lum := over _ _) in *.
  assert (EU : u_ph_synch codata b = sphere_density codata (R_b b) lum). { rewrite C77_energy_density by auto. reflexivity. }
  set (K := 9 / 4 * d_L b ^ 2 / (c_c codata * R_b b ^ 2 * delta_D b ^ 4)). assert (HK : 0 < K) by (unfold K; pos).
  assert (EK : K * received b lum = u_ph_synch codata b). { rewrite EU. unfold K, received, sphere_density. field. repeat split; lra. }
  set (k := c_h codata * ((1 + redshift b) / delta_D b) / (c_me codata * c_c codata ^ 2)). assert (Hk : 0 < k) by (unfold k; pos).
  assert (Ek : forall n, comoving_energy codata b n = k * n). { intros n. unfold comoving_energy, comoving, k, Rdiv. ring. }
  exists (K * E). split; [|split].
  - red in HE. rewrite !Ek. assert (I1 : is_RInt (fun nu => F nu / nu) (/ k * (k * lo) + 0) (/ k * (k * hi) + 0) E). { replace (/ k * (k * lo) + 0) with lo by (field; lra). replace (/ k * (k * hi) + 0) with hi by (field; lra). exact HE. }
    apply (is_RInt_comp_lin _ (/ k) 0 (k * lo) (k * hi)) in I1. apply (is_RInt_scal _ _ _ K) in I1. eapply is_RInt_ext; [|exact I1].
    intros e He. rewrite Rmin_left in He by nra. assert (0 < e) by nra. unfold scal; simpl; unfold mult; simpl. replace (/ k * e + 0) with (/ k * e) by ring.
    assert (Hn : 0 < / k * e) by (apply Rmult_lt_0_compat; auto; apply Rinv_0_lt_compat; auto). specialize (Hu (/ k * e) Hn). rewrite Ek in Hu. replace (k * (/ k * e)) with e in Hu by (field; lra). unfold u_ph_synch_diff in Hu. cbn [map2] in Hu.
    assert (Hu' : u e = evaluate_u_ph_synch_diff codata (R_b b) (d_L b) (delta_D b) e (F (/ k * e))) by congruence. rewrite Hu'. unfold evaluate_u_ph_synch_diff, K. set (f := F _). field. repeat split; lra.
  - rewrite <- EK. nra.
  - intros A1 A2. specialize (HL A1 A2). rewrite <- EK. nra.
Qed.
Print Assumptions C90_photons.

(** ** concrete cases *)
Example C90_case : exists I0, is_RInt (density (n_e ex_blob)) 10 1e5 I0 /\ 0 < I0 /\ I0 / 1.15 <= n_e_tot ex_blob <= 1.15 * I0.
Proof.
  set (d := density (n_e ex_blob)). assert (Ed : forall t, 10 <= t <= 1e5 -> d t = 1e-13 * Rpower t (- (2.1))). { intros t Ht. unfold d, density, ex_blob. cbn [n_e]. unfold in_range. cbn [gamma_min gamma_max]. rewrite !(proj2 (Rleb_true _ _)) by lra. reflexivity. }
  assert (EX : forall k, is_RInt (fun t => t ^ k * d t) 10 1e5 (RInt (fun t => t ^ k * (1e-13 * Rpower t (- (2.1)))) 10 1e5)).
  { intros k. eapply is_RInt_ext with (f := fun t => t ^ k * (1e-13 * Rpower t (- (2.1)))). { intros t Ht. rewrite Rmin_left, Rmax_right in Ht by lra. rewrite Ed by lra. reflexivity. }
    apply (@RInt_correct R_CompleteNormedModule). apply (@ex_RInt_continuous R_CompleteNormedModule). intros t Ht. rewrite Rmin_left, Rmax_right in Ht by lra.
    apply (ex_derive_continuous (fun t => t ^ k * (1e-13 * Rpower t (- (2.1))))). unfold Rpower. auto_derive. lra. }
  set (I0 := RInt (fun t => t ^ 0 * (1e-13 * Rpower t (- (2.1)))) 10 1e5). exists I0.
  assert (H0 : is_RInt d 10 1e5 I0). { eapply is_RInt_ext; [|apply (EX O)]. intros t _. cbn [pow]. apply Rmult_1_l. }
  assert (HI : 0 < I0). { unfold I0. apply RInt_gt_0; [lra| |]. { intros t Ht. cbn [pow]. assert (0 < Rpower t (- (2.1))) by apply exp_pos. lra. } intros t Ht. apply (ex_derive_continuous (fun t => t ^ 0 * (1e-13 * Rpower t (- (2.1))))). unfold Rpower. auto_derive. lra. }
  split; [exact H0|]. split; [exact HI|].
  assert (Hd : forall g, 0 <= d g) by (intros g; apply (density_nonneg_build (ShPL 2.1)); lra).
  assert (A : Rabs 2.1 = 2.1) by (apply Rabs_pos_eq; lra). pose proof (proj1 C90_power_laws 1e-13 2.1 10 1e5 ltac:(lra) ltac:(lra)) as SL. rewrite A in SL.
  destruct (C90_integrals codata ex_blob 2.1 I0 (RInt (fun t => t ^ 1 * (1e-13 * Rpower t (- (2.1)))) 10 1e5) (RInt (fun t => t ^ 2 * (1e-13 * Rpower t (- (2.1)))) 10 1e5) codata_ok ex_emitter) as (K & _); auto.
  { unfold ex_blob; cbn [n_e gamma_min gamma_max]; lra. } { unfold ex_blob; cbn [gamma_e_size]; lia. } { lra. }
  { eapply is_RInt_ext; [|apply (EX 1%nat)]. intros t _. cbn [pow]. rewrite Rmult_1_r. reflexivity. }
  cbv zeta in K. change (gamma_max (n_e ex_blob)) with 1e5 in K. change (gamma_min (n_e ex_blob)) with 10 in K. change (gamma_e_size ex_blob) with 200%nat in K. set (q := Rpower _ _) in K.
  assert (Hq : 0 < q <= 1.15).
  { split; [apply exp_pos|]. unfold q, Rpower. replace (1e5 / 10) with (10 ^ 4) by lra. rewrite ln_pow by lra. pose proof ln10_le3. pose proof ln10_pos. replace (200 - 1)%nat with 199%nat by lia. replace (INR 199) with 199 by (simpl; lra). replace (INR 4) with 4 by (simpl; lra).
    set (z := (2.1 + 0) / 199 * (4 * ln 10)). assert (Hz : 0 <= z <= 0.13) by (unfold z; split; lra). assert (Q : 1 - z <= exp (- z)) by (pose proof (exp_ge (- z)); lra). rewrite exp_Ropp in Q. pose proof (exp_pos z) as Q1.
    assert ((1 - z) * exp z <= 1). { replace 1 with (/ exp z * exp z) at 2 by (field; lra). apply Rmult_le_compat_r; lra. } nra. }
  split; [|nra]. apply Rle_trans with (I0 / q); [|apply K]. apply Rmult_le_compat_l; [lra|]. apply Rinv_le_contravar; lra.
Qed.
Example C90_case_jet : P_jet_B codata ex_blob = Ok (two_sided_power codata 1e16 10 (1 ^ 2 / (8 * PI))) /\ P_jet_ke codata ex_blob = Ok (two_sided_power codata 1e16 10 (W_e codata ex_blob / (4 / 3 * PI * 1e16 ^ 3))).
Proof.
  destruct (C90_jet codata ex_blob) as (_ & A & B & _). { unfold ex_blob; cbn [Gamma]; lra. } { unfold ex_blob; cbn [R_b]; lra. } split; [exact A|]. apply B. reflexivity.
Qed.
Example C90_case_photons : exists F u, (forall nu, 0 < nu -> synch_sed_flux codata {| sy_blob := ex_blob; sy_ssa := false; sy_integ := trapz |} (nu :: nil) = Ok (F nu :: nil)) /\
  (forall nu, 0 < nu -> u_ph_synch_diff codata ex_blob (comoving_energy codata ex_blob nu :: nil) (F nu :: nil) = u (comoving_energy codata ex_blob nu) :: nil).
Proof.
  pose proof codata_ok as []. set (k := c_h codata * ((1 + redshift ex_blob) / delta_D ex_blob) / (c_me codata * c_c codata ^ 2)). assert (Hk : 0 < k). { unfold k, ex_blob. cbn [redshift delta_D]. assert (0 < (1 + 0.069) / 10) by lra. pos. }
  set (F := fun n => received ex_blob (comoving ex_blob n * over (log_grid (gamma_min (n_e ex_blob)) (gamma_max (n_e ex_blob)) (gamma_e_size ex_blob)) (fun g =>
        population ex_blob (n_e ex_blob) g * synch_power codata (c_me codata) (B_field ex_blob) g (comoving ex_blob n)))).
  exists F, (fun e => evaluate_u_ph_synch_diff codata (R_b ex_blob) (d_L ex_blob) (delta_D ex_blob) e (F (/ k * e))). split.
  - intros nu _. rewrite C78_synchrotron by (apply codata_ok || apply ex_emitter). reflexivity.
  - intros nu Hn. unfold u_ph_synch_diff. cbn [map2]. replace (/ k * comoving_energy codata ex_blob nu) with nu; [reflexivity|]. replace (comoving_energy codata ex_blob nu) with (k * nu) by (unfold comoving_energy, comoving, k, Rdiv; ring). field. lra.
Qed.
