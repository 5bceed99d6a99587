(** C117: the ends of the Lorentz factor grid in double precision *)
From Coquelicot Require Import Coquelicot.
From Flocq Require Import Core.
From Flocq Require Import Relative.
From Verif Require Import Base TEUtils NumpyInst MathUtils Clock ClockFacts Rounding RoundFacts Spec_Round MathFacts ComptonFacts Props_Round Props_Round2 Props_Round3 Props_Round4 Props_Round5 RoundLog Props_Round6 Spectra SpectraFacts Props_TE5 RoundGrid.
Import ListNotations.
Open Scope list_scope.
Open Scope R_scope.
#[local] Existing Instance prec53.

Theorem C117_model : (forall lo hi n, grid_points (fun v => v) log10 pow10 lo hi n = np_logspace (log10 lo) (log10 hi) n) /\
  forall lo hi l, nudged (fun v => v) lo hi l = correct_bounds lo hi l.
Proof.
  split; [|reflexivity]. intros lo hi n. unfold grid_points, np_logspace, linspace. rewrite map_map. apply map_ext_in. intros i Hi. apply in_seq in Hi. f_equal. unfold grid_exponent.
  destruct (Nat.eqb_spec (S i) n) as [E|E]; cbn [andb]; cbv beta iota; [|ring]. destruct (Nat.ltb_spec 1 n) as [L|L]; [|ring].
  replace (n - 1)%nat with i by lia. assert (INR i <> 0) by (apply not_0_INR; lia). field. auto.
Qed.
Print Assumptions C117_model.

(** np.log10 and 10**y accurate to one unit in the last place *)
Definition accurate_lg (f : R -> R) : Prop := forall x, 1 <= x <= 10 ^ 15 -> is_double (f x) /\ 0 <= f x /\ Rabs (f x - ln x / ln 10) <= / 2 ^ 52 * (ln x / ln 10) + / 2 ^ 1000.
Definition accurate_p10 (f : R -> R) : Prop := forall y, 0 <= y <= 16 -> Rabs (f y - exp (y * ln 10)) <= / 2 ^ 52 * exp (y * ln 10).

Lemma ln10_ge2 : 2 <= ln 10.
Proof. rewrite <- (ln_exp 2). left. apply ln_increasing; [apply exp_pos|]. replace 2 with (1 + 1) by lra. rewrite exp_plus. pose proof exp_le_3. pose proof (exp_pos 1). nra. Qed.
Lemma u52 : / 2 ^ 52 = 2 * u64.
Proof. rewrite u64_val. simpl. lra. Qed.
(** the exponent of an end and the point it gives *)
Lemma log_range x : 1 <= x <= 10 ^ 15 -> 0 <= ln x / ln 10 <= 15.
Proof.
  intros [A B]. pose proof ln10_pos as P. assert (0 <= ln x) by (rewrite <- ln_1; apply Rcomplements.ln_le; lra). assert (ln x <= 15 * ln 10). { replace 15 with (INR 15) by (rewrite INR_IZR_INZ; reflexivity). rewrite <- ln_pow by lra. apply Rcomplements.ln_le; lra. }
  split; [apply Rmult_le_pos; [auto|left; apply Rinv_0_lt_compat; auto]|]. apply Rmult_le_reg_r with (ln 10); auto. unfold Rdiv. rewrite Rmult_assoc, Rinv_l; lra.
Qed.
Lemma flog_range f x : accurate_lg f -> 1 <= x <= 10 ^ 15 -> 0 <= f x <= 155 / 10 /\ Rabs (f x - ln x / ln 10) <= 31 * u64.
Proof.
  intros H Hx. destruct (H x Hx) as (_ & E0 & E). pose proof (log_range x Hx) as L. rewrite u52 in E. fold h0 in E. pose proof h0_small as [[h1 h2] _]. set (l := ln x / ln 10) in *. rewrite u64_val in *. pose proof (Rabs_le_inv _ _ E). split; [lra|]. eapply Rle_trans; [exact E|]. lra.
Qed.
Lemma end_point fl fp x t : accurate_lg fl -> accurate_p10 fp -> 1 <= x <= 10 ^ 15 -> t = fl x -> Rabs (fp t - x) <= x / 10 ^ 13.
Proof.
  intros Hl Hp Hx ->. destruct (flog_range fl x Hl Hx) as [R0 E]. specialize (Hp (fl x) ltac:(lra)). pose proof ln10_pos as P. pose proof ln10_le3 as P3. set (w := (fl x - ln x / ln 10) * ln 10). assert (X : exp (fl x * ln 10) = x * exp w). { rewrite <- (exp_ln x) at 2 by lra. rewrite <- exp_plus. f_equal. unfold w. field. lra. }
  assert (W : Rabs w <= 93 * u64). { unfold w. rewrite Rabs_mult, (Rabs_right (ln 10)) by lra. replace (93 * u64) with (31 * u64 * 3) by ring. apply Rmult_le_compat; try apply Rabs_pos; lra. }
  pose proof (exp_rel w ltac:(rewrite u64_val in *; lra)) as K. rewrite X, u52 in Hp. set (e := exp w) in *. assert (D : Rabs (e - 1) <= 95 * u64) by (rewrite u64_val in *; lra). pose proof (Rabs_le_inv _ _ D) as D'.
  replace (fp (fl x) - x) with ((fp (fl x) - x * e) + x * (e - 1)) by ring. eapply Rle_trans; [apply Rabs_triang|]. rewrite Rabs_mult, (Rabs_right x) by lra. assert (x * Rabs (e - 1) <= x * (95 * u64)) by (apply Rmult_le_compat_l; lra). assert (x * e <= x * 2) by (apply Rmult_le_compat_l; rewrite u64_val in *; lra). assert (2 * u64 * (x * e) <= 2 * u64 * (x * 2)) by (apply Rmult_le_compat_l; [rewrite u64_val|]; lra). rewrite u64_val in *. lra.
Qed.
(** the test of the correction *)
Lemma ratio_small d b x : 0 < b -> 1 <= x -> 0 <= d <= x / 10 ^ 13 -> 99 / 100 * x <= b -> binary64 (binary64 d / b) < binary64 (1 / 10 ^ 10).
Proof.
  intros Hb Hx Hd Hbx. pose proof h0_small as [[h1 h2] _]. pose proof (fl_err d) as F. rewrite (Rabs_right d) in F by lra. pose proof (Rabs_le_inv _ _ F) as F'.
  assert (D1 : is_double (1 / 2 ^ 34)) by (apply (pow2_double 1 34); lia). assert (D2 : is_double (3 / 2 ^ 35)) by (apply (pow2_double 3 35); lia).
  assert (A : binary64 (binary64 d / b) <= 1 / 2 ^ 34). { apply b64_le_double; auto. apply Rmult_le_reg_r with b; auto. unfold Rdiv at 1. rewrite Rmult_assoc, Rinv_l by lra. rewrite u64_val in *. simpl pow in *. lra. }
  assert (B : 3 / 2 ^ 35 <= binary64 (1 / 10 ^ 10)) by (apply b64_ge_double; auto; simpl; lra). simpl pow in *. lra.
Qed.
Lemma exponent_first f a b n : is_double a -> (2 <= n)%nat -> f = binary64 -> grid_exponent f a b n 0 = a.
Proof.
  intros Ha Hn ->. unfold grid_exponent. destruct (Nat.eqb_spec 1 n); [lia|]. simpl andb. cbv iota. simpl INR. rewrite Rmult_0_l, (b64_id 0) by apply double_0. rewrite Rplus_0_l. apply b64_id. auto.
Qed.
Lemma exponent_last f a b n : (2 <= n)%nat -> grid_exponent f a b n (n - 1) = b.
Proof. intros Hn. unfold grid_exponent. replace (S (n - 1)) with n by lia. rewrite Nat.eqb_refl. destruct (Nat.ltb_spec 1 n); [reflexivity|lia]. Qed.
(** a grid is its first point, the inner points, its last point *)
Lemma grid_split f fl fp lo hi n : (2 <= n)%nat -> grid_points f fl fp lo hi n =
  fp (grid_exponent f (fl lo) (fl hi) n 0) :: map (fun i => fp (grid_exponent f (fl lo) (fl hi) n i)) (seq 1 (n - 2)) ++ [fp (fl hi)].
Proof.
  intros Hn. unfold grid_points. set (g := fun i => fp (grid_exponent f (fl lo) (fl hi) n i)). replace n with (S (n - 2 + 1)) at 1 by lia. simpl seq. simpl map. f_equal. rewrite seq_app, map_app. f_equal. simpl. f_equal. unfold g. replace (S (n - 2)) with (n - 1)%nat by lia. rewrite exponent_last by auto. reflexivity.
Qed.
Lemma nudged_split f lo hi a m z : nudged f lo hi (a :: m ++ [z]) =
  (if Rltb a lo && Rltb (f (f (lo - a) / a)) (f (1 / 10 ^ 10)) then lo else a) :: m ++ [if Rltb hi z && Rltb (f (f (z - hi) / hi)) (f (1 / 10 ^ 10)) then hi else z].
Proof.
  unfold nudged. set (a' := if Rltb a lo && _ then lo else a). replace (nudge_first f lo (a :: m ++ [z])) with ((a' :: m) ++ [z]) by (cbn [nudge_first]; unfold a'; destruct (Rltb a lo && _); reflexivity).
  unfold nudge_last. rewrite rev_unit. destruct (Rltb hi z && _); [|reflexivity]. cbn [rev]. rewrite rev_app_distr, rev_involutive. simpl. reflexivity.
Qed.
(** ** the inner points *)
Lemma exponent_inner a b n i : 0 <= a -> a + 29 / 100 <= b -> b <= 155 / 10 -> (1 <= i)%nat -> (S i < n)%nat -> INR n <= 10 ^ 6 ->
  a + 1 / 10 ^ 7 <= grid_exponent binary64 a b n i <= b - 1 / 10 ^ 7.
Proof.
  intros Ha Hab Hb Hi Hin Hn. unfold grid_exponent. destruct (Nat.eqb_spec (S i) n); [lia|]. cbn [andb]. cbv iota. pose proof h0_small as [[h1 h2] _]. set (d := b - a). set (N := INR (n - 1)).
  assert (N0 : 2 <= N <= 10 ^ 6). { unfold N. split; [replace 2 with (INR 2) by (simpl; ring); apply le_INR; lia|]. apply Rle_trans with (INR n); [apply le_INR; lia|auto]. }
  assert (I0 : 1 <= INR i <= N - 1). { split; [replace 1 with (INR 1) by reflexivity; apply le_INR; lia|]. unfold N. replace (INR (n - 1) - 1) with (INR (n - 2)). - apply le_INR. lia. - replace (n - 1)%nat with (S (n - 2)) by lia. rewrite S_INR. ring. }
  set (I := INR i) in *. assert (Hd : 29 / 100 <= d <= 155 / 10) by (unfold d; lra). assert (IN : 0 < / N) by (apply Rinv_0_lt_compat; lra). assert (NN : N * / N = 1) by (apply Rinv_r; lra).
  assert (iN : / 10 ^ 6 <= / N <= / 2) by (split; apply Rinv_le_contravar; lra).
  pose proof (fl_err d) as E1. rewrite (Rabs_right d) in E1 by lra. set (d1 := binary64 d) in *. assert (B1 : Rabs (d1 - d) <= 16 * u64) by (rewrite u64_val in *; lra). pose proof (Rabs_le_inv _ _ B1) as C1.
  pose proof (fl_err (d1 / N)) as E2. assert (Q : 0 <= d1 / N) by (apply Rmult_le_pos; [rewrite u64_val in *|]; lra). rewrite (Rabs_right (d1 / N)) in E2 by lra. set (q := d1 / N) in *. assert (QN : q * N = d1) by (unfold q; field; lra). set (st := binary64 q) in *.
  assert (S1 : Rabs (st * N - d) <= 34 * u64). { replace (st * N - d) with ((st - q) * N + (d1 - d)) by (rewrite <- QN; ring). eapply Rle_trans; [apply Rabs_triang|]. rewrite Rabs_mult, (Rabs_right N) by lra. assert (K : Rabs (st - q) * N <= (u64 * q + h0) * N) by (apply Rmult_le_compat_r; lra). replace ((u64 * q + h0) * N) with (u64 * d1 + h0 * N) in K by (rewrite <- QN; ring). assert (h0 * N <= h0 * 10 ^ 6) by (apply Rmult_le_compat_l; lra). rewrite u64_val in *. lra. }
  set (x := I * / N). assert (X : / N <= x <= 1 - / N). { unfold x. split; [replace (/ N) with (1 * / N) at 1 by ring; apply Rmult_le_compat_r; lra|]. replace (1 - / N) with ((N - 1) * / N) by (rewrite Rmult_minus_distr_r, NN; ring). apply Rmult_le_compat_r; lra. }
  assert (S2 : Rabs (I * st - x * d) <= 34 * u64). { replace (I * st - x * d) with (x * (st * N - d)) by (unfold x; rewrite Rmult_minus_distr_l; replace (I * / N * (st * N)) with (I * st * (N * / N)) by ring; rewrite NN; ring). rewrite Rabs_mult, (Rabs_right x) by lra. replace (34 * u64) with (1 * (34 * u64)) by ring. apply Rmult_le_compat; try apply Rabs_pos; lra. }
  assert (XD : 0 <= x * d <= 155 / 10). { split; [apply Rmult_le_pos; lra|]. replace (155 / 10) with (1 * (155 / 10)) by ring. apply Rmult_le_compat; lra. }
  assert (S3 : Rabs (binary64 (I * st) - x * d) <= 51 * u64). { eapply Rle_trans; [apply (fl_up _ _ _ (155 / 10) S2)|]. - rewrite Rabs_right; lra. - rewrite u64_val in *; lra. }
  assert (S4 : Rabs (binary64 (I * st) + a - (x * d + a)) <= 51 * u64) by (replace (binary64 (I * st) + a - (x * d + a)) with (binary64 (I * st) - x * d) by ring; auto).
  assert (S5 : Rabs (binary64 (binary64 (I * st) + a) - (x * d + a)) <= 90 * u64). { eapply Rle_trans; [apply (fl_up _ _ _ 31 S4)|]. - rewrite Rabs_right; lra. - rewrite u64_val in *; lra. }
  pose proof (Rabs_le_inv _ _ S5) as F. assert (L1 : / 10 ^ 6 * (29 / 100) <= x * d) by (apply Rmult_le_compat; lra). assert (L2 : x * d <= d - / 10 ^ 6 * (29 / 100)). { assert (K : / 10 ^ 6 * (29 / 100) <= (1 - x) * d) by (apply Rmult_le_compat; lra). lra. } unfold d in L2. fold d in L2. rewrite u64_val in *. unfold d in *. lra.
Qed.
Lemma inner_point fl fp x y s : accurate_lg fl -> accurate_p10 fp -> 1 <= x <= 10 ^ 15 -> 0 <= y <= 16 -> s * (fl x) + 1 / 10 ^ 7 <= s * y -> s = 1 \/ s = - (1) -> s * x <= s * fp y.
Proof.
  intros Hl Hp Hx Hy Hs S. destruct (flog_range fl x Hl Hx) as [R0 E]. specialize (Hp y Hy). pose proof (Rabs_le_inv _ _ E) as E'. pose proof (Rabs_le_inv _ _ Hp) as P'. pose proof ln10_pos as P. pose proof ln10_ge2 as P2. set (w := (y - ln x / ln 10) * ln 10).
  assert (X : exp (y * ln 10) = x * exp w). { rewrite <- (exp_ln x) at 1 by lra. rewrite <- exp_plus. f_equal. unfold w. field. lra. } rewrite X, u52 in P'. pose proof (exp_pos w) as ew. set (l := ln x / ln 10) in *.
  destruct S as [-> | ->].
  - assert (W : 9 / 10 ^ 8 * 2 <= w). { unfold w. apply Rmult_le_compat; rewrite ?u64_val in *; lra. } pose proof (exp_ineq1_le w) as K. set (e := exp w) in *. assert (x * (1 + 1 / 10 ^ 7) <= x * e) by (apply Rmult_le_compat_l; lra). assert (0 < x * e) by (apply Rmult_lt_0_compat; lra). rewrite u64_val in *. lra.
  - assert (W : 9 / 10 ^ 8 * 2 <= - w). { unfold w. rewrite Ropp_mult_distr_l. apply Rmult_le_compat; rewrite ?u64_val in *; lra. } pose proof (exp_ineq1_le (- w)) as K. assert (EE : exp w * exp (- w) = 1) by (rewrite <- exp_plus, Rplus_opp_r, exp_0; auto). set (e := exp w) in *. assert (e * (1 + 1 / 10 ^ 7) <= 1) by (rewrite <- EE; apply Rmult_le_compat_l; lra).
    assert (x * (e * (1 + 1 / 10 ^ 7)) <= x * 1) by (apply Rmult_le_compat_l; lra). assert (0 < x * e) by (apply Rmult_lt_0_compat; lra). rewrite u64_val in *. lra.
Qed.
(** ** after the correction every point of the grid is in the range of the distribution *)
Theorem C117_inside : forall flog fpow, accurate_lg flog -> accurate_p10 fpow ->
  forall gmin gmax n, 1 <= gmin -> 2 * gmin <= gmax <= 10 ^ 15 -> (2 <= n)%nat -> INR n <= 10 ^ 6 ->
  forall g, In g (nudged binary64 gmin gmax (grid_points binary64 flog fpow gmin gmax n)) -> gmin <= g <= gmax.
Proof.
  intros fl fp Hl Hp lo hi n Hlo Hhi Hn Hn6 g Hg. rewrite grid_split, nudged_split in Hg by lia. destruct (Hl lo ltac:(lra)) as (Da & _). destruct (flog_range fl lo Hl ltac:(lra)) as [Ra Ea]. destruct (flog_range fl hi Hl ltac:(lra)) as [Rb Eb].
  rewrite (exponent_first binary64 _ _ n Da ltac:(lia) eq_refl) in Hg. pose proof (end_point fl fp lo (fl lo) Hl Hp ltac:(lra) eq_refl) as P0. pose proof (end_point fl fp hi (fl hi) Hl Hp ltac:(lra) eq_refl) as P1. pose proof (Rabs_le_inv _ _ P0) as Q0. pose proof (Rabs_le_inv _ _ P1) as Q1.
  simpl in Hg. destruct Hg as [<-|Hg]; [|apply in_app_or in Hg; destruct Hg as [Hg|[<-|[]]]].
  - destruct (Rltb_spec (fp (fl lo)) lo) as [L|L]; [|cbn [andb]; lra]. replace (Rltb _ _) with true; [cbn [andb]; lra|]. symmetry. apply Rltb_true. apply (ratio_small _ _ lo); lra.
  - apply in_map_iff in Hg. destruct Hg as (i & <- & Hi). apply in_seq in Hi. pose proof ln10_le3 as L3. pose proof ln10_pos as LP.
    assert (G : fl lo + 29 / 100 <= fl hi). { pose proof (Rabs_le_inv _ _ Ea). pose proof (Rabs_le_inv _ _ Eb). assert (K1 : 3 * ln 10 <= 10 * ln 2). { replace 3 with (INR 3) by (simpl; ring). replace 10 with (INR 10) at 2 by (simpl; ring). rewrite <- !ln_pow by lra. apply Rcomplements.ln_le; simpl; lra. }
      assert (K2 : ln 2 + ln lo <= ln hi). { rewrite <- ln_mult by lra. apply Rcomplements.ln_le; lra. } assert (K3 : ln lo / ln 10 + 3 / 10 <= ln hi / ln 10). { apply Rmult_le_reg_r with (ln 10); auto. unfold Rdiv. rewrite Rmult_plus_distr_r, !Rmult_assoc, Rinv_l by lra. lra. } rewrite u64_val in *. lra. }
    pose proof (exponent_inner (fl lo) (fl hi) n i ltac:(lra) G ltac:(lra) ltac:(lia) ltac:(lia) Hn6) as Y. set (y := grid_exponent _ _ _ _ _) in *. split.
    + pose proof (inner_point fl fp lo y 1 Hl Hp ltac:(lra) ltac:(lra) ltac:(lra) ltac:(auto)). lra.
    + pose proof (inner_point fl fp hi y (- (1)) Hl Hp ltac:(lra) ltac:(lra) ltac:(lra) ltac:(auto)). lra.
  - destruct (Rltb_spec hi (fp (fl hi))) as [L|L]; [|cbn [andb]; lra]. replace (Rltb _ _) with true; [cbn [andb]; lra|]. symmetry. apply Rltb_true. apply (ratio_small _ _ hi); lra.
Qed.
Print Assumptions C117_inside.

(** ** the self-absorption integrand of three distributions forgets the first point *)
(** the double two above 10^2.5 *)
Definition awkward : R := 5563137692178266 / 2 ^ 44.
Definition root5 : R := exp (25 / 10 * ln 10).
Lemma root5_sq : root5 * root5 = 100000 /\ 0 < root5.
Proof.
  split; [|apply exp_pos]. unfold root5. rewrite <- exp_plus. replace (25 / 10 * ln 10 + 25 / 10 * ln 10) with (INR 5 * ln 10) by (simpl; field). rewrite <- ln_pow, exp_ln by (try apply pow_lt; lra). simpl. ring.
Qed.
(** 2^-44 times the rational bounds of 10^2.5 *)
Lemma root5_bounds : (5563137692178264 + 1 / 2) / 2 ^ 44 <= root5 <= (5563137692178264 + 52 / 100) / 2 ^ 44.
Proof.
  destruct root5_sq as [E P]. assert (M : forall v, 0 <= v -> (v * v <= 100000 -> v <= root5) /\ (100000 <= v * v -> root5 <= v)). { intros v Hv. split; intros H; rewrite <- E in H; apply Rnot_lt_le; intros L; [assert (root5 * root5 < v * v)|assert (v * v < root5 * root5)]; try lra; apply Rmult_le_0_lt_compat; lra. }
  split; apply M; simpl; lra.
Qed.
Lemma awkward_log : is_double awkward /\ 316 < awkward < 317 /\ binary64 (ln awkward / ln 10) = 25 / 10 /\ forall f, accurate_p10 f -> f (25 / 10) < awkward.
Proof.
  pose proof root5_bounds as B. destruct root5_sq as [_ P]. pose proof ln10_pos as LP. pose proof ln10_ge2 as L2. split; [apply (pow2_double 5563137692178266 44); lia|]. split; [unfold awkward; simpl; lra|].
  assert (A : 0 < awkward) by (unfold awkward; simpl; lra).
  assert (LL : 25 / 10 <= ln awkward / ln 10 < 25 / 10 + 9 / 10 * / 2 ^ 52).
  { assert (R5 : ln root5 = 25 / 10 * ln 10) by (unfold root5; apply ln_exp). assert (U : ln root5 <= ln awkward). { apply Rcomplements.ln_le; auto. unfold awkward. simpl pow in *. lra. }
    assert (V : ln awkward - ln root5 <= awkward / root5 - 1). { rewrite <- ln_div by auto. assert (Q : 0 < awkward / root5) by (apply Rdiv_lt_0_compat; auto). pose proof (exp_ineq1_le (ln (awkward / root5))) as K. rewrite exp_ln in K by auto. lra. }
    assert (W : awkward / root5 - 1 < 18 / 10 * / 2 ^ 52). { assert (awkward / root5 < 1 + 18 / 10 * / 2 ^ 52); [|lra]. apply Rmult_lt_reg_r with root5; auto. unfold Rdiv at 1. rewrite Rmult_assoc, Rinv_l by lra. unfold awkward. simpl pow in *. lra. }
    set (q := ln awkward / ln 10). assert (Q : q * ln 10 = ln awkward) by (unfold q; field; lra). assert (9 / 10 * / 2 ^ 52 * 2 <= 9 / 10 * / 2 ^ 52 * ln 10) by (apply Rmult_le_compat_l; [simpl|]; lra).
    split; [apply Rmult_le_reg_r with (ln 10)|apply Rmult_lt_reg_r with (ln 10)]; auto; lra. }
  split.
  - rewrite (round_to 51 (5 * 2 ^ 50)%Z); [|lia|lra|]. + simpl. lra. + apply Rabs_lt_between. simpl in *. lra.
  - intros f Hf. specialize (Hf (25 / 10) ltac:(lra)). fold root5 in Hf. pose proof (Rabs_le_inv _ _ Hf) as [_ H]. unfold awkward. simpl pow in *. lra.
Qed.
Theorem C117_ssa_refuted : exists gmin, is_double gmin /\ 316 < gmin < 317 /\
  forall flog fpow, flog gmin = binary64 (ln gmin / ln 10) -> accurate_p10 fpow ->
  forall gmax n k p1 p2 gb gc, gmin < gmax -> (2 <= n)%nat -> 0 < k -> - (2) < p1 -> - (2) < p2 -> 0 < gb -> 0 < gc ->
  forall sh, sh = ShPL p1 \/ sh = ShBPL p1 p2 gb \/ sh = ShECBPL p1 p2 gc gb ->
  ssa_point (build sh k gmin gmax) gmin < 0 /\
  exists gs vs, evaluate_SSA_integrand (build sh k gmin gmax) (grid_points binary64 flog fpow gmin gmax n) = Ok (gs, 0 :: vs).
Proof.
  destruct awkward_log as (D & H3 & L & F). exists awkward. split; auto. split; auto. intros fl fp Hl Hp gmax n k p1 p2 gb gc Hg Hn Hk H1 H2 Hgb Hgc sh Hsh. rewrite L in Hl.
  assert (A : 0 < awkward) by lra. assert (IR : forall s, gamma_min s = awkward -> gamma_max s = gmax -> in_range s awkward = true). { intros s E1 E2. unfold in_range. rewrite E1, E2. apply andb_true_intro. split; apply Rleb_true; lra. }
  assert (OR : forall s, gamma_min s = awkward -> in_range s (fp (25 / 10)) = false). { intros s E1. unfold in_range. rewrite E1. specialize (F fp Hp). destruct (Rleb_spec awkward (fp (25 / 10))); [lra|reflexivity]. }
  assert (D25 : is_double (25 / 10)) by (rewrite <- L; apply b64_double).
  assert (G : exists m, grid_points binary64 fl fp awkward gmax n = fp (25 / 10) :: m). { rewrite grid_split by auto. rewrite Hl, exponent_first by auto. eexists. reflexivity. } destruct G as [m G]. rewrite G.
  destruct Hsh as [-> | [-> | ->]]; cbn [build]; split.
  - unfold ssa_point. rewrite IR by reflexivity. pose proof (npow_pos awkward (- p1 - 1)). assert (0 < k * ((p1 + 2) * npow awkward (- p1 - 1))) by (repeat apply Rmult_lt_0_compat; lra). lra.
  - unfold evaluate_SSA_integrand. cbn [map]. unfold ssa_point at 1. rewrite OR by reflexivity. rewrite Rmult_0_r. do 2 eexists. reflexivity.
  - unfold ssa_point. rewrite IR by reflexivity. cbv zeta. set (x := if Rleb awkward gb then p1 else p2). assert (- (2) < x) by (unfold x; destruct (Rleb awkward gb); auto). pose proof (npow_pos (awkward / gb) (- x)) as N.
    assert (0 < k * (x + 2) * / awkward * npow (awkward / gb) (- x)). { repeat apply Rmult_lt_0_compat; try lra. apply Rinv_0_lt_compat; auto. } unfold Rdiv in *. lra.
  - unfold evaluate_SSA_integrand. cbn [map]. unfold ssa_point at 1. rewrite OR by reflexivity. cbv zeta. do 2 eexists. reflexivity.
  - unfold ssa_point. rewrite IR by reflexivity. cbn [ssa_prefactor]. unfold density. rewrite IR by reflexivity. cbv zeta. set (x := if Rleb awkward gb then p1 else p2). assert (- (2) < x) by (unfold x; destruct (Rleb awkward gb); auto). pose proof (npow_pos (awkward / gb) (- x)) as N. pose proof (exp_pos (- awkward / gc)) as EP.
    assert (Q : 0 < k * npow (awkward / gb) (- x) * exp (- awkward / gc)) by (repeat apply Rmult_lt_0_compat; lra). assert (0 < (x + 2) * / awkward) by (apply Rmult_lt_0_compat; [lra|apply Rinv_0_lt_compat; auto]). assert (0 < / gc) by (apply Rinv_0_lt_compat; auto).
    assert (W : 0 < ((x + 2) * / awkward + / gc) * (k * npow (awkward / gb) (- x) * exp (- awkward / gc))) by (apply Rmult_lt_0_compat; lra). set (Y := k * npow (awkward / gb) (- x) * exp (- awkward / gc)) in *. replace (- (x + 2) / awkward + - (1) / gc) with (- ((x + 2) * / awkward + / gc)) by (field; lra). lra.
  - unfold evaluate_SSA_integrand. assert (C : exists g' m', corrected (ExpCutoffBrokenPowerLaw k p1 p2 gc gb awkward gmax) (fp (25 / 10) :: m) = g' :: m').
    { cbn [corrected gamma_min gamma_max]. unfold correct_bounds. assert (X : exists g' , correct_first awkward (fp (25 / 10) :: m) = g' :: m) by (cbn [correct_first]; destruct (Rltb (fp (25 / 10)) awkward && _); eexists; reflexivity). destruct X as [g' ->]. unfold correct_last. destruct (rev (g' :: m)) as [|a l'] eqn:E. { simpl in E. destruct (rev m); discriminate. }
      destruct (Rltb gmax a && _); [|eauto]. destruct (rev (gmax :: l')) as [|b l''] eqn:E2; eauto. simpl in E2. destruct (rev l'); discriminate. }
    destruct C as (g' & m' & ->). cbn [map2]. rewrite OR by reflexivity. do 2 eexists. reflexivity.
Qed.
Print Assumptions C117_ssa_refuted.

(** when the first point is not below gamma_min, every distribution keeps it *)
Theorem C117_ssa_partial : forall flog fpow gmin gmax n sh k, (2 <= n)%nat -> is_double (flog gmin) -> gmin <= fpow (flog gmin) ->
  exists gs vs, evaluate_SSA_integrand (build sh k gmin gmax) (grid_points binary64 flog fpow gmin gmax n) = Ok (gs, ssa_point (build sh k gmin gmax) (fpow (flog gmin)) :: vs).
Proof.
  intros fl fp lo hi n sh k Hn Hd Hg. rewrite grid_split, exponent_first by auto. set (g := fp (fl lo)) in *. set (m := map _ _). set (z := fp (fl hi)).
  assert (C : exists m', correct_bounds lo hi (g :: m ++ [z]) = g :: m'). { change (correct_bounds lo hi (g :: m ++ [z])) with (nudged (fun v => v) lo hi (g :: m ++ [z])). rewrite nudged_split. destruct (Rltb_spec g lo); [lra|]. cbn [andb]. eexists. reflexivity. } destruct C as [m' C].
  destruct sh; cbn [build]; unfold evaluate_SSA_integrand; cbn [corrected gamma_min gamma_max]; rewrite ?C; cbn [map map2]; do 2 eexists; reflexivity.
Qed.
Print Assumptions C117_ssa_partial.

(** the opacity of a SED (synchrotron.py L196) is computed from the array that evaluate has corrected
    before (L187): there no point is lost *)
Theorem C117_ssa_sed : forall flog fpow, accurate_lg flog -> accurate_p10 fpow ->
  forall gmin gmax n, 1 <= gmin -> 2 * gmin <= gmax <= 10 ^ 15 -> (2 <= n)%nat -> INR n <= 10 ^ 6 ->
  forall sh k, let gs := nudged binary64 gmin gmax (grid_points binary64 flog fpow gmin gmax n) in
  length gs = n /\ evaluate_SSA_integrand (build sh k gmin gmax) gs = Ok (gs, map (ssa_point (build sh k gmin gmax)) gs) /\
  forall p1 p2 gb gc, sh = ShPL p1 \/ sh = ShBPL p1 p2 gb \/ sh = ShECPL p1 gc \/ sh = ShECBPL p1 p2 gc gb ->
    0 < k -> - (2) < p1 -> - (2) < p2 -> 0 < gb -> 0 < gc -> forall g, In g gs -> ssa_point (build sh k gmin gmax) g < 0.
Proof.
  intros fl fp Hl Hp lo hi n Hlo Hhi Hn Hn6 sh k gs. assert (In0 : forall g, In g gs -> lo <= g <= hi) by (apply C117_inside; auto). split; [|split].
  - unfold gs. rewrite grid_split, nudged_split by auto. simpl. rewrite app_length, map_length, seq_length. simpl. lia.
  - pose proof (correct_inside lo hi gs In0) as C. assert (M : forall (f : R -> R -> R) h l, (forall g, In g l -> f g g = h g) -> map2 f l l = map h l). { intros f h l. induction l as [|x l IH]; intros H; auto. cbn [map2 map]. rewrite H by (simpl; auto). rewrite IH; [reflexivity|]. intros g Hg. apply H. simpl. auto. }
    destruct sh; cbn [build]; unfold evaluate_SSA_integrand; cbn [corrected gamma_min gamma_max]; rewrite ?C; try reflexivity; do 2 f_equal; apply M; intros; reflexivity.
  - intros p1 p2 gb gc Hsh Hk H1 H2 Hgb Hgc g Hg. apply In0 in Hg. assert (IR : forall s, gamma_min s = lo -> gamma_max s = hi -> in_range s g = true). { intros s E1 E2. unfold in_range. rewrite E1, E2. apply andb_true_intro. split; apply Rleb_true; lra. }
    assert (G : 0 < g) by lra. assert (Ig : 0 < / g) by (apply Rinv_0_lt_compat; auto). assert (Ic : 0 < / gc) by (apply Rinv_0_lt_compat; auto).
    set (x := if Rleb g gb then p1 else p2). assert (Hx : - (2) < x) by (unfold x; destruct (Rleb g gb); auto). pose proof (npow_pos (g / gb) (- x)) as N. pose proof (npow_pos g (- p1)) as N1. pose proof (exp_pos (- g / gc)) as EP.
    destruct Hsh as [-> | [-> | [-> | ->]]]; cbn [build]; unfold ssa_point; rewrite ?IR by reflexivity; cbn [ssa_prefactor]; unfold density; rewrite ?IR by reflexivity; cbv zeta; fold x.
    + pose proof (npow_pos g (- p1 - 1)). assert (0 < k * ((p1 + 2) * npow g (- p1 - 1))) by (repeat apply Rmult_lt_0_compat; lra). lra.
    + assert (0 < k * (x + 2) * / g * npow (g / gb) (- x)) by (repeat apply Rmult_lt_0_compat; lra). unfold Rdiv in *. lra.
    + assert (0 < (p1 + 2) * / g) by (apply Rmult_lt_0_compat; lra). assert (W : 0 < ((p1 + 2) * / g + / gc) * (k * npow g (- p1) * exp (- g / gc))) by (repeat apply Rmult_lt_0_compat; lra). set (Y := k * npow g (- p1) * exp (- g / gc)) in *. replace (- (p1 + 2) / g + - (1) / gc) with (- ((p1 + 2) * / g + / gc)) by (field; lra). lra.
    + assert (0 < (x + 2) * / g) by (apply Rmult_lt_0_compat; lra). assert (W : 0 < ((x + 2) * / g + / gc) * (k * npow (g / gb) (- x) * exp (- g / gc))) by (repeat apply Rmult_lt_0_compat; lra). set (Y := k * npow (g / gb) (- x) * exp (- g / gc)) in *. replace (- (x + 2) / g + - (1) / gc) with (- ((x + 2) * / g + / gc)) by (field; lra). lra.
Qed.
Print Assumptions C117_ssa_sed.

(** ** the functions of numpy can be accurate *)
Lemma rounded_lg : accurate_lg (fun x => binary64 (ln x / ln 10)).
Proof.
  intros x Hx. pose proof (log_range x Hx) as L. split; [apply b64_double|]. split; [apply b64_ge_double; [apply double_0|lra]|]. pose proof (fl_err (ln x / ln 10)) as E. rewrite (Rabs_right (ln x / ln 10)) in E by lra. rewrite u52. fold h0. assert (0 <= u64 * (ln x / ln 10)) by (apply Rmult_le_pos; [rewrite u64_val|]; lra). lra.
Qed.
Lemma rounded_p10 : accurate_p10 (fun y => binary64 (exp (y * ln 10))).
Proof.
  intros y Hy. pose proof ln10_pos as LP. pose proof (exp_ineq1_le (y * ln 10)) as K. assert (0 <= y * ln 10) by (apply Rmult_le_pos; lra). pose proof h0_small as [[h1 h2] _]. pose proof (fl_err (exp (y * ln 10))) as E. set (e := exp (y * ln 10)) in *. rewrite (Rabs_right e) in E by lra. rewrite u52. assert (u64 * 1 <= u64 * e) by (apply Rmult_le_compat_l; [rewrite u64_val|]; lra). rewrite u64_val in *. lra.
Qed.
(** 200 points from 100 to 10^6, logarithm and power correctly rounded *)
Example C117_case : forall g, In g (nudged binary64 100 (10 ^ 6) (grid_points binary64 (fun x => binary64 (ln x / ln 10)) (fun y => binary64 (exp (y * ln 10))) 100 (10 ^ 6) 200)) -> 100 <= g <= 10 ^ 6.
Proof.
  apply (C117_inside _ _ rounded_lg rounded_p10); try lra; try lia. rewrite INR_IZR_INZ. simpl. lra.
Qed.
(** and the opacity integrand at gamma_min = 100 is there *)
Example C117_ssa_case : exists gs vs, evaluate_SSA_integrand (PowerLaw 1 2 100 (10 ^ 6)) (grid_points binary64 (fun x => binary64 (ln x / ln 10)) (fun y => binary64 (exp (y * ln 10))) 100 (10 ^ 6) 200) = Ok (gs, ssa_point (PowerLaw 1 2 100 (10 ^ 6)) 100 :: vs).
Proof.
  set (fl := fun x => binary64 (ln x / ln 10)). set (fp := fun y => binary64 (exp (y * ln 10))). pose proof ln10_pos as LP.
  assert (N : forall z : Z, (Z.abs z < 2 ^ 53)%Z -> binary64 (IZR z) = IZR z) by (intros z Hz; apply b64_id; replace (IZR z) with (IZR z / 2 ^ 0) by (simpl; field); apply pow2_double; [auto|lia]).
  assert (E2 : fl 100 = 2). { unfold fl. replace (ln 100 / ln 10) with 2; [apply (N 2%Z); lia|]. replace 100 with (10 ^ 2) by ring. rewrite ln_pow by lra. simpl. field. lra. }
  assert (E : fp (fl 100) = 100). { rewrite E2. unfold fp. replace (exp (2 * ln 10)) with 100; [apply (N 100%Z); lia|]. replace 2 with (INR 2) by (simpl; ring). rewrite <- ln_pow, exp_ln by lra. ring. }
  destruct (C117_ssa_partial fl fp 100 (10 ^ 6) 200 (ShPL 2) 1) as (gs & vs & H); [lia|unfold fl; apply b64_double|rewrite E; lra|]. rewrite E in H. exists gs, vs. exact H.
Qed.
(** gamma_min the awkward double: the SED keeps the point, the bare integrand loses it *)
Example C117_ssa_both : let fl := fun x => binary64 (ln x / ln 10) in let fp := fun y => binary64 (exp (y * ln 10)) in
  let s := PowerLaw 1 2 awkward (10 ^ 6) in let grid := grid_points binary64 fl fp awkward (10 ^ 6) 200 in
  (exists gs vs, evaluate_SSA_integrand s grid = Ok (gs, 0 :: vs)) /\
  forall gs vs, evaluate_SSA_integrand s (nudged binary64 awkward (10 ^ 6) grid) = Ok (gs, vs) -> forall v, In v vs -> v < 0.
Proof.
  intros fl fp s grid. destruct awkward_log as (D & H3 & L & F). assert (H200 : INR 200 <= 10 ^ 6) by (rewrite INR_IZR_INZ; simpl; lra). split.
  - assert (E0 : fl awkward = 25 / 10) by exact L. assert (D25 : is_double (25 / 10)) by (rewrite <- E0; apply b64_double). unfold grid. rewrite grid_split, E0, exponent_first by (auto; lia). unfold s, evaluate_SSA_integrand. cbn [map]. unfold ssa_point at 1. unfold in_range. cbn [gamma_min gamma_max]. specialize (F fp rounded_p10). destruct (Rleb_spec awkward (fp (25 / 10))); [lra|]. cbn [andb]. cbv iota. rewrite Rmult_0_r. do 2 eexists. reflexivity.
  - destruct (C117_ssa_sed fl fp rounded_lg rounded_p10 awkward (10 ^ 6) 200 ltac:(lra) ltac:(lra) ltac:(lia) H200 (ShPL 2) 1) as (_ & E & N). fold grid in E, N. cbn [build] in E, N. fold s in E, N. intros gs vs H v Hv. rewrite E in H. injection H as _ <-. apply in_map_iff in Hv. destruct Hv as (g & <- & Hg). apply (N 2 2 1 1); auto; lra.
Qed.
