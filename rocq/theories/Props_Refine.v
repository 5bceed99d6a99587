(** C97: contents and synchrotron emission of a blob converge to the integrals
    over its particles when the Lorentz factors are sampled more finely. *)
From Verif Require Import Base TEUtils ListFacts NumpyInst MathUtils Conversion Spectra Blob Synchrotron Kernels Spec_Math Spec_Spectra Spec_Blob Spec_Rad Spec_Beams Spec_Emission MathFacts SpectraFacts SpectraFacts2 BlobFacts Calculus AbsorptionFacts SynchFacts SynchFacts2 Props_Blob Props_Synch ComptonFacts TargetFacts Props_Beams Props_Opacity Props_Thermal Props_Emission SynchPower Props_Budget.
From Coquelicot Require Import Coquelicot.
From Coq Require Import List.
Import ListNotations.
Open Scope list_scope.
Open Scope R_scope.

(** ** specification *)
(** between its bounds the density is a continuous function (it jumps to 0 at
    the bounds) *)
Definition continuous_within (s : spectrum) : Prop :=
  exists d, forall g, gamma_min s <= g <= gamma_max s -> d g = density s g /\ continuous d g.

(** ** sums over cells *)
Fixpoint csum (cell : R -> R -> R) (xs : list R) : R :=
  match xs with
  | x :: l => match l with y :: _ => cell x y + csum cell l | nil => 0 end
  | nil => 0
  end.
Lemma csum_over f xs : over xs f = csum (fun u v => (v - u) * (f u + f v) / 2) xs.
Proof. induction xs as [|x l IH]; auto. destruct l as [|y l]; auto. rewrite over_cons2, IH. reflexivity. Qed.
Lemma csum_loglog f xs : trapz_loglog (map f xs) xs = csum (fun u v => loglog_interval (f u) (f v) u v) xs.
Proof. induction xs as [|x l IH]; auto. destruct l as [|y l]; auto. cbn [map] in *. rewrite loglog_cons2, IH. reflexivity. Qed.
Lemma csum_err cell (F : R -> R) e : forall xs, (forall i a b, nth_error xs i = Some a -> nth_error xs (S i) = Some b -> Rabs (cell a b - (F b - F a)) <= e * (b - a)) ->
  forall a b, nth_error xs 0 = Some a -> nth_error xs (length xs - 1) = Some b -> Rabs (csum cell xs - (F b - F a)) <= e * (b - a).
Proof.
  induction xs as [|x l IH]; intros H a b Ha Hb; [discriminate|]. cbn [nth_error] in Ha. apply some_inj in Ha. subst a.
  destruct l as [|y l].
  - cbn in Hb. apply some_inj in Hb. subst b. simpl. rewrite !Rminus_eq_0, Rmult_0_r, Rabs_R0. lra.
  - assert (IH' : Rabs (csum cell (y :: l) - (F b - F y)) <= e * (b - y)).
    { apply IH; auto. - intros i u v Hu Hv. apply (H (S i)); auto. - simpl in Hb |- *. rewrite Nat.sub_0_r. auto. }
    pose proof (H 0%nat x y eq_refl eq_refl) as H0. change (csum cell (x :: y :: l)) with (cell x y + csum cell (y :: l)). apply Rabs_le. apply Rabs_le_between in H0. apply Rabs_le_between in IH'. lra.
Qed.

(** ** the cells of a logarithmic grid *)
Lemma ln10_pos : 0 < ln 10.
Proof. rewrite <- ln_1. apply ln_increasing; lra. Qed.
Lemma pow10_log10 x : 0 < x -> pow10 (log10 x) = x.
Proof. intros H. unfold pow10, log10. pose proof ln10_pos. replace (ln x / ln 10 * ln 10) with (ln x) by (field; lra). apply exp_ln; auto. Qed.
Lemma grid_mesh a b n i u v : 0 < a -> a < b -> nth_error (log_grid a b (S (S n))) i = Some u -> nth_error (log_grid a b (S (S n))) (S i) = Some v ->
  a <= u <= b /\ a <= v <= b /\ u < v /\ v - u <= b * (b / a) * ln (b / a) / INR (S n).
Proof.
  intros Ha Hb Hu Hv. assert (Hi : (S i < S (S n))%nat) by (rewrite <- (logspace_length (log10 a) (log10 b) (S (S n))); apply nth_error_Some; unfold log_grid in Hv; congruence).
  assert (Iu : a <= u <= b) by (apply (grid_in a b (S (S n))); [lra|lra|]; apply nth_error_In with i; auto). assert (Iv : a <= v <= b) by (apply (grid_in a b (S (S n))); [lra|lra|]; apply nth_error_In with (S i); auto).
  unfold log_grid in Hu, Hv. rewrite logspace_nth in Hu, Hv by lia. apply some_inj in Hu. apply some_inj in Hv. replace (S (S n) - 1)%nat with (S n) in * by lia.
  assert (Hn : 0 < INR (S n)) by (apply lt_0_INR; lia). assert (Hn1 : 1 <= INR (S n)) by (rewrite S_INR; pose proof (pos_INR n); lra). pose proof ln10_pos as L10.
  set (L := ln (b / a)). assert (HL : 0 < L). { unfold L. rewrite <- ln_1. apply ln_increasing; [lra|]. apply (proj1 (Rlt_div_r 1 b a Ha)). lra. }
  assert (EL : (log10 b - log10 a) * ln 10 = L). { unfold L, log10. rewrite ln_div by lra. field. lra. }
  set (t := L / INR (S n)). assert (Ht : 0 < t) by (apply Rdiv_lt_0_compat; auto). assert (HtL : t <= L). { unfold t. apply (proj2 (Rle_div_l L L (INR (S n)) Hn)). nra. }
  assert (E : v = u * exp t). { rewrite <- Hu, <- Hv. unfold pow10. rewrite <- exp_plus. f_equal. rewrite S_INR. unfold t. rewrite <- EL. field. lra. }
  assert (E1 : exp t - 1 <= t * exp t). { pose proof (exp_ineq1_le (- t)). pose proof (exp_pos t). assert (exp t * exp (- t) = 1) by (rewrite <- exp_plus, Rplus_opp_r; apply exp_0). nra. }
  assert (E2 : exp t <= b / a). { replace (b / a) with (exp L) by (unfold L; apply exp_ln; apply Rdiv_lt_0_compat; lra). destruct HtL as [K| ->]; [left; apply exp_increasing; auto|right; auto]. }
  assert (E3 : 1 < exp t) by (rewrite <- exp_0; apply exp_increasing; auto).
  split; [auto|]. split; [auto|]. split; [rewrite E; nra|]. replace (v - u) with (u * (exp t - 1)) by (rewrite E; ring). replace (b * (b / a) * L / INR (S n)) with (b * ((b / a) * t)) by (unfold t; field; lra).
  apply Rmult_le_compat; try lra. eapply Rle_trans; [exact E1|]. rewrite Rmult_comm. apply Rmult_le_compat_r; lra.
Qed.
Lemma grid_ends a b n : 0 < a -> a < b -> nth_error (log_grid a b (S (S n))) 0 = Some a /\ nth_error (log_grid a b (S (S n))) (length (log_grid a b (S (S n))) - 1) = Some b.
Proof.
  intros Ha Hb. unfold log_grid. rewrite logspace_length, !logspace_nth by lia. replace (S (S n) - 1)%nat with (S n) by lia. assert (Hn : 0 < INR (S n)) by (apply lt_0_INR; lia). split; f_equal.
  - rewrite Rmult_0_l, Rplus_0_r. apply pow10_log10. auto.
  - rewrite <- (pow10_log10 b) at 2 by lra. f_equal. field. lra.
Qed.

(** ** convergence *)
Lemma cell_limit cell f a b : 0 < a -> a < b -> (forall x, a <= x <= b -> continuous f x) ->
  (forall eps, 0 < eps -> exists del, 0 < del /\ forall u v, a <= u -> u < v -> v <= b -> v - u < del -> Rabs (cell u v - (v - u) * f u) <= eps * (v - u)) ->
  is_lim_seq (fun n => csum cell (log_grid a b n)) (RInt f a b).
Proof.
  intros Ha Hab Hc Hcell. apply (is_lim_seq_incr_n _ 2). apply is_lim_seq_spec. intros eps. pose proof (cond_pos eps) as Hep.
  set (e := eps / (4 * (b - a))). assert (He : 0 < e) by (apply Rdiv_lt_0_compat; lra).
  destruct (unifcont_1d f a b Hc (mkposreal _ He)) as [d1 Hd]. destruct (Hcell e He) as (d2 & Hd2 & HC).
  assert (Hd' : forall x y, a <= x <= b -> a <= y <= b -> Rabs (y - x) < d1 -> Rabs (f y - f x) <= e).
  { intros x y Hx Hy Hxy. destruct (Rle_dec (Rabs (f y - f x)) e) as [L|L]; auto. exfalso. apply (Hd x y Hx Hy Hxy). intros B. apply L. left. exact B. }
  pose proof (cond_pos d1) as Hd1. set (del := Rmin d1 d2). assert (Hdel : 0 < del) by (apply Rmin_glb_lt; auto).
  set (M := b * (b / a) * ln (b / a)). assert (HM : 0 <= M). { unfold M. assert (1 < b / a) by (apply (proj1 (Rlt_div_r 1 b a Ha)); lra). assert (0 < ln (b / a)) by (rewrite <- ln_1; apply ln_increasing; lra). apply Rmult_le_pos; [|lra]. apply Rmult_le_pos; lra. }
  destruct (nfloor_ex (M / del)) as [N HN]. { apply Rdiv_le_0_compat; auto. }
  exists N. intros n Hn. replace (n + 2)%nat with (S (S n)) by lia.
  assert (Hn1 : INR N + 1 <= INR (S n)). { rewrite <- S_INR. apply le_INR. lia. } pose proof (pos_INR N) as HN0.
  assert (Hmesh : M / INR (S n) < del). { apply (proj2 (Rlt_div_l M del (INR (S n)) ltac:(lra))). destruct HN as [_ HN]. apply (proj2 (Rlt_div_l M (INR N + 1) del Hdel)) in HN || (apply (Rmult_lt_compat_r del) in HN; auto; unfold Rdiv in HN; rewrite Rmult_assoc, Rinv_l in HN by lra). nra. }
  assert (Hex : forall u v, a <= u <= b -> a <= v <= b -> ex_RInt f u v).
  { intros u v Hu Hv. apply (@ex_RInt_continuous R_CompleteNormedModule). intros x Hx. apply Hc. unfold Rmin, Rmax in Hx. destruct (Rle_dec u v); lra. }
  destruct (grid_ends a b n Ha Hab) as [G0 G1].
  assert (K : Rabs (csum cell (log_grid a b (S (S n))) - (RInt f a b - RInt f a a)) <= 2 * e * (b - a)).
  { apply (csum_err cell (fun x => RInt f a x)); auto. intros i u v Hu Hv. destruct (grid_mesh a b n i u v Ha Hab Hu Hv) as (Iu & Iv & Huv & Hm). fold M in Hm.
    assert (Hdu : v - u < d1 /\ v - u < d2). { assert (v - u < del) by lra. unfold del in *. split; [eapply Rlt_le_trans; [eassumption|apply Rmin_l]|eapply Rlt_le_trans; [eassumption|apply Rmin_r]]. }
    assert (C : RInt f a v - RInt f a u = RInt f u v). { rewrite <- (RInt_Chasles f a u v); [unfold plus; simpl; ring|apply Hex; lra|apply Hex; lra]. } rewrite C.
    pose proof (HC u v ltac:(lra) Huv ltac:(lra) ltac:(lra)) as HCu.
    assert (HK : forall x, u < x < v -> Rabs (f x - f u) <= e). { intros x Hx. apply Hd'; try lra. apply Rabs_def1; lra. }
    assert (B : (v - u) * (f u - e) <= RInt f u v <= (v - u) * (f u + e)).
    { split.
      - replace ((v - u) * (f u - e)) with (RInt (fun _ => f u - e) u v) by (rewrite RInt_const; unfold scal; simpl; unfold mult; simpl; ring).
        apply RInt_le; [lra|apply ex_RInt_const|apply Hex; lra|]. intros x Hx. specialize (HK x Hx). apply Rabs_le_between in HK. lra.
      - replace ((v - u) * (f u + e)) with (RInt (fun _ => f u + e) u v) by (rewrite RInt_const; unfold scal; simpl; unfold mult; simpl; ring).
        apply RInt_le; [lra|apply Hex; lra|apply ex_RInt_const|]. intros x Hx. specialize (HK x Hx). apply Rabs_le_between in HK. lra. }
    apply Rabs_le. apply Rabs_le_between in HCu. lra. }
  rewrite RInt_point in K. unfold zero in K; simpl in K. rewrite Rminus_0_r in K. replace (2 * e * (b - a)) with (eps / 2) in K by (unfold e; field; lra). eapply Rle_lt_trans; [exact K|]. lra.
Qed.
Lemma uniform f a b : (forall x, a <= x <= b -> continuous f x) -> forall eps, 0 < eps -> exists del, 0 < del /\ forall u v, a <= u -> u < v -> v <= b -> v - u < del -> Rabs (f v - f u) <= eps.
Proof.
  intros Hc eps He. destruct (unifcont_1d f a b Hc (mkposreal _ He)) as [d Hd]. pose proof (cond_pos d) as Hpd. exists d. split; auto. intros u v Hu Huv Hv Hd1.
  destruct (Rle_dec (Rabs (f v - f u)) eps) as [L|L]; auto. exfalso. assert (Habs : Rabs (v - u) < d) by (apply Rabs_def1; lra). apply (Hd u v ltac:(lra) ltac:(lra) Habs). intros B. apply L. left. exact B.
Qed.
Lemma over_limit f a b : 0 < a -> a < b -> (forall x, a <= x <= b -> continuous f x) -> is_lim_seq (fun n => over (log_grid a b n) f) (RInt f a b).
Proof.
  intros Ha Hab Hc. apply (is_lim_seq_ext (fun n => csum (fun u v => (v - u) * (f u + f v) / 2) (log_grid a b n))). { intros n. symmetry. apply csum_over. }
  apply cell_limit; auto. intros eps He. destruct (uniform f a b Hc eps He) as (del & Hd & K). exists del. split; auto. intros u v Hu Huv Hv Huv'. specialize (K u v Hu Huv Hv Huv').
  apply Rabs_le_between in K. apply Rabs_le. nra.
Qed.
(** the rule of trapz_loglog on one cell *)
Lemma loglog_cell y0 y1 u v : representable u -> representable v -> u < v -> v <= 2 * u -> representable y0 -> representable y1 ->
  Rabs (loglog_interval y0 y1 u v - (v - u) * y0) <= (v - u) * (Rabs (y1 - y0) + y0 * (v - u) / u).
Proof.
  intros Ru Rv Huv H2 R0 R1. pose proof (representable_pos _ Ru) as Pu. pose proof (representable_pos _ Rv) as Pv. pose proof (representable_pos _ R0) as P0. pose proof (representable_pos _ R1) as P1.
  assert (Hq : 1 < v / u <= 2). { split; [apply (proj1 (Rlt_div_r 1 v u Pu)); lra|apply (proj2 (Rle_div_l v 2 u Pu)); lra]. }
  assert (Rq : representable (v / u)). { split; [pose proof ftiny_lt_1; lra|]. apply Rle_trans with 2; [lra|]. unfold fmax. assert (1 <= 2 ^ 1023) by (apply pow_R1_Rle; lra). assert (/ 2 ^ 52 <= / 2) by (apply Rinv_le_contravar; [lra|]; simpl; lra). assert (2 <= 2 ^ 1023). { replace 2 with (2 ^ 1) at 1 by ring. apply Rle_pow; [lra|lia]. } nra. }
  assert (Hr : 0 <= y0 * (v - u) / u). { apply Rdiv_le_0_compat; auto. apply Rmult_le_pos; lra. }
  set (m := slope y0 y1 u v).
  assert (L : 0 < ln (v / u)) by (rewrite <- ln_1; apply ln_increasing; lra).
  assert (Em : m * ln (v / u) = ln (y1 / y0)). { unfold m, slope. rewrite !clog_ln by auto. rewrite !ln_div by auto. rewrite ln_div in L by auto. field. lra. }
  destruct (Rlt_dec (1 / 10 ^ 10) (Rabs (m + 1))) as [Hm|Hm].
  - set (A := y0 * Rpower u (- m)). assert (HA : 0 < A) by (apply Rmult_lt_0_compat; [auto|apply exp_pos]).
    assert (EA : forall x, 0 < x -> A * Rpower x m = y0 * exp (m * ln (x / u))). { intros x Hx. unfold A, Rpower. rewrite Rmult_assoc, <- exp_plus. do 2 f_equal. rewrite ln_div by auto. ring. }
    assert (Eu : A * Rpower u m = y0). { rewrite EA by auto. unfold Rdiv. rewrite Rinv_r, ln_1, Rmult_0_r, exp_0 by lra. ring. }
    assert (Ev : A * Rpower v m = y1). { rewrite EA, Em by auto. rewrite exp_ln by (apply Rdiv_lt_0_compat; auto). field. lra. }
    assert (I : is_RInt (fun x => A * Rpower x m) u v (loglog_interval y0 y1 u v)). { rewrite <- Eu, <- Ev at 1. apply interval_power; auto; rewrite ?Eu, ?Ev; auto. }
    assert (Hx : forall x, u < x < v -> Rmin y0 y1 <= A * Rpower x m <= Rmax y0 y1).
    { intros x Hx. rewrite EA by lra. assert (0 < ln (x / u) < ln (v / u)). { split; [rewrite <- ln_1; apply ln_increasing; [lra|]; apply (proj1 (Rlt_div_r 1 x u Pu)); lra|]. apply ln_increasing; [apply Rdiv_lt_0_compat; lra|]. unfold Rdiv. apply Rmult_lt_compat_r; [apply Rinv_0_lt_compat|]; lra. }
      assert (Ey : y1 = y0 * exp (m * ln (v / u))) by (rewrite Em, exp_ln by (apply Rdiv_lt_0_compat; auto); field; lra).
      assert (MONO : forall s t, s <= t -> exp s <= exp t) by (intros s t [K| ->]; [left; apply exp_increasing; auto|lra]).
      destruct (Rle_dec 0 m) as [Pm|Nm].
      - split; [eapply Rle_trans; [apply Rmin_l|]|eapply Rle_trans; [|apply Rmax_r]].
        + assert (exp 0 <= exp (m * ln (x / u))) by (apply MONO; apply Rmult_le_pos; lra). rewrite exp_0 in H0. nra.
        + rewrite Ey. apply Rmult_le_compat_l; [lra|]. apply MONO. apply Rmult_le_compat_l; lra.
      - split; [eapply Rle_trans; [apply Rmin_r|]|eapply Rle_trans; [|apply Rmax_l]].
        + rewrite Ey. apply Rmult_le_compat_l; [lra|]. apply MONO. nra.
        + assert (exp (m * ln (x / u)) <= exp 0) by (apply MONO; nra). rewrite exp_0 in H0. nra. }
    pose proof (@is_RInt_unique R_CompleteNormedModule _ _ _ _ I) as EI.
    assert (B : (v - u) * Rmin y0 y1 <= loglog_interval y0 y1 u v <= (v - u) * Rmax y0 y1).
    { rewrite <- EI. split.
      - replace ((v - u) * Rmin y0 y1) with (RInt (fun _ => Rmin y0 y1) u v) by (rewrite RInt_const; unfold scal; simpl; unfold mult; simpl; ring).
        apply RInt_le; [lra|apply ex_RInt_const|eexists; exact I|]. intros x K. apply Hx. auto.
      - replace ((v - u) * Rmax y0 y1) with (RInt (fun _ => Rmax y0 y1) u v) by (rewrite RInt_const; unfold scal; simpl; unfold mult; simpl; ring).
        apply RInt_le; [lra|eexists; exact I|apply ex_RInt_const|]. intros x K. apply Hx. auto. }
    apply Rabs_le. unfold Rmin, Rmax in B. unfold Rabs. destruct (Rle_dec y0 y1), (Rcase_abs (y1 - y0)); nra.
  - assert (EI : loglog_interval y0 y1 u v = u * y0 * ln (v / u)).
    { unfold loglog_interval. fold m. rewrite (proj2 (Reqb_false y0 0)), (proj2 (Reqb_false y1 0)), (proj2 (Reqb_false u v)) by lra. cbv zeta. simpl orb. cbv iota. rewrite (proj2 (Rltb_false _ _)) by lra. rewrite clog_ln by auto. reflexivity. }
    rewrite EI. pose proof (ln_le_sub1 (v / u) ltac:(lra)) as LU. pose proof (ln_ge_1inv (v / u) ltac:(lra)) as LL. replace (/ (v / u)) with (u / v) in LL by (field; lra).
    assert (Iu : u * (v / u) = v) by (field; lra). assert (Iv : v * (u / v) = u) by (field; lra). assert (0 < u / v) by (apply Rdiv_lt_0_compat; lra). assert (HU : u * ln (v / u) <= v - u) by nra.
    assert (HL' : (v - u) - (v - u) * ((v - u) / u) <= u * ln (v / u)).
    { apply Rle_trans with (u * (1 - u / v)); [|apply Rmult_le_compat_l; lra]. assert (EQ : u * (1 - u / v) - ((v - u) - (v - u) * ((v - u) / u)) = (v - u) * (v - u) * (/ u - / v)) by (field; lra). assert (/ v < / u) by (apply Rinv_lt_contravar; [nra|lra]). assert (0 <= (v - u) * (v - u) * (/ u - / v)) by (apply Rmult_le_pos; [nra|lra]). lra. }
    pose proof (Rabs_pos (y1 - y0)). replace (y0 * (v - u) / u) with (y0 * ((v - u) / u)) by (unfold Rdiv; ring). assert (0 <= (v - u) / u) by (apply Rdiv_le_0_compat; lra). apply Rabs_le. split; nra.
Qed.
Lemma loglog_limit f a b : representable a -> representable b -> a < b -> (forall x, a <= x <= b -> continuous f x /\ representable (f x)) ->
  is_lim_seq (fun n => trapz_loglog (map f (log_grid a b n)) (log_grid a b n)) (RInt f a b).
Proof.
  intros Ra Rb Hab Hf. pose proof (representable_pos _ Ra) as Ha. assert (Hc : forall x, a <= x <= b -> continuous f x) by (intros; apply Hf; auto).
  apply (is_lim_seq_ext (fun n => csum (fun u v => loglog_interval (f u) (f v) u v) (log_grid a b n))). { intros n. symmetry. apply csum_loglog. }
  apply cell_limit; auto. intros eps He. destruct (uniform f a b Hc (eps / 2) ltac:(lra)) as (d1 & Hd1 & K).
  assert (Fp : 0 < fmax) by (pose proof fmax_gt_1; lra). set (d2 := eps * a / (2 * fmax)). assert (Hd2 : 0 < d2) by (apply Rdiv_lt_0_compat; [apply Rmult_lt_0_compat|]; lra).
  exists (Rmin a (Rmin d1 d2)). split; [repeat apply Rmin_glb_lt; auto|]. intros u v Hu Huv Hv Hd.
  assert (Hda : v - u < a) by (eapply Rlt_le_trans; [exact Hd|apply Rmin_l]). assert (v - u < d1) by (eapply Rlt_le_trans; [exact Hd|]; eapply Rle_trans; [apply Rmin_r|apply Rmin_l]). assert (Hv2 : v - u < d2) by (eapply Rlt_le_trans; [exact Hd|]; eapply Rle_trans; [apply Rmin_r|apply Rmin_r]).
  destruct (Hf u ltac:(lra)) as [_ Ru]. destruct (Hf v ltac:(lra)) as [_ Rv]. specialize (K u v Hu Huv Hv ltac:(lra)).
  assert (Gu : representable u) by (destruct Ra, Rb; split; lra). assert (Gv : representable v) by (destruct Ra, Rb; split; lra).
  eapply Rle_trans; [apply loglog_cell; auto; lra|]. rewrite Rmult_comm. apply Rmult_le_compat_r; [lra|]. pose proof (representable_pos _ Ru) as Pu.
  assert (f u * (v - u) / u <= eps / 2); [|lra]. apply (proj2 (Rle_div_l (f u * (v - u)) (eps / 2) u ltac:(lra))). destruct Ru as [_ Ru].
  apply Rle_trans with (fmax * d2); [apply Rmult_le_compat; lra|]. unfold d2. replace (fmax * (eps * a / (2 * fmax))) with (eps / 2 * a) by (field; lra). apply Rmult_le_compat_l; lra.
Qed.

(** ** weights times densities *)
Lemma weighted integ s (w : R -> R) : 0 < gamma_min s -> gamma_min s < gamma_max s -> continuous_within s -> (forall g, gamma_min s <= g <= gamma_max s -> continuous w g) ->
  (integ = trapz \/ integ = trapz_loglog /\ representable (gamma_min s) /\ representable (gamma_max s) /\ forall g, gamma_min s <= g <= gamma_max s -> representable (w g * density s g)) ->
  ex_RInt (fun g => w g * density s g) (gamma_min s) (gamma_max s) /\
  is_lim_seq (fun n => integ (map (fun g => w g * density s g) (log_grid (gamma_min s) (gamma_max s) n)) (log_grid (gamma_min s) (gamma_max s) n)) (RInt (fun g => w g * density s g) (gamma_min s) (gamma_max s)).
Proof.
  intros Ha Hab (d & Hd) Hw Hi. set (a := gamma_min s) in *. set (b := gamma_max s) in *.
  assert (Hc : forall x, a <= x <= b -> continuous (fun g => w g * d g) x). { intros x Hx. apply (continuous_mult (w : R_UniformSpace -> R_AbsRing) (d : R_UniformSpace -> R_AbsRing)); [apply Hw; auto|apply Hd; auto]. }
  assert (Ex : ex_RInt (fun g => w g * d g) a b). { apply (@ex_RInt_continuous R_CompleteNormedModule). intros x Hx. rewrite Rmin_left, Rmax_right in Hx by lra. apply Hc. auto. }
  assert (Eq : forall g, a <= g <= b -> w g * d g = w g * density s g). { intros g Hg. rewrite (proj1 (Hd g Hg)). reflexivity. }
  split. { apply (ex_RInt_ext (fun g => w g * d g)); auto. intros x Hx. rewrite Rmin_left, Rmax_right in Hx by lra. apply Eq. lra. }
  assert (EI : RInt (fun g => w g * density s g) a b = RInt (fun g => w g * d g) a b). { apply RInt_ext. intros x Hx. rewrite Rmin_left, Rmax_right in Hx by lra. symmetry. apply Eq. lra. }
  rewrite EI. apply (is_lim_seq_ext (fun n => integ (map (fun g => w g * d g) (log_grid a b n)) (log_grid a b n))).
  { intros n. f_equal. apply map_ext_in. intros g Hg. apply Eq. apply (grid_in a b n); auto; lra. }
  destruct Hi as [-> | (-> & Ra & Rb & Rf)].
  - apply (is_lim_seq_ext (fun n => over (log_grid a b n) (fun g => w g * d g))). { intros n. symmetry. apply trapz_over. } apply over_limit; auto.
  - apply loglog_limit; auto. intros x Hx. split; [auto|]. rewrite Eq by auto. apply Rf. auto.
Qed.
Lemma lim_scale c u (l : R) : is_lim_seq u l -> is_lim_seq (fun n => c * u n) (c * l).
Proof. intros H. apply (is_lim_seq_scal_l u c l) in H. exact H. Qed.
Lemma int_scale c (f : R -> R) a b : ex_RInt f a b -> RInt (fun x => c * f x) a b = c * RInt f a b.
Proof. intros H. apply (RInt_scal f a b c) in H. exact H. Qed.
Lemma int_ext (f g : R -> R) a b : a <= b -> (forall x, a < x < b -> f x = g x) -> RInt f a b = RInt g a b.
Proof. intros Hab H. apply RInt_ext. intros x Hx. rewrite Rmin_left, Rmax_right in Hx by lra. auto. Qed.
Lemma cont_id c x : continuous (fun g => c * g) x.
Proof. apply (ex_derive_continuous (fun g => c * g)). auto_derive. auto. Qed.

(** ** C97 *)
(** the analytical distributions, and interpolations with a continuous
    interpolator, are continuous between their bounds *)
Lemma Rmax_form x y : Rmax x y = (x + y + Rabs (x - y)) / 2.
Proof. unfold Rmax, Rabs. destruct (Rle_dec x y), (Rcase_abs (x - y)); lra. Qed.
Lemma Rmin_form x y : Rmin x y = (x + y - Rabs (x - y)) / 2.
Proof. unfold Rmin, Rabs. destruct (Rle_dec x y), (Rcase_abs (x - y)); lra. Qed.
Lemma cont_max c x : continuous (fun t => Rmax t c) x.
Proof.
  apply (continuous_ext (fun t => (t + c) / 2 + / 2 * Rabs (t - c))). { intros t. rewrite Rmax_form. match goal with |- ?a = ?b => change (@eq R a b) end. lra. }
  apply (continuous_plus (fun t : R => (t + c) / 2) (fun t => / 2 * Rabs (t - c))). { apply (ex_derive_continuous (fun t => (t + c) / 2)). auto_derive. auto. }
  apply (continuous_scal_r (/ 2) (fun t => Rabs (t - c)) x). apply (continuous_Rabs_comp (fun t => t - c)). apply (ex_derive_continuous (fun t => t - c)). auto_derive. auto.
Qed.
Lemma cont_min c x : continuous (fun t => Rmin t c) x.
Proof.
  apply (continuous_ext (fun t => (t + c) / 2 + - / 2 * Rabs (t - c))). { intros t. rewrite Rmin_form. match goal with |- ?a = ?b => change (@eq R a b) end. lra. }
  apply (continuous_plus (fun t : R => (t + c) / 2) (fun t => - / 2 * Rabs (t - c))). { apply (ex_derive_continuous (fun t => (t + c) / 2)). auto_derive. auto. }
  apply (continuous_scal_r (- / 2) (fun t => Rabs (t - c)) x). apply (continuous_Rabs_comp (fun t => t - c)). apply (ex_derive_continuous (fun t => t - c)). auto_derive. auto.
Qed.
Definition broken (k p1 p2 gb g : R) : R := k * (exp (- p1 * ln (Rmin g gb / gb)) * exp (- p2 * ln (Rmax g gb / gb))).
Lemma broken_eq k p1 p2 gb g : 0 < gb -> 0 < g -> broken k p1 p2 gb g = k * npow (g / gb) (- (if Rleb g gb then p1 else p2)).
Proof.
  intros Hb Hg. unfold broken, npow, Rpower. f_equal. destruct (Rleb_spec g gb) as [L|L].
  - rewrite Rmin_left, Rmax_right by auto. replace (gb / gb) with 1 by (field; lra). rewrite ln_1, Rmult_0_r, exp_0. ring.
  - rewrite Rmin_right, Rmax_left by lra. replace (gb / gb) with 1 by (field; lra). rewrite ln_1, Rmult_0_r, exp_0. ring.
Qed.
Lemma broken_cont k p1 p2 gb g : 0 < gb -> 0 < g -> continuous (broken k p1 p2 gb) g.
Proof.
  intros Hb Hg. unfold broken. apply (continuous_scal_r k (fun g => exp (- p1 * ln (Rmin g gb / gb)) * exp (- p2 * ln (Rmax g gb / gb))) g).
  apply (continuous_mult (fun g : R_UniformSpace => exp (- p1 * ln (Rmin g gb / gb)) : R_AbsRing) (fun g : R_UniformSpace => exp (- p2 * ln (Rmax g gb / gb)) : R_AbsRing)).
  - apply (continuous_comp (fun g => Rmin g gb) (fun t => exp (- p1 * ln (t / gb)))); [apply cont_min|]. apply (ex_derive_continuous (fun t => exp (- p1 * ln (t / gb)))). auto_derive. apply Rdiv_lt_0_compat; auto. apply Rmin_glb_lt; auto.
  - apply (continuous_comp (fun g => Rmax g gb) (fun t => exp (- p2 * ln (t / gb)))); [apply cont_max|]. apply (ex_derive_continuous (fun t => exp (- p2 * ln (t / gb)))). auto_derive. apply Rdiv_lt_0_compat; auto. eapply Rlt_le_trans; [exact Hb|apply Rmax_r].
Qed.
Theorem C97_distributions :
  (forall sh k a b, 0 < a -> shape_ok sh -> continuous_within (build sh k a b)) /\
  (forall norm a b f df, 0 < a -> (forall x, log10 a <= x <= log10 b -> continuous f x) -> continuous_within (Interpolated norm a b f df)) /\
  (forall a b, continuous_within (EmptyDist a b)).
Proof.
  assert (IN : forall s g, gamma_min s <= g <= gamma_max s -> in_range s g = true). { intros s g H. unfold in_range. rewrite !(proj2 (Rleb_true _ _)) by lra. reflexivity. }
  pose proof ln10_pos as L10.
  split; [|split].
  - intros sh k a b Ha Hs. destruct sh as [p|p1 p2 gb|p q g0|p gc|p1 p2 gc gb]; cbn in Hs.
    + exists (fun g => k * npow g (- p)). intros g Hg. split. { unfold density. rewrite IN by auto. reflexivity. } cbn in Hg. unfold npow, Rpower. apply (ex_derive_continuous (fun g => k * exp (- p * ln g))). auto_derive. lra.
    + exists (broken k p1 p2 gb). intros g Hg. cbn in Hg. split. { unfold density. rewrite IN by auto. cbn [build]. cbv zeta. apply broken_eq; lra. } apply broken_cont; lra.
    + exists (fun g => k * npow (g / g0) (- p - q * log10 (g / g0))). intros g Hg. split. { unfold density. rewrite IN by auto. reflexivity. } cbn in Hg. unfold npow, Rpower, log10. apply (ex_derive_continuous (fun g => k * exp ((- p - q * (ln (g / g0) / ln 10)) * ln (g / g0)))). auto_derive. assert (0 < g / g0) by (apply Rdiv_lt_0_compat; lra). repeat split; auto; lra.
    + exists (fun g => k * npow g (- p) * exp (- g / gc)). intros g Hg. split. { unfold density. rewrite IN by auto. reflexivity. } cbn in Hg. unfold npow, Rpower. apply (ex_derive_continuous (fun g => k * exp (- p * ln g) * exp (- g / gc))). auto_derive. lra.
    + destruct Hs as [Hc Hb]. exists (fun g => broken k p1 p2 gb g * exp (- g / gc)). intros g Hg. cbn in Hg. split. { unfold density. rewrite IN by auto. cbn [build]. cbv zeta. rewrite broken_eq by lra. reflexivity. }
      apply (continuous_mult (broken k p1 p2 gb : R_UniformSpace -> R_AbsRing) (fun g : R_UniformSpace => exp (- g / gc) : R_AbsRing)); [apply broken_cont; lra|]. apply (ex_derive_continuous (fun g => exp (- g / gc))). auto_derive. auto.
  - intros norm a b f df Ha Hf. exists (fun g => norm * pow10 (f (log10 g))). intros g Hg. split. { unfold density. rewrite IN by auto. reflexivity. } cbn in Hg.
    apply (continuous_scal_r norm (fun g => pow10 (f (log10 g))) g). apply (continuous_comp log10 (fun t => pow10 (f t))). { unfold log10. apply (ex_derive_continuous (fun g => ln g / ln 10)). auto_derive. lra. }
    apply (continuous_comp f pow10). { apply Hf. assert (M : forall x y, 0 < x -> x <= y -> log10 x <= log10 y). { intros x y Hx Hy. unfold log10, Rdiv. apply Rmult_le_compat_r; [left; apply Rinv_0_lt_compat; auto|]. destruct Hy as [K| ->]; [left; apply ln_increasing; auto|lra]. } split; apply M; lra. }
    unfold pow10. apply (ex_derive_continuous (fun x => exp (x * ln 10))). auto_derive. auto.
  - intros a b. exists (fun _ => 0). intros g Hg. split. { unfold density. rewrite IN by auto. reflexivity. } apply continuous_const.
Qed.
Print Assumptions C97_distributions.

(** particle numbers and energies *)
Theorem C97_contents : forall P b k, 0 < gamma_min (n_e b) -> gamma_min (n_e b) < gamma_max (n_e b) -> continuous_within (n_e b) ->
  let V := 4 / 3 * PI * R_b b ^ 3 in
  let I0 := RInt (density (n_e b)) (gamma_min (n_e b)) (gamma_max (n_e b)) in
  let I1 := RInt (fun g => g * (c_me P * c_c P ^ 2) * density (n_e b) g) (gamma_min (n_e b)) (gamma_max (n_e b)) in
  is_lim_seq (fun n => n_e_tot (set_sizes n k b)) I0 /\ is_lim_seq (fun n => N_e_tot (set_sizes n k b)) (V * I0) /\
  is_lim_seq (fun n => u_e P (set_sizes n k b)) I1 /\ is_lim_seq (fun n => W_e P (set_sizes n k b)) (V * I1).
Proof.
  intros P b k H0 H1 Hc V I0 I1. assert (H2 : gamma_min (n_e b) <= gamma_max (n_e b)) by lra.
  assert (C : forall n, n_e_tot (set_sizes n k b) = over (sampled (n_e b) n) (density (n_e b)) /\ N_e_tot (set_sizes n k b) = V * over (sampled (n_e b) n) (density (n_e b)) /\
     u_e P (set_sizes n k b) = over (sampled (n_e b) n) (fun g => g * (c_me P * c_c P ^ 2) * density (n_e b) g) /\ W_e P (set_sizes n k b) = V * over (sampled (n_e b) n) (fun g => g * (c_me P * c_c P ^ 2) * density (n_e b) g)).
  { intros n. destruct (C90_contents P (set_sizes n k b) H0 H2) as (_ & A & B & C & D). cbn [n_e set_sizes gamma_e_size] in *. rewrite A, B, C, D, !over_scale. repeat split; apply over_ext; intros x _; unfold population, V; cbn [R_b set_sizes]; ring. }
  assert (A0 : is_lim_seq (fun n => over (sampled (n_e b) n) (density (n_e b))) I0).
  { destruct (weighted trapz (n_e b) (fun _ => 1) H0 H1 Hc (fun g _ => continuous_const 1 g) (or_introl eq_refl)) as [_ L].
    replace I0 with (RInt (fun g => 1 * density (n_e b) g) (gamma_min (n_e b)) (gamma_max (n_e b))) by (apply int_ext; auto; intros; ring).
    revert L. apply is_lim_seq_ext. intros n. rewrite trapz_over. apply over_ext. intros; ring. }
  assert (A1 : is_lim_seq (fun n => over (sampled (n_e b) n) (fun g => g * (c_me P * c_c P ^ 2) * density (n_e b) g)) I1).
  { destruct (weighted trapz (n_e b) (fun g => g * (c_me P * c_c P ^ 2)) H0 H1 Hc) as [_ L]; [|left; reflexivity|].
    - intros g _. apply (ex_derive_continuous (fun g => g * (c_me P * c_c P ^ 2))). auto_derive. auto.
    - revert L. apply is_lim_seq_ext. intros n. rewrite trapz_over. reflexivity. }
  split; [|split; [|split]].
  - revert A0. apply is_lim_seq_ext. intros n. symmetry. apply C.
  - apply (lim_scale V) in A0. revert A0. apply is_lim_seq_ext. intros n. symmetry. apply C.
  - revert A1. apply is_lim_seq_ext. intros n. symmetry. apply C.
  - apply (lim_scale V) in A1. revert A1. apply is_lim_seq_ext. intros n. symmetry. apply C.
Qed.
Print Assumptions C97_contents.

(** energy density of the synchrotron photons *)
Theorem C97_energy_density : forall P b k, phys_ok P -> emitter_ok b (n_e b) -> gamma_min (n_e b) < gamma_max (n_e b) -> continuous_within (n_e b) ->
  is_lim_seq (fun n => u_ph_synch P (set_sizes n k b)) (sphere_density P (R_b b) (RInt (fun g => population b (n_e b) g * total_power P (B_field b) g) (gamma_min (n_e b)) (gamma_max (n_e b)))).
Proof.
  intros P b k HP Hb H1 Hc. pose proof Hb as []. pose proof HP as []. pose proof PI_RGT_0.
  destruct (weighted trapz (n_e b) (fun g => 4 / 3 * PI * R_b b ^ 3 * total_power P (B_field b) g) em_min H1 Hc) as [Ex L]; [|left; reflexivity|].
  { intros g _. unfold total_power. apply (ex_derive_continuous (fun g => 4 / 3 * PI * R_b b ^ 3 * (4 / 3 * c_sigmaT P * c_c P * (B_field b ^ 2 / (8 * PI)) * g ^ 2))). auto_derive. auto. }
  set (c := sphere_density P (R_b b) 1). assert (S1 : forall x, sphere_density P (R_b b) x = c * x). { intros x. unfold c, sphere_density. field. lra. }
  rewrite S1. replace (RInt (fun g => population b (n_e b) g * total_power P (B_field b) g) (gamma_min (n_e b)) (gamma_max (n_e b))) with (RInt (fun g => 4 / 3 * PI * R_b b ^ 3 * total_power P (B_field b) g * density (n_e b) g) (gamma_min (n_e b)) (gamma_max (n_e b))) by (apply int_ext; auto; intros; unfold population; ring).
  apply (lim_scale c) in L. revert L. apply is_lim_seq_ext. intros n.
  assert (Hb' : emitter_ok (set_sizes n k b) (n_e (set_sizes n k b))) by (destruct Hb; constructor; auto).
  rewrite (C77_energy_density P (set_sizes n k b) HP Hb'). cbn [set_sizes R_b B_field n_e gamma_e_size]. rewrite S1, trapz_over. f_equal. apply over_ext. intros x _. unfold population. cbn [set_sizes R_b]. ring.
Qed.
Print Assumptions C97_energy_density.

(** synchrotron emission of particles of mass m *)
Lemma single_eq P m B g nu : phys_ok P -> 0 < m -> 0 < B -> 0 < g ->
  single_particle_synch_power P B (c_h P * nu / (m * c_c P ^ 2)) g m = m * c_c P ^ 2 / c_h P * synch_power P m B g nu.
Proof.
  intros HP Hm HB Hg. pose proof HP as []. pose proof PI_RGT_0. unfold single_particle_synch_power, synch_power. cbv zeta. rewrite shape_eq.
  replace (calc_x P B (c_h P * nu / (m * c_c P ^ 2)) g m) with (nu / (3 * c_e P * B * g ^ 2 / (4 * PI * m * c_c P))). 2:{ unfold calc_x. field. repeat split; lra. }
  field. repeat split; lra.
Qed.
Lemma synch_power_cont P m B nu g : phys_ok P -> 0 < m -> 0 < B -> 0 < nu -> 0 < g -> continuous (fun g => synch_power P m B g nu) g.
Proof.
  intros HP Hm HB Hn Hg. pose proof HP as []. pose proof PI_RGT_0 as HPI. unfold synch_power. cbv zeta.
  assert (K : 0 < 3 * c_e P * B * g ^ 2) by (apply Rmult_lt_0_compat; [nra|apply pow_lt; auto]). assert (K2 : 0 < 4 * PI * m * c_c P) by (repeat (apply Rmult_lt_0_compat; try lra)).
  apply (continuous_scal_r (sqrt 3 * c_e P ^ 3 * B / (m * c_c P ^ 2)) (fun g => synch_shape (nu / (3 * c_e P * B * g ^ 2 / (4 * PI * m * c_c P)))) g).
  apply (continuous_comp (fun g => nu / (3 * c_e P * B * g ^ 2 / (4 * PI * m * c_c P))) synch_shape).
  - apply (ex_derive_continuous (fun g => nu / (3 * c_e P * B * g ^ 2 / (4 * PI * m * c_c P)))). auto_derive. change (g * (g * 1)) with (g ^ 2). apply Rgt_not_eq. apply Rmult_lt_0_compat; [auto|]. apply Rinv_0_lt_compat. auto.
  - apply shape_cont. apply Rdiv_lt_0_compat; auto. apply Rdiv_lt_0_compat; auto.
Qed.
Lemma emission_limit P m b s integ nu eps : phys_ok P -> 0 < m -> emitter_ok b s -> gamma_min s < gamma_max s -> continuous_within s -> 0 < nu -> eps = c_h P * comoving b nu / (m * c_c P ^ 2) ->
  let integrand g := population b s g * synch_power P m (B_field b) g (comoving b nu) in
  (integ = trapz \/ integ = trapz_loglog /\ representable (gamma_min s) /\ representable (gamma_max s) /\ forall g, gamma_min s <= g <= gamma_max s -> representable (m * c_c P ^ 2 / c_h P * integrand g)) ->
  is_lim_seq (fun n => delta_D b ^ 4 / (4 * PI * d_L b ^ 2) * eps * integ (map (fun x => 4 / 3 * PI * R_b b ^ 3 * density s x * single_particle_synch_power P (B_field b) eps x m) (log_grid (gamma_min s) (gamma_max s) n)) (log_grid (gamma_min s) (gamma_max s) n))
    (received b (comoving b nu * RInt integrand (gamma_min s) (gamma_max s))).
Proof.
  intros HP Hm Hb H1 Hc Hn He integrand Hi. pose proof Hb as []. pose proof HP as []. pose proof PI_RGT_0.
  assert (Hnu : 0 < comoving b nu) by (unfold comoving; apply Rdiv_lt_0_compat; auto; apply Rmult_lt_0_compat; auto).
  set (w := fun g => 4 / 3 * PI * R_b b ^ 3 * (m * c_c P ^ 2 / c_h P) * synch_power P m (B_field b) g (comoving b nu)).
  assert (Ew : forall g, w g * density s g = m * c_c P ^ 2 / c_h P * integrand g). { intros g. unfold w, integrand, population. ring. }
  destruct (weighted integ s w em_min H1 Hc) as [Ex L].
  { intros g Hg. unfold w. apply (continuous_scal_r (4 / 3 * PI * R_b b ^ 3 * (m * c_c P ^ 2 / c_h P)) (fun g => synch_power P m (B_field b) g (comoving b nu)) g). apply synch_power_cont; auto. lra. }
  { destruct Hi as [Hi|(Hi & Ra & Rb & Rf)]; [left; auto|right]. split; [auto|split; [auto|split; [auto|]]]. intros g Hg. rewrite Ew. auto. }
  apply (lim_scale (delta_D b ^ 4 / (4 * PI * d_L b ^ 2) * eps)) in L.
  assert (EL : received b (comoving b nu * RInt integrand (gamma_min s) (gamma_max s)) = delta_D b ^ 4 / (4 * PI * d_L b ^ 2) * eps * RInt (fun g => w g * density s g) (gamma_min s) (gamma_max s)).
  { assert (Ei : RInt integrand (gamma_min s) (gamma_max s) = c_h P / (m * c_c P ^ 2) * RInt (fun g => w g * density s g) (gamma_min s) (gamma_max s)).
    { rewrite <- int_scale by auto. apply int_ext; auto. intros x _. rewrite Ew. field. repeat split; lra. }
    rewrite Ei, He. unfold received. field. repeat split; lra. }
  rewrite EL. revert L. apply is_lim_seq_ext. intros n. f_equal. f_equal. apply map_ext_in. intros g Hg. assert (gamma_min s <= g <= gamma_max s) by (apply (grid_in _ _ n) in Hg; auto).
  rewrite Ew, He, single_eq by (auto; lra). unfold integrand, population. ring.
Qed.
Theorem C97_synchrotron : forall P b k integ nu, phys_ok P -> emitter_ok b (n_e b) -> gamma_min (n_e b) < gamma_max (n_e b) -> continuous_within (n_e b) -> 0 < nu ->
  let integrand g := population b (n_e b) g * synch_power P (c_me P) (B_field b) g (comoving b nu) in
  (integ = trapz \/ integ = trapz_loglog /\ representable (gamma_min (n_e b)) /\ representable (gamma_max (n_e b)) /\
     forall g, gamma_min (n_e b) <= g <= gamma_max (n_e b) -> representable (c_me P * c_c P ^ 2 / c_h P * integrand g)) ->
  exists F, (forall n, synch_sed_flux P {| sy_blob := set_sizes n k b; sy_ssa := false; sy_integ := integ |} (nu :: nil) = Ok (F n :: nil)) /\
    is_lim_seq F (received b (comoving b nu * RInt integrand (gamma_min (n_e b)) (gamma_max (n_e b)))).
Proof.
  intros P b k integ nu HP Hb H1 Hc Hn integrand Hi. pose proof Hb as []. pose proof HP as []. set (s := n_e b) in *.
  exists (fun n => delta_D b ^ 4 / (4 * PI * d_L b ^ 2) * comoving_energy P b nu * integ (map (fun x => 4 / 3 * PI * R_b b ^ 3 * density s x * single_particle_synch_power P (B_field b) (comoving_energy P b nu) x (c_me P)) (log_grid (gamma_min s) (gamma_max s) n)) (log_grid (gamma_min s) (gamma_max s) n)).
  split.
  - intros n. unfold synch_sed_flux. cbn [sy_blob sy_ssa sy_integ]. rewrite sed_plain. cbn [bind snd map]. f_equal. f_equal.
    pose proof (eval_gamma_e (set_sizes n k b) em_min em_max) as E. unfold evaluate in E. apply pair_equal_spec in E. destruct E as [E _]. rewrite E. unfold flux_pt. cbv zeta. rewrite eps_comoving by auto. reflexivity.
  - apply (emission_limit P (c_me P) b s integ nu (comoving_energy P b nu)); auto.
Qed.
Print Assumptions C97_synchrotron.
Theorem C97_proton : forall P b s k integ nu, phys_ok P -> n_p_opt b = Some s -> emitter_ok b s -> gamma_min s < gamma_max s -> continuous_within s -> 0 < nu ->
  let integrand g := population b s g * synch_power P (c_mp P) (B_field b) g (comoving b nu) in
  (integ = trapz \/ integ = trapz_loglog /\ representable (gamma_min s) /\ representable (gamma_max s) /\
     forall g, gamma_min s <= g <= gamma_max s -> representable (c_mp P * c_c P ^ 2 / c_h P * integrand g)) ->
  exists F, (forall n, proton_sed_flux P (set_sizes k n b) integ (nu :: nil) = Ok (F n :: nil)) /\
    is_lim_seq F (received b (comoving b nu * RInt integrand (gamma_min s) (gamma_max s))).
Proof.
  intros P b s k integ nu HP Hs Hb H1 Hc Hn integrand Hi. pose proof Hb as []. pose proof HP as [].
  set (eps := c_h P * comoving b nu / (c_mp P * c_c P ^ 2)).
  exists (fun n => delta_D b ^ 4 / (4 * PI * d_L b ^ 2) * eps * integ (map (fun x => 4 / 3 * PI * R_b b ^ 3 * density s x * single_particle_synch_power P (B_field b) eps x (c_mp P)) (log_grid (gamma_min s) (gamma_max s) n)) (log_grid (gamma_min s) (gamma_max s) n)).
  split.
  - intros n. unfold proton_sed_flux, n_p, gamma_p. cbn [n_p_opt set_sizes]. rewrite Hs. cbn [bind]. unfold proton_evaluate_sed_flux. cbn [set_sizes redshift d_L delta_D B_field R_b gamma_p_size]. fold (log_grid (gamma_min s) (gamma_max s) n).
    set (g := log_grid _ _ _). assert (Hg : forall x, In x g -> gamma_min s <= x <= gamma_max s) by (intros x; apply grid_in; auto).
    unfold evaluate. rewrite corrected_id by auto. cbn [snd map]. rewrite map2_map_map. do 2 f_equal. replace (nu_to_epsilon_prime P nu (redshift b) (delta_D b) Proton) with eps by (unfold eps, nu_to_epsilon_prime, nu_to_eps, rest_energy, mass_of, comoving; field; repeat split; lra). reflexivity.
  - apply (emission_limit P (c_mp P) b s integ nu eps); auto.
Qed.
Print Assumptions C97_proton.
(** contents in protons *)
Theorem C97_protons : forall P b s k, n_p_opt b = Some s -> 0 < gamma_min s -> gamma_min s < gamma_max s -> continuous_within s ->
  exists N U, (forall n, n_p_tot (set_sizes k n b) = Ok (N n) /\ u_p P (set_sizes k n b) = Ok (U n)) /\
    is_lim_seq N (RInt (density s) (gamma_min s) (gamma_max s)) /\ is_lim_seq U (RInt (fun g => g * (c_mp P * c_c P ^ 2) * density s g) (gamma_min s) (gamma_max s)).
Proof.
  intros P b s k Hs H0 H1 Hc. assert (H2 : gamma_min s <= gamma_max s) by lra.
  exists (fun n => over (sampled s n) (density s)), (fun n => over (sampled s n) (fun g => g * (c_mp P * c_c P ^ 2) * density s g)).
  split; [|split].
  - intros n. destruct (C90_protons P (set_sizes k n b)) as [_ K]. destruct (K s Hs H0 H2) as (_ & A & _ & B & _). auto.
  - destruct (weighted trapz s (fun _ => 1) H0 H1 Hc (fun g _ => continuous_const 1 g) (or_introl eq_refl)) as [_ L].
    replace (RInt (density s) (gamma_min s) (gamma_max s)) with (RInt (fun g => 1 * density s g) (gamma_min s) (gamma_max s)) by (apply int_ext; auto; intros; ring).
    revert L. apply is_lim_seq_ext. intros n. rewrite trapz_over. apply over_ext. intros; ring.
  - destruct (weighted trapz s (fun g => g * (c_mp P * c_c P ^ 2)) H0 H1 Hc) as [_ L]; [|left; reflexivity|].
    + intros g _. apply (ex_derive_continuous (fun g => g * (c_mp P * c_c P ^ 2))). auto_derive. auto.
    + revert L. apply is_lim_seq_ext. intros n. rewrite trapz_over. reflexivity.
Qed.
Print Assumptions C97_protons.

(** ** a concrete case: the blob of the tutorials at 10 GHz, with both integrators *)
Lemma fits x : 1 / 10 ^ 60 <= x <= 10 ^ 60 -> representable x.
Proof.
  intros [H1 H2]. assert (T : 10 ^ 60 <= 2 ^ 1022). { apply Rle_trans with (2 ^ 200); [|apply Rle_pow; [lra|lia]]. replace (10 ^ 60) with ((10 ^ 3) ^ 20) by (rewrite <- pow_mult; reflexivity). replace (2 ^ 200) with ((2 ^ 10) ^ 20) by (rewrite <- pow_mult; reflexivity). apply pow_incr. simpl. lra. }
  assert (P10 : 0 < 10 ^ 60) by (apply pow_lt; lra). split.
  - apply Rle_trans with (1 / 10 ^ 60); auto. unfold ftiny, Rdiv. rewrite Rmult_1_l. apply Rinv_le_contravar; auto.
  - apply Rle_trans with (10 ^ 60); auto. unfold fmax. change (2 ^ 1023) with (2 * 2 ^ 1022). assert (/ 2 ^ 52 <= 1). { apply Rle_trans with (/ 1); [|lra]. apply Rinv_le_contravar; [lra|]. apply pow_R1_Rle. lra. } nra.
Qed.
Lemma shape_range x : 1 / 10 ^ 12 <= x <= 3 -> 1 / 10 ^ 10 <= synch_shape x <= 2.
Proof.
  intros [H1 H2]. assert (E12 : 1 / 10 ^ 12 = (1 / 10 ^ 4) ^ 3) by field. assert (Hx : 0 < x). { eapply Rlt_le_trans; [|exact H1]. apply Rdiv_lt_0_compat; [lra|apply pow_lt; lra]. }
  rewrite shape_gy. assert (P4 : 0 < 1 / 10 ^ 4) by (apply Rdiv_lt_0_compat; [lra|apply pow_lt; lra]).
  assert (Y : 1 / 10 ^ 4 <= Rpower x (1 / 3)). { rewrite <- (cube_root (1 / 10 ^ 4)) by auto. apply root_mono. split; [apply pow_lt; auto|]. rewrite <- E12. auto. }
  assert (Y5 : Rpower x (1 / 3) <= 5). { rewrite <- (cube_root 5) by lra. apply root_mono. lra. }
  set (y := Rpower x (1 / 3)) in *. assert (G1 : 1 / 10 ^ 5 <= gy y).
  { apply Rle_trans with (gy (1 / 10 ^ 4)); [|apply gy_mono; lra]. unfold gy. set (t := 1 / 10 ^ 4) in *. assert (Ht : t <= 1 / 10) by (unfold t; lra). assert (S : sqrt (1 + 3.4 * t ^ 2) <= 2). { rewrite <- (sqrt_pow2 2) by lra. apply sqrt_le_1_alt. nra. }
    assert (Q : 1 <= num t / den t). { apply (proj1 (Rle_div_r 1 (num t) (den t) (den_pos t))). unfold num, den. assert (0 <= t ^ 2) by apply pow2_ge_0. assert (0 <= t ^ 4) by (apply pow_le; lra). lra. }
    assert (F : t / 2 <= t / sqrt (1 + 3.4 * t ^ 2)). { unfold Rdiv. apply Rmult_le_compat_l; [lra|]. apply Rinv_le_contravar; auto. apply sroot_pos. }
    apply Rle_trans with (1.808 * t / sqrt (1 + 3.4 * t ^ 2) * 1); [|apply Rmult_le_compat_l; [|auto]; replace (1.808 * t / sqrt (1 + 3.4 * t ^ 2)) with (1.808 * (t / sqrt (1 + 3.4 * t ^ 2))) by (unfold Rdiv; ring); lra].
    rewrite Rmult_1_r. replace (1.808 * t / sqrt (1 + 3.4 * t ^ 2)) with (1.808 * (t / sqrt (1 + 3.4 * t ^ 2))) by (unfold Rdiv; ring). apply Rle_trans with (1.808 * (t / 2)); [unfold t; lra|lra]. }
  assert (G2 : gy y <= 1.7) by (apply gy_bound; lra).
  assert (X1 : 1 / 10 ^ 3 <= exp (- x)). { apply Rle_trans with (exp (- (3))); [|destruct (Rle_lt_or_eq_dec x 3 H2) as [K| ->]; [left; apply exp_increasing; lra|lra]]. rewrite exp_Ropp. replace (exp 3) with (exp 1 * exp 1 * exp 1) by (rewrite <- !exp_plus; f_equal; ring). pose proof exp_le_3. pose proof (exp_pos 1). unfold Rdiv. rewrite Rmult_1_l. apply Rinv_le_contravar; [repeat apply Rmult_lt_0_compat; auto|]. assert (exp 1 * exp 1 <= 9) by nra. simpl. nra. }
  assert (X2 : exp (- x) <= 1). { rewrite <- exp_0. left. apply exp_increasing. lra. }
  split.
  - apply Rle_trans with (1 / 10 ^ 5 * (1 / 10 ^ 3)); [lra|]. apply Rmult_le_compat; lra.
  - apply Rle_trans with (1.7 * 1); [|lra]. apply Rmult_le_compat; lra.
Qed.
Example C97_case :
  let nu := 10000000000 in let P := codata in let b := ex_blob in
  emitter_ok b (n_e b) /\ gamma_min (n_e b) < gamma_max (n_e b) /\ continuous_within (n_e b) /\ representable (gamma_min (n_e b)) /\ representable (gamma_max (n_e b)) /\
  forall g, gamma_min (n_e b) <= g <= gamma_max (n_e b) -> representable (c_me P * c_c P ^ 2 / c_h P * (population b (n_e b) g * synch_power P (c_me P) (B_field b) g (comoving b nu))).
Proof.
  intros nu P b. pose proof ex_emitter as He. pose proof PI_bounds as HPI.
  split; [exact He|]. split; [unfold b, ex_blob; cbn [n_e gamma_min gamma_max]; lra|]. split; [apply (proj1 C97_distributions (ShPL 2.1) 1e-13 10 1e5); [lra|exact Logic.I]|].
  split; [apply fits; unfold b, ex_blob; cbn [n_e gamma_min]; lra|]. split; [apply fits; unfold b, ex_blob; cbn [n_e gamma_max]; lra|].
  intros g Hg. unfold b, ex_blob in Hg. cbn [n_e gamma_min gamma_max] in Hg.
  set (x := comoving b nu / (3 * c_e P * B_field b * g ^ 2 / (4 * PI * c_me P * c_c P))). set (D := exp (- (2.1) * ln g)).
  set (A := sqrt 3 * c_e P ^ 3 / c_h P * (4 / 3 * PI * (1e16) ^ 3 * 1e-13)).
  assert (E : c_me P * c_c P ^ 2 / c_h P * (population b (n_e b) g * synch_power P (c_me P) (B_field b) g (comoving b nu)) = A * D * synch_shape x).
  { unfold population, synch_power. cbv zeta. fold x. unfold density. replace (in_range (n_e b) g) with true. 2:{ symmetry. unfold in_range, b, ex_blob. cbn [n_e gamma_min gamma_max]. rewrite !(proj2 (Rleb_true _ _)) by lra. reflexivity. }
    unfold b, ex_blob. cbn [n_e R_b B_field]. unfold npow, Rpower. fold D. unfold A. pose proof codata_ok as []. fold P in me_pos, c_pos, h_pos.
    assert (G : forall m c h s e d sh R0 k, 0 < m -> 0 < c -> 0 < h -> m * c ^ 2 / h * (4 / 3 * PI * R0 ^ 3 * (k * d) * (s * e ^ 3 * 1 / (m * c ^ 2) * sh)) = s * e ^ 3 / h * (4 / 3 * PI * R0 ^ 3 * k) * d * sh) by (intros; field; repeat split; lra).
    apply G; auto. }
  rewrite E.
  assert (S3 : 1 <= sqrt 3 <= 2). { split; [rewrite <- sqrt_1 at 1; apply sqrt_le_1_alt; lra|]. rewrite <- (sqrt_pow2 2) by lra. apply sqrt_le_1_alt. lra. }
  assert (HA : 10 ^ 30 <= A <= 10 ^ 40). { unfold A, P, codata. cbn [c_e c_h]. set (s3 := sqrt 3) in *. set (p := PI) in *. clearbody s3 p. assert (L1 : 3 <= s3 * p <= 8) by nra. set (sp := s3 * p) in *. replace (s3 * 4.803204712570263e-10 ^ 3 / 6.62607015e-27 * (4 / 3 * p * 1e16 ^ 3 * 1e-13)) with (sp * (4.803204712570263e-10 ^ 3 / 6.62607015e-27 * (4 / 3 * 1e16 ^ 3 * 1e-13))) by (unfold sp, Rdiv; ring). lra. }
  assert (HD : 1 / 10 ^ 15 <= D <= 1).
  { unfold D. assert (L0 : 0 <= ln g) by (rewrite <- ln_1; apply ln_le; lra). assert (L1 : ln g <= ln 1e5) by (apply ln_le; lra).
    split; [|rewrite <- exp_0; destruct (Rle_lt_or_eq_dec 0 (2.1 * ln g) ltac:(lra)) as [K|K]; [left; apply exp_increasing; lra|right; f_equal; lra]].
    apply Rle_trans with (exp (- (3) * ln 1e5)). 2:{ destruct (Rle_lt_or_eq_dec (- (3) * ln 1e5) (- (2.1) * ln g) ltac:(lra)) as [K|K]; [left; apply exp_increasing; lra|right; f_equal; lra]. }
    replace (- (3) * ln 1e5) with (- (ln 1e5 + ln 1e5 + ln 1e5)) by ring. rewrite exp_Ropp, !exp_plus, exp_ln by lra. lra. }
  assert (Hx : 1 / 10 ^ 12 <= x <= 3).
  { unfold x, comoving, b, ex_blob, nu, P, codata. cbn [redshift delta_D B_field c_e c_me c_c].
    assert (G : forall e m c p z, 0 < e -> 0 < m -> 0 < c -> 0 < p -> z / (3 * e * 1 * g ^ 2 / (4 * p * m * c)) = z * (4 * m * c / (3 * e)) * p / g ^ 2) by (intros; field; repeat split; lra). rewrite G by lra.
    assert (G2 : 100 <= g ^ 2 <= 10000000000) by nra. set (gg := g ^ 2) in *. set (p := PI) in *. clearbody gg p. split; [apply (proj1 (Rle_div_r _ _ gg ltac:(lra)))|apply (proj2 (Rle_div_l _ _ gg ltac:(lra)))]; lra. }
  pose proof (shape_range x Hx) as HS. assert (HAD : 1 <= A * D <= 10 ^ 40). { split; [apply Rle_trans with (10 ^ 30 * (1 / 10 ^ 15)); [lra|apply Rmult_le_compat; lra]|apply Rle_trans with (10 ^ 40 * 1); [apply Rmult_le_compat; lra|lra]]. }
  apply fits. split; [apply Rle_trans with (1 * (1 / 10 ^ 10)); [lra|apply Rmult_le_compat; lra]|apply Rle_trans with (10 ^ 40 * 2); [apply Rmult_le_compat; lra|lra]].
Qed.
