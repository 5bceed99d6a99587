(** C118: a bin at rest at the bounds, in double precision *)
From Flocq Require Import Core.
From Flocq Require Import Relative.
From Verif Require Import Base TEUtils TimeEvolution NumpyInst MathUtils Conversion Clock ClockFacts Rounding RoundFacts Spec_Round Props_Round Props_Round2 Props_Round3 Props_Round4 Props_Round5 RoundBound.
Import ListNotations.
Open Scope list_scope.
Open Scope R_scope.
#[local] Existing Instance prec53.

Theorem C118_model : (forall lo hi (b : R * R), kept_bin (fun x => x) lo hi (fst b) = in_bounds (lo, hi) b) /\
  (forall m g n, 0 < m -> rest_run (fun x => x) m n g = g) /\
  (forall rnd m g d, fst (fst (moved_bin rnd m g (upper_edge rnd g) 0 0 d)) = rest_pass rnd m g).
Proof.
  split; [reflexivity|]. split; [|reflexivity]. intros m g n Hm. revert g. induction n as [|n IH]; intros g; [reflexivity|]. simpl. rewrite IH. unfold rest_pass, moved_bin, energy. simpl. field. lra.
Qed.
Print Assumptions C118_model.

(** ** a bin at gamma_bounds[0], or where the program itself puts the bin of the upper bound, leaves without any change *)
Ltac by_rounding k n := rewrite (round_to k n); [|lia|simpl; lra|simpl; apply Rabs_def1; lra].
Lemma mec2_double : binary64 (mec2_erg codata) = 7732502782436314 / 2 ^ 73.
Proof. unfold mec2_erg, rest_energy, mass_of, codata. cbn [c_me c_c]. by_rounding 73%nat 7732502782436314%Z. reflexivity. Qed.
Lemma rest_eq m g : rest_pass binary64 m g = binary64 (binary64 (g * m) / m).
Proof. unfold rest_pass, moved_bin, energy. simpl. rewrite Rplus_0_r, (b64_id (binary64 (g * m))) by apply b64_double. reflexivity. Qed.
Lemma rest_19 : rest_pass binary64 (7732502782436314 / 2 ^ 73) 19 = 5348024557502463 / 2 ^ 48.
Proof. rewrite rest_eq. assert (E : binary64 (19 * (7732502782436314 / 2 ^ 73)) = 4591173527071561 / 2 ^ 68) by (by_rounding 68%nat 4591173527071561%Z; reflexivity). rewrite E. by_rounding 48%nat 5348024557502463%Z. reflexivity. Qed.
Lemma top_7 : top_gamma binary64 7 = 7880511296768691 / 2 ^ 50.
Proof. unfold top_gamma, bin_size_factor. assert (E1 : binary64 (1 / 10000) = 7378697629483821 / 2 ^ 66) by (by_rounding 66%nat 7378697629483821%Z; reflexivity). rewrite E1.
  assert (E2 : binary64 (1 + 7378697629483821 / 2 ^ 66) = 4504049987333233 / 2 ^ 52) by (by_rounding 52%nat 4504049987333233%Z; reflexivity). rewrite E2. by_rounding 50%nat 7880511296768691%Z. reflexivity. Qed.
Lemma rest_top : rest_pass binary64 (7732502782436314 / 2 ^ 73) (7880511296768691 / 2 ^ 50) = 7880511296768692 / 2 ^ 50.
Proof. rewrite rest_eq. assert (E : binary64 (7880511296768691 / 2 ^ 50 * (7732502782436314 / 2 ^ 73)) = 6765263408290946 / 2 ^ 70) by (by_rounding 70%nat 6765263408290946%Z; reflexivity). rewrite E. by_rounding 50%nat 7880511296768692%Z. reflexivity. Qed.
Theorem C118_bounds_refuted : let m := binary64 (mec2_erg codata) in
  (exists lo, double lo /\ forall hi, kept_bin binary64 lo hi (rest_pass binary64 m lo) = false) /\
  exists hi, double hi /\ forall lo, kept_bin binary64 lo hi (rest_pass binary64 m (top_gamma binary64 hi)) = false.
Proof.
  intros m. unfold m. rewrite mec2_double. split.
  - exists 19. split. { exists 19%Z, 0%Z. split; [lia|]. split; [lia|]. simpl. ring. } intros hi. unfold kept_bin. rewrite rest_19. destruct (Rleb_spec 19 (5348024557502463 / 2 ^ 48)) as [H|H]; [simpl in H; lra|reflexivity].
  - exists 7. split. { exists 7%Z, 0%Z. split; [lia|]. split; [lia|]. simpl. ring. } intros lo. unfold kept_bin. rewrite top_7, rest_top. destruct (Rleb_spec (7880511296768692 / 2 ^ 50) (7880511296768691 / 2 ^ 50)) as [H|H]; [simpl in H; lra|apply Bool.andb_false_r].
Qed.
Print Assumptions C118_bounds_refuted.

(** ** away from the bounds by the rounding errors of the run, a bin at rest stays *)
Lemma rest_near m g : / 2 ^ 200 <= m -> 1 / 2 <= g -> near 2 (rest_pass binary64 m g) g.
Proof.
  intros Hm Hg. assert (P : 0 < / 2 ^ 200) by (apply Rinv_0_lt_compat, pow_lt; lra). rewrite rest_eq.
  assert (G : / 2 ^ 201 <= g * m). { replace (/ 2 ^ 201) with (1 / 2 * / 2 ^ 200). - apply Rmult_le_compat; lra. - change 201%nat with (S 200). rewrite <- tech_pow_Rmult, Rinv_mult. lra. }
  assert (N1 : near 1 (binary64 (g * m)) (g * m)) by (apply (fl_near_lo 201); [lia|auto]). assert (Gm : 0 < g * m) by (apply Rmult_lt_0_compat; lra).
  assert (N2 : near 1 (binary64 (g * m) / m) g). { replace g with (g * m / m) at 2 by (field; lra). change 1%nat with (1 + 0)%nat. apply near_div; try lra; auto. apply near_refl. }
  change 2%nat with (1 + 1)%nat. apply near_trans with (binary64 (g * m) / m); auto. apply (fl_near_lo 2); [lia|]. destruct N2 as [_ B]. assert (U : (1 + u64) ^ 1 <= 2) by (rewrite u64_val; simpl; lra). pose proof (near_pos 1 _ _ N1 Gm) as Q. assert (QQ : 0 < binary64 (g * m) / m) by (apply Rdiv_lt_0_compat; lra). assert (binary64 (g * m) / m * (1 + u64) ^ 1 <= binary64 (g * m) / m * 2) by (apply Rmult_le_compat_l; lra). simpl. lra.
Qed.
Lemma run_near m n : / 2 ^ 200 <= m -> (1 + u64) ^ (2 * n) <= 2 -> forall g, 1 <= g -> near (2 * n) (rest_run binary64 m n g) g.
Proof.
  intros Hm. assert (K : forall g k, 1 <= g * (1 + u64) ^ (2 * k) -> (1 + u64) ^ (2 * (n + k)) <= 2 -> near (2 * n) (rest_run binary64 m n g) g).
  { induction n as [|n IH]; intros g k Hg Hn; [apply near_refl|]. cbn [rest_run]. assert (Hk : (1 + u64) ^ (2 * k) <= 2). { eapply Rle_trans; [|exact Hn]. apply Rle_pow; [rewrite u64_val; lra|lia]. }
    assert (g0 : 1 / 2 <= g). { pose proof (up_pos (2 * k)) as U. apply Rnot_lt_le. intros L. assert (g * (1 + u64) ^ (2 * k) < 1 / 2 * 2); [|lra]. apply Rle_lt_trans with (g * (1 + u64) ^ (2 * k)); [lra|]. destruct (Rle_dec g 0) as [Z|Z]. - assert (g * (1 + u64) ^ (2 * k) <= 0 * (1 + u64) ^ (2 * k)) by (apply Rmult_le_compat_r; lra). lra. - apply Rlt_le_trans with (1 / 2 * (1 + u64) ^ (2 * k)); [apply Rmult_lt_compat_r; lra|apply Rmult_le_compat_l; lra]. }
    pose proof (rest_near m g Hm g0) as N. replace (2 * S n)%nat with (2 * n + 2)%nat by lia. apply near_trans with (rest_pass binary64 m g); auto. apply (IH _ (S k)).
    - destruct N as [_ N]. replace (2 * S k)%nat with (2 + 2 * k)%nat by lia. rewrite pow_add, <- Rmult_assoc. eapply Rle_trans; [exact Hg|]. apply Rmult_le_compat_r; [left; apply up_pos|auto].
    - replace (2 * (n + S k))%nat with (2 * (S n + k))%nat by lia. auto. }
  intros Hn g Hg. apply (K g 0%nat); [simpl; lra|]. rewrite Nat.add_0_r. auto.
Qed.
Lemma top_near hi : 1 <= hi -> near 3 (top_gamma binary64 hi) (hi / (1 + bin_size_factor)).
Proof.
  intros Hh. unfold top_gamma. assert (B : near 1 (binary64 bin_size_factor) bin_size_factor). { apply (fl_near_lo 14); [lia|]. unfold bin_size_factor. simpl. lra. } pose proof (up_pos 1) as U.
  assert (B0 : 0 < binary64 bin_size_factor) by (apply (near_pos 1 _ _ B); unfold bin_size_factor; lra). assert (N0 : near 1 1 1) by (apply (near_weak 0); [lia|lra|apply near_refl]). pose proof (near_plus 1 _ _ _ _ N0 B) as S.
  assert (N1 : near 1 (binary64 (1 + binary64 bin_size_factor)) (1 + binary64 bin_size_factor)). { apply fl_near_plus; [apply double_1|apply b64_double|lra]. }
  pose proof (near_trans 1 1 _ _ _ N1 S) as T. set (o := binary64 (1 + binary64 bin_size_factor)) in *. assert (O : 0 < 1 + bin_size_factor) by (unfold bin_size_factor; lra). pose proof (near_pos _ _ _ T O) as Po.
  assert (D : near 2 (hi / o) (hi / (1 + bin_size_factor))). { change 2%nat with (0 + (1 + 1))%nat. apply near_div; try lra; auto. apply near_refl. }
  change 3%nat with (1 + 2)%nat. apply near_trans with (hi / o); auto. apply (fl_near_lo 2); [lia|]. assert (o2 : o <= 2). { destruct T as [T _]. eapply Rle_trans; [exact T|]. unfold bin_size_factor. rewrite u64_val. simpl. lra. } apply Rle_trans with (1 / 2); [simpl; lra|]. unfold Rdiv. apply Rmult_le_compat; try lra. apply Rinv_le_contravar; lra.
Qed.
Theorem C118_bounds_partial : forall m g lo hi n, / 2 ^ 200 <= m -> 1 <= g -> 1 <= hi -> INR n <= 2 ^ 51 ->
  lo * (1 + / 2 ^ 53) ^ (2 * n) <= g -> g * (1 + / 2 ^ 53) ^ (2 * n + 3) <= hi / (1 + 1 / 10000) ->
  forall j, (j <= n)%nat -> kept_bin binary64 lo hi (rest_run binary64 m j g) = true /\ within (2 * j) (rest_run binary64 m j g) g.
Proof.
  intros m g lo hi n Hm Hg Hh Hn Hlo Hhi j Hj. assert (E53 : / 2 ^ 53 = u64) by reflexivity. rewrite E53 in *. assert (H2 : (1 + u64) ^ (2 * n) <= 2). { apply up_two. rewrite mult_INR, u64_val. simpl INR. simpl pow in Hn. lra. } assert (U1 : 1 <= 1 + u64) by (rewrite u64_val; lra). assert (J : (1 + u64) ^ (2 * j) <= (1 + u64) ^ (2 * n)) by (apply Rle_pow; [auto|lia]).
  pose proof (run_near m j Hm ltac:(lra) g Hg) as N. set (x := rest_run binary64 m j g) in *. split; [|apply within_near; auto]. destruct N as [A B]. pose proof (up_pos (2 * j)) as P. pose proof (up_pos 3) as P3. unfold kept_bin. apply andb_true_intro. split; apply Rleb_true.
  - apply Rmult_le_reg_r with ((1 + u64) ^ (2 * j)); auto. apply Rle_trans with g; auto. destruct (Rle_dec lo 0) as [L|L]. + assert (lo * (1 + u64) ^ (2 * j) <= 0 * (1 + u64) ^ (2 * j)) by (apply Rmult_le_compat_r; lra). lra. + eapply Rle_trans; [|exact Hlo]. apply Rmult_le_compat_l; lra.
  - destruct (top_near hi Hh) as [_ T]. fold bin_size_factor in Hhi. apply Rmult_le_reg_r with ((1 + u64) ^ 3); auto. apply Rle_trans with (hi / (1 + bin_size_factor)); auto. eapply Rle_trans; [|exact Hhi]. rewrite pow_add, <- Rmult_assoc. apply Rmult_le_compat_r; [lra|]. eapply Rle_trans; [exact A|]. apply Rmult_le_compat_l; lra.
Qed.
Print Assumptions C118_bounds_partial.
(** Lorentz factor 20, bounds 19 and 1000, a thousand passes *)
Example C118_case : forall j, (j <= 1000)%nat -> kept_bin binary64 19 1000 (rest_run binary64 (binary64 (mec2_erg codata)) j 20) = true.
Proof.
  intros j Hj. assert (K : (1 + / 2 ^ 53) ^ (2 * 1000 + 3) <= 101 / 100). { change (/ 2 ^ 53) with u64. replace (101 / 100) with (1 + 1 / 100) by lra. apply up_small; rewrite u64_val, INR_IZR_INZ; simpl; lra. }
  assert (K0 : (1 + / 2 ^ 53) ^ (2 * 1000) <= 101 / 100) by (eapply Rle_trans; [|exact K]; apply Rle_pow; [change (/ 2 ^ 53) with u64; rewrite u64_val; lra|lia]).
  apply (C118_bounds_partial _ 20 19 1000 1000); auto; try lra. rewrite mec2_double. apply Rle_trans with (/ 2 ^ 30); [apply lo_le; lia|simpl; lra].
  rewrite INR_IZR_INZ. simpl. lra.
Qed.
(** the bounds (19, 1000): the bin that starts at 19 is at 18.999999999999996 after one pass *)
Example C118_lost : kept_bin binary64 19 1000 19 = true /\ kept_bin binary64 19 1000 (rest_run binary64 (binary64 (mec2_erg codata)) 1 19) = false.
Proof.
  split. - change 19 with (rest_run binary64 1 0 19) at 2. apply (C118_bounds_partial 1 19 19 1000 0); try lra; try lia; try (change (/ 2 ^ 53) with u64; rewrite u64_val; simpl; lra). simpl. lra.
  - rewrite mec2_double. cbn [rest_run]. rewrite rest_19. unfold kept_bin. destruct (Rleb_spec 19 (5348024557502463 / 2 ^ 48)) as [H|H]; [simpl in H; lra|reflexivity].
Qed.
