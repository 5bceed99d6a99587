(** C114: the direction of a photon from a shell in floating point arithmetic *)
From Flocq Require Import Core.
From Coquelicot Require Import Rcomplements.
From Flocq Require Import Relative.
From Verif Require Import Base NumpyInst Geometry Clock ClockFacts Rounding RoundFacts Spec_Round MathFacts Props_Geometry Props_Round Props_Round2 Props_Round3 Props_Round4 Props_Round5 Props_Round6 Props_Round7 RoundGeometry.
Open Scope R_scope.
#[local] Existing Instance prec53.

(** ** without rounding it is the function of Geometry.v *)
Theorem C114_model : forall mu R_re r, -1 <= mu <= 1 -> 0 <= R_re -> 0 < x_re_shell mu R_re r ->
  shell_distance (fun v => v) (fun v => v ^ 2) mu R_re r = Some (x_re_shell mu R_re r) /\
  shell_cosine (fun v => v) (fun v => v ^ 2) mu R_re r = Some (mu_star_shell mu R_re r).
Proof.
  intros mu Rr r Hm HR Hx. assert (P : 0 <= Rr ^ 2 + r ^ 2 - 2 * r * Rr * mu). { replace (Rr ^ 2 + r ^ 2 - 2 * r * Rr * mu) with (Rr ^ 2 * (1 - mu ^ 2) + (r - Rr * mu) ^ 2) by ring. pose proof (pow2_ge_0 (r - Rr * mu)). assert (0 <= Rr ^ 2 * (1 - mu ^ 2)) by (apply Rmult_le_pos; nra). lra. }
  assert (D : shell_distance (fun v => v) (fun v => v ^ 2) mu Rr r = Some (x_re_shell mu Rr r)). { unfold shell_distance, root, shell_square. destruct (Rltb_spec (Rr ^ 2 + r ^ 2 - 2 * r * Rr * mu) 0); [lra|]. reflexivity. }
  split; auto. unfold shell_cosine. rewrite D. destruct (Reqb_spec (x_re_shell mu Rr r) 0); [lra|]. destruct (C50_mu_star mu Rr r Hm Hx HR) as [E _]. unfold mu_star_shell in *. cbv zeta in *. unfold root, shell_radicand. set (x := x_re_shell mu Rr r) in *.
  assert (A : 0 <= 1 - (Rr / x) ^ 2 * (1 - mu ^ 2)). { assert (X2 : x ^ 2 = Rr ^ 2 + r ^ 2 - 2 * r * Rr * mu) by (unfold x, x_re_shell; rewrite <- Rsqr_pow2, Rsqr_sqrt; auto). replace (1 - (Rr / x) ^ 2 * (1 - mu ^ 2)) with (((r - Rr * mu) / x) ^ 2); [apply pow2_ge_0|]. apply Rmult_eq_reg_r with (x ^ 2); [|apply pow_nonzero; lra]. replace (((r - Rr * mu) / x) ^ 2 * x ^ 2) with ((r - Rr * mu) ^ 2) by (field; lra). replace ((1 - (Rr / x) ^ 2 * (1 - mu ^ 2)) * x ^ 2) with (x ^ 2 - Rr ^ 2 * (1 - mu ^ 2)) by (field; lra). rewrite X2. ring. }
  destruct (Rltb_spec (1 - (Rr / x) ^ 2 * (1 - mu ^ 2)) 0); [lra|]. f_equal. f_equal. destruct (Rltb (mu * Rr) r); lra.
Qed.
Print Assumptions C114_model.

(** ** a point where the result is nan: a shell of 2^57 cm seen from half its radius, in the
    direction at right angles; np.power(., 2) correctly rounded *)
Lemma round_up_to k n x : 2 ^ 52 <= x / 2 ^ k < 2 ^ 53 -> Rabs (x / 2 ^ k - IZR n) < 1 / 2 -> binary64 x = IZR n * 2 ^ k.
Proof.
  intros H N. assert (P : 0 < 2 ^ k) by (apply pow_lt; lra). assert (B : forall j : nat, bpow radix2 (Z.of_nat j) = 2 ^ j) by (intros j; rewrite bpow_powerRZ; symmetry; apply pow_powerRZ).
  assert (X : 0 < x). { apply (Rmult_lt_reg_r (/ 2 ^ k)); [apply Rinv_0_lt_compat; auto|]. assert (0 < 2 ^ 52) by (apply pow_lt; lra). unfold Rdiv in H. lra. }
  assert (M : mag radix2 x = (53 + Z.of_nat k)%Z :> Z).
  { apply mag_unique. rewrite Rabs_pos_eq by lra. replace (53 + Z.of_nat k - 1)%Z with (Z.of_nat 52 + Z.of_nat k)%Z by lia. change 53%Z with (Z.of_nat 53). rewrite !bpow_plus, !B. split; [apply Rle_div_r|apply Rlt_div_l]; lra. }
  assert (C : cexp radix2 (FLT_exp (-1074) 53) x = Z.of_nat k) by (unfold cexp; rewrite M; unfold FLT_exp; lia).
  unfold binary64, round, scaled_mantissa, F2R. cbn [Fnum Fexp]. rewrite C, bpow_opp, B. rewrite (Znearest_imp _ _ n); [reflexivity|]. unfold Rdiv in N. lra.
Qed.
(** halfway cases go to the even neighbour *)
Lemma round_tie k n x : (k <= 1074)%nat -> 2 ^ 52 <= x * 2 ^ k < 2 ^ 53 -> x * 2 ^ k = IZR n - 1 / 2 -> Z.even n = true -> binary64 x = IZR n / 2 ^ k.
Proof.
  intros Hk H N Ev. assert (P : 0 < 2 ^ k) by (apply pow_lt; lra). assert (B : forall j : nat, bpow radix2 (Z.of_nat j) = 2 ^ j) by (intros j; rewrite bpow_powerRZ; symmetry; apply pow_powerRZ).
  assert (Bk : bpow radix2 (- Z.of_nat k) = / 2 ^ k) by (rewrite bpow_opp, B; auto). assert (X : 0 < x). { apply (Rmult_lt_reg_r (2 ^ k)); auto. assert (0 < 2 ^ 52) by (apply pow_lt; lra). lra. }
  assert (M : mag radix2 x = (53 - Z.of_nat k)%Z :> Z).
  { apply mag_unique. rewrite Rabs_pos_eq by lra. replace (53 - Z.of_nat k - 1)%Z with (Z.of_nat 52 + - Z.of_nat k)%Z by lia. change 53%Z with (Z.of_nat 53).
    unfold Z.sub. rewrite !bpow_plus, !Bk, !B. split; [apply Rle_div_l|apply Rlt_div_r]; auto; unfold Rdiv; rewrite ?Rinv_inv; lra. }
  assert (C : cexp radix2 (FLT_exp (-1074) 53) x = (- Z.of_nat k)%Z) by (unfold cexp; rewrite M; unfold FLT_exp; lia).
  unfold binary64, round, scaled_mantissa, F2R. cbn [Fnum Fexp]. rewrite C, Z.opp_involutive, B, Bk, N.
  assert (F : Zfloor (IZR n - 1 / 2) = (n - 1)%Z) by (apply Zfloor_imp; rewrite plus_IZR, minus_IZR; lra). assert (G : Zceil (IZR n - 1 / 2) = n) by (apply Zceil_imp; rewrite minus_IZR; lra).
  unfold Znearest. rewrite F, G, minus_IZR. rewrite Rcompare_Eq by lra. replace (Z.even (n - 1)) with false; [reflexivity|]. rewrite Z.even_sub, Ev. reflexivity.
Qed.
Lemma exact_pow m k : (Z.abs m < 2 ^ 53)%Z -> is_double (IZR m * 2 ^ k).
Proof. intros H. apply double_is. exists m, (Z.of_nat k). repeat split; try lia. rewrite <- pow_powerRZ. reflexivity. Qed.
Theorem C114_number_refuted : exists mu R_re r,
  double mu /\ double R_re /\ double r /\ -1 <= mu <= 1 /\ 10 ^ 17 <= R_re <= 2 * 10 ^ 17 /\ r = R_re / 2 /\
  0 < x_re_shell mu R_re r /\ mu_star_shell mu R_re r = 0 /\
  shell_cosine binary64 (fun v => binary64 (v * v)) mu R_re r = None.
Proof.
  assert (R : forall x k n, (k <= 1074)%nat -> 4503599627370496 <= x * 2 ^ k < 9007199254740992 -> Rabs (x * 2 ^ k - IZR n) < 1 / 2 -> binary64 x = IZR n / 2 ^ k).
  { intros x k n Hk H1 H2. apply round_to; auto. replace (2 ^ 52) with 4503599627370496 by (simpl; lra). replace (2 ^ 53) with 9007199254740992 by (simpl; lra). auto. }
  assert (Pw : forall a b, 2 ^ a * 2 ^ b = 2 ^ (a + b)) by (intros; rewrite pow_add; auto).
  exists (1 / 2), (2 ^ 57), (2 ^ 56). split; [exists 1%Z, (-1)%Z; repeat split; try lia; simpl; lra|]. split; [exists 1%Z, 57%Z; repeat split; try lia; change (powerRZ 2 57) with (2 ^ 57); ring|]. split; [exists 1%Z, 56%Z; repeat split; try lia; change (powerRZ 2 56) with (2 ^ 56); ring|].
  split; [lra|]. split; [simpl; lra|]. split; [simpl; lra|]. assert (XP : 0 < x_re_shell (1 / 2) (2 ^ 57) (2 ^ 56)) by (apply sqrt_lt_R0; simpl; lra). split; auto. split. { rewrite (proj1 (C50_mu_star (1 / 2) (2 ^ 57) (2 ^ 56) ltac:(lra) XP ltac:(simpl; lra))). replace (2 ^ 56 - 2 ^ 57 * (1 / 2)) with 0 by (simpl; lra). unfold Rdiv. ring. }
  assert (Id : forall m k v, v = IZR m * 2 ^ k -> (Z.abs m < 2 ^ 53)%Z -> binary64 v = v) by (intros m k v -> Hm; apply b64_id, exact_pow; auto).
  assert (W : shell_square binary64 (fun v => binary64 (v * v)) (1 / 2) (2 ^ 57) (2 ^ 56) = 3 * 2 ^ 112).
  { unfold shell_square. rewrite !Pw. rewrite (Id 1%Z 114%nat (2 ^ (57 + 57))), (Id 1%Z 112%nat (2 ^ (56 + 56))) by (try lia; simpl; ring).
    rewrite (Id 5%Z 112%nat (2 ^ (57 + 57) + 2 ^ (56 + 56))) by (try lia; simpl; ring). rewrite (Id 1%Z 57%nat (2 * 2 ^ 56)) by (try lia; simpl; ring). rewrite (Id 1%Z 114%nat (2 * 2 ^ 56 * 2 ^ 57)) by (try lia; simpl; ring). rewrite (Id 1%Z 113%nat (2 * 2 ^ 56 * 2 ^ 57 * (1 / 2))) by (try lia; simpl; field).
    rewrite (Id 3%Z 112%nat (2 ^ (57 + 57) + 2 ^ (56 + 56) - 2 * 2 ^ 56 * 2 ^ 57 * (1 / 2))) by (try lia; simpl; field). simpl; field. }
  assert (S3 : sqrt (3 * 2 ^ 112) = 2 ^ 56 * sqrt 3). { rewrite sqrt_mult_alt by lra. rewrite (Rmult_comm (sqrt 3)). f_equal. replace (2 ^ 112) with (2 ^ 56 * 2 ^ 56) by (rewrite Pw; reflexivity). apply sqrt_square, pow_le; lra. }
  assert (Sq : 7800463371553962 - 1 / 2 < sqrt 3 * 2 ^ 52 < 7800463371553962 + 1 / 2).
  { replace (2 ^ 52) with (sqrt (2 ^ 52 * 2 ^ 52)) by (apply sqrt_square, pow_le; lra). rewrite <- sqrt_mult_alt by (simpl; lra). rewrite <- (sqrt_square (7800463371553962 - 1 / 2)) by lra. rewrite <- (sqrt_square (7800463371553962 + 1 / 2)) by lra. split; apply sqrt_lt_1_alt; split; simpl; lra. }
  assert (EX : binary64 (sqrt (3 * 2 ^ 112)) = 7800463371553962 * 2 ^ 4). { assert (Q : sqrt (3 * 2 ^ 112) / 2 ^ 4 = sqrt 3 * 2 ^ 52) by (rewrite S3; simpl; field). apply (round_up_to 4 7800463371553962%Z); rewrite Q. - simpl (2 ^ 53). simpl (2 ^ 52) at 1. lra. - apply Rabs_lt_between. lra. }
  unfold shell_cosine, shell_distance, root. rewrite W. destruct (Rltb_spec (3 * 2 ^ 112) 0) as [F|_]; [exfalso; simpl in F; lra|]. rewrite EX. destruct (Reqb_spec (7800463371553962 * 2 ^ 4) 0) as [F|_]; [exfalso; simpl in F; lra|].
  assert (E1 : binary64 (2 ^ 57 / (7800463371553962 * 2 ^ 4)) = 5200308914369309 / 2 ^ 52) by (apply (R _ 52%nat 5200308914369309%Z); [lia|simpl; lra|apply Rabs_lt_between; simpl; lra]).
  assert (E2 : binary64 (5200308914369309 / 2 ^ 52 * (5200308914369309 / 2 ^ 52)) = 6004799503160663 / 2 ^ 52) by (apply (R _ 52%nat 6004799503160663%Z); [lia|simpl; lra|apply Rabs_lt_between; simpl; lra]).
  assert (E3 : binary64 (1 / 2 * (1 / 2)) = 1 / 4) by (replace (1 / 2 * (1 / 2)) with (4503599627370496 / 2 ^ 54) by (simpl; lra); rewrite (R _ 54%nat 4503599627370496%Z); [simpl; lra|lia|simpl; lra|apply Rabs_lt_between; simpl; lra]).
  assert (E4 : binary64 (1 - 1 / 4) = 3 / 4) by (replace (1 - 1 / 4) with (6755399441055744 / 2 ^ 53) by (simpl; lra); rewrite (R _ 53%nat 6755399441055744%Z); [simpl; lra|lia|simpl; lra|apply Rabs_lt_between; simpl; lra]).
  assert (E5 : binary64 (6004799503160663 / 2 ^ 52 * (3 / 4)) = 4503599627370497 / 2 ^ 52) by (apply (R _ 52%nat 4503599627370497%Z); [lia|simpl; lra|apply Rabs_lt_between; simpl; lra]).
  assert (N : shell_radicand binary64 (fun v => binary64 (v * v)) (1 / 2) (2 ^ 57) (7800463371553962 * 2 ^ 4) < 0).
  { unfold shell_radicand. rewrite E1, E2, E3, E4, E5. replace (1 - 4503599627370497 / 2 ^ 52) with (- (1 / 2 ^ 52)) by (simpl; lra). rewrite b64_id. - simpl. lra. - apply generic_format_opp. apply (pow2_double 1 52); lia. }
  destruct (Rltb_spec (shell_radicand binary64 (fun v => binary64 (v * v)) (1 / 2) (2 ^ 57) (7800463371553962 * 2 ^ 4)) 0); [auto|lra].
Qed.
Print Assumptions C114_number_refuted.

(** ** with the default grid: mu_to_integrate = np.linspace(-1, 1, 100) (math.py L8, points
    i * (2 / 99) - 1) has the point mu = 1/3 up to rounding (i = 66), and a blob at a third of the
    radius of a line of 1e17 cm has it at a right angle: nan *)
Definition default_mu (i : R) : R := binary64 (binary64 (i * binary64 (2 / 99)) - 1).
Theorem C114_default_grid_refuted :
  -1 <= default_mu 66 <= 1 /\ 0 < x_re_shell (default_mu 66) (10 ^ 17) (binary64 (10 ^ 17 / 3)) /\
  shell_cosine binary64 (fun v => binary64 (v * v)) (default_mu 66) (10 ^ 17) (binary64 (10 ^ 17 / 3)) = None.
Proof.
  assert (R : forall x k n, (k <= 1074)%nat -> 4503599627370496 <= x * 2 ^ k < 9007199254740992 -> Rabs (x * 2 ^ k - IZR n) < 1 / 2 -> binary64 x = IZR n / 2 ^ k).
  { intros x k n Hk H1 H2. apply round_to; auto. replace (2 ^ 52) with 4503599627370496 by (simpl; lra). replace (2 ^ 53) with 9007199254740992 by (simpl; lra). auto. }
  assert (U : forall x k n, 4503599627370496 <= x / 2 ^ k < 9007199254740992 -> Rabs (x / 2 ^ k - IZR n) < 1 / 2 -> binary64 x = IZR n * 2 ^ k).
  { intros x k n H1 H2. apply round_up_to; auto. replace (2 ^ 52) with 4503599627370496 by (simpl; lra). replace (2 ^ 53) with 9007199254740992 by (simpl; lra). auto. }
  assert (E1 : binary64 (2 / 99) = (5822835881852763 / 2 ^ 58)) by (apply (R _ 58%nat 5822835881852763%Z); [lia|simpl; lra|apply Rabs_lt_between; simpl; lra]).
  assert (E2 : binary64 (66 * (5822835881852763 / 2 ^ 58)) = (6004799503160662 / 2 ^ 52)) by (apply (R _ 52%nat 6004799503160662%Z); [lia|simpl; lra|apply Rabs_lt_between; simpl; lra]).
  assert (E3 : binary64 ((6004799503160662 / 2 ^ 52) - 1) = (6004799503160664 / 2 ^ 54)) by (apply (R _ 54%nat 6004799503160664%Z); [lia|simpl; lra|apply Rabs_lt_between; simpl; lra]).
  assert (E4 : binary64 (10 ^ 17 / 3) = (8333333333333333 * 2 ^ 2)) by (apply (U _ 2%nat 8333333333333333%Z); [simpl; lra|apply Rabs_lt_between; simpl; lra]).
  assert (E5 : binary64 (10 ^ 17 * 10 ^ 17) = (8673617379884035 * 2 ^ 60)) by (apply (U _ 60%nat 8673617379884035%Z); [simpl; lra|apply Rabs_lt_between; simpl; lra]).
  assert (E6 : binary64 ((8333333333333333 * 2 ^ 2) * (8333333333333333 * 2 ^ 2)) = (7709882115452475 * 2 ^ 57)) by (apply (U _ 57%nat 7709882115452475%Z); [simpl; lra|apply Rabs_lt_between; simpl; lra]).
  assert (E7 : binary64 ((8673617379884035 * 2 ^ 60) + (7709882115452475 * 2 ^ 57)) = (4818676322157797 * 2 ^ 61)) by (apply (U _ 61%nat 4818676322157797%Z); [simpl; lra|apply Rabs_lt_between; simpl; lra]).
  assert (E8 : binary64 (2 * (8333333333333333 * 2 ^ 2)) = (8333333333333333 * 2 ^ 3)) by (apply (U _ 3%nat 8333333333333333%Z); [simpl; lra|apply Rabs_lt_between; simpl; lra]).
  assert (E9 : binary64 ((8333333333333333 * 2 ^ 3) * 10 ^ 17) = (5782411586589357 * 2 ^ 60)) by (apply (U _ 60%nat 5782411586589357%Z); [simpl; lra|apply Rabs_lt_between; simpl; lra]).
  assert (E10 : binary64 ((5782411586589357 * 2 ^ 60) * (6004799503160664 / 2 ^ 54)) = (7709882115452479 * 2 ^ 58)) by (apply (U _ 58%nat 7709882115452479%Z); [simpl; lra|apply Rabs_lt_between; simpl; lra]).
  assert (E11 : binary64 ((4818676322157797 * 2 ^ 61) - (7709882115452479 * 2 ^ 58)) = (7709882115452474 * 2 ^ 60)) by (apply (U _ 60%nat 7709882115452474%Z); [simpl; lra|apply Rabs_lt_between; simpl; lra]).
  assert (Sq : 5892556509887895 - 1 / 2 < sqrt (7709882115452474 * 2 ^ 60) / 2 ^ 4 < 5892556509887895 + 1 / 2). { assert (B : (5892556509887895 - 1 / 2) * 2 ^ 4 < sqrt (7709882115452474 * 2 ^ 60) < (5892556509887895 + 1 / 2) * 2 ^ 4). { rewrite <- (sqrt_square ((5892556509887895 - 1 / 2) * 2 ^ 4)) by (simpl; lra). rewrite <- (sqrt_square ((5892556509887895 + 1 / 2) * 2 ^ 4)) by (simpl; lra). split; apply sqrt_lt_1_alt; split; simpl; lra. } assert (P : 0 < 2 ^ 4) by (apply pow_lt; lra). split; [apply Rlt_div_r|apply Rlt_div_l]; lra. }
  assert (E12 : binary64 (sqrt (7709882115452474 * 2 ^ 60)) = (5892556509887895 * 2 ^ 4)) by (apply (U _ 4%nat 5892556509887895%Z); [lra|apply Rabs_lt_between; lra]).
  assert (E13 : binary64 (10 ^ 17 / (5892556509887895 * 2 ^ 4)) = (4776788754394330 / 2 ^ 52)) by (apply (R _ 52%nat 4776788754394330%Z); [lia|simpl; lra|apply Rabs_lt_between; simpl; lra]).
  assert (E14 : binary64 ((4776788754394330 / 2 ^ 52) * (4776788754394330 / 2 ^ 52)) = (5066549580791809 / 2 ^ 52)) by (apply (R _ 52%nat 5066549580791809%Z); [lia|simpl; lra|apply Rabs_lt_between; simpl; lra]).
  assert (E15 : binary64 ((6004799503160664 / 2 ^ 54) * (6004799503160664 / 2 ^ 54)) = (8006399337547556 / 2 ^ 56)) by (apply (R _ 56%nat 8006399337547556%Z); [lia|simpl; lra|apply Rabs_lt_between; simpl; lra]).
  assert (E16 : binary64 (1 - (8006399337547556 / 2 ^ 56)) = (8006399337547548 / 2 ^ 53)) by (apply (round_tie 53%nat 8006399337547548%Z); [lia|simpl; lra|simpl; lra|reflexivity]).
  assert (E17 : binary64 ((5066549580791809 / 2 ^ 52) * (8006399337547548 / 2 ^ 53)) = (4503599627370497 / 2 ^ 52)) by (apply (R _ 52%nat 4503599627370497%Z); [lia|simpl; lra|apply Rabs_lt_between; simpl; lra]).
  assert (M : default_mu 66 = 6004799503160664 / 2 ^ 54) by (unfold default_mu; rewrite E1, E2, E3; reflexivity).
  rewrite M, E4. split; [simpl; lra|]. split; [apply sqrt_lt_R0; simpl; lra|].
  unfold shell_cosine, shell_distance, root, shell_square. rewrite E5, E6, E7, E8, E9, E10, E11. destruct (Rltb_spec (7709882115452474 * 2 ^ 60) 0) as [F|_]; [exfalso; simpl in F; lra|]. rewrite E12. destruct (Reqb_spec (5892556509887895 * 2 ^ 4) 0) as [F|_]; [exfalso; simpl in F; lra|].
  assert (N : shell_radicand binary64 (fun v => binary64 (v * v)) (6004799503160664 / 2 ^ 54) (10 ^ 17) (5892556509887895 * 2 ^ 4) < 0).
  { unfold shell_radicand. rewrite E13, E14, E15, E16, E17. replace (1 - 4503599627370497 / 2 ^ 52) with (- (1 / 2 ^ 52)) by (simpl; lra). rewrite b64_id. - simpl. lra. - apply generic_format_opp. apply (pow2_double 1 52); lia. }
  destruct (Rltb_spec (shell_radicand binary64 (fun v => binary64 (v * v)) (6004799503160664 / 2 ^ 54) (10 ^ 17) (5892556509887895 * 2 ^ 4)) 0); [auto|lra].
Qed.
Print Assumptions C114_default_grid_refuted.

(** the opacity of the line is then nan as well, at every frequency: for every grid of mu with
    that point, in particular the default one, and every path that starts at (or passes through) the blob *)
Lemma nan_trapz_nan rnd : forall y x, In None y -> length y = length x -> (2 <= length y)%nat -> nan_trapz rnd y x = None.
Proof.
  induction y as [|y0 y IH]; intros x H L N; [inversion H|]. destruct x as [|x0 x]; [discriminate|]. destruct y as [|y1 y]; [simpl in N; lia|]. destruct x as [|x1 x]; [discriminate|].
  change (match y0, y1, nan_trapz rnd (y1 :: y) (x1 :: x) with Some a, Some b, Some t => Some (rnd (rnd (rnd (rnd (x1 - x0) * rnd (b + a)) / 2) + t)) | _, _, _ => None end = None).
  destruct H as [->|[->|H]]; [reflexivity|destruct y0; reflexivity|]. rewrite (IH (x1 :: x)).
  - destruct y0, y1; reflexivity.
  - right. auto.
  - simpl in L |- *. lia.
  - destruct y; [inversion H|simpl; lia].
Qed.
Theorem C114_opacity_refuted : forall rest mu phi l,
  In (default_mu 66) mu -> (2 <= length mu)%nat -> (2 <= length phi)%nat -> In (binary64 (10 ^ 17 / 3)) l -> (2 <= length l)%nat ->
  nan_tau_blr binary64 (fun v => binary64 (v * v)) rest (10 ^ 17) mu phi l = None.
Proof.
  intros rest mu phi l Hm Lm Lp Hl Ll. unfold nan_tau_blr. cbv zeta. apply nan_trapz_nan; rewrite ?map_length; auto. apply in_map_iff. exists (binary64 (10 ^ 17 / 3)). split; auto. destruct phi as [|p phi]; [simpl in Lp; lia|].
  apply nan_trapz_nan; rewrite ?map_length; auto. apply in_map_iff. exists p. split; [|left; auto]. apply nan_trapz_nan; rewrite ?map_length; auto. apply in_map_iff. exists (default_mu 66). split; auto. rewrite (proj2 (proj2 C114_default_grid_refuted)). reflexivity.
Qed.
Print Assumptions C114_opacity_refuted.
(** the default grid of mu, its last point set to the end of the interval as np.linspace does *)
Definition default_grid : list R := map (fun i => default_mu (INR i)) (seq 0 99) ++ (1 :: nil).
Example C114_default_case : forall rest l, In (binary64 (10 ^ 17 / 3)) l -> (2 <= length l)%nat ->
  nan_tau_blr binary64 (fun v => binary64 (v * v)) rest (10 ^ 17) default_grid (0 :: PI :: 2 * PI :: nil) l = None.
Proof.
  intros rest l Hl Ll. apply C114_opacity_refuted; auto; unfold default_grid. - apply in_or_app. left. apply in_map_iff. exists 66%nat. split; [f_equal; rewrite INR_IZR_INZ; reflexivity|apply in_seq; lia]. - rewrite app_length, map_length, seq_length. simpl. lia. - simpl. lia.
Qed.

(** ** the error where the direction is not too close to a right angle *)
Definition accurate_sq (f : R -> R) : Prop := forall v, Rabs v <= 2 ^ 400 -> Rabs (f v - v ^ 2) <= / 2 ^ 52 * v ^ 2 + / 2 ^ 1000.
Lemma sqrt_rel t a b : rel t a (b ^ 2) -> 0 < b -> 0 <= t <= 1 / 100 -> rel (51 / 100 * t) (sqrt a) b.
Proof.
  unfold rel. intros A Hb Ht. assert (B : 0 < b ^ 2) by (apply pow_lt; auto). rewrite (Rabs_right (b ^ 2)) in A by lra. rewrite (Rabs_right b) by lra. pose proof (Rabs_le_inv _ _ A) as A'. assert (t * b ^ 2 <= 1 / 100 * b ^ 2) by (apply Rmult_le_compat_r; lra).
  assert (S : 98 / 100 * b <= sqrt a). { rewrite <- (sqrt_pow2 (98 / 100 * b)) by lra. apply sqrt_le_1_alt. lra. } assert (S2 : sqrt a * sqrt a = a) by (apply sqrt_sqrt; lra).
  assert (E : Rabs (sqrt a - b) * (sqrt a + b) = Rabs (a - b ^ 2)). { rewrite <- (Rabs_right (sqrt a + b)) by lra. rewrite <- Rabs_mult. f_equal. replace ((sqrt a - b) * (sqrt a + b)) with (sqrt a * sqrt a - b ^ 2) by ring. rewrite S2. auto. }
  pose proof (Rabs_pos (sqrt a - b)) as P. assert (L : Rabs (sqrt a - b) * (198 / 100 * b) <= Rabs (sqrt a - b) * (sqrt a + b)) by (apply Rmult_le_compat_l; lra). apply Rmult_le_reg_r with (198 / 100 * b); [lra|]. assert (0 <= t * b ^ 2) by (apply Rmult_le_pos; lra). lra.
Qed.
Section Cosine.
Variable fsq : R -> R.
Hypothesis sq_ok : accurate_sq fsq.
Variable mu R_ r : R.
Hypothesis Hm : -1 <= mu <= 1.
Hypothesis HR : / 2 ^ 100 <= R_ <= 2 ^ 100.
Hypothesis Hr : / 2 ^ 100 <= r <= 2 ^ 100.
Let S := R_ ^ 2 + r ^ 2.
Let T := (R_ + r) ^ 2.
Let x2 := R_ ^ 2 + r ^ 2 - 2 * r * R_ * mu.
Let x := sqrt x2.
Let kap := T / x2.
Hypothesis Hx : 0 < x2.
Hypothesis Hk : kap <= 10 ^ 9.
Let k := u64 * kap.
Let c := (r - mu * R_) / x.
Let W := shell_square binary64 fsq mu R_ r.

Lemma pos100 : 0 < / 2 ^ 100.
Proof. apply Rinv_0_lt_compat, pow_lt; lra. Qed.
Lemma rR_lo : / 2 ^ 200 <= r * R_.
Proof. replace 200%nat with (100 + 100)%nat by lia. apply lo_mult; lra. Qed.
Lemma rR_pos : 0 < r * R_.
Proof. pose proof rR_lo. assert (0 < / 2 ^ 200) by (apply Rinv_0_lt_compat, pow_lt; lra). lra. Qed.
Lemma eta_small : 0 < h0 <= 1 / 10 ^ 6 * (u64 * (r * R_)).
Proof.
  pose proof h0_small as [[a _] _]. split; auto. pose proof rR_lo. assert (A : / 2 ^ 20 * (/ 2 ^ 53 * / 2 ^ 200) <= 1 / 10 ^ 6 * (u64 * (r * R_))). { assert (E53 : / 2 ^ 53 = u64) by (rewrite u64_val, (pow_IZR 2 53); change (Z.of_nat 53) with 53%Z; simpl Z.pow; lra). rewrite E53. pose proof U_pos. assert (0 < / 2 ^ 200) by (apply Rinv_0_lt_compat, pow_lt; lra). apply Rmult_le_compat; [left; apply Rinv_0_lt_compat, pow_lt; lra|apply Rmult_le_pos; lra|simpl; lra|apply Rmult_le_compat_l; lra]. }
  eapply Rle_trans; [|exact A]. unfold h0. rewrite <- !Rinv_mult, <- !pow_add. apply lo_le. lia.
Qed.
Lemma x2_T : x2 <= T /\ 2 * (r * R_) <= S /\ S + 2 * (r * R_) = T.
Proof. pose proof rR_pos as P. assert (- (r * R_) <= r * R_ * mu). { assert (r * R_ * (-1) <= r * R_ * mu) by (apply Rmult_le_compat_l; lra). lra. } unfold x2, T, S. pose proof (pow2_ge_0 (R_ - r)). repeat split; lra. Qed.
Lemma sq_at v : Rabs v <= 2 ^ 400 -> Rabs (fsq v - v ^ 2) <= 2 * u64 * v ^ 2 + h0.
Proof. intros H. pose proof (sq_ok v H) as K. rewrite u2 in K. exact K. Qed.
Lemma in400 v : / 2 ^ 100 <= v <= 2 ^ 100 -> Rabs v <= 2 ^ 400.
Proof. intros H. pose proof pos100. rewrite Rabs_right by lra. apply Rle_trans with (2 ^ 100); [lra|apply Rle_pow; [lra|lia]]. Qed.
Lemma W_err : Rabs (W - x2) <= 42 / 10 * (u64 * T).
Proof.
  pose proof U_pos as U. pose proof pos100 as P1. pose proof rR_pos as P. pose proof eta_small as [e0 e1]. destruct x2_T as (a1 & a2 & a3). assert (uu : u64 * u64 <= 1 / 10 ^ 15 * u64) by (apply Rmult_le_compat_r; lra). set (D := r * R_) in *. assert (uD : 0 < u64 * D) by (apply Rmult_lt_0_compat; lra). assert (S0 : 0 < S) by lra. assert (uS : 2 * (u64 * D) <= u64 * S) by (replace (2 * (u64 * D)) with (u64 * (2 * D)) by ring; apply Rmult_le_compat_l; lra).
  assert (uuS : u64 * (u64 * S) <= 1 / 10 ^ 15 * (u64 * S)) by (apply Rmult_le_compat_r; lra). assert (uuD : u64 * (u64 * D) <= 1 / 10 ^ 15 * (u64 * D)) by (apply Rmult_le_compat_r; lra).
  assert (A : Rabs ((fsq R_ + fsq r) - S) <= 2001 / 1000 * (u64 * S)). { pose proof (sq_at R_ (in400 R_ HR)) as b1. pose proof (sq_at r (in400 r Hr)) as b2. unfold S in *. replace (fsq R_ + fsq r - (R_ ^ 2 + r ^ 2)) with ((fsq R_ - R_ ^ 2) + (fsq r - r ^ 2)) by ring. eapply Rle_trans; [apply Rabs_triang|]. lra. }
  assert (A2 : Rabs (binary64 (fsq R_ + fsq r) - S) <= 301 / 100 * (u64 * S)). { eapply Rle_trans; [apply (fl_up _ _ _ S A)|]. - rewrite Rabs_right; lra. - lra. }
  assert (B1 : rel (101 / 100 * u64) (binary64 (2 * r)) (2 * r)) by (apply fl_rel, (lo_abs _ 100%nat); [lra|lia]). apply (rel_scal _ R_) in B1. rewrite (Rmult_comm R_), (Rmult_comm R_ (2 * r)) in B1. assert (Dlo : / 2 ^ 200 <= 2 * r * R_) by (pose proof rR_lo as K; fold D in K; unfold D in *; lra).
  assert (B2 : rel (203 / 100 * u64) (binary64 (binary64 (2 * r) * R_)) (2 * r * R_)) by (eapply rel_weak; [|exact (rel_trans _ _ _ _ _ (fl_rel _ (rel_lo _ _ _ _ B1 ltac:(lra) Dlo ltac:(lia))) B1 ltac:(lra))]; lra).
  assert (B3 : Rabs (binary64 (binary64 (2 * r) * R_) * mu - 2 * r * R_ * mu) <= 406 / 100 * (u64 * D)). { rewrite <- Rmult_minus_distr_r, Rabs_mult. unfold rel in B2. rewrite (Rabs_right (2 * r * R_)) in B2 by (unfold D in *; lra). assert (Rabs mu <= 1) by (apply Rabs_le; lra). pose proof (Rabs_pos (binary64 (binary64 (2 * r) * R_) - 2 * r * R_)). assert (Rabs (binary64 (binary64 (2 * r) * R_) - 2 * r * R_) * Rabs mu <= Rabs (binary64 (binary64 (2 * r) * R_) - 2 * r * R_) * 1) by (apply Rmult_le_compat_l; auto). unfold D. lra. }
  assert (M2 : Rabs (2 * r * R_ * mu) <= 2 * D). { replace (2 * r * R_ * mu) with (2 * D * mu) by (unfold D; ring). rewrite Rabs_mult, (Rabs_right (2 * D)) by lra. assert (2 * D * Rabs mu <= 2 * D * 1) by (apply Rmult_le_compat_l; [lra|apply Rabs_le; lra]). lra. }
  assert (B4 : Rabs (binary64 (binary64 (binary64 (2 * r) * R_) * mu) - 2 * r * R_ * mu) <= 62 / 10 * (u64 * D)). { eapply Rle_trans; [apply (fl_up _ _ _ _ B3 M2)|]. lra. }
  assert (uT : u64 * T = u64 * S + 2 * (u64 * D)) by (rewrite <- a3; ring).
  assert (C : Rabs ((binary64 (fsq R_ + fsq r) - binary64 (binary64 (binary64 (2 * r) * R_) * mu)) - x2) <= 31 / 10 * (u64 * T)). { replace ((binary64 (fsq R_ + fsq r) - binary64 (binary64 (binary64 (2 * r) * R_) * mu)) - x2) with ((binary64 (fsq R_ + fsq r) - S) - (binary64 (binary64 (binary64 (2 * r) * R_) * mu) - 2 * r * R_ * mu)) by (unfold x2, S; ring). eapply Rle_trans; [apply (Rabs_triang _ (- _))|]. rewrite Rabs_Ropp, uT. lra. }
  unfold W, shell_square. eapply Rle_trans; [apply (fl_up _ _ _ T C)|]. - rewrite Rabs_right; lra. - assert (u64 * (u64 * T) <= 1 / 10 ^ 15 * (u64 * T)) by (apply Rmult_le_compat_r; lra). lra.
Qed.
Lemma kap_ge : 1 <= kap.
Proof. destruct x2_T as [a _]. unfold kap. apply Rle_div_r; lra. Qed.
Lemma T_eq : T = kap * x2.
Proof. unfold kap. field. lra. Qed.
Lemma k_range : u64 <= k <= 2 / 10 ^ 7.
Proof. pose proof kap_ge. pose proof U_pos. unfold k. split. - assert (u64 * 1 <= u64 * kap) by (apply Rmult_le_compat_l; lra). lra. - apply Rle_trans with (u64 * 10 ^ 9); [apply Rmult_le_compat_l; lra|rewrite u64_val; lra]. Qed.
Lemma x_pos : 0 < x.
Proof. apply sqrt_lt_R0. auto. Qed.
Lemma x_sq : x ^ 2 = x2.
Proof. unfold x. rewrite <- Rsqr_pow2. apply Rsqr_sqrt. lra. Qed.
Lemma W_rel : rel (42 / 10 * k) W (x ^ 2).
Proof. unfold rel. rewrite x_sq, (Rabs_right x2) by lra. eapply Rle_trans; [apply W_err|]. rewrite T_eq. unfold k. apply Req_le. ring. Qed.
Lemma x_range : / 2 ^ 115 <= x <= 2 ^ 101.
Proof.
  pose proof x_pos as X. destruct x2_T as (a1 & _ & a3). pose proof T_eq as E. pose proof rR_lo as L. split.
  - apply Rnot_lt_le. intros F. assert (Q : x * x < / 2 ^ 115 * / 2 ^ 115) by (apply Rmult_gt_0_lt_compat; try lra; apply Rlt_gt, Rinv_0_lt_compat, pow_lt; lra). rewrite <- Rinv_mult, <- pow_add in Q. assert (x2lo : / 2 ^ 230 <= x2). { assert (kap * x2 <= 10 ^ 9 * x2) by (apply Rmult_le_compat_r; lra). assert (S0 : 0 <= S) by (unfold S; pose proof (pow2_ge_0 R_); pose proof (pow2_ge_0 r); lra). assert (/ 2 ^ 200 <= 10 ^ 9 * x2) by lra. replace 230%nat with (200 + 30)%nat by lia. rewrite pow_add, Rinv_mult. apply Rmult_le_reg_l with (10 ^ 9); [lra|]. eapply Rle_trans; [|exact H0]. assert (0 < / 2 ^ 200) by (apply Rinv_0_lt_compat, pow_lt; lra). assert (10 ^ 9 * / 2 ^ 30 <= 1) by (simpl; lra). assert (/ 2 ^ 200 * (10 ^ 9 * / 2 ^ 30) <= / 2 ^ 200 * 1) by (apply Rmult_le_compat_l; lra). lra. }
    rewrite <- x_sq in x2lo. replace (x ^ 2) with (x * x) in x2lo by ring. replace (115 + 115)%nat with 230%nat in Q by lia. lra.
  - unfold x. rewrite <- (sqrt_pow2 (2 ^ 101)) by (apply pow_le; lra). apply sqrt_le_1_alt. eapply Rle_trans; [exact a1|]. unfold T. apply pow_incr. pose proof pos100. split; [lra|]. replace (2 ^ 101) with (2 ^ 100 + 2 ^ 100) by (replace 101%nat with (1 + 100)%nat by lia; rewrite pow_add; ring). lra.
Qed.
Lemma X_rel : rel (32 / 10 * k) (binary64 (sqrt W)) x /\ 0 <= W.
Proof.
  pose proof k_range as K. pose proof U_pos as U. pose proof x_pos. pose proof W_rel as A. split. - pose proof (sqrt_rel _ _ _ A x_pos ltac:(lra)) as B. assert (uk : u64 * k <= 1 / 10 ^ 15 * k) by (apply Rmult_le_compat_r; lra). eapply rel_weak; [|exact (rel_trans _ _ _ _ _ (fl_rel _ (rel_lo _ _ _ _ B ltac:(lra) (proj1 x_range) ltac:(lia))) B ltac:(lra))]. lra.
  - unfold rel in A. rewrite x_sq, (Rabs_right x2) in A by lra. apply Rabs_le_inv in A. assert (42 / 10 * k * x2 <= 1 * x2) by (apply Rmult_le_compat_r; lra). lra.
Qed.
Let X := binary64 (sqrt W).
Lemma Xp : 0 < X.
Proof. destruct X_rel as [A _]. pose proof k_range. pose proof x_pos. fold X in A. unfold rel in A. rewrite (Rabs_right x) in A by lra. apply Rabs_le_inv in A. assert (32 / 10 * k * x <= 1 / 2 * x) by (apply Rmult_le_compat_r; lra). lra. Qed.
Lemma Q0_range : (R_ / x) ^ 2 <= kap /\ / 2 ^ 201 <= R_ / x <= 10 ^ 5.
Proof.
  pose proof x_pos as P. pose proof pos100. pose proof rR_pos. assert (A : (R_ / x) ^ 2 <= kap). { unfold Rdiv. rewrite Rpow_mult_distr, pow_inv, x_sq. unfold kap, Rdiv. apply Rmult_le_compat_r; [left; apply Rinv_0_lt_compat; auto|]. unfold T. apply pow_incr. lra. }
  split; auto. split. - unfold Rdiv. replace 201%nat with (100 + 101)%nat by lia. apply lo_mult; [lra|]. apply Rinv_le_contravar; [auto|apply x_range]. - apply Rnot_lt_le. intros F. assert (10 ^ 5 * 10 ^ 5 < R_ / x * (R_ / x)) by (apply Rmult_gt_0_lt_compat; lra). replace ((R_ / x) ^ 2) with (R_ / x * (R_ / x)) in A by ring. lra.
Qed.
Let Y := binary64 (R_ / X).
Lemma Y_rel : rel (43 / 10 * k) Y (R_ / x).
Proof.
  pose proof k_range as K. pose proof U_pos as U. pose proof x_pos. destruct X_rel as [A _]. fold X in A. pose proof (rel_inv _ _ _ A ltac:(lra) ltac:(lra)) as I. apply (rel_scal _ R_) in I. fold (Rdiv R_ X) in I. fold (Rdiv R_ x) in I. assert (uk : u64 * k <= 1 / 10 ^ 15 * k) by (apply Rmult_le_compat_r; lra).
  eapply rel_weak; [|exact (rel_trans _ _ _ _ _ (fl_rel _ (rel_lo _ _ _ _ I ltac:(lra) (proj1 (proj2 Q0_range)) ltac:(lia))) I ltac:(lra))]. lra.
Qed.
Lemma Q_rel : rel (11 * k) (fsq Y) ((R_ / x) ^ 2).
Proof.
  pose proof k_range as K. pose proof U_pos as U. destruct Q0_range as (_ & q1 & q2). pose proof Y_rel as A. set (y := R_ / x) in *. assert (P201 : 0 < / 2 ^ 201) by (apply Rinv_0_lt_compat, pow_lt; lra). assert (A' := A). unfold rel in A'. rewrite (Rabs_right y) in A' by lra. apply Rabs_le_inv in A'. assert (43 / 10 * k * y <= 1 / 2 * y) by (apply Rmult_le_compat_r; lra).
  assert (kk : k * k <= 2 / 10 ^ 7 * k) by (apply Rmult_le_compat_r; lra). pose proof (rel_mul _ _ _ _ _ _ A A ltac:(lra)) as M. replace (Y * Y) with (Y ^ 2) in M by ring. replace (y * y) with (y ^ 2) in M by ring. assert (M2 : rel (87 / 10 * k) (Y ^ 2) (y ^ 2)) by (eapply rel_weak; [|exact M]; lra).
  assert (Sq : rel (21 / 10 * u64) (fsq Y) (Y ^ 2)). { unfold rel. rewrite (Rabs_right (Y ^ 2)) by (apply Rle_ge, pow2_ge_0). eapply Rle_trans; [apply sq_at|]. - rewrite Rabs_right by lra. apply Rle_trans with (2 ^ 20); [simpl; lra|apply Rle_pow; [lra|lia]].
    - assert (Ylo : / 2 ^ 202 <= Y). { replace 202%nat with (201 + 1)%nat by lia. rewrite pow_add, pow_1, Rinv_mult. lra. } assert (YY : / 2 ^ 404 <= Y ^ 2) by (replace (Y ^ 2) with (Y * Y) by ring; replace 404%nat with (202 + 202)%nat by lia; apply lo_mult; auto). assert (E53 : / 2 ^ 53 = u64) by (rewrite u64_val, (pow_IZR 2 53); change (Z.of_nat 53) with 53%Z; simpl Z.pow; lra).
      assert (B : / 2 ^ 4 * (/ 2 ^ 53 * / 2 ^ 404) <= 1 / 10 * (u64 * Y ^ 2)). { rewrite E53. assert (0 < / 2 ^ 404) by (apply Rinv_0_lt_compat, pow_lt; lra). apply Rmult_le_compat; [left; apply Rinv_0_lt_compat, pow_lt; lra|apply Rmult_le_pos; lra|simpl; lra|apply Rmult_le_compat_l; lra]. }
      assert (h0 <= / 2 ^ 4 * (/ 2 ^ 53 * / 2 ^ 404)). { unfold h0. rewrite <- !Rinv_mult, <- !pow_add. apply lo_le. lia. } lra. }
  assert (uk : u64 * k <= 1 / 10 ^ 15 * k) by (apply Rmult_le_compat_r; lra). eapply rel_weak; [|exact (rel_trans _ _ _ _ _ Sq M2 ltac:(lra))]. lra.
Qed.
Lemma c_sq : (R_ / x) ^ 2 * (1 - mu ^ 2) = 1 - c ^ 2.
Proof. pose proof x_pos. apply Rmult_eq_reg_r with (x ^ 2); [|apply pow_nonzero; lra]. replace ((R_ / x) ^ 2 * (1 - mu ^ 2) * x ^ 2) with (R_ ^ 2 * (1 - mu ^ 2)) by (field; lra). replace ((1 - c ^ 2) * x ^ 2) with (x ^ 2 - (r - mu * R_) ^ 2) by (unfold c; field; lra). rewrite x_sq. unfold x2. ring. Qed.
Let rad := shell_radicand binary64 fsq mu R_ X.
Lemma rad_err : Rabs (rad - c ^ 2) <= 164 / 10 * k.
Proof.
  pose proof k_range as K. pose proof U_pos as U. pose proof h0_small as [[e0 e1] _]. destruct Q0_range as (q0 & _ & _). pose proof c_sq as C. pose proof Q_rel as A. pose proof (pow2_ge_0 c) as c0. pose proof (pow2_ge_0 (R_ / x)) as qp. pose proof (pow2_ge_0 mu) as m0. assert (m1 : mu ^ 2 <= 1) by nra.
  assert (M : Rabs (binary64 (1 - fsq mu) - (1 - mu ^ 2)) <= 31 / 10 * u64). { assert (B : Rabs ((1 - fsq mu) - (1 - mu ^ 2)) <= 201 / 100 * u64). { replace ((1 - fsq mu) - (1 - mu ^ 2)) with (- (fsq mu - mu ^ 2)) by ring. rewrite Rabs_Ropp. eapply Rle_trans; [apply sq_at|]. - apply Rle_trans with 1; [apply Rabs_le; lra|apply Rle_trans with (2 ^ 0); [simpl; lra|apply Rle_pow; [lra|lia]]]. - assert (u64 * mu ^ 2 <= u64 * 1) by (apply Rmult_le_compat_l; lra). lra. }
    eapply Rle_trans; [apply (fl_up _ _ _ 1 B)|]. - apply Rabs_le. lra. - assert (u64 * u64 <= 1 / 10 ^ 15 * u64) by (apply Rmult_le_compat_r; lra). lra. }
  set (Q0 := (R_ / x) ^ 2) in *. set (m := binary64 (1 - fsq mu)) in *. set (Q := fsq Y) in *. assert (QU : Q0 * u64 <= k) by (unfold k; rewrite (Rmult_comm u64); apply Rmult_le_compat_r; lra).
  assert (P : Rabs (Q * m - (1 - c ^ 2)) <= 142 / 10 * k).
  { rewrite <- C. replace (Q * m - Q0 * (1 - mu ^ 2)) with ((Q - Q0) * m + Q0 * (m - (1 - mu ^ 2))) by ring. eapply Rle_trans; [apply Rabs_triang|]. rewrite !Rabs_mult, (Rabs_right Q0) by lra. unfold rel in A. rewrite (Rabs_right Q0) in A by lra. assert (mm : Rabs m <= (1 - mu ^ 2) + 31 / 10 * u64) by (apply Rabs_le; apply Rabs_le_inv in M; lra).
    assert (E1 : Rabs (Q - Q0) * Rabs m <= 11 * k * Q0 * ((1 - mu ^ 2) + 31 / 10 * u64)) by (apply Rmult_le_compat; try apply Rabs_pos; auto). assert (E2 : Q0 * Rabs (m - (1 - mu ^ 2)) <= Q0 * (31 / 10 * u64)) by (apply Rmult_le_compat_l; lra).
    replace (11 * k * Q0 * ((1 - mu ^ 2) + 31 / 10 * u64)) with (11 * k * (Q0 * (1 - mu ^ 2) + 31 / 10 * (Q0 * u64))) in E1 by ring. rewrite C in E1. assert (11 * k * (1 - c ^ 2 + 31 / 10 * (Q0 * u64)) <= 11 * k * (1 + 1 / 10 ^ 5)) by (apply Rmult_le_compat_l; lra). lra. }
  assert (c1 : c ^ 2 <= 1). { assert (0 <= Q0 * (1 - mu ^ 2)) by (apply Rmult_le_pos; lra). lra. } assert (uk : u64 * k <= 1 / 10 ^ 15 * k) by (apply Rmult_le_compat_r; lra).
  assert (P2 : Rabs (binary64 (Q * m) - (1 - c ^ 2)) <= 153 / 10 * k). { eapply Rle_trans; [apply (fl_up _ _ _ 1 P)|]. - apply Rabs_le. lra. - lra. }
  assert (P3 : Rabs ((1 - binary64 (Q * m)) - c ^ 2) <= 153 / 10 * k). { replace ((1 - binary64 (Q * m)) - c ^ 2) with (- (binary64 (Q * m) - (1 - c ^ 2))) by ring. rewrite Rabs_Ropp. auto. }
  unfold rad, shell_radicand. fold Y. fold Q. fold m. eapply Rle_trans; [apply (fl_up _ _ _ 1 P3)|]. - apply Rabs_le. lra. - lra.
Qed.
Lemma sign_ok : 20 * k <= c ^ 2 -> (binary64 (mu * R_) < r <-> 0 < c).
Proof.
  intros Hc. pose proof U_pos as U. pose proof pos100 as P1. pose proof x_pos as X0. pose proof eta_small as [e0 e1]. set (w := r - mu * R_). assert (cw : c * x = w) by (unfold c, w; field; lra).
  assert (W2 : 20 * u64 * R_ ^ 2 <= w ^ 2). { rewrite <- cw, Rpow_mult_distr, x_sq. assert (20 * k * x2 <= c ^ 2 * x2) by (apply Rmult_le_compat_r; lra). assert (E : k * x2 = u64 * T) by (unfold k; rewrite T_eq; ring). assert (R_ ^ 2 <= T). { unfold T. apply pow_incr. lra. } assert (u64 * R_ ^ 2 <= u64 * T) by (apply Rmult_le_compat_l; lra). lra. }
  assert (big : 2 * u64 * R_ < Rabs w). { apply Rnot_le_lt. intros F. assert (Rabs w * Rabs w <= 2 * u64 * R_ * (2 * u64 * R_)) by (apply Rmult_le_compat; try apply Rabs_pos; auto). assert (Rabs w * Rabs w = w ^ 2) by (rewrite <- Rabs_mult, Rabs_right; [ring|]; apply Rle_ge; replace (w * w) with (w ^ 2) by ring; apply pow2_ge_0). assert (0 < u64 * R_ ^ 2) by (apply Rmult_lt_0_compat; [lra|apply pow_lt; lra]). assert (u64 * (u64 * R_ ^ 2) <= 1 / 10 ^ 15 * (u64 * R_ ^ 2)) by (apply Rmult_le_compat_r; lra). lra. }
  assert (F : Rabs (binary64 (mu * R_) - mu * R_) <= 3 / 2 * u64 * R_). { pose proof (fl_err (mu * R_)) as K. assert (Rabs (mu * R_) <= R_). { rewrite Rabs_mult, (Rabs_right R_) by lra. assert (Rabs mu * R_ <= 1 * R_) by (apply Rmult_le_compat_r; [lra|apply Rabs_le; lra]). lra. } assert (u64 * Rabs (mu * R_) <= u64 * R_) by (apply Rmult_le_compat_l; lra).
    assert (h0 <= 1 / 2 * (u64 * R_)). { eapply Rle_trans with (/ 2 ^ 1 * (/ 2 ^ 53 * / 2 ^ 100)); [unfold h0; rewrite <- !Rinv_mult, <- !pow_add; apply lo_le; lia|]. assert (E53 : / 2 ^ 53 = u64) by (rewrite u64_val, (pow_IZR 2 53); change (Z.of_nat 53) with 53%Z; simpl Z.pow; lra). rewrite E53. apply Rmult_le_compat; [simpl; lra|apply Rmult_le_pos; lra|simpl; lra|apply Rmult_le_compat_l; lra]. } lra. }
  apply Rabs_le_inv in F. assert (uR : 0 < u64 * R_) by (apply Rmult_lt_0_compat; lra). split.
  - intros L. destruct (Rle_dec w 0) as [N|N]. + rewrite Rabs_left1 in big by auto. unfold w in *. lra. + unfold c. fold w. apply Rdiv_lt_0_compat; lra.
  - intros L. assert (0 < w) by (rewrite <- cw; apply Rmult_lt_0_compat; auto). rewrite Rabs_right in big by lra. unfold w in *. lra.
Qed.
Lemma cosine_err : 20 * k <= c ^ 2 -> exists m, shell_cosine binary64 fsq mu R_ r = Some m /\ Rabs (m ^ 2 - c ^ 2) <= 20 * k /\ 0 < m * c /\ Rabs (m - c) <= 20 * k / Rabs c.
Proof.
  intros Hc. pose proof k_range as K. pose proof U_pos as U. pose proof rad_err as E. pose proof E as E'. apply Rabs_le_inv in E'. destruct X_rel as [_ W0]. pose proof Xp as X0. pose proof (pow2_ge_0 mu). assert (m1 : mu ^ 2 <= 1) by nra.
  assert (c1 : c ^ 2 <= 1). { pose proof c_sq. pose proof (pow2_ge_0 (R_ / x)). assert (0 <= (R_ / x) ^ 2 * (1 - mu ^ 2)) by (apply Rmult_le_pos; lra). lra. }
  assert (r0 : 36 / 10 * u64 <= rad) by lra. set (s := sqrt rad). assert (s2 : s * s = rad) by (apply sqrt_sqrt; lra). assert (s0 : 0 < s) by (apply sqrt_lt_R0; lra).
  assert (slo : / 2 ^ 60 <= s). { apply Rnot_lt_le. intros F. assert (s * s < / 2 ^ 60 * / 2 ^ 60) by (apply Rmult_gt_0_lt_compat; try lra; apply Rlt_gt, Rinv_0_lt_compat, pow_lt; lra). rewrite u64_val in r0. assert (/ 2 ^ 60 * / 2 ^ 60 <= / 9007199254740992) by (simpl; lra). lra. }
  assert (Z : rel (101 / 100 * u64) (binary64 s) s) by (apply fl_rel, (lo_abs _ 60%nat); [auto|lia]). pose proof (rel_mul _ _ _ _ _ _ Z Z ltac:(lra)) as Z2. rewrite s2 in Z2. set (z := binary64 s) in *. assert (z0 : 0 < z). { unfold rel in Z. rewrite (Rabs_right s) in Z by lra. apply Rabs_le_inv in Z. assert (101 / 100 * u64 * s <= 1 / 2 * s) by (apply Rmult_le_compat_r; lra). lra. }
  assert (Z3 : Rabs (z ^ 2 - c ^ 2) <= 20 * k). { unfold rel in Z2. rewrite (Rabs_right rad) in Z2 by lra. replace (z * z) with (z ^ 2) in Z2 by ring. assert (uu : u64 * u64 <= 1 / 10 ^ 15 * u64) by (apply Rmult_le_compat_r; lra). assert (A : (101 / 100 * u64 + 101 / 100 * u64 + 101 / 100 * u64 * (101 / 100 * u64)) * rad <= 203 / 100 * u64 * (1001 / 1000)) by (apply Rmult_le_compat; nra). replace (z ^ 2 - c ^ 2) with ((z ^ 2 - rad) + (rad - c ^ 2)) by ring. eapply Rle_trans; [apply Rabs_triang|]. lra. }
  assert (cn : 0 < Rabs c). { apply Rabs_pos_lt. intros F. rewrite F in Hc. lra. }
  assert (fin : forall m, m ^ 2 = z ^ 2 -> 0 < m * c -> Rabs (m ^ 2 - c ^ 2) <= 20 * k /\ 0 < m * c /\ Rabs (m - c) <= 20 * k / Rabs c).
  { intros m Q P. rewrite <- Q in Z3. split; auto. split; auto. apply Rle_div_r; auto. eapply Rle_trans; [|exact Z3]. replace (m ^ 2 - c ^ 2) with ((m - c) * (m + c)) by ring. rewrite Rabs_mult. apply Rmult_le_compat_l; [apply Rabs_pos|]. destruct (Rle_dec 0 c) as [Q1|Q1]. - assert (0 <= m) by (apply Rnot_lt_le; intros F; assert (0 <= - m * c) by (apply Rmult_le_pos; lra); lra). rewrite !Rabs_right; lra. - assert (m <= 0) by (apply Rnot_lt_le; intros F; assert (0 <= m * - c) by (apply Rmult_le_pos; lra); lra). rewrite !Rabs_left1; lra. }
  unfold shell_cosine, shell_distance, root. fold W. destruct (Rltb_spec W 0); [lra|]. fold X. destruct (Reqb_spec X 0); [lra|]. fold rad. destruct (Rltb_spec rad 0); [lra|]. fold s. fold z. pose proof (sign_ok Hc) as Sg. assert (Dz : is_double z) by apply b64_double. destruct (Rltb_spec (binary64 (mu * R_)) r) as [L|L].
  - exists z. rewrite Rmult_1_r, (b64_id z Dz). split; auto. apply fin; auto. apply Rmult_lt_0_compat; auto. apply Sg. auto.
  - exists (- z). replace (z * - (1)) with (- z) by ring. rewrite b64_id by (apply generic_format_opp; auto). split; auto. apply fin; [ring|]. destruct (Rlt_dec 0 c) as [F|F]; [apply Sg in F; lra|]. assert (c < 0). { destruct (Rlt_dec c 0); auto. assert (c = 0) by lra. rewrite H0, Rabs_R0 in cn. lra. } assert (0 < z * - c) by (apply Rmult_lt_0_compat; lra). lra.
Qed.
End Cosine.

(** the distance: relative error at most 3.2 (R + r)^2/d^2 roundings *)
Theorem C114_distance : forall fsq, accurate_sq fsq -> forall mu R_re r,
  -1 <= mu <= 1 -> / 2 ^ 100 <= R_re <= 2 ^ 100 -> / 2 ^ 100 <= r <= 2 ^ 100 ->
  let d := sqrt (R_re ^ 2 + r ^ 2 - 2 * r * R_re * mu) in
  0 < d -> (R_re + r) ^ 2 / d ^ 2 <= 10 ^ 9 ->
  exists x, shell_distance binary64 fsq mu R_re r = Some x /\ Rabs (x - d) <= 32 / 10 * / 2 ^ 53 * ((R_re + r) ^ 2 / d ^ 2) * d.
Proof.
  intros fsq Hf mu R_ r Hm HR Hr d Hd Hk. assert (E53 : / 2 ^ 53 = u64) by (rewrite u64_val, (pow_IZR 2 53); change (Z.of_nat 53) with 53%Z; simpl Z.pow; lra). assert (X2 : 0 < R_ ^ 2 + r ^ 2 - 2 * r * R_ * mu). { apply Rnot_le_lt. intros F. unfold d in Hd. rewrite sqrt_neg_0 in Hd by auto. lra. }
  assert (D2 : d ^ 2 = R_ ^ 2 + r ^ 2 - 2 * r * R_ * mu) by (unfold d; rewrite <- Rsqr_pow2; apply Rsqr_sqrt; lra). rewrite D2 in *. destruct (X_rel fsq Hf mu R_ r Hm HR Hr X2 Hk) as [A W0]. fold d in A. unfold shell_distance, root. destruct (Rltb_spec (shell_square binary64 fsq mu R_ r) 0); [lra|]. eexists. split; [reflexivity|]. unfold rel in A. rewrite (Rabs_right d) in A by lra. rewrite E53. lra.
Qed.
Print Assumptions C114_distance.
(** the cosine.  Missing from the full statement: directions closer to a right angle than
    c^2 = 20 * 2^-53 (R + r)^2/d^2, where C114_number_refuted shows that the result may be nan *)
Theorem C114_accuracy_partial : forall fsq, accurate_sq fsq -> forall mu R_re r,
  -1 <= mu <= 1 -> / 2 ^ 100 <= R_re <= 2 ^ 100 -> / 2 ^ 100 <= r <= 2 ^ 100 ->
  let d := sqrt (R_re ^ 2 + r ^ 2 - 2 * r * R_re * mu) in
  let c := (r - mu * R_re) / d in
  let e := 20 * / 2 ^ 53 * ((R_re + r) ^ 2 / d ^ 2) in
  0 < d -> (R_re + r) ^ 2 / d ^ 2 <= 10 ^ 9 -> e <= c ^ 2 ->
  exists m, shell_cosine binary64 fsq mu R_re r = Some m /\ 0 < m * c /\ Rabs (m ^ 2 - c ^ 2) <= e /\ Rabs (m - c) <= e / Rabs c.
Proof.
  intros fsq Hf mu R_ r Hm HR Hr d c e Hd Hk Hc. assert (E53 : / 2 ^ 53 = u64) by (rewrite u64_val, (pow_IZR 2 53); change (Z.of_nat 53) with 53%Z; simpl Z.pow; lra). assert (X2 : 0 < R_ ^ 2 + r ^ 2 - 2 * r * R_ * mu). { apply Rnot_le_lt. intros F. unfold d in Hd. rewrite sqrt_neg_0 in Hd by auto. lra. }
  assert (D2 : d ^ 2 = R_ ^ 2 + r ^ 2 - 2 * r * R_ * mu) by (unfold d; rewrite <- Rsqr_pow2; apply Rsqr_sqrt; lra). assert (Ee : e = 20 * (u64 * ((R_ + r) ^ 2 / (R_ ^ 2 + r ^ 2 - 2 * r * R_ * mu)))) by (unfold e; rewrite E53, D2; ring). rewrite D2 in Hk. rewrite Ee in *. clear Ee e.
  destruct (cosine_err fsq Hf mu R_ r Hm HR Hr X2 Hk Hc) as (m & M1 & M2 & M3 & M4). exists m. split; auto.
Qed.
Print Assumptions C114_accuracy_partial.

(** a shell of 1e17 cm seen from 3e17 cm, in the direction mu = 0: c = 3/sqrt 10 *)
Example C114_case : let sq := fun v => v ^ 2 in
  exists m, shell_cosine binary64 sq 0 (10 ^ 17) (3 * 10 ^ 17) = Some m /\ Rabs (m ^ 2 - 9 / 10) <= 4 / 10 ^ 15 /\ 0 < m.
Proof.
  intros sq. assert (Hf : accurate_sq sq). { intros v Hv. unfold sq, Rminus. rewrite Rplus_opp_r, Rabs_R0. pose proof (pow2_ge_0 v). assert (0 < / 2 ^ 1000) by (apply Rinv_0_lt_compat, pow_lt; lra). assert (0 <= / 2 ^ 52 * v ^ 2) by (apply Rmult_le_pos; [left; apply Rinv_0_lt_compat, pow_lt; lra|auto]). lra. }
  assert (B : forall v, 1 <= v <= 2 ^ 60 -> / 2 ^ 100 <= v <= 2 ^ 100). { intros v Hv. split; [apply Rle_trans with (/ 2 ^ 0); [apply lo_le; lia|simpl; lra]|apply Rle_trans with (2 ^ 60); [lra|apply Rle_pow; [lra|lia]]]. }
  assert (B1 : 1 <= 10 ^ 17 <= 2 ^ 60) by (simpl; lra). assert (B2 : 1 <= 3 * 10 ^ 17 <= 2 ^ 60) by (simpl; lra).
  set (q := (10 ^ 17) ^ 2 + (3 * 10 ^ 17) ^ 2 - 2 * (3 * 10 ^ 17) * 10 ^ 17 * 0). assert (Q : q = 10 * (10 ^ 17) ^ 2) by (unfold q; ring). assert (q0 : 0 < q) by (rewrite Q; simpl; lra). assert (D : sqrt q ^ 2 = q) by (rewrite <- Rsqr_pow2; apply Rsqr_sqrt; lra). assert (D0 : 0 < sqrt q) by (apply sqrt_lt_R0; auto).
  assert (K : (10 ^ 17 + 3 * 10 ^ 17) ^ 2 / sqrt q ^ 2 = 16 / 10) by (rewrite D, Q; simpl; field). assert (C : ((3 * 10 ^ 17 - 0 * 10 ^ 17) / sqrt q) ^ 2 = 9 / 10). { unfold Rdiv at 1. rewrite Rpow_mult_distr, pow_inv, D, Q. simpl; field. }
  destruct (C114_accuracy_partial sq Hf 0 (10 ^ 17) (3 * 10 ^ 17) ltac:(lra) (B (10 ^ 17) B1) (B (3 * 10 ^ 17) B2)) as (m & M1 & M2 & M3 & _); fold q.
  - auto.
  - rewrite K. lra.
  - rewrite K, C. assert (/ 2 ^ 53 <= 1 / 1000) by (apply Rle_trans with (/ 2 ^ 10); [apply lo_le; lia|simpl; lra]). lra.
  - fold q in M2, M3. rewrite K, C in M3. exists m. split; auto. split; [eapply Rle_trans; [exact M3|]; simpl; lra|]. assert (0 < (3 * 10 ^ 17 - 0 * 10 ^ 17) / sqrt q) by (apply Rdiv_lt_0_compat; [simpl; lra|auto]). apply Rnot_le_lt. intros F. assert (0 <= - m * ((3 * 10 ^ 17 - 0 * 10 ^ 17) / sqrt q)) by (apply Rmult_le_pos; lra). lra.
Qed.
