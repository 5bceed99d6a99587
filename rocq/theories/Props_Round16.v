(** C122: the temperature of the disk in double precision *)
From Coquelicot Require Import Coquelicot.
From Flocq Require Import Core.
From Verif Require Import Base TEUtils NumpyInst MathUtils Conversion Blob Targets Clock ClockFacts Rounding RoundFacts Spec_Round Props_Round Props_Round2 Props_Round3 Props_Round4 Props_Round5 Props_Round6 Props_Round13 RoundGrid RoundTemp.
Import ListNotations.
Open Scope list_scope.
Open Scope R_scope.
#[local] Existing Instance prec53.

Theorem C122_model : (forall a b n, disk_radii (fun v => v) a b n = linspace a b n) /\
  forall P r M m_dot R_in, 0 < c_G P -> 0 < c_sigmaSB P -> 0 < M -> 0 < m_dot -> 0 < R_in <= r ->
    disk_temp (fun v => v) (fun v => v ^ 3) (fun v => if Reqb v 0 then 0 else Rpower v (1 / 4)) (c_G P) (c_sigmaSB P) r M m_dot R_in = Some (evaluate_T P r M m_dot R_in).
Proof.
  split.
  - intros a b n. unfold disk_radii, linspace. apply map_ext_in. intros i Hi. apply in_seq in Hi. unfold grid_exponent. destruct (Nat.eqb_spec (S i) n) as [E|E]; cbn [andb]; cbv beta iota; [|ring]. destruct (Nat.ltb_spec 1 n) as [L|L]; [|ring]. replace (n - 1)%nat with i by lia. assert (INR i <> 0) by (apply not_0_INR; lia). field. auto.
  - intros P r M m_dot a HG HS HM Hm Ha. unfold disk_temp, edge_factor, temp_denominator, evaluate_T, npow. cbv zeta. pose proof PI_RGT_0 as PI0. assert (R3 : 0 < r ^ 3) by (apply pow_lt; lra). assert (D : 0 < 8 * PI * r ^ 3 * c_sigmaSB P) by (apply Rmult_lt_0_compat; [apply Rmult_lt_0_compat; lra|lra]). set (den := 8 * PI * r ^ 3 * c_sigmaSB P) in *.
    assert (Q : 0 <= 1 - sqrt (a / r)). { assert (sqrt (a / r) <= 1); [|lra]. rewrite <- sqrt_1. apply sqrt_le_1_alt. apply Rmult_le_reg_r with r; [lra|]. unfold Rdiv. rewrite Rmult_assoc, Rinv_l; lra. }
    set (val := 3 * c_G P * M * m_dot * (1 - sqrt (a / r)) / den). assert (V : 0 <= val). { unfold val. apply Rmult_le_pos; [|left; apply Rinv_0_lt_compat; auto]. repeat apply Rmult_le_pos; lra. } destruct (Reqb_spec den 0); [lra|]. destruct (Rltb_spec val 0); [lra|]. reflexivity.
Qed.
Print Assumptions C122_model.

(** no radius of the grid is below the inner radius, and the first is the inner radius *)
Theorem C122_radii : forall a b n, is_double a -> is_double b -> 0 <= a <= b -> (2 <= n)%nat ->
  hd 0 (disk_radii binary64 a b n) = a /\ forall r, In r (disk_radii binary64 a b n) -> a <= r.
Proof.
  intros a b n Da Db H Hn. assert (Z : forall v, 0 <= v -> 0 <= binary64 v) by (intros v Hv; apply b64_ge_double; [apply double_0|auto]). split.
  - destruct n as [|[|n]]; [lia|lia|]. cbn [disk_radii seq map hd]. unfold disk_radii. cbn [seq map hd]. unfold grid_exponent. cbn [Nat.eqb andb INR]. rewrite Rmult_0_l, fl_0, Rplus_0_l. apply b64_id. auto.
  - intros r Hr. apply in_map_iff in Hr. destruct Hr as (i & <- & Hi). apply in_seq in Hi. unfold grid_exponent. destruct (Nat.eqb (S i) n && Nat.ltb 1 n); [lra|]. apply b64_ge_double; auto. assert (0 <= binary64 (INR i * binary64 (binary64 (b - a) / INR (n - 1)))); [|lra]. apply Z. apply Rmult_le_pos; [apply pos_INR|]. apply Z. apply Rmult_le_pos; [apply Z; lra|]. left. apply Rinv_0_lt_compat. apply lt_0_INR. lia.
Qed.
Print Assumptions C122_radii.

(** the factor 1 - sqrt(R_in / R) is in [0, 1], 0 at the inner radius, and right to 2^-51 *)
Theorem C122_edge : forall a r, 0 < a <= r ->
  0 <= edge_factor binary64 r a <= 1 /\ (r = a -> edge_factor binary64 r a = 0) /\ (r <= 2 ^ 200 * a -> Rabs (edge_factor binary64 r a - (1 - sqrt (a / r))) <= / 2 ^ 51).
Proof.
  intros a r H. assert (W : 0 < a / r <= 1). { split; [apply Rdiv_lt_0_compat; lra|]. apply Rmult_le_reg_r with r; [lra|]. unfold Rdiv. rewrite Rmult_assoc, Rinv_l; lra. }
  assert (W1 : 0 <= binary64 (a / r) <= 1) by (split; [apply b64_ge_double; [apply double_0|lra]|apply b64_le_double; [apply double_1|lra]]). assert (S1 : 0 <= sqrt (binary64 (a / r)) <= 1) by (split; [apply sqrt_pos|rewrite <- sqrt_1; apply sqrt_le_1_alt; lra]).
  assert (S2 : 0 <= binary64 (sqrt (binary64 (a / r))) <= 1) by (split; [apply b64_ge_double; [apply double_0|lra]|apply b64_le_double; [apply double_1|lra]]). unfold edge_factor. set (s := binary64 (sqrt (binary64 (a / r)))) in *. split; [|split].
  - split; [apply b64_ge_double; [apply double_0|lra]|apply b64_le_double; [apply double_1|lra]].
  - intros ->. assert (E : s = 1). { unfold s. replace (a / a) with 1 by (field; lra). rewrite (b64_id 1 double_1), sqrt_1. apply b64_id, double_1. } rewrite E. replace (1 - 1) with 0 by ring. apply fl_0.
  - intros L. assert (L1 : / 2 ^ 200 <= a / r). { apply Rmult_le_reg_r with (2 ^ 200 * r); [apply Rmult_lt_0_compat; [apply pow_lt|]; lra|]. replace (/ 2 ^ 200 * (2 ^ 200 * r)) with r by (field; apply pow_nonzero; lra). replace (a / r * (2 ^ 200 * r)) with (2 ^ 200 * a) by (field; lra). auto. }
    assert (N1 : near 1 (binary64 (a / r)) (a / r)) by (apply (fl_near_lo 200); [lia|auto]). assert (N2 : near 1 (sqrt (binary64 (a / r))) (sqrt (a / r))) by (apply near_sqrt; [lra|auto]). assert (SL : a / r <= sqrt (a / r)). { rewrite <- (sqrt_Rsqr (a / r)) at 1 by lra. apply sqrt_le_1_alt. unfold Rsqr. assert (a / r * (a / r) <= a / r * 1) by (apply Rmult_le_compat_l; lra). lra. } assert (SU : sqrt (a / r) <= 1) by (rewrite <- sqrt_1; apply sqrt_le_1_alt; lra).
    assert (L2 : / 2 ^ 201 <= sqrt (binary64 (a / r))). { destruct N2 as [_ B]. rewrite pow_1 in B. assert (sqrt (binary64 (a / r)) * u64 <= sqrt (binary64 (a / r)) * 1) by (apply Rmult_le_compat_l; [lra|rewrite u64_val; lra]). replace (/ 2 ^ 201) with (/ 2 ^ 200 / 2); [lra|]. rewrite (pow_add 2 200 1 : 2 ^ 201 = _). field. }
    assert (N3 : near 2 s (sqrt (a / r))) by (apply (near_trans 1 1 _ _ _ (fl_near_lo 201 _ ltac:(lia) L2) N2)). assert (E : Rabs (s - sqrt (a / r)) <= 21 / 10 * u64 * sqrt (a / r)). { apply (near_size 2); auto; [lra| |]; replace (INR 2) with 2 by (simpl; lra); rewrite u64_val; lra. }
    assert (E1 : 21 / 10 * u64 * sqrt (a / r) <= 21 / 10 * u64 * 1) by (apply Rmult_le_compat_l; [rewrite u64_val; lra|lra]). assert (F : Rabs (binary64 (1 - s) - (1 - s)) <= 101 / 100 * u64 * 1) by (apply fl_abs; [apply Rabs_le; lra|lra]). apply Rabs_le_inv in E, F. replace (/ 2 ^ 51) with (/ 2251799813685248) by (rewrite (pow_IZR 2 51); reflexivity). rewrite u64_val in *. apply Rabs_le. lra.
Qed.
Print Assumptions C122_edge.

(** so the temperature is a number at every radius of the grid *)
Theorem C122_number : forall fcube froot grav sigma_sb M m_dot a b n, is_double a -> is_double b -> 1 <= a <= b -> (2 <= n)%nat ->
  0 < grav -> / 2 ^ 200 <= sigma_sb -> 0 < M -> 0 < m_dot -> (forall r, 1 <= r -> 1 <= fcube r) ->
  forall r, In r (disk_radii binary64 a b n) -> exists v, 0 <= v /\ disk_temp binary64 fcube froot grav sigma_sb r M m_dot a = Some (froot v).
Proof.
  intros fcube froot grav sb M m a b n Da Db H Hn HG HS HM Hm Hc r Hr. assert (Z : forall v, 0 <= v -> 0 <= binary64 v) by (intros v Hv; apply b64_ge_double; [apply double_0|auto]). assert (O : forall v, 1 <= v -> 1 <= binary64 v) by (intros v Hv; apply b64_ge_double; [apply double_1|auto]).
  destruct (C122_radii a b n Da Db ltac:(lra) Hn) as [_ HR]. specialize (HR r Hr). destruct (C122_edge a r ltac:(lra)) as [[E0 _] _]. specialize (Hc r ltac:(lra)). unfold disk_temp. cbv zeta. set (phi := edge_factor binary64 r a) in *.
  assert (D : 0 < temp_denominator binary64 fcube r sb). { unfold temp_denominator. assert (P1 : 1 <= binary64 PI) by (apply O; pose proof PI2_1; lra). assert (P2 : 1 <= binary64 (8 * binary64 PI)) by (apply O; lra). assert (P3 : 1 <= binary64 (binary64 (8 * binary64 PI) * fcube r)). { apply O. assert (1 * 1 <= binary64 (8 * binary64 PI) * fcube r) by (apply Rmult_le_compat; lra). lra. }
    assert (P200 : 0 < / 2 ^ 200) by (apply Rinv_0_lt_compat, pow_lt; lra). apply Rlt_le_trans with (/ 2 ^ 200); auto. apply b64_ge_double; [replace (/ 2 ^ 200) with (IZR 1 / 2 ^ 200) by (unfold Rdiv; ring); apply pow2_double; lia|]. assert (1 * sb <= binary64 (binary64 (8 * binary64 PI) * fcube r) * sb) by (apply Rmult_le_compat_r; lra). lra. }
  set (den := temp_denominator binary64 fcube r sb) in *. set (v := binary64 (_ / den)). assert (V : 0 <= v). { unfold v. apply Z. apply Rmult_le_pos; [|left; apply Rinv_0_lt_compat; auto]. apply Z. apply Rmult_le_pos; auto. apply Z. apply Rmult_le_pos; [|lra]. apply Z. apply Rmult_le_pos; [|lra]. apply Z. lra. }
  exists v. split; auto. destruct (Reqb_spec den 0); [lra|]. destruct (Rltb_spec v 0); [lra|]. reflexivity.
Qed.
Print Assumptions C122_number.
(** a case: radii from 9 10^13 cm to a thousand times that *)
Example C122_case : is_double (9 * 10 ^ 13) /\ (forall r, 1 <= r -> 1 <= binary64 (r ^ 3)) /\ edge_factor binary64 (9 * 10 ^ 13) (9 * 10 ^ 13) = 0 /\
  Rabs (edge_factor binary64 (36 * 10 ^ 13) (9 * 10 ^ 13) - 1 / 2) <= / 2 ^ 51.
Proof.
  split. { replace (9 * 10 ^ 13) with (IZR 90000000000000 / 2 ^ 0) by (simpl; lra). apply pow2_double; lia. } split. { intros r H. apply b64_ge_double; [apply double_1|apply pow_R1_Rle; auto]. }
  split; [apply C122_edge; lra|]. replace (1 / 2) with (1 - sqrt (9 * 10 ^ 13 / (36 * 10 ^ 13))). { apply C122_edge; [lra|]. apply Rle_trans with (2 ^ 2 * (9 * 10 ^ 13)); [lra|]. apply Rmult_le_compat_r; [lra|apply Rle_pow; [lra|lia]]. }
  replace (9 * 10 ^ 13 / (36 * 10 ^ 13)) with (Rsqr (1 / 2)) by (unfold Rsqr; field). rewrite sqrt_Rsqr; lra.
Qed.
