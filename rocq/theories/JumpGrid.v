(** Sums of trapezia of a function with two jumps in its last variable, whose
    positions depend on the other variables: they still tend to the integral,
    uniformly in the other variables, and the integral is uniformly continuous. *)
From Verif Require Import Base TEUtils ListFacts MathUtils Spec_Math Spec_Beams MathFacts AbsorptionFacts Props_Beams Props_Opacity Props_Refine TensorGrid.
From Coquelicot Require Import Coquelicot.
From Coq Require Import List Lra Lia.
Import ListNotations.
Open Scope list_scope.
Open Scope R_scope.

Lemma fine_nondecr a b d xs : fine a b d xs -> nondecr xs.
Proof.
  intros (_ & _ & H). revert H. generalize a b. clear a b. intros a b. induction xs as [|x [|y l] IH]; intros H; [exact Logic.I|exact Logic.I|]. split.
  - destruct (H 0%nat x y eq_refl eq_refl) as (? & ? & _). lra.
  - apply IH. intros i u v Hu Hv. apply (H (S i)); auto.
Qed.
Lemma fine_in a b d xs x : fine a b d xs -> a <= b -> In x xs -> a <= x <= b.
Proof.
  intros (A & B & C) Hab Hx. apply In_nth_error in Hx. destruct Hx as [i Hi]. destruct i as [|i].
  - rewrite A in Hi. apply some_inj in Hi. subst. lra.
  - destruct (nth_error xs i) as [w|] eqn:E. { destruct (C i w x E Hi) as (? & ? & ? & ?). lra. } apply nth_error_None in E. assert (nth_error xs (S i) <> None) by congruence. apply nth_error_Some in H. lia.
Qed.
Lemma lipschitz (h : R -> R) K : (forall x y, Rabs (h x - h y) <= K * Rabs (x - y)) -> forall t, continuity_pt h t.
Proof.
  intros H t e He. exists (e / (Rabs K + 1)). pose proof (Rabs_pos K). split; [apply Rdiv_lt_0_compat; lra|]. intros x [_ Hx]. cbn in *. unfold R_dist in *. eapply Rle_lt_trans; [apply H|].
  apply Rle_lt_trans with (Rabs K * Rabs (x - t)); [apply Rmult_le_compat_r; [apply Rabs_pos|apply Rle_abs]|]. apply Rmult_lt_compat_l with (r := Rabs K + 1) in Hx; [|lra]. replace ((Rabs K + 1) * (e / (Rabs K + 1))) with e in Hx by (field; lra). pose proof (Rabs_pos (x - t)). lra.
Qed.
(** 0 for t <= 0, 1 for t >= q, linear between *)
Definition ramp (q t : R) : R := clamp 0 1 (t / q).
(** 1 for |t| <= q, 0 for |t| >= 2 q, linear between *)
Definition bump (q t : R) : R := clamp 0 1 (2 - Rabs t / q).
Lemma ramp_cont q t : 0 < q -> continuity_pt (ramp q) t.
Proof.
  intros Hq. apply (lipschitz _ (/ q)). intros x y. unfold ramp. eapply Rle_trans; [apply clamp_close; lra|]. replace (x / q - y / q) with (/ q * (x - y)) by (field; lra). rewrite Rabs_mult, (Rabs_pos_eq (/ q)); [lra|left; apply Rinv_0_lt_compat; auto].
Qed.
Lemma bump_cont q t : 0 < q -> continuity_pt (bump q) t.
Proof.
  intros Hq. apply (lipschitz _ (/ q)). intros x y. unfold bump. eapply Rle_trans; [apply clamp_close; lra|]. replace (2 - Rabs x / q - (2 - Rabs y / q)) with (/ q * (Rabs y - Rabs x)) by (field; lra). assert (0 < / q) by (apply Rinv_0_lt_compat; auto). rewrite Rabs_mult, (Rabs_pos_eq (/ q)) by lra. apply Rmult_le_compat_l; [lra|]. rewrite (Rabs_minus_sym x y). apply Rabs_triang_inv2.
Qed.
Lemma ramp_range q t : 0 <= ramp q t <= 1. Proof. apply clamp_in. lra. Qed.
Lemma bump_range q t : 0 <= bump q t <= 1. Proof. apply clamp_in. lra. Qed.
Lemma ramp_0 q t : 0 < q -> t <= 0 -> ramp q t = 0.
Proof. intros Hq Ht. unfold ramp, clamp. assert (t / q <= 0) by (apply Rmult_le_reg_r with q; auto; unfold Rdiv; rewrite Rmult_assoc, Rinv_l; lra). rewrite Rmax_right, Rmin_left; lra. Qed.
Lemma ramp_1 q t : 0 < q -> q <= t -> ramp q t = 1.
Proof. intros Hq Ht. unfold ramp, clamp. assert (1 <= t / q) by (apply Rmult_le_reg_r with q; auto; unfold Rdiv; rewrite Rmult_assoc, Rinv_l; lra). rewrite Rmax_left, Rmin_right; lra. Qed.
Lemma bump_1 q t : 0 < q -> Rabs t <= q -> bump q t = 1.
Proof. intros Hq Ht. unfold bump, clamp. assert (Rabs t / q <= 1) by (apply Rmult_le_reg_r with q; auto; unfold Rdiv; rewrite Rmult_assoc, Rinv_l; lra). rewrite Rmax_left, Rmin_right; lra. Qed.
Lemma bump_0 q t : 0 < q -> 2 * q <= Rabs t -> bump q t = 0.
Proof. intros Hq Ht. unfold bump, clamp. assert (2 <= Rabs t / q) by (apply Rmult_le_reg_r with q; auto; unfold Rdiv; rewrite Rmult_assoc, Rinv_l; lra). rewrite Rmax_right, Rmin_left; lra. Qed.
Lemma bump_ex q t0 a b : 0 < q -> ex_RInt (fun x => bump q (x - t0)) a b.
Proof.
  intros Hq. apply (@ex_RInt_continuous R_CompleteNormedModule). intros x _. apply continuity_pt_filterlim. apply (continuity_pt_comp (fun x => x - t0) (bump q)); [|apply bump_cont; auto].
  apply continuity_pt_minus; [apply derivable_continuous_pt, derivable_pt_id|apply continuity_pt_const; intros u v; reflexivity].
Qed.
Lemma bump_int q t0 a b : 0 < q -> a <= b -> RInt (fun x => bump q (x - t0)) a b <= 4 * q.
Proof.
  intros Hq Hab. set (c := clamp a b (t0 - 2 * q)). set (d := clamp a b (t0 + 2 * q)). pose proof (clamp_in a b (t0 - 2 * q) Hab) as Hc. fold c in Hc. pose proof (clamp_in a b (t0 + 2 * q) Hab) as Hd. fold d in Hd.
  assert (Hcd : c <= d) by (unfold c, d, clamp, Rmin, Rmax; repeat (destruct (Rle_dec _ _)); lra).
  assert (Hl : d - c <= 4 * q). { pose proof (clamp_close a b (t0 + 2 * q) (t0 - 2 * q) Hab) as K. fold c d in K. rewrite !Rabs_pos_eq in K by lra. lra. }
  pose proof (fun u v => bump_ex q t0 u v Hq) as Ex.
  rewrite <- (RInt_Chasles _ a c b), <- (RInt_Chasles _ c d b) by apply Ex. unfold plus. simpl.
  assert (Z1 : RInt (fun x => bump q (x - t0)) a c = 0).
  { rewrite (int_ext _ (fun _ => 0)); [rewrite RInt_const; unfold scal; simpl; unfold mult; simpl; ring|lra|]. intros x Hx. apply bump_0; auto. assert (x <= t0 - 2 * q). { unfold c, clamp, Rmin, Rmax in Hx. repeat (destruct (Rle_dec _ _)); lra. } rewrite Rabs_left1; lra. }
  assert (Z2 : RInt (fun x => bump q (x - t0)) d b = 0).
  { rewrite (int_ext _ (fun _ => 0)); [rewrite RInt_const; unfold scal; simpl; unfold mult; simpl; ring|lra|]. intros x Hx. apply bump_0; auto. assert (t0 + 2 * q <= x). { unfold d, clamp, Rmin, Rmax in Hx. repeat (destruct (Rle_dec _ _)); lra. } rewrite Rabs_pos_eq; lra. }
  assert (Z3 : RInt (fun x => bump q (x - t0)) c d <= (d - c) * 1).
  { replace ((d - c) * 1) with (RInt (fun _ => 1) c d) by (rewrite RInt_const; unfold scal; simpl; unfold mult; simpl; ring). apply RInt_le; [lra|apply Ex|apply ex_RInt_const|]. intros x _. apply bump_range. }
  rewrite Z1, Z2. lra.
Qed.

Section Jump.
Variable Y : Type.
Variable D : Y -> Prop.
Variable near : R -> Y -> Y -> Prop.
Hypothesis Hn : narrows near.
Variables a b hi : R.
Hypothesis Hab : a < b.
Variable L : Y -> R.
Hypothesis HL : nice Y D near L.
Variables f h : Y * R -> R.
Hypothesis Hh : nice (Y * R) (pdom D a b) (pnear near) h.
Hypothesis Hin : forall y x, D y -> a <= x <= b -> L y <= x <= hi -> f (y, x) = h (y, x).
Hypothesis Hout : forall y x, D y -> a <= x <= b -> x < L y \/ hi < x -> f (y, x) = 0.
Hypothesis Hex : forall y, D y -> ex_RInt (fun x => f (y, x)) a b.

Let smooth (q : R) (z : Y * R) : R := h z * (ramp q (snd z - L (fst z)) * ramp q (hi - snd z)).
Let rest (M q : R) (z : Y * R) : R := M * (bump q (snd z - L (fst z)) + bump q (snd z - hi)).
Lemma smooth_nice q : 0 < q -> nice _ (pdom D a b) (pnear near) (fun z => h z * (ramp q (snd z - L (fst z)) * ramp q (hi - snd z))).
Proof.
  intros Hq. pose proof (pnear_narrows near Hn) as Hp. apply (nice_mult _ _ _ Hp); auto. apply (nice_mult _ _ _ Hp).
  - apply (nice_comp _ _ _ (ramp q)); [intros t; apply ramp_cont; auto|]. apply (nice_minus _ _ _ Hp); [apply nice_last; auto|apply nice_first; auto].
  - apply (nice_comp _ _ _ (ramp q)); [intros t; apply ramp_cont; auto|]. apply (nice_minus _ _ _ Hp); [apply nice_const|apply nice_last; auto].
Qed.
Lemma rest_nice M q : 0 < q -> nice _ (pdom D a b) (pnear near) (fun z => M * (bump q (snd z - L (fst z)) + bump q (snd z - hi))).
Proof.
  intros Hq. pose proof (pnear_narrows near Hn) as Hp. apply (nice_mult _ _ _ Hp); [apply nice_const|]. apply (nice_plus _ _ _ Hp).
  - apply (nice_comp _ _ _ (bump q)); [intros t; apply bump_cont; auto|]. apply (nice_minus _ _ _ Hp); [apply nice_last; auto|apply nice_first; auto].
  - apply (nice_comp _ _ _ (bump q)); [intros t; apply bump_cont; auto|]. apply (nice_minus _ _ _ Hp); [apply nice_last; auto|apply nice_const].
Qed.
Lemma smooth_close M q y x : 0 < q -> (forall z, pdom D a b z -> Rabs (h z) <= M) -> D y -> a <= x <= b -> Rabs (f (y, x) - smooth q (y, x)) <= rest M q (y, x).
Proof.
  intros Hq HM Hy Hx. unfold smooth, rest. cbn [fst snd]. assert (B : Rabs (h (y, x)) <= M) by (apply HM; split; auto). pose proof (Rabs_pos (h (y, x))) as B0.
  pose proof (bump_range q (x - L y)) as G1. pose proof (bump_range q (x - hi)) as G2. pose proof (ramp_range q (x - L y)) as R1. pose proof (ramp_range q (hi - x)) as R2.
  assert (Z : 0 <= M * (bump q (x - L y) + bump q (x - hi))) by (apply Rmult_le_pos; lra).
  destruct (Rlt_dec x (L y)) as [C1|C1]. { rewrite Hout by auto. rewrite (ramp_0 q (x - L y)) by lra. replace (0 - _) with 0 by ring. rewrite Rabs_R0. auto. }
  destruct (Rlt_dec hi x) as [C2|C2]. { rewrite Hout by auto. rewrite (ramp_0 q (hi - x)) by lra. replace (0 - _) with 0 by ring. rewrite Rabs_R0. auto. }
  rewrite Hin by (auto; lra). 
  assert (K : Rabs (h (y, x) - h (y, x) * (ramp q (x - L y) * ramp q (hi - x))) <= M).
  { replace (h (y, x) - h (y, x) * (ramp q (x - L y) * ramp q (hi - x))) with (h (y, x) * (1 - ramp q (x - L y) * ramp q (hi - x))) by ring. rewrite Rabs_mult. assert (0 <= ramp q (x - L y) * ramp q (hi - x) <= 1) by (split; [apply Rmult_le_pos|]; nra). rewrite (Rabs_pos_eq (1 - _)) by lra. nra. }
  destruct (Rle_dec (x - L y) q) as [C3|C3]. { rewrite (bump_1 q (x - L y)) by (auto; rewrite Rabs_pos_eq; lra). eapply Rle_trans; [exact K|]. nra. }
  destruct (Rle_dec (hi - x) q) as [C4|C4]. { rewrite (bump_1 q (x - hi)) by (auto; rewrite Rabs_left1; lra). eapply Rle_trans; [exact K|]. nra. }
  rewrite !ramp_1 by lra. replace (h (y, x) - h (y, x) * (1 * 1)) with 0 by ring. rewrite Rabs_R0. auto.
Qed.
Lemma rest_int M q y : 0 < q -> 0 <= M -> ex_RInt (fun x => rest M q (y, x)) a b /\ RInt (fun x => rest M q (y, x)) a b <= 8 * M * q.
Proof.
  intros Hq HM. unfold rest. cbn [fst snd]. pose proof (bump_ex q (L y) a b Hq) as E1. pose proof (bump_ex q hi a b Hq) as E2. pose proof (bump_int q (L y) a b Hq ltac:(lra)) as I1. pose proof (bump_int q hi a b Hq ltac:(lra)) as I2.
  assert (E3 : ex_RInt (fun x => bump q (x - L y) + bump q (x - hi)) a b) by (apply (ex_RInt_plus (fun x => bump q (x - L y)) (fun x => bump q (x - hi))); auto).
  split; [apply (ex_RInt_scal (fun x => bump q (x - L y) + bump q (x - hi))); auto|]. rewrite int_scale by auto.
  assert (E : RInt (fun x => bump q (x - L y) + bump q (x - hi)) a b = RInt (fun x => bump q (x - L y)) a b + RInt (fun x => bump q (x - hi)) a b) by (apply (RInt_plus (fun x => bump q (x - L y)) (fun x => bump q (x - hi))); auto).
  rewrite E. nra.
Qed.
Lemma int_close M q y : 0 < q -> 0 <= M -> (forall z, pdom D a b z -> Rabs (h z) <= M) -> D y -> Rabs (RInt (fun x => f (y, x)) a b - RInt (fun x => smooth q (y, x)) a b) <= 8 * M * q.
Proof.
  intros Hq HM0 HM Hy. destruct (rest_int M q y Hq HM0) as [E1 I1]. pose proof (slice_integrable Y D near Hn a b Hab _ (smooth_nice q Hq) y Hy) as E2.
  eapply Rle_trans; [|exact I1].
  pose proof (RInt_minus (fun x => f (y, x)) (fun x => smooth q (y, x)) a b (Hex y Hy) E2) as E. unfold Hierarchy.minus, plus, opp in E. simpl in E. unfold Rminus. rewrite <- E.
  assert (E3 : ex_RInt (fun x => f (y, x) + - smooth q (y, x)) a b) by (apply (ex_RInt_minus (fun x => f (y, x)) (fun x => smooth q (y, x))); auto).
  apply (norm_RInt_le (fun x => f (y, x) + - smooth q (y, x)) (fun x => rest M q (y, x)) a b); [lra| |apply (@RInt_correct R_CompleteNormedModule); auto|apply (@RInt_correct R_CompleteNormedModule); auto].
  intros x Hx. apply smooth_close; auto.
Qed.
Lemma jump_nice : nice Y D near (fun y => RInt (fun x => f (y, x)) a b).
Proof.
  destruct (proj2 Hh) as [M0 HM0]. set (M := Rabs M0). assert (HM : forall z, pdom D a b z -> Rabs (h z) <= M) by (intros z Hz; eapply Rle_trans; [apply HM0; auto|apply Rle_abs]). assert (Mp : 0 <= M) by apply Rabs_pos.
  assert (A : forall e, 0 < e -> exists q, 0 < q /\ forall y, D y -> Rabs (RInt (fun x => f (y, x)) a b - RInt (fun x => smooth q (y, x)) a b) <= e).
  { intros e He. set (q := e / (8 * (M + 1))). assert (Hq : 0 < q) by (apply Rdiv_lt_0_compat; lra). exists q. split; auto. intros y Hy. eapply Rle_trans; [apply int_close; eauto|]. 
    replace e with (8 * (M + 1) * q) by (unfold q; field; lra). nra. }
  split.
  - intros e He. destruct (A (e / 3) ltac:(lra)) as (q & Hq & K). destruct (proj1 (nice_integral Y D near Hn a b Hab _ (smooth_nice q Hq)) (e / 3) ltac:(lra)) as (d & Hd & C). exists d. split; auto. intros x y Hx Hy Hxy.
    pose proof (K x Hx) as K1. pose proof (K y Hy) as K2. pose proof (C x y Hx Hy Hxy) as K3. fold (smooth q) in *. unfold smooth in *. cbv beta in *. apply Rabs_le_between in K1. apply Rabs_le_between in K2. apply Rabs_le_between in K3. apply Rabs_le. lra.
  - destruct (A 1 ltac:(lra)) as (q & Hq & K). destruct (proj2 (nice_integral Y D near Hn a b Hab _ (smooth_nice q Hq))) as [B HB]. exists (B + 1). intros y Hy. specialize (K y Hy). specialize (HB y Hy). unfold smooth in *. cbv beta in *. apply Rabs_le_between in K. apply Rabs_le_between in HB. apply Rabs_le. lra.
Qed.
Lemma jump_grid e : 0 < e -> exists d, 0 < d /\ forall xs y, fine a b d xs -> D y -> Rabs (over xs (fun x => f (y, x)) - RInt (fun x => f (y, x)) a b) <= e.
Proof.
  intros He. destruct (proj2 Hh) as [M0 HM0]. set (M := Rabs M0). assert (HM : forall z, pdom D a b z -> Rabs (h z) <= M) by (intros z Hz; eapply Rle_trans; [apply HM0; auto|apply Rle_abs]). assert (Mp : 0 <= M) by apply Rabs_pos.
  set (q := e / (32 * (M + 1))). assert (Hq : 0 < q) by (apply Rdiv_lt_0_compat; lra). assert (Eq : 8 * M * q <= e / 4). { replace (e / 4) with (8 * (M + 1) * q) by (unfold q; field; lra). nra. }
  destruct (grid_integral Y D near Hn a b Hab _ (smooth_nice q Hq) (e / 4) ltac:(lra)) as (d1 & Hd1 & K1). destruct (grid_integral Y D near Hn a b Hab _ (rest_nice M q Hq) (e / 4) ltac:(lra)) as (d2 & Hd2 & K2).
  exists (Rmin d1 d2). split; [apply Rmin_glb_lt; auto|]. intros xs y Hx Hy.
  pose proof (K1 xs y (fine_coarser _ _ _ _ _ (Rmin_l d1 d2) Hx) Hy) as A1. pose proof (K2 xs y (fine_coarser _ _ _ _ _ (Rmin_r d1 d2) Hx) Hy) as A2. pose proof (int_close M q y Hq Mp HM Hy) as A3. destruct (rest_int M q y Hq Mp) as [_ A4].
  assert (A5 : Rabs (over xs (fun x => f (y, x)) - over xs (fun x => smooth q (y, x))) <= over xs (fun x => rest M q (y, x))).
  { rewrite over_linear. pose proof (fine_nondecr _ _ _ _ Hx) as Nd. assert (C : forall x, In x xs -> Rabs (f (y, x) - smooth q (y, x)) <= rest M q (y, x)) by (intros x Hi; apply smooth_close; auto; eapply fine_in; eauto; lra).
    apply Rabs_le. split.
    - replace (- over xs (fun x => rest M q (y, x))) with (over xs (fun x => (- 1) * rest M q (y, x))) by (rewrite <- over_scale; ring). apply over_le; auto. intros x Hi. specialize (C x Hi). apply Rabs_le_between in C. lra.
    - apply over_le; auto. intros x Hi. specialize (C x Hi). apply Rabs_le_between in C. lra. }
  unfold smooth, rest in *. cbv beta in *. cbn [fst snd] in *. apply Rabs_le_between in A1. apply Rabs_le_between in A2. apply Rabs_le_between in A3. apply Rabs_le_between in A5. apply Rabs_le. lra.
Qed.
End Jump.
