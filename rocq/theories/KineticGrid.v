(** C101: the grid as a whole, and the linear equation for the density. *)
From Coquelicot Require Import Coquelicot.
From Verif Require Import Base TEUtils TimeEvolution Spec_Move Spec_Kinetic KineticFacts.
Open Scope R_scope.

Section Grid.
Variables (np : numpy) (E r q : R -> R) (m T a lo hi b L M : R).
Hypotheses (Hlg : forall x y, 0 < x -> x < y -> lg np x < lg np y).
Hypotheses (Hm : 0 < m) (HT : 0 < T) (Ha : 0 < a) (Hal : a < lo) (Hlh : lo <= hi) (Hhb : hi < b) (HL0 : 0 <= L).
Hypothesis HL : forall x y, a <= x <= b * (1 + dl) -> a <= y <= b * (1 + dl) -> Rabs (E x - E y) <= L * Rabs (x - y).
Hypothesis Hr : forall x, a < x < b -> continuity_pt r x.
Hypothesis Hq : forall x, a < x < b -> continuity_pt q x.
Hypothesis Hq0 : forall x, a < x < b -> 0 <= q x.
Hypotheses (HM0 : 0 <= M) (HM : forall x, a <= x <= b * (1 + dl) -> Rabs (E x / m) <= M).
Notation mu := (mu a lo hi b).
Notation inner := (inner a lo hi b).

Section OneStep.
Variables (R1 t : R).
Hypotheses (HR1 : forall x, lo - mu <= x <= hi + mu -> Rabs (r x) <= R1) (Ht : 0 < t) (S1 : M * t <= mu) (S2 : (L / m + c3 m a L M) * t <= 1 / 2) (S3 : t <= 1) (S4 : R1 * t <= 1 / 4) (S5 : (c1 m L M + M) * t <= a).
Lemma step_incr me x y : inner x -> inner y -> x < y -> moved me E m t x < moved me E m t y.
Proof.
  intros Ix Iy Hxy. pose proof dl_pos. destruct (c_pos m a L Hm Ha HL0 M HM0) as (A1 & A3 & A2 & A4). pose proof (inner_ab a lo hi b Hal Hhb x Ix). pose proof (inner_ab a lo hi b Hal Hhb y Iy).
  destruct (pred_in E m a lo hi b Hm Ha Hal Hlh Hhb M HM t Ht S1 x Ix) as [P1 _]. destruct (pred_in E m a lo hi b Hm Ha Hal Hlh Hhb M HM t Ht S1 y Iy) as [P2 _].
  assert (0 <= c3 m a L M * t) by (apply Rmult_le_pos; lra). assert (0 <= L / m * t) by (apply Rmult_le_pos; lra). assert (b <= b * (1 + dl)) by nra.
  apply (moved_incr E m a b L me Hm HL0 HL t Ht); try lra. assert (L / m * t <= 1 / 2) by lra. nra.
Qed.
Lemma step_pos me x : inner x -> 0 < moved me E m t x.
Proof.
  intros Ix. destruct (c_pos m a L Hm Ha HL0 M HM0) as (A1 & A3 & A2 & A4). destruct (pred_in E m a lo hi b Hm Ha Hal Hlh Hhb M HM t Ht S1 x Ix) as [_ P1].
  pose proof (moved_inner E m a lo hi b L me Hm Ha Hal Hlh Hhb HL0 HL M HM0 HM t Ht S1 x Ix) as K. fold (c1 m L M) in K. pose proof (inner_ab a lo hi b Hal Hhb x Ix). apply Rabs_le_between in P1. apply Rabs_le_between in K. replace (t * (E x / m)) with (E x * t / m) in K by (field; lra).
  assert (c1 m L M * t ^ 2 <= c1 m L M * t) by (apply Rmult_le_compat_l; [auto|nra]). lra.
Qed.
Lemma legit_step me pts : (forall x w, In (x, w) pts -> inner x /\ 0 <= w) ->
  (forall i x y, nth_error (map fst pts) i = Some x -> nth_error (map fst pts) (S i) = Some y -> x < y) ->
  (2 <= length (filter (fun p => Rltb 0 (snd p)) pts))%nat \/ ((2 <= length pts)%nat /\ forall x, 0 < x -> 0 < q x) ->
  legitimate np me E r q m t pts.
Proof.
  intros H1 H2 H3. unfold legitimate.
  assert (Sg : forall x w, In (x, w) pts -> 0 <= snd (after_step me E r q m t (x, w)) /\ (0 < w \/ 0 < q x -> 0 < snd (after_step me E r q m t (x, w)))).
  { intros x w Hin. destruct (H1 x w Hin) as [Ix Hw]. apply (step_sign E r q m a lo hi b L me Hm Ha Hal Hlh Hhb HL0 HL Hq0 M HM0 HM t Ht S1); auto.
    specialize (HR1 x Ix). apply Rle_trans with (R1 * t); auto. apply Rmult_le_compat_r; lra. }
  split; [|split; [|split]].
  - intros x w Hin. destruct (H1 x w Hin) as [Ix Hw]. split; [apply step_pos; auto|]. destruct (width E m a lo hi b L me Hm Ha Hal Hlh Hhb HL0 HL M HM0 HM t Ht S1 x Ix S3 S2) as (W & _). unfold dl in W. lra.
  - intros i x' y' Hx Hy. rewrite map_map, nth_error_map in Hx, Hy. destruct (nth_error pts i) as [[x w]|] eqn:Ex; [|discriminate]. destruct (nth_error pts (S i)) as [[y z]|] eqn:Ey; [|discriminate].
    simpl in Hx, Hy. injection Hx as <-. injection Hy as <-. destruct (H1 x w (nth_error_In _ _ Ex)) as [Ix _]. destruct (H1 y z (nth_error_In _ _ Ey)) as [Iy _].
    apply Hlg; [apply step_pos; auto|]. apply step_incr; auto. apply (H2 i); rewrite nth_error_map; [rewrite Ex|rewrite Ey]; auto.
  - intros x' w' Hin. apply in_map_iff in Hin as ([x w] & Eq & Hin). destruct (Sg x w Hin) as [S _]. rewrite Eq in S. exact S.
  - right. rewrite map_map. destruct H3 as [H3|[H3 H4]].
    + eapply Nat.le_trans; [exact H3|]. apply count_le. intros [x w] Hin Hf. apply Rltb_true in Hf. simpl in Hf. destruct (Sg x w Hin) as [_ S]. specialize (S (or_introl Hf)). apply negb_true_iff, Reqb_false. lra.
    + eapply Nat.le_trans; [exact H3|]. rewrite <- (map_length (fun p => p) pts) at 1. rewrite map_id. replace (length pts) with (length (filter (fun _ => true) pts)).
      * apply count_le. intros [x w] Hin _. destruct (H1 x w Hin) as [Ix _]. pose proof (inner_ab a lo hi b Hal Hhb x Ix). destruct (Sg x w Hin) as [_ S]. specialize (S (or_intror (H4 x ltac:(lra)))). apply negb_true_iff, Reqb_false. lra.
      * clear. induction pts as [|p l IH]; simpl; auto.
Qed.
End OneStep.

Variables (me : method_t) (pts : list (R * R)) (G N : nat -> R -> R).
Hypothesis Hinc : forall i x y, nth_error (map fst pts) i = Some x -> nth_error (map fst pts) (S i) = Some y -> x < y.
Hypothesis Hfed : (2 <= length (filter (fun p => Rltb 0 (snd p)) pts))%nat \/ ((2 <= length pts)%nat /\ forall x, 0 < x -> 0 < q x).
Hypothesis HG : forall i g v, nth_error pts i = Some (g, v) -> G i 0 = g /\ N i 0 = v /\ 0 <= v /\
  forall s, 0 <= s <= T -> lo <= G i s <= hi /\ is_derive (G i) s (E (G i s) / m) /\ is_derive (N i) s (N i s * (r (G i s) - slope E m (G i s)) + q (G i s)).

Lemma grid_good eps : 0 < eps -> small (fun t => forall k, INR k * t = T ->
  (forall j, (j < k)%nat -> forall me', legitimate np me' E r q m t (map (after_steps j me E r q m t) pts)) /\
  (forall j i x w, (j <= k)%nat -> nth_error (map (after_steps j me E r q m t) pts) i = Some (x, w) -> Rabs (x - G i (INR j * t)) <= eps /\ Rabs (w - N i (INR j * t)) <= eps)).
Proof.
  intros He. destruct (mu_pos a lo hi b Hal Hhb) as (U1 & U2 & U3).
  assert (ins : forall x, lo - mu <= x <= hi + mu -> a < x < b) by (intros; lra).
  destruct (bounded_on r (lo - mu) (hi + mu) ltac:(lra) (fun x Hx => Hr x (ins x Hx))) as (R1 & HR0 & HR).
  apply (small_imp (fun t => ((M * t <= mu /\ (L / m + c3 m a L M) * t <= 1 / 2) /\ (1 * t <= 1 /\ R1 * t <= 1 / 4)) /\ ((c1 m L M + M) * t <= a /\
    (forall i p, nth_error pts i = Some p -> good E r q m T a lo hi b me (G i) (N i) (fst p) (snd p) eps t)))).
  2: { repeat apply small_and; try (apply small_lin; lra). apply (small_list pts (fun i p => good E r q m T a lo hi b me (G i) (N i) (fst p) (snd p) eps)). intros i [g v] Ei. destruct (HG i g v Ei) as (G0 & N0 & Hv & HS). simpl.
    apply (point_good E r q m T a lo hi b L me Hm HT Ha Hal Hlh Hhb HL0 HL Hr Hq Hq0 (G i) (N i) g v G0 (fun s Hs => proj1 (HS s Hs)) (fun s Hs => proj1 (proj2 (HS s Hs))) N0 (fun s Hs => proj2 (proj2 (HS s Hs))) M HM0 HM eps He Hv). }
  intros t Ht (((S1 & S2) & (S3 & S4)) & (S5 & Gd)) k Ek. rewrite Rmult_1_l in S3.
  assert (At : forall j i x w, (j <= k)%nat -> nth_error (map (after_steps j me E r q m t) pts) i = Some (x, w) -> exists g v, nth_error pts i = Some (g, v) /\
     inner x /\ Rabs (x - G i (INR j * t)) <= eps /\ Rabs (w - N i (INR j * t)) <= eps /\ 0 <= w /\ (0 < v -> 0 < w)).
  { intros j i x w Hj Hx. rewrite nth_error_map in Hx. destruct (nth_error pts i) as [[g v]|] eqn:Ei; [|discriminate]. simpl in Hx. injection Hx as Hx. pose proof (Gd i (g, v) Ei k Ek j Hj) as (Q1 & Q2 & Q3 & Q4 & Q5).
    simpl in Q1, Q2, Q3, Q4, Q5. unfold pos, den in Q1, Q2, Q3, Q4, Q5. rewrite Hx in Q1, Q2, Q3, Q4, Q5. simpl in Q1, Q2, Q3, Q4, Q5. exists g, v. auto 10. }
  assert (Ord : forall j, (j <= k)%nat -> forall i x y, nth_error (map fst (map (after_steps j me E r q m t) pts)) i = Some x -> nth_error (map fst (map (after_steps j me E r q m t) pts)) (S i) = Some y -> x < y).
  { induction j as [|j IH]; intros Hj i x y Hx Hy.
    - replace (map (after_steps 0 me E r q m t) pts) with pts in Hx, Hy by (symmetry; apply map_id). eapply Hinc; eauto.
    - specialize (IH ltac:(lia) i). rewrite nth_error_map in Hx, Hy, IH. rewrite nth_error_map in Hx, Hy, IH. rewrite nth_error_map in IH. rewrite nth_error_map in IH. destruct (nth_error pts i) as [p|] eqn:Ep; [|discriminate]. destruct (nth_error pts (S i)) as [p'|] eqn:Ep'; [|discriminate]. cbn [option_map] in *. injection Hx as <-. injection Hy as <-. specialize (IH _ _ eq_refl eq_refl).
      destruct (after_steps j me E r q m t p) as [x w] eqn:Q. destruct (after_steps j me E r q m t p') as [y z] eqn:Q'.
      assert (Ix : inner x). { destruct (At j i x w ltac:(lia)) as (_ & _ & _ & I & _); auto. rewrite nth_error_map, Ep. simpl. rewrite Q. auto. }
      assert (Iy : inner y). { destruct (At j (S i) y z ltac:(lia)) as (_ & _ & _ & I & _); auto. rewrite nth_error_map, Ep'. simpl. rewrite Q'. auto. }
      simpl. apply (step_incr t); auto. }
  split.
  - intros j Hj me'. apply (legit_step R1 t); auto.
    + intros x w Hin. apply In_nth_error in Hin as [i Hi]. destruct (At j i x w ltac:(lia) Hi) as (_ & _ & _ & I & _ & _ & W & _). auto.
    + apply Ord. lia.
    + destruct Hfed as [F|[F1 F2]]; [left|right; rewrite map_length; auto]. eapply Nat.le_trans; [exact F|]. apply count_le. intros [g v] Hin Hf. apply Rltb_true in Hf. apply Rltb_true. simpl in Hf.
      apply In_nth_error in Hin as [i Hi]. destruct (after_steps j me E r q m t (g, v)) as [x w] eqn:Q. destruct (At j i x w ltac:(lia)) as (g0 & v0 & E0 & _ & _ & _ & _ & W); [rewrite nth_error_map, Hi; simpl; rewrite Q; auto|]. rewrite Hi in E0. injection E0 as <- <-. simpl. auto.
  - intros j i x w Hj Hx. destruct (At j i x w Hj Hx) as (_ & _ & _ & _ & A1 & A2 & _). auto.
Qed.
End Grid.

(** ** the linear equation for the density *)
Lemma exp_mono x y : x <= y -> exp x <= exp y.
Proof. intros [H|H]; [left; apply exp_increasing; auto|rewrite H; lra]. Qed.
Lemma extend (f : R -> R) T : 0 <= T -> (forall s, 0 <= s <= T -> continuity_pt f s) -> exists h : R -> R, (forall s, continuous h s) /\ forall s, 0 <= s <= T -> h s = f s.
Proof.
  intros HT Hf. destruct (C0_extension_le f 0 T) as (h & H1 & H2); [intros c Hc; apply continuity_pt_filterlim, Hf; auto|]. exists h. split; auto.
Qed.
Lemma primitive_derive (h : R -> R) s : (forall s, continuous h s) -> is_derive (fun x => RInt h 0 x) s (h s).
Proof.
  intros Hc. apply (is_derive_RInt h (fun x => RInt h 0 x) 0 s); [|apply Hc]. exists (mkposreal 1 Rlt_0_1). intros x _. apply (RInt_correct h 0 x). apply (ex_RInt_continuous h). intros; apply Hc.
Qed.
(** D' >= rho D and D 0 >= 0 give D >= 0 *)
Lemma comparison (D D' rho : R -> R) T : 0 <= T -> (forall s, 0 <= s <= T -> continuity_pt rho s) -> 0 <= D 0 -> (forall s, 0 <= s <= T -> is_derive D s (D' s) /\ rho s * D s <= D' s) -> forall s, 0 <= s <= T -> 0 <= D s.
Proof.
  intros HT Hc H0 HD s Hs. destruct (extend rho T HT Hc) as (h & Ch & Eh). set (A := fun x => RInt h 0 x).
  assert (HA : forall x, is_derive A x (h x)) by (intros x; apply primitive_derive; auto).
  destruct (derive_mean (fun x => exp (- A x) * D x) (fun x => exp (- A x) * (D' x - h x * D x)) 0 s) as (u & Hu & Eu); [lra| |].
  { intros u Hu. rewrite Rplus_0_l in Hu. destruct (HD u ltac:(lra)) as [Du _]. pose proof (HA u) as Au.
    evar_last. { apply (is_derive_mult (fun x => exp (- A x)) D); [|exact Du|intros; apply Rmult_comm]. apply (is_derive_comp exp (fun x => - A x)); [apply is_derive_Reals, derivable_pt_lim_exp|apply (is_derive_opp A); exact Au]. }
    unfold scal, plus, mult, opp; simpl; unfold mult; simpl. match goal with |- ?a = ?b => change (@eq R a b) end. ring. }
  rewrite Rplus_0_l in Eu. rewrite Rplus_0_l in Hu. assert (A0 : A 0 = 0) by (unfold A; apply (RInt_point 0 h)). cbv beta in Eu. rewrite A0, Ropp_0, exp_0, Rmult_1_l in Eu. destruct (HD u ltac:(lra)) as [_ Hu'].
  pose proof (exp_pos (- A s)). pose proof (exp_pos (- A u)). assert (0 <= exp (- A u) * (D' u - h u * D u)) by (apply Rmult_le_pos; [lra|rewrite Eh by lra; lra]). assert (0 <= s * (exp (- A u) * (D' u - h u * D u))) by (apply Rmult_le_pos; lra).
  assert (0 <= exp (- A s) * D s) by lra. destruct (Rle_lt_dec 0 (D s)); auto. exfalso. assert (exp (- A s) * D s < 0) by nra. lra.
Qed.
Lemma linear_solution (rho h : R -> R) T v : 0 <= T -> (forall s, 0 <= s <= T -> continuity_pt rho s) -> (forall s, 0 <= s <= T -> continuity_pt h s) ->
  exists N, N 0 = v /\ forall s, 0 <= s <= T -> is_derive N s (N s * rho s + h s).
Proof.
  intros HT Hr Hh. destruct (extend rho T HT Hr) as (p & Cp & Ep). destruct (extend h T HT Hh) as (f & Cf & Ef). set (A := fun x => RInt p 0 x). assert (HA : forall x, is_derive A x (p x)) by (intros x; apply primitive_derive; auto).
  assert (CA : forall x, continuous (fun y => exp (- A y) * f y) x).
  { intros x. apply (continuous_mult (fun y => exp (- A y)) f); auto. apply (continuous_comp (fun y => - A y) exp); [apply (continuous_opp A); apply (ex_derive_continuous A); exists (p x); auto|apply (ex_derive_continuous exp); exists (exp (- A x)); apply is_derive_Reals, derivable_pt_lim_exp]. }
  set (B := fun x => RInt (fun y => exp (- A y) * f y) 0 x). assert (HB : forall x, is_derive B x (exp (- A x) * f x)) by (intros x; apply (primitive_derive (fun y => exp (- A y) * f y)); auto).
  exists (fun x => exp (A x) * (v + B x)). split.
  - unfold A, B. match goal with |- exp ?a * (v + ?b) = _ => replace a with 0 by (symmetry; apply (RInt_point 0 p)); replace b with 0 by (symmetry; apply (RInt_point 0 (fun y => exp (- RInt p 0 y) * f y))) end. rewrite exp_0. match goal with |- ?a = ?b => change (@eq R a b) end. ring.
  - intros s Hs. evar_last. { apply (is_derive_mult (fun x => exp (A x)) (fun x => v + B x)); [|apply (is_derive_plus (fun _ => v) B); [apply (is_derive_const v)|apply HB]|intros; apply Rmult_comm]. apply (is_derive_comp exp A); [apply is_derive_Reals, derivable_pt_lim_exp|apply HA]. }
    unfold scal, plus, mult, zero; simpl; unfold mult; simpl. match goal with |- ?a = ?b => change (@eq R a b) end. rewrite <- Ep, <- Ef by auto. rewrite exp_Ropp. field. apply Rgt_not_eq, exp_pos.
Qed.
(** replacing the rate rho2 by rho1 changes the density by at most exp (D) *)
Lemma sandwich (N X D d rho1 rho2 h : R -> R) T : 0 <= T ->
  (forall s, 0 <= s <= T -> continuity_pt rho1 s) -> (forall s, 0 <= s <= T -> continuity_pt rho2 s) -> (forall s, 0 <= s <= T -> 0 <= h s) ->
  N 0 = X 0 -> 0 <= X 0 -> D 0 = 0 ->
  (forall s, 0 <= s <= T -> is_derive N s (N s * rho1 s + h s) /\ is_derive X s (X s * rho2 s + h s) /\ is_derive D s (d s) /\ Rabs (rho1 s - rho2 s) <= d s) ->
  forall s, 0 <= s <= T -> X s * exp (- D s) <= N s <= X s * exp (D s).
Proof.
  intros HT C1 C2 Hh E0 X0 D0 H.
  assert (XP : forall s, 0 <= s <= T -> 0 <= X s). { apply (comparison X (fun s => X s * rho2 s + h s) rho2 T); auto. intros s Hs. destruct (H s Hs) as (_ & H2 & _). split; auto. specialize (Hh s Hs). lra. }
  assert (DP : forall s, 0 <= s <= T -> 0 <= D s).
  { intros s Hs. destruct (derive_mean D d 0 s) as (u & Hu & Eu); [lra| |]. { intros u Hu. rewrite Rplus_0_l in Hu. apply (H u ltac:(lra)). } rewrite Rplus_0_l in *. destruct (H u ltac:(lra)) as (_ & _ & _ & Q). pose proof (Rabs_pos (rho1 u - rho2 u)). assert (0 <= s * d u) by (apply Rmult_le_pos; lra). lra. }
  assert (De : forall c s, 0 <= s <= T -> is_derive (fun x => X x * exp (c * D x)) s ((X s * rho2 s + h s) * exp (c * D s) + X s * (c * d s * exp (c * D s)))).
  { intros c s Hs. destruct (H s Hs) as (_ & H2 & H3 & _). evar_last. { apply (is_derive_mult X (fun x => exp (c * D x))); [exact H2| |intros; apply Rmult_comm]. apply (is_derive_comp exp (fun x => c * D x)); [apply is_derive_Reals, derivable_pt_lim_exp|apply (is_derive_scal D s c _ H3)]. }
    unfold scal, plus, mult; simpl; unfold mult; simpl. match goal with |- ?a = ?b => change (@eq R a b) end. ring. }
  assert (Lo : forall s, 0 <= s <= T -> 0 <= N s - X s * exp (-1 * D s)).
  { apply (comparison (fun s => N s - X s * exp (-1 * D s)) (fun s => N s * rho1 s + h s - ((X s * rho2 s + h s) * exp (-1 * D s) + X s * (-1 * d s * exp (-1 * D s)))) rho1 T); auto.
    - rewrite D0, Rmult_0_r, exp_0. lra.
    - intros s Hs. destruct (H s Hs) as (H1 & _ & _ & H4). split; [apply (is_derive_minus N (fun x => X x * exp (-1 * D x)) s); [exact H1|apply De; auto]|].
      apply Rabs_le_between in H4. specialize (XP s Hs). specialize (DP s Hs). specialize (Hh s Hs). pose proof (exp_pos (-1 * D s)) as Ep. assert (Ele : exp (-1 * D s) <= 1) by (rewrite <- exp_0; apply exp_mono; lra).
      assert (0 <= X s * exp (-1 * D s) * (rho1 s - rho2 s + d s)) by (apply Rmult_le_pos; [apply Rmult_le_pos; lra|lra]). assert (0 <= h s * (1 - exp (-1 * D s))) by (apply Rmult_le_pos; lra). lra. }
  assert (Hi : forall s, 0 <= s <= T -> 0 <= X s * exp (1 * D s) - N s).
  { apply (comparison (fun s => X s * exp (1 * D s) - N s) (fun s => ((X s * rho2 s + h s) * exp (1 * D s) + X s * (1 * d s * exp (1 * D s))) - (N s * rho1 s + h s)) rho1 T); auto.
    - rewrite D0, Rmult_0_r, exp_0. lra.
    - intros s Hs. destruct (H s Hs) as (H1 & _ & _ & H4). split; [apply (is_derive_minus (fun x => X x * exp (1 * D x)) N s); [apply De; auto|exact H1]|].
      apply Rabs_le_between in H4. specialize (XP s Hs). specialize (DP s Hs). specialize (Hh s Hs). pose proof (exp_pos (1 * D s)) as Ep. assert (Ele : 1 <= exp (1 * D s)) by (pose proof (exp_mono 0 (1 * D s) ltac:(lra)) as Z; rewrite exp_0 in Z; exact Z).
      assert (0 <= X s * exp (1 * D s) * (rho2 s - rho1 s + d s)) by (apply Rmult_le_pos; [apply Rmult_le_pos; lra|lra]). assert (0 <= h s * (exp (1 * D s) - 1)) by (apply Rmult_le_pos; lra). lra. }
  intros s Hs. specialize (Lo s Hs). specialize (Hi s Hs). replace (-1 * D s) with (- D s) in Lo by ring. rewrite Rmult_1_l in Hi. lra.
Qed.
