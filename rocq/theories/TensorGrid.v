(** Sums of trapezia over product grids tend to the iterated integral of a
    uniformly continuous function when all grids are refined, in whatever
    order. *)
From Verif Require Import Base TEUtils ListFacts MathUtils Spectra Spec_Math Spec_Beams MathFacts Props_Opacity Props_Refine.
From Coquelicot Require Import Coquelicot.
From Coq Require Import List Lra Lia.
Import ListNotations.
Open Scope list_scope.
Open Scope R_scope.

(** a grid from a to b with cells shorter than d *)
Definition fine (a b d : R) (xs : list R) : Prop :=
  nth_error xs 0 = Some a /\ nth_error xs (length xs - 1) = Some b /\
  forall i u v, nth_error xs i = Some u -> nth_error xs (S i) = Some v -> a <= u /\ u <= v /\ v <= b /\ v - u < d.

Lemma fine_coarser a b d d' xs : d <= d' -> fine a b d xs -> fine a b d' xs.
Proof. intros H (A & B & C). split; auto. split; auto. intros i u v Hu Hv. destruct (C i u v Hu Hv) as (? & ? & ? & ?). repeat split; lra. Qed.
Lemma fine_map a b d k xs : 0 < k -> fine a b d xs -> fine (a * k) (b * k) (d * k) (map (fun x => x * k) xs).
Proof.
  intros Hk (A & B & C). split; [rewrite nth_error_map, A; reflexivity|]. split; [rewrite map_length, nth_error_map, B; reflexivity|].
  intros i u v Hu Hv. rewrite nth_error_map in Hu, Hv. destruct (nth_error xs i) as [u0|] eqn:Eu; [|discriminate]. destruct (nth_error xs (S i)) as [v0|] eqn:Ev; [|discriminate]. cbn in Hu, Hv. apply some_inj in Hu. apply some_inj in Hv. subst u v.
  destruct (C i u0 v0 Eu Ev) as (? & ? & ? & ?). repeat split; nra.
Qed.

Lemma over_linear f g xs : over xs f - over xs g = over xs (fun x => f x - g x).
Proof. rewrite !csum_over. induction xs as [|x [|y l] IH]; cbn [csum] in *; lra. Qed.
Lemma over_small f a b d e xs : fine a b d xs -> (forall x, a <= x <= b -> Rabs (f x) <= e) -> Rabs (over xs f) <= e * (b - a).
Proof.
  intros (A & B & C) H. rewrite csum_over. replace (csum (fun u v => (v - u) * (f u + f v) / 2) xs) with (csum (fun u v => (v - u) * (f u + f v) / 2) xs - ((fun _ => 0) b - (fun _ => 0) a)) by (cbn beta; lra).
  apply (csum_err _ (fun _ => 0) e); auto. intros i u v Hu Hv. destruct (C i u v Hu Hv) as (? & ? & ? & ?). pose proof (H u ltac:(lra)) as Ku. pose proof (H v ltac:(lra)) as Kv. apply Rabs_le_between in Ku. apply Rabs_le_between in Kv. apply Rabs_le. split; nra.
Qed.

(** the nearest point of [a, b] *)
Definition clamp (a b x : R) : R := Rmin (Rmax x a) b.
Lemma clamp_in a b x : a <= b -> a <= clamp a b x <= b.
Proof. intros H. unfold clamp, Rmin, Rmax. destruct (Rle_dec x a); destruct (Rle_dec _ b); lra. Qed.
Lemma clamp_id a b x : a <= x <= b -> clamp a b x = x.
Proof. intros H. unfold clamp, Rmin, Rmax. destruct (Rle_dec x a); destruct (Rle_dec _ b); lra. Qed.
Lemma clamp_close a b x y : a <= b -> Rabs (clamp a b x - clamp a b y) <= Rabs (x - y).
Proof.
  intros H. unfold clamp, Rmin, Rmax. destruct (Rle_dec x a), (Rle_dec y a); repeat (destruct (Rle_dec _ b)); unfold Rabs; repeat destruct (Rcase_abs _); lra.
Qed.

(** a function of one variable that is uniformly continuous on [a, b] *)
Definition uc1 (a b : R) (f : R -> R) : Prop := forall e, 0 < e -> exists d, 0 < d /\ forall x y, a <= x <= b -> a <= y <= b -> Rabs (x - y) < d -> Rabs (f x - f y) <= e.
Lemma uc1_integrable a b f u v : a <= b -> uc1 a b f -> a <= u <= b -> a <= v <= b -> ex_RInt f u v.
Proof.
  intros Hab H Hu Hv. apply (ex_RInt_ext (fun x => f (clamp a b x))). { intros x Hx. rewrite clamp_id; auto. unfold Rmin, Rmax in Hx. destruct (Rle_dec u v); lra. }
  apply (@ex_RInt_continuous R_CompleteNormedModule). intros x _. apply continuity_pt_filterlim. intros e He. destruct (H (e / 2) ltac:(lra)) as (d & Hd & K). exists d. split; [lra|]. intros y [_ Hy]. cbn. cbn in Hy. unfold R_dist in *.
  apply Rle_lt_trans with (e / 2); [|lra]. apply K; try (apply clamp_in; auto). eapply Rle_lt_trans; [apply clamp_close; auto|exact Hy].
Qed.
Lemma over_close f a b d e xs : a <= b -> uc1 a b f -> fine a b d xs -> (forall x y, a <= x <= b -> a <= y <= b -> Rabs (x - y) < d -> Rabs (f x - f y) <= e) -> Rabs (over xs f - RInt f a b) <= e * (b - a).
Proof.
  intros Hab Hu (A & B & C) H. pose proof (fun u v => uc1_integrable a b f u v Hab Hu) as Hex.
  assert (K : Rabs (csum (fun u v => (v - u) * (f u + f v) / 2) xs - (RInt f a b - RInt f a a)) <= e * (b - a)).
  { apply (csum_err _ (fun x => RInt f a x)); auto. intros i u v Hu0 Hv0. destruct (C i u v Hu0 Hv0) as (Iu & Huv & Iv & Hm).
    assert (E : RInt f a v - RInt f a u = RInt f u v). { rewrite <- (RInt_Chasles f a u v); [unfold plus; simpl; ring|apply Hex; lra|apply Hex; lra]. } rewrite E.
    assert (Bd : forall w, u <= w <= v -> (v - u) * (f w - e) <= RInt f u v <= (v - u) * (f w + e)).
    { intros w Hw. assert (HK : forall x, u < x < v -> Rabs (f x - f w) <= e). { intros x Hx. apply H; try lra. apply Rabs_def1; lra. } split.
      - replace ((v - u) * (f w - e)) with (RInt (fun _ => f w - e) u v) by (rewrite RInt_const; unfold scal; simpl; unfold mult; simpl; ring).
        apply RInt_le; [lra|apply ex_RInt_const|apply Hex; lra|]. intros x Hx. specialize (HK x Hx). apply Rabs_le_between in HK. lra.
      - replace ((v - u) * (f w + e)) with (RInt (fun _ => f w + e) u v) by (rewrite RInt_const; unfold scal; simpl; unfold mult; simpl; ring).
        apply RInt_le; [lra|apply Hex; lra|apply ex_RInt_const|]. intros x Hx. specialize (HK x Hx). apply Rabs_le_between in HK. lra. }
    pose proof (Bd u ltac:(lra)) as Bu. pose proof (Bd v ltac:(lra)) as Bv. apply Rabs_le. lra. }
  rewrite RInt_point in K. unfold zero in K; simpl in K. rewrite Rminus_0_r in K. rewrite csum_over. exact K.
Qed.

Lemma cont_max_r m t : continuity_pt (fun t => Rmax t m) t.
Proof.
  intros e He. exists e. split; [lra|]. intros y [_ Hy]. cbn in *. unfold R_dist in *. eapply Rle_lt_trans; [|exact Hy]. unfold Rmax. destruct (Rle_dec y m), (Rle_dec t m); unfold Rabs; repeat destruct (Rcase_abs _); lra.
Qed.

(** ** Uniform continuity on a set *)
Definition uc {X : Type} (D : X -> Prop) (near : R -> X -> X -> Prop) (f : X -> R) : Prop :=
  forall e, 0 < e -> exists d, 0 < d /\ forall x y, D x -> D y -> near d x y -> Rabs (f x - f y) <= e.
Definition bounded {X : Type} (D : X -> Prop) (f : X -> R) : Prop := exists M, forall x, D x -> Rabs (f x) <= M.
Definition narrows {X : Type} (near : R -> X -> X -> Prop) : Prop := (forall d d' x y, d <= d' -> near d x y -> near d' x y) /\ forall d x, 0 < d -> near d x x.
(** one more variable, between a and b *)
Definition pdom {Y : Type} (D : Y -> Prop) (a b : R) (z : Y * R) : Prop := D (fst z) /\ a <= snd z <= b.
Definition pnear {Y : Type} (near : R -> Y -> Y -> Prop) (d : R) (z z' : Y * R) : Prop := near d (fst z) (fst z') /\ Rabs (snd z - snd z') < d.
Lemma pnear_narrows {Y} (near : R -> Y -> Y -> Prop) : narrows near -> narrows (pnear near).
Proof. intros [M Rf]. split. - intros d d' x y H [A B]. split; [eapply M; eauto|lra]. - intros d x H. split; [auto|]. rewrite Rminus_eq_0, Rabs_R0. auto. Qed.

Section Algebra.
Variable X : Type.
Variable D : X -> Prop.
Variable near : R -> X -> X -> Prop.
Hypothesis Hn : narrows near.
Definition nice (f : X -> R) : Prop := uc D near f /\ bounded D f.
Lemma nice_ext f g : (forall x, D x -> f x = g x) -> nice f -> nice g.
Proof.
  intros E [U [M B]]. split.
  - intros e He. destruct (U e He) as (d & Hd & K). exists d. split; auto. intros x y Hx Hy Hxy. rewrite <- !E by auto. auto.
  - exists M. intros x Hx. rewrite <- E by auto. auto.
Qed.
Lemma nice_const c : nice (fun _ => c).
Proof. split. - intros e He. exists 1. split; [lra|]. intros. rewrite Rminus_eq_0, Rabs_R0. lra. - exists (Rabs c). intros; lra. Qed.
Lemma nice_plus f g : nice f -> nice g -> nice (fun x => f x + g x).
Proof.
  intros [U [M B]] [U' [M' B']]. split.
  - intros e He. destruct (U (e / 2) ltac:(lra)) as (d & Hd & K). destruct (U' (e / 2) ltac:(lra)) as (d' & Hd' & K'). exists (Rmin d d'). split; [apply Rmin_glb_lt; auto|]. intros x y Hx Hy Hxy.
    pose proof (K x y Hx Hy (proj1 Hn _ _ _ _ (Rmin_l d d') Hxy)) as H1. pose proof (K' x y Hx Hy (proj1 Hn _ _ _ _ (Rmin_r d d') Hxy)) as H2. apply Rabs_le_between in H1. apply Rabs_le_between in H2. apply Rabs_le. lra.
  - exists (M + M'). intros x Hx. specialize (B x Hx). specialize (B' x Hx). eapply Rle_trans; [apply Rabs_triang|lra].
Qed.
Lemma nice_mult f g : nice f -> nice g -> nice (fun x => f x * g x).
Proof.
  intros [U [M B]] [U' [M' B']]. set (K := Rabs M + Rabs M' + 1).
  assert (HK : 0 < K) by (unfold K; pose proof (Rabs_pos M); pose proof (Rabs_pos M'); lra).
  split.
  - intros e He. assert (He' : 0 < e / (2 * K)) by (apply Rdiv_lt_0_compat; lra).
    destruct (U _ He') as (d & Hd & C). destruct (U' _ He') as (d' & Hd' & C'). exists (Rmin d d'). split; [apply Rmin_glb_lt; auto|]. intros x y Hx Hy Hxy.
    pose proof (C x y Hx Hy (proj1 Hn _ _ _ _ (Rmin_l d d') Hxy)) as H1. pose proof (C' x y Hx Hy (proj1 Hn _ _ _ _ (Rmin_r d d') Hxy)) as H2.
    replace (f x * g x - f y * g y) with (f x * (g x - g y) + (f x - f y) * g y) by ring. eapply Rle_trans; [apply Rabs_triang|]. rewrite !Rabs_mult.
    assert (Rabs (f x) <= K) by (unfold K; pose proof (B x Hx); pose proof (Rle_abs M); pose proof (Rabs_pos M'); lra). assert (Rabs (g y) <= K) by (unfold K; pose proof (B' y Hy); pose proof (Rle_abs M'); pose proof (Rabs_pos M); lra).
    pose proof (Rabs_pos (f x)). pose proof (Rabs_pos (g y)). pose proof (Rabs_pos (f x - f y)). pose proof (Rabs_pos (g x - g y)).
    replace e with (K * (e / (2 * K)) + (e / (2 * K)) * K) by (field; lra). apply Rplus_le_compat; apply Rmult_le_compat; auto.
  - exists (M * M'). intros x Hx. rewrite Rabs_mult. apply Rmult_le_compat; auto using Rabs_pos.
Qed.
(** a function of the value, continuous everywhere *)
Lemma nice_comp (h : R -> R) f : (forall t, continuity_pt h t) -> nice f -> nice (fun x => h (f x)).
Proof.
  intros Hh [U [M B]]. set (K := Rabs M).
  assert (BK : forall x, D x -> - K <= f x <= K). { intros x Hx. specialize (B x Hx). pose proof (Rle_abs M). apply Rabs_le_between. unfold K. lra. }
  assert (HK : - K <= K) by (unfold K; pose proof (Rabs_pos M); lra). split.
  - intros e He. destruct (Heine h (fun t => - K <= t <= K) (compact_P3 (- K) K) (fun t _ => Hh t) (mkposreal e He)) as [d Hd]. destruct (U (d / 2) ltac:(pose proof (cond_pos d); lra)) as (d' & Hd' & C).
    exists d'. split; auto. intros x y Hx Hy Hxy. apply Rlt_le, Hd; auto. eapply Rle_lt_trans; [apply C; auto|]. pose proof (cond_pos d). lra.
  - destruct (continuity_ab_maj (fun t => Rabs (h t)) (- K) K HK) as (t & Ht & _). { intros c _. apply (continuity_pt_comp h Rabs); auto. apply Rcontinuity_abs. }
    exists (Rabs (h t)). intros x Hx. apply Ht. auto.
Qed.
Lemma nice_opp f : nice f -> nice (fun x => - f x).
Proof. intros H. apply (nice_ext (fun x => (- 1) * f x)); [intros; ring|]. apply nice_mult; auto. apply nice_const. Qed.
Lemma nice_minus f g : nice f -> nice g -> nice (fun x => f x - g x).
Proof. intros H H'. apply (nice_plus f (fun x => - g x)); auto. apply nice_opp; auto. Qed.
Lemma nice_inv f m : 0 < m -> (forall x, D x -> m <= f x) -> nice f -> nice (fun x => / f x).
Proof.
  intros Hm Hf H. apply (nice_ext (fun x => (fun t => / Rmax t m) (f x))). { intros x Hx. cbn. rewrite Rmax_left by auto. reflexivity. }
  apply (nice_comp (fun t => / Rmax t m)); auto. intros t. apply (continuity_pt_inv (fun t => Rmax t m)).
  - apply cont_max_r.
  - pose proof (Rmax_r t m). lra.
Qed.
End Algebra.

(** ** One more variable *)
Section Step.
Variable Y : Type.
Variable D : Y -> Prop.
Variable near : R -> Y -> Y -> Prop.
Hypothesis Hn : narrows near.
Variables a b : R.
Hypothesis Hab : a < b.
Lemma nice_last : nice (Y * R) (pdom D a b) (pnear near) snd.
Proof.
  split.
  - intros e He. exists e. split; auto. intros x y _ _ [_ H]. lra.
  - exists (Rabs a + Rabs b). intros x [_ H]. unfold Rabs. repeat destruct (Rcase_abs _); lra.
Qed.
Lemma nice_first f : nice Y D near f -> nice (Y * R) (pdom D a b) (pnear near) (fun z => f (fst z)).
Proof.
  intros [U [M B]]. split.
  - intros e He. destruct (U e He) as (d & Hd & K). exists d. split; auto. intros x y [Hx _] [Hy _] [H _]. auto.
  - exists M. intros x [Hx _]. auto.
Qed.
Variable f : Y * R -> R.
Hypothesis Hf : nice (Y * R) (pdom D a b) (pnear near) f.
Lemma slice y : D y -> uc1 a b (fun x => f (y, x)).
Proof. intros Hy e He. destruct (proj1 Hf e He) as (d & Hd & K). exists d. split; auto. intros u v Hu Hv Huv. apply K; split; cbn; auto. apply (proj2 Hn); auto. Qed.
Lemma slice_integrable y : D y -> ex_RInt (fun x => f (y, x)) a b.
Proof. intros Hy. apply (uc1_integrable a b); [lra|apply slice; auto|lra|lra]. Qed.
Lemma nice_integral : nice Y D near (fun y => RInt (fun x => f (y, x)) a b).
Proof.
  split.
  - intros e He. assert (He' : 0 < e / (b - a)) by (apply Rdiv_lt_0_compat; lra). destruct (proj1 Hf _ He') as (d & Hd & K). exists d. split; auto. intros y y' Hy Hy' H.
    pose proof (RInt_minus (fun x => f (y, x)) (fun x => f (y', x)) a b (slice_integrable y Hy) (slice_integrable y' Hy')) as E. unfold Hierarchy.minus, plus, opp in E. simpl in E. unfold Rminus. rewrite <- E.
    replace e with (e / (b - a) * (b - a)) by (field; lra). rewrite Rmult_comm.
    apply abs_RInt_le_const; [lra|apply (ex_RInt_minus (fun x => f (y, x)) (fun x => f (y', x))); apply slice_integrable; auto|]. intros x Hx. apply (K (y, x) (y', x)); try (split; cbn; auto). cbn. rewrite Rminus_eq_0, Rabs_R0. auto.
  - destruct (proj2 Hf) as [M B]. exists ((b - a) * M). intros y Hy. apply abs_RInt_le_const; [lra|apply slice_integrable; auto|]. intros x Hx. apply B. split; auto.
Qed.
Lemma grid_integral e : 0 < e -> exists d, 0 < d /\ forall xs y, fine a b d xs -> D y -> Rabs (over xs (fun x => f (y, x)) - RInt (fun x => f (y, x)) a b) <= e.
Proof.
  intros He. assert (He' : 0 < e / (b - a)) by (apply Rdiv_lt_0_compat; lra). destruct (proj1 Hf _ He') as (d & Hd & K). exists d. split; auto. intros xs y Hx Hy.
  replace e with (e / (b - a) * (b - a)) by (field; lra). apply (over_close _ a b d); auto; [lra|apply slice; auto|]. intros u v Hu Hv Huv. apply K; split; cbn; auto. apply (proj2 Hn); auto.
Qed.
End Step.

(** ** Two and three variables *)
Definition dom0 (_ : unit) : Prop := True.
Definition near0 (_ : R) (_ _ : unit) : Prop := True.
Lemma near0_narrows : narrows near0.
Proof. split; intros; exact Logic.I. Qed.

Section Many.
Variables a1 b1 a2 b2 a3 b3 : R.
Hypothesis H1 : a1 < b1.
Hypothesis H2 : a2 < b2.
Hypothesis H3 : a3 < b3.
Definition dom1 := pdom dom0 a1 b1.
Definition near1 := pnear near0.
Definition dom2 := pdom dom1 a2 b2.
Definition near2 := pnear near1.
Definition dom3 := pdom dom2 a3 b3.
Definition near3 := pnear near2.
Lemma near1_narrows : narrows near1. Proof. apply pnear_narrows, near0_narrows. Qed.
Lemma near2_narrows : narrows near2. Proof. apply pnear_narrows, near1_narrows. Qed.
Lemma near3_narrows : narrows near3. Proof. apply pnear_narrows, near2_narrows. Qed.

Lemma over1 (f : R -> R) : nice _ dom1 near1 (fun z => f (snd z)) -> forall e, 0 < e -> exists d, 0 < d /\ forall xs, fine a1 b1 d xs -> Rabs (over xs f - RInt f a1 b1) <= e.
Proof.
  intros Hf e He. destruct (grid_integral unit dom0 near0 near0_narrows a1 b1 H1 _ Hf e He) as (d & Hd & K). exists d. split; auto. intros xs Hx. apply (K xs tt Hx Logic.I).
Qed.
Lemma over2 (f : R -> R -> R) : nice _ dom2 near2 (fun z => f (snd (fst z)) (snd z)) -> forall e, 0 < e -> exists d, 0 < d /\ forall xs ys, fine a1 b1 d xs -> fine a2 b2 d ys ->
  Rabs (over xs (fun u => over ys (f u)) - RInt (fun u => RInt (f u) a2 b2) a1 b1) <= e.
Proof.
  intros Hf e He. pose proof (nice_integral _ dom1 near1 near1_narrows a2 b2 H2 _ Hf) as Hi.
  destruct (over1 (fun u => RInt (f u) a2 b2) Hi (e / 2) ltac:(lra)) as (d & Hd & K).
  assert (He' : 0 < e / 2 / (b1 - a1)) by (apply Rdiv_lt_0_compat; lra).
  destruct (grid_integral _ dom1 near1 near1_narrows a2 b2 H2 _ Hf _ He') as (d' & Hd' & K'). exists (Rmin d d'). split; [apply Rmin_glb_lt; auto|]. intros xs ys Hx Hy.
  pose proof (K xs (fine_coarser _ _ _ _ _ (Rmin_l d d') Hx)) as A.
  assert (B : Rabs (over xs (fun u => over ys (f u)) - over xs (fun u => RInt (f u) a2 b2)) <= e / 2 / (b1 - a1) * (b1 - a1)).
  { rewrite over_linear. apply (over_small _ a1 b1 (Rmin d d')); auto. intros u Hu. apply (K' ys (tt, u)); [apply (fine_coarser _ _ _ _ _ (Rmin_r d d') Hy)|]. split; cbn; auto. exact Logic.I. }
  replace (e / 2 / (b1 - a1) * (b1 - a1)) with (e / 2) in B by (field; lra). apply Rabs_le_between in A. apply Rabs_le_between in B. apply Rabs_le. lra.
Qed.
Lemma over3 (f : R -> R -> R -> R) : nice _ dom3 near3 (fun z => f (snd (fst (fst z))) (snd (fst z)) (snd z)) -> forall e, 0 < e -> exists d, 0 < d /\ forall xs ys zs, fine a1 b1 d xs -> fine a2 b2 d ys -> fine a3 b3 d zs ->
  Rabs (over xs (fun u => over ys (fun v => over zs (f u v))) - RInt (fun u => RInt (fun v => RInt (f u v) a3 b3) a2 b2) a1 b1) <= e.
Proof.
  intros Hf e He. pose proof (nice_integral _ dom2 near2 near2_narrows a3 b3 H3 _ Hf) as Hi.
  destruct (over2 (fun u v => RInt (f u v) a3 b3) Hi (e / 2) ltac:(lra)) as (d & Hd & K).
  assert (He' : 0 < e / 2 / (b1 - a1) / (b2 - a2)) by (repeat apply Rdiv_lt_0_compat; lra).
  destruct (grid_integral _ dom2 near2 near2_narrows a3 b3 H3 _ Hf _ He') as (d' & Hd' & K'). exists (Rmin d d'). split; [apply Rmin_glb_lt; auto|]. intros xs ys zs Hx Hy Hz.
  pose proof (K xs ys (fine_coarser _ _ _ _ _ (Rmin_l d d') Hx) (fine_coarser _ _ _ _ _ (Rmin_l d d') Hy)) as A.
  assert (B : Rabs (over xs (fun u => over ys (fun v => over zs (f u v))) - over xs (fun u => over ys (fun v => RInt (f u v) a3 b3))) <= e / 2 / (b1 - a1) / (b2 - a2) * (b2 - a2) * (b1 - a1)).
  { rewrite over_linear. apply (over_small _ a1 b1 (Rmin d d')); auto. intros u Hu. rewrite over_linear. apply (over_small _ a2 b2 (Rmin d d')); auto. intros v Hv.
    apply (K' zs ((tt, u), v)); [apply (fine_coarser _ _ _ _ _ (Rmin_r d d') Hz)|]. split; cbn; auto. split; cbn; auto. exact Logic.I. }
  replace (e / 2 / (b1 - a1) / (b2 - a2) * (b2 - a2) * (b1 - a1)) with (e / 2) in B by (field; lra). apply Rabs_le_between in A. apply Rabs_le_between in B. apply Rabs_le. lra.
Qed.
End Many.
