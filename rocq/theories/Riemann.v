(** Trapezoidal sums over logarithmic grids tend to the Riemann integral of any
    integrable function, continuous or not. *)
From Verif Require Import Base TEUtils ListFacts MathUtils Spectra Spec_Math Spec_Beams Spec_Emission MathFacts Props_Opacity Props_Refine.
From Coquelicot Require Import Coquelicot.
From Coq Require Import List Lra Lia.
Import ListNotations.
Open Scope list_scope.
Open Scope R_scope.

(** a grid with a point chosen in every cell *)
Fixpoint tagged (sel : R -> R -> R) (x : R) (l : list R) : SF_seq :=
  match l with nil => SF_nil x | y :: l' => SF_cons (x, sel x y) (tagged sel y l') end.
Lemma tagged_h sel x l : SF_h (tagged sel x l) = x.
Proof. destruct l; reflexivity. Qed.
Lemma tagged_lx sel : forall l x, SF_lx (tagged sel x l) = x :: l.
Proof.
  induction l as [|y l IH]; intros x; [reflexivity|]. cbn [tagged]. rewrite SF_lx_cons, IH. reflexivity.
Qed.
Lemma tagged_sum sel (f : R -> R) : forall l x, Riemann_sum f (tagged sel x l) = csum (fun u v => (v - u) * f (sel u v)) (x :: l).
Proof.
  induction l as [|y l IH]; intros x; [reflexivity|]. cbn [tagged]. rewrite Riemann_sum_cons, IH, tagged_h. reflexivity.
Qed.
Lemma tagged_ptd sel : forall l x, (forall i u v, nth_error (x :: l) i = Some u -> nth_error (x :: l) (S i) = Some v -> u <= sel u v <= v) -> pointed_subdiv (tagged sel x l).
Proof.
  induction l as [|y l IH]; intros x H; cbn [tagged].
  - intros i Hi. exfalso. cbn in Hi. inversion Hi.
  - intros [|i] Hi.
    + rewrite SF_lx_cons, tagged_lx. cbn. apply (H 0%nat); reflexivity.
    + rewrite SF_size_cons in Hi. rewrite SF_lx_cons. change (SF_ly (SF_cons (x, sel x y) (tagged sel y l))) with (sel x y :: SF_ly (tagged sel y l)). cbn [seq.nth].
      apply IH; [|lia].
      intros j u v Hu Hv. apply (H (S j)); auto.
Qed.
Lemma step_lt d : 0 < d -> forall l x, (forall i u v, nth_error (x :: l) i = Some u -> nth_error (x :: l) (S i) = Some v -> Rabs (v - u) < d) -> seq_step (x :: l) < d.
Proof.
  intros Hd. unfold seq_step. cbn [seq.head seq.behead]. induction l as [|y l IH]; intros x H; cbn [seq.pairmap seq.foldr]; [exact Hd|].
  apply Rmax_lub_lt; [apply (H 0%nat); reflexivity|]. apply IH. intros j u v Hu Hv. apply (H (S j)); auto.
Qed.
Lemma last_of : forall (l : list R) x b, nth_error (x :: l) (length (x :: l) - 1) = Some b -> seq.last x l = b.
Proof.
  induction l as [|y l IH]; intros x b H; cbn [seq.last]; [cbn in H; congruence|]. apply IH. cbn [length] in *. replace (S (length l) - 1)%nat with (length l) by lia. replace (S (S (length l)) - 1)%nat with (S (length l)) in H by lia. exact H.
Qed.
Lemma tagged_limit sel (f : R -> R) a b If : 0 < a -> a < b -> (forall u v, u <= v -> u <= sel u v <= v) -> is_RInt f a b If ->
  is_lim_seq (fun n => csum (fun u v => (v - u) * f (sel u v)) (log_grid a b n)) If.
Proof.
  intros Ha Hab Hsel HI. apply (is_lim_seq_incr_n _ 2). apply is_lim_seq_spec. intros eps. pose proof (cond_pos eps) as Hep.
  assert (HL : locally If (fun y => Rabs (y - If) < eps)). { exists eps. intros y Hy. exact Hy. }
  destruct (HI _ HL) as [d Hd]. pose proof (cond_pos d) as Hpd.
  set (K := b * (b / a) * ln (b / a)). 
  assert (HK : 0 < K). { unfold K. assert (1 < b / a) by (apply (proj1 (Rlt_div_r 1 b a Ha)); lra). assert (0 < ln (b / a)) by (rewrite <- ln_1; apply ln_increasing; lra). apply Rmult_lt_0_compat; auto. apply Rmult_lt_0_compat; lra. }
  destruct (nfloor_ex (K / d)) as [N HN]. { apply Rlt_le, Rdiv_lt_0_compat; lra. }
  exists (S N). intros n Hn. replace (n + 2)%nat with (S (S n)) by lia.
  destruct (grid_ends a b n Ha Hab) as [E0 E1]. pose proof (fun i u v => grid_mesh a b n i u v Ha Hab) as M.
  destruct (log_grid a b (S (S n))) as [|x l] eqn:EG; [discriminate|]. cbn [nth_error] in E0. apply some_inj in E0. subst x. apply last_of in E1.
  assert (Hm : K / INR (S n) < d).
  { apply (proj2 (Rlt_div_l K d (INR (S n)) ltac:(apply lt_0_INR; lia))). assert (K / d < INR (S n)). { apply Rlt_le_trans with (INR N + 1); [apply HN|]. rewrite <- S_INR. apply le_INR. lia. }
    apply (proj1 (Rlt_div_l K (INR (S n)) d Hpd)) in H. rewrite Rmult_comm in H. lra. }
  assert (X := Hd (tagged sel a l)). rewrite tagged_h, tagged_lx in X. cbn beta in X.
  assert (C1 : seq_step (a :: l) < d).
  { apply step_lt; auto. intros i u v Hu Hv. destruct (M i u v Hu Hv) as (? & ? & ? & Hs). fold K in Hs. rewrite Rabs_pos_eq by lra. lra. }
  assert (C2 : pointed_subdiv (tagged sel a l) /\ a = Rmin a b /\ seq.last a (a :: l) = Rmax a b).
  { split; [|split].
    - apply tagged_ptd. intros i u v Hu Hv. apply Hsel. destruct (M i u v Hu Hv) as (? & ? & ? & _). lra.
    - rewrite Rmin_left; lra.
    - cbn [seq.last]. rewrite Rmax_right; lra. }
  specialize (X C1 C2). rewrite tagged_sum in X. rewrite sign_eq_1 in X by lra. unfold scal in X; simpl in X; unfold mult in X; simpl in X. rewrite Rmult_1_l in X. exact X.
Qed.
(** the trapezoidal rule *)
Lemma riemann_limit (f : R -> R) a b If : 0 < a -> a < b -> is_RInt f a b If -> is_lim_seq (fun n => over (log_grid a b n) f) If.
Proof.
  intros Ha Hab HI.
  pose proof (tagged_limit (fun u _ => u) f a b If Ha Hab ltac:(intros; lra) HI) as L.
  pose proof (tagged_limit (fun _ v => v) f a b If Ha Hab ltac:(intros; lra) HI) as Rr.
  replace If with (/ 2 * (If + If)) by lra.
  apply (is_lim_seq_ext (fun n => / 2 * (csum (fun u v => (v - u) * f u) (log_grid a b n) + csum (fun u v => (v - u) * f v) (log_grid a b n)))).
  { intros n. rewrite csum_over. induction (log_grid a b n) as [|x [|y l] IH]; cbn [csum] in *; try lra. }
  apply (is_lim_seq_scal_l _ (/ 2) (If + If)). apply is_lim_seq_plus'; auto.
Qed.
(** a function given by a continuous one on [al, be] and zero elsewhere *)
Lemma piece_int (f h : R -> R) a b al be : a < b -> (forall x, a <= x <= b -> al <= x <= be -> continuous h x) ->
  (forall x, a < x < b -> al < x < be -> f x = h x) -> (forall x, a < x < b -> ~ (al <= x <= be) -> f x = 0) -> ex_RInt f a b.
Proof.
  intros Hab Hc Hin Hout. 
  set (u := Rmax a (Rmin al b)). set (v := Rmax u (Rmin be b)).
  assert (Hu : a <= u <= b) by (unfold u; split; [apply Rmax_l|]; apply Rmax_lub; [lra|apply Rmin_r]).
  assert (Hv : u <= v <= b) by (unfold v; split; [apply Rmax_l|]; apply Rmax_lub; [lra|apply Rmin_r]).
  apply (@ex_RInt_Chasles R_NormedModule) with v. 1: apply (@ex_RInt_Chasles R_NormedModule) with u.
  - apply (ex_RInt_ext (fun _ => 0)); [|apply ex_RInt_const]. intros x. rewrite Rmin_left, Rmax_right by lra. intros Hx. symmetry. apply Hout; [lra|]. intros [B1 B2]. apply (Rlt_irrefl x). apply Rlt_le_trans with u; [lra|]. unfold u. apply Rmax_lub; [lra|]. apply Rle_trans with al; [apply Rmin_l|lra].
  - destruct (Rle_lt_or_eq_dec u v (proj1 Hv)) as [Huv|Huv]; [|rewrite <- Huv; apply ex_RInt_point].
    assert (Ev : v = Rmin be b). { unfold v in *. destruct (Rle_dec u (Rmin be b)) as [L|L]; [apply Rmax_right; lra|rewrite Rmax_left in Huv by lra; lra]. }
    pose proof (Rmin_l be b) as B1. pose proof (Rmin_r be b) as B2. assert (B3 : Rmin al b <= u) by (unfold u; apply Rmax_r).
    assert (B4 : al <= u). { unfold Rmin in B3. destruct (Rle_dec al b); lra. }
    apply (ex_RInt_ext h).
    + intros x. rewrite Rmin_left, Rmax_right by lra. intros Hx. symmetry. apply Hin; lra.
    + apply (@ex_RInt_continuous R_CompleteNormedModule). intros x. rewrite Rmin_left, Rmax_right by lra. intros Hx. apply Hc; lra.
  - apply (ex_RInt_ext (fun _ => 0)); [|apply ex_RInt_const]. intros x. rewrite Rmin_left, Rmax_right by lra. intros Hx. symmetry. apply Hout; [lra|]. intros [B1 B2]. apply (Rlt_irrefl x). apply Rle_lt_trans with v; [|lra]. unfold v. apply Rle_trans with (Rmin be b); [|apply Rmax_r]. apply Rmin_glb; lra.
Qed.
