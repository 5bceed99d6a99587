(** power_law_integral, axes_reshaper and the conversions *)
From Verif Require Import Base ListFacts NumpyInst MathUtils Conversion Spec_Math MathFacts.
From Coquelicot Require Import Coquelicot.
Import ListNotations.
Open Scope list_scope.
Open Scope R_scope.

(** ** power_law_integral *)
Lemma power_law_integral_exact k p a b : 0 < a -> a <= b -> p = 1 \/ isclose_1 p = false ->
  is_RInt (fun g => k * Rpower g (- p)) a b (power_law_integral k p a b).
Proof.
  intros Ha Hab Hp. unfold power_law_integral, npow. destruct Hp as [->|Hp].
  - unfold isclose_1. rewrite (proj2 (Rleb_true _ _)) by (rewrite Rminus_diag_eq, Rabs_R0 by auto; lra).
    replace (- (1)) with (-1) by ring. apply inverse_RInt; auto.
  - rewrite Hp. apply Rleb_false in Hp.
    assert (p <> 1). { intros ->. rewrite Rminus_diag_eq, Rabs_R0 in Hp by auto. lra. }
    replace (k * ((Rpower b (1 - p) - Rpower a (1 - p)) / (1 - p))) with (k * (Rpower b (- p + 1) - Rpower a (- p + 1)) / (- p + 1)).
    + apply power_RInt; auto. lra.
    + replace (- p + 1) with (1 - p) by ring. unfold Rdiv. ring.
Qed.

Lemma log_vs_power a b q : 1 <= a -> a < b -> q <> 0 -> (Rpower b q - Rpower a q) / q <> ln (b / a).
Proof.
  intros Ha Hab Hq. set (r := b / a).
  assert (Hr : 1 < r). { unfold r. apply (Rmult_lt_reg_r a); [lra|]. unfold Rdiv. rewrite Rmult_assoc, Rinv_l by lra. lra. }
  assert (Hl : 0 < ln r) by (rewrite <- ln_1; apply ln_increasing; lra).
  assert (E : Rpower b q = Rpower a q * Rpower r q).
  { rewrite Rpower_mult_distr by lra. f_equal. unfold r. field. lra. }
  rewrite E. replace ((Rpower a q * Rpower r q - Rpower a q) / q) with (Rpower a q * ((Rpower r q - 1) / q)) by (field; auto).
  assert (Hne : q * ln r <> 0) by (apply Rmult_integral_contrapositive; split; lra).
  pose proof (exp_ineq1 (q * ln r) Hne) as HX. fold (Rpower r q) in HX.
  assert (Ha1 : Rpower a 0 = 1) by (apply Rpower_O; lra).
  destruct (Rdichotomy _ _ Hq) as [Hn|Hp].
  - assert (B : Rpower a q <= 1). { rewrite <- Ha1. apply Rle_Rpower; lra. }
    assert (C : (Rpower r q - 1) / q < ln r). { apply (Rmult_lt_reg_r (- q)); [lra|]. replace ((Rpower r q - 1) / q * - q) with (1 - Rpower r q) by (field; lra). lra. }
    assert (D : 0 < (Rpower r q - 1) / q).
    { replace ((Rpower r q - 1) / q) with ((1 - Rpower r q) / - q) by (field; lra). apply Rdiv_lt_0_compat; [|lra].
      assert (Rpower r q < Rpower r 0) by (apply Rpower_lt; auto). rewrite Rpower_O in H by lra. lra. }
    assert (F : 0 < Rpower a q) by apply exp_pos. nra.
  - assert (B : 1 <= Rpower a q). { rewrite <- Ha1. apply Rle_Rpower; lra. }
    assert (C : ln r < (Rpower r q - 1) / q). { apply (Rmult_lt_reg_r q); [lra|]. replace ((Rpower r q - 1) / q * q) with (Rpower r q - 1) by (field; lra). lra. }
    nra.
Qed.
Lemma power_law_integral_inexact k p a b v : 1 <= a -> a < b -> k <> 0 -> isclose_1 p = true -> p <> 1 ->
  is_RInt (fun g => k * Rpower g (- p)) a b v -> power_law_integral k p a b <> v.
Proof.
  intros Ha Hab Hk Hc Hp Hv E.
  assert (Hv' : is_RInt (fun g => k * Rpower g (- p)) a b (k * (Rpower b (- p + 1) - Rpower a (- p + 1)) / (- p + 1))).
  { apply power_RInt; lra. }
  pose proof (is_RInt_unique (V:=R_CompleteNormedModule) _ _ _ _ Hv) as U. pose proof (is_RInt_unique (V:=R_CompleteNormedModule) _ _ _ _ Hv') as U'.
  rewrite U' in U. clear Hv. rename U into Hv.
  unfold power_law_integral in E. rewrite Hc in E. rewrite <- E in Hv.
  apply (log_vs_power a b (- p + 1)); auto. { lra. }
  apply (Rmult_eq_reg_l k); auto. rewrite <- Hv. unfold Rdiv. ring.
Qed.

(** ** axes_reshaper *)
Lemma set_nth_length {A} (l : list A) i v : length (set_nth l i v) = length l.
Proof. revert i. induction l as [|a l IH]; intros [|i]; simpl; auto. Qed.
Lemma set_nth_get {A} (l : list A) i v j : (i < length l)%nat ->
  nth_error (set_nth l i v) j = if Nat.eqb j i then Some v else nth_error l j.
Proof.
  revert i j. induction l as [|a l IH]; intros [|i] [|j] H; simpl in *; try lia; auto. apply IH. lia.
Qed.
Lemma set_nth_app {A} (l : list A) a m v : set_nth (l ++ a :: m) (length l) v = l ++ v :: m.
Proof. induction l as [|b l IH]; simpl; auto. rewrite IH. auto. Qed.
Lemma prod_ones n : fold_right Nat.mul 1%nat (repeat 1%nat n) = 1%nat.
Proof. induction n as [|n IH]; simpl; auto. lia. Qed.
Lemma ravel_ones n : forall idx, ravel (repeat 1%nat n) (bcast_index (repeat 1%nat n) idx) = O.
Proof. induction n as [|n IH]; intros [|k idx]; simpl; auto. Qed.
Lemma ravel_reshaped n : forall i s idx, (i < n)%nat -> length idx = n -> (nth i idx O < s)%nat ->
  ravel (set_nth (repeat 1%nat n) i s) (bcast_index (set_nth (repeat 1%nat n) i s) idx) = nth i idx O.
Proof.
  induction n as [|n IH]; intros i s idx Hi Hl Hs; [lia|].
  destruct idx as [|k idx]; [discriminate|]. simpl in Hl. injection Hl as Hl.
  destruct i as [|i]; simpl in Hs |- *.
  - fold (bcast_index (repeat 1%nat n) idx). rewrite ravel_ones, prod_ones.
    destruct (Nat.eqb_spec s 1); [subst|]; lia.
  - apply IH; auto. lia.
Qed.
Lemma axes_reshaper_nth args i a : nth_error args i = Some a ->
  nth_error (axes_reshaper args) i = Some {| shape_of := set_nth (repeat 1%nat (length args)) i (length a); data_of := a |}.
Proof.
  intros H. unfold axes_reshaper. rewrite nth_error_map.
  assert (Hi : (i < length args)%nat) by (apply nth_error_Some; congruence).
  assert (E : nth_error (combine (seq 0 (length args)) args) i = Some (i, a)).
  { clear -H Hi. assert (G : forall s, nth_error (combine (seq s (length args)) args) i = Some ((s + i)%nat, a)).
    { revert args H Hi. induction i as [|i IH]; intros [|b args] H Hi s; simpl in *; try lia; try discriminate.
      - injection H as ->. rewrite Nat.add_0_r. reflexivity.
      - rewrite IH by (auto; lia). replace (s + S i)%nat with (S s + i)%nat by lia. reflexivity. }
    apply (G O). }
  rewrite E. reflexivity.
Qed.
Lemma axes_reshaper_length args : length (axes_reshaper args) = length args.
Proof. unfold axes_reshaper. rewrite map_length, combine_length, seq_length. lia. Qed.

Lemma bcast_dim_1_l s : bcast_dim 1 s = Some s.
Proof. unfold bcast_dim. destruct (Nat.eqb_spec 1 s); [subst|]; reflexivity. Qed.
Lemma bcast_dim_1_r s : bcast_dim s 1 = Some s.
Proof. unfold bcast_dim. destruct (Nat.eqb_spec s 1); [subst|]; auto. Qed.
Lemma bcast_ones_r l : bcast_shape l (repeat 1%nat (length l)) = Some l.
Proof. induction l as [|a l IH]; simpl; auto. rewrite bcast_dim_1_r, IH. reflexivity. Qed.
Lemma bcast_step pre s k : bcast_shape (pre ++ repeat 1%nat (S k)) (set_nth (repeat 1%nat (length pre + S k)) (length pre) s)
  = Some (pre ++ s :: repeat 1%nat k).
Proof.
  rewrite repeat_app. change (repeat 1%nat (S k)) with (1%nat :: repeat 1%nat k).
  replace (length pre) with (length (repeat 1%nat (length pre))) at 2 by apply repeat_length.
  rewrite set_nth_app. induction pre as [|a pre IH]; simpl.
  - rewrite bcast_dim_1_l. replace (repeat 1%nat k) with (repeat 1%nat (length (repeat 1%nat k))) at 2 by (rewrite repeat_length; auto).
    rewrite bcast_ones_r. reflexivity.
  - rewrite bcast_dim_1_r, IH. reflexivity.
Qed.
Lemma bcast_fold args : forall pre n, n = (length pre + length args)%nat ->
  fold_left (fun acc s => match acc with Some a => bcast_shape a s | None => None end)
    (map shape_of (map (fun iarg => {| shape_of := set_nth (repeat 1%nat n) (fst iarg) (length (snd iarg)); data_of := snd iarg |})
      (combine (seq (length pre) (length args)) args))) (Some (pre ++ repeat 1%nat (length args)))
  = Some (pre ++ map (@length R) args).
Proof.
  induction args as [|a args IH]; intros pre n Hn.
  - simpl. reflexivity.
  - cbn [length seq combine map fold_left fst snd shape_of]. subst n. cbn [length].
    rewrite bcast_step.
    specialize (IH (pre ++ length a :: nil) (length pre + S (length args))%nat).
    rewrite app_length in IH. cbn [length] in IH. rewrite Nat.add_1_r in IH. rewrite <- !app_assoc in IH. cbn [app] in IH.
    apply IH. lia.
Qed.
Lemma bcast_axes args : bcast_shapes (length args) (map shape_of (axes_reshaper args)) = Some (map (@length R) args).
Proof. apply (bcast_fold args [] (length args)). reflexivity. Qed.
