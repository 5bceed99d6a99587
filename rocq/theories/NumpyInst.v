(** A concrete instance of the numerical primitives: exact log10 and 10^x,
    insertion sort, linear interpolation between the nodes.  Used only to show
    that the assumptions on the primitives can be met. *)
From Verif Require Import Base TEUtils ListFacts.

(** What exact arithmetic gives on top of [numpy_ok]: 10**log10(x) = x, a
    strictly increasing logarithm, and PchipInterpolator passing through its
    nodes. *)
Record numpy_exact (np : numpy) : Prop := {
  p10_lg : forall x, 0 < x -> p10 np (lg np x) = x;
  lg_p10 : forall y, lg np (p10 np y) = y;
  lg_strict : forall x y, 0 < x -> x < y -> lg np x < lg np y;
  lg_mul : forall x y, 0 < x -> 0 < y -> lg np (x * y) = lg np x + lg np y;
  interp_node : forall xs ys i x y, (forall j a b, nth_error xs j = Some a -> nth_error xs (S j) = Some b -> a < b) ->
     length ys = length xs -> nth_error xs i = Some x -> nth_error ys i = Some y -> interp np xs ys x = y
}.

Fixpoint ins_idx (key : nat -> R) (i : nat) (l : list nat) : list nat :=
  match l with
  | [] => [i]
  | j :: l' => if Rleb (key i) (key j) then i :: l else j :: ins_idx key i l'
  end.
Definition sort_idx (l : list R) : list nat := fold_right (ins_idx (fun i => nth i l 0)) [] (seq 0 (length l)).

Fixpoint lin_interp (xs ys : list R) (x : R) : R :=
  match xs, ys with
  | x0 :: xs', y0 :: ys' =>
      match xs', ys' with
      | x1 :: _, y1 :: _ => if Rleb x x1 then y0 + (y1 - y0) * ((x - x0) / (x1 - x0)) else lin_interp xs' ys' x
      | _, _ => y0
      end
  | _, _ => 0
  end.

Definition log10 (x : R) : R := ln x / ln 10.
Definition pow10 (x : R) : R := exp (x * ln 10).
Definition np0 : numpy := {| lg := log10; p10 := pow10; argsort := sort_idx; interp := lin_interp |}.

Lemma ln10_pos : 0 < ln 10.
Proof. rewrite <- ln_1. apply ln_increasing; lra. Qed.
Lemma log10_lt x y : 0 < x -> x < y -> log10 x < log10 y.
Proof. intros. unfold log10, Rdiv. apply Rmult_lt_compat_r; [apply Rinv_0_lt_compat, ln10_pos|apply ln_increasing; auto]. Qed.
Lemma log10_mul x y : 0 < x -> 0 < y -> log10 (x * y) = log10 x + log10 y.
Proof. intros. unfold log10. rewrite ln_mult by auto. field. pose proof ln10_pos; lra. Qed.
Lemma log10_10 : log10 10 = 1.
Proof. unfold log10. field. pose proof ln10_pos; lra. Qed.
Lemma pow10_log10 x : 0 < x -> pow10 (log10 x) = x.
Proof. intros. unfold pow10, log10. replace (ln x / ln 10 * ln 10) with (ln x) by (field; pose proof ln10_pos; lra). apply exp_ln; auto. Qed.
Lemma log10_pow10 y : log10 (pow10 y) = y.
Proof. unfold pow10, log10. rewrite ln_exp. field. pose proof ln10_pos; lra. Qed.

Lemma ins_idx_perm key i l : Permutation (ins_idx key i l) (i :: l).
Proof. induction l as [|j l IH]; simpl; auto. destruct (Rleb (key i) (key j)); auto. rewrite IH. constructor. Qed.
Lemma sort_idx_perm l : Permutation (sort_idx l) (seq 0 (length l)).
Proof. unfold sort_idx. induction (seq 0 (length l)) as [|i s IH]; simpl; auto. rewrite ins_idx_perm. auto. Qed.

Definition key_sorted (key : nat -> R) (l : list nat) : Prop := forall i j a b, (i < j)%nat -> nth_error l i = Some a -> nth_error l j = Some b -> key a <= key b.
Lemma key_sorted_cons key a l : key_sorted key (a :: l) <-> (forall b, In b l -> key a <= key b) /\ key_sorted key l.
Proof.
  split.
  - intros H. split.
    + intros b Hb. apply In_nth_error in Hb as [j Hj]. apply (H 0%nat (S j)); auto; lia.
    + intros i j x y Hij Hx Hy. apply (H (S i) (S j)); auto; lia.
  - intros [H1 H2] i j x y Hij Hx Hy. destruct j; [lia|]. destruct i; simpl in *.
    + injection Hx as <-. apply H1. eapply nth_error_In; eauto.
    + eapply H2; [|eauto|eauto]; lia.
Qed.
Lemma ins_idx_sorted key i l : key_sorted key l -> key_sorted key (ins_idx key i l).
Proof.
  induction l as [|j l IH]; simpl; intros H.
  - apply key_sorted_cons. split; [intros b []|auto].
  - apply key_sorted_cons in H as H'. destruct H' as [H1 H2]. destruct (Rleb_spec (key i) (key j)).
    + apply key_sorted_cons. split; auto. intros b [<-|Hb]; auto. specialize (H1 b Hb). lra.
    + apply key_sorted_cons. split; [|auto]. intros b Hb. apply (Permutation_in b (ins_idx_perm key i l)) in Hb as [<-|Hb]; auto. lra.
Qed.

Lemma lin_interp_node xs : forall ys i x y, (forall j a b, nth_error xs j = Some a -> nth_error xs (S j) = Some b -> a < b) ->
  length ys = length xs -> nth_error xs i = Some x -> nth_error ys i = Some y -> lin_interp xs ys x = y.
Proof.
  induction xs as [|x0 xs IH]; intros [|y0 ys] i x y Hs L Hx Hy; try discriminate; [destruct i; discriminate|].
  cbn [lin_interp]. destruct xs as [|x1 xs]; destruct ys as [|y1 ys]; try discriminate.
  { destruct i; simpl in *; [congruence|destruct i; discriminate]. }
  assert (H01 : x0 < x1) by (apply (Hs 0%nat); auto).
  assert (Hs' : forall j a b, nth_error (x1 :: xs) j = Some a -> nth_error (x1 :: xs) (S j) = Some b -> a < b) by (intros j; apply (Hs (S j))).
  destruct i as [|[|i]]; simpl in Hx, Hy.
  - injection Hx as <-. injection Hy as <-. rewrite (proj2 (Rleb_true x0 x1)) by lra. replace (x0 - x0) with 0 by lra. unfold Rdiv. lra.
  - injection Hx as <-. injection Hy as <-. rewrite (proj2 (Rleb_true x1 x1)) by lra. field. lra.
  - assert (Hlt : x1 < x).
    { clear - Hs' Hx. revert x1 xs Hs' x Hx. induction i as [|i IHi]; intros x1 [|x2 xs] Hs' x Hx; simpl in Hx; try discriminate.
      - injection Hx as <-. apply (Hs' 0%nat); auto.
      - assert (x1 < x2) by (apply (Hs' 0%nat); auto). assert (x2 < x); [|lra]. apply (IHi x2 xs); auto. intros j; apply (Hs' (S j)). }
    rewrite (proj2 (Rleb_false x x1)) by lra. apply (IH (y1 :: ys) (S i)); auto.
Qed.

Lemma np0_ok : numpy_ok np0.
Proof.
  constructor; simpl.
  - intros x y Hx [Hlt|<-]; [apply Rlt_le, log10_lt; auto|lra].
  - intros x. apply exp_pos.
  - apply sort_idx_perm.
  - intros l. change (key_sorted (fun i => nth i l 0) (sort_idx l)). unfold sort_idx. induction (seq 0 (length l)) as [|i s IH]; simpl.
    + intros i j a b _ H. destruct i; discriminate.
    + apply ins_idx_sorted; auto.
Qed.

Lemma np0_exact : numpy_exact np0.
Proof.
  constructor; simpl.
  - apply pow10_log10.
  - apply log10_pow10.
  - apply log10_lt.
  - apply log10_mul.
  - intros; eapply lin_interp_node; eauto.
Qed.
