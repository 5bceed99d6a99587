(** Facts about the constructor of TimeEvolution. *)
From Verif Require Import Base TEUtils TimeEvolution ListFacts TEIndexFacts TEStageFacts TEStepFacts Spec_TE Spec_Init.

Lemma mem_key_In {A} k (d : list (string * A)) : mem_key k d = true <-> exists f, In (k, f) d.
Proof.
  unfold mem_key. induction d as [|[k' f'] d IH]; simpl.
  - split; [discriminate|]. intros (f & []).
  - destruct (String.eqb k k') eqn:E.
    + apply String.eqb_eq in E. subst. split; eauto.
    + apply String.eqb_neq in E. rewrite IH. split; intros (f & H).
      * exists f; auto.
      * destruct H as [H|H]; [congruence|]. eauto.
Qed.
Lemma dict_set_In {A} k v (d : list (string * A)) x : (exists f, In (x, f) (dict_set k v d)) <-> x = k \/ exists f, In (x, f) d.
Proof.
  induction d as [|[k' f'] d IH]; simpl.
  - split. { intros (f & [H|[]]). injection H; auto. } intros [->|(f & [])]. eauto.
  - destruct (String.eqb k k') eqn:E.
    + apply String.eqb_eq in E. subst. split.
      * intros (f & [H|H]). { injection H; auto. } right; eauto.
      * intros [E|(f & [H|H])]. { exists v. left. congruence. } { exists v. left. congruence. } exists f. right. exact H.
    + split.
      * intros (f & [H|H]). { injection H as -> ->. right; eauto. } destruct (proj1 IH (ex_intro _ f H)) as [->|(f2 & H2)]; eauto.
      * intros [E2|(f & [H|H])].
        -- destruct (proj2 IH (or_introl E2)) as (f & H). exists f. right. exact H.
        -- exists f. left. exact H.
        -- destruct (proj2 IH (or_intror (ex_intro _ f H))) as (f2 & H2). exists f2. right. exact H2.
Qed.
Lemma dict_of_In {A} (l : list (string * A)) x : (exists f, In (x, f) (dict_of l)) <-> exists f, In (x, f) l.
Proof.
  unfold dict_of. assert (G : forall d, (exists f, In (x, f) (fold_left (fun d kv => dict_set (fst kv) (snd kv) d) l d)) <-> (exists f, In (x, f) l) \/ exists f, In (x, f) d).
  { induction l as [|[k v] l IH]; intros d; simpl.
    - split; auto. intros [(f & [])|H]; auto.
    - rewrite IH, dict_set_In. simpl. split.
      + intros [(f & H)|[->|H]]; eauto.
      + intros [(f & [H|H])|H]; eauto. injection H as -> ->. auto. }
  rewrite G. split; auto. intros [H|(f & [])]; auto.
Qed.
Lemma mem_fns b a k : mem_key k (fns_dict b a) = true <-> registered b a k.
Proof.
  rewrite mem_key_In. destruct a as [d|l|n f|]; simpl.
  - tauto.
  - apply dict_of_In.
  - split. { intros (g & [H|[]]). congruence. } intros ->. eauto.
  - destruct b; simpl.
    + split. { intros (g & [H|[]]). split; congruence. } intros (_ & ->). eauto.
    + split. { intros (g & []). } intros (H & _); discriminate.
Qed.
Lemma map_fst_In {A} k (d : list (string * A)) : In k (map fst d) <-> exists f, In (k, f) d.
Proof.
  rewrite in_map_iff. split. { intros ([k' f] & <- & H). eauto. } intros (f & H). exists (k, f). auto.
Qed.
Lemma keys_fns b a k : In k (map fst (fns_dict b a)) <-> registered b a k.
Proof. rewrite map_fst_In, <- mem_key_In. apply mem_fns. Qed.

Lemma strict_increasing g : strictly_increasingb g = true <-> increasing g.
Proof.
  unfold increasing, neighbours. induction g as [|x g IH].
  - simpl. split; auto. intros _ [|i] a b (H & _); discriminate.
  - destruct g as [|y g].
    + simpl. split; auto. intros _ [|i] a b (_ & H); simpl in H; [discriminate|destruct i; discriminate].
    + change (strictly_increasingb (x :: y :: g)) with (Rltb x y && strictly_increasingb (y :: g)).
      rewrite andb_true_iff, IH, Rltb_true. split.
      * intros (Hxy & H) [|i] a b (H1 & H2); [simpl in *; congruence|]. apply (H i); auto.
      * intros H. split. { apply (H 0%nat); auto. } intros i a b (H1 & H2). apply (H (S i)); auto.
Qed.

Lemma guard_true b m : guard b m = Ok tt <-> b = true.
Proof. unfold guard. destruct b; split; auto; discriminate. Qed.

Lemma guard_distinct a : negb (existsb (fun k => mem_key k (fns_dict false (a_rel a)) || mem_key k (fns_dict false (a_abs a))) (map fst (fns_dict true (a_en a)))
    || existsb (fun k => mem_key k (fns_dict false (a_abs a))) (map fst (fns_dict false (a_rel a)))) = true <->
  forall k, ~ (registered true (a_en a) k /\ registered false (a_rel a) k) /\
            ~ (registered true (a_en a) k /\ registered false (a_abs a) k) /\
            ~ (registered false (a_rel a) k /\ registered false (a_abs a) k).
Proof.
  rewrite negb_true_iff, orb_false_iff, <- !not_true_iff_false, !existsb_exists. split.
  - intros (H1 & H2) k. repeat split; intros (Ha & Hb).
    + apply H1. exists k. rewrite keys_fns, orb_true_iff, !mem_fns. auto.
    + apply H1. exists k. rewrite keys_fns, orb_true_iff, !mem_fns. auto.
    + apply H2. exists k. rewrite keys_fns, mem_fns. auto.
  - intros H. split.
    + intros (k & Hk & Hm). rewrite keys_fns in Hk. rewrite orb_true_iff, !mem_fns in Hm. destruct (H k) as (A & B & C). tauto.
    + intros (k & Hk & Hm). rewrite keys_fns in Hk. rewrite mem_fns in Hm. destruct (H k) as (A & B & C). tauto.
Qed.

Lemma guard_low lo g : negb (existsb (fun x => Rltb x lo) g) = true <-> forall x, In x g -> lo <= x.
Proof.
  rewrite negb_true_iff, <- not_true_iff_false, existsb_exists. split.
  - intros H x Hx. destruct (Rle_or_lt lo x); auto. exfalso. apply H. exists x. rewrite Rltb_true. auto.
  - intros H (x & Hx & Hl). apply Rltb_true in Hl. specialize (H x Hx). lra.
Qed.
Lemma guard_high hi g : negb (existsb (fun x => Rltb hi x) g) = true <-> forall x, In x g -> x <= hi.
Proof.
  rewrite negb_true_iff, <- not_true_iff_false, existsb_exists. split.
  - intros H x Hx. destruct (Rle_or_lt x hi); auto. exfalso. apply H. exists x. rewrite Rltb_true. auto.
  - intros H (x & Hx & Hl). apply Rltb_true in Hl. specialize (H x Hx). lra.
Qed.

Lemma guard_known a gs : a_subgroups a = gs ->
  forallb (fun k => mem_key k (fns_dict true (a_en a)) || mem_key k (fns_dict false (a_rel a)) || mem_key k (fns_dict false (a_abs a)))
    (concat (match gs with Some s => s | None => [] end)) = true <->
  forall s names k, gs = Some s -> In names s -> In k names ->
    registered true (a_en a) k \/ registered false (a_rel a) k \/ registered false (a_abs a) k.
Proof.
  intros E. rewrite forallb_forall. split.
  - intros H s names k -> Hn Hk. specialize (H k). rewrite !orb_true_iff, !mem_fns in H. rewrite or_assoc in H. apply H. apply in_concat. eauto.
  - intros H k Hk. rewrite !orb_true_iff, !mem_fns, or_assoc. destruct gs as [s|]; [|destruct Hk]. apply in_concat in Hk. destruct Hk as (n & H1 & H2). eauto.
Qed.

Lemma guard_sums rows : rectangular rows -> forallb close_to_1 (col_sum (ncols rows) rows) = true <->
  forall j first, nth_error rows 0 = Some first -> (j < length first)%nat -> Rabs (Rsum (col j rows) - 1) <= 11 / 10 ^ 6.
Proof.
  intros Hr. destruct rows as [|r0 rows].
  - simpl. unfold col_sum. simpl. split; auto. intros _ j f H; discriminate.
  - assert (Hl : forall r, In r (r0 :: rows) -> length r = ncols (r0 :: rows)). { intros r Hi. apply Hr; simpl; auto. }
    change (ncols (r0 :: rows)) with (length r0) in *. rewrite forallb_forall. unfold close_to_1.
    replace (1 / 10 ^ 6 + 1 / 10 ^ 5) with (11 / 10 ^ 6) by field. split.
    + intros H j first E Hj. injection E as <-. apply Rleb_true. apply H. eapply nth_error_In. apply (col_sum_nth (length r0) (r0 :: rows) j); auto.
    + intros H x Hx. apply In_nth_error in Hx. destruct Hx as (j & Hj).
      assert (Lj : (j < length r0)%nat). { rewrite <- (col_sum_length (length r0) (r0 :: rows)) by auto. apply nth_error_Some. congruence. }
      rewrite col_sum_nth in Hj by auto. injection Hj as <-. apply Rleb_true. apply (H j r0); auto.
Qed.
