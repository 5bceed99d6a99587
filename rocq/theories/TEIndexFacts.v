(** Index bookkeeping, grouping of duplicates and merging of points. *)
From Verif Require Import Base TEUtils ListFacts.

Lemma py_get_same_length {A B} (l : list A) (m : list B) z a :
  length l = length m -> py_get l z = Ok a ->
  exists i b, nth_error l i = Some a /\ nth_error m i = Some b /\ py_get m z = Ok b.
Proof.
  intros E. unfold py_get. rewrite E. destruct (_ || _)%bool; [discriminate|].
  set (k := Z.to_nat _). destruct (nth_error l k) as [a'|] eqn:El; [|discriminate].
  intros H; injection H as ->.
  destruct (nth_error_Some_ex m k) as [b Hb]. { rewrite <- E. eapply nth_error_lt; eauto. }
  exists k, b. rewrite Hb. auto.
Qed.

Section Compose.
Context {A : Type}.
(** a remapping function whose new elements all get value [d i] *)
Lemma compose_core (f s fs : list Z) (v v1 v2 : list A) (d : A) :
  combine_mapping f s = Ok fs ->
  length v1 = length f ->
  (forall i z a, nth_error f i = Some z -> nth_error v1 i = Some a ->
     if Z.eqb z (-1) then a = d else py_get v z = Ok a) ->
  length v2 = length s ->
  (forall i z a, nth_error s i = Some z -> nth_error v2 i = Some a ->
     if Z.eqb z (-1) then a = d else py_get v1 z = Ok a) ->
  forall i z a, nth_error fs i = Some z -> nth_error v2 i = Some a ->
     if Z.eqb z (-1) then a = d else py_get v z = Ok a.
Proof.
  intros Hc L1 H1 L2 H2 i z a Ez Ea.
  pose proof (combine_mapping_length _ _ _ Hc) as Lc.
  destruct (nth_error_Some_ex s i) as [zs Es]. { rewrite <- L2. eapply nth_error_lt; eauto. }
  pose proof (combine_mapping_nth _ _ _ Hc _ _ _ Es Ez) as X.
  pose proof (H2 _ _ _ Es Ea) as Y.
  destruct (Z.eqb_spec zs (-1)).
  - subst z. simpl. auto.
  - destruct (py_get_same_length v1 f zs a) as (k & b & E1 & E2 & E3); auto.
    assert (b = z) by congruence. subst b. exact (H1 _ _ _ E2 E1).
Qed.
End Compose.

Lemma remap_of_nth {A} (m : list Z) (v r : list A) (d : option A) :
  length r = length m ->
  (forall i z a, nth_error m i = Some z -> nth_error r i = Some a ->
     if Z.eqb z (-1) then d = Some a else py_get v z = Ok a) ->
  (In (-1)%Z m -> v <> []) ->
  remap m v d = Ok r.
Proof.
  intros L H Hne. unfold remap.
  destruct (mapM_ok_all (py_get v) m) as [t Ht].
  { intros z Hz. apply nth_error_In_iff in Hz as [i Ei].
    destruct (nth_error_Some_ex r i) as [a Ea]. { rewrite L. eapply nth_error_lt; eauto. }
    pose proof (H _ _ _ Ei Ea) as X. destruct (Z.eqb_spec z (-1)); eauto.
    subst. apply py_get_m1. apply Hne. eapply nth_error_In; eauto. }
  unfold take_idx. rewrite Ht. simpl.
  pose proof (mapM_length _ _ _ Ht) as Lt.
  destruct (existsb _ m) eqn:Ex.
  - destruct d as [d|].
    + f_equal. apply nth_error_ext; [rewrite map2_length; lia|]. intros i a b Ea Eb.
      rewrite nth_error_map2 in Ea.
      destruct (nth_error m i) as [z|] eqn:Ez; [|discriminate].
      destruct (nth_error t i) as [x|] eqn:Ext; [|discriminate]. injection Ea as <-.
      pose proof (H _ _ _ Ez Eb) as X. destruct (Z.eqb z (-1)); [congruence|].
      destruct (mapM_nth _ _ _ Ht _ _ Ez) as (y & Ey & Hy). congruence.
    + exfalso. apply existsb_exists in Ex as (z & Hz & Ez). apply Z.eqb_eq in Ez. subst z.
      apply nth_error_In_iff in Hz as [i Ei].
      destruct (nth_error_Some_ex r i) as [a Ea]. { rewrite L. eapply nth_error_lt; eauto. }
      pose proof (H _ _ _ Ei Ea) as X. simpl in X. discriminate.
  - f_equal. apply nth_error_ext; [lia|]. intros i a b Ea Eb.
    destruct (nth_error_Some_ex m i) as [z Ez]. { rewrite <- L. eapply nth_error_lt; eauto. }
    pose proof (H _ _ _ Ez Eb) as X.
    destruct (mapM_nth _ _ _ Ht _ _ Ez) as (y & Ey & Hy).
    destruct (Z.eqb_spec z (-1)); [|congruence]. subst z.
    exfalso. apply not_true_iff_false in Ex. apply Ex. apply existsb_exists. exists (-1)%Z.
    split; [eapply nth_error_In; eauto|reflexivity].
Qed.

Lemma take_nonempty {A} (v t : list A) m : take_idx v m = Ok t -> m <> [] -> v <> [].
Proof.
  intros H Hm ->. destruct m as [|z m]; [congruence|]. simpl in H.
  unfold py_get in H. simpl in H. destruct z as [|p|p]; simpl in H; try discriminate H.
Qed.

(** In (-1) in a combined mapping implies that the base array is non-empty *)
Lemma combine_nonempty {A} f s fs (v v1 : list A) d :
  combine_mapping f s = Ok fs -> remap f v d = Ok v1 -> In (-1)%Z fs -> v <> [].
Proof.
  intros Hc H1 Hin.
  assert (Hfs: fs <> []) by (intros ->; destruct Hin).
  assert (Hf: f <> []).
  { unfold combine_mapping in Hc. apply bind_Ok in Hc as (t & Ht & E). injection E as <-.
    eapply take_nonempty; eauto. intros ->. apply Hfs. reflexivity. }
  unfold remap in H1. apply bind_Ok in H1 as (t & Ht & _). eapply take_nonempty; eauto.
Qed.

Lemma remap_compose {A} (f s fs : list Z) (v v1 v2 : list A) (d : option A) :
  combine_mapping f s = Ok fs -> remap f v d = Ok v1 -> remap s v1 d = Ok v2 -> remap fs v d = Ok v2.
Proof.
  intros Hc H1 H2. apply remap_of_nth.
  - rewrite (remap_length _ _ _ _ H2). symmetry. eapply combine_mapping_length; eauto.
  - intros i z a Ez Ea.
    destruct d as [d|].
    + assert (X := compose_core f s fs v v1 v2 d Hc (remap_length _ _ _ _ H1)).
      assert (Y : if Z.eqb z (-1) then a = d else py_get v z = Ok a).
      { apply X with (i := i); auto.
        - intros j w b Ew Eb. pose proof (remap_nth _ _ _ _ H1 _ _ _ Ew Eb) as Q. destruct (Z.eqb w (-1)); congruence.
        - eapply remap_length; eauto.
        - intros j w b Ew Eb. pose proof (remap_nth _ _ _ _ H2 _ _ _ Ew Eb) as Q. destruct (Z.eqb w (-1)); congruence. }
      destruct (Z.eqb z (-1)); congruence.
    + pose proof (combine_mapping_length _ _ _ Hc) as Lc.
      destruct (nth_error_Some_ex s i) as [zs Es]. { rewrite <- Lc. eapply nth_error_lt; eauto. }
      pose proof (combine_mapping_nth _ _ _ Hc _ _ _ Es Ez) as X.
      pose proof (remap_nth _ _ _ _ H2 _ _ _ Es Ea) as Y.
      destruct (Z.eqb_spec zs (-1)); [discriminate|].
      destruct (py_get_same_length v1 f zs a) as (k & b & E1 & E2 & E3); auto.
      { eapply remap_length; eauto. }
      assert (b = z) by congruence. subst b. exact (remap_nth _ _ _ _ H1 _ _ _ E2 E1).
  - eapply combine_nonempty; eauto.
Qed.

Lemma remap_row_of_remap m nv row r : remap m row (Some nv) = Ok r <-> remap_row m nv row = Ok r.
Proof.
  unfold remap, remap_row. destruct (take_idx row m) as [t|e] eqn:Ht; simpl; [|tauto].
  destruct (existsb _ m) eqn:Ex; [tauto|].
  assert (E : map2 (fun i v => if (i =? -1)%Z then nv else v) m t = t).
  { pose proof (take_idx_length _ _ _ Ht) as L.
    apply nth_error_ext; [rewrite map2_length; lia|]. intros i a b Ea Eb. rewrite nth_error_map2, Eb in Ea.
    destruct (nth_error m i) as [z|] eqn:Ez; [|discriminate]. injection Ea as <-.
    destruct (Z.eqb_spec z (-1)); auto. exfalso. apply not_true_iff_false in Ex. apply Ex.
    apply existsb_exists. exists z. split; [eapply nth_error_In; eauto|]. subst; reflexivity. }
  rewrite E. tauto.
Qed.

Lemma remap_row_compose f s fs nv row r1 r2 :
  combine_mapping f s = Ok fs -> remap_row f nv row = Ok r1 -> remap_row s nv r1 = Ok r2 -> remap_row fs nv row = Ok r2.
Proof. rewrite <- !remap_row_of_remap. apply remap_compose. Qed.

Lemma mapM_compose {A} (f g h : A -> res A) l r1 r2 :
  (forall x y z, f x = Ok y -> g y = Ok z -> h x = Ok z) ->
  mapM f l = Ok r1 -> mapM g r1 = Ok r2 -> mapM h l = Ok r2.
Proof.
  intros H. revert r1 r2. induction l as [|a l IH]; intros r1 r2; simpl.
  - intros E; injection E as <-. simpl. auto.
  - intros H1. apply bind_Ok in H1 as (b & Hb & H1). apply bind_Ok in H1 as (bs & Hbs & H1).
    injection H1 as <-. simpl. intros H2. apply bind_Ok in H2 as (c & Hc & H2). apply bind_Ok in H2 as (cs & Hcs & H2).
    injection H2 as <-. rewrite (H _ _ _ Hb Hc). simpl. rewrite (IH _ _ Hbs Hcs). auto.
Qed.

Lemma remap_subgroups_compose f s fs rows r1 r2 :
  combine_mapping f s = Ok fs -> remap_subgroups_density f rows = Ok r1 ->
  remap_subgroups_density s r1 = Ok r2 -> remap_subgroups_density fs rows = Ok r2.
Proof.
  intros Hc. destruct rows as [|row rest]; simpl; [discriminate|]. intros H1.
  apply bind_Ok in H1 as (a & Ha & H1). apply bind_Ok in H1 as (b & Hb & H1). injection H1 as <-.
  simpl. intros H2. apply bind_Ok in H2 as (a' & Ha' & H2). apply bind_Ok in H2 as (b' & Hb' & H2). injection H2 as <-.
  rewrite (remap_row_compose _ _ _ _ _ _ _ Hc Ha Ha'). simpl.
  rewrite (mapM_compose _ _ (remap_row fs 0) _ _ _ (fun x y z => remap_row_compose f s fs 0 x y z Hc) Hb Hb'). auto.
Qed.

Lemma remap_dict_compose {A} f s fs (d1 d2 d3 : list (string * list A)) dv :
  combine_mapping f s = Ok fs -> remap_dict f d1 dv = Ok d2 -> remap_dict s d2 dv = Ok d3 ->
  remap_dict fs d1 dv = Ok d3.
Proof.
  intros Hc. apply mapM_compose. intros [k x] [k' y] [k'' z]; simpl. intros H1 H2.
  apply bind_Ok in H1 as (u & Hu & H1). injection H1 as <- <-.
  apply bind_Ok in H2 as (w & Hw & H2). injection H2 as <- <-.
  rewrite (remap_compose _ _ _ _ _ _ _ Hc Hu Hw). auto.
Qed.

(** ** Filters of [seq] *)
Lemma filter_seq_consecutive (p : nat -> bool) s n k i j :
  nth_error (filter p (seq s n)) k = Some i -> nth_error (filter p (seq s n)) (S k) = Some j ->
  (i < j)%nat /\ (forall m, (i < m < j)%nat -> p m = false).
Proof.
  revert s k; induction n as [|n IH]; intros s k; simpl; [destruct k; discriminate|].
  destruct (p s) eqn:Ep; simpl.
  - destruct k as [|k]; simpl.
    + intros E; injection E as <-. intros Ej. destruct n as [|n']; [discriminate|]. clear IH.
      revert Ej. generalize (S n'). intros n Ej. clear n'.
      assert (G : forall n s0, nth_error (filter p (seq s0 n)) 0 = Some j ->
                 (s0 <= j)%nat /\ forall m, (s0 <= m < j)%nat -> p m = false).
      { clear. induction n as [|n IH]; intros s0; simpl; [discriminate|].
        destruct (p s0) eqn:E; simpl.
        - intros H; injection H as <-. split; auto. intros; lia.
        - intros H. destruct (IH _ H) as [H1 H2]. split; [lia|]. intros m Hm.
          destruct (Nat.eq_dec m s0); [subst; auto|]. apply H2; lia. }
      destruct (G n (S s) Ej) as [H1 H2]. split; [lia|]. intros m Hm. apply H2; lia.
    + apply IH.
  - apply IH.
Qed.

Lemma filter_seq_first (p : nat -> bool) s n j :
  nth_error (filter p (seq s n)) 0 = Some j -> (s <= j)%nat /\ forall m, (s <= m < j)%nat -> p m = false.
Proof.
  revert s; induction n as [|n IH]; intros s; simpl; [discriminate|].
  destruct (p s) eqn:E; simpl.
  - intros H; injection H as <-. split; auto. intros; lia.
  - intros H. destruct (IH _ H) as [H1 H2]. split; [lia|]. intros m Hm.
    destruct (Nat.eq_dec m s); [subst; auto|]. apply H2; lia.
Qed.

Lemma filter_seq_last (p : nat -> bool) s n k i :
  nth_error (filter p (seq s n)) k = Some i -> S k = length (filter p (seq s n)) ->
  forall m, (i < m < s + n)%nat -> p m = false.
Proof.
  intros H L m Hm. destruct (p m) eqn:E; auto. exfalso.
  assert (Hin : In m (filter p (seq s n))) by (apply filter_In; split; auto; apply in_seq; 
    assert (In i (filter p (seq s n))) by (eapply nth_error_In; eauto); apply filter_In in H0 as [H0 _]; apply in_seq in H0; lia).
  apply nth_error_In_iff in Hin as [k' Hk'].
  assert (k' < S k)%nat by (rewrite L; eapply nth_error_lt; eauto).
  assert (G : forall l a b x y, (forall u v w, nth_error l u = Some v -> nth_error l (S u) = Some w -> (v < w)%nat) ->
     (a <= b)%nat -> nth_error l a = Some x -> nth_error l b = Some y -> (x <= y)%nat).
  { intros l a b x y Hl Hab. revert y. induction Hab as [|b Hab IH]; intros y Hx Hy; [assert (x = y) by congruence; lia|].
    destruct (nth_error_Some_ex l b) as [z Hz]. { apply nth_error_lt in Hy. lia. }
    specialize (IH _ Hx Hz). specialize (Hl _ _ _ Hz Hy). lia. }
  assert (m <= i)%nat; [|lia].
  apply (G (filter p (seq s n)) k' k); auto; [|lia].
  intros u v w Hv Hw. eapply filter_seq_consecutive; eauto.
Qed.

(** ** group_duplicates *)
Fixpoint incr (l : list nat) : Prop :=
  match l with a :: ((b :: _) as l') => (a < b)%nat /\ incr l' | _ => True end.

Lemma incr_tail a l : incr (a :: l) -> incr l.
Proof. destruct l; simpl; tauto. Qed.
Lemma incr_lt a l : incr (a :: l) -> forall x, In x l -> (a < x)%nat.
Proof.
  revert a; induction l as [|b l IH]; intros a H x Hx; [destruct Hx|].
  destruct H as [H1 H2]. destruct Hx as [<-|Hx]; auto. specialize (IH b H2 x Hx). lia.
Qed.

(** runs: contiguous blocks covering the list, maximal *)
Lemma split_runs_concat l : concat (split_runs l) = l.
Proof.
  induction l as [|a l IH]; simpl; auto.
  destruct (split_runs l) as [|[|b g] gs]; simpl in *; try congruence.
  destruct (Nat.eqb b (S a)); simpl in *; congruence.
Qed.

Lemma split_runs_nonempty l g : In g (split_runs l) -> g <> [].
Proof.
  revert g; induction l as [|a l IH]; simpl; [tauto|]. intros g.
  destruct (split_runs l) as [|[|b h] gs] eqn:E.
  - simpl. intros [<-|[]]. discriminate.
  - exfalso. apply (IH []); simpl; auto.
  - destruct (Nat.eqb b (S a)); simpl; intros [<-|H]; try discriminate; apply IH; simpl; tauto.
Qed.

Lemma split_runs_head a l : exists h gs, split_runs (a :: l) = (a :: h) :: gs.
Proof.
  simpl. destruct (split_runs l) as [|[|b h] gs]; eauto. destruct (Nat.eqb b (S a)); eauto.
Qed.

(** every run is [seq a k] with a, k as given, and neither a-1 nor a+k is in the list *)
Lemma split_runs_runs l : incr l -> forall g, In g (split_runs l) ->
  exists a k, (0 < k)%nat /\ g = seq a k /\ ~ In (a + k)%nat l /\ (forall b, S b = a -> ~ In b l).
Proof.
  induction l as [|a l IH]; intros Hi g; [simpl; tauto|].
  pose proof (incr_tail _ _ Hi) as Hi'. specialize (IH Hi').
  assert (Ha: forall x, In x l -> (a < x)%nat) by (apply incr_lt; auto).
  destruct l as [|b l].
  - simpl. intros [<-|[]]. exists a, 1%nat. simpl. repeat split; auto; intros; lia.
  - destruct (split_runs_head b l) as (h & gs & E).
    change (split_runs (a :: b :: l)) with
      (match split_runs (b :: l) with
       | (b :: g) :: gs => if Nat.eqb b (S a) then (a :: b :: g) :: gs else [a] :: (b :: g) :: gs
       | gs => [a] :: gs end).
    rewrite E in *.
    assert (Hg : forall g0, In g0 gs -> exists a0 k, (0 < k)%nat /\ g0 = seq a0 k /\
        ~ In (a0 + k)%nat (a :: b :: l) /\ (forall c, S c = a0 -> ~ In c (a :: b :: l))).
    { intros g0 H0. destruct (IH g0) as (a0 & k & H1 & H2 & H3 & H4); [simpl; auto|].
      assert (Hin0 : In a0 (b :: l)).
      { rewrite <- (split_runs_concat (b :: l)), E. simpl. right. apply in_or_app. right.
        apply in_concat. exists g0. split; auto. rewrite H2. destruct k; [lia|]. simpl; auto. }
      pose proof (Ha _ Hin0) as Ha0.
      exists a0, k. repeat split; auto.
      - intros [H|H]; [lia|tauto].
      - intros c Hc [H|H]; [|eapply H4; eauto]. subst c.
        (* S a = a0, a0 in a later run: its predecessor a would be adjacent to the run's head *)
        assert (b <= a0)%nat. { destruct Hin0 as [->|H]; auto. apply (incr_lt b l) in H; auto. lia. }
        assert (a < b)%nat by (apply Ha; simpl; auto).
        assert (b = a0) by lia. subst b.
        (* then a0 would occur twice in an increasing list *)
        assert (N : NoDup (a0 :: l)).
        { clear - Hi'. revert Hi'. generalize (a0 :: l). intros l0. induction l0 as [|x l0 IH]; intros H; constructor.
          - intros Hx. apply (incr_lt _ _ H) in Hx. lia.
          - apply IH. eapply incr_tail; eauto. }
        rewrite <- (split_runs_concat (a0 :: l)), E in N. simpl in N. inversion N as [|? ? Hn _]; subst.
        apply Hn. apply in_or_app. right. apply in_concat. exists (seq (S a) k). split; auto.
        destruct k; [lia|]. simpl; auto. }
    destruct (IH (b :: h)) as (a0 & k & H1 & H2 & H3 & H4); [simpl; auto|].
    assert (a0 = b) by (destruct k; [lia|simpl in H2; congruence]). subst a0.
    destruct (Nat.eqb_spec b (S a)).
    + subst b. simpl. intros [<-|H]; [|apply Hg; auto].
      exists a, (S k). repeat split; [lia|simpl; congruence| |].
      * replace (a + S k)%nat with (S a + k)%nat by lia. intros [H|H]; [lia|]. apply H3. auto.
      * intros c Hc [H|H]; [lia|]. pose proof (Ha _ H). lia.
    + simpl. intros [<-|[<-|H]]; [| |apply Hg; auto].
      * exists a, 1%nat. repeat split; [lia| |].
        -- intros [H|H]; [lia|]. replace (a + 1)%nat with (S a) in H by lia.
           assert (a < b)%nat by (apply Ha; simpl; auto).
           destruct H as [H|H]; [congruence|]. apply (incr_lt b l) in H; auto. lia.
        -- intros c Hc [H|H]; [lia|]. pose proof (Ha _ H). lia.
      * exists b, k. repeat split; auto.
        -- intros [H|H]; [|exact (H3 H)]. assert (a < b)%nat by (apply Ha; simpl; auto). lia.
        -- intros c Hc [H|H]; [subst c; congruence|]. eapply H4; eauto.
Qed.

Lemma incr_NoDup l : incr l -> NoDup l.
Proof.
  induction l as [|x l IH]; intros H; constructor.
  - intros Hx. apply (incr_lt _ _ H) in Hx. lia.
  - apply IH. eapply incr_tail; eauto.
Qed.

Lemma incr_filter_seq p s n : incr (filter p (seq s n)).
Proof.
  revert s; induction n as [|n IH]; intros s; simpl; auto.
  destruct (p s); auto. specialize (IH (S s)).
  destruct (filter p (seq (S s) n)) as [|b l] eqn:E; simpl; auto. split; auto.
  assert (In b (filter p (seq (S s) n))) by (rewrite E; simpl; auto).
  apply filter_In in H as [H _]. apply in_seq in H. lia.
Qed.

(** The specification of the groups *)
Lemma group_shape dup : incr dup -> (forall i, In i dup -> (1 <= i)%nat) ->
  forall g, In g (group_duplicates dup) ->
  exists a k, (2 <= k)%nat /\ g = seq a k /\ ~ In a dup /\ ~ In (a + k)%nat dup /\
              (forall i, (a < i < a + k)%nat -> In i dup).
Proof.
  intros Hi H1 g Hg. unfold group_duplicates in Hg. apply in_map_iff in Hg as (h & <- & Hh).
  destruct (split_runs_runs dup Hi h Hh) as (a & k & Hk & -> & Hnext & Hprev).
  assert (Hin : forall i, (a <= i < a + k)%nat -> In i dup).
  { intros i Hi'. rewrite <- (split_runs_concat dup). apply in_concat. exists (seq a k). split; auto. apply in_seq; auto. }
  assert (1 <= a)%nat by (apply H1, Hin; lia).
  exists (a - 1)%nat, (S k). destruct k as [|k]; [lia|]. simpl. repeat split; try lia.
  - f_equal. replace (S (a - 1)) with a by lia. auto.
  - apply Hprev. lia.
  - replace (a - 1 + S (S k))%nat with (a + S k)%nat by lia. auto.
  - intros i Hi'. apply Hin. lia.
Qed.

Lemma group_cover dup : incr dup -> (forall i, In i dup -> (1 <= i)%nat) ->
  forall i, (In i dup \/ In (S i) dup) <-> exists g, In g (group_duplicates dup) /\ In i g.
Proof.
  intros Hi H1 i. split.
  - assert (G : forall j, In j dup -> exists a h, In (a :: h) (split_runs dup) /\ In j (a :: h)).
    { intros j Hj. rewrite <- (split_runs_concat dup) in Hj. apply in_concat in Hj as (h & Hh & Hj).
      destruct h as [|a h]; [destruct Hj|]. eauto. }
    intros [Hin|Hin]; destruct (G _ Hin) as (a & h & Hh & Hj).
    + exists ((a - 1)%nat :: a :: h). split; [|simpl; auto]. unfold group_duplicates.
      apply in_map_iff. exists (a :: h). auto.
    + exists ((a - 1)%nat :: a :: h). split; [apply in_map_iff; exists (a :: h); auto|].
      destruct (split_runs_runs dup Hi _ Hh) as (a0 & k & Hk & E & _ & _).
      assert (a0 = a) by (destruct k; [lia|simpl in E; congruence]). subst a0.
      rewrite E in Hj. apply in_seq in Hj. rewrite E.
      destruct (Nat.eq_dec (S i) a); [left; lia|]. right. apply in_seq. lia.
  - intros (g & Hg & Hin). destruct (group_shape dup Hi H1 g Hg) as (a & k & Hk & -> & Ha & Hak & Hall).
    apply in_seq in Hin. destruct (Nat.eq_dec i a); [right; apply Hall; lia|left; apply Hall; lia].
Qed.

Lemma NoDup_concat_groups ll : NoDup (concat ll) -> incr (concat ll) -> (forall h, In h ll -> exists a k, (0<k)%nat /\ h = seq a k /\
     ~ In (a + k)%nat (concat ll) /\ (forall b, S b = a -> ~ In b (concat ll))) -> (forall i, In i (concat ll) -> (1 <= i)%nat) ->
  NoDup (concat (map (fun g => match g with [] => [] | a :: _ => (a - 1)%nat :: g end) ll)).
Proof.
  induction ll as [|h ll IH]; simpl; intros N I H H1; [constructor|].
  destruct (H h) as (a & k & Hk & -> & Hn & Hp); auto.
  destruct k as [|k]; [lia|]. cbn [seq] in *.
  assert (Ha1 : (1 <= a)%nat) by (apply H1; simpl; auto).
  assert (Irest : incr (concat ll)).
  { clear - I. cbn [app] in I. apply incr_tail in I.
    assert (G : forall l1 l2 : list nat, incr (l1 ++ l2) -> incr l2).
    { induction l1; intros l2 Hx; auto. simpl in Hx. apply incr_tail in Hx. auto. }
    eapply G; eauto. }
  assert (Hlt : forall x, In x (concat ll) -> (a + S k < x)%nat).
  { intros x Hx. assert (G : forall l1 l2 y z, incr (l1 ++ l2) -> In y l1 -> In z l2 -> (y < z)%nat).
    { clear. induction l1 as [|u l1 IHl]; intros l2 y z Hx Hy Hz; [destruct Hy|].
      destruct Hy as [<-|Hy]; [eapply (incr_lt u (l1 ++ l2)); eauto; apply in_or_app; auto|].
      eapply IHl; eauto. simpl in Hx. eapply incr_tail; eauto. }
    assert (a + k < x)%nat.
    { apply (G (a :: seq (S a) k) (concat ll)); auto. destruct k; [left; lia|right; apply in_seq; lia]. }
    assert (x <> a + S k)%nat; [|lia]. intros ->. apply Hn. simpl. right. apply in_or_app. auto. }
  assert (N' : NoDup (concat (map (fun g => match g with [] => [] | a :: _ => (a - 1)%nat :: g end) ll))).
  { apply IH; auto.
    - simpl in N. inversion N as [|? ? _ N0]; subst. revert N0. clear. induction (seq (S a) k); simpl; auto.
      intros N0; inversion N0; auto.
    - intros h Hh. destruct (H h) as (a0 & k0 & G1 & G2 & G3 & G4); auto. exists a0, k0. repeat split; auto.
      + intros X. apply G3. simpl. right. apply in_or_app; auto.
      + intros b Hb X. apply (G4 b Hb). simpl. right. apply in_or_app; auto.
    - intros i Hi. apply H1. simpl. right. apply in_or_app; auto. }
  assert (Hlow : forall x, In x (concat (map (fun g => match g with [] => [] | a :: _ => (a - 1)%nat :: g end) ll)) -> (a + k < x)%nat).
  { intros x Hx. apply in_concat in Hx as (g & Hg & Hx). apply in_map_iff in Hg as (h & <- & Hh).
    destruct h as [|b h]; [destruct Hx|]. destruct Hx as [<-|Hx].
    - assert (In b (concat ll)) by (apply in_concat; exists (b :: h); simpl; auto). specialize (Hlt _ H0). lia.
    - assert (In x (concat ll)) by (apply in_concat; exists (b :: h); simpl; auto). specialize (Hlt _ H0). lia. }
  change (NoDup (seq (a - 1) 1 ++ seq a (S k) ++ concat (map (fun g => match g with [] => [] | a :: _ => (a - 1)%nat :: g end) ll))).
  rewrite app_assoc. replace (seq (a - 1) 1 ++ seq a (S k)) with (seq (a - 1) (S (S k)))
    by (simpl; f_equal; replace (S (a - 1)) with a by lia; reflexivity).
  revert N' Hlow. generalize (concat (map (fun g => match g with [] => [] | a :: _ => (a - 1)%nat :: g end) ll)).
  intros l Nl Hl. assert (G : forall n s, (s + n <= a + S k)%nat -> NoDup (seq s n ++ l)).
  { induction n as [|n IHn]; intros s Hs; simpl; auto. constructor; [|apply IHn; lia].
    intros X. apply in_app_or in X as [X|X]; [apply in_seq in X; lia|]. specialize (Hl _ X). lia. }
  apply G. lia.
Qed.

Lemma group_disjoint dup : incr dup -> (forall i, In i dup -> (1 <= i)%nat) ->
  NoDup (concat (group_duplicates dup)).
Proof.
  intros Hi H1. apply NoDup_concat_groups; rewrite ?split_runs_concat; auto.
  - apply incr_NoDup; auto.
  - apply split_runs_runs; auto.
Qed.

(** labels of disjoint groups *)
Lemma label_from_spec k groups i :
  match label_from k groups i with
  | Some r => (k <= r)%nat /\ exists g, nth_error groups (r - k) = Some g /\ In i g
  | None => forall g, In g groups -> ~ In i g
  end.
Proof.
  revert k; induction groups as [|g gs IH]; intros k; simpl; [tauto|].
  specialize (IH (S k)). destruct (label_from (S k) gs i) as [r|].
  - destruct IH as (H1 & h & H2 & H3). split; [lia|]. exists h. replace (r - k)%nat with (S (r - S k)) by lia. auto.
  - destruct (existsb (Nat.eqb i) g) eqn:E.
    + apply existsb_exists in E as (x & Hx & E). apply Nat.eqb_eq in E. subst x.
      split; auto. exists g. rewrite Nat.sub_diag. auto.
    + intros h [<-|H]; [|auto]. intros Hin. apply not_true_iff_false in E. apply E. apply existsb_exists.
      exists i. split; auto. apply Nat.eqb_refl.
Qed.

Lemma label_Some groups i r : label groups i = Some r -> exists g, nth_error groups r = Some g /\ In i g.
Proof.
  intros H. pose proof (label_from_spec 0 groups i) as X. unfold label in H. rewrite H in X.
  destruct X as (_ & g & X & Y). rewrite Nat.sub_0_r in X. eauto.
Qed.
Lemma label_None groups i : label groups i = None -> forall g, In g groups -> ~ In i g.
Proof. intros H. pose proof (label_from_spec 0 groups i) as X. unfold label in H. rewrite H in X. auto. Qed.

Lemma nodup_concat_unique {A} (ll : list (list A)) : NoDup (concat ll) ->
  forall r1 r2 g1 g2 x, nth_error ll r1 = Some g1 -> nth_error ll r2 = Some g2 -> In x g1 -> In x g2 -> r1 = r2.
Proof.
  induction ll as [|h ll IH]; intros N [|r1] [|r2] g1 g2 x; simpl; try discriminate; auto; intros E1 E2 H1 H2.
  - injection E1 as <-. exfalso. simpl in N. apply nth_error_In in E2.
    assert (In x (concat ll)) by (apply in_concat; eauto).
    clear - N H1 H. induction h as [|y h IHh]; [destruct H1|]. simpl in N. inversion N as [|? ? Hn N']; subst.
    destruct H1 as [->|H1]; auto. apply Hn. apply in_or_app; auto.
  - injection E2 as <-. exfalso. simpl in N. apply nth_error_In in E1.
    assert (In x (concat ll)) by (apply in_concat; eauto).
    clear - N H2 H. induction h as [|y h IHh]; [destruct H2|]. simpl in N. inversion N as [|? ? Hn N']; subst.
    destruct H2 as [->|H2]; auto. apply Hn. apply in_or_app; auto.
  - f_equal. eapply IH; eauto. simpl in N. clear - N. induction h; simpl in N; auto. inversion N; auto.
Qed.

Lemma label_in groups i r g : NoDup (concat groups) -> nth_error groups r = Some g -> In i g -> label groups i = Some r.
Proof.
  intros N Hg Hi. destruct (label groups i) as [r'|] eqn:E.
  - apply label_Some in E as (g' & E1 & E2). f_equal. eapply nodup_concat_unique; eauto.
  - exfalso. eapply label_None; eauto. eapply nth_error_In; eauto.
Qed.

(** elements carrying a label *)
Lemma with_label_In {A} groups (x : list A) g v : In v (with_label groups x g) <->
  exists i, nth_error x i = Some v /\ label groups i = Some g.
Proof.
  unfold with_label. rewrite in_map_iff. split.
  - intros ([i a] & E & H). simpl in E. subst a. apply filter_In in H as [H1 H2]. simpl in H2.
    exists i. destruct (label groups i) as [g'|]; [|discriminate]. apply Nat.eqb_eq in H2. subst g'.
    split; auto. apply nth_error_In_iff in H1 as [k Hk].
    assert (G : forall (y : list A) s k i v, nth_error (combine (seq s (length y)) y) k = Some (i, v) ->
              i = (s + k)%nat /\ nth_error y k = Some v).
    { clear. induction y as [|y0 y IH]; intros s [|k] i v; simpl; try discriminate.
      - intros E; injection E as <- <-. split; auto.
      - intros E. apply IH in E as [-> E]. split; auto. lia. }
    apply G in Hk as [-> Hk]. simpl. auto.
  - intros (i & H1 & H2). exists (i, v). split; auto. apply filter_In. simpl. rewrite H2, Nat.eqb_refl. split; auto.
    apply nth_error_In_iff. exists i.
    assert (G : forall (y : list A) s k v, nth_error y k = Some v -> nth_error (combine (seq s (length y)) y) k = Some ((s + k)%nat, v)).
    { clear. induction y as [|y0 y IH]; intros s [|k] v; simpl; try discriminate.
      - intros E; injection E as <-. do 2 f_equal. lia.
      - intros E. rewrite (IH (S s) k v E). do 2 f_equal. lia. }
    apply (G x 0%nat i v H1).
Qed.

(** bounds on the means *)
Lemma Rsum_bounds l lo hi : (forall x, In x l -> lo <= x <= hi) -> INR (length l) * lo <= Rsum l <= INR (length l) * hi.
Proof.
  induction l as [|a l IH]; intros H; [simpl; lra|].
  assert (lo <= a <= hi) by (apply H; simpl; auto).
  assert (INR (length l) * lo <= Rsum l <= INR (length l) * hi) by (apply IH; intros; apply H; simpl; auto).
  cbn [length Rsum fold_right]. change (fold_right Rplus 0 l) with (Rsum l). rewrite S_INR. lra.
Qed.

Lemma mean_bounds l lo hi : l <> [] -> (forall x, In x l -> lo <= x <= hi) -> lo <= mean l <= hi.
Proof.
  intros Hne H. unfold mean. apply Rsum_bounds in H.
  assert (0 < INR (length l)) by (apply lt_0_INR; destruct l; simpl; [congruence|lia]).
  split; apply (Rmult_le_reg_l (INR (length l))); auto; unfold Rdiv;
    rewrite (Rmult_comm (INR (length l)) (Rsum l * / _)), Rmult_assoc, Rinv_l, Rmult_1_r by lra; lra.
Qed.

Lemma geo_mean_bounds l lo hi : l <> [] -> 0 < lo -> (forall x, In x l -> lo <= x <= hi) -> lo <= geo_mean l <= hi.
Proof.
  intros Hne Hlo H. unfold geo_mean.
  assert (0 < hi). { destruct l as [|a l]; [congruence|]. destruct (H a); simpl; auto. lra. }
  assert (ln lo <= mean (map ln l) <= ln hi).
  { apply mean_bounds; [destruct l; simpl; congruence|]. intros y Hy. apply in_map_iff in Hy as (x & <- & Hx).
    apply H in Hx. split.
    - destruct (Req_dec lo x); [subst; lra|]. left. apply ln_increasing; lra.
    - destruct (Req_dec x hi); [subst; lra|]. left. apply ln_increasing; lra. }
  pose proof (exp_ln lo Hlo) as E1. pose proof (exp_ln hi H0) as E2.
  split.
  - rewrite <- E1. destruct (Req_dec (ln lo) (mean (map ln l))) as [->|]; [lra|]. left. apply exp_increasing. lra.
  - rewrite <- E2. destruct (Req_dec (mean (map ln l)) (ln hi)) as [->|]; [lra|]. left. apply exp_increasing. lra.
Qed.

(** ** merge_points *)
Definition kept (n : nat) (dup : list nat) : list nat := keep_idx n dup.

Lemma keep_In n dup i : In i (keep_idx n dup) <-> (i < n)%nat /\ ~ In i dup.
Proof.
  unfold keep_idx. rewrite filter_In, in_seq. split; intros [H1 H2]; split; try lia.
  - intros Hin. apply negb_true_iff, not_true_iff_false in H2. apply H2. apply existsb_exists. exists i.
    split; auto. apply Nat.eqb_refl.
  - apply negb_true_iff, not_true_iff_false. intros E. apply existsb_exists in E as (x & Hx & E).
    apply Nat.eqb_eq in E. subst. auto.
Qed.

Lemma keep_idx_length_gen (dup : list nat) n : incr dup -> (forall i, In i dup -> (i < n)%nat) ->
  (length (keep_idx n dup) + length dup = n)%nat.
Proof.
  intros Hi Hlt.
  assert (P : Permutation (filter (fun i => existsb (Nat.eqb i) dup) (seq 0 n)) dup).
  { apply NoDup_Permutation.
    - apply NoDup_filter, seq_NoDup.
    - apply incr_NoDup; auto.
    - intros x. rewrite filter_In, in_seq, existsb_exists. split.
      + intros [_ (y & Hy & E)]. apply Nat.eqb_eq in E. subst; auto.
      + intros Hx. split; [specialize (Hlt _ Hx); lia|]. exists x. split; auto. apply Nat.eqb_refl. }
  apply Permutation_length in P. rewrite <- P. unfold keep_idx.
  assert (G : forall (l : list nat) p, (length (filter (fun i => negb (p i)) l) + length (filter p l) = length l)%nat).
  { clear. induction l as [|a l IH]; intros p; simpl; auto. specialize (IH p). destruct (p a); simpl; lia. }
  specialize (G (seq 0 n) (fun i => existsb (Nat.eqb i) dup)). rewrite seq_length in G. auto.
Qed.

Lemma nth_map_seq (f : nat -> R) m r : (r < m)%nat -> nth r (map f (seq 0 m)) 0 = f r.
Proof.
  intros H. rewrite (nth_indep _ 0 (f 0%nat)) by (rewrite map_length, seq_length; auto).
  rewrite map_nth, seq_nth by auto. auto.
Qed.

Section Merge.
Variables (dup : list nat) (n : nat).
Hypothesis Hincr : incr dup.
Hypothesis Hge1 : forall i, In i dup -> (1 <= i)%nat.
Hypothesis Hlt : forall i, In i dup -> (i < n)%nat.
Let groups := group_duplicates dup.

(** retained positions are exactly the non-duplicate ones (part of C26) *)
Lemma retain_is_keep :
  filter (fun i => negb (existsb (Nat.eqb i) (flat_map (fun g => tl g) groups))) (seq 0 n) = keep_idx n dup.
Proof.
  unfold keep_idx. apply filter_ext_in. intros i Hi. f_equal.
  apply eq_iff_eq_true. rewrite !existsb_exists. split; intros (x & Hx & E); apply Nat.eqb_eq in E; subst x.
  - apply in_flat_map in Hx as (g & Hg & Hx).
    destruct (group_shape dup Hincr Hge1 g Hg) as (a & k & Hk & -> & Ha & Hak & Hall).
    destruct k as [|k]; [lia|]. simpl in Hx. apply in_seq in Hx. exists i. split; [apply Hall; lia|apply Nat.eqb_refl].
  - exists i. split; [|apply Nat.eqb_refl]. destruct (proj1 (group_cover dup Hincr Hge1 i) (or_introl Hx)) as (g & Hg & Hin).
    apply in_flat_map. exists g. split; auto.
    destruct (group_shape dup Hincr Hge1 g Hg) as (a & k & Hk & -> & Ha & Hak & Hall).
    destruct k as [|k]; [lia|]. simpl in *. destruct Hin as [<-|Hin]; [contradiction|auto].
Qed.

(** the label of a kept position: none, or the group it heads, whose members
    are i, i+1, ..., all of whose members after i are duplicates *)
Lemma label_kept i : ~ In i dup ->
  match label groups i with
  | None => ~ In (S i) dup
  | Some r => exists k, nth_error groups r = Some (seq i k) /\ (2 <= k)%nat /\
              (forall j, (i < j < i + k)%nat -> In j dup) /\ ~ In (i + k)%nat dup
  end.
Proof.
  intros Hi. destruct (label groups i) as [r|] eqn:E.
  - apply label_Some in E as (g & Hg & Hin).
    destruct (group_shape dup Hincr Hge1 g (nth_error_In _ _ Hg)) as (a & k & Hk & -> & Ha & Hak & Hall).
    apply in_seq in Hin. assert (i = a). { destruct (Nat.eq_dec i a); auto. exfalso. apply Hi, Hall. lia. }
    subst a. eauto.
  - intros Hs. destruct (proj1 (group_cover dup Hincr Hge1 i) (or_intror Hs)) as (g & Hg & Hin).
    eapply label_None; eauto.
Qed.

Lemma with_label_group {A} (x : list A) r g : length x = n -> nth_error groups r = Some g ->
  forall v, In v (with_label groups x r) <-> exists i, In i g /\ nth_error x i = Some v.
Proof.
  intros L Hg v. rewrite with_label_In. split.
  - intros (i & H1 & H2). apply label_Some in H2 as (g' & Hg' & Hin). assert (g' = g) by congruence. subst. eauto.
  - intros (i & H1 & H2). exists i. split; auto. eapply label_in; eauto. apply group_disjoint; auto.
Qed.

Lemma group_nth_lt r a k i : nth_error groups r = Some (seq a k) -> In i (seq a k) -> (i < n)%nat.
Proof.
  intros Hg Hi. destruct (proj2 (group_cover dup Hincr Hge1 i)) as [H|H].
  - exists (seq a k). split; auto. eapply nth_error_In; eauto.
  - auto.
  - apply Hlt in H. lia.
Qed.

(** Main description of merge_points on the x-axis: the merged value at a kept
    position i lies between any bounds valid for the positions i..e of the
    block it stands for. *)
Lemma merged_x_hull (x y : list R) (d : option (R -> R)) :
  length x = n -> (forall v, In v x -> 0 < v) ->
  forall k i j v,
    nth_error (keep_idx n dup) k = Some i ->
    nth_error (fst (merge_points x y groups d)) k = Some v ->
    (i < j)%nat -> (forall m, (i < m < j)%nat -> In m dup) -> (~ In j dup) ->
    exists e, (i <= e < j)%nat /\
      forall lo hi, 0 < lo -> (forall m w, (i <= m <= e)%nat -> nth_error x m = Some w -> lo <= w <= hi) -> lo <= v <= hi.
Proof.
  intros L Hpos k i j v Hk Hv Hij Hdup Hj.
  unfold merge_points in Hv. rewrite L, retain_is_keep in Hv. simpl fst in Hv.
  rewrite nth_error_map, Hk in Hv. simpl in Hv. injection Hv as Hv.
  assert (Hin : In i (keep_idx n dup)) by (eapply nth_error_In; eauto).
  apply keep_In in Hin as [Hin Hni].
  exists (j - 1)%nat. split; [lia|]. intros lo hi Hlo Hb.
  pose proof (label_kept i Hni) as HL. destruct (label groups i) as [r|] eqn:El.
  - destruct HL as (kk & Hg & Hkk & Hall & Hend).
    assert (i + kk <= j)%nat. { destruct (le_lt_dec (i + kk) j); auto. exfalso. apply Hj. apply Hall. lia. }
    subst v. rewrite (nth_indep _ 0 (geo_mean (with_label groups x 0)))
      by (rewrite map_length, seq_length; eapply nth_error_lt; eauto).
    rewrite map_nth with (d := 0%nat). rewrite seq_nth by (eapply nth_error_lt; eauto). simpl.
    apply geo_mean_bounds; auto.
    + destruct (nth_error_Some_ex x i) as [w Hw]; [lia|].
      assert (In w (with_label groups x r)). { apply (with_label_group x r _ L Hg). exists i. split; auto. apply in_seq; lia. }
      intros E; rewrite E in H0; destruct H0.
    + intros w Hw. apply (with_label_group x r _ L Hg) in Hw as (m & Hm & Hw). apply in_seq in Hm.
      apply (Hb m); auto. lia.
  - subst v. destruct (nth_error_Some_ex x i) as [w Hw]; [lia|].
    rewrite (nth_error_nth _ _ 0 Hw). apply (Hb i); auto. lia.
Qed.

Lemma merge_points_length x y d : length x = n ->
  length (fst (merge_points x y groups d)) = length (keep_idx n dup) /\
  length (snd (merge_points x y groups d)) = length (keep_idx n dup).
Proof. intros L. unfold merge_points. rewrite L, retain_is_keep. simpl. rewrite !map_length. auto. Qed.

(** value at a kept position: copied, or (if it heads a group) taken from the
    means *)
Lemma merge_points_nth x y d k i : length x = n -> length y = n ->
  nth_error (keep_idx n dup) k = Some i ->
  exists vx vy, nth_error (fst (merge_points x y groups d)) k = Some vx /\
                nth_error (snd (merge_points x y groups d)) k = Some vy /\
    ((label groups i = None /\ nth_error x i = Some vx /\ nth_error y i = Some vy) \/
     (exists r, label groups i = Some r /\ (r < length groups)%nat /\
        vx = geo_mean (with_label groups x r) /\
        vy = match d with None => mean (with_label groups y r) | Some f => f vx end)).
Proof.
  intros L Ly Hk. unfold merge_points. rewrite L, retain_is_keep. simpl.
  rewrite !nth_error_map, Hk. simpl. do 2 eexists. split; [reflexivity|]. split; [reflexivity|].
  assert (Hin : In i (keep_idx n dup)) by (eapply nth_error_In; eauto).
  apply keep_In in Hin as [Hin Hni].
  destruct (label groups i) as [r|] eqn:E.
  - right. exists r. apply label_Some in E as (g & Hg & _). apply nth_error_lt in Hg.
    repeat split; auto.
    + rewrite nth_map_seq by auto. auto.
    + rewrite (nth_map_seq (fun g => geo_mean (with_label groups x g))) by auto.
      destruct d as [f|]; rewrite ?map_map, nth_map_seq by auto; auto.
  - left. split; auto. destruct (nth_error_Some_ex x i) as [w Hw]; [lia|]. destruct (nth_error_Some_ex y i) as [u Hu]; [lia|].
    rewrite (nth_error_nth _ _ 0 Hw), (nth_error_nth _ _ 0 Hu). auto.
Qed.
End Merge.
