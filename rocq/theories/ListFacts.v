(** Facts about the list primitives of Base.v and the index functions of
    TEUtils.v. *)
From Verif Require Import Base TEUtils.

Lemma nth_error_map2 {A B C} (f : A -> B -> C) l m i :
  nth_error (map2 f l m) i =
  match nth_error l i, nth_error m i with Some a, Some b => Some (f a b) | _, _ => None end.
Proof.
  revert m i. induction l as [|a l IH]; intros [|b m] [|i]; simpl; auto.
  - destruct (nth_error l i); auto.
Qed.

Lemma map2_length {A B C} (f : A -> B -> C) l m : length (map2 f l m) = Nat.min (length l) (length m).
Proof. revert m; induction l; intros [|b m]; simpl; auto. Qed.

Lemma map2_length_eq {A B C} (f : A -> B -> C) l m n :
  length l = n -> length m = n -> length (map2 f l m) = n.
Proof. intros; rewrite map2_length; lia. Qed.

Lemma nth_error_Some_ex {A} (l : list A) i : (i < length l)%nat -> exists a, nth_error l i = Some a.
Proof. intros H. destruct (nth_error l i) eqn:E; eauto. apply nth_error_None in E. lia. Qed.

Lemma nth_error_lt {A} (l : list A) i a : nth_error l i = Some a -> (i < length l)%nat.
Proof. intros H. apply nth_error_Some. congruence. Qed.

Lemma nth_error_repeat' {A} (x : A) n i : (i < n)%nat -> nth_error (repeat x n) i = Some x.
Proof. revert i; induction n; intros [|i]; simpl; intros; try lia; auto. apply IHn; lia. Qed.

Lemma nth_error_ext {A} (l m : list A) : length l = length m ->
  (forall i a b, nth_error l i = Some a -> nth_error m i = Some b -> a = b) -> l = m.
Proof.
  revert m; induction l as [|x l IH]; intros [|y m]; simpl; intros E H; try discriminate; auto.
  f_equal.
  - apply (H 0%nat); auto.
  - apply IH; [lia|]. intros i. apply (H (S i)).
Qed.

Lemma nth_error_ext' {A} (l m : list A) : (forall i, nth_error l i = nth_error m i) -> l = m.
Proof.
  revert m; induction l as [|x l IH]; intros [|y m] H; auto.
  - specialize (H 0%nat); discriminate.
  - specialize (H 0%nat); discriminate.
  - f_equal. { specialize (H 0%nat); simpl in H; congruence. } apply IH. intros i. apply (H (S i)).
Qed.

Lemma map2_ext_in {A B C} (f g : A -> B -> C) l m :
  (forall a b, In a l -> In b m -> f a b = g a b) -> map2 f l m = map2 g l m.
Proof.
  revert m; induction l; intros [|b m] H; simpl; auto. f_equal; [apply H; simpl; auto|].
  apply IHl; intros; apply H; simpl; auto.
Qed.

Lemma In_map2 {A B C} (f : A -> B -> C) l m x :
  In x (map2 f l m) -> exists a b, In a l /\ In b m /\ x = f a b.
Proof.
  revert m; induction l; intros [|b m]; simpl; try tauto.
  intros [<-|H]; [exists a, b; simpl; auto|]. destruct (IHl _ H) as (a1 & b1 & H1 & H2 & H3). exists a1, b1; simpl; auto.
Qed.

Lemma nth_error_In_iff {A} (l : list A) a : In a l <-> exists i, nth_error l i = Some a.
Proof. split; [apply In_nth_error|intros [i H]; eapply nth_error_In; eauto]. Qed.

(** mapM *)
Lemma mapM_Forall2 {A B} (f : A -> res B) l r :
  mapM f l = Ok r <-> Forall2 (fun a b => f a = Ok b) l r.
Proof.
  revert r; induction l as [|a l IH]; intros r; simpl.
  - split; [intros H; injection H as <-; constructor|intros H; inversion H; auto].
  - destruct (f a) as [b|e] eqn:E; simpl.
    + destruct (mapM f l) as [bs|e] eqn:E'; simpl.
      * split.
        -- intros H; injection H as <-. constructor; auto. apply IH; auto.
        -- intros H; inversion H as [|? ? ? ? H1 H2]; subst. rewrite E in H1; injection H1 as ->.
           apply IH in H2. injection H2 as ->. auto.
      * split; [discriminate|]. intros H; inversion H as [|? ? ? ? H1 H2]; subst.
        apply IH in H2. discriminate.
    + split; [discriminate|]. intros H; inversion H as [|? ? ? ? H1 H2]; subst. congruence.
Qed.

Lemma Forall2_length {A B} (P : A -> B -> Prop) l m : Forall2 P l m -> length l = length m.
Proof. induction 1; simpl; auto. Qed.

Lemma Forall2_impl {A B} (P Q : A -> B -> Prop) l m : (forall a b, P a b -> Q a b) -> Forall2 P l m -> Forall2 Q l m.
Proof. intros H; induction 1; constructor; auto. Qed.

Lemma mapM_length {A B} (f : A -> res B) l r : mapM f l = Ok r -> length r = length l.
Proof. intros H. apply mapM_Forall2 in H. symmetry. eapply Forall2_length; eauto. Qed.

Lemma Forall2_nth_error {A B} (P : A -> B -> Prop) l m :
  Forall2 P l m -> forall i a, nth_error l i = Some a -> exists b, nth_error m i = Some b /\ P a b.
Proof.
  induction 1; intros [|i] a; simpl; intros E; try discriminate.
  - injection E as <-; eauto.
  - eauto.
Qed.
Lemma Forall2_nth_error_r {A B} (P : A -> B -> Prop) l m :
  Forall2 P l m -> forall i b, nth_error m i = Some b -> exists a, nth_error l i = Some a /\ P a b.
Proof.
  induction 1; intros [|i] a; simpl; intros E; try discriminate.
  - injection E as <-; eauto.
  - eauto.
Qed.
Lemma Forall2_from_nth {A B} (P : A -> B -> Prop) l m :
  length l = length m ->
  (forall i a b, nth_error l i = Some a -> nth_error m i = Some b -> P a b) -> Forall2 P l m.
Proof.
  revert m; induction l as [|x l IH]; intros [|y m]; simpl; intros E H; try discriminate; constructor.
  - apply (H 0%nat); auto.
  - apply IH; [lia|]. intros i. apply (H (S i)).
Qed.

Lemma mapM_nth {A B} (f : A -> res B) l r : mapM f l = Ok r ->
  forall i a, nth_error l i = Some a -> exists b, nth_error r i = Some b /\ f a = Ok b.
Proof. intros H. apply mapM_Forall2 in H. intros i a. eapply (Forall2_nth_error _ _ _ H). Qed.
Lemma mapM_nth_r {A B} (f : A -> res B) l r : mapM f l = Ok r ->
  forall i b, nth_error r i = Some b -> exists a, nth_error l i = Some a /\ f a = Ok b.
Proof. intros H. apply mapM_Forall2 in H. intros i a. eapply (Forall2_nth_error_r _ _ _ H). Qed.

Lemma mapM_ok_all {A B} (f : A -> res B) l :
  (forall a, In a l -> exists b, f a = Ok b) -> exists r, mapM f l = Ok r.
Proof.
  induction l as [|a l IH]; simpl; intros H; [eauto|].
  destruct (H a) as [b ->]; auto. destruct IH as [r ->]; auto. simpl. eauto.
Qed.

Lemma mapM_err {A B} (f : A -> res B) l e : mapM f l = Err e -> exists a, In a l /\ f a = Err e.
Proof.
  induction l as [|a l IH]; simpl; [discriminate|].
  destruct (f a) eqn:E; simpl.
  - destruct (mapM f l); simpl; [discriminate|]. intros H. injection H as ->.
    destruct IH as (a' & ? & ?); auto. eauto.
  - intros H. injection H as ->. eauto.
Qed.

Lemma bind_Ok {A B} (x : res A) (f : A -> res B) b :
  bind x f = Ok b -> exists a, x = Ok a /\ f a = Ok b.
Proof. destruct x; simpl; [eauto|discriminate]. Qed.
Lemma bind_Err {A B} (x : res A) (f : A -> res B) e :
  bind x f = Err e -> x = Err e \/ exists a, x = Ok a /\ f a = Err e.
Proof. destruct x; simpl; intros H; [right; eauto|left; congruence]. Qed.

(** py_get and take_idx *)
Lemma py_get_nat {A} (l : list A) k :
  py_get l (Z.of_nat k) = match nth_error l k with Some a => Ok a | None => Err IndexError end.
Proof.
  unfold py_get. destruct (Z.ltb_spec (Z.of_nat k) 0); [lia|].
  destruct (Z.leb_spec (Z.of_nat (length l)) (Z.of_nat k)).
  - rewrite orb_true_r. replace (nth_error l k) with (@None A); auto.
    symmetry; apply nth_error_None; lia.
  - rewrite (proj2 (Z.ltb_ge _ _)); [|lia]. simpl. rewrite Nat2Z.id. auto.
Qed.

Lemma py_get_m1 {A} (l : list A) : l <> [] -> exists a, py_get l (-1) = Ok a.
Proof.
  intros H. unfold py_get. change (-1 <? 0)%Z with true. cbv iota zeta.
  assert (0 < length l)%nat by (destruct l; simpl; [congruence|lia]).
  destruct (Z.ltb_spec (-1 + Z.of_nat (length l)) 0); [lia|].
  destruct (Z.leb_spec (Z.of_nat (length l)) (-1 + Z.of_nat (length l))); [lia|]. cbn [orb].
  destruct (nth_error_Some_ex l (Z.to_nat (-1 + Z.of_nat (length l)))) as [a ->]; [lia|]. eauto.
Qed.

Lemma py_get_In {A} (l : list A) i a : py_get l i = Ok a -> In a l.
Proof.
  unfold py_get. destruct (_ || _)%bool; [discriminate|].
  destruct (nth_error l _) eqn:E; [|discriminate]. intros H; injection H as <-.
  eapply nth_error_In; eauto.
Qed.

Lemma py_get_map {A B} (f : A -> B) l i : py_get (map f l) i = rmap f (py_get l i).
Proof.
  unfold py_get. rewrite map_length. destruct (_ || _)%bool; auto.
  rewrite nth_error_map. destruct (nth_error l _); auto.
Qed.

(** a nonnegative in-range index *)
Lemma py_get_pos {A} (l : list A) i a : (0 <= i)%Z ->
  py_get l i = Ok a -> nth_error l (Z.to_nat i) = Some a.
Proof.
  intros Hi H. rewrite <- (Z2Nat.id i) in H by auto. rewrite py_get_nat in H.
  destruct (nth_error l (Z.to_nat i)); congruence.
Qed.

Lemma take_idx_length {A} (l : list A) idx r : take_idx l idx = Ok r -> length r = length idx.
Proof. apply mapM_length. Qed.

Lemma take_idx_nat {A} (l : list A) (idx : list nat) (d : A) :
  (forall i, In i idx -> (i < length l)%nat) ->
  take_idx l (map Z.of_nat idx) = Ok (map (fun i => nth i l d) idx).
Proof.
  intros H. apply mapM_Forall2. apply Forall2_from_nth.
  - rewrite !map_length; auto.
  - intros i z a. rewrite !nth_error_map. destruct (nth_error idx i) as [k|] eqn:E; simpl; try discriminate.
    intros E1 E2; injection E1 as <-; injection E2 as <-. rewrite py_get_nat.
    assert (k < length l)%nat by (apply H; eapply nth_error_In; eauto).
    rewrite (nth_error_nth' l d) by auto. auto.
Qed.

(** arange, masks *)
Lemma arange_length n : length (arange n) = n.
Proof. unfold arange. rewrite map_length, seq_length. auto. Qed.

Lemma nth_error_seq s n i : (i < n)%nat -> nth_error (seq s n) i = Some (s + i)%nat.
Proof. revert s i; induction n; intros s [|i] H; simpl; try lia; [f_equal; lia|]. rewrite IHn by lia. f_equal; lia. Qed.

Lemma nth_error_arange n i : (i < n)%nat -> nth_error (arange n) i = Some (Z.of_nat i).
Proof. intros H. unfold arange. rewrite nth_error_map, nth_error_seq by auto. auto. Qed.

Lemma select_length_le {A} mask (l : list A) : (length (select mask l) <= length l)%nat.
Proof. revert l; induction mask as [|[] mask IH]; intros [|a l]; simpl; try lia; specialize (IH l); lia. Qed.

Lemma select_map {A B} (f : A -> B) mask l : select mask (map f l) = map f (select mask l).
Proof. revert l; induction mask as [|[] mask IH]; intros [|a l]; simpl; auto. rewrite IH; auto. Qed.

Lemma select_In {A} mask (l : list A) x : In x (select mask l) -> In x l.
Proof.
  revert l; induction mask as [|[] mask IH]; intros [|a l]; simpl; try tauto.
  - intros [->|H]; eauto.
  - eauto.
Qed.

Lemma select_filter {A} (p : A -> bool) l : select (map p l) l = filter p l.
Proof. induction l as [|a l IH]; simpl; auto. rewrite IH. destruct (p a); auto. Qed.

Definition count (mask : list bool) : nat := length (filter (fun b => b) mask).

Lemma select_length {A} mask (l : list A) : length mask = length l -> length (select mask l) = count mask.
Proof.
  unfold count. revert l; induction mask as [|[] mask IH]; intros [|a l]; simpl; intros; try discriminate; auto.
Qed.

Lemma select_seq_lt mask s n k : In k (select mask (seq s n)) -> (s <= k < s + n)%nat.
Proof. intros H. apply select_In, in_seq in H. lia. Qed.

Lemma mask_to_mapping_nat mask : mask_to_mapping mask = map Z.of_nat (select mask (seq 0 (length mask))).
Proof. unfold mask_to_mapping, arange. apply select_map. Qed.

Lemma select_as_idx_gen {A} mask (l : list A) s d : length mask = length l ->
  map (fun i => nth (i - s) l d) (select mask (seq s (length mask))) = select mask l.
Proof.
  revert l s; induction mask as [|b mask IH]; intros [|a l] s E; cbn [length seq] in *; try discriminate; auto.
  injection E as E.
  assert (H: map (fun i => nth (i - s) (a :: l) d) (select mask (seq (S s) (length mask))) = select mask l).
  { rewrite <- (IH l (S s)) by auto. apply map_ext_in. intros i Hi. apply select_seq_lt in Hi.
    replace (i - s)%nat with (S (i - S s)) by lia. auto. }
  destruct b; cbn [select map]; rewrite H; auto. rewrite Nat.sub_diag. auto.
Qed.

Lemma take_mask {A} mask (l : list A) : length mask = length l ->
  take_idx l (mask_to_mapping mask) = Ok (select mask l).
Proof.
  intros E. destruct l as [|a0 l0] eqn:El.
  - destruct mask; [|discriminate]. reflexivity.
  - rewrite <- El in *. rewrite mask_to_mapping_nat, (take_idx_nat l _ a0).
    + f_equal. rewrite <- (select_as_idx_gen mask l 0 a0) by auto.
      apply map_ext. intros i; f_equal; lia.
    + intros i Hi. apply select_seq_lt in Hi. lia.
Qed.

Lemma mask_mapping_nonneg mask : existsb (fun i => Z.eqb i (-1)) (mask_to_mapping mask) = false.
Proof.
  rewrite mask_to_mapping_nat. apply not_true_iff_false. rewrite existsb_exists.
  intros (z & Hz & E). apply in_map_iff in Hz as (k & <- & _). apply Z.eqb_eq in E. lia.
Qed.

Lemma nat_mapping_nonneg l : existsb (fun i => Z.eqb i (-1)) (map Z.of_nat l) = false.
Proof.
  apply not_true_iff_false. rewrite existsb_exists.
  intros (z & Hz & E). apply in_map_iff in Hz as (k & <- & _). apply Z.eqb_eq in E. lia.
Qed.

(** remap *)
Lemma remap_length {A} m (v : list A) d r : remap m v d = Ok r -> length r = length m.
Proof.
  unfold remap. intros H. apply bind_Ok in H as (t & Ht & H). apply take_idx_length in Ht.
  destruct (existsb _ m); [destruct d; [|discriminate]|]; injection H as <-; auto.
  apply map2_length_eq; auto.
Qed.

Lemma remap_nth {A} m (v : list A) d r : remap m v d = Ok r ->
  forall i z a, nth_error m i = Some z -> nth_error r i = Some a ->
    if Z.eqb z (-1) then d = Some a else py_get v z = Ok a.
Proof.
  unfold remap. intros H. apply bind_Ok in H as (t & Ht & H). intros i z a Ez Ea.
  assert (Hget : exists b, nth_error t i = Some b /\ py_get v z = Ok b) by (eapply (mapM_nth _ _ _ Ht); eauto).
  destruct Hget as (b & Eb & Hb).
  destruct (existsb _ m) eqn:Ex.
  - destruct d as [d|]; [|discriminate]. injection H as <-.
    rewrite nth_error_map2, Ez, Eb in Ea. injection Ea as <-.
    destruct (Z.eqb z (-1)); auto.
  - injection H as <-. assert (a = b) by congruence; subst.
    destruct (Z.eqb_spec z (-1)); auto. subst z.
    exfalso. apply not_true_iff_false in Ex. apply Ex. apply existsb_exists. exists (-1)%Z.
    split; [eapply nth_error_In; eauto|reflexivity].
Qed.

Lemma remap_all {A} (P : A -> Prop) m v d r : remap m v d = Ok r ->
  (forall a, In a v -> P a) -> (forall a, d = Some a -> P a) -> forall a, In a r -> P a.
Proof.
  intros H Hv Hd a Ha. apply nth_error_In_iff in Ha as [i Ei].
  assert (exists z, nth_error m i = Some z) as [z Ez].
  { apply nth_error_Some_ex. rewrite <- (remap_length _ _ _ _ H). eapply nth_error_lt; eauto. }
  pose proof (remap_nth _ _ _ _ H _ _ _ Ez Ei) as X.
  destruct (Z.eqb z (-1)); auto. apply py_get_In in X; auto.
Qed.

Lemma remap_row_length m nv row r : remap_row m nv row = Ok r -> length r = length m.
Proof.
  unfold remap_row. intros H. apply bind_Ok in H as (t & Ht & H). injection H as <-.
  apply map2_length_eq; auto. eapply take_idx_length; eauto.
Qed.

Lemma remap_row_nth m nv row r : remap_row m nv row = Ok r ->
  forall i z a, nth_error m i = Some z -> nth_error r i = Some a ->
    if Z.eqb z (-1) then a = nv else py_get row z = Ok a.
Proof.
  unfold remap_row. intros H. apply bind_Ok in H as (t & Ht & H). injection H as <-. intros i z a Ez Ea.
  destruct (mapM_nth _ _ _ Ht _ _ Ez) as (b & Eb & Hb).
  rewrite nth_error_map2, Ez, Eb in Ea. injection Ea as <-.
  destruct (Z.eqb z (-1)); auto.
Qed.

Lemma combine_mapping_length f s r : combine_mapping f s = Ok r -> length r = length s.
Proof.
  unfold combine_mapping. intros H. apply bind_Ok in H as (t & Ht & H). injection H as <-.
  apply map2_length_eq; auto. eapply take_idx_length; eauto.
Qed.

Lemma combine_mapping_nth f s r : combine_mapping f s = Ok r ->
  forall i z a, nth_error s i = Some z -> nth_error r i = Some a ->
    if Z.eqb z (-1) then a = (-1)%Z else py_get f z = Ok a.
Proof.
  unfold combine_mapping. intros H. apply bind_Ok in H as (t & Ht & H). injection H as <-. intros i z a Ez Ea.
  destruct (mapM_nth _ _ _ Ht _ _ Ez) as (b & Eb & Hb).
  rewrite nth_error_map2, Ez, Eb in Ea. injection Ea as <-.
  destruct (Z.eqb z (-1)); auto.
Qed.

(** scatter *)
Lemma scatter_length {A} mask (l v : list A) : length (scatter mask l v) = length l.
Proof. revert l v; induction mask as [|[] mask IH]; intros [|a l] v; simpl; auto. destruct v; simpl; auto. Qed.

Lemma scatter_nth_false {A} mask (l v : list A) i :
  nth_error mask i = Some false -> nth_error (scatter mask l v) i = nth_error l i.
Proof.
  revert l v i; induction mask as [|b mask IH]; intros [|a l] v [|i] H; simpl in *; try discriminate; auto.
  - injection H as ->. auto.
  - destruct b; [destruct v|]; simpl; auto.
Qed.

Lemma scatter_nth_true {A} mask (l v : list A) i :
  length mask = length l -> length v = count mask ->
  nth_error mask i = Some true -> exists a, nth_error (scatter mask l v) i = Some a /\ In a v.
Proof.
  unfold count. revert l v i; induction mask as [|b mask IH]; intros [|a l] v [|i] El Ev H; simpl in *; try discriminate; auto.
  - injection H as ->. simpl in Ev. destruct v; [discriminate|]. simpl; eauto.
  - destruct b; simpl in *.
    + destruct v as [|v0 v]; [discriminate|]. simpl in *. injection El as El. injection Ev as Ev.
      destruct (IH l v i El Ev H) as (x & ? & ?); eauto.
    + injection El as El. destruct (IH l v i El Ev H) as (x & ? & ?); eauto.
Qed.

(** all-true masks *)
Lemma select_all {A B} (l : list A) (x : list B) : length x = length l -> select (map (fun _ => true) x) l = l.
Proof. revert x; induction l; intros [|y x]; simpl; intros E; try discriminate; auto. f_equal; auto. Qed.
Lemma scatter_all {A B} (l v : list A) (x : list B) :
  length x = length l -> length v = length l -> scatter (map (fun _ => true) x) l v = v.
Proof. revert x v; induction l; intros [|y x] [|w v]; simpl; intros; try discriminate; auto. f_equal; auto. Qed.

Lemma Rsum_nonneg l : (forall x, In x l -> 0 <= x) -> 0 <= Rsum l.
Proof.
  induction l; simpl; intros H; [lra|]. pose proof (H a (or_introl eq_refl)).
  assert (0 <= Rsum l) by auto. lra.
Qed.
