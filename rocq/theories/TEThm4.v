(** Proofs of C19, C21, C24, C26. *)
From Coq Require Import Sorting.Sorted.
From Verif Require Import Base TEUtils TimeEvolution ListFacts TEIndexFacts TEStageFacts TEStepFacts TELoopFacts TEInv Spec_TE.

(** ** C19 *)

Lemma vsum_nth n rows i : (forall r, In r rows -> length r = n) -> (i < n)%nat ->
  nth i (vsum Rplus 0 n rows) 0 = Rsum (map (fun r => nth i r 0) rows).
Proof. intros H Hi. apply nth_error_nth. apply (col_sum_nth n rows i H Hi). Qed.

Lemma group_row n d names i : arrays_of_length n d -> (i < n)%nat ->
  nth i (vsum Rplus 0 n (flat_map (fun x => match lookup x d with Some v => [v] | None => [] end) names)) 0 = Rsum (map (fun x => rate_of d x i) names).
Proof.
  intros Hd Hi. rewrite vsum_nth; auto.
  - induction names as [|x names IH]; simpl; auto. rewrite map_app. unfold rate_of at 1. destruct (lookup x d); simpl; rewrite IH; lra.
  - intros r Hr. apply in_flat_map in Hr as (x & _ & Hr). destruct (lookup x d) as [v|] eqn:E; [|destruct Hr]. destruct Hr as [<-|[]].
    apply lookup_In in E. apply (Hd x v E).
Qed.

Lemma thm_group_sum n d groups k names : arrays_of_length n d -> nth_error groups k = Some names ->
  exists row, nth_error (sum_change_rates Rplus 0 n d (Some groups)) k = Some row /\ length row = n /\
    forall i, (i < n)%nat -> nth i row 0 = Rsum (map (fun x => rate_of d x i) names).
Proof.
  intros Hd Hk. simpl. rewrite nth_error_map, Hk. simpl. eexists. split; [reflexivity|]. split.
  - apply (col_sum_length n). intros r Hr. apply in_flat_map in Hr as (x & _ & Hr). destruct (lookup x d) as [v|] eqn:E; [|destruct Hr]. destruct Hr as [<-|[]].
    apply lookup_In in E. apply (Hd x v E).
  - intros i Hi. apply group_row; auto.
Qed.

Lemma thm_single_sum n d : arrays_of_length n d ->
  exists row, sum_change_rates Rplus 0 n d None = [row] /\ length row = n /\
    forall i, (i < n)%nat -> nth i row 0 = Rsum (map (fun kv => nth i (snd kv) 0) d).
Proof.
  intros Hd. eexists. split; [reflexivity|].
  assert (H : forall r, In r (map snd d) -> length r = n). { intros r Hr. apply in_map_iff in Hr as ([k v] & <- & Hk). apply (Hd k v Hk). }
  split; [apply (col_sum_length n); auto|]. intros i Hi. rewrite vsum_nth by auto. rewrite map_map. auto.
Qed.

Lemma Rsum_app l m : Rsum (l ++ m) = Rsum l + Rsum m.
Proof. induction l as [|a l IH]; simpl; [lra|]. rewrite IH. lra. Qed.
Lemma Rsum_map_add {A} (f g : A -> R) l : Rsum (map (fun x => f x + g x) l) = Rsum (map f l) + Rsum (map g l).
Proof. induction l as [|a l IH]; simpl; [lra|]. rewrite IH. lra. Qed.
Lemma Rsum_zero {A} (f : A -> R) l : (forall x, In x l -> f x = 0) -> Rsum (map f l) = 0.
Proof. induction l as [|a l IH]; simpl; intros H; auto. rewrite IH by auto. rewrite H by auto. lra. Qed.

Lemma rate_of_cons k v d x i : rate_of ((k, v) :: d) x i = if String.eqb x k then nth i v 0 else rate_of d x i.
Proof. unfold rate_of. simpl. destruct (String.eqb x k); auto. Qed.

(** every function listed exactly once: the groups add up to the whole *)
Lemma sum_once d i names : NoDup (map fst d) -> (forall k, In k (map fst d) -> count_occ string_dec names k = 1%nat) ->
  Rsum (map (fun x => rate_of d x i) names) = Rsum (map (fun kv => nth i (snd kv) 0) d).
Proof.
  revert names. induction d as [|[k v] d IH]; intros names Hn Hc; simpl.
  - apply Rsum_zero. intros x _. reflexivity.
  - inversion Hn as [|? ? Hk Hn']; subst.
    assert (E : forall l, Rsum (map (fun x => rate_of ((k, v) :: d) x i) l) = INR (count_occ string_dec l k) * nth i v 0 + Rsum (map (fun x => rate_of d x i) l)).
    { induction l as [|x l IHl]; simpl; [lra|]. rewrite IHl, rate_of_cons. destruct (String.eqb_spec x k) as [->|N].
      - destruct (string_dec k k); [|congruence]. rewrite S_INR.
        assert (Z : rate_of d k i = 0). { unfold rate_of. destruct (lookup k d) eqn:El; auto. apply lookup_In in El. exfalso. apply Hk. apply (in_map fst) in El. auto. }
        rewrite Z. lra.
      - destruct (string_dec x k); [congruence|]. lra. }
    rewrite E, (Hc k) by (simpl; auto). rewrite IH; auto; [simpl; lra|]. intros k' Hk'. apply Hc. simpl; auto.
Qed.

Lemma thm_groups_total n d groups i : arrays_of_length n d -> NoDup (map fst d) ->
  (forall k, In k (map fst d) -> count_occ string_dec (concat groups) k = 1%nat) -> (i < n)%nat ->
  Rsum (map (fun row => nth i row 0) (sum_change_rates Rplus 0 n d (Some groups))) = Rsum (map (fun kv => nth i (snd kv) 0) d).
Proof.
  intros Hd Hn Hc Hi. simpl. rewrite map_map.
  transitivity (Rsum (map (fun x => rate_of d x i) (concat groups))); [|apply sum_once; auto].
  clear Hc. induction groups as [|g gs IH]; simpl; auto. rewrite map_app, Rsum_app, IH, group_row; auto.
Qed.

(** functions listed nowhere have no effect *)
Lemma thm_unlisted n d1 k v d2 groups : ~ In k (concat groups) -> ~ In k (map fst (d1 ++ d2)) ->
  sum_change_rates Rplus 0 n (d1 ++ (k, v) :: d2) (Some groups) = sum_change_rates Rplus 0 n (d1 ++ d2) (Some groups).
Proof.
  intros H _. simpl. apply map_ext_in. intros g Hg. f_equal.
  assert (G : forall x, In x g -> x <> k). { intros x Hx ->. apply H. apply in_concat. eauto. }
  induction g as [|x g IH]; simpl; auto. 
  assert (E : lookup x (d1 ++ (k, v) :: d2) = lookup x (d1 ++ d2)).
  { clear - G. induction d1 as [|[k' v'] d1 IH]; simpl.
    - destruct (String.eqb_spec x k) as [->|]; auto. exfalso. apply (G k); simpl; auto.
    - destruct (String.eqb x k'); auto. }
  rewrite E. f_equal. clear - G. induction g as [|y g IH]; simpl; auto.
  assert (E : lookup y (d1 ++ (k, v) :: d2) = lookup y (d1 ++ d2)).
  { assert (y <> k) by (apply G; simpl; auto). clear - H. induction d1 as [|[k' v'] d1 IH]; simpl.
    - destruct (String.eqb_spec y k); congruence.
    - destruct (String.eqb y k'); auto. }
  rewrite E, IH; auto. intros z [<-|Hz]; apply G; simpl; auto.
Qed.

(** energy rates: the two edges separately *)
Lemma vsum_fst n rows : map fst (vsum add_bin (0, 0) n rows) = vsum Rplus 0 n (map (map fst) rows).
Proof.
  unfold vsum. replace (repeat 0 n) with (map fst (repeat (0, 0) n)) by (clear; induction n; simpl; f_equal; auto).
  generalize (repeat (0, 0) n) as acc. induction rows as [|r rows IH]; intros acc; simpl; auto. rewrite IH. f_equal.
  clear. revert r. induction acc as [|a acc IH]; intros [|b r]; simpl; auto. f_equal; auto.
Qed.
Lemma vsum_snd n rows : map snd (vsum add_bin (0, 0) n rows) = vsum Rplus 0 n (map (map snd) rows).
Proof.
  unfold vsum. replace (repeat 0 n) with (map snd (repeat (0, 0) n)) by (clear; induction n; simpl; f_equal; auto).
  generalize (repeat (0, 0) n) as acc. induction rows as [|r rows IH]; intros acc; simpl; auto. rewrite IH. f_equal.
  clear. revert r. induction acc as [|a acc IH]; intros [|b r]; simpl; auto. f_equal; auto.
Qed.
Lemma edge_lookup p d x : lookup x (edge p d) = option_map (map p) (lookup x d).
Proof. induction d as [|[k v] d IH]; simpl; auto. destruct (String.eqb x k); auto. Qed.

Lemma thm_energy_edges n d groups (p : bin -> R) : p = fst \/ p = snd ->
  map (map p) (sum_change_rates add_bin (0, 0) n d groups) = sum_change_rates Rplus 0 n (edge p d) groups.
Proof.
  intros Hp. assert (V : forall rows, map p (vsum add_bin (0, 0) n rows) = vsum Rplus 0 n (map (map p) rows)).
  { destruct Hp as [-> | ->]; [apply vsum_fst|apply vsum_snd]. }
  destruct groups as [gs|]; simpl.
  - rewrite map_map. apply map_ext. intros g. rewrite V. f_equal.
    induction g as [|x g IH]; simpl; auto. rewrite map_app, IH, edge_lookup. destruct (lookup x d); auto.
  - rewrite V. unfold edge. rewrite !map_map. auto.
Qed.

(** ** C21 *)
Lemma py_get_exists {A B} (l : list A) (m : list B) z : length l = length m -> (exists a, py_get l z = Ok a) -> exists b, py_get m z = Ok b.
Proof.
  intros L [a H]. unfold py_get in *. rewrite <- L. destruct (_ || _)%bool eqn:E; [discriminate|].
  destruct (nth_error m _) eqn:N; eauto. exfalso. apply nth_error_None in N. rewrite <- L in N. apply nth_error_None in N.
  rewrite N in H. discriminate.
Qed.
Lemma combine_exists {A} f s (v v1 v2 : list A) d : remap f v d = Ok v1 -> remap s v1 d = Ok v2 -> exists fs, combine_mapping f s = Ok fs.
Proof.
  intros H1 H2. pose proof (remap_length _ _ _ _ H1) as L1. unfold combine_mapping, remap in *.
  apply bind_Ok in H2 as (t & Ht & _). destruct (mapM_ok_all (py_get f) s) as [r Hr].
  - intros z Hz. apply (py_get_exists v1 f); [auto|]. apply nth_error_In_iff in Hz as [i Hi].
    destruct (mapM_nth _ _ _ Ht i z Hi) as (a & _ & Ha). eauto.
  - unfold take_idx. rewrite Hr. simpl. eauto.
Qed.

Lemma thm_remap_compose {A} f s (v v1 v2 : list A) d : remap f v d = Ok v1 -> remap s v1 d = Ok v2 ->
  exists fs, combine_mapping f s = Ok fs /\ remap fs v d = Ok v2.
Proof. intros H1 H2. destruct (combine_exists f s v v1 v2 d H1 H2) as [fs Hc]. exists fs. split; auto. eapply remap_compose; eauto. Qed.

Lemma thm_subgroups_compose f s rows r1 r2 : remap_subgroups_density f rows = Ok r1 -> remap_subgroups_density s r1 = Ok r2 ->
  exists fs, combine_mapping f s = Ok fs /\ remap_subgroups_density fs rows = Ok r2.
Proof.
  intros H1 H2. assert (exists fs, combine_mapping f s = Ok fs) as [fs Hc].
  { destruct rows as [|r rows]; [discriminate|]. simpl in H1. apply bind_Ok in H1 as (a & Ha & H1). apply bind_Ok in H1 as (l & _ & H1). injection H1 as <-.
    simpl in H2. apply bind_Ok in H2 as (a' & Ha' & _). apply remap_row_of_remap in Ha, Ha'. eapply combine_exists; eauto. }
  exists fs. split; auto. eapply remap_subgroups_compose; eauto.
Qed.
Lemma thm_dict_compose {A} f s (d1 d2 d3 : list (string * list A)) dv : d1 <> [] -> remap_dict f d1 dv = Ok d2 -> remap_dict s d2 dv = Ok d3 ->
  exists fs, combine_mapping f s = Ok fs /\ remap_dict fs d1 dv = Ok d3.
Proof.
  intros Hne H1 H2. assert (exists fs, combine_mapping f s = Ok fs) as [fs Hc].
  { destruct d1 as [|[k v] d1]; [congruence|]. unfold remap_dict in *. simpl in H1. apply bind_Ok in H1 as (x & Hx & H1). apply bind_Ok in H1 as (l & _ & H1). injection H1 as <-.
    apply bind_Ok in Hx as (y & Hy & Hx). injection Hx as <-. simpl in H2. apply bind_Ok in H2 as (x' & Hx' & _). apply bind_Ok in Hx' as (y' & Hy' & _).
    eapply combine_exists; eauto. }
  exists fs. split; auto. eapply remap_dict_compose; eauto.
Qed.

(** what the maps mean: -1 is a new element, k >= 0 the old element k *)
Lemma thm_remap_meaning {A} m (v r : list A) d : (forall z, In z m -> (-1 <= z)%Z) -> remap m v (Some d) = Ok r ->
  length r = length m /\
  forall i z x, nth_error m i = Some z -> nth_error r i = Some x -> (z = (-1)%Z /\ x = d) \/ ((0 <= z)%Z /\ nth_error v (Z.to_nat z) = Some x).
Proof.
  intros Hm H. split; [eapply remap_length; eauto|]. intros i z x Hz Hx.
  pose proof (remap_nth _ _ _ _ H) as G. assert (Hin : In z m) by (eapply nth_error_In; eauto). specialize (Hm z Hin).
  specialize (G i z x Hz Hx). destruct (Z.eqb_spec z (-1)) as [->|N].
  - left. split; auto. congruence.
  - right. assert (0 <= z)%Z by lia. split; auto. apply (py_get_pos v z x); auto.
Qed.

(** ** C24 *)

Lemma select_kept {A} (dens : list R) (l : list A) d : length l = length dens -> select (map (fun x => Rltb 0 x) dens) l = map (fun i => nth i l d) (kept dens).
Proof.
  intros L. unfold kept.
  assert (G : forall (dens : list R) (l : list A) pre pd, length pre = length pd -> length l = length dens ->
    select (map (fun x => Rltb 0 x) dens) l = map (fun i => nth i (pre ++ l) d) (filter (fun i => Rltb 0 (nth i (pd ++ dens) 0)) (seq (length pre) (length dens)))).
  { clear. induction dens as [|a dens IH]; intros [|x l] pre pd Lp L; try discriminate; auto.
    simpl. rewrite app_nth2 by lia. replace (length pre - length pd)%nat with O by lia. simpl.
    replace (pd ++ a :: dens) with ((pd ++ [a]) ++ dens) by (rewrite <- app_assoc; auto). replace (pre ++ x :: l) with ((pre ++ [x]) ++ l) by (rewrite <- app_assoc; auto).
    assert (E := IH l (pre ++ [x]) (pd ++ [a])). rewrite !app_length in E. simpl in E. replace (length pre + 1)%nat with (S (length pre)) in E by lia.
    rewrite E by (simpl in *; lia). destruct (Rltb 0 a); auto. simpl. f_equal.
    rewrite <- app_assoc. simpl. rewrite app_nth2 by lia. rewrite Nat.sub_diag. auto. }
  apply (G dens l [] []); auto.
Qed.

Lemma remap_subgroups_select mask rows : rows <> [] -> (forall r, In r rows -> length r = length mask) ->
  remap_subgroups_density (mask_to_mapping mask) rows = Ok (map (select mask) rows).
Proof.
  intros Hne H. assert (G : forall nv r, length r = length mask -> remap_row (mask_to_mapping mask) nv r = Ok (select mask r)).
  { intros nv r L. apply remap_row_of_remap. unfold remap. rewrite take_mask by auto. simpl. rewrite mask_mapping_nonneg. auto. }
  destruct rows as [|r0 rs]; [congruence|]. simpl. rewrite G by (apply H; simpl; auto). simpl.
  assert (E : mapM (remap_row (mask_to_mapping mask) 0) rs = Ok (map (select mask) rs)).
  { apply mapM_Forall2. apply Forall2_from_nth; [rewrite map_length; auto|]. intros i a b Ha Hb. rewrite nth_error_map, Ha in Hb. injection Hb as <-.
    apply G. apply H. right. eapply nth_error_In; eauto. }
  rewrite E. auto.
Qed.

Lemma thm_remove_empty K x : (1 <= K)%nat -> lined_up K x -> exists y, remove_empty_densities x = Ok y /\ keeps_positive x y /\
  (forall v, In v (r_dens y) -> 0 < v) /\ lined_up K y /\ remove_empty_densities y = Ok y.
Proof.
  intros HK (L1 & L2 & L3 & L4 & L5 & L6).
  assert (Hne : forall y : list (list R), length y = K -> y <> []) by (intros [|? ?] ?; simpl in *; [lia|discriminate]).
  assert (E : forall z, lined_up K z -> remove_empty_densities z = Ok
    {| r_time := r_time z; r_gamma := select (map (fun d => Rltb 0 d) (r_dens z)) (r_gamma z); r_dens := select (map (fun d => Rltb 0 d) (r_dens z)) (r_dens z);
       r_subs := map (select (map (fun d => Rltb 0 d) (r_dens z))) (r_subs z);
       r_en := map (fun kv => (fst kv, select (map (fun d => Rltb 0 d) (r_dens z)) (snd kv))) (r_en z);
       r_rel := map (fun kv => (fst kv, select (map (fun d => Rltb 0 d) (r_dens z)) (snd kv))) (r_rel z);
       r_abs := map (fun kv => (fst kv, select (map (fun d => Rltb 0 d) (r_dens z)) (snd kv))) (r_abs z) |}).
  { intros z (Z1 & Z2 & Z3 & _). unfold remove_empty_densities. rewrite remap_subgroups_select; auto.
    intros r Hr. rewrite map_length. rewrite Z3; auto. }
  set (mask := map (fun d => Rltb 0 d) (r_dens x)) in *.
  assert (D : forall d : rates R, arrays_of_length (length (r_gamma x)) d ->
    map (fun kv => (fst kv, select mask (snd kv))) d = map (fun kv => (fst kv, map (fun i => nth i (snd kv) None) (kept (r_dens x)))) d).
  { intros d Hd. apply map_ext_in. intros [k v] Hk. simpl. f_equal. apply select_kept. rewrite (Hd k v Hk). auto. }
  assert (Pos : forall v, In v (select mask (r_dens x)) -> 0 < v).
  { intros v Hv0. unfold mask in Hv0. rewrite select_filter in Hv0. apply filter_In in Hv0 as [_ Hv0]. apply Rltb_true; auto. }
  eexists. split; [apply E; repeat split; auto|]. fold mask.
  assert (Lsel : forall {A} (l : list A), length l = length (r_gamma x) -> length (select mask l) = length (select mask (r_gamma x))).
  { intros A l L. unfold mask. rewrite !select_length by (rewrite map_length; lia). auto. }
  split; [|split; [|split]].
  - unfold keeps_positive. simpl. unfold mask. rewrite !(select_kept (r_dens x) _ 0) by auto. fold mask.
    split; [auto|]. split; [auto|]. split; [auto|]. split; [|split; [|split]]; auto.
    apply map_ext_in. intros row Hr. unfold mask. apply select_kept. rewrite L3; auto.
  - simpl. auto.
  - unfold lined_up. simpl. rewrite map_length. split; [auto|]. split; [auto|]. split.
    + intros row Hr. apply in_map_iff in Hr as (r0 & <- & Hr). apply Lsel. auto.
    + repeat split; intros k v Hk; apply in_map_iff in Hk as ([k0 v0] & E0 & Hk0); simpl in E0; injection E0 as <- <-; apply Lsel; eauto.
  - assert (M : map (fun d => Rltb 0 d) (select mask (r_dens x)) = map (fun _ => true) (select mask (r_dens x))).
    { apply map_ext_in. intros v Hv0. apply Rltb_true. auto. }
    rewrite E.
    2: { unfold lined_up. simpl. rewrite map_length. split; [auto|]. split; [auto|]. split.
      + intros row Hr. apply in_map_iff in Hr as (r0 & <- & Hr). apply Lsel. auto.
      + repeat split; intros k v Hk; apply in_map_iff in Hk as ([k0 v0] & E0 & Hk0); simpl in E0; injection E0 as <- <-; apply Lsel; eauto. }
    simpl. rewrite M. assert (LD : length (select mask (r_dens x)) = length (select mask (r_gamma x))) by auto.
    assert (DD : forall d : rates R, arrays_of_length (length (r_gamma x)) d ->
      map (fun kv => (fst kv, select (map (fun _ => true) (select mask (r_dens x))) (snd kv))) (map (fun kv => (fst kv, select mask (snd kv))) d) = map (fun kv => (fst kv, select mask (snd kv))) d).
    { intros d Hd. rewrite map_map. apply map_ext_in. intros [k v] Hk. simpl. f_equal. apply select_all. rewrite LD. symmetry. apply Lsel. eauto. }
    rewrite !DD by auto. rewrite !select_all by auto. f_equal. f_equal.
    rewrite map_map. apply map_ext_in. intros row Hr. apply select_all. rewrite LD. symmetry. apply Lsel. auto.
Qed.

(** ** C26 *)
Lemma sorted_incr (l : list nat) : StronglySorted lt l -> incr l.
Proof.
  induction 1 as [|a l H IH F]; simpl; auto. destruct l as [|b l]; auto. split; auto. inversion F; auto.
Qed.

Lemma filter_window (p : nat -> bool) a k s m : (s <= a)%nat -> (a + k <= s + m)%nat ->
  (forall i, (s <= i < s + m)%nat -> p i = true <-> (a <= i < a + k)%nat) -> filter p (seq s m) = seq a k.
Proof.
  revert a k s. induction m as [|m IH]; intros a k s H1 H2 H; simpl.
  - replace k with O by lia. auto.
  - destruct (Nat.eq_dec s a) as [->|N].
    + destruct k as [|k].
      * destruct (p a) eqn:E; [apply H in E; lia|]. rewrite (IH (S a) O (S a)); try lia; auto. intros i Hi. rewrite H by lia. lia.
      * assert (E : p a = true) by (apply H; lia). rewrite E. simpl. f_equal. apply IH; try lia. intros i Hi. rewrite H by lia. lia.
    + destruct (p s) eqn:E; [apply H in E; lia|]. apply IH; try lia. intros i Hi. apply H. lia.
Qed.
Lemma with_label_window {A} groups (x : list A) r a k d : NoDup (concat groups) -> nth_error groups r = Some (seq a k) -> (a + k <= length x)%nat ->
  with_label groups x r = map (fun i => nth i x d) (seq a k).
Proof.
  intros N Hg Hk. rewrite <- (filter_window (fun i => match label groups i with Some g' => Nat.eqb g' r | None => false end) a k 0 (length x)); try lia.
  - unfold with_label. clear. change (seq 0 (length x)) with (seq (length (@nil A)) (length x)).
    assert (G : forall x pre, map snd (filter (fun ia : nat * A => match label groups (fst ia) with Some g' => Nat.eqb g' r | None => false end) (combine (seq (length pre) (length x)) x))
      = map (fun i => nth i (pre ++ x) d) (filter (fun i => match label groups i with Some g' => Nat.eqb g' r | None => false end) (seq (length pre) (length x)))).
    { clear. induction x as [|b x IH]; intros pre; auto. simpl. specialize (IH (pre ++ [b])). rewrite app_length in IH. simpl in IH. replace (length pre + 1)%nat with (S (length pre)) in IH by lia.
      rewrite <- app_assoc in IH. simpl in IH. destruct (match label groups (length pre) with Some g' => Nat.eqb g' r | None => false end); simpl; rewrite IH; auto.
      f_equal. rewrite app_nth2 by lia. rewrite Nat.sub_diag. auto. }
    apply (G x []).
  - intros i Hi. destruct (label groups i) as [g'|] eqn:E.
    + destruct (label_Some _ _ _ E) as (g & G1 & G2). rewrite Nat.eqb_eq. split.
      * intros ->. rewrite Hg in G1. injection G1 as <-. apply in_seq in G2. lia.
      * intros Hr. apply (nodup_concat_unique groups N g' r g (seq a k) i); auto. apply in_seq. lia.
    + split; [discriminate|]. intros Hr. exfalso. apply (label_None _ _ E (seq a k)); [eapply nth_error_In; eauto|apply in_seq; lia].
Qed.

Lemma thm_group_partition (dup : list nat) (n : nat) : StronglySorted lt dup -> (forall i, In i dup -> (1 <= i < n)%nat) ->
  (forall g, In g (group_duplicates dup) -> exists a k, (2 <= k)%nat /\ g = seq a k /\ (a + k <= n)%nat /\
     ~ In a dup /\ (forall i, (a < i < a + k)%nat -> In i dup) /\ ~ In (a + k)%nat dup) /\
  (forall i, (exists g, In g (group_duplicates dup) /\ In i g) <-> (In i dup \/ In (S i) dup)) /\
  NoDup (concat (group_duplicates dup)) /\
  forall (x y : list R) d, length x = n -> length y = n ->
    let kept := filter (fun i => negb (existsb (Nat.eqb i) dup)) (seq 0 n) in
    (length kept + length dup = n)%nat /\
    length (fst (merge_points x y (group_duplicates dup) d)) = length kept /\
    length (snd (merge_points x y (group_duplicates dup) d)) = length kept /\
    forall j i, nth_error kept j = Some i -> exists k vx vy,
      (1 <= k)%nat /\ (i + k <= n)%nat /\ (forall m, (i < m < i + k)%nat -> In m dup) /\ ~ In (i + k)%nat dup /\
      nth_error (fst (merge_points x y (group_duplicates dup) d)) j = Some vx /\
      nth_error (snd (merge_points x y (group_duplicates dup) d)) j = Some vy /\
      (if (k =? 1)%nat then vx = nth i x 0 /\ vy = nth i y 0
       else vx = exp (average (map ln (block x i k))) /\ vy = match d with Some f => f vx | None => average (block y i k) end).
Proof.
  intros Hs Hd. pose proof (sorted_incr dup Hs) as Hi.
  assert (H1 : forall i, In i dup -> (1 <= i)%nat) by (intros i H; apply Hd in H; lia).
  assert (H2 : forall i, In i dup -> (i < n)%nat) by (intros i H; apply Hd in H; lia).
  pose proof (group_disjoint dup Hi H1) as Hnd.
  split; [|split; [|split]]; auto.
  - intros g Hg. destruct (group_shape dup Hi H1 g Hg) as (a & k & Hk & -> & Ha & Hak & Hall). exists a, k. repeat split; auto.
    assert (In (a + k - 1)%nat dup) by (apply Hall; lia). apply H2 in H. lia.
  - intros i. split; intros H; [apply (group_cover dup Hi H1 i) in H|apply (group_cover dup Hi H1 i)]; auto.
  - intros x y d Lx Ly. cbv zeta. split; [apply (keep_idx_length_gen dup n); auto|].
    destruct (merge_points_length dup n Hi H1 x y d Lx) as [E1 E2]. split; [exact E1|]. split; [exact E2|].
    intros j i Hj. assert (Hk' : In i (keep_idx n dup)) by (eapply nth_error_In; eauto). apply keep_In in Hk' as [Hin Hk'].
    pose proof (label_kept dup Hi H1 i Hk') as HL.
    destruct (merge_points_nth dup n Hi H1 x y d j i Lx Ly Hj) as (vx & vy & Ex & Ey & [(El & A & B)|(r & Hl & _ & A & B)]).
    + rewrite El in HL. exists 1%nat, vx, vy. split; [lia|]. split; [lia|]. split; [intros; lia|]. split; [replace (i + 1)%nat with (S i) by lia; auto|].
      split; auto. split; auto. simpl. split; symmetry; apply nth_error_nth; auto.
    + rewrite Hl in HL. destruct HL as (k & Hg & Hk2 & Hall & Hend). exists k, vx, vy. 
      assert (i + k <= n)%nat. { assert (In (i + k - 1)%nat dup) by (apply Hall; lia). apply H2 in H. lia. }
      split; [lia|]. split; auto. split; auto. split; auto. split; auto. split; auto.
      destruct (Nat.eqb_spec k 1); [lia|].
      rewrite (with_label_window _ x r i k 0 Hnd Hg) in A by lia. split; [exact A|]. destruct d; auto.
      rewrite (with_label_window _ y r i k 0 Hnd Hg) in B by lia. exact B.
Qed.

(** C05: the merged point stays within the hull of the points it replaces *)
Lemma thm_merge_hull (dup : list nat) (x y : list R) d : StronglySorted lt dup -> (forall i, In i dup -> (1 <= i < length x)%nat) -> length y = length x ->
  (forall v, In v x -> 0 < v) ->
  forall j v, nth_error (fst (merge_points x y (group_duplicates dup) d)) j = Some v ->
  exists i k, nth_error (filter (fun i => negb (existsb (Nat.eqb i) dup)) (seq 0 (length x))) j = Some i /\ (1 <= k)%nat /\ (i + k <= length x)%nat /\
    (forall m, (i < m < i + k)%nat -> In m dup) /\ ~ In (i + k)%nat dup /\
    forall lo hi, 0 < lo -> (forall w, In w (block x i k) -> lo <= w <= hi) -> lo <= v <= hi.
Proof.
  intros Hs Hd Ly Hp j v Hj. destruct (thm_group_partition dup (length x) Hs Hd) as (_ & _ & _ & H).
  destruct (H x y d eq_refl Ly) as (_ & L1 & _ & H1). pose proof (nth_error_lt _ _ _ Hj) as Hlt.
  destruct (nth_error_Some_ex (filter (fun i => negb (existsb (Nat.eqb i) dup)) (seq 0 (length x))) j) as [i Hi]; [cbv zeta in L1; lia|].
  destruct (H1 j i Hi) as (k & vx & vy & Hk & Hik & Hall & Hend & Ex & Ey & Hv). rewrite Hj in Ex. injection Ex as <-.
  exists i, k. split; auto. split; auto. split; auto. split; auto. split; auto. intros lo hi Hlo Hb.
  destruct (Nat.eqb_spec k 1) as [->|N].
  - destruct Hv as [-> _]. apply Hb. simpl. auto.
  - destruct Hv as [-> _]. apply (geo_mean_bounds (block x i k) lo hi); auto. intros E. apply (f_equal (@length R)) in E. unfold block in E. rewrite map_length, seq_length in E. simpl in E. lia.
Qed.
