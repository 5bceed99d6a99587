(** The steps of the time evolution commute with a change of units (C102). *)
From Verif Require Import Base TEUtils TimeEvolution ListFacts NumpyInst Spec_Units.

(** ** lists *)
Lemma map2_hom {A B C A' B' C'} (g : A -> B -> C) (g' : A' -> B' -> C') (f1 : A -> A') (f2 : B -> B') (f3 : C -> C') l m :
  (forall a b, g' (f1 a) (f2 b) = f3 (g a b)) -> map2 g' (map f1 l) (map f2 m) = map f3 (map2 g l m).
Proof. intros H. revert m; induction l as [|a l IH]; intros [|b m]; simpl; auto. rewrite H, IH; auto. Qed.
Lemma map2_hom_l {A B C A' C'} (g : A -> B -> C) (g' : A' -> B -> C') (f1 : A -> A') (f3 : C -> C') l m :
  (forall a b, g' (f1 a) b = f3 (g a b)) -> map2 g' (map f1 l) m = map f3 (map2 g l m).
Proof. intros H. revert m; induction l as [|a l IH]; intros [|b m]; simpl; auto. rewrite H, IH; auto. Qed.
Lemma map2_hom_r {A B C B' C'} (g : A -> B -> C) (g' : A -> B' -> C') (f2 : B -> B') (f3 : C -> C') l m :
  (forall a b, g' a (f2 b) = f3 (g a b)) -> map2 g' l (map f2 m) = map f3 (map2 g l m).
Proof. intros H. revert m; induction l as [|a l IH]; intros [|b m]; simpl; auto. rewrite H, IH; auto. Qed.
Lemma map2_same {A B C A' B'} (g : A -> B -> C) (g' : A' -> B' -> C) (f1 : A -> A') (f2 : B -> B') l m :
  (forall a b, g' (f1 a) (f2 b) = g a b) -> map2 g' (map f1 l) (map f2 m) = map2 g l m.
Proof. intros H. revert m; induction l as [|a l IH]; intros [|b m]; simpl; auto. rewrite H, IH; auto. Qed.

Lemma existsb_hom {A B} (p : A -> bool) (p' : B -> bool) (f : A -> B) l : (forall a, p' (f a) = p a) -> existsb p' (map f l) = existsb p l.
Proof. intros H. induction l; simpl; auto. rewrite H, IHl; auto. Qed.
Lemma forallb_hom {A B} (p : A -> bool) (p' : B -> bool) (f : A -> B) l : (forall a, p' (f a) = p a) -> forallb p' (map f l) = forallb p l.
Proof. intros H. induction l; simpl; auto. rewrite H, IHl; auto. Qed.

Lemma mapM_hom {A B A' B'} (g : A -> res B) (g' : A' -> res B') (f : A -> A') (h : B -> B') l :
  (forall a, In a l -> g' (f a) = rmap h (g a)) -> mapM g' (map f l) = rmap (map h) (mapM g l).
Proof.
  induction l as [|a l IH]; simpl; intros H; auto. rewrite H by auto. destruct (g a); simpl; auto.
  rewrite IH by auto. destruct (mapM g l); simpl; auto.
Qed.
Lemma mapM_hom2 {A A' B B'} (g : A -> res B) (g' : A' -> res B') (h : B -> B') l l' :
  Forall2 (fun a a' => g' a' = rmap h (g a)) l l' -> mapM g' l' = rmap (map h) (mapM g l).
Proof. induction 1; simpl; auto. rewrite H. destruct (g x); simpl; auto. rewrite IHForall2. destruct (mapM g l); simpl; auto. Qed.

Lemma py_get_hom {A B} (f : A -> B) l i : py_get (map f l) i = rmap f (py_get l i).
Proof. apply py_get_map. Qed.
Lemma take_idx_hom {A B} (f : A -> B) l idx : take_idx (map f l) idx = rmap (map f) (take_idx l idx).
Proof.
  unfold take_idx. induction idx as [|i idx IH]; simpl; auto. rewrite py_get_map. destruct (py_get l i); simpl; auto.
  rewrite IH. destruct (mapM (py_get l) idx); simpl; auto.
Qed.
Lemma remap_hom {A B} (f : A -> B) m v d : remap m (map f v) (option_map f d) = rmap (map f) (remap m v d).
Proof.
  unfold remap. rewrite take_idx_hom. destruct (take_idx v m) as [r|e]; simpl; auto.
  destruct (existsb _ m); auto. destruct d; simpl; auto. f_equal. apply map2_hom_r. intros z a0. destruct (Z.eqb z (-1)); auto.
Qed.
Lemma scatter_hom {A B} (f : A -> B) m l v : scatter m (map f l) (map f v) = map f (scatter m l v).
Proof.
  revert l v; induction m as [|[] m IH]; intros [|a l] v; simpl; auto.
  - destruct v; simpl; rewrite <- IH; auto.
  - rewrite <- IH; auto.
Qed.
Lemma all_some_hom {A B} (f : A -> B) l : all_some (map (option_map f) l) = option_map (map f) (all_some l).
Proof. induction l as [|[a|] l IH]; simpl; auto. rewrite IH. destruct (all_some l); auto. Qed.
Lemma lookup_hom {A B} (f : A -> B) k (d : list (string * A)) : lookup k (map (fun kv => (fst kv, f (snd kv))) d) = option_map f (lookup k d).
Proof. induction d as [|[k' a] d IH]; simpl; auto. destruct (String.eqb k k'); auto. Qed.
Lemma fold_hom {A B} (f : A -> B) (add : A -> A -> A) (add' : B -> B -> B) l a :
  (forall x y, add' (f x) (f y) = f (add x y)) -> fold_left add' (map f l) (f a) = f (fold_left add l a).
Proof. intros H. revert a; induction l as [|b l IH]; intros a; simpl; auto. rewrite H. apply IH. Qed.
Lemma repeat_hom {A B} (f : A -> B) a n : repeat (f a) n = map f (repeat a n).
Proof. induction n; simpl; auto. f_equal; auto. Qed.
Lemma last_hom {A B} (f : A -> B) l a : last (map f l) (f a) = f (last l a).
Proof. induction l as [|b l IH]; simpl; auto. destruct l; auto. Qed.

(** ** comparisons *)
Lemma Rltb_same x y x' y' : (x < y <-> x' < y') -> Rltb x' y' = Rltb x y.
Proof. intros H. destruct (Rltb_spec x y), (Rltb_spec x' y'); tauto || auto. Qed.
Lemma Rleb_same x y x' y' : (x <= y <-> x' <= y') -> Rleb x' y' = Rleb x y.
Proof. intros H. destruct (Rleb_spec x y), (Rleb_spec x' y'); tauto || auto. Qed.
Lemma Reqb_same x y x' y' : (x = y <-> x' = y') -> Reqb x' y' = Reqb x y.
Proof. intros H. destruct (Reqb_spec x y), (Reqb_spec x' y'); tauto || auto. Qed.
Lemma Rltb_mul k x y : 0 < k -> Rltb (k * x) (k * y) = Rltb x y.
Proof. intros. apply Rltb_same. split; intros; nra. Qed.
Lemma Rleb_mul k x y : 0 < k -> Rleb (k * x) (k * y) = Rleb x y.
Proof. intros. apply Rleb_same. split; intros; nra. Qed.
Lemma Reqb_mul0 k x : 0 < k -> Reqb (k * x) 0 = Reqb x 0.
Proof. intros. apply Reqb_same. split; intros; nra. Qed.
Lemma Rltb_mul0 k x : 0 < k -> Rltb (k * x) 0 = Rltb x 0.
Proof. intros. apply Rltb_same. split; intros; nra. Qed.
Lemma Rltb_0mul k x : 0 < k -> Rltb 0 (k * x) = Rltb 0 x.
Proof. intros. apply Rltb_same. split; intros; nra. Qed.
Lemma Rleb_mul0 k x : 0 < k -> Rleb (k * x) 0 = Rleb x 0.
Proof. intros. apply Rleb_same. split; intros; nra. Qed.

Definition mul (k : R) : R -> R := fun v => k * v.
Definition mulb (k : R) (b : bin) : bin := (k * fst b, k * snd b).
Lemma times_map k l : times k l = map (mul k) l. Proof. reflexivity. Qed.

(** ** the distribution *)
Section Density.
Variable np : numpy.
Hypothesis Hnp : numpy_ok np.
Variable k : R.
Hypothesis Hk : 0 < k.
Hypothesis Hs : scales_densities np k.

Lemma p10_times y : numpy_exact np -> p10 np (y + lg np k) = k * p10 np y.
Proof.
  intros He. rewrite <- (p10_lg _ He (k * p10 np y)) by (apply Rmult_lt_0_compat; auto; apply p10_pos; auto).
  rewrite (lg_mul _ He) by (auto; apply p10_pos; auto). rewrite (lg_p10 _ He). f_equal. ring.
Qed.

Lemma eval_times d g : tellable d -> dist_eval np (populated_by k d) g = k * dist_eval np d g.
Proof.
  destruct d as [f lo hi|xs ns|lo hi]; simpl; intros Ht.
  - destruct (_ && _)%bool; ring.
  - destruct (_ && _)%bool; [|ring]. destruct Ht as [L P]. destruct Hs as [E|[He Hi]].
    + rewrite E. unfold times. rewrite (map_ext (fun v => 1 * v) (fun v => v)) by (intros; ring). rewrite map_id. ring.
    + rewrite <- p10_times by auto. f_equal. rewrite <- Hi by (rewrite !map_length; auto). f_equal.
      unfold times. rewrite !map_map. apply map_ext_in. intros v Hv. rewrite (lg_mul _ He) by auto. ring.
  - ring.
Qed.

Lemma populated_bounds_call d gs : tellable d ->
  dist_call np (populated_by k d) gs = (fst (dist_call np d gs), times k (snd (dist_call np d gs))).
Proof.
  intros Ht. destruct d as [f lo hi|xs ns|lo hi]; unfold dist_call, populated_by; simpl fst; simpl snd; f_equal;
    unfold times; rewrite map_map; apply map_ext; intros g; (apply (eval_times (DOrig f lo hi)) || apply (eval_times (DInterp xs ns)) || apply (eval_times (DEmpty lo hi))); auto.
Qed.

Lemma interpolated_times gamma n :
  interpolated np gamma (times k n) = rmap (populated_by k) (interpolated np gamma n).
Proof.
  unfold interpolated. rewrite times_map, map_map.
  rewrite (map_ext (fun x => negb (Reqb (mul k x) 0)) (fun v => negb (Reqb v 0))) by (intros; unfold mul; rewrite Reqb_mul0; auto).
  rewrite select_map. destruct (Nat.ltb _ 2); auto. destruct (strictly_increasingb _); auto.
Qed.

Lemma select_le {A B} m (l : list A) (p : B -> bool) (n : list B) : m = map p n -> (length (select m l) <= length (select m n))%nat.
Proof. intros ->. revert l; induction n as [|b n IH]; intros [|a l]; simpl; auto; try lia; destruct (p b); simpl; try lia; specialize (IH l); lia. Qed.

Lemma interpolated_tellable gamma n d : (forall v, In v n -> 0 <= v) -> interpolated np gamma n = Ok d -> tellable d.
Proof.
  intros P. unfold interpolated. set (m := map _ n). destruct (Nat.ltb_spec (length (select m gamma)) 2); [discriminate|].
  destruct (strictly_increasingb _); [|discriminate]. intros H0; injection H0 as <-. simpl. split.
  - split; auto. unfold m. eapply select_le. reflexivity.
  - intros v Hv. unfold m in Hv. rewrite select_filter in Hv. apply filter_In in Hv as [Hv Hz].
    apply negb_true_iff, Reqb_false in Hz. specialize (P v Hv). lra.
Qed.

(** ** merging *)
Lemma nth_times i l : nth i (times k l) 0 = k * nth i l 0.
Proof. unfold times. rewrite <- (Rmult_0_r k) at 1. rewrite map_nth. auto. Qed.
Lemma Rsum_times l : Rsum (times k l) = k * Rsum l.
Proof. induction l; simpl; [ring|]. rewrite IHl. ring. Qed.
Lemma mean_times l : mean (times k l) = k * mean l.
Proof. unfold mean. rewrite Rsum_times. unfold times. rewrite map_length. unfold Rdiv. ring. Qed.
Lemma with_label_times gr l g : with_label gr (times k l) g = times k (with_label gr l g).
Proof.
  unfold with_label, times. rewrite map_length. generalize 0%nat. induction l as [|a l IH]; intros s; simpl; auto.
  destruct (label gr s) as [g'|]; [destruct (Nat.eqb g' g)|]; simpl; rewrite ?IH; auto.
Qed.

Lemma merge_points_times x y gr d d' :
  match d, d' with Some f, Some f' => forall g, f' g = k * f g | None, None => True | _, _ => False end ->
  merge_points x (times k y) gr d' = (fst (merge_points x y gr d), times k (snd (merge_points x y gr d))).
Proof.
  intros H. unfold merge_points. simpl fst. simpl snd. f_equal. rewrite (times_map k (map _ _)), map_map. unfold mul. apply map_ext. intros i.
  destruct (label gr i) as [g|]; [|apply nth_times]. destruct d as [f|], d' as [f'|]; try contradiction.
  - rewrite <- nth_times. unfold times. rewrite (map_map f). f_equal. apply map_ext. auto.
  - rewrite <- nth_times. f_equal. rewrite (times_map k (map _ _)), map_map. apply map_ext. intros j. rewrite with_label_times. apply mean_times.
Qed.

Lemma sort_merge_times b n d d' :
  match d, d' with Some f, Some f' => forall g, f' g = k * f g | None, None => True | _, _ => False end ->
  sort_and_merge_duplicates np b (times k n) d' =
  let '(x, y, m) := sort_and_merge_duplicates np b n d in (x, times k y, m).
Proof.
  intros H. unfold sort_and_merge_duplicates. cbv zeta.
  assert (E : map (fun i => nth i (times k n) 0) (argsort np (lbs b)) = times k (map (fun i => nth i n 0) (argsort np (lbs b)))).
  { rewrite (times_map k (map _ _)), map_map. apply map_ext. intros; apply nth_times. }
  rewrite E. destruct (dup_positions _ _) as [|i0 dup]; auto.
  rewrite (merge_points_times _ _ _ d d' H). destruct (merge_points _ _ _ d) as [x y]. auto.
Qed.

Lemma update_times b n : update_distribution np b (times k n) = rmap (populated_by k) (update_distribution np b n).
Proof.
  unfold update_distribution. rewrite (sort_merge_times b n None None Logic.I).
  destruct (sort_and_merge_duplicates np b n None) as [[x y] m].
  rewrite times_map, (forallb_hom (fun v => Reqb v 0)) by (intros; unfold mul; apply Reqb_mul0; auto).
  destruct (forallb _ y); auto. destruct (Nat.eqb (length x) 1); auto. apply interpolated_times.
Qed.

Lemma mean_nonneg l : (forall v, In v l -> 0 <= v) -> 0 <= mean l.
Proof.
  intros H. unfold mean. destruct (Nat.eq_dec (length l) 0) as [E|E].
  - destruct l; [|discriminate]. simpl. unfold Rdiv. lra.
  - unfold Rdiv. apply Rmult_le_pos; [apply Rsum_nonneg; auto|]. left. apply Rinv_0_lt_compat, lt_0_INR. lia.
Qed.

Lemma merged_nonneg b n sb sn m : (forall v, In v n -> 0 <= v) -> sort_and_merge_duplicates np b n None = (sb, sn, m) -> forall v, In v sn -> 0 <= v.
Proof.
  intros P. unfold sort_and_merge_duplicates. cbv zeta. set (sd := map (fun i => nth i n 0) _).
  assert (Pd : forall v, In v sd -> 0 <= v).
  { intros v Hv. apply in_map_iff in Hv as (i & <- & _). destruct (nth_in_or_default i n 0) as [T|T]; [auto|rewrite T; lra]. }
  destruct (dup_positions _ _) as [|i0 dup]; [intros H; injection H as _ <- _; auto|].
  unfold merge_points. cbv zeta. intros H; injection H as _ <- _. intros v Hv. apply in_map_iff in Hv as (i & <- & _).
  destruct (label _ i) as [g|].
  - match goal with |- 0 <= nth g ?l 0 => destruct (nth_in_or_default g l 0) as [T|T]; [|rewrite T; lra] end.
    apply in_map_iff in T as (j & <- & _). apply mean_nonneg. intros w Hw. unfold with_label in Hw.
    apply in_map_iff in Hw as ([p q] & <- & Hq). apply filter_In in Hq as [Hq _]. apply in_combine_r in Hq. auto.
  - destruct (nth_in_or_default i sd 0) as [T|T]; [auto|rewrite T; lra].
Qed.

Lemma update_tellable b n d : (forall v, In v n -> 0 <= v) -> update_distribution np b n = Ok d -> tellable d.
Proof.
  intros P. unfold update_distribution. destruct (sort_and_merge_duplicates np b n None) as [[sb sn] m] eqn:E.
  destruct (forallb _ sn); [intros H; injection H as <-; simpl; auto|]. destruct (Nat.eqb (length sb) 1); [discriminate|].
  apply interpolated_tellable. eapply merged_nonneg; eauto.
Qed.
End Density.

(** ** rates *)
Definition rmul {A} (f : A -> A) (r : rates A) : rates A := map (fun kv => (fst kv, map (option_map f) (snd kv))) r.

Definition shape_hom {A} (sh : shape A) (f : A -> A) (q : R) : Prop := forall l, unflat sh (times q l) = option_map (map f) (unflat sh l).
Lemma shape1_hom q : shape_hom shape1 (mul q) q.
Proof. intros l. auto. Qed.
Lemma pairs_hom q n : forall l, (length l <= n)%nat -> pairs (times q l) = option_map (map (mulb q)) (pairs l).
Proof.
  induction n as [|n IH]; intros [|a [|b l]] L; simpl in *; auto; try lia. 
  change (map (fun v => q * v) l) with (times q l). rewrite IH by lia. destruct (pairs l); auto.
Qed.
Lemma shape2_hom q : shape_hom shape2 (mulb q) q.
Proof. intros l. apply (pairs_hom q (length l)). auto. Qed.

Lemma call_hom {A} (sh : shape A) f q x fn fn' d p n : shape_hom sh f q -> tells x q fn fn' -> tellable d ->
  call_fn sh fn' (populated_by (ud x) d) {| fp_gamma := fp_gamma p; fp_densities := times (ud x) (fp_densities p); fp_subgroups := fp_subgroups p |} n
  = rmap (map (option_map f)) (call_fn sh fn d p n).
Proof.
  intros Hf Hfn Hd. unfold call_fn. rewrite Hfn by auto. destruct (fn d p) as [l|e]; simpl; auto. rewrite Hf.
  destruct (unflat sh l) as [v|]; simpl; auto. rewrite map_length. destruct (Nat.eqb _ n); simpl; auto. rewrite !map_map. auto.
Qed.

Lemma recalc_hom {A} (sh : shape A) f q x cols fns fns' d dens subs prev mask : shape_hom sh f q -> all_tell x q fns fns' -> tellable d ->
  recalc_new_rates sh cols fns' (populated_by (ud x) d) (times (ud x) dens) subs (rmul f prev) mask
  = rmap (rmul f) (recalc_new_rates sh cols fns d dens subs prev mask).
Proof.
  intros Hf Hfn Hd. unfold recalc_new_rates. cbv zeta. set (m := match mask with None => _ | Some m => m end).
  destruct (remap_subgroups_density _ subs) as [sm|e]; simpl; auto. 
  assert (E : select m (times (ud x) dens) = times (ud x) (select m dens)) by apply select_map. rewrite E. clear E.
  set (P := {| fp_gamma := flat sh (select m cols); fp_densities := select m dens; fp_subgroups := sm |}).
  change {| fp_gamma := flat sh (select m cols); fp_densities := times (ud x) (select m dens); fp_subgroups := sm |}
    with {| fp_gamma := fp_gamma P; fp_densities := times (ud x) (fp_densities P); fp_subgroups := fp_subgroups P |}. clearbody P.
  unfold rmul at 2. apply mapM_hom2. eapply Forall2_impl; [|exact Hfn]. intros kf kf' [En Ht]. rewrite En.
  destruct mask as [mk|].
  - unfold rmul. rewrite (lookup_hom (map (option_map f))). destruct (lookup (fst kf) prev) as [pv|]; cbn [option_map]; auto.
    rewrite (call_hom sh f q x (snd kf) (snd kf')) by auto. destruct (call_fn _ _ _ _ _); simpl; auto. rewrite scatter_hom. auto.
  - rewrite (call_hom sh f q x (snd kf) (snd kf')) by auto. destruct (call_fn _ _ _ _ _); simpl; auto.
Qed.

Lemma known_hom {A} (f : A -> A) (r : rates A) :
  known (rmul f r) = rmap (map (fun kv => (fst kv, map f (snd kv)))) (known r).
Proof.
  unfold known, rmul. apply mapM_hom. intros [k l] _. simpl. rewrite all_some_hom. destruct (all_some l); auto.
Qed.

Lemma vsum_hom {A} (f : A -> A) add zero n (ls : list (list A)) : (forall a b, add (f a) (f b) = f (add a b)) -> f zero = zero ->
  vsum add zero n (map (map f) ls) = map f (vsum add zero n ls).
Proof.
  intros Ha Hz. unfold vsum. rewrite <- (fold_hom (map f) (map2 add) (map2 add)) by (intros; apply map2_hom; auto).
  rewrite <- repeat_hom, Hz. auto.
Qed.
Lemma sum_hom {A} (f : A -> A) add zero n (r : list (string * list A)) g : (forall a b, add (f a) (f b) = f (add a b)) -> f zero = zero ->
  sum_change_rates add zero n (map (fun kv => (fst kv, map f (snd kv))) r) g = map (map f) (sum_change_rates add zero n r g).
Proof.
  intros Ha Hz. unfold sum_change_rates. destruct g as [rows|].
  - rewrite map_map. apply map_ext. intros row. rewrite <- vsum_hom by auto. f_equal.
    induction row as [|nm row IH]; simpl; auto. rewrite lookup_hom. destruct (lookup nm r); simpl; rewrite IH; auto.
  - simpl. rewrite <- vsum_hom by auto. rewrite !map_map. auto.
Qed.

Lemma remap_dict_hom {A} (f : A -> A) m (r : rates A) : remap_dict m (rmul f r) (Some None) = rmap (rmul f) (remap_dict m r (Some None)).
Proof.
  unfold remap_dict, rmul. apply mapM_hom. intros [k l] _. simpl.
  pose proof (remap_hom (option_map f) m l (Some None)) as H. simpl in H. rewrite H. destruct (remap m l (Some None)); auto.
Qed.

(** ** one interval *)
Section Interval.
Variable np : numpy.
Hypothesis Hnp : numpy_ok np.
Variable x : units.
Hypothesis Hx : proper x.
Hypothesis Hs : scales_densities np (ud x).
Variables c c' : cfg.
Hypothesis Hm : 0 < mec2 c.
Hypothesis Ht : told x c c'.

Let a := ut x.
Let e := ue x.
Let k := ud x.
Lemma a_pos : 0 < a. Proof. apply Hx. Qed.
Lemma e_pos : 0 < e. Proof. apply Hx. Qed.
Lemma k_pos : 0 < k. Proof. apply Hx. Qed.
Hint Resolve a_pos e_pos k_pos : core.
Lemma quot_pos p q : 0 < p -> 0 < q -> 0 < p / q.
Proof. intros. unfold Rdiv. apply Rmult_lt_0_compat; auto. apply Rinv_0_lt_compat; auto. Qed.
Hint Resolve quot_pos Rlt_0_1 : core.

Definition ext_mul (q : R) : option R -> option R := option_map (mul q).

Lemma Reqb_mul k0 x0 y : 0 < k0 -> Reqb (k0 * x0) (k0 * y) = Reqb x0 y.
Proof. intros. apply Reqb_same. split; intros; nra. Qed.

Lemma erg_hom b : to_erg (mec2 c') b = map (mulb e) (to_erg (mec2 c) b).
Proof. unfold to_erg. rewrite map_map. apply map_ext. intros [u v]. unfold mulb; simpl. rewrite (t_mec2 _ _ _ Ht). f_equal; unfold e; ring. Qed.

Lemma increase_hom ch bins : recalc_energy_bins_and_density_increase (map (mulb e) ch) (map (mulb e) bins)
  = rmap (fun r => (map (mulb e) (fst r), snd r)) (recalc_energy_bins_and_density_increase ch bins).
Proof.
  unfold recalc_energy_bins_and_density_increase. cbv zeta.
  rewrite (map2_hom (fun b c0 : bin => (fst b + fst c0, snd b + snd c0)) _ (mulb e) (mulb e) (mulb e)) by (intros; unfold mulb; simpl; f_equal; ring).
  set (nw := map2 _ bins ch).
  rewrite (existsb_hom (fun b : bin => (Rleb (fst b) 0 || Rleb (snd b) 0)%bool)) by (intros; simpl; rewrite !Rleb_mul0; auto).
  destruct (existsb _ nw); auto.
  assert (W : forall b : bin, snd (mulb e b) - fst (mulb e b) = e * (snd b - fst b)) by (intros; simpl; ring).
  rewrite (existsb_hom (fun b : bin => Rltb (snd b - fst b) 0)) by (intros; rewrite W, Rltb_mul0; auto).
  destruct (existsb (fun b : bin => Rltb _ 0) nw); auto.
  rewrite (existsb_hom (fun b : bin => Reqb (snd b - fst b) 0)) by (intros; rewrite W, Reqb_mul0; auto).
  destruct (existsb (fun b : bin => Reqb _ 0) nw) eqn:E0; auto. simpl. do 2 f_equal.
  assert (Hz : forall b, In b nw -> snd b - fst b <> 0).
  { intros b Hb Hz. assert (existsb (fun b : bin => Reqb (snd b - fst b) 0) nw = true); [|congruence].
    apply existsb_exists. exists b. split; auto. apply Reqb_true; auto. }
  clear E0. clearbody nw. revert nw Hz. induction bins as [|b bins IH]; intros [|w nw] Hz; simpl; auto. f_equal.
  - simpl in W. rewrite !W. specialize (Hz w (or_introl eq_refl)). field. split; auto. pose proof e_pos; lra.
  - apply IH. intros; apply Hz; simpl; auto.
Qed.

Lemma gamma_hom en ch d : recalc_gamma_bins_and_density (mec2 c') (map (mulb e) en) (map (mulb e) ch) (times k d)
  = rmap (fun r => (fst r, times k (snd r))) (recalc_gamma_bins_and_density (mec2 c) en ch d).
Proof.
  unfold recalc_gamma_bins_and_density. rewrite increase_hom. destruct (recalc_energy_bins_and_density_increase ch en) as [[nw incr]|]; simpl; auto.
  do 2 f_equal.
  - rewrite map_map. apply map_ext. intros [u v]. simpl. rewrite (t_mec2 _ _ _ Ht). fold e. pose proof e_pos. f_equal; field; lra.
  - apply map2_hom_l. intros; ring.
Qed.

Lemma groups_hom en d subs : forall ch, recalc_groups c' (map (mulb e) en) (times k d) subs (map (map (mulb e)) ch)
  = rmap (map (fun r => (fst r, times k (snd r)))) (recalc_groups c en d subs ch).
Proof.
  induction subs as [|row subs IH]; intros [|ch chs]; simpl; auto.
  assert (E : map2 Rmult (times k d) row = times k (map2 Rmult d row)) by (apply map2_hom_l; intros; ring). rewrite E. clear E.
  rewrite gamma_hom. destruct (recalc_gamma_bins_and_density _ _ _ _) as [y|]; simpl; auto.
  rewrite IH. destruct (recalc_groups c en d subs chs); simpl; auto.
Qed.

Lemma inject_hom xs : forall inj, inject_groups (map (fun r => (fst r, times k (snd r))) xs) (map (times k) inj)
  = rmap (map (fun r => (fst r, times k (snd r)))) (inject_groups xs inj).
Proof.
  induction xs as [|[b d] xs IH]; intros [|i inj]; simpl; auto.
  assert (E : map2 Rplus (times k d) (times k i) = times k (map2 Rplus d i)) by (apply map2_hom; intros; ring). rewrite E. clear E.
  rewrite times_map, (existsb_hom (fun v => Rltb v 0)) by (intros; apply Rltb_mul0; auto). destruct (existsb _ _); auto.
  rewrite IH. destruct (inject_groups xs inj); reflexivity.
Qed.

Lemma inject_nonneg xs : forall inj ys, inject_groups xs inj = Ok ys -> forall b d, In (b, d) ys -> forall v, In v d -> 0 <= v.
Proof.
  induction xs as [|[b0 d0] xs IH]; intros [|i inj] ys; simpl; try discriminate; try (intros H; injection H as <-; intros ? ? []).
  destruct (existsb _ _) eqn:E; [discriminate|]. destruct (inject_groups xs inj) as [r|] eqn:Er; simpl; [|discriminate].
  intros H; injection H as <-. intros b d [Hb|Hb]; [|eapply IH; eauto]. injection Hb as <- <-. intros v Hv.
  destruct (Rle_dec 0 v); auto. exfalso. assert (existsb (fun v => Rltb v 0) (map2 Rplus d0 i) = true); [|congruence].
  apply existsb_exists. exists v. split; auto. apply Rltb_true. lra.
Qed.

Lemma regrid_hom rest : (forall b d, In (b, d) rest -> forall v, In v d -> 0 <= v) -> forall b0,
  regrid_groups np b0 (map (fun r => (fst r, times k (snd r))) rest)
  = rmap (fun r => (fst r, map (times k) (snd r))) (regrid_groups np b0 rest).
Proof.
  induction rest as [|[b d] rest IH]; intros P b0; simpl; auto.
  assert (P' : forall b d, In (b, d) rest -> forall v, In v d -> 0 <= v) by (intros; eapply P; simpl; eauto).
  rewrite times_map, (forallb_hom (fun v => Reqb v 0)) by (intros; apply Reqb_mul0; auto). rewrite <- times_map.
  destruct (_ || _)%bool.
  - rewrite IH by auto. destruct (regrid_groups np b0 rest) as [[b' ds]|]; auto.
  - rewrite interpolated_times by auto. destruct (interpolated np (lbs b) d) as [dd|] eqn:Ed; simpl; auto.
    rewrite (populated_bounds_call np Hnp k k_pos Hs) by (eapply interpolated_tellable; [|exact Ed]; eapply P; simpl; eauto).
    destruct (dist_call np dd (lbs b0)) as [lb' vals]. simpl. rewrite IH by auto.
    destruct (regrid_groups np _ rest) as [[b' ds]|]; auto.
Qed.

Lemma regrid_nonneg rest : (forall b d, In (b, d) rest -> forall v, In v d -> 0 <= v) -> forall b0 b' ds,
  regrid_groups np b0 rest = Ok (b', ds) -> forall d, In d ds -> forall v, In v d -> 0 <= v.
Proof.
  induction rest as [|[b d] rest IH]; intros P b0 b' ds; simpl; [intros H; injection H as _ <-; intros ? []|].
  assert (P' : forall b d, In (b, d) rest -> forall v, In v d -> 0 <= v) by (intros; eapply P; simpl; eauto).
  destruct (_ || _)%bool.
  - destruct (regrid_groups np b0 rest) as [[b1 ds1]|] eqn:E; simpl; [|discriminate]. intros H; injection H as _ <-.
    intros d1 [<-|H1]; [eapply P; simpl; eauto|eapply IH; eauto].
  - destruct (interpolated np (lbs b) d) as [dd|] eqn:Ed; simpl; [|discriminate]. destruct (dist_call np dd (lbs b0)) as [lb' vals] eqn:Ec.
    destruct (regrid_groups np _ rest) as [[b1 ds1]|] eqn:E; simpl; [|discriminate]. intros H; injection H as _ <-.
    intros d1 [<-|H1]; [|eapply IH; eauto]. intros v Hv.
    assert (Hin : In v (map (dist_eval np dd) (fst (dist_call np dd (lbs b0))))).
    { destruct dd; simpl in *; injection Ec as <- <-; auto. }
    apply in_map_iff in Hin as (g & <- & _). unfold interpolated in Ed. destruct (Nat.ltb _ 2); [discriminate|].
    destruct (strictly_increasingb _); [|discriminate]. injection Ed as <-. simpl. destruct (_ && _)%bool; [|lra].
    left. apply p10_pos; auto.
Qed.

Lemma col_sum_hom n rows : col_sum n (map (times k) rows) = times k (col_sum n rows).
Proof. apply (vsum_hom (fun v => k * v) Rplus 0 n rows); intros; ring. Qed.

Lemma col_sum_nonneg n rows : (forall r, In r rows -> forall v, In v r -> 0 <= v) -> forall v, In v (col_sum n rows) -> 0 <= v.
Proof.
  unfold col_sum. assert (P0 : forall v, In v (repeat 0 n) -> 0 <= v) by (intros v Hv; apply repeat_spec in Hv; lra).
  revert P0. generalize (repeat 0 n). induction rows as [|r rows IH]; intros acc P0 P; simpl; auto.
  apply IH; [|intros; eapply P; simpl; eauto]. intros v Hv. apply In_map2 in Hv as (p & q & Hp & Hq & ->).
  specialize (P0 p Hp). specialize (P r (or_introl eq_refl) q Hq). lra.
Qed.

Lemma new_row_hom tot old nw : new_row (times k tot) old (times k nw) = new_row tot old nw.
Proof.
  unfold new_row, times. revert old nw. induction tot as [|t tot IH]; intros [|o old] [|w nw]; simpl; auto.
  rewrite IH. f_equal. rewrite Reqb_mul0 by auto. destruct (Reqb_spec t 0); auto. field. split; auto. pose proof k_pos; lra.
Qed.

Lemma eval_hom en d subs ch inj : apply_time_eval np c' (map (mulb e) en) (times k d) subs (map (map (mulb e)) ch) (map (times k) inj)
  = rmap (fun r => (fst (fst r), times k (snd (fst r)), snd r)) (apply_time_eval np c en d subs ch inj).
Proof.
  unfold apply_time_eval. rewrite groups_hom. destruct (recalc_groups c en d subs ch) as [xs|]; simpl; auto.
  rewrite inject_hom. destruct (inject_groups xs inj) as [ys|] eqn:Ey; simpl; auto.
  destruct ys as [|[b0 d0] rest]; simpl; auto. rewrite regrid_hom by (intros; eapply inject_nonneg; [exact Ey|right; eauto|auto]).
  destruct (regrid_groups np b0 rest) as [[b' ds]|]; simpl; auto.
  change (times k d0 :: map (times k) ds) with (map (times k) (d0 :: ds)). 
  assert (E : length (times k d) = length d) by apply map_length. rewrite E, col_sum_hom. clear E.
  do 2 f_equal. set (tot := col_sum _ _). clearbody tot. 
  assert (E : forall l old, map2 (new_row (times k tot)) old (map (times k) l) = map2 (new_row tot) old l).
  { induction l as [|w l IH]; intros [|o old]; simpl; auto. rewrite IH, new_row_hom. auto. }
  apply E.
Qed.

Lemma eval_nonneg en d subs ch inj b n s : apply_time_eval np c en d subs ch inj = Ok (b, n, s) -> forall v, In v n -> 0 <= v.
Proof.
  unfold apply_time_eval. destruct (recalc_groups c en d subs ch) as [xs|]; simpl; [|discriminate].
  destruct (inject_groups xs inj) as [ys|] eqn:Ey; simpl; [|discriminate]. destruct ys as [|[b0 d0] rest]; [discriminate|].
  destruct (regrid_groups np b0 rest) as [[b' ds]|] eqn:Er; simpl; [|discriminate]. intros H; injection H as _ <- _.
  apply (col_sum_nonneg (length d) (d0 :: ds)).
  intros r [<-|Hr]; [eapply inject_nonneg; [exact Ey|left; eauto]|].
  eapply regrid_nonneg; [|exact Er|exact Hr]. intros; eapply inject_nonneg; [exact Ey|right; eauto|auto].
Qed.

(** ** stages 1 and 2 *)
Definition in_new {A} (f : A -> A) (r : dist * res A) : dist * res A := (populated_by k (fst r), rmap f (snd r)).

Lemma scale_bins_hom t l : scale_bins (a * t) (map (mulb (e / a)) l) = map (mulb e) (scale_bins t l).
Proof. unfold scale_bins. rewrite !map_map. apply map_ext. intros [u v]. unfold mulb; simpl. pose proof a_pos. f_equal; field; lra. Qed.
Lemma scale_hom t l : scale (a * t) (times (k / a) l) = times k (scale t l).
Proof. unfold scale, times. rewrite !map_map. apply map_ext. intros v. pose proof a_pos. field; lra. Qed.

Lemma group_energy_hom n r : group_energy c' n (rmul (mulb (e / a)) r) = rmap (map (map (mulb (e / a)))) (group_energy c n r).
Proof.
  unfold group_energy. rewrite known_hom. destruct (known r); simpl; auto. f_equal. rewrite (t_subgroups _ _ _ Ht). apply sum_hom.
  - intros [] []. unfold mulb, add_bin; simpl. f_equal; ring.
  - unfold mulb; simpl. f_equal; ring.
Qed.
Lemma group_injection_hom q n r : group_injection c' n (rmul (mul q) r) = rmap (map (times q)) (group_injection c n r).
Proof.
  unfold group_injection. rewrite known_hom. destruct (known r); simpl; auto. f_equal. rewrite (t_subgroups _ _ _ Ht). apply (sum_hom (mul q)); intros; unfold mul; ring.
Qed.

Definition stage_new (r : list bin * list R * list (list R) * dist * list (list bin)) :=
  let '(b, n, s, d, eng) := r in (b, times k n, s, populated_by k d, map (map (mulb (e / a))) eng).

Lemma stage12_hom en d subs eng inj t ne : tellable ne ->
  stage12 np c' (map (mulb e) en) (times k d) subs (map (map (mulb (e / a))) eng) (map (times (k / a)) inj) (a * t) (populated_by k ne)
  = (populated_by k (fst (stage12 np c en d subs eng inj t ne)), rmap stage_new (snd (stage12 np c en d subs eng inj t ne)))
  /\ tellable (fst (stage12 np c en d subs eng inj t ne))
  /\ (forall b n s d1 eng', snd (stage12 np c en d subs eng inj t ne) = Ok (b, n, s, d1, eng') -> tellable d1).
Proof.
  intros Hne. unfold stage12.
  assert (Ei : map (scale (a * t)) (map (times (k / a)) inj) = map (times k) (map (scale t) inj)).
  { rewrite !map_map. apply map_ext. intros; apply scale_hom. }
  assert (Ee : forall g, map (scale_bins (a * t)) (map (map (mulb (e / a))) g) = map (map (mulb e)) (map (scale_bins t) g)).
  { intros g. rewrite !map_map. apply map_ext. intros; apply scale_bins_hom. }
  rewrite Ei, Ee, eval_hom. unfold bindS at 1 5 9. unfold lift at 1 4 7.
  destruct (apply_time_eval np c en d subs (map (scale_bins t) eng) (map (scale t) inj)) as [[[b1 n1] s1]|] eqn:E1; simpl;
    [|repeat split; auto; discriminate].
  pose proof (eval_nonneg _ _ _ _ _ _ _ _ E1) as P1.
  unfold bindS, set_distribution, bindS, lift. rewrite update_times by auto.
  destruct (update_distribution np b1 n1) as [d1|] eqn:E2; simpl; [|repeat split; auto; discriminate].
  pose proof (update_tellable np b1 n1 d1 P1 E2) as T1. rewrite (t_method _ _ _ Ht). destruct (method c).
  - simpl. repeat split; auto. intros ? ? ? ? ? H. injection H as <- <- <- <- <-. auto.
  - unfold get. pose proof (recalc_hom shape2 (mulb (e / a)) (e / a) x b1 (en_fns c) (en_fns c') d1 n1 s1 [] None (shape2_hom _) (t_en _ _ _ Ht) T1) as H.
    change (rmul (mulb (e / a)) []) with (@nil (string * list (option bin))) in H. fold k in H. rewrite H. clear H.
    destruct (recalc_new_rates shape2 b1 (en_fns c) d1 n1 s1 [] None) as [en'|]; simpl; [|repeat split; auto; discriminate].
    rewrite group_energy_hom. destruct (group_energy c (length b1) en') as [eng'|]; simpl; [|repeat split; auto; discriminate].
    assert (Ea : map2 (map2 avg_bin) (map (map (mulb (e / a))) eng) (map (map (mulb (e / a))) eng') = map (map (mulb (e / a))) (map2 (map2 avg_bin) eng eng')).
    { apply map2_hom. intros. apply map2_hom. intros. unfold avg_bin, mulb; simpl. f_equal; field; pose proof a_pos; lra. }
    rewrite Ea, Ee, eval_hom.
    destruct (apply_time_eval np c en d s1 _ _) as [[[b2 n2] s2]|] eqn:E3; simpl; [|repeat split; auto; discriminate].
    pose proof (eval_nonneg _ _ _ _ _ _ _ _ E3) as P3. rewrite update_times by auto.
    destruct (update_distribution np b2 n2) as [d2|] eqn:E4; simpl; [|repeat split; auto; discriminate].
    pose proof (update_tellable np b2 n2 d2 P3 E4) as T2. repeat split; auto. intros ? ? ? ? ? H. injection H as <- <- <- <- <-. auto.
Qed.

(** ** stages 3 to 5 *)
Lemma merge_bins_hom b n d : tellable d ->
  sort_and_merge_bins np c' b (times k n) (populated_by k d)
  = rmap (fun r => (fst (fst r), times k (snd (fst r)), snd r)) (sort_and_merge_bins np c b n d).
Proof.
  intros Td. unfold sort_and_merge_bins.
  assert (Hf : forall g, dist_eval np (populated_by k d) g = k * dist_eval np d g) by (intros; apply eval_times; auto).
  rewrite (sort_merge_times np k b n (Some (dist_eval np d)) (Some (dist_eval np (populated_by k d))) Hf).
  destruct (sort_and_merge_duplicates np b n (Some (dist_eval np d))) as [[b1 n1] m1]. rewrite (t_merge _ _ _ Ht). destruct (merge_thr c) as [thr|]; auto.
  unfold remove_too_close_bins. destruct (Nat.ltb (length b1) 2); auto. destruct (too_close np thr b1) as [|i0 close].
  - simpl. destruct (combine_mapping _ _); auto.
  - rewrite (merge_points_times k (lbs b1) n1 _ (Some (dist_eval np d)) (Some (dist_eval np (populated_by k d))) Hf).
    assert (E : length (times k n1) = length n1) by apply map_length. rewrite E. destruct (merge_points _ _ _ (Some (dist_eval np d))) as [x1 y1]. simpl.
    destruct (combine_mapping _ _); auto.
Qed.

Definition moved_new (r : list bin * list R * list (list R) * list Z) := let '(b, n, s, m) := r in (b, times k n, s, m).

Lemma boundary_hom bd b er : add_boundary_bins np c' bd b (map (mulb (e / a)) er) = add_boundary_bins np c bd b er.
Proof.
  unfold add_boundary_bins. destruct b as [|bf b]; auto. destruct er as [|rf er]; auto.
  cbn [map]. change (mulb (e / a) rf :: map (mulb (e / a)) er) with (map (mulb (e / a)) (rf :: er)).
  rewrite last_hom, (t_creep _ _ _ Ht). unfold mulb. cbn [fst].
  rewrite ?Rltb_0mul, ?Rltb_mul0 by auto. reflexivity.
Qed.

Lemma stage345_hom b n s d eng : tellable d ->
  stage345 np c' b (times k n) s (populated_by k d) (map (map (mulb (e / a))) eng) = rmap moved_new (stage345 np c b n s d eng).
Proof.
  intros Td. unfold stage345. rewrite merge_bins_hom by auto. destruct (sort_and_merge_bins np c b n d) as [[[b3 n3] m3]|]; simpl; auto.
  destruct (remap_subgroups_density m3 s) as [s3|]; simpl; auto. rewrite (t_bounds _ _ _ Ht). destruct (bounds c) as [bd|]; simpl; auto.
  set (b4 := select _ b3). set (m4 := mask_to_mapping _). pose proof (remap_hom (mul k) m4 n3 None) as H. simpl in H.
  rewrite times_map, H. clear H.
  destruct (remap m4 n3 None) as [n4|]; simpl; auto. destruct (remap_subgroups_density m4 s3) as [s4|]; simpl; auto.
  destruct (combine_mapping m3 m4) as [m34|]; simpl; auto. destruct eng as [|er eng]; simpl; auto.
  rewrite boundary_hom. destruct (add_boundary_bins np c bd b4 er) as [[b5 m5]|]; simpl; auto.
  pose proof (remap_hom (mul k) m5 n4 (Some 0)) as H. simpl in H. unfold mul in H at 2. rewrite Rmult_0_r in H. rewrite H. clear H.
  destruct (remap m5 n4 (Some 0)) as [n5|]; simpl; auto. destruct (remap_subgroups_density m5 s4); simpl; auto. destruct (combine_mapping m34 m5); auto.
Qed.

Lemma changes_hom en d subs eng inj t ne : tellable ne ->
  apply_time_changes np c' (map (mulb e) en) (times k d) subs (map (map (mulb (e / a))) eng) (map (times (k / a)) inj) (a * t) (populated_by k ne)
  = in_new moved_new (apply_time_changes np c en d subs eng inj t ne)
  /\ tellable (fst (apply_time_changes np c en d subs eng inj t ne)).
Proof.
  intros Hne. destruct (stage12_hom en d subs eng inj t ne Hne) as (H1 & H2 & H3). unfold apply_time_changes, bindS. rewrite H1.
  destruct (stage12 np c en d subs eng inj t ne) as [ne' [[[[[b n] s] d1] eng']|]]; simpl in *; [|unfold in_new; auto].
  unfold lift, in_new. simpl. rewrite stage345_hom by (eapply H3; eauto). auto.
Qed.

(** ** the choice of the step *)
Lemma ext_min_hom u v : ext_min (ext_mul a u) (ext_mul a v) = ext_mul a (ext_min u v).
Proof. destruct u, v; simpl; auto. unfold mul. f_equal. pose proof a_pos. unfold Rmin. destruct (Rle_dec r r0), (Rle_dec (a * r) (a * r0)); auto; nra. Qed.

Lemma time_1_edge_hom en r : time_1_edge c' (e * en) (e / a * r) = ext_mul a (time_1_edge c en r).
Proof.
  unfold time_1_edge. rewrite Reqb_mul0 by auto. destruct (Reqb_spec r 0); auto. simpl. f_equal. rewrite (t_maxE _ _ _ Ht). unfold mul.
  rewrite Rabs_mult, (Rabs_pos_eq (e / a)) by (left; auto). pose proof a_pos. pose proof e_pos. field. repeat split; try lra. apply Rabs_no_R0; auto.
Qed.
Lemma time_2_hom eb er : time_2 c' (mulb e eb) (mulb (e / a) er) = ext_mul a (time_2 c eb er).
Proof.
  unfold time_2, mulb. cbn [fst snd]. pose proof a_pos. pose proof e_pos.
  replace (e / a * snd er - e / a * fst er) with (e / a * (snd er - fst er)) by ring. rewrite Reqb_mul0 by auto.
  destruct (Reqb_spec (snd er - fst er) 0); auto. simpl. f_equal. rewrite (t_maxD _ _ _ Ht).
  replace ((e * snd eb - e * fst eb) / (e / a * (snd er - fst er))) with (a * ((snd eb - fst eb) / (snd er - fst er))) by (field; repeat split; lra).
  rewrite Rltb_0mul by auto. unfold mul. destruct (Rltb 0 _); unfold Rdiv; ring.
Qed.
Lemma time_3_hom r : time_3 (1 / a * r) = ext_mul a (time_3 r).
Proof.
  unfold time_3. rewrite Rltb_mul0 by auto. destruct (Rltb_spec r 0); auto. simpl. f_equal. unfold mul. pose proof a_pos. field. lra.
Qed.
Lemma time_4_hom r : time_4 c' (k / a * r) = ext_mul a (time_4 c r).
Proof.
  unfold time_4. rewrite Reqb_mul0 by auto. destruct (Reqb_spec r 0); auto. simpl. f_equal. rewrite (t_maxI _ _ _ Ht). fold k. unfold mul.
  rewrite Rabs_mult, (Rabs_pos_eq (k / a)) by (left; auto). pose proof a_pos. pose proof k_pos. field. repeat split; try lra. apply Rabs_no_R0; auto.
Qed.
Lemma max_time_hom eb er r q : max_time_bin c' (mulb e eb) (mulb (e / a) er) (1 / a * r) (k / a * q) = ext_mul a (max_time_bin c eb er r q).
Proof.
  unfold max_time_bin. rewrite time_2_hom, time_3_hom, time_4_hom. unfold time_1, mulb. cbn [fst snd]. rewrite !time_1_edge_hom, !ext_min_hom. auto.
Qed.

Lemma combine_hom {A B A' B'} (f : A -> A') (g : B -> B') l m : combine (map f l) (map g m) = map (fun y => (f (fst y), g (snd y))) (combine l m).
Proof. revert m; induction l; intros [|]; simpl; auto. f_equal; auto. Qed.

Lemma max_group_hom en er r q : max_times_group c' (map (mulb e) en) (map (mulb (e / a)) er) (times (1 / a) r) (times (k / a) q)
  = map (ext_mul a) (max_times_group c en er r q).
Proof.
  unfold max_times_group, times. rewrite !combine_hom. apply map2_hom. intros [? ?] [? ?]. simpl. apply max_time_hom.
Qed.

Lemma calc_hom en dg : forall eng rg ag acc,
  calc_max_times c' (map (mulb e) en) (map (times k) dg) (map (map (mulb (e / a))) eng) (map (times (1 / a)) rg) (map (times (k / a)) ag) (map (ext_mul a) acc)
  = rmap (map (ext_mul a)) (calc_max_times c en dg eng rg ag acc).
Proof.
  induction dg as [|d dg IH]; intros [|er eng] [|r rg] [|q ag] acc; simpl; auto.
  assert (E : map2 (fun x0 y => (Reqb x0 0 && Rltb y 0)%bool) (times k d) (times (k / a) q) = map2 (fun x0 y => (Reqb x0 0 && Rltb y 0)%bool) d q).
  { apply map2_same. intros. rewrite Reqb_mul0, Rltb_mul0 by auto. auto. }
  rewrite E. destruct (existsb _ _); auto. rewrite max_group_hom.
  rewrite (map2_hom ext_min ext_min (ext_mul a) (ext_mul a) (ext_mul a)) by (intros; apply ext_min_hom). apply IH.
Qed.

Lemma list_min_hom l : ext_list_min (map (ext_mul a) l) = rmap (ext_mul a) (ext_list_min l).
Proof. destruct l as [|u l]; simpl; auto. f_equal. apply (fold_hom (ext_mul a) ext_min ext_min). apply ext_min_hom. Qed.

Lemma bcast_hom {A B C} (f f' : list A -> list B -> list C) (g : list A -> list A) (h : list B -> list B) (w : list C -> list C) m l :
  (forall u v, f' (g u) (h v) = w (f u v)) -> bcast_rows f' (map g m) (map h l) = rmap (map w) (bcast_rows f m l).
Proof.
  intros H. unfold bcast_rows. rewrite !map_length. destruct (Nat.eqb (length m) (length l)); simpl.
  { f_equal. apply map2_hom; auto. }
  destruct m as [|u [|u' m]], l as [|v [|v' l]]; simpl; auto; rewrite ?H; auto.
  - f_equal. f_equal. f_equal. rewrite !map_map. apply map_ext. auto.
  - f_equal. f_equal. f_equal. rewrite !map_map. apply map_ext. auto.
Qed.

Definition state_new (s : tstate) : tstate :=
  {| st_bins := st_bins s; st_dens := times k (st_dens s); st_subs := st_subs s; st_en := rmul (mulb (e / a)) (st_en s);
     st_rel := rmul (mul (1 / a)) (st_rel s); st_abs := rmul (mul (k / a)) (st_abs s);
     st_left := map (ext_mul a) (st_left s); st_elapsed := a * st_elapsed s |}.

Definition choice_new (r : list (list bin) * list (list R) * list (option R) * R) :=
  let '(eng, inj, lft, t) := r in (map (map (mulb (e / a))) eng, map (times (k / a)) inj, map (ext_mul a) lft, a * t).

Lemma choose_hom s : choose_step c' (state_new s) = rmap choice_new (choose_step c s).
Proof.
  unfold choose_step. 
  change (st_bins (state_new s)) with (st_bins s). change (st_dens (state_new s)) with (times k (st_dens s)).
  change (st_subs (state_new s)) with (st_subs s). change (st_en (state_new s)) with (rmul (mulb (e / a)) (st_en s)).
  change (st_rel (state_new s)) with (rmul (mul (1 / a)) (st_rel s)). change (st_abs (state_new s)) with (rmul (mul (k / a)) (st_abs s)).
  change (st_left (state_new s)) with (map (ext_mul a) (st_left s)). change (st_elapsed (state_new s)) with (a * st_elapsed s).
  rewrite erg_hom, group_energy_hom. destruct (group_energy c _ (st_en s)) as [eng|]; cbn [rmap bind]; auto.
  rewrite group_injection_hom. destruct (group_injection c _ (st_rel s)) as [rg|]; cbn [rmap bind]; auto.
  rewrite group_injection_hom. destruct (group_injection c _ (st_abs s)) as [ag|]; cbn [rmap bind]; auto.
  assert (Ed : to_densities_grouped (times k (st_dens s)) (st_subs s) = map (times k) (to_densities_grouped (st_dens s) (st_subs s))).
  { unfold to_densities_grouped. rewrite map_map. apply map_ext. intros. apply map2_hom_l. intros; ring. }
  rewrite Ed. rewrite (bcast_hom (map2 Rmult) (map2 Rmult) (times k) (times (1 / a)) (times (k / a))).
  2:{ intros. apply map2_hom. intros. pose proof a_pos. field. lra. }
  destruct (bcast_rows (map2 Rmult) _ rg) as [dr|]; cbn [rmap bind]; auto.
  rewrite (bcast_hom (map2 Rplus) (map2 Rplus) (times (k / a)) (times (k / a)) (times (k / a))).
  2:{ intros. apply map2_hom. intros. ring. }
  destruct (bcast_rows (map2 Rplus) dr ag) as [inj|]; cbn [rmap bind]; auto.
  rewrite (t_step _ _ _ Ht), (t_total _ _ _ Ht), (t_opt _ _ _ Ht). fold a.
  replace (a * total c - a * st_elapsed s) with (a * (total c - st_elapsed s)) by ring.
  destruct (stepd c) as [t|].
  - cbn [bind rmap]. rewrite Rltb_mul by auto. unfold choice_new. destruct (Rltb _ t); auto.
  - assert (Ea : map (fun _ => None) (times k (st_dens s)) = map (ext_mul a) (map (fun _ => None) (st_dens s))).
    { unfold times. rewrite !map_map. apply map_ext; auto. }
    rewrite Ea, calc_hom. destruct (calc_max_times c _ _ eng rg ag _) as [mx|]; cbn [rmap bind]; auto.
    destruct (optimize c).
    + assert (El : map2 (fun l m : option R => if ext_is0 l then m else l) (map (ext_mul a) (st_left s)) (map (ext_mul a) mx)
        = map (ext_mul a) (map2 (fun l m => if ext_is0 l then m else l) (st_left s) mx)).
      { apply map2_hom. intros [u|] v; simpl; auto. unfold mul. rewrite Reqb_mul0 by auto. destruct (Reqb u 0); auto. }
      rewrite El, list_min_hom. destruct (ext_list_min _) as [[t|]|]; cbn [rmap bind]; auto.
      unfold ext_mul at 2. cbn [option_map]. unfold mul. rewrite Rltb_mul by auto. unfold choice_new. destruct (Rltb _ t); auto.
    + rewrite list_min_hom. destruct (ext_list_min mx) as [[t|]|]; cbn [rmap bind]; auto.
      unfold ext_mul at 2. cbn [option_map]. unfold mul. rewrite Rltb_mul by auto. unfold choice_new. destruct (Rltb _ t); auto.
Qed.

(** ** one pass *)
Lemma step_hom s ne : tellable ne ->
  step np c' (state_new s) (populated_by k ne) = in_new state_new (step np c s ne) /\ tellable (fst (step np c s ne)).
Proof.
  intros Hne. unfold step, bindS, lift. rewrite choose_hom.
  destruct (choose_step c s) as [[[[eng inj] left0] t]|]; cbn [rmap]; [|split; auto]. unfold choice_new.

  change (st_bins (state_new s)) with (st_bins s). change (st_dens (state_new s)) with (times k (st_dens s)).
  change (st_subs (state_new s)) with (st_subs s). change (st_en (state_new s)) with (rmul (mulb (e / a)) (st_en s)).
  change (st_rel (state_new s)) with (rmul (mul (1 / a)) (st_rel s)). change (st_abs (state_new s)) with (rmul (mul (k / a)) (st_abs s)).
  change (st_left (state_new s)) with (map (ext_mul a) (st_left s)). change (st_elapsed (state_new s)) with (a * st_elapsed s).
  rewrite erg_hom.
  destruct (changes_hom (to_erg (mec2 c) (st_bins s)) (st_dens s) (st_subs s) eng inj t ne Hne) as [H1 H2]. rewrite H1. clear H1.
  destruct (apply_time_changes np c _ _ _ eng inj t ne) as [ne' [[[[b n] sg] mp]|]]; unfold in_new; cbn [fst snd rmap moved_new] in *; [|split; auto].
  rewrite (t_opt _ _ _ Ht).
  set (L' := if optimize c then _ else _). set (L := if optimize c then _ else _).
  assert (EL : L' = rmap (fun r => (map (ext_mul a) (fst r), snd r)) L).
  { unfold L, L'. destruct (optimize c).
    - assert (E0 : map (fun x0 => ext_sub x0 (a * t)) (map (ext_mul a) left0) = map (ext_mul a) (map (fun x0 => ext_sub x0 t) left0)).
      { rewrite !map_map. apply map_ext. intros [u|]; simpl; auto. unfold mul. f_equal. ring. }
      rewrite E0. set (l0 := map (fun x0 => ext_sub x0 t) left0).
      assert (H : remap mp (map (ext_mul a) l0) (Some (Some 0)) = rmap (map (ext_mul a)) (remap mp l0 (Some (Some 0)))).
      { rewrite <- remap_hom. cbn [option_map ext_mul mul]. unfold ext_mul at 2. cbn [option_map]. unfold mul at 2. rewrite Rmult_0_r. auto. }
      rewrite H. clear H.
      clearbody l0. destruct (remap mp l0 (Some (Some 0))) as [l1|]; cbn [rmap bind]; auto. cbv zeta.
      assert (E2 : map2 (fun (x0 : option R) (bb : bin) => if Reqb (snd bb) 0 then Some 0 else x0) (map (ext_mul a) l1) b
        = map (ext_mul a) (map2 (fun (x0 : option R) (bb : bin) => if Reqb (snd bb) 0 then Some 0 else x0) l1 b)).
      { apply map2_hom_l. intros u v. destruct (Reqb (snd v) 0); auto. simpl. unfold mul. rewrite Rmult_0_r. auto. }
      rewrite E2. set (l2 := map2 _ l1 b).
      assert (E3 : map (fun x0 => ext_ltb x0 (a * t)) (map (ext_mul a) l2) = map (fun x0 => ext_ltb x0 t) l2).
      { rewrite map_map. apply map_ext. intros [u|]; simpl; auto. unfold mul. apply Rltb_mul; auto. }
      rewrite E3. cbn [fst snd]. do 2 f_equal. apply map2_hom_r. intros [] u; auto. simpl. unfold mul. rewrite Rmult_0_r. auto.
    - simpl. unfold times. rewrite !map_map. auto. }
  rewrite EL. clear EL L'. clearbody L. destruct L as [[left' mask]|]; cbn [rmap fst snd]; [|split; auto]. unfold get.
  rewrite remap_dict_hom. destruct (remap_dict mp (st_en s) (Some None)) as [pe|]; cbn [rmap bind]; [|split; auto].
  rewrite (recalc_hom shape2 (mulb (e / a)) (e / a) x _ (en_fns c) (en_fns c') ne' n sg pe (Some mask) (shape2_hom _) (t_en _ _ _ Ht) H2).
  destruct (recalc_new_rates shape2 _ (en_fns c) ne' n sg pe (Some mask)) as [en|]; cbn [rmap bind]; [|split; auto].
  rewrite remap_dict_hom. destruct (remap_dict mp (st_abs s) (Some None)) as [pa|]; cbn [rmap bind]; [|split; auto].
  rewrite (recalc_hom shape1 (mul (k / a)) (k / a) x _ (abs_fns c) (abs_fns c') ne' n sg pa (Some mask) (shape1_hom _) (t_abs _ _ _ Ht) H2).
  destruct (recalc_new_rates shape1 _ (abs_fns c) ne' n sg pa (Some mask)) as [ab|]; cbn [rmap bind]; [|split; auto].
  rewrite remap_dict_hom. destruct (remap_dict mp (st_rel s) (Some None)) as [pr|]; cbn [rmap bind]; [|split; auto].
  rewrite (recalc_hom shape1 (mul (1 / a)) (1 / a) x _ (rel_fns c) (rel_fns c') ne' n sg pr (Some mask) (shape1_hom _) (t_rel _ _ _ Ht) H2).
  destruct (recalc_new_rates shape1 _ (rel_fns c) ne' n sg pr (Some mask)) as [re|]; cbn [rmap bind]; [|split; auto].
  split; auto. unfold ret, state_new. cbn [fst snd rmap st_elapsed st_bins st_dens st_subs st_en st_rel st_abs st_left]. do 3 f_equal. ring.
Qed.

Lemma loop_hom fuel : forall s ne, tellable ne ->
  loop np c' fuel (state_new s) (populated_by k ne) =
  let '(ne', tr, r) := loop np c fuel s ne in (populated_by k ne', map state_new tr, rmap state_new r).
Proof.
  induction fuel as [|fuel IH]; intros s ne Hne; cbn [loop]; change (st_elapsed (state_new s)) with (a * st_elapsed s);
    rewrite (t_total _ _ _ Ht), Rltb_mul by auto; destruct (Rltb _ _); auto.
  destruct (step_hom s ne Hne) as [H1 H2]. rewrite H1. destruct (step np c s ne) as [ne' [s'|]]; cbn [in_new fst snd rmap] in *; auto.
  unfold in_new. cbn [fst snd rmap]. rewrite IH by auto. destruct (loop np c fuel s' ne') as [[ne2 tr] r]. auto.
Qed.

Lemma initial_hom ne : tellable ne -> initial_values np c' (populated_by k ne) = rmap state_new (initial_values np c ne).
Proof.
  intros Hne. unfold initial_values. rewrite (t_g0 _ _ _ Ht), (populated_bounds_call np Hnp k k_pos Hs) by auto.
  destruct (dist_call np ne (g0 c)) as [lb dens]. cbn [fst snd].
  assert (Es : initial_subs c' = initial_subs c) by (unfold initial_subs; rewrite (t_g0 _ _ _ Ht), (t_subgroups _ _ _ Ht), (t_subinit _ _ _ Ht); auto).
  assert (Eb : initial_bins c' = initial_bins c) by (unfold initial_bins; rewrite (t_g0 _ _ _ Ht); auto).
  rewrite Es, Eb. destruct (initial_subs c) as [subs|]; cbn [rmap bind]; auto.
  pose proof (recalc_hom shape2 (mulb (e / a)) (e / a) x (initial_bins c) (en_fns c) (en_fns c') ne dens subs [] None (shape2_hom _) (t_en _ _ _ Ht) Hne) as H.
  change (rmul (mulb (e / a)) []) with (@nil (string * list (option bin))) in H. fold k in H. rewrite H. clear H.
  destruct (recalc_new_rates shape2 _ (en_fns c) ne dens subs [] None) as [en|]; cbn [rmap bind]; auto.
  pose proof (recalc_hom shape1 (mul (1 / a)) (1 / a) x lb (rel_fns c) (rel_fns c') ne dens subs [] None (shape1_hom _) (t_rel _ _ _ Ht) Hne) as H.
  change (rmul (mul (1 / a)) []) with (@nil (string * list (option R))) in H. fold k in H. rewrite H. clear H.
  destruct (recalc_new_rates shape1 _ (rel_fns c) ne dens subs [] None) as [re|]; cbn [rmap bind]; auto.
  pose proof (recalc_hom shape1 (mul (k / a)) (k / a) x lb (abs_fns c) (abs_fns c') ne dens subs [] None (shape1_hom _) (t_abs _ _ _ Ht) Hne) as H.
  change (rmul (mul (k / a)) []) with (@nil (string * list (option R))) in H. fold k in H. rewrite H. clear H.
  destruct (recalc_new_rates shape1 _ (abs_fns c) ne dens subs [] None) as [ab|]; cbn [rmap bind]; auto.
  unfold state_new. cbn [st_elapsed st_bins st_dens st_subs st_en st_rel st_abs st_left]. do 2 f_equal; [|ring].
  rewrite map_map. apply map_ext. intros. simpl. unfold mul. rewrite Rmult_0_r. auto.
Qed.

Lemma en_lb_hom q r : energy_changes_lb (rmul (mulb q) r) = rates_times q (energy_changes_lb r).
Proof.
  unfold energy_changes_lb, rmul, rates_times. rewrite !map_map. apply map_ext. intros [nm l]. simpl. f_equal. rewrite !map_map.
  apply map_ext. intros [[u v]|]; auto.
Qed.

Lemma evaluate_hom fuel ne : tellable ne ->
  evaluate np c' fuel (populated_by k ne) =
  let '(ne', recs, out) := evaluate np c fuel ne in (populated_by k ne', map (retold x true) recs, rmap (retold x false) out).
Proof.
  intros Hne. unfold evaluate. rewrite initial_hom by auto. destruct (initial_values np c ne) as [s|]; cbn [rmap]; auto.
  rewrite loop_hom by auto. destruct (loop np c fuel s ne) as [[ne' tr] r]. f_equal; [f_equal|].
  - rewrite !map_map. apply map_ext. intros s1. unfold callback_report, retold, state_new. simpl. rewrite en_lb_hom. reflexivity.
  - destruct r as [s1|]; auto. simpl. f_equal. unfold final_report, retold, state_new. simpl. rewrite en_lb_hom. reflexivity.
Qed.
End Interval.
