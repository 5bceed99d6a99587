(** C57: EBL absorption *)
From Verif Require Import Base TEUtils NumpyInst MathUtils Conversion Blob EBL Spec_Math ListFacts MathFacts.
From Coq Require Import String List.
Import ListNotations.
Open Scope string_scope.
Open Scope list_scope.
Open Scope R_scope.

(** a table: strictly ascending axes with at least two points, one row of values per redshift, one value per energy *)
Record table_ok (t : ebl) : Prop := {
  tb_energy : incr (ebl_energy t); tb_z : incr (ebl_z t); tb_ne : (2 <= length (ebl_energy t))%nat; tb_nz : (2 <= length (ebl_z t))%nat;
  tb_rows : length (ebl_values t) = length (ebl_z t); tb_cols : forall row, In row (ebl_values t) -> length row = length (ebl_energy t)
}.
(** entry for the i-th energy and the j-th redshift *)
Definition entry (t : ebl) (i j : nat) : R := nth i (nth j (ebl_values t) []) 0.
Definition inside (axis : list R) (x : R) : Prop := hd 0 axis <= x <= last axis 0.

Lemma ascending_incr l : strictly_ascending l = true -> incr l.
Proof. induction l as [|a [|b l] IH]; simpl; auto. intros H. apply andb_prop in H. destruct H as [H1 H2]. split; [|apply IH; auto]. destruct (Rltb_spec a b); auto. discriminate. Qed.
Lemma incr_tail a l : incr (a :: l) -> incr l.
Proof. destruct l; simpl; tauto. Qed.
Lemma incr_head_lt a l x : incr (a :: l) -> In x l -> a < x.
Proof. revert a. induction l as [|b l IH]; intros a H Hx; [destruct Hx|]. destruct H as [H1 H2]. destruct Hx as [<-|Hx]; auto. specialize (IH b H2 Hx). lra. Qed.
Lemma searchsorted_spec g x j : incr g -> (j < length g)%nat -> nth j g 0 < x <-> (j < searchsorted g x)%nat.
Proof.
  revert j. induction g as [|a g IH]; intros j Hi Hj; [simpl in Hj; lia|]. unfold searchsorted. cbn [filter]. destruct (Rltb_spec a x) as [K|K].
  - cbn [length]. destruct j as [|j]. { simpl. split; intros; auto. lia. } cbn [nth]. simpl in Hj. rewrite (IH j (incr_tail _ _ Hi) ltac:(lia)). unfold searchsorted. lia.
  - assert (Z : filter (fun h => Rltb h x) g = []). { apply Rnot_lt_le in K. assert (Q : forall y, In y g -> a < y) by (intros y; apply incr_head_lt; auto). clear - K Q. induction g as [|b g IH]; auto. cbn [filter]. destruct (Rltb_spec b x) as [L|L]. { specialize (Q b (or_introl eq_refl)). lra. } apply IH. intros y Hy. apply Q. right; auto. }
    rewrite Z. simpl length. split; [|lia]. intros L. exfalso. apply K. destruct j as [|j]; [exact L|]. cbn [nth] in L. simpl in Hj. assert (a < nth j g 0) by (apply incr_head_lt with g; auto; apply nth_In; lia). lra.
Qed.
Lemma last_nth l : last l 0 = nth (length l - 1) l 0.
Proof. induction l as [|a [|b l] IH]; auto. change (last (a :: b :: l) 0) with (last (b :: l) 0). rewrite IH. simpl length. replace (S (S (length l)) - 1)%nat with (S (S (length l) - 1)) by lia. reflexivity. Qed.
Lemma hd_nth l : hd 0 l = nth 0 l 0.
Proof. destruct l; reflexivity. Qed.
Lemma out_iff g x : out_of_bounds g x = true <-> ~ inside g x.
Proof. unfold out_of_bounds, inside. rewrite hd_nth, last_nth. destruct (Rltb_spec x (nth 0 g 0)); destruct (Rltb_spec (nth (length g - 1) g 0) x); simpl; split; intros; try lra; auto; try discriminate. Qed.
Lemma find_index_spec g x : incr g -> (2 <= length g)%nat -> inside g x -> let i := find_index g x in (S i < length g)%nat /\ nth i g 0 <= x <= nth (S i) g 0.
Proof.
  intros Hi Hn [H0 H1] i. rewrite hd_nth in H0. rewrite last_nth in H1. pose proof (searchsorted_spec g x) as S. set (k := searchsorted g x) in *. unfold i, find_index. fold k. split; [lia|].
  destruct (Nat.eq_dec k 0) as [K|K].
  - rewrite K. replace (Nat.min (0 - 1) (length g - 2)) with 0%nat by lia. split; auto. apply Rnot_lt_le. intros L. apply (S 1%nat Hi ltac:(lia)) in L. lia.
  - set (j := Nat.min (k - 1) (length g - 2)). assert (Hj : (j < k)%nat) by lia. split.
    + left. apply S; auto. lia.
    + destruct (Nat.eq_dec (Datatypes.S j) (length g - 1)) as [E|E]. { rewrite E. auto. } apply Rnot_lt_le. intros L. apply S in L; auto; lia.
Qed.
Lemma incr_adj g i : incr g -> (S i < length g)%nat -> nth i g 0 < nth (S i) g 0.
Proof. revert i. induction g as [|a g IH]; intros i Hi Hl; [simpl in Hl; lia|]. destruct i as [|i]. { destruct g as [|b g]; [simpl in Hl; lia|]. apply Hi. } simpl in Hl. cbn [nth]. destruct g as [|b g]; [simpl in Hl; lia|]. apply (IH i (incr_tail _ _ Hi)). lia. Qed.
Lemma norm_spec g x : incr g -> (2 <= length g)%nat -> inside g x -> let i := find_index g x in let a := norm_distance g x in 0 <= a <= 1 /\ x = (1 - a) * nth i g 0 + a * nth (S i) g 0.
Proof.
  intros Hi Hn Hx i a. destruct (find_index_spec g x Hi Hn Hx) as [H1 H2]. fold i in H1, H2. pose proof (incr_adj g i Hi H1) as H3. unfold a, norm_distance. fold i. set (p := nth i g 0) in *. set (q := nth (S i) g 0) in *. clearbody p q. split.
  - split. { apply Rmult_le_pos; [lra|]. left. apply Rinv_0_lt_compat. lra. } apply Rmult_le_reg_r with (q - p); [lra|]. unfold Rdiv. rewrite Rmult_assoc, Rinv_l by lra. lra.
  - field. lra.
Qed.

(** inside the table: the weighted mean of the four entries around (e, z), with the weights of the position between them *)
Theorem C57_weighted_mean : forall t e z, table_ok t -> inside (ebl_energy t) e -> inside (ebl_z t) z ->
  exists i j a b, (S i < length (ebl_energy t))%nat /\ (S j < length (ebl_z t))%nat /\ 0 <= a <= 1 /\ 0 <= b <= 1 /\
  e = (1 - a) * nth i (ebl_energy t) 0 + a * nth (S i) (ebl_energy t) 0 /\ z = (1 - b) * nth j (ebl_z t) 0 + b * nth (S j) (ebl_z t) 0 /\
  interpolate t e z = Some ((1 - b) * ((1 - a) * entry t i j + a * entry t (S i) j) + b * ((1 - a) * entry t i (S j) + a * entry t (S i) (S j))).
Proof.
  intros t e z [] He Hz. exists (find_index (ebl_energy t) e), (find_index (ebl_z t) z), (norm_distance (ebl_energy t) e), (norm_distance (ebl_z t) z).
  destruct (find_index_spec _ _ tb_energy0 tb_ne0 He) as [A1 A2]. destruct (find_index_spec _ _ tb_z0 tb_nz0 Hz) as [B1 B2]. destruct (norm_spec _ _ tb_energy0 tb_ne0 He) as [A3 A4]. destruct (norm_spec _ _ tb_z0 tb_nz0 Hz) as [B3 B4].
  split; auto. split; auto. split; auto. split; auto. split; auto. split; auto. unfold interpolate.
  destruct (out_of_bounds (ebl_energy t) e) eqn:E1. { apply out_iff in E1. contradiction. } destruct (out_of_bounds (ebl_z t) z) eqn:E2. { apply out_iff in E2. contradiction. } cbn [orb]. cbv zeta. f_equal. unfold entry. ring.
Qed.
Print Assumptions C57_weighted_mean.
Lemma mean2 a lo hi x y : 0 <= a <= 1 -> lo <= x <= hi -> lo <= y <= hi -> lo <= (1 - a) * x + a * y <= hi.
Proof. intros. split; nra. Qed.
(** so it stays between the bounds of the table, in [0, 1] if the entries are *)
Theorem C57_within_table : forall t e z lo hi v, table_ok t -> (forall row x, In row (ebl_values t) -> In x row -> lo <= x <= hi) -> interpolate t e z = Some v -> lo <= v <= hi.
Proof.
  intros t e z lo hi v Ht Hb Hv. assert (He : inside (ebl_energy t) e /\ inside (ebl_z t) z).
  { unfold interpolate in Hv. destruct (out_of_bounds (ebl_energy t) e) eqn:E1; [discriminate|]. destruct (out_of_bounds (ebl_z t) z) eqn:E2; [discriminate|]. 
    assert (Q : forall g x, out_of_bounds g x = false -> inside g x). { intros g x. unfold out_of_bounds, inside. rewrite hd_nth, last_nth. destruct (Rltb_spec x (nth 0 g 0)); destruct (Rltb_spec (nth (length g - 1) g 0) x); simpl; intros; try discriminate. lra. } auto. }
  destruct He as [He Hz]. destruct (C57_weighted_mean t e z Ht He Hz) as (i & j & a & b & Hi & Hj & Ha & Hbb & _ & _ & E). rewrite E in Hv. injection Hv as <-. destruct Ht.
  assert (EN : forall i j, (i < length (ebl_energy t))%nat -> (j < length (ebl_z t))%nat -> lo <= entry t i j <= hi).
  { intros i' j' Hi' Hj'. unfold entry. assert (R : In (nth j' (ebl_values t) []) (ebl_values t)) by (apply nth_In; lia). apply (Hb _ _ R). apply nth_In. rewrite tb_cols0; auto. }
  apply mean2; auto; apply mean2; auto; apply EN; lia.
Qed.
Print Assumptions C57_within_table.
(** at the nodes it is the entry *)
Lemma node_axis g i : incr g -> (2 <= length g)%nat -> (i < length g)%nat -> inside g (nth i g 0) /\ ((find_index g (nth i g 0) = i /\ norm_distance g (nth i g 0) = 0) \/ (S (find_index g (nth i g 0)) = i /\ norm_distance g (nth i g 0) = 1)).
Proof.
  intros Hi Hn Hl. assert (MON : forall a b, (a < b)%nat -> (b < length g)%nat -> nth a g 0 < nth b g 0).
  { intros a b Hab Hb. induction b as [|b IH]; [lia|]. pose proof (incr_adj g b Hi Hb). destruct (Nat.eq_dec a b) as [->|K]; auto. specialize (IH ltac:(lia) ltac:(lia)). lra. }
  assert (IN : inside g (nth i g 0)). { unfold inside. rewrite hd_nth, last_nth. split. { destruct (Nat.eq_dec i 0) as [->|K]; [lra|]. left. apply MON; lia. } destruct (Nat.eq_dec i (length g - 1)) as [->|K]; [lra|]. left. apply MON; lia. }
  split; auto. assert (SS : searchsorted g (nth i g 0%R) = i).
  { pose proof (searchsorted_spec g (nth i g 0)) as S. assert (~ (i < searchsorted g (nth i g 0%R))%nat). { intros K. apply (S i Hi Hl) in K. lra. } destruct (Nat.eq_dec (searchsorted g (nth i g 0%R)) i) as [K|K]; auto. exfalso.
    assert (L : (searchsorted g (nth i g 0%R) < i)%nat) by lia. pose proof (MON _ _ L Hl) as M. apply (S (searchsorted g (nth i g 0%R)) Hi ltac:(lia)) in M. lia. }
  unfold norm_distance, find_index. cbv zeta. rewrite SS. destruct (Nat.eq_dec i 0) as [->|K].
  - left. replace (Nat.min (0 - 1) (length g - 2)) with 0%nat by lia. split; auto. unfold Rdiv. ring.
  - right. replace (Nat.min (i - 1) (length g - 2)) with (i - 1)%nat by lia. replace (S (i - 1)) with i by lia. split; auto. assert (nth (i - 1) g 0 < nth i g 0) by (apply MON; lia). field. lra.
Qed.
Theorem C57_nodes : forall t i j, table_ok t -> (i < length (ebl_energy t))%nat -> (j < length (ebl_z t))%nat ->
  interpolate t (nth i (ebl_energy t) 0) (nth j (ebl_z t) 0) = Some (entry t i j).
Proof.
  intros t i j [] Hi Hj. destruct (node_axis _ i tb_energy0 tb_ne0 Hi) as [A B]. destruct (node_axis _ j tb_z0 tb_nz0 Hj) as [C D]. unfold interpolate.
  destruct (out_of_bounds (ebl_energy t) _) eqn:E1. { apply out_iff in E1. contradiction. } destruct (out_of_bounds (ebl_z t) _) eqn:E2. { apply out_iff in E2. contradiction. } cbn [orb]. cbv zeta. f_equal. unfold entry.
  destruct B as [[-> ->]|[B ->]]; destruct D as [[-> ->]|[D ->]]; rewrite ?B, ?D; ring.
Qed.
Print Assumptions C57_nodes.
(** outside it is nan, and nowhere else *)
Theorem C57_outside : forall t e z, interpolate t e z = None <-> ~ (inside (ebl_energy t) e /\ inside (ebl_z t) z).
Proof.
  intros t e z. unfold interpolate. pose proof (out_iff (ebl_energy t) e) as A. pose proof (out_iff (ebl_z t) z) as B. destruct (out_of_bounds (ebl_energy t) e); destruct (out_of_bounds (ebl_z t) z); cbn [orb]; split; intros H; try discriminate; try tauto; try reflexivity.
  exfalso. apply H. split; apply Classical_Prop.NNPP; intros K; [apply A in K|apply B in K]; discriminate.
Qed.
Print Assumptions C57_outside.
(** the tables the constructor accepts meet the hypotheses, and absorption interpolates at h nu in keV *)
Theorem C57_constructor : forall m lo hi z v t, ebl_init m lo hi z v = Ok t -> (2 <= length (ebl_energy t))%nat -> (2 <= length (ebl_z t))%nat ->
  table_ok t /\ ebl_energy t = map2 (fun a b => sqrt (a * b)) lo hi.
Proof.
  intros m lo hi z v t H H1 H2. unfold ebl_init in H. destruct (negb _); [discriminate|]. destruct (if String.eqb m "franceschini_2008" then _ else _) as [zv|] eqn:Z; [|discriminate]. cbn [bind] in H.
  destruct (strictly_ascending (map2 (fun a b => sqrt (a * b)) lo hi)) eqn:A; [|discriminate]. destruct (strictly_ascending (fst zv)) eqn:B; [|discriminate]. destruct (Nat.eqb (length (snd zv)) (length (fst zv))) eqn:C; [|discriminate].
  destruct (forallb _ (snd zv)) eqn:D; [|discriminate]. cbn [andb] in H. injection H as <-. cbn [ebl_energy ebl_z ebl_values] in *. split; auto. constructor; cbn [ebl_energy ebl_z ebl_values]; auto; try (apply ascending_incr; auto). { apply Nat.eqb_eq; auto. }
  intros row Hr. apply Nat.eqb_eq. rewrite forallb_forall in D. apply D; auto.
Qed.
Print Assumptions C57_constructor.
Theorem C57_frequencies : forall P t nu z, ebl_absorption P t nu z = map (fun n => interpolate t (c_h P * n / 1.602176634e-9) z) nu.
Proof. reflexivity. Qed.
Print Assumptions C57_frequencies.
(** the 2008 table of Franceschini loses the repeated row 1001 and nothing else *)
Theorem C57_repeated_row : forall lo hi z v t, ebl_init "franceschini_2008" lo hi z v = Ok t ->
  length z = S (length (ebl_z t)) /\ forall i, (nth_error (ebl_z t) i = nth_error z (if Nat.ltb i 1001 then i else S i)) /\ (nth_error (ebl_values t) i = nth_error v (if Nat.ltb i 1001 then i else S i)).
Proof.
  intros lo hi z v t H. unfold ebl_init in H. destruct (negb _); [discriminate|]. rewrite String.eqb_refl in H. set (k := 1001%nat) in *. clearbody k.
  assert (DEL : forall A (l l' : list A), np_delete l k = Ok l' -> length l = S (length l') /\ forall i, nth_error l' i = nth_error l (if Nat.ltb i k then i else S i)).
  { intros A l l' D. unfold np_delete in D. destruct (Nat.ltb_spec k (length l)) as [K|K]; [|discriminate]. assert (E : l' = firstn k l ++ skipn (S k) l) by (injection D; auto). subst l'. clear D. split. { rewrite app_length, firstn_length, skipn_length. lia. }
    intros i. destruct (Nat.ltb_spec i k) as [L|L].
    - rewrite nth_error_app1 by (rewrite firstn_length; lia). rewrite <- (firstn_skipn k l) at 2. rewrite nth_error_app1; auto. rewrite firstn_length; lia.
    - rewrite nth_error_app2 by (rewrite firstn_length; lia). rewrite firstn_length. replace (Nat.min k (length l)) with k by lia. rewrite <- (firstn_skipn (S k) l) at 2. rewrite nth_error_app2 by (rewrite firstn_length; lia). rewrite firstn_length. replace (Nat.min (S k) (length l)) with (S k) by lia. f_equal. }
  destruct (np_delete z k) as [z'|] eqn:Z; [|discriminate]. destruct (np_delete v k) as [v'|] eqn:V; [|discriminate]. cbn [bind fst snd] in H. match type of H with (if ?c then _ else _) = _ => destruct c; [|discriminate] end. injection H as <-. cbn [ebl_z ebl_values].
  destruct (DEL _ _ _ Z) as [LZ NZ]. destruct (DEL _ _ _ V) as [LV NV]. split; auto.
Qed.
Print Assumptions C57_repeated_row.

Definition ebl_example : ebl := {| ebl_model := "finke_2010"; ebl_energy := [1; 3]; ebl_z := [0; 1]; ebl_values := [[1; 1]; [1 / 2; 0]] |}.
Example C57_case : table_ok ebl_example /\ interpolate ebl_example 2 1 = Some (1 / 4) /\ interpolate ebl_example 4 1 = None.
Proof.
  split; [constructor; simpl; auto; try lra|]. { intros row [<-|[<-|[]]]; auto. } split.
  - unfold interpolate, out_of_bounds, norm_distance, find_index, searchsorted, ebl_example. cbn [ebl_energy ebl_z ebl_values nth length filter Nat.sub].
    destruct (Rltb_spec 2 1); [lra|]. destruct (Rltb_spec 3 2); [lra|]. destruct (Rltb_spec 1 0); [lra|]. destruct (Rltb_spec 1 1); [lra|]. destruct (Rltb_spec 1 2); [|lra]. destruct (Rltb_spec 0 1); [|lra]. cbn [orb length Nat.sub Nat.min nth]. f_equal. field.
  - apply C57_outside. unfold inside, ebl_example. simpl. lra.
Qed.
