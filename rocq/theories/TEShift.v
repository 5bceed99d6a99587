(** Runs with constant rates: one subgroup, no bounds, no merging, a fixed step
    (C68, and concrete runs with non-zero rates for the other properties). *)
From Verif Require Import Base TEUtils TimeEvolution ListFacts TEIndexFacts TEStageFacts TEStepFacts TELoopFacts TEInv TEForward TEZero Spec_TE.

Lemma map2_const_r {A B C} (f : A -> B -> C) l x : map2 f l (repeat x (length l)) = map (fun a => f a x) l.
Proof. induction l; simpl; auto. f_equal; auto. Qed.
Lemma map2_const_n {A B C} (f : A -> B -> C) l x n : length l = n -> map2 f l (repeat x n) = map (fun a => f a x) l.
Proof. intros <-. apply map2_const_r. Qed.
Lemma map2_map_l {A A' B C} (f : A' -> B -> C) (g : A -> A') l k : map2 f (map g l) k = map2 (fun a b => f (g a) b) l k.
Proof. revert k; induction l; intros [|b k]; simpl; auto. f_equal; auto. Qed.
Lemma map2_map_r {A B B' C} (f : A -> B' -> C) (g : B -> B') l k : map2 f l (map g k) = map2 (fun a b => f a (g b)) l k.
Proof. revert k; induction l; intros [|b k]; simpl; auto. f_equal; auto. Qed.
Lemma map2_diag {A C} (f : A -> A -> C) l : map2 f l l = map (fun a => f a a) l.
Proof. induction l; simpl; auto. f_equal; auto. Qed.

Lemma unflat2_const (b : list bin) q : unflat shape2 (repeat q (length (flat shape2 b))) = Some (repeat (q, q) (length b)).
Proof. simpl. induction b as [|x b IH]; auto. simpl in *. rewrite IH. auto. Qed.

Section Shift.
Variable np : numpy.
Hypothesis Hnp : numpy_ok np.
Variables (T t a r q m : R) (gs0 : list R) (me : method_t).
Hypothesis Hm : 0 < m.
Hypothesis Ht : 0 <= t.

Let c := const_cfg T t a r q m gs0 me.

Definition mk_bin (g : R) : bin := (g, g * (1 + bin_size_factor)).
Definition sh_state (left : list (option R)) (gs ns : list R) (el : R) : tstate :=
  let N := length gs in
  {| st_bins := map mk_bin gs; st_dens := ns; st_subs := [repeat 1 N];
     st_en := [("gain"%string, repeat (Some (a, a)) N)]; st_rel := [("esc"%string, repeat (Some r) N)];
     st_abs := [("inj"%string, repeat (Some q) N)]; st_left := left; st_elapsed := el |}.

(** gammas and densities after a step of length [u] *)
Definition sh_g (u : R) (g : R) : R := g + a * u / m.
Definition sh_n (u : R) (v : R) : R := v + (v * r + q) * u.

Definition good (gs ns : list R) : Prop :=
  gs <> [] /\ length ns = length gs /\ all_pos gs /\ lg_incr np gs /\ (forall v, In v ns -> 0 <= v) /\ enough ns.

Lemma lbs_mk gs : lbs (map mk_bin gs) = gs.
Proof. unfold lbs. rewrite map_map. simpl. apply map_id. Qed.

Lemma sh_choose left gs ns el : length ns = length gs -> 
  choose_step c (sh_state left gs ns el) =
  Ok ([repeat (0 + a, 0 + a) (length gs)], [map (fun v => v * r + q) ns], left, if Rltb (T - el) t then T - el else t).
Proof.
  intros L. unfold choose_step, group_energy, group_injection, known, sh_state. simpl st_bins. simpl st_en. simpl st_rel. simpl st_abs. simpl st_dens. simpl st_subs. simpl st_left. simpl st_elapsed.
  rewrite map_length.
  assert (K : forall A (x : A) k, all_some (repeat (Some x) k) = Some (repeat x k)).
  { intros A x k. apply all_some_spec. rewrite map_repeat'. auto. }
  simpl mapM. rewrite !K. cbn [bind]. unfold sum_change_rates. simpl subgroups. unfold vsum. simpl map. cbn [fold_left].
  rewrite !map2_repeat. cbn [bind]. unfold bcast_rows, to_densities_grouped. simpl length. simpl Nat.eqb. cbn [bind]. simpl map2.
  rewrite (map2_const_n Rmult ns 1) by auto. rewrite map2_const_n by (rewrite map_length; auto). rewrite map2_const_n by (rewrite !map_length; auto).
  rewrite !map_map. unfold add_bin. cbn [fst snd]. 
  replace (map (fun x : R => x * 1 * (0 + r) + (0 + q)) ns) with (map (fun v => v * r + q) ns) by (apply map_ext; intros; ring).
  reflexivity.
Qed.

Definition sh_bins (u : R) (gs : list R) : list bin := map (fun g => (sh_g u g, g * (1 + bin_size_factor) + a * u / m)) gs.

Lemma sh_groups u gs ns : length ns = length gs -> all_pos gs -> all_pos (map (sh_g u) gs) ->
  recalc_groups c (to_erg m (map mk_bin gs)) ns [repeat 1 (length gs)] (map (scale_bins u) [repeat (0 + a, 0 + a) (length gs)]) = Ok [(sh_bins u gs, ns)].
Proof.
  intros L P P'. unfold recalc_groups. simpl map. simpl mec2. cbn [bind].
  unfold recalc_gamma_bins_and_density, recalc_energy_bins_and_density_increase.
  set (e := to_erg m (map mk_bin gs)).
  assert (Ee : e = map (fun g => (g * m, g * (1 + bin_size_factor) * m)) gs) by (unfold e, to_erg; rewrite map_map; auto).
  assert (En : map2 (fun b0 c0 : bin => (fst b0 + fst c0, snd b0 + snd c0)) e (scale_bins u (repeat (0 + a, 0 + a) (length gs))) =
     map (fun g => (g * m + a * u, g * (1 + bin_size_factor) * m + a * u)) gs).
  { unfold scale_bins. rewrite map_repeat'. simpl. rewrite Ee, map2_map_l, map2_const_r. simpl. apply map_ext. intros. rewrite Rplus_0_l. auto. }
  rewrite En. set (e' := map (fun g => (g * m + a * u, g * (1 + bin_size_factor) * m + a * u)) gs).
  assert (He : forall x, In x e' -> 0 < fst x < snd x).
  { intros x Hx. apply in_map_iff in Hx as (g & <- & Hg). simpl. pose proof (P g Hg). assert (H0 : 0 < sh_g u g) by (apply P'; apply in_map; auto).
    unfold sh_g in H0. assert (0 < (g + a * u / m) * m) by (apply Rmult_lt_0_compat; auto). replace ((g + a * u / m) * m) with (g * m + a * u) in * by (field; lra).
    unfold bin_size_factor. assert (0 < g * m) by (apply Rmult_lt_0_compat; auto). lra. }
  assert (X : forall p : bin -> bool, (forall x, In x e' -> p x = false) -> existsb p e' = false).
  { intros p Hp. apply not_true_iff_false. rewrite existsb_exists. intros (x & Hx & Hxt). rewrite Hp in Hxt; [discriminate|auto]. }
  rewrite (X (fun b0 => (Rleb (fst b0) 0 || Rleb (snd b0) 0)%bool)).
  2: { intros x Hx. apply He in Hx. apply orb_false_iff. split; apply Rleb_false; lra. }
  rewrite (X (fun b0 => Rltb (snd b0 - fst b0) 0)). 2: { intros x Hx. apply He in Hx. apply Rltb_false; lra. }
  rewrite (X (fun b0 => Reqb (snd b0 - fst b0) 0)). 2: { intros x Hx. apply He in Hx. apply Reqb_false; lra. }
  cbn [bind].
  assert (Ei : map2 Rmult (map2 Rmult ns (repeat 1 (length gs))) (map2 (fun b0 b' : bin => (snd b0 - fst b0) / (snd b' - fst b')) e e') = ns).
  { assert (Ew : map2 (fun b0 b' : bin => (snd b0 - fst b0) / (snd b' - fst b')) e e' = repeat 1 (length gs)).
    { rewrite Ee. unfold e'. clear - P Hm. induction gs as [|g l IH]; simpl; auto. rewrite IH by (intros x Hx; apply P; simpl; auto). f_equal.
      assert (0 < g) by (apply P; simpl; auto). assert (0 < g * m) by (apply Rmult_lt_0_compat; auto). unfold bin_size_factor. field. nra. }
    rewrite Ew, (map2_const_n Rmult ns 1), map2_const_n by (rewrite ?map_length; auto). rewrite map_map. rewrite <- (map_id ns) at 2. apply map_ext. intros; ring. }
  match goal with |- context [map2 Rmult (map2 Rmult ns _) ?w] => change w with (map2 (fun b0 b' : bin => (snd b0 - fst b0) / (snd b' - fst b')) e e') end.
  rewrite Ei. cbn [bind].
  assert (Eb : map (fun x : bin => (fst x / m, snd x / m)) e' = sh_bins u gs).
  { unfold e', sh_bins. rewrite map_map. apply map_ext. intros g. simpl. unfold sh_g. f_equal; field; lra. }
  change (map (fun x : bin => (fst x / m, snd x / m)) e') with (map (fun x : bin => (fst x / m, snd x / m)) e'). rewrite Eb. reflexivity.
Qed.

Lemma sh_add u ns : map2 Rplus ns (scale u (map (fun v => v * r + q) ns)) = map (sh_n u) ns.
Proof. unfold scale. rewrite map_map, map2_map_r, map2_diag. auto. Qed.

Lemma sh_eval u gs ns : length ns = length gs -> gs <> [] -> all_pos gs -> all_pos (map (sh_g u) gs) -> 
  (forall v, In v (map (sh_n u) ns) -> 0 <= v) ->
  exists b, map fst b = map (sh_g u) gs /\
  apply_time_eval np c (to_erg m (map mk_bin gs)) ns [repeat 1 (length gs)] (map (scale_bins u) [repeat (0 + a, 0 + a) (length gs)]) (map (scale u) [map (fun v => v * r + q) ns]) =
  Ok (b, map (sh_n u) ns, [repeat 1 (length gs)]).
Proof.
  intros L Hne P P' Hpos. exists (sh_bins u gs).
  split; [unfold sh_bins; rewrite map_map; apply map_ext; auto|].
  unfold apply_time_eval. rewrite sh_groups by auto. cbn [bind map inject_groups]. rewrite sh_add.
  assert (Ex : existsb (fun v => Rltb v 0) (map (sh_n u) ns) = false).
  { apply not_true_iff_false. rewrite existsb_exists. intros (v & Hv & Hlt). apply Rltb_true in Hlt. apply Hpos in Hv. lra. }
  rewrite Ex. simpl. unfold col_sum. simpl.
  assert (Ez : map2 Rplus (repeat 0 (length ns)) (map (sh_n u) ns) = map (sh_n u) ns).
  { clear. induction ns as [|v l IH]; simpl; auto. rewrite IH, Rplus_0_l. auto. }
  rewrite Ez. f_equal. f_equal. f_equal.
  unfold new_row. rewrite <- L. clear. induction ns as [|v l IH]; simpl; auto. rewrite IH. f_equal.
  destruct (Reqb_spec (sh_n u v) 0); auto. field. auto.
Qed.

(** a step that would make a density negative *)
Lemma sh_eval_neg u gs ns v : length ns = length gs -> all_pos gs -> all_pos (map (sh_g u) gs) -> In v (map (sh_n u) ns) -> v < 0 ->
  apply_time_eval np c (to_erg m (map mk_bin gs)) ns [repeat 1 (length gs)] (map (scale_bins u) [repeat (0 + a, 0 + a) (length gs)]) (map (scale u) [map (fun v => v * r + q) ns]) =
  Err (ValueError "Negative density obtained").
Proof.
  intros L P P' Hv Hn. unfold apply_time_eval. rewrite sh_groups by auto. cbn [bind map inject_groups]. rewrite sh_add.
  assert (Ex : existsb (fun v => Rltb v 0) (map (sh_n u) ns) = true).
  { apply existsb_exists. exists v. split; auto. apply Rltb_true. auto. }
  rewrite Ex. reflexivity.
Qed.
Lemma sh_step_neg left gs ns el ne v : length ns = length gs -> all_pos gs ->
  let u := if Rltb (T - el) t then T - el else t in
  all_pos (map (sh_g u) gs) -> In v (map (sh_n u) ns) -> v < 0 ->
  step np c (sh_state left gs ns el) ne = (ne, Err (ValueError "Negative density obtained")).
Proof.
  intros L P u P' Hv Hn. unfold step. unfold bindS at 1. unfold lift at 1. rewrite sh_choose by auto. fold u.
  unfold bindS at 1. unfold apply_time_changes. unfold bindS at 1. unfold sh_state at 1 2 3. simpl st_bins. simpl st_dens. simpl st_subs. simpl mec2.
  unfold stage12. rewrite (sh_eval_neg u gs ns v) by auto. reflexivity.
Qed.

Lemma recalc_const2 (cols : list bin) name ne dens N prev msk : length cols = N ->
  (msk = None \/ (msk = Some (repeat true N) /\ exists p, lookup name prev = Some p /\ length p = N)) ->
  recalc_new_rates shape2 cols [(name, const_fn a)] ne dens [repeat 1 N] prev msk = Ok [(name, repeat (Some (a, a)) N)].
Proof.
  intros L H. unfold recalc_new_rates.
  assert (Em : match msk with None => map (fun _ => true) cols | Some x => x end = map (fun _ => true) cols).
  { destruct H as [->|[-> _]]; auto. rewrite <- L. clear. induction cols; simpl; auto. f_equal; auto. }
  rewrite Em. rewrite select_all by auto.
  destruct (remap_subgroups_mask (map (fun _ : bin => true) cols) [repeat 1 N]) as [sm ->].
  { discriminate. } { intros x [<-|[]]. rewrite repeat_length, map_length. auto. }
  cbn [bind]. unfold call_fn, const_fn. simpl fp_gamma. simpl mapM. cbn [bind].
  rewrite unflat2_const. rewrite repeat_length, Nat.eqb_refl, map_repeat'. cbn [bind].
  destruct H as [->|[-> (p & Hp & Lp)]]; [rewrite L; reflexivity|]. rewrite Hp. cbn [bind]. simpl. f_equal. f_equal. f_equal.
  rewrite L. rewrite <- Lp. replace (map (fun _ : bin => true) cols) with (map (fun _ : option bin => true) p).
  2: { assert (L' : length p = length cols) by lia. clear - L'. revert cols L'. induction p; intros [|x cols] L'; try discriminate; simpl; auto. f_equal; auto. }
  clear. induction p; simpl; auto. f_equal; auto.
Qed.
Lemma recalc_const1 (cols : list R) name v ne dens N prev msk : length cols = N ->
  (msk = None \/ (msk = Some (repeat true N) /\ exists p, lookup name prev = Some p /\ length p = N)) ->
  recalc_new_rates shape1 cols [(name, const_fn v)] ne dens [repeat 1 N] prev msk = Ok [(name, repeat (Some v) N)].
Proof.
  intros L H. unfold recalc_new_rates.
  assert (Em : match msk with None => map (fun _ => true) cols | Some x => x end = map (fun _ => true) cols).
  { destruct H as [->|[-> _]]; auto. rewrite <- L. clear. induction cols; simpl; auto. f_equal; auto. }
  rewrite Em. rewrite select_all by auto.
  destruct (remap_subgroups_mask (map (fun _ : R => true) cols) [repeat 1 N]) as [sm ->].
  { discriminate. } { intros x [<-|[]]. rewrite repeat_length, map_length. auto. }
  cbn [bind]. unfold call_fn, const_fn. simpl fp_gamma. simpl mapM. cbn [bind].
  rewrite repeat_length, Nat.eqb_refl, map_repeat'. cbn [bind].
  destruct H as [->|[-> (p & Hp & Lp)]]; [rewrite L; reflexivity|]. rewrite Hp. cbn [bind]. simpl. f_equal. f_equal. f_equal.
  rewrite L. rewrite <- Lp. replace (map (fun _ : R => true) cols) with (map (fun _ : option R => true) p).
  2: { assert (L' : length p = length cols) by lia. clear - L'. revert cols L'. induction p; intros [|x cols] L'; try discriminate; simpl; auto. f_equal; auto. }
  clear. induction p; simpl; auto. f_equal; auto.
Qed.

Lemma sh_step left gs ns el ne : length ns = length gs -> gs <> [] -> all_pos gs ->
  let u := if Rltb (T - el) t then T - el else t in
  good (map (sh_g u) gs) (map (sh_n u) ns) ->
  exists d b, lbs b = map (sh_g u) gs /\ update_distribution np b (map (sh_n u) ns) = Ok d /\
  step np c (sh_state left gs ns el) ne = (d, Ok (sh_state left (map (sh_g u) gs) (map (sh_n u) ns) (el + u))).
Proof.
  intros L Hne P u (G1 & G2 & G3 & G4 & G5 & G6). set (gs' := map (sh_g u) gs) in *. set (ns' := map (sh_n u) ns) in *.
  destruct (sh_eval u gs ns L Hne P G3 G5) as (b & Hb & Ev).
  assert (Lb : lbs b = gs') by exact Hb.
  assert (Lg : length gs' = length gs) by apply map_length.
  assert (Lbl : length b = length gs) by (rewrite <- lbs_length, Lb; auto).
  assert (Ln' : length ns' = length b) by (rewrite Lbl, <- L; unfold ns'; apply map_length).
  destruct (update_ok np Hnp b ns') as [d Hd]; try rewrite Lb; auto.
  exists d, b. split; auto. split; auto.
  assert (H12 : exists eng', stage12 np c (to_erg m (map mk_bin gs)) ns [repeat 1 (length gs)] [repeat (0 + a, 0 + a) (length gs)] [map (fun v => v * r + q) ns] u ne
     = (d, Ok (b, ns', [repeat 1 (length gs)], d, eng'))).
  { unfold stage12. rewrite Ev. unfold bindS at 1. unfold lift at 1. unfold set_distribution. fold ns'. rewrite Hd. simpl method. destruct me; [eexists; reflexivity|].
    unfold bindS at 1 2 3. unfold lift at 1. unfold put, ret, get.
    unfold bindS at 1. unfold bindS at 1. unfold lift at 1. simpl en_fns.
    rewrite recalc_const2 by auto.
    unfold bindS at 1. unfold lift at 1. unfold group_energy, known. simpl mapM.
    rewrite (proj2 (all_some_spec (repeat (Some (a, a)) (length gs)) (repeat (a, a) (length gs)))) by (rewrite map_repeat'; auto). cbn [bind].
    unfold sum_change_rates. simpl subgroups. unfold vsum. simpl map. cbn [fold_left]. rewrite Lbl, map2_repeat. unfold add_bin. cbn [fst snd].
    assert (Ea : map2 avg_bin (repeat (0 + a, 0 + a) (length gs)) (repeat (0 + a, 0 + a) (length gs)) = repeat (0 + a, 0 + a) (length gs)).
    { rewrite map2_repeat. unfold avg_bin. simpl. replace ((0 + a + (0 + a)) / 2) with (0 + a) by lra. auto. }
    unfold bindS at 1. unfold lift at 1. simpl. rewrite Ea. simpl in Ev.
    rewrite Ev. unfold bindS, lift. fold ns'. rewrite Hd. eexists; reflexivity. }
  destruct H12 as [eng' H12].
  assert (H345 : stage345 np c b ns' [repeat 1 (length gs)] d eng' = Ok (b, ns', [repeat 1 (length gs)], arange (length gs))).
  { rewrite <- Lbl. apply stage345_id; auto; [|discriminate|intros x [<-|[]]; apply repeat_length].
    split; [rewrite Lb; auto|]. split; [rewrite Lb; auto|]. split; intros x Hx; discriminate. }
  unfold step. unfold bindS at 1. unfold lift at 1. rewrite sh_choose by auto. fold u. unfold bindS at 1. unfold apply_time_changes.
  unfold bindS at 1. unfold sh_state at 1 2 3. simpl st_bins. simpl st_dens. simpl st_subs. simpl mec2. rewrite H12. unfold lift at 1. rewrite H345.
  simpl optimize. unfold bindS at 1. unfold lift at 1. cbv iota beta zeta.
  assert (Emk : map (fun _ : R => true) ns' = repeat true (length gs)).
  { rewrite <- Lbl, <- Ln'. clear. induction ns'; simpl; auto. f_equal; auto. }
  rewrite Emk.
  assert (Eu : update_bin_ub b (repeat true (length gs)) = map mk_bin gs').
  { rewrite <- Lb, <- Lbl. clear. unfold update_bin_ub. induction b as [|x l IH]; simpl; auto. rewrite IH. auto. }
  rewrite Eu. unfold bindS at 1. unfold get at 1.
  assert (Er : forall A (x : A) name dflt, remap_dict (arange (length gs)) [(name, repeat (Some x) (length gs))] dflt = Ok [(name, repeat (Some x) (length gs))]).
  { intros A x name dflt. unfold remap_dict. simpl. pose proof (remap_arange (repeat (Some x) (length gs)) dflt) as X. rewrite repeat_length in X. rewrite X. auto. }
  unfold sh_state at 1 2 3. simpl st_en. simpl st_rel. simpl st_abs. rewrite !Er. cbn [bind]. rewrite lbs_mk. simpl en_fns. simpl abs_fns. simpl rel_fns.
  rewrite recalc_const2; [|rewrite map_length; auto|right; split; auto; simpl; eexists; split; [reflexivity|apply repeat_length]].
  rewrite recalc_const1; [|auto|right; split; auto; simpl; eexists; split; [reflexivity|apply repeat_length]].
  rewrite recalc_const1; [|auto|right; split; auto; simpl; eexists; split; [reflexivity|apply repeat_length]].
  unfold sh_state. rewrite <- Lg. reflexivity.
Qed.

Definition after_g (i : nat) (gs : list R) : list R := map (fun g => g + INR i * (a * t / m)) gs.
Definition after_n (i : nat) (ns : list R) : list R := map (Nat.iter i (sh_n t)) ns.

Lemma after_g_S i gs : after_g (S i) gs = after_g i (map (sh_g t) gs).
Proof. unfold after_g. rewrite map_map. apply map_ext. intros g. unfold sh_g. rewrite S_INR. field. lra. Qed.
Lemma after_n_S i ns : after_n (S i) ns = after_n i (map (sh_n t) ns).
Proof. unfold after_n. rewrite map_map. apply map_ext. intros v. induction i as [|i IH]; auto. simpl in *. rewrite IH. auto. Qed.
Lemma after_g_0 gs : after_g 0 gs = gs.
Proof. unfold after_g. rewrite <- (map_id gs) at 2. apply map_ext. intros. simpl. lra. Qed.
Lemma after_n_0 ns : after_n 0 ns = ns.
Proof. unfold after_n. rewrite <- (map_id ns) at 2. apply map_ext. intros. auto. Qed.

Hypothesis Htp : 0 < t.

Lemma sh_loop k : forall left gs ns el ne, T - el = INR k * t -> length ns = length gs -> gs <> [] -> all_pos gs ->
  (forall i, (1 <= i <= k)%nat -> good (after_g i gs) (after_n i ns)) ->
  exists d tr, loop np c k (sh_state left gs ns el) ne = (d, tr, Ok (sh_state left (after_g k gs) (after_n k ns) (el + INR k * t))) /\
    length tr = k /\ (forall i, (i < k)%nat -> nth_error tr i = Some (sh_state left (after_g (S i) gs) (after_n (S i) ns) (el + INR (S i) * t))) /\
    (k = 0%nat -> d = ne) /\ ((k <> 0)%nat -> exists b, lbs b = after_g k gs /\ update_distribution np b (after_n k ns) = Ok d).
Proof.
  induction k as [|k IH]; intros left gs ns el ne ET L Hne P HG.
  - exists ne, []. simpl in ET. cbn [loop]. simpl total. simpl st_elapsed. rewrite (proj2 (Rltb_false el T)) by lra.
    rewrite after_g_0, after_n_0. simpl. rewrite Rmult_0_l, Rplus_0_r. repeat split; auto; [intros; lia|congruence].
  - assert (Hk : 0 <= INR k) by apply pos_INR. rewrite S_INR in ET.
    cbn [loop]. simpl total. simpl st_elapsed. assert (0 <= INR k * t) by (apply Rmult_le_pos; lra). rewrite (proj2 (Rltb_true el T)) by lra.
    pose proof (sh_step left gs ns el ne L Hne P) as X. cbv zeta in X. rewrite (proj2 (Rltb_false (T - el) t)) in X by lra.
    assert (HG1 : good (map (sh_g t) gs) (map (sh_n t) ns)).
    { specialize (HG 1%nat). rewrite after_g_S, after_n_S, after_g_0, after_n_0 in HG. apply HG. lia. }
    destruct (X HG1) as (d1 & b1 & Hb1 & Hd1 & Hst). rewrite Hst. destruct HG1 as (A1 & A2 & A3 & _).
    destruct (IH left (map (sh_g t) gs) (map (sh_n t) ns) (el + t) d1) as (d & tr & Hlo & Ltr & Hnth & H0 & Hd); auto; [lra| |].
    { intros i Hi. rewrite <- after_g_S, <- after_n_S. apply HG. lia. }
    rewrite Hlo. rewrite <- after_g_S, <- after_n_S in *.
    exists d, (sh_state left (map (sh_g t) gs) (map (sh_n t) ns) (el + t) :: tr).
    split. { f_equal. f_equal. f_equal. rewrite S_INR. ring. }
    split. { simpl. lia. }
    split.
    + intros [|i] Hi; cbn [nth_error].
      * rewrite after_g_S, after_n_S, after_g_0, after_n_0. simpl. rewrite Rmult_1_l. auto.
      * rewrite Hnth by lia. rewrite <- !after_g_S, <- !after_n_S. f_equal. f_equal. rewrite (S_INR (S i)). ring.
    + split; [lia|]. intros _. destruct k as [|k']; [|apply Hd; lia]. rewrite H0 by auto. exists b1. rewrite after_g_S, after_g_0, after_n_S, after_n_0. auto.
Qed.

Lemma sh_initial ne ns : gs0 <> [] -> snd (dist_call np ne gs0) = ns ->
  initial_values np c ne = Ok (sh_state (map (fun _ => Some 0) gs0) gs0 ns 0).
Proof.
  intros Hne En. unfold initial_values. pose proof (dist_call_length np ne gs0) as [L1 L2]. simpl g0. destruct (dist_call np ne gs0) as [lb' dens]. simpl in *. subst dens.
  assert (Eb : initial_bins c = map mk_bin gs0).
  { unfold initial_bins, update_bin_ub. simpl g0. clear. induction gs0; simpl; auto. f_equal; auto. }
  rewrite Eb. rewrite recalc_const2 by (rewrite ?map_length; auto). cbn [bind].
  rewrite (recalc_const1 lb' "esc" r ne ns (length gs0)) by auto. cbn [bind]. rewrite (recalc_const1 lb' "inj" q ne ns (length gs0)) by auto. cbn [bind].
  unfold sh_state. rewrite map_map. auto.
Qed.

Lemma sh_run k ne ns : T = INR k * t -> gs0 <> [] -> all_pos gs0 -> snd (dist_call np ne gs0) = ns ->
  (forall i, (1 <= i <= k)%nat -> good (after_g i gs0) (after_n i ns)) ->
  exists d recs x, evaluate np c k ne = (d, recs, Ok x) /\ length recs = k /\
    r_time x = T /\ r_gamma x = after_g k gs0 /\ r_dens x = after_n k ns /\
    (forall i y, nth_error recs i = Some y -> r_time y = INR (S i) * t /\ r_gamma y = after_g (S i) gs0 /\ r_dens y = after_n (S i) ns) /\
    ((k <> 0)%nat -> exists b, lbs b = after_g k gs0 /\ update_distribution np b (after_n k ns) = Ok d).
Proof.
  intros ET Hne P En HG.
  assert (Ln : length ns = length gs0) by (rewrite <- En; apply dist_call_length).
  unfold evaluate. rewrite (sh_initial ne ns) by auto.
  destruct (sh_loop k (map (fun _ => Some 0) gs0) gs0 ns 0 ne) as (d & tr & Hlo & Lt & Hn & _ & Hd); auto; [lra|].
  rewrite Hlo. eexists d, _, _. split; [reflexivity|]. split; [rewrite map_length; auto|].
  split; [simpl; lra|]. split; [simpl; apply lbs_mk|]. split; [auto|]. split; auto.
  intros i y Hy. assert (Hi : (i < k)%nat) by (rewrite <- Lt, <- (map_length callback_report); eapply nth_error_lt; eauto).
  rewrite nth_error_map, Hn in Hy by auto. simpl in Hy. injection Hy as <-. simpl r_time. simpl r_gamma. simpl r_dens. rewrite lbs_mk. split; [apply Rplus_0_l|]. auto.
Qed.
End Shift.

