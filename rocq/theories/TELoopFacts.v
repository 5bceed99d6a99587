(** Facts about the rate bookkeeping and the loop of evaluate(). *)
From Verif Require Import Base TEUtils TimeEvolution ListFacts TEIndexFacts TEStageFacts TEStepFacts.

(** ** the state monad *)
Lemma bindS_Ok {A B} (m : St A) (f : A -> St B) d d' b :
  bindS m f d = (d', Ok b) -> exists d1 a, m d = (d1, Ok a) /\ f a d1 = (d', Ok b).
Proof. unfold bindS. destruct (m d) as [d1 [a|e]]; intros H; [eauto|discriminate]. Qed.
Lemma lift_Ok {A} (x : res A) d d' a : lift x d = (d', Ok a) -> d' = d /\ x = Ok a.
Proof. unfold lift. intros H; injection H as <- <-. auto. Qed.
Lemma bindS_Err {A B} (m : St A) (f : A -> St B) d d' e :
  bindS m f d = (d', Err e) -> m d = (d', Err e) \/ exists d1 a, m d = (d1, Ok a) /\ f a d1 = (d', Err e).
Proof. unfold bindS. destruct (m d) as [d1 [a|e1]]; intros H; [right; eauto|left; congruence]. Qed.

(** ** dictionaries *)
Lemma lookup_In {A} k (d : list (string * A)) v : lookup k d = Some v -> In (k, v) d.
Proof.
  induction d as [|[k' a] d IH]; simpl; [discriminate|]. destruct (String.eqb_spec k k').
  - subst. intros H; injection H as ->. auto.
  - auto.
Qed.
Lemma lookup_keys {A} k (d : list (string * A)) : In k (map fst d) -> exists v, lookup k d = Some v.
Proof.
  induction d as [|[k' a] d IH]; simpl; [tauto|]. destruct (String.eqb_spec k k'); eauto. intros [E|H]; [congruence|auto].
Qed.
Lemma lookup_keys_inv {A} k (d : list (string * A)) v : lookup k d = Some v -> In k (map fst d).
Proof. intros H. apply lookup_In in H. apply in_map_iff. exists (k, v); auto. Qed.

Lemma all_some_spec {A} (l : list (option A)) r : all_some l = Some r <-> l = map Some r.
Proof.
  revert r; induction l as [|[a|] l IH]; intros r; simpl.
  - split; [intros H; injection H as <-; auto|destruct r; [auto|discriminate]].
  - destruct (all_some l) as [r'|] eqn:E.
    + split; [intros H; injection H as <-; simpl; f_equal; apply IH; auto|].
      destruct r as [|x r]; [discriminate|]. simpl. intros H; injection H as <- H. apply IH in H. congruence.
    + split; [discriminate|]. destruct r as [|x r]; [discriminate|]. simpl. intros H; injection H as <- H. apply IH in H. discriminate.
  - split; [discriminate|]. destruct r; discriminate.
Qed.
Lemma all_some_ex {A} (l : list (option A)) : (forall x, In x l -> x <> None) -> exists r, all_some l = Some r.
Proof.
  induction l as [|[a|] l IH]; simpl; intros H; eauto.
  - destruct IH as [r ->]; eauto.
  - exfalso. apply (H None); auto.
Qed.

Lemma known_spec {A} (r : rates A) k : known r = Ok k ->
  map fst k = map fst r /\ Forall2 (fun x y => fst x = fst y /\ snd x = map Some (snd y)) r k.
Proof.
  unfold known. intros H. apply mapM_Forall2 in H. split.
  - induction H as [|x y l m Hxy H IH]; simpl; auto. f_equal; auto.
    destruct (all_some (snd x)); [|discriminate]. injection Hxy as <-. auto.
  - eapply Forall2_impl; [|exact H]. intros x y Hxy. simpl in Hxy. destruct (all_some (snd x)) as [l0|] eqn:E; [|discriminate].
    injection Hxy as <-. split; auto. apply all_some_spec; auto.
Qed.
Lemma known_ok {A} (r : rates A) : (forall kv x, In kv r -> In x (snd kv) -> x <> None) -> exists k, known r = Ok k.
Proof.
  intros H. apply mapM_ok_all. intros kv Hin. destruct (all_some_ex (snd kv)) as [l ->]; eauto.
Qed.

Lemma vsum_length {A} (add : A -> A -> A) zero n arrays : (forall a, In a arrays -> length a = n) ->
  length (vsum add zero n arrays) = n.
Proof.
  intros H. unfold vsum. assert (G : forall ars acc, length acc = n -> (forall a, In a ars -> length a = n) ->
    length (fold_left (map2 add) ars acc) = n).
  { induction ars as [|a l IH]; intros acc L Hl; simpl; auto. apply IH; [apply map2_length_eq; auto; apply Hl; simpl; auto|].
    intros; apply Hl; simpl; auto. }
  apply G; auto. apply repeat_length.
Qed.

(** rate dictionaries: keys and array lengths *)
Definition rates_ok {A} (fns : list (string * GammaFn)) (n : nat) (r : rates A) : Prop :=
  map fst r = map fst fns /\ forall kv, In kv r -> length (snd kv) = n.
Definition no_nan {A} (r : rates A) : Prop := forall kv x, In kv r -> In x (snd kv) -> x <> None.

Lemma sum_change_rates_length {A} (add : A -> A -> A) zero n fns (r : rates A) k sg :
  rates_ok fns n r -> known r = Ok k ->
  (forall row, In row (sum_change_rates add zero n k sg) -> length row = n).
Proof.
  intros [_ HL] Hk. apply known_spec in Hk as [_ Hk].
  assert (L : forall kv, In kv k -> length (snd kv) = n).
  { intros kv Hin. apply nth_error_In_iff in Hin as [i Hi]. destruct (Forall2_nth_error_r _ _ _ Hk _ _ Hi) as (x & Hx & E1 & E2).
    apply (f_equal (@length _)) in E2. rewrite map_length in E2. rewrite <- E2. apply HL. eapply nth_error_In; eauto. }
  unfold sum_change_rates. destruct sg as [rows|].
  - intros row Hrow. apply in_map_iff in Hrow as (names & <- & _). apply vsum_length.
    intros a Ha. apply in_flat_map in Ha as (x & _ & Ha). destruct (lookup x k) as [v|] eqn:E; [|destruct Ha].
    destruct Ha as [<-|[]]. apply lookup_In in E. apply (L (x, v)); auto.
  - intros row [<-|[]]. apply vsum_length. intros a Ha. apply in_map_iff in Ha as (kv & <- & Hin). auto.
Qed.

Definition ngroups (c : cfg) : nat := match subgroups c with None => 1%nat | Some rows => length rows end.
Lemma sum_change_rates_rows {A} (add : A -> A -> A) zero n k c :
  length (sum_change_rates add zero n k (subgroups c)) = ngroups c.
Proof. unfold sum_change_rates, ngroups. destruct (subgroups c); auto. apply map_length. Qed.

(** ** recalculating rates *)
Lemma remap_subgroups_true {B} (x : list B) subs : subs <> [] -> (forall r, In r subs -> length r = length x) ->
  remap_subgroups_density (mask_to_mapping (map (fun _ => true) x)) subs = Ok subs.
Proof.
  intros Hne H.
  assert (G : forall nv r, length r = length x -> remap_row (mask_to_mapping (map (fun _ => true) x)) nv r = Ok r).
  { intros nv r L. apply remap_row_of_remap. unfold remap. rewrite take_mask by (rewrite map_length; auto).
    simpl. rewrite mask_mapping_nonneg. rewrite select_all by auto. auto. }
  destruct subs as [|r0 rs]; [congruence|]. simpl. rewrite G by (apply H; simpl; auto). simpl.
  assert (E : mapM (remap_row (mask_to_mapping (map (fun _ => true) x)) 0) rs = Ok rs).
  { apply mapM_Forall2. apply Forall2_from_nth; auto. intros i a b Ha Hb. assert (a = b) by congruence. subst b.
    apply G. apply H. right. eapply nth_error_In; eauto. }
  rewrite E. auto.
Qed.

Lemma remap_subgroups_rows m subs s' : remap_subgroups_density m subs = Ok s' ->
  length s' = length subs /\ s' <> [] /\ forall r, In r s' -> length r = length m.
Proof.
  destruct subs as [|r0 rs]; simpl; [discriminate|]. intros H. apply bind_Ok in H as (a & Ha & H).
  apply bind_Ok in H as (l & Hl & H). injection H as <-. split; [simpl; f_equal; eapply mapM_length; eauto|].
  split; [discriminate|]. intros r [<-|Hr]. { eapply remap_row_length; eauto. }
  apply nth_error_In_iff in Hr as [i Hi]. destruct (mapM_nth_r _ _ _ Hl _ _ Hi) as (x & _ & E). eapply remap_row_length; eauto.
Qed.

(** the user function [f] called on full arrays returned [vals] *)
Definition fn_vals {A} (sh : shape A) (f : GammaFn) (ne : dist) (cols : list A) (dens : list R) (subs : list (list R))
  (vals : list A) : Prop :=
  exists out, f ne {| fp_gamma := flat sh cols; fp_densities := dens; fp_subgroups := subs |} = Ok out /\
              unflat sh out = Some vals /\ length vals = length cols.

Definition fresh_rates {A} (sh : shape A) (fns : list (string * GammaFn)) (ne : dist) cols dens subs (r : rates A) : Prop :=
  Forall2 (fun kf kv => fst kv = fst kf /\ exists vals, snd kv = map Some vals /\ fn_vals sh (snd kf) ne cols dens subs vals) fns r.

Lemma fresh_rates_ok {A} (sh : shape A) fns ne cols dens subs (r : rates A) :
  fresh_rates sh fns ne cols dens subs r -> rates_ok fns (length cols) r /\ no_nan r.
Proof.
  intros H. split; [split|].
  - induction H as [|x y l m Hxy H IH]; simpl; auto. f_equal; auto. apply Hxy.
  - intros kv Hin. apply nth_error_In_iff in Hin as [i Hi]. destruct (Forall2_nth_error_r _ _ _ H _ _ Hi) as (f & _ & _ & v & E & o & _ & _ & L).
    rewrite E, map_length. auto.
  - intros kv x Hin Hx. apply nth_error_In_iff in Hin as [i Hi]. destruct (Forall2_nth_error_r _ _ _ H _ _ Hi) as (f & _ & _ & v & E & _).
    rewrite E in Hx. apply in_map_iff in Hx as (y & <- & _). discriminate.
Qed.

Lemma call_fn_Ok {A} (sh : shape A) f ne params n v : call_fn sh f ne params n = Ok v ->
  exists out vals, f ne params = Ok out /\ unflat sh out = Some vals /\ length vals = n /\ v = map Some vals.
Proof.
  unfold call_fn. intros H. apply bind_Ok in H as (out & Ho & H). destruct (unflat sh out) as [vals|] eqn:E; [|discriminate].
  destruct (Nat.eqb_spec (length vals) n); [|discriminate]. injection H as <-. eauto 6.
Qed.

Lemma recalc_fresh {A} (sh : shape A) cols fns ne dens subs prev r (mask : option (list bool)) :
  (mask = None \/ (exists (B : Type) (x : list B), length x = length cols /\ mask = Some (map (fun _ => true) x) /\ rates_ok fns (length cols) prev)) ->
  length dens = length cols -> subs <> [] -> (forall row, In row subs -> length row = length cols) ->
  recalc_new_rates sh cols fns ne dens subs prev mask = Ok r ->
  fresh_rates sh fns ne cols dens subs r.
Proof.
  intros Hm Ld Hs Ls H. unfold recalc_new_rates in H.
  assert (Em : exists B (x : list B), length x = length cols /\ match mask with None => map (fun _ => true) cols | Some m => m end = map (fun _ => true) x).
  { destruct Hm as [->|(B & x & L & -> & _)]; eauto. }
  destruct Em as (B & x & Lx & Em). rewrite Em in H. rewrite !select_all in H by lia.
  rewrite remap_subgroups_true in H; auto. 2: { intros; rewrite Lx; auto. }
  simpl in H. apply mapM_Forall2 in H. eapply Forall2_impl; [|exact H]. intros kf kv Hkf. simpl in Hkf.
  destruct Hm as [->|(B' & x' & L' & -> & Hp)].
  - apply bind_Ok in Hkf as (v & Hv & Hkf). injection Hkf as <-. simpl. split; auto.
    apply call_fn_Ok in Hv as (out & vals & H1 & H2 & H3 & ->). exists vals. split; auto. exists out; auto.
  - destruct (lookup (fst kf) prev) as [pv|] eqn:Ep; [|discriminate].
    apply bind_Ok in Hkf as (v & Hv & Hkf). injection Hkf as <-. simpl. split; auto.
    apply call_fn_Ok in Hv as (out & vals & H1 & H2 & H3 & ->). exists vals. split; [|exists out; auto].
    rewrite scatter_all; auto.
    + assert (length pv = length cols) by (apply lookup_In in Ep; apply Hp in Ep; auto). lia.
    + rewrite map_length. apply lookup_In in Ep. apply Hp in Ep. simpl in Ep. lia.
Qed.

(** recalculation with a mask: masked columns fresh, others previous *)
Lemma recalc_masked {A} (sh : shape A) cols fns ne dens subs prev m r :
  length m = length cols -> length dens = length cols -> rates_ok fns (length cols) prev ->
  recalc_new_rates sh cols fns ne dens subs prev (Some m) = Ok r ->
  rates_ok fns (length cols) r /\
  Forall2 (fun kf kv => fst kv = fst kf /\ exists pv vals smask, lookup (fst kf) prev = Some pv /\ 
       remap_subgroups_density (mask_to_mapping m) subs = Ok smask /\
       fn_vals sh (snd kf) ne (select m cols) (select m dens) smask vals /\
       snd kv = scatter m pv (map Some vals)) fns r.
Proof.
  intros Lm Ld Hp H. unfold recalc_new_rates in H. apply bind_Ok in H as (sm & Hsm & H).
  apply mapM_Forall2 in H.
  assert (F : Forall2 (fun kf kv => fst kv = fst kf /\ exists pv vals smask, lookup (fst kf) prev = Some pv /\ 
       remap_subgroups_density (mask_to_mapping m) subs = Ok smask /\
       fn_vals sh (snd kf) ne (select m cols) (select m dens) smask vals /\
       snd kv = scatter m pv (map Some vals)) fns r).
  { eapply Forall2_impl; [|exact H]. intros kf kv Hkf. simpl in Hkf.
    destruct (lookup (fst kf) prev) as [pv|] eqn:Ep; [|discriminate].
    apply bind_Ok in Hkf as (v & Hv & Hkf). injection Hkf as <-. simpl. split; auto.
    apply call_fn_Ok in Hv as (out & vals & H1 & H2 & H3 & ->). exists pv, vals, sm. repeat split; auto. exists out; auto. }
  split; auto. clear H. split.
  - clear - F. induction F as [|a b l m' Hab F IH]; simpl; auto. f_equal; auto. apply Hab.
  - intros kv Hin. apply nth_error_In_iff in Hin as [i Hi]. destruct (Forall2_nth_error_r _ _ _ F _ _ Hi) as (f & _ & _ & pv & vals & smask & E1 & _ & _ & E4).
    rewrite E4, scatter_length. apply lookup_In in E1. apply Hp in E1. auto.
Qed.

Lemma recalc_masked_nan {A} (sh : shape A) cols fns ne dens subs prev m r :
  length m = length cols -> length dens = length cols -> rates_ok fns (length cols) prev ->
  recalc_new_rates sh cols fns ne dens subs prev (Some m) = Ok r ->
  (forall kv i x, In kv prev -> nth_error (snd kv) i = Some x -> nth_error m i = Some false -> x <> None) ->
  no_nan r.
Proof.
  intros Lm Ld Hp H Hn. apply recalc_masked in H as [Hr F]; auto.
  intros kv x Hin Hx. pose proof (proj2 Hr _ Hin) as Lkv. apply nth_error_In_iff in Hin as [k Hk].
  destruct (Forall2_nth_error_r _ _ _ F _ _ Hk) as (f & _ & _ & pv & vals & smask & E1 & _ & (o & _ & _ & Lv) & E4).
  apply nth_error_In_iff in Hx as [i Hi]. pose proof (nth_error_lt _ _ _ Hi) as Li. rewrite Lkv in Li.
  destruct (nth_error_Some_ex m i) as [bb Hb]; [lia|].
  apply lookup_In in E1. pose proof (proj2 Hp _ E1) as Lp. simpl in Lp. rewrite E4 in Hi. destruct bb.
  - destruct (scatter_nth_true m pv (map Some vals) i) as (a & Ha & Ha2); auto; [lia| |].
    { rewrite map_length, Lv. apply select_length; auto. }
    rewrite Ha in Hi. injection Hi as <-. apply in_map_iff in Ha2 as (y & <- & _). discriminate.
  - rewrite scatter_nth_false in Hi by auto. eapply Hn; eauto.
Qed.

(** remapping dictionaries *)
Lemma remap_dict_ok {A} fns n m (r r' : rates A) d : rates_ok fns n r -> remap_dict m r d = Ok r' ->
  rates_ok fns (length m) r' /\
  Forall2 (fun kv kv' => fst kv' = fst kv /\ remap m (snd kv) d = Ok (snd kv')) r r'.
Proof.
  intros [Hk Hl] H. unfold remap_dict in H. apply mapM_Forall2 in H.
  assert (F : Forall2 (fun kv kv' => fst kv' = fst kv /\ remap m (snd kv) d = Ok (snd kv')) r r').
  { eapply Forall2_impl; [|exact H]. intros x y Hxy. simpl in Hxy. apply bind_Ok in Hxy as (v & Hv & E). injection E as <-. auto. }
  split; auto. split.
  - rewrite <- Hk. clear - F. induction F as [|a b l l' Hab F IH]; simpl; auto. f_equal; auto. apply Hab.
  - intros kv Hin. apply nth_error_In_iff in Hin as [i Hi]. destruct (Forall2_nth_error_r _ _ _ F _ _ Hi) as (x & _ & _ & E).
    eapply remap_length; eauto.
Qed.

Lemma remap_dict_nan {A} m (r r' : rates A) : no_nan r -> remap_dict m r (Some None) = Ok r' ->
  forall kv i x z, In kv r' -> nth_error (snd kv) i = Some x -> nth_error m i = Some z -> z <> (-1)%Z -> x <> None.
Proof.
  intros Hn H kv i x z Hin Hi Hz Hz1. unfold remap_dict in H.
  apply nth_error_In_iff in Hin as [k Hk]. destruct (mapM_nth_r _ _ _ H _ _ Hk) as (kv0 & Hk0 & E).
  apply bind_Ok in E as (v & Hv & E). injection E as <-. simpl in Hi.
  pose proof (remap_nth _ _ _ _ Hv _ _ _ Hz Hi) as X. destruct (Z.eqb_spec z (-1)); [contradiction|].
  apply py_get_In in X. eapply Hn; [eapply nth_error_In; eauto|auto].
Qed.

Lemma update_bin_ub_length b m : length m = length b -> length (update_bin_ub b m) = length b.
Proof. intros. unfold update_bin_ub. apply map2_length_eq; auto. Qed.
Lemma update_bin_ub_nth b m j bb mm : nth_error b j = Some bb -> nth_error m j = Some mm ->
  nth_error (update_bin_ub b m) j = Some (if mm then (fst bb, fst bb * (1 + bin_size_factor)) else bb).
Proof. intros H1 H2. unfold update_bin_ub. rewrite nth_error_map2, H1, H2. auto. Qed.
Lemma lbs_update b m : length m = length b -> lbs (update_bin_ub b m) = lbs b.
Proof.
  unfold lbs, update_bin_ub. revert m; induction b as [|x b IH]; intros [|y m]; simpl; intros; try discriminate; auto.
  f_equal; [destruct y; auto|auto].
Qed.

Section Loop.
Variable np : numpy.
Hypothesis Hnp : numpy_ok np.
Variable c : cfg.
Hypothesis Hmec : 0 < mec2 c.

(** alignment of the arrays of a loop state *)
Record aligned (s : tstate) : Prop := {
  al_dens : length (st_dens s) = length (st_bins s);
  al_subs : st_subs s <> [] /\ forall r, In r (st_subs s) -> length r = length (st_bins s);
  al_en : rates_ok (en_fns c) (length (st_bins s)) (st_en s);
  al_rel : rates_ok (rel_fns c) (length (st_bins s)) (st_rel s);
  al_abs : rates_ok (abs_fns c) (length (st_bins s)) (st_abs s);
  al_left : optimize c = true -> length (st_left s) = length (st_bins s)
}.

Lemma bcast_rows_length {A B C} (f : list A -> list B -> list C) m k r n :
  (forall x y, In x m -> In y k -> length (f x y) = n) ->
  bcast_rows f m k = Ok r -> forall row, In row r -> length row = n.
Proof.
  intros Hf H row Hrow. unfold bcast_rows in H. destruct (Nat.eqb (length m) (length k)).
  - injection H as <-. apply In_map2 in Hrow as (x & y & Hx & Hy & ->). auto.
  - destruct m as [|x0 [|x1 m]].
    + destruct k as [|y [|? ?]]; try discriminate. injection H as <-. destruct Hrow.
    + injection H as <-. apply in_map_iff in Hrow as (y & <- & Hy). apply Hf; simpl; auto.
    + destruct k as [|y [|? ?]]; try discriminate. injection H as <-. change (In row (map (fun x => f x y) (x0 :: x1 :: m))) in Hrow. apply in_map_iff in Hrow as (x & <- & Hx). apply Hf; simpl; auto.
Qed.

(** what choose_step does *)
Lemma choose_step_Ok s eng inj left0 t : choose_step c s = Ok (eng, inj, left0, t) ->
  exists ken krel kabs dr step0,
    known (st_en s) = Ok ken /\ known (st_rel s) = Ok krel /\ known (st_abs s) = Ok kabs /\
    let n := length (st_bins s) in
    let relg := sum_change_rates Rplus 0 n krel (subgroups c) in
    let absg := sum_change_rates Rplus 0 n kabs (subgroups c) in
    let dens_g := to_densities_grouped (st_dens s) (st_subs s) in
    eng = sum_change_rates add_bin (0, 0) n ken (subgroups c) /\
    bcast_rows (map2 Rmult) dens_g relg = Ok dr /\ bcast_rows (map2 Rplus) dr absg = Ok inj /\
    match stepd c with
    | Fixed t => left0 = st_left s /\ step0 = Some t
    | Auto => exists mx, calc_max_times c (to_erg (mec2 c) (st_bins s)) dens_g eng relg absg (map (fun _ => None) (st_dens s)) = Ok mx /\
        if optimize c then
          left0 = map2 (fun l m => if ext_is0 l then m else l) (st_left s) mx /\ ext_list_min left0 = Ok step0
        else left0 = st_left s /\ ext_list_min mx = Ok step0
    end /\
    t = match step0 with None => total c - st_elapsed s | Some t => if Rltb (total c - st_elapsed s) t then total c - st_elapsed s else t end.
Proof.
  unfold choose_step, group_energy, group_injection. intros H.
  apply bind_Ok in H as (eng0 & H1 & H). apply bind_Ok in H1 as (ken & Hken & H1). injection H1 as <-.
  apply bind_Ok in H as (relg & H1 & H). apply bind_Ok in H1 as (krel & Hkrel & H1). injection H1 as <-.
  apply bind_Ok in H as (absg & H1 & H). apply bind_Ok in H1 as (kabs & Hkabs & H1). injection H1 as <-.
  apply bind_Ok in H as (dr & Hdr & H). apply bind_Ok in H as (inj0 & Hinj & H). apply bind_Ok in H as ([left1 step0] & Hs & H).
  injection H as <- <- <- <-. exists ken, krel, kabs, dr, step0. repeat (split; auto).
  destruct (stepd c).
  - injection Hs as <- <-. auto.
  - apply bind_Ok in Hs as (mx & Hmx & Hs). exists mx. split; auto. destruct (optimize c).
    + apply bind_Ok in Hs as (t0 & Ht & Hs). injection Hs as <- <-. auto.
    + apply bind_Ok in Hs as (t0 & Ht & Hs). injection Hs as <- <-. auto.
Qed.

Lemma choose_step_le s eng inj left0 t : choose_step c s = Ok (eng, inj, left0, t) -> t <= total c - st_elapsed s.
Proof.
  intros H. apply choose_step_Ok in H as (? & ? & ? & ? & [t0|] & _ & _ & _ & _ & _ & _ & _ & ->); [|lra].
  destruct (Rltb_spec (total c - st_elapsed s) t0); lra.
Qed.

Lemma dens_g_rows s : aligned s -> forall r, In r (to_densities_grouped (st_dens s) (st_subs s)) -> length r = length (st_bins s).
Proof.
  intros Ha r Hr. apply in_map_iff in Hr as (row & <- & Hrow). apply map2_length_eq; [apply Ha|]. apply (al_subs _ Ha); auto.
Qed.

Lemma choose_step_shapes s eng inj left0 t : aligned s -> choose_step c s = Ok (eng, inj, left0, t) ->
  (forall r, In r eng -> length r = length (st_bins s)) /\ (forall r, In r inj -> length r = length (st_bins s)) /\
  length eng = ngroups c.
Proof.
  intros Ha H. apply choose_step_Ok in H as (ken & krel & kabs & dr & step0 & Hen & Hrel & Habs & -> & Hdr & Hinj & _ & _).
  assert (L1 : forall r, In r (sum_change_rates Rplus 0 (length (st_bins s)) krel (subgroups c)) -> length r = length (st_bins s)).
  { eapply sum_change_rates_length; eauto. apply al_rel; auto. }
  assert (L2 : forall r, In r (sum_change_rates Rplus 0 (length (st_bins s)) kabs (subgroups c)) -> length r = length (st_bins s)).
  { eapply sum_change_rates_length; eauto. apply al_abs; auto. }
  split; [eapply sum_change_rates_length; eauto; apply al_en; auto|]. split; [|apply sum_change_rates_rows].
  assert (L3 : forall r, In r dr -> length r = length (st_bins s)).
  { eapply bcast_rows_length; [|exact Hdr]. intros x y Hx Hy. apply map2_length_eq; auto. apply dens_g_rows; auto. }
  eapply bcast_rows_length; [|exact Hinj]. intros x y Hx Hy. apply map2_length_eq; auto.
Qed.

(** stages 1 and 2 *)
Lemma stage12_Ok e dens subs eng inj t ne ne' b n sg d eng' :
  stage12 np c e dens subs eng inj t ne = (ne', Ok (b, n, sg, d, eng')) ->
  ne' = d /\ update_distribution np b n = Ok d /\
  match method c with
  | Euler => apply_time_eval np c e dens subs (map (scale_bins t) eng) (map (scale t) inj) = Ok (b, n, sg) /\ eng' = eng
  | Heun => exists b1 n1 s1 d1 en1 ken1,
      apply_time_eval np c e dens subs (map (scale_bins t) eng) (map (scale t) inj) = Ok (b1, n1, s1) /\
      update_distribution np b1 n1 = Ok d1 /\
      recalc_new_rates shape2 b1 (en_fns c) d1 n1 s1 [] None = Ok en1 /\ known en1 = Ok ken1 /\
      eng' = map2 (map2 avg_bin) eng (sum_change_rates add_bin (0, 0) (length b1) ken1 (subgroups c)) /\
      apply_time_eval np c e dens s1 (map (scale_bins t) eng') (map (scale t) inj) = Ok (b, n, sg)
  end.
Proof.
  unfold stage12, set_distribution. intros H.
  apply bindS_Ok in H as (ne1 & [[b1 n1] s1] & H1 & H). apply lift_Ok in H1 as [-> H1].
  apply bindS_Ok in H as (ne2 & d1 & H2 & H).
  apply bindS_Ok in H2 as (ne3 & d1' & H3 & H2). apply lift_Ok in H3 as [-> H3].
  apply bindS_Ok in H2 as (ne4 & [] & H4 & H2). unfold put in H4. injection H4 as <-. unfold ret in H2. injection H2 as <- <-.
  destruct (method c).
  - unfold ret in H. injection H as <- <- <- <- <- <-. auto.
  - apply bindS_Ok in H as (ne5 & nn & H5 & H). unfold get in H5. injection H5 as <- <-.
    apply bindS_Ok in H as (ne6 & en1 & H6 & H). apply lift_Ok in H6 as [-> H6].
    apply bindS_Ok in H as (ne7 & eng1 & H7 & H). apply lift_Ok in H7 as [-> H7].
    unfold group_energy in H7. apply bind_Ok in H7 as (ken1 & Hk & H7). injection H7 as <-.
    apply bindS_Ok in H as (ne8 & [[b2 n2] s2] & H8 & H). apply lift_Ok in H8 as [-> H8].
    apply bindS_Ok in H as (ne9 & d2 & H9 & H).
    apply bindS_Ok in H9 as (ne10 & d2' & H10 & H9). apply lift_Ok in H10 as [-> H10].
    apply bindS_Ok in H9 as (ne11 & [] & H11 & H9). unfold put in H11. injection H11 as <-. unfold ret in H9. injection H9 as <- <-.
    unfold ret in H. injection H as <- <- <- <- <- <-. split; auto. split; auto.
    exists b1, n1, s1, d1', en1, ken1. auto 10.
Qed.

Lemma scale_rows t rows n : (forall r, In r rows -> length r = n) -> forall r, In r (map (scale t) rows) -> length r = n.
Proof. intros H r Hr. apply in_map_iff in Hr as (x & <- & Hx). unfold scale. rewrite map_length. auto. Qed.
Lemma scale_bins_rows t rows n : (forall r, In r rows -> length r = n) -> forall r, In r (map (scale_bins t) rows) -> length r = n.
Proof. intros H r Hr. apply in_map_iff in Hr as (x & <- & Hx). unfold scale_bins. rewrite map_length. auto. Qed.

Lemma stage12_spec e dens subs eng inj t ne ne' b n sg d eng' :
  stage12 np c e dens subs eng inj t ne = (ne', Ok (b, n, sg, d, eng')) ->
  length dens = length e -> subs <> [] -> (forall r, In r subs -> length r = length e) ->
  (forall r, In r eng -> length r = length e) -> (forall r, In r inj -> length r = length e) ->
  ne' = d /\ update_distribution np b n = Ok d /\ (forall r, In r eng' -> length r = length e) /\
  (exists s0, s0 <> [] /\ length s0 = length subs /\ (forall r, In r s0 -> length r = length e) /\
     apply_time_eval np c e dens s0 (map (scale_bins t) eng') (map (scale t) inj) = Ok (b, n, sg)) /\
  length b = length e /\ length n = length e /\ length sg = length subs /\
  (forall r, In r sg -> length r = length e) /\ all_pos (lbs b) /\ (forall v, In v n -> 0 <= v).
Proof.
  intros H L1 Hne L2 L3 L4. apply stage12_Ok in H as (-> & Hu & H).
  split; auto. split; auto.
  assert (X : exists s0, s0 <> [] /\ length s0 = length subs /\ (forall r, In r s0 -> length r = length e) /\ (forall r, In r eng' -> length r = length e) /\
     apply_time_eval np c e dens s0 (map (scale_bins t) eng') (map (scale t) inj) = Ok (b, n, sg)).
  { destruct (method c).
    - destruct H as [H ->]. exists subs. auto 10.
    - destruct H as (b1 & n1 & s1 & d1 & en1 & ken1 & H1 & H2 & H3 & H4 & He & H5).
      destruct (apply_time_eval_spec np Hnp c _ _ _ _ _ _ _ _ Hmec H1) as (Lb & Ln & Lsr & Ls & _ & _ & _); auto.
      { apply scale_bins_rows; auto. } { apply scale_rows; auto. }
      exists s1. split. { intros ->. destruct subs; [congruence|discriminate]. } split; auto. split; auto. split; auto.
      rewrite He. intros r Hr. apply In_map2 in Hr as (x & y & Hx & Hy & ->). apply map2_length_eq; auto.
      assert (Hf : rates_ok (en_fns c) (length b1) en1).
      { eapply fresh_rates_ok. eapply recalc_fresh; [left; reflexivity| | | |exact H3]; try lia; auto.
        - intros ->. destruct subs; [congruence|discriminate].
        - rewrite Lb; auto. }
      rewrite <- Lb. eapply sum_change_rates_length; eauto. }
  destruct X as (s0 & Hne0 & Ls0 & Lr0 & Leng' & H0). split; auto. split; [exists s0; auto|].
  destruct (apply_time_eval_spec np Hnp c _ _ _ _ _ _ _ _ Hmec H0) as (Lb & Ln & Lsr & Ls & P & N & _); auto.
  { apply scale_bins_rows; auto. } { apply scale_rows; auto. }
  rewrite <- Ls0. repeat split; auto.
Qed.

(** one pass *)
Lemma step_Ok s ne ne' s' : step np c s ne = (ne', Ok s') ->
  exists eng inj left0 t b n sg m left' mask pen pab prel,
    choose_step c s = Ok (eng, inj, left0, t) /\
    apply_time_changes np c (to_erg (mec2 c) (st_bins s)) (st_dens s) (st_subs s) eng inj t ne = (ne', Ok (b, n, sg, m)) /\
    (if optimize c then
       exists l1, remap m (map (fun x => ext_sub x t) left0) (Some (Some 0)) = Ok l1 /\
        let l2 := map2 (fun x (bb : bin) => if Reqb (snd bb) 0 then Some 0 else x) l1 b in
        mask = map (fun x => ext_ltb x t) l2 /\ left' = map2 (fun (m : bool) x => if m then Some 0 else x) mask l2
     else mask = map (fun _ => true) n /\ left' = st_left s) /\
    remap_dict m (st_en s) (Some None) = Ok pen /\ remap_dict m (st_abs s) (Some None) = Ok pab /\
    remap_dict m (st_rel s) (Some None) = Ok prel /\
    st_bins s' = update_bin_ub b mask /\ st_dens s' = n /\ st_subs s' = sg /\ st_left s' = left' /\
    st_elapsed s' = st_elapsed s + t /\
    recalc_new_rates shape2 (update_bin_ub b mask) (en_fns c) ne' n sg pen (Some mask) = Ok (st_en s') /\
    recalc_new_rates shape1 (lbs (update_bin_ub b mask)) (abs_fns c) ne' n sg pab (Some mask) = Ok (st_abs s') /\
    recalc_new_rates shape1 (lbs (update_bin_ub b mask)) (rel_fns c) ne' n sg prel (Some mask) = Ok (st_rel s').
Proof.
  unfold step. intros H.
  apply bindS_Ok in H as (ne1 & [[[eng inj] left0] t] & H1 & H). apply lift_Ok in H1 as [-> H1].
  apply bindS_Ok in H as (ne2 & [[[b n] sg] m] & H2 & H).
  apply bindS_Ok in H as (ne3 & [left' mask] & H3 & H). apply lift_Ok in H3 as [-> H3]. cbv zeta in H.
  apply bindS_Ok in H as (ne4 & nn & H4 & H). unfold get in H4. injection H4 as <- <-.
  apply bindS_Ok in H as (ne5 & en & H5 & H). apply lift_Ok in H5 as [-> H5]. apply bind_Ok in H5 as (pen & Hpen & H5).
  apply bindS_Ok in H as (ne6 & ab & H6 & H). apply lift_Ok in H6 as [-> H6]. apply bind_Ok in H6 as (pab & Hpab & H6).
  apply bindS_Ok in H as (ne7 & rel & H7 & H). apply lift_Ok in H7 as [-> H7]. apply bind_Ok in H7 as (prel & Hprel & H7).
  unfold ret in H. injection H as <- <-. simpl.
  exists eng, inj, left0, t, b, n, sg, m, left', mask, pen, pab, prel. repeat (split; auto).
  destruct (optimize c).
  - apply bind_Ok in H3 as (l1 & Hl1 & H3). cbv zeta in H3. injection H3 as <- <-. exists l1. auto.
  - injection H3 as <- <-. auto.
Qed.

Lemma apply_time_changes_Ok e dens subs eng inj t ne ne' b n sg m :
  apply_time_changes np c e dens subs eng inj t ne = (ne', Ok (b, n, sg, m)) ->
  exists b2 n2 s2 d eng', stage12 np c e dens subs eng inj t ne = (ne', Ok (b2, n2, s2, d, eng')) /\
    stage345 np c b2 n2 s2 d eng' = Ok (b, n, sg, m).
Proof.
  unfold apply_time_changes. intros H. apply bindS_Ok in H as (ne1 & [[[[b2 n2] s2] d] eng'] & H1 & H).
  apply lift_Ok in H as [-> H]. exists b2, n2, s2, d, eng'. auto.
Qed.

Lemma mask_length_step s b (n : list R) m left0 t (mask : list bool) left' : length b = length m -> length n = length m ->
  (if optimize c then
       exists l1, remap m (map (fun x => ext_sub x t) left0) (Some (Some 0)) = Ok l1 /\
        let l2 := map2 (fun x (bb : bin) => if Reqb (snd bb) 0 then Some 0 else x) l1 b in
        mask = map (fun x => ext_ltb x t) l2 /\ left' = map2 (fun (m : bool) x => if m then Some 0 else x) mask l2
     else mask = map (fun _ => true) n /\ left' = st_left s) ->
  @length bool mask = length b /\ (optimize c = true -> @length ext left' = length b).
Proof.
  intros Lb Ln H. destruct (optimize c).
  - destruct H as (l1 & Hl & -> & ->). apply remap_length in Hl. cbv zeta.
    assert (L2 : length (map2 (fun x (bb : bin) => if Reqb (snd bb) 0 then Some 0 else x) l1 b) = length b) by (apply map2_length_eq; [rewrite Lb; exact Hl|auto]).
    rewrite map_length. repeat split; auto. intros _. apply map2_length_eq; auto. rewrite map_length; auto.
  - destruct H as [-> ->]. rewrite map_length. repeat split; try lia; try discriminate.
Qed.

(** The invariant of one pass: alignment is kept and the stage results hold. *)
Lemma step_spec s ne ne' s' : aligned s -> step np c s ne = (ne', Ok s') ->
  aligned s' /\ length (st_subs s') = length (st_subs s) /\ (dist_nonneg np ne' -> forall v, In v (st_dens s') -> 0 <= v) /\
  (exists b n, update_distribution np b n = Ok ne') /\
  (bounds c = None -> all_pos (lbs (st_bins s')) /\ lg_incr np (lbs (st_bins s')) /\
                      (forall thr, merge_thr c = Some thr -> gaps_ok_but np 1 thr (lbs (st_bins s')))) /\
  (forall bd, bounds c = Some bd -> within bd (lbs (st_bins s')) /\
      (forall thr, merge_thr c = Some thr -> gaps_ok_but np 2 thr (lbs (st_bins s'))) /\
      (0 < fst bd -> all_pos (lbs (st_bins s'))) /\
      (0 < creep c -> lg np (snd bd) - lg np (snd bd / (1 + bin_size_factor)) < creep c -> adj Rlt (lbs (st_bins s')))).
Proof.
  intros Ha H. apply step_Ok in H as (eng & inj & left0 & t & b & n & sg & m & left' & mask & pen & pab & prel & Hc & Hat & Hmask & Hpen & Hpab & Hprel & Eb & En & Es & El & Et & Hen & Hab & Hrel).
  apply apply_time_changes_Ok in Hat as (b2 & n2 & s2 & d & eng' & H12 & H345).
  destruct (choose_step_shapes _ _ _ _ _ Ha Hc) as (Leng & Linj & _).
  assert (Le : length (to_erg (mec2 c) (st_bins s)) = length (st_bins s)) by apply map_length.
  destruct (stage12_spec _ _ _ _ _ _ _ _ _ _ _ _ _ H12) as (-> & Hu & Leng' & _ & Lb2 & Ln2 & Ls2 & Lr2 & P2 & N2); rewrite ?Le; auto.
  { apply Ha. } { apply al_subs in Ha; tauto. } { apply al_subs in Ha; tauto. }
  assert (Ln2' : length n2 = length b2) by lia.
  destruct (stage345_spec np Hnp c _ _ _ _ _ _ _ _ _ Ln2' P2 H345) as (T & Hs & Lbm & Hnb & Hbd).
  destruct (remap_subgroups_rows _ _ _ Hs) as (R1 & R2 & R3).
  assert (Lnm : length n = length m) by apply T.
  destruct (mask_length_step s b n m left0 t mask left' Lbm Lnm Hmask) as (Lmask & Lleft).
  rewrite Eb, lbs_update by auto.
  assert (Lub : length (update_bin_ub b mask) = length b) by (apply update_bin_ub_length; auto).
  destruct (remap_dict_ok (en_fns c) _ _ _ _ _ (al_en _ Ha) Hpen) as [Open _].
  destruct (remap_dict_ok (abs_fns c) _ _ _ _ _ (al_abs _ Ha) Hpab) as [Opab _].
  destruct (remap_dict_ok (rel_fns c) _ _ _ _ _ (al_rel _ Ha) Hprel) as [Oprel _].
  split; [|split; [|split; [|split; [|split]]]]; auto.
  - constructor; rewrite ?Eb, ?En, ?Es, ?El, ?Lub.
    + lia.
    + split; auto. intros r Hr. rewrite R3; auto.
    + rewrite <- Lub. eapply recalc_masked; [| | |exact Hen]; rewrite ?Lub; auto; try lia. rewrite Lbm; auto.
    + rewrite <- Lub, <- lbs_length. eapply recalc_masked; [| | |exact Hrel]; rewrite ?lbs_length, ?Lub; auto; try lia. rewrite Lbm; auto.
    + rewrite <- Lub, <- lbs_length. eapply recalc_masked; [| | |exact Hab]; rewrite ?lbs_length, ?Lub; auto; try lia. rewrite Lbm; auto.
    + auto.
  - rewrite Es. lia.
  - intros Hd v Hv. rewrite En in Hv. apply nth_error_In_iff in Hv as [j Hj].
    pose proof (nth_error_lt _ _ _ Hj). destruct (nth_error_Some_ex m j) as [z Hz]; [lia|].
    destruct (nth_error_Some_ex b j) as [bj Hbj]; [lia|].
    destruct T as (_ & _ & T). destruct (T _ _ _ _ Hz Hbj Hj) as [(_ & _ & ->)|(i & _ & _ & [[Hn _]|[_ ->]])]; [lra| |apply Hd].
    apply N2. eapply nth_error_In; eauto.
  - exists b2, n2; auto.
Qed.

(** ** initial state *)
Definition split_ok : Prop := forall rows, subinit c = Some rows -> rows <> [] /\ forall r, In r rows -> length r = length (g0 c).

Lemma initial_bins_length : length (initial_bins c) = length (g0 c).
Proof. unfold initial_bins. rewrite update_bin_ub_length; rewrite ?map_length; auto. Qed.

Lemma initial_bins_eq : initial_bins c = map (fun g => (g, g * (1 + bin_size_factor))) (g0 c).
Proof. unfold initial_bins, update_bin_ub. induction (g0 c); simpl; auto. f_equal; auto. Qed.

Lemma initial_subs_ok sg : split_ok -> initial_subs c = Ok sg -> sg <> [] /\ forall r, In r sg -> length r = length (g0 c).
Proof.
  unfold initial_subs, split_ok. intros Hs H. destruct (subgroups c) as [rows|].
  - destruct (subinit c) as [s|]. { injection H as <-. auto. }
    destruct rows as [|r0 rows]; [discriminate|]. injection H as <-. split; [discriminate|].
    intros r [<-|Hr]; [apply repeat_length|]. apply in_map_iff in Hr as (_ & <- & _). apply repeat_length.
  - injection H as <-. split; [discriminate|]. intros r [<-|[]]. apply repeat_length.
Qed.

Lemma initial_Ok ne s : initial_values np c ne = Ok s ->
  exists sg, initial_subs c = Ok sg /\
   let '(lb', dens) := dist_call np ne (g0 c) in
   st_bins s = initial_bins c /\ st_dens s = dens /\ st_subs s = sg /\ st_elapsed s = 0 /\
   st_left s = map (fun _ => Some 0) (initial_bins c) /\
   recalc_new_rates shape2 (initial_bins c) (en_fns c) ne dens sg [] None = Ok (st_en s) /\
   recalc_new_rates shape1 lb' (rel_fns c) ne dens sg [] None = Ok (st_rel s) /\
   recalc_new_rates shape1 lb' (abs_fns c) ne dens sg [] None = Ok (st_abs s).
Proof.
  unfold initial_values. destruct (dist_call np ne (g0 c)) as [lb' dens]. intros H.
  apply bind_Ok in H as (sg & Hs & H). apply bind_Ok in H as (en & Hen & H). apply bind_Ok in H as (rel & Hrel & H).
  apply bind_Ok in H as (ab & Hab & H). injection H as <-. simpl. exists sg. auto 12.
Qed.

Lemma initial_aligned ne s : split_ok -> initial_values np c ne = Ok s ->
  aligned s /\ st_elapsed s = 0 /\ lbs (st_bins s) = g0 c /\ no_nan (st_en s) /\ no_nan (st_rel s) /\ no_nan (st_abs s).
Proof.
  intros Hsp H. apply initial_Ok in H as (sg & Hs & H).
  pose proof (dist_call_length np ne (g0 c)) as [L1 L2].
  destruct (dist_call np ne (g0 c)) as [lb' dens]. simpl in L1, L2.
  destruct H as (Eb & Ed & Es & Et & El & Hen & Hrel & Hab).
  destruct (initial_subs_ok _ Hsp Hs) as [Hne Hrows]. pose proof initial_bins_length as Lb.
  assert (F1 : fresh_rates shape2 (en_fns c) ne (initial_bins c) dens sg (st_en s)).
  { eapply recalc_fresh; [left; reflexivity| | | |exact Hen]; auto; try lia. intros; rewrite Lb; auto. }
  assert (F2 : fresh_rates shape1 (rel_fns c) ne lb' dens sg (st_rel s)).
  { eapply recalc_fresh; [left; reflexivity| | | |exact Hrel]; auto; try lia. intros; rewrite L1; auto. }
  assert (F3 : fresh_rates shape1 (abs_fns c) ne lb' dens sg (st_abs s)).
  { eapply recalc_fresh; [left; reflexivity| | | |exact Hab]; auto; try lia. intros; rewrite L1; auto. }
  apply fresh_rates_ok in F1 as [F1 N1]. apply fresh_rates_ok in F2 as [F2 N2]. apply fresh_rates_ok in F3 as [F3 N3].
  rewrite L1 in *. split; [constructor; rewrite ?Eb, ?Ed, ?Es, ?El, ?Lb, ?map_length in *; auto; try lia|].
  split; auto. split; auto. rewrite Eb, initial_bins_eq. unfold lbs. rewrite map_map. simpl. apply map_id.
Qed.

(** ** the loop *)
Lemma loop_inv (I : dist -> tstate -> Prop) :
  (forall s ne ne' s', I ne s -> st_elapsed s < total c -> step np c s ne = (ne', Ok s') -> I ne' s') ->
  forall fuel s ne ne' tr r, I ne s -> loop np c fuel s ne = (ne', tr, r) ->
    (forall x, In x tr -> exists d, I d x) /\
    (forall sf, r = Ok sf -> I ne' sf /\ total c <= st_elapsed sf /\ (tr = [] /\ sf = s \/ exists tr', tr = tr' ++ [sf])).
Proof.
  intros Hstep fuel. induction fuel as [|fuel IH]; intros s ne ne' tr r HI H; simpl in H.
  - destruct (Rltb_spec (st_elapsed s) (total c)).
    + injection H as <- <- <-. split; [intros x []|discriminate].
    + injection H as <- <- <-. split; [intros x []|]. intros sf E; injection E as <-. repeat split; auto. lra.
  - destruct (Rltb_spec (st_elapsed s) (total c)) as [Hlt|Hge].
    + destruct (step np c s ne) as [ne1 [s1|e]] eqn:Es.
      * destruct (loop np c fuel s1 ne1) as [[ne2 tr2] r2] eqn:El. injection H as <- <- <-.
        pose proof (Hstep _ _ _ _ HI Hlt Es) as HI1. destruct (IH _ _ _ _ _ HI1 El) as [H1 H2]. split.
        -- intros x [<-|Hx]; eauto.
        -- intros sf E. destruct (H2 sf E) as (A & B & [[-> ->]|[tr' ->]]); (split; [auto|split; [auto|]]); right.
           ++ exists []; auto.
           ++ exists (s1 :: tr'); auto.
      * injection H as <- <- <-. split; [intros x []|discriminate].
    + injection H as <- <- <-. split; [intros x []|]. intros sf E; injection E as <-. repeat split; auto. lra.
Qed.

End Loop.
