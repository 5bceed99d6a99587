(** Runs whose rates are functions of the Lorentz factor: any number of functions
    of each kind, one subgroup, no bounds, no merging, a fixed step (C91). *)
From Verif Require Import Base TEUtils TimeEvolution ListFacts TEIndexFacts TEStageFacts TEStepFacts TELoopFacts TEInv TEForward TEZero Spec_TE TEShift Spec_Move.

Lemma vsum_map {A B} (add : A -> A -> A) (gs : list B) : forall (fs : list (B -> A)) (z : B -> A),
  fold_left (map2 add) (map (fun f => map f gs) fs) (map z gs) = map (fun g => fold_left (fun a f => add a (f g)) fs (z g)) gs.
Proof.
  induction fs as [|f fs IH]; intros z; cbn [map fold_left]; auto.
  rewrite TEShift.map2_map_l, map2_map_r, map2_diag. rewrite IH. auto.
Qed.
Lemma repeat_map {A B} (x : A) (gs : list B) : repeat x (length gs) = map (fun _ => x) gs.
Proof. induction gs; simpl; auto. f_equal; auto. Qed.
Lemma fold_total (l : list named) g : forall z, fold_left (fun a f => a + f g) (map snd l) z = z + total_rate l g.
Proof. induction l as [|kf l IH]; intros z; unfold total_rate; simpl; [lra|]. rewrite IH. unfold total_rate. ring. Qed.
Lemma fold_bins (l : list named) g h : forall z, fold_left (fun a (f : R -> bin) => add_bin a (f g)) (map (fun kf : named => fun g => (snd kf g, snd kf (h g))) l) z
  = (fst z + total_rate l g, snd z + total_rate l (h g)).
Proof. induction l as [|kf l IH]; intros z; unfold total_rate; simpl; [destruct z; simpl; f_equal; lra|]. rewrite IH. unfold total_rate. simpl. f_equal; ring. Qed.

Lemma pairs_interlace (e : R -> R) (b : list bin) : pairs (map e (interlace b)) = Some (map (fun x => (e (fst x), e (snd x))) b).
Proof. induction b as [|x b IH]; auto. simpl in *. rewrite IH. auto. Qed.

Lemma scatter_full {A B} (msk : list bool) (p v : list A) (x : list B) : msk = map (fun _ => true) x -> length p = length x -> length v = length x -> scatter msk p v = v.
Proof. intros -> L1 L2. apply scatter_all; congruence. Qed.

Lemma mapM_ok {A B} (f : A -> res B) (g : A -> B) l : (forall a, In a l -> f a = Ok (g a)) -> mapM f l = Ok (map g l).
Proof. induction l as [|a l IH]; simpl; intros H; auto. rewrite H by auto. simpl. rewrite IH by auto. auto. Qed.

Lemma lookup_map {A B} (f : A -> B) (name : string) (l : list (string * A)) : (exists a, In (name, a) l) ->
  exists a, In (name, a) l /\ lookup name (map (fun kv => (fst kv, f (snd kv))) l) = Some (f a).
Proof.
  induction l as [|[k a0] l IH]; intros [a H]; [destruct H|]. simpl. destruct (String.eqb_spec name k) as [->|Hn].
  - exists a0. split; [left; auto|auto].
  - destruct IH as (a' & H1 & H2). { exists a. destruct H as [H|H]; auto. congruence. }
    exists a'. auto.
Qed.

Section Move.
Variable np : numpy.
Hypothesis Hnp : numpy_ok np.
Variables (T t m : R) (ens rels abss : list named) (gs0 : list R) (me : method_t).
Hypothesis Hm : 0 < m.

Let c := rates_cfg T t ens rels abss m gs0 me.
Notation E := (total_rate ens).
Notation Rl := (total_rate rels).
Notation Ab := (total_rate abss).
Let hi (g : R) : R := g * (1 + bin_size_factor).

Definition mv_state (left : list (option R)) (gs ns : list R) (el : R) : tstate :=
  {| st_bins := map mk_bin gs; st_dens := ns; st_subs := [repeat 1 (length gs)];
     st_en := map (fun kf : named => (fst kf, map (fun g => Some (snd kf g, snd kf (hi g))) gs)) ens;
     st_rel := map (fun kf : named => (fst kf, map (fun g => Some (snd kf g)) gs)) rels;
     st_abs := map (fun kf : named => (fst kf, map (fun g => Some (snd kf g)) gs)) abss;
     st_left := left; st_elapsed := el |}.

Lemma known_map {A} (l : list named) (F : named -> list A) : known (map (fun kf : named => (fst kf, map Some (F kf))) l) = Ok (map (fun kf : named => (fst kf, F kf)) l).
Proof.
  unfold known. induction l as [|kf l IH]; simpl; auto. rewrite (proj2 (all_some_spec (map Some (F kf)) (F kf))) by auto. simpl. rewrite IH. auto.
Qed.

Definition en_of (gs : list R) : list bin := map (fun g => (0 + E g, 0 + E (hi g))) gs.
Lemma en_sum gs : vsum add_bin (0, 0) (length gs) (map snd (map (fun kf : named => (fst kf, map (fun g => (snd kf g, snd kf (hi g))) gs)) ens)) = en_of gs.
Proof.
  unfold vsum. rewrite repeat_map, !map_map. simpl.
  rewrite <- (map_map (fun kf : named => fun g => (snd kf g, snd kf (hi g))) (fun f => map f gs)). rewrite vsum_map. apply map_ext. intros g. rewrite fold_bins. auto.
Qed.
Lemma inj_sum (l : list named) gs : vsum Rplus 0 (length gs) (map snd (map (fun kf : named => (fst kf, map (snd kf) gs)) l)) = map (fun g => 0 + total_rate l g) gs.
Proof.
  unfold vsum. rewrite repeat_map, !map_map. simpl. pose proof (map_map (@snd string (R -> R)) (fun f => map f gs) l) as M. change (map (fun x : string * (R -> R) => map (snd x) gs) l) with (map (fun x : named => map (fun g => snd x g) gs) l) in M.
  transitivity (fold_left (map2 Rplus) (map (fun f => map f gs) (map snd l)) (map (fun _ => 0) gs)); [f_equal; symmetry; apply M|].
  rewrite vsum_map. apply map_ext. intros g. apply fold_total.
Qed.

Lemma group_en gs : group_energy c (length gs) (map (fun kf : named => (fst kf, map (fun g => Some (snd kf g, snd kf (hi g))) gs)) ens) = Ok [en_of gs].
Proof.
  unfold group_energy. replace (map (fun kf : named => (fst kf, map (fun g => Some (snd kf g, snd kf (hi g))) gs)) ens) with (map (fun kf : named => (fst kf, map Some (map (fun g => (snd kf g, snd kf (hi g))) gs))) ens).
  2: { apply map_ext. intros kf. rewrite map_map. auto. }
  rewrite known_map. cbn [bind]. unfold sum_change_rates. simpl subgroups. rewrite en_sum. auto.
Qed.
Lemma group_in (l : list named) gs : group_injection c (length gs) (map (fun kf : named => (fst kf, map (fun g => Some (snd kf g)) gs)) l) = Ok [map (fun g => 0 + total_rate l g) gs].
Proof.
  unfold group_injection. replace (map (fun kf : named => (fst kf, map (fun g => Some (snd kf g)) gs)) l) with (map (fun kf : named => (fst kf, map Some (map (snd kf) gs))) l).
  2: { apply map_ext. intros kf. rewrite map_map. auto. }
  rewrite known_map. cbn [bind]. unfold sum_change_rates. simpl subgroups. rewrite inj_sum. auto.
Qed.

Definition inj_of (gs ns : list R) : list R := map2 (fun g v => v * Rl g + Ab g) gs ns.

Lemma mv_choose left gs ns el : length ns = length gs ->
  choose_step c (mv_state left gs ns el) = Ok ([en_of gs], [inj_of gs ns], left, if Rltb (T - el) t then T - el else t).
Proof.
  intros L. unfold choose_step, mv_state. simpl st_bins. simpl st_en. simpl st_rel. simpl st_abs. simpl st_dens. simpl st_subs. simpl st_left. simpl st_elapsed.
  rewrite map_length, group_en. cbn [bind]. rewrite !group_in. cbn [bind]. unfold bcast_rows, to_densities_grouped. simpl length. simpl Nat.eqb. cbn [bind]. simpl map2.
  rewrite (map2_const_n Rmult ns 1) by auto.
  replace (map2 Rplus (map2 Rmult (map (fun a => a * 1) ns) (map (fun g => 0 + Rl g) gs)) (map (fun g => 0 + Ab g) gs)) with (inj_of gs ns).
  2: { unfold inj_of. clear - L. revert ns L. induction gs as [|g gs IH]; intros [|v ns] L; simpl; auto; try discriminate. rewrite IH by (simpl in L; congruence). f_equal. ring. }
  reflexivity.
Qed.

(** one pass of _apply_time_eval with edge rates [lo], [up] *)
Definition pass_g (u : R) (lo : R -> R) (g : R) : R := g + lo g * u / m.
Definition pass_h (u : R) (up : R -> R) (g : R) : R := hi g + up g * u / m.
Definition pass_n (u : R) (lo up : R -> R) (g v : R) : R :=
  v * ((hi g - g) / (pass_h u up g - pass_g u lo g)) + (v * Rl g + Ab g) * u.

Lemma mv_eval u lo up gs ns : length ns = length gs -> gs <> [] -> all_pos gs ->
  (forall g, In g gs -> 0 < pass_g u lo g < pass_h u up g) ->
  (forall v, In v (map2 (pass_n u lo up) gs ns) -> 0 <= v) ->
  apply_time_eval np c (to_erg m (map mk_bin gs)) ns [repeat 1 (length gs)] (map (scale_bins u) [map (fun g => (lo g, up g)) gs]) (map (scale u) [inj_of gs ns]) =
  Ok (map (fun g => (pass_g u lo g, pass_h u up g)) gs, map2 (pass_n u lo up) gs ns, [repeat 1 (length gs)]).
Proof.
  intros L Hne P Hp Hpos. unfold apply_time_eval.
  set (ns1 := map2 (fun g v => v * ((hi g - g) / (pass_h u up g - pass_g u lo g))) gs ns).
  assert (G : recalc_groups c (to_erg m (map mk_bin gs)) ns [repeat 1 (length gs)] (map (scale_bins u) [map (fun g => (lo g, up g)) gs]) =
     Ok [(map (fun g => (pass_g u lo g, pass_h u up g)) gs, ns1)]).
  { unfold recalc_groups. cbn [map bind]. change (mec2 c) with m. unfold recalc_gamma_bins_and_density, recalc_energy_bins_and_density_increase.
    set (e := to_erg m (map mk_bin gs)).
    assert (Ee : e = map (fun g => (g * m, hi g * m)) gs) by (unfold e, to_erg; rewrite map_map; auto).
    set (e' := map (fun g => (g * m + lo g * u, hi g * m + up g * u)) gs).
    assert (En : map2 (fun b0 c0 : bin => (fst b0 + fst c0, snd b0 + snd c0)) e (scale_bins u (map (fun g => (lo g, up g)) gs)) = e').
    { unfold scale_bins, e'. rewrite map_map, Ee, TEShift.map2_map_l, map2_map_r, map2_diag. auto. }
    rewrite En.
    assert (Hlo : forall g, g * m + lo g * u = pass_g u lo g * m) by (intros g; unfold pass_g; field; lra).
    assert (Hup : forall g, hi g * m + up g * u = pass_h u up g * m) by (intros g; unfold pass_h; field; lra).
    assert (He : forall x, In x e' -> 0 < fst x < snd x).
    { intros x Hx. apply in_map_iff in Hx as (g & <- & Hg). simpl. rewrite Hlo, Hup. destruct (Hp g Hg). split; [apply Rmult_lt_0_compat; auto|apply Rmult_lt_compat_r; auto]. }
    assert (X : forall p : bin -> bool, (forall x, In x e' -> p x = false) -> existsb p e' = false).
    { intros p Hpp. apply not_true_iff_false. rewrite existsb_exists. intros (x & Hx & Hxt). rewrite Hpp in Hxt; [discriminate|auto]. }
    rewrite (X (fun b0 => (Rleb (fst b0) 0 || Rleb (snd b0) 0)%bool)).
    2: { intros x Hx. apply He in Hx. apply orb_false_iff. split; apply Rleb_false; lra. }
    rewrite (X (fun b0 => Rltb (snd b0 - fst b0) 0)). 2: { intros x Hx. apply He in Hx. apply Rltb_false; lra. }
    rewrite (X (fun b0 => Reqb (snd b0 - fst b0) 0)). 2: { intros x Hx. apply He in Hx. apply Reqb_false; lra. }
    cbn [bind].
    assert (Eb : map (fun x : bin => (fst x / m, snd x / m)) e' = map (fun g => (pass_g u lo g, pass_h u up g)) gs).
    { unfold e'. rewrite map_map. apply map_ext. intros g. simpl. rewrite Hlo, Hup. f_equal; field; lra. }
    rewrite Eb.
    assert (Ei : map2 Rmult (map2 Rmult ns (repeat 1 (length gs))) (map2 (fun b0 b' : bin => (snd b0 - fst b0) / (snd b' - fst b')) e e') = ns1).
    { rewrite Ee. unfold e', ns1. rewrite TEShift.map2_map_l, map2_map_r, map2_diag. rewrite (map2_const_n Rmult ns 1) by auto.
      clear - L Hm Hp Hlo Hup. revert ns L. induction gs as [|g l IH]; intros [|v ns] L; simpl; auto; try discriminate.
      rewrite IH by (simpl in *; auto; congruence). f_equal. rewrite Hlo, Hup. destruct (Hp g); [simpl; auto|]. field. nra. }
    match goal with |- context [map2 Rmult (map2 Rmult ns _) ?w] => change w with (map2 (fun b0 b' : bin => (snd b0 - fst b0) / (snd b' - fst b')) e e') end.
    rewrite Ei. reflexivity. }
  rewrite G. cbn [bind map inject_groups].
  assert (Ea : map2 Rplus ns1 (scale u (inj_of gs ns)) = map2 (pass_n u lo up) gs ns).
  { unfold ns1, inj_of, scale. clear. revert ns. induction gs as [|g l IH]; intros [|v ns]; simpl; auto. f_equal. auto. }
  rewrite Ea.
  assert (Ex : existsb (fun v => Rltb v 0) (map2 (pass_n u lo up) gs ns) = false).
  { apply not_true_iff_false. rewrite existsb_exists. intros (v & Hv & Hlt). apply Rltb_true in Hlt. apply Hpos in Hv. lra. }
  rewrite Ex. cbn [bind regrid_groups]. set (nn := map2 (pass_n u lo up) gs ns) in *.
  assert (Ln : length nn = length ns) by (unfold nn; rewrite map2_length; lia).
  unfold col_sum. cbn [fold_left].
  assert (Ez : map2 Rplus (repeat 0 (length ns)) nn = nn).
  { rewrite <- Ln. clear. induction nn as [|v l IH]; simpl; auto. rewrite IH, Rplus_0_l. auto. }
  rewrite Ez. cbn [map2]. f_equal. f_equal. f_equal.
  unfold new_row. rewrite <- L, <- Ln. clear. induction nn as [|v l IH]; simpl; auto. rewrite IH. f_equal.
  destruct (Reqb_spec v 0); auto. field. auto.
Qed.

Lemma recalc_fn2 (b : list bin) (fns : list named) ne dens prev msk : 
  (msk = None \/ (msk = Some (map (fun _ => true) b) /\ forall kf, In kf fns -> exists p, lookup (fst kf) prev = Some p /\ length p = length b)) ->
  recalc_new_rates shape2 b (map (fun kf : named => (fst kf, rate_fn (snd kf))) fns) ne dens [repeat 1 (length b)] prev msk
  = Ok (map (fun kf : named => (fst kf, map (fun x : bin => Some (snd kf (fst x), snd kf (snd x))) b)) fns).
Proof.
  intros H. unfold recalc_new_rates.
  assert (Em : match msk with None => map (fun _ => true) b | Some x => x end = map (fun _ => true) b) by (destruct H as [->|[-> _]]; auto).
  rewrite Em. rewrite select_all by auto.
  destruct (remap_subgroups_mask (map (fun _ : bin => true) b) [repeat 1 (length b)]) as [sm ->].
  { discriminate. } { intros x [<-|[]]. rewrite repeat_length, map_length. auto. }
  cbn [bind]. simpl flat.
  assert (CF : forall f ds sb, call_fn shape2 (rate_fn f) ne {| fp_gamma := interlace b; fp_densities := ds; fp_subgroups := sb |} (length b) =
     Ok (map (fun x : bin => Some (f (fst x), f (snd x))) b)).
  { intros. unfold call_fn, rate_fn. cbn [bind fp_gamma]. simpl unflat. rewrite pairs_interlace, map_length, Nat.eqb_refl, map_map. auto. }
  clear Em. induction fns as [|kf fns IH]; cbn [map mapM]; auto. cbn [fst snd]. rewrite CF.
  destruct H as [->|[-> H]].
  - cbn [bind] in IH |- *. rewrite IH by auto. auto.
  - destruct (H kf) as (p & Hp & Lp); [simpl; auto|]. rewrite Hp. cbn [bind] in IH |- *. rewrite IH by (right; split; auto; intros; apply H; simpl; auto). cbn [bind].
    rewrite (scatter_full _ p (map (fun x : bin => Some (snd kf (fst x), snd kf (snd x))) b) b); auto. rewrite map_length; auto.
Qed.
Lemma recalc_fn1 (b : list R) (fns : list named) ne dens prev msk : 
  (msk = None \/ (msk = Some (map (fun _ => true) b) /\ forall kf, In kf fns -> exists p, lookup (fst kf) prev = Some p /\ length p = length b)) ->
  recalc_new_rates shape1 b (map (fun kf : named => (fst kf, rate_fn (snd kf))) fns) ne dens [repeat 1 (length b)] prev msk
  = Ok (map (fun kf : named => (fst kf, map (fun x => Some (snd kf x)) b)) fns).
Proof.
  intros H. unfold recalc_new_rates.
  assert (Em : match msk with None => map (fun _ => true) b | Some x => x end = map (fun _ => true) b) by (destruct H as [->|[-> _]]; auto).
  rewrite Em. rewrite select_all by auto.
  destruct (remap_subgroups_mask (map (fun _ : R => true) b) [repeat 1 (length b)]) as [sm ->].
  { discriminate. } { intros x [<-|[]]. rewrite repeat_length, map_length. auto. }
  cbn [bind]. simpl flat.
  assert (CF : forall f ds sb, call_fn shape1 (rate_fn f) ne {| fp_gamma := b; fp_densities := ds; fp_subgroups := sb |} (length b) =
     Ok (map (fun x => Some (f x)) b)).
  { intros. unfold call_fn, rate_fn. cbn [bind fp_gamma shape1 unflat]. rewrite map_length, Nat.eqb_refl, map_map. auto. }
  clear Em. induction fns as [|kf fns IH]; cbn [map mapM]; auto. cbn [fst snd]. rewrite CF.
  destruct H as [->|[-> H]].
  - cbn [bind] in IH |- *. rewrite IH by auto. auto.
  - destruct (H kf) as (p & Hp & Lp); [simpl; auto|]. rewrite Hp. cbn [bind] in IH |- *. rewrite IH by (right; split; auto; intros; apply H; simpl; auto). cbn [bind].
    rewrite (scatter_full _ p (map (fun x => Some (snd kf x)) b) b); auto. rewrite map_length; auto.
Qed.

(** the edge rates a step uses *)
Definition lo_rate (u : R) (g : R) : R :=
  match me with Euler => 0 + E g | Heun => (0 + E g + (0 + E (pass_g u (fun g => 0 + E g) g))) / 2 end.
Definition up_rate (u : R) (g : R) : R :=
  match me with Euler => 0 + E (hi g) | Heun => (0 + E (hi g) + (0 + E (pass_h u (fun g => 0 + E (hi g)) g))) / 2 end.
Definition mv_g (u g : R) : R := pass_g u (lo_rate u) g.
Definition mv_n (u g v : R) : R := pass_n u (lo_rate u) (up_rate u) g v.

(** a pass with these edge rates goes through *)
Definition passes (u : R) (lo up : R -> R) (gs ns : list R) : Prop :=
  (forall g, In g gs -> 0 < pass_g u lo g < pass_h u up g) /\ lg_incr np (map (pass_g u lo) gs) /\
  (forall v, In v (map2 (pass_n u lo up) gs ns) -> 0 <= v) /\ enough (map2 (pass_n u lo up) gs ns).
Definition goes (u : R) (gs ns : list R) : Prop :=
  passes u (fun g => 0 + E g) (fun g => 0 + E (hi g)) gs ns /\ passes u (lo_rate u) (up_rate u) gs ns.

Lemma passes_update u lo up gs ns : length ns = length gs -> passes u lo up gs ns ->
  exists d, update_distribution np (map (fun g => (pass_g u lo g, pass_h u up g)) gs) (map2 (pass_n u lo up) gs ns) = Ok d.
Proof.
  intros L (P1 & P2 & P3 & P4). assert (Eb : lbs (map (fun g => (pass_g u lo g, pass_h u up g)) gs) = map (pass_g u lo) gs) by (unfold lbs; rewrite map_map; auto).
  apply update_ok; auto; try rewrite Eb; auto.
  - intros v Hv. apply in_map_iff in Hv as (g & <- & Hg). apply P1; auto.
  - rewrite map2_length, map_length. lia.
Qed.

Lemma remap_dict_map {A} N (l : list named) (F : named -> list (option A)) dflt : (forall kf, In kf l -> length (F kf) = N) ->
  remap_dict (arange N) (map (fun kf : named => (fst kf, F kf)) l) dflt = Ok (map (fun kf : named => (fst kf, F kf)) l).
Proof.
  intros H. unfold remap_dict. induction l as [|kf l IH]; simpl; auto.
  pose proof (remap_arange (F kf) dflt) as X. rewrite H in X by (simpl; auto). rewrite X. simpl. rewrite IH by (intros; apply H; simpl; auto). auto.
Qed.

Lemma mv_step left gs ns el ne : length ns = length gs -> gs <> [] -> all_pos gs ->
  let u := if Rltb (T - el) t then T - el else t in
  goes u gs ns ->
  exists d, step np c (mv_state left gs ns el) ne = (d, Ok (mv_state left (map (mv_g u) gs) (map2 (mv_n u) gs ns) (el + u))).
Proof.
  intros L Hne P u (Ge & Gl). destruct (passes_update u _ _ gs ns L Ge) as [d1 Hd1]. destruct (passes_update u _ _ gs ns L Gl) as [d2 Hd2].
  set (b2 := map (fun g => (pass_g u (lo_rate u) g, pass_h u (up_rate u) g)) gs) in *. set (ns' := map2 (pass_n u (lo_rate u) (up_rate u)) gs ns) in *.
  assert (Lb2 : length b2 = length gs) by apply map_length.
  assert (Ln' : length ns' = length gs) by (unfold ns'; rewrite map2_length; lia).
  assert (Lbs2 : lbs b2 = map (mv_g u) gs) by (unfold lbs, b2; rewrite map_map; auto).
  exists d2.
  assert (H12 : exists eng', stage12 np c (to_erg m (map mk_bin gs)) ns [repeat 1 (length gs)] [en_of gs] [inj_of gs ns] u ne
     = (d2, Ok (b2, ns', [repeat 1 (length gs)], d2, eng'))).
  { unfold stage12. unfold en_of at 1. rewrite mv_eval by (auto; apply Ge). unfold bindS at 1. unfold lift at 1. unfold set_distribution at 1.
    rewrite Hd1. unfold bindS at 2. unfold lift at 1. unfold bindS at 2. unfold put, ret. unfold bindS at 1. change (method c) with me.
    assert (Hme : me = Euler \/ me = Heun) by (destruct me; auto).
    destruct Hme as [Hme|Hme]; rewrite Hme.
    { unfold b2, ns', lo_rate, up_rate in *. rewrite Hme in *. assert (X : Ok d1 = Ok d2) by (rewrite <- Hd1; exact Hd2). assert (d1 = d2) by congruence. subst d2. eexists. reflexivity. }
    unfold bindS at 1. unfold get at 1. unfold bindS at 1. unfold lift at 1. change (en_fns c) with (map (fun kf : named => (fst kf, rate_fn (snd kf))) ens).
    set (b1 := map (fun g => (pass_g u (fun g0 => 0 + E g0) g, pass_h u (fun g0 => 0 + E (hi g0)) g)) gs).
    assert (Lb1 : length b1 = length gs) by apply map_length.
    assert (R1 : recalc_new_rates shape2 b1 (map (fun kf : named => (fst kf, rate_fn (snd kf))) ens) d1
       (map2 (pass_n u (fun g => 0 + E g) (fun g => 0 + E (hi g))) gs ns) [repeat 1 (length gs)] [] None =
       Ok (map (fun kf : named => (fst kf, map (fun x : bin => Some (snd kf (fst x), snd kf (snd x))) b1)) ens)).
    { rewrite <- Lb1. apply recalc_fn2. auto. }
    rewrite R1. unfold bindS at 1. unfold lift at 1.
    assert (R2 : group_energy c (length b1) (map (fun kf : named => (fst kf, map (fun x : bin => Some (snd kf (fst x), snd kf (snd x))) b1)) ens) =
       Ok [map (fun x : bin => (0 + E (fst x), 0 + E (snd x))) b1]).
    { unfold group_energy. replace (map (fun kf : named => (fst kf, map (fun x : bin => Some (snd kf (fst x), snd kf (snd x))) b1)) ens)
        with (map (fun kf : named => (fst kf, map Some (map (fun x : bin => (snd kf (fst x), snd kf (snd x))) b1))) ens).
      2: { apply map_ext. intros kf. rewrite map_map. auto. }
      rewrite known_map. cbn [bind]. unfold sum_change_rates. simpl subgroups. unfold vsum. rewrite repeat_map, !map_map. simpl.
      rewrite <- (map_map (fun kf : named => fun x : bin => (snd kf (fst x), snd kf (snd x))) (fun f => map f b1)). rewrite vsum_map.
      f_equal. f_equal. apply map_ext. intros x. clear.
      assert (G : forall z, fold_left (fun a (f : bin -> bin) => add_bin a (f x)) (map (fun kf : named => fun x : bin => (snd kf (fst x), snd kf (snd x))) ens) z
        = (fst z + E (fst x), snd z + E (snd x))).
      { induction ens as [|kf l IH]; intros z; unfold total_rate; simpl; [destruct z; simpl; f_equal; lra|]. rewrite IH. unfold total_rate. simpl. f_equal; ring. }
      rewrite G. auto. }
    rewrite R2. cbn [map2].
    assert (Ea : map2 avg_bin (en_of gs) (map (fun x : bin => (0 + E (fst x), 0 + E (snd x))) b1) = map (fun g => ((fun g => (0 + E g + (0 + E (pass_g u (fun g => 0 + E g) g))) / 2) g,
        (fun g => (0 + E (hi g) + (0 + E (pass_h u (fun g => 0 + E (hi g)) g))) / 2) g)) gs).
    { unfold en_of, b1. rewrite map_map, TEShift.map2_map_l, map2_map_r, map2_diag. auto. }
    rewrite Ea. unfold bindS at 1. unfold lift at 1. unfold b2, ns', lo_rate, up_rate in *. rewrite Hme in *. rewrite mv_eval by (auto; apply Gl).
    unfold bindS at 1. unfold set_distribution. rewrite Hd2. eexists. reflexivity. }
  destruct H12 as [eng' H12].
  assert (P2 : all_pos (map (mv_g u) gs)) by (intros v Hv; apply in_map_iff in Hv as (g & <- & Hg); apply Gl; auto).
  assert (H345 : stage345 np c b2 ns' [repeat 1 (length gs)] d2 eng' = Ok (b2, ns', [repeat 1 (length gs)], arange (length gs))).
  { rewrite <- Lb2. apply stage345_id; auto; [|congruence|discriminate|intros x [<-|[]]; apply repeat_length].
    split; [rewrite Lbs2; auto|]. split; [rewrite Lbs2; apply Gl|]. split; intros x Hx; discriminate. }
  unfold step. unfold bindS at 1. unfold lift at 1. rewrite mv_choose by auto. fold u. unfold bindS at 1. unfold apply_time_changes.
  unfold bindS at 1. unfold mv_state at 1 2 3. simpl st_bins. simpl st_dens. simpl st_subs. simpl mec2. rewrite H12. unfold lift at 1. rewrite H345.
  simpl optimize. unfold bindS at 1. unfold lift at 1. cbv iota beta zeta.
  set (gs' := map (mv_g u) gs) in *.
  assert (Lg : length gs' = length gs) by apply map_length.
  assert (Eu : update_bin_ub b2 (map (fun _ : R => true) ns') = map mk_bin gs').
  { unfold gs', b2. rewrite map_map. unfold update_bin_ub. generalize ns' Ln'. clear. induction gs as [|g l IH]; intros [|v nn] Ln; simpl; auto; try discriminate. rewrite IH by (simpl in Ln; congruence). auto. }
  rewrite Eu. unfold bindS at 1. unfold get at 1.
  assert (Mk : map (fun _ : R => true) ns' = map (fun _ => true) (map mk_bin gs')).
  { rewrite map_map. assert (X : length ns' = length gs') by congruence. generalize ns' X. generalize gs'. clear. intros l0. induction l0 as [|g l IH]; intros [|v nn] X; simpl; auto; try discriminate. f_equal. auto. }
  assert (Mk1 : map (fun _ : R => true) ns' = map (fun _ => true) gs') by (rewrite Mk, map_map; auto).
  unfold mv_state at 1 2 3. simpl st_en. simpl st_rel. simpl st_abs.
  unfold bindS at 1. unfold lift at 1.
  rewrite (remap_dict_map (length gs) ens (fun kf => map (fun g => Some (snd kf g, snd kf (hi g))) gs)) by (intros; apply map_length). cbn [bind].
  assert (Lmk : length gs = length (map mk_bin gs')) by (rewrite map_length; auto).
  change (en_fns c) with (map (fun kf : named => (fst kf, rate_fn (snd kf))) ens). change (rel_fns c) with (map (fun kf : named => (fst kf, rate_fn (snd kf))) rels).
  change (abs_fns c) with (map (fun kf : named => (fst kf, rate_fn (snd kf))) abss).
  assert (LK : forall (l : list named) A (F : named -> list (option A)), (forall kf, length (F kf) = length gs) -> forall kf, In kf l ->
     exists p, lookup (fst kf) (map (fun kf : named => (fst kf, F kf)) l) = Some p /\ length p = length gs).
  { intros l A F HF kf Hin. clear - HF Hin. induction l as [|k0 l IH]; [destruct Hin|]. simpl. destruct (String.eqb_spec (fst kf) (fst k0)) as [Ek|Ek]; [eexists; split; eauto|].
    destruct Hin as [->|Hin]; [congruence|auto]. }
  assert (R1 : recalc_new_rates shape2 (map mk_bin gs') (map (fun kf : named => (fst kf, rate_fn (snd kf))) ens) d2 ns' [repeat 1 (length gs)]
     (map (fun kf : named => (fst kf, map (fun g => Some (snd kf g, snd kf (hi g))) gs)) ens) (Some (map (fun _ : R => true) ns')) =
     Ok (map (fun kf : named => (fst kf, map (fun x : bin => Some (snd kf (fst x), snd kf (snd x))) (map mk_bin gs'))) ens)).
  { rewrite Lmk at 1. rewrite Mk. apply recalc_fn2. right. split; auto. intros kf Hin. rewrite <- Lmk. apply (LK ens bin (fun kf => map (fun g => Some (snd kf g, snd kf (hi g))) gs)); auto. intros; apply map_length. }
  match goal with |- context [recalc_new_rates shape2 ?a ?b ?c0 ?d ?e ?f ?g] =>
    match type of R1 with _ = ?rhs => replace (recalc_new_rates shape2 a b c0 d e f g) with rhs by (symmetry; exact R1) end end.
  unfold bindS at 1. unfold lift at 1.
  assert (R3 : forall l : list named, (let! prev := remap_dict (arange (length gs)) (map (fun kf : named => (fst kf, map (fun g => Some (snd kf g)) gs)) l) (Some None) in
     recalc_new_rates shape1 gs' (map (fun kf : named => (fst kf, rate_fn (snd kf))) l) d2 ns' [repeat 1 (length gs)] prev (Some (map (fun _ : R => true) ns'))) =
     Ok (map (fun kf : named => (fst kf, map (fun x => Some (snd kf x)) gs')) l)).
  { intros l. rewrite (remap_dict_map (length gs) l (fun kf => map (fun g => Some (snd kf g)) gs)) by (intros; apply map_length). cbn [bind].
    rewrite <- Lg. rewrite Mk1. apply recalc_fn1. right. split; auto. intros kf Hin. rewrite Lg. apply (LK l R (fun kf => map (fun g => Some (snd kf g)) gs)); auto. intros; apply map_length. }
  rewrite lbs_mk. rewrite (R3 abss). unfold bindS at 1. unfold lift at 1. rewrite (R3 rels). unfold ret, mv_state. f_equal. f_equal.
  rewrite Lg. f_equal. apply map_ext. intros kf. f_equal. rewrite map_map. auto.
Qed.

Definition evolve (u : R) (x : list R * list R) : list R * list R := (map (mv_g u) (fst x), map2 (mv_n u) (fst x) (snd x)).
Definition run (i : nat) (x : list R * list R) : list R * list R := Nat.iter i (evolve t) x.
Lemma run_S i x : run (S i) x = run i (evolve t x).
Proof. unfold run. induction i as [|i IH]; auto. simpl in *. rewrite IH. auto. Qed.

Hypothesis Htp : 0 < t.

Lemma mv_loop k : forall left gs ns el ne, T - el = INR k * t -> length ns = length gs -> gs <> [] -> all_pos gs ->
  (forall i, (i < k)%nat -> goes t (fst (run i (gs, ns))) (snd (run i (gs, ns)))) ->
  exists d tr, loop np c k (mv_state left gs ns el) ne = (d, tr, Ok (mv_state left (fst (run k (gs, ns))) (snd (run k (gs, ns))) (el + INR k * t))) /\
    length tr = k /\ (forall i, (i < k)%nat -> nth_error tr i = Some (mv_state left (fst (run (S i) (gs, ns))) (snd (run (S i) (gs, ns))) (el + INR (S i) * t))).
Proof.
  induction k as [|k IH]; intros left gs ns el ne ET L Hne P HG.
  - exists ne, []. simpl in ET. cbn [loop]. simpl total. simpl st_elapsed. rewrite (proj2 (Rltb_false el T)) by lra.
    simpl. rewrite Rmult_0_l, Rplus_0_r. repeat split; auto. intros; lia.
  - assert (Hk : 0 <= INR k) by apply pos_INR. rewrite S_INR in ET.
    cbn [loop]. simpl total. simpl st_elapsed. assert (0 <= INR k * t) by (apply Rmult_le_pos; lra). rewrite (proj2 (Rltb_true el T)) by lra.
    pose proof (mv_step left gs ns el ne L Hne P) as X. cbv zeta in X. rewrite (proj2 (Rltb_false (T - el) t)) in X by lra.
    pose proof (HG 0%nat ltac:(lia)) as G0. simpl in G0. destruct (X G0) as (d1 & Hst). rewrite Hst.
    destruct (IH left (map (mv_g t) gs) (map2 (mv_n t) gs ns) (el + t) d1) as (d & tr & Hlo & Ltr & Hnth).
    + lra.
    + rewrite map2_length, map_length. lia.
    + destruct gs; [congruence|discriminate].
    + intros v Hv. apply in_map_iff in Hv as (g & <- & Hg). apply G0; auto.
    + intros i Hi. pose proof (HG (S i) ltac:(lia)) as Y. rewrite run_S in Y. exact Y.
    + rewrite Hlo. rewrite (run_S k). change (evolve t (gs, ns)) with (map (mv_g t) gs, map2 (mv_n t) gs ns).
      exists d, (mv_state left (map (mv_g t) gs) (map2 (mv_n t) gs ns) (el + t) :: tr).
      split. { f_equal. f_equal. f_equal. rewrite S_INR. ring. }
      split. { simpl. lia. }
      intros [|i] Hi; cbn [nth_error].
      * rewrite run_S. unfold run, evolve. cbn [Nat.iter fst snd]. simpl. rewrite Rmult_1_l. auto.
      * rewrite Hnth by lia. rewrite (run_S (S i)). change (evolve t (gs, ns)) with (map (mv_g t) gs, map2 (mv_n t) gs ns). f_equal. f_equal. rewrite (S_INR (S i)). ring.
Qed.

Lemma mv_initial ne ns : gs0 <> [] -> dist_call np ne gs0 = (gs0, ns) ->
  initial_values np c ne = Ok (mv_state (map (fun _ => Some 0) gs0) gs0 ns 0).
Proof.
  intros Hne En. unfold initial_values. simpl g0. rewrite En.
  assert (Eb : initial_bins c = map mk_bin gs0).
  { unfold initial_bins, update_bin_ub. simpl g0. clear. induction gs0; simpl; auto. f_equal; auto. }
  rewrite Eb. assert (Es : initial_subs c = Ok [repeat 1 (length gs0)]) by reflexivity. rewrite Es. cbn [bind].
  change (en_fns c) with (map (fun kf : named => (fst kf, rate_fn (snd kf))) ens). change (rel_fns c) with (map (fun kf : named => (fst kf, rate_fn (snd kf))) rels).
  change (abs_fns c) with (map (fun kf : named => (fst kf, rate_fn (snd kf))) abss).
  assert (Lm : length gs0 = length (map mk_bin gs0)) by (rewrite map_length; auto).
  rewrite Lm at 1. rewrite recalc_fn2 by auto. cbn [bind]. rewrite !recalc_fn1 by auto. cbn [bind].
  unfold mv_state. rewrite map_map. f_equal. f_equal. apply map_ext. intros kf. f_equal. rewrite map_map. auto.
Qed.

Lemma mv_run k ne ns : T = INR k * t -> gs0 <> [] -> all_pos gs0 -> dist_call np ne gs0 = (gs0, ns) ->
  (forall i, (i < k)%nat -> goes t (fst (run i (gs0, ns))) (snd (run i (gs0, ns)))) ->
  exists d recs x, evaluate np c k ne = (d, recs, Ok x) /\ length recs = k /\
    r_time x = T /\ r_gamma x = fst (run k (gs0, ns)) /\ r_dens x = snd (run k (gs0, ns)) /\
    (forall i y, nth_error recs i = Some y -> r_time y = INR (S i) * t /\ r_gamma y = fst (run (S i) (gs0, ns)) /\ r_dens y = snd (run (S i) (gs0, ns))).
Proof.
  intros ET Hne P En HG.
  assert (Ln : length ns = length gs0). { pose proof (dist_call_length np ne gs0) as X. rewrite En in X. simpl in X. apply X. }
  unfold evaluate. rewrite (mv_initial ne ns) by auto.
  destruct (mv_loop k (map (fun _ => Some 0) gs0) gs0 ns 0 ne) as (d & tr & Hlo & Lt & Hn); auto; [lra|].
  rewrite Hlo. eexists d, _, _. split; [reflexivity|]. split; [rewrite map_length; auto|].
  split; [simpl; lra|]. split; [simpl; apply lbs_mk|]. split; [auto|].
  intros i y Hy. assert (Hi : (i < k)%nat) by (rewrite <- Lt, <- (map_length callback_report); eapply nth_error_lt; eauto).
  rewrite nth_error_map, Hn in Hy by auto. simpl in Hy. injection Hy as <-. simpl r_time. simpl r_gamma. simpl r_dens. rewrite lbs_mk. split; [apply Rplus_0_l|]. auto.
Qed.
End Move.
