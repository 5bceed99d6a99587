(** Loading of flux points: C66. *)
From Verif Require Import Base TEUtils ListFacts FitData Spec_Fit MathUtils MathFacts.
From Coq Require Import String List Ascii Sorted Permutation OrderedTypeEx.
Import ListNotations.
Open Scope string_scope.
Open Scope list_scope.
Open Scope R_scope.

(** alphabetical order *)
Definition before (a b : string) : Prop := String.compare a b = Lt.
Lemma before_trans a b c : before a b -> before b c -> before a c.
Proof. unfold before. intros H1 H2. apply String_as_OT.cmp_lt in H1, H2. apply String_as_OT.cmp_lt. eapply String_as_OT.lt_trans; eauto. Qed.
Lemma before_irrefl a : ~ before a a.
Proof. intros H. apply String_as_OT.cmp_lt in H. apply String_as_OT.lt_not_eq in H. apply H. reflexivity. Qed.
Lemma leb_cases a b : a <> b -> if str_leb a b then before a b else before b a.
Proof.
  intros H. unfold str_leb, before. destruct (String.compare a b) eqn:E; auto.
  - exfalso. apply H. apply String.compare_eq_iff; auto.
  - rewrite String.compare_antisym, E. reflexivity.
Qed.
Lemma insert_in k l x : In x (insert_key k l) <-> x = k \/ In x l.
Proof.
  induction l as [|y l IH]; cbn; [intuition|]. destruct (String.eqb_spec k y); [subst; cbn; intuition|]. destruct (str_leb k y); cbn; [intuition|]. rewrite IH. intuition.
Qed.
Lemma insert_sorted k l : StronglySorted before l -> StronglySorted before (insert_key k l).
Proof.
  induction 1 as [|y l S IH F]; cbn; [repeat constructor|]. destruct (String.eqb_spec k y) as [->|N]; [constructor; auto|].
  pose proof (leb_cases k y N) as C. destruct (str_leb k y).
  - constructor; [constructor; auto|]. constructor; auto. rewrite Forall_forall in *. intros x Hx. eapply before_trans; eauto.
  - constructor; auto. rewrite Forall_forall in *. intros x Hx. apply insert_in in Hx as [->|Hx]; auto.
Qed.
Lemma keys_in t k : In k (keys t) <-> exists r, In r t /\ instrument r = k.
Proof.
  unfold keys. induction t as [|r t IH]; cbn; [split; [tauto|intros (r & [] & _)]|]. rewrite insert_in, IH. split.
  - intros [->|(r' & H & E)]; eauto.
  - intros (r' & [->|H] & E); eauto.
Qed.
Lemma keys_sorted t : StronglySorted before (keys t).
Proof. unfold keys. induction t as [|r t IH]; cbn; [constructor|]. apply insert_sorted; auto. Qed.
Lemma sorted_nodup l : StronglySorted before l -> NoDup l.
Proof.
  induction 1 as [|y l S IH F]; constructor; auto. intros H. rewrite Forall_forall in F. apply (before_irrefl y). auto.
Qed.
Lemma sorted_unique l : forall m, StronglySorted before l -> StronglySorted before m -> (forall x, In x l <-> In x m) -> l = m.
Proof.
  induction l as [|x l IH]; intros [|y m] Sl Sm H; auto.
  - exfalso. apply (H y). left; auto.
  - exfalso. apply (H x). left; auto.
  - apply StronglySorted_inv in Sl as [Sl Fl]. apply StronglySorted_inv in Sm as [Sm Fm]. rewrite Forall_forall in Fl, Fm.
    assert (E : x = y).
    { destruct (proj1 (H x) (or_introl eq_refl)) as [->|H1]; auto. destruct (proj2 (H y) (or_introl eq_refl)) as [->|H2]; auto.
      exfalso. apply (before_irrefl x). eapply before_trans; eauto. }
    subst y. f_equal. apply IH; auto. intros z. split; intros Hz.
    + destruct (proj1 (H z) (or_intror Hz)) as [<-|]; auto. exfalso. apply (before_irrefl x); auto.
    + destruct (proj2 (H z) (or_intror Hz)) as [<-|]; auto. exfalso. apply (before_irrefl x); auto.
Qed.
Definition rows_of (k : string) (t : list row) : list row := filter (fun r => String.eqb (instrument r) k) t.
Lemma rows_of_in k t r : In r (rows_of k t) <-> In r t /\ instrument r = k.
Proof. unfold rows_of. rewrite filter_In. rewrite String.eqb_eq. tauto. Qed.
Lemma rows_of_name k t : In k (keys t) -> group_name (rows_of k t) = k.
Proof.
  intros H. apply keys_in in H as (r & H & E). assert (I : In r (rows_of k t)) by (apply rows_of_in; auto).
  destruct (rows_of k t) as [|r0 g] eqn:G; [destruct I|]. cbn. apply (rows_of_in k t r0). rewrite G. left; auto.
Qed.
Lemma split_by_keys ks : NoDup ks -> forall t, (forall r, In r t -> In (instrument r) ks) -> Permutation (concat (map (fun k => rows_of k t) ks)) t.
Proof.
  induction 1 as [|k ks Hk ND IH]; intros t H; cbn.
  - destruct t as [|r t]; auto. exfalso. exact (H r (or_introl eq_refl)).
  - assert (E : map (fun k' => rows_of k' t) ks = map (fun k' => rows_of k' (filter (fun r => negb (String.eqb (instrument r) k)) t)) ks).
    { apply map_ext_in. intros k' Hk'. unfold rows_of. clear -Hk Hk'. induction t as [|r t IH]; cbn; auto.
      destruct (String.eqb_spec (instrument r) k); cbn.
      - destruct (String.eqb_spec (instrument r) k'); [exfalso; apply Hk; congruence|auto].
      - destruct (String.eqb (instrument r) k'); rewrite IH; auto. }
    rewrite E, IH.
    + unfold rows_of. clear. induction t as [|r t IH]; cbn; auto. destruct (String.eqb (instrument r) k); cbn; [constructor; auto|].
      rewrite <- Permutation_middle. constructor; auto.
    + intros r Hr. apply filter_In in Hr as [Hr N]. destruct (H r Hr) as [Ek|]; auto. rewrite <- Ek, String.eqb_refl in N. discriminate.
Qed.

(** the groups are the tables of the single instruments, in alphabetical order,
    and together they are the table *)
Theorem C66_groups : forall t, Permutation (concat (groups t)) t /\
  groups t = map (fun n => filter (fun r => String.eqb (instrument r) n) t) (map group_name (groups t)) /\
  (forall n, In n (map group_name (groups t)) <-> exists r, In r t /\ instrument r = n) /\
  StronglySorted before (map group_name (groups t)).
Proof.
  intros t. assert (E : map group_name (groups t) = keys t).
  { unfold groups. rewrite map_map. rewrite <- (map_id (keys t)) at 2. apply map_ext_in. intros k Hk. apply rows_of_name; auto. }
  rewrite E. split; [|split; [reflexivity|split; [apply keys_in|apply keys_sorted]]].
  apply (split_by_keys (keys t)); [apply sorted_nodup, keys_sorted|]. intros r Hr. apply keys_in; eauto.
Qed.
Print Assumptions C66_groups.

Lemma dict_keys n d x : dict_value n d = Some x -> In n (map fst d).
Proof. induction d as [|[a b] d IH]; cbn; [discriminate|]. destruct (string_dec a n); auto. Qed.
Lemma syst_loop_lookup {A} name (d : syst_dict) (f : R -> A) : NoDup (map fst d) -> forall init,
  syst_loop name d f init = match dict_value name d with Some s => f s | None => init end.
Proof.
  unfold syst_loop. induction d as [|[k v] d IH]; intros ND init; cbn; auto. inversion ND; subst. rewrite IH by auto.
  destruct (String.eqb_spec name k), (string_dec k name); try congruence. subst.
  match goal with |- context [dict_value ?m d] => destruct (dict_value m d) eqn:E end; auto. exfalso. apply H1. eapply dict_keys; eauto.
Qed.

Definition rel (d : syst_dict) (n : string) : R := match dict_value n d with Some s => s | None => 0 end.
Lemma group_rows t g r : In g (groups t) -> In r g -> instrument r = group_name g.
Proof.
  unfold groups. intros H Hr. apply in_map_iff in H as (k & <- & Hk). fold (rows_of k t) in *. rewrite rows_of_name by auto. apply rows_of_in in Hr. tauto.
Qed.
Lemma sherpa_listed d gs : NoDup (map fst d) -> (forall g, In g gs -> dict_value (group_name g) d <> None /\ forall r, In r g -> instrument r = group_name g) ->
  forall stale acc, sherpa_loop (Some d) stale gs acc =
   Ok {| sh_x := sh_x acc ++ map e_ref (concat gs); sh_y := sh_y acc ++ map e2dnde (concat gs);
         sh_stat := sh_stat acc ++ map (fun r => (e2dnde_errn r + e2dnde_errp r) / 2) (concat gs);
         sh_syst := sh_syst acc ++ map (fun r => rel d (instrument r) * e2dnde r) (concat gs) |}.
Proof.
  intros ND. induction gs as [|g gs IH]; intros H stale acc; cbn [sherpa_loop concat].
  - cbn. rewrite !app_nil_r. destruct acc; reflexivity.
  - rewrite syst_loop_lookup by auto. destruct (H g (or_introl eq_refl)) as [Hd Hr]. destruct (dict_value (group_name g) d) as [s|] eqn:E; [|congruence].
    rewrite IH by (intros; apply H; right; auto). cbn [sh_x sh_y sh_stat sh_syst]. rewrite !map_app, !app_assoc. repeat f_equal.
    rewrite map_map. apply map_ext_in. intros r Hin. unfold rel. rewrite (Hr r Hin), E. reflexivity.
Qed.
Lemma sherpa_no_dict gs : forall stale acc, sherpa_loop None stale gs acc =
   Ok {| sh_x := sh_x acc ++ map e_ref (concat gs); sh_y := sh_y acc ++ map e2dnde (concat gs);
         sh_stat := sh_stat acc ++ map (fun r => (e2dnde_errn r + e2dnde_errp r) / 2) (concat gs);
         sh_syst := sh_syst acc ++ map (fun _ => 0) (concat gs) |}.
Proof.
  induction gs as [|g gs IH]; intros stale acc; cbn [sherpa_loop concat].
  - cbn. rewrite !app_nil_r. destruct acc; reflexivity.
  - rewrite IH. cbn [sh_x sh_y sh_stat sh_syst]. rewrite !map_app, !app_assoc, map_map. reflexivity.
Qed.

(** sherpa: when every instrument of the table is listed, each point has the
    relative error of its instrument; without a dictionary there is none *)
Theorem C66_sherpa_listed : forall t E_min E_max d, NoDup (map fst d) -> (forall r, In r t -> dict_value (instrument r) d <> None) ->
  let rows := concat (groups t) in
  load_sherpa_flux_points t E_min E_max (Some d) = Ok {|
    sd_arrays := {| sh_x := map e_ref rows; sh_y := map e2dnde rows; sh_stat := map (fun r => (e2dnde_errn r + e2dnde_errp r) / 2) rows;
                    sh_syst := map (fun r => rel d (instrument r) * e2dnde r) rows |};
    sd_mask := map (fun x => Rleb E_min x && Rleb x E_max) (map e_ref rows) |}.
Proof.
  intros t E_min E_max d ND H rows. unfold load_sherpa_flux_points. rewrite sherpa_listed; auto.
  - cbn [bind sh_x sh_y sh_stat sh_syst app]. rewrite !map_length, Nat.eqb_refl. reflexivity.
  - intros g Hg. split; [|intros; eapply group_rows; eauto].
    destruct (C66_groups t) as (_ & _ & N & _). destruct (proj1 (N (group_name g)) (in_map _ _ _ Hg)) as (r & Hr & <-). auto.
Qed.
Print Assumptions C66_sherpa_listed.
Theorem C66_sherpa_none : forall t E_min E_max,
  let rows := concat (groups t) in
  load_sherpa_flux_points t E_min E_max None = Ok {|
    sd_arrays := {| sh_x := map e_ref rows; sh_y := map e2dnde rows; sh_stat := map (fun r => (e2dnde_errn r + e2dnde_errp r) / 2) rows;
                    sh_syst := map (fun _ => 0) rows |};
    sd_mask := map (fun x => Rleb E_min x && Rleb x E_max) (map e_ref rows) |}.
Proof.
  intros t E_min E_max rows. unfold load_sherpa_flux_points. rewrite sherpa_no_dict. cbn [bind sh_x sh_y sh_stat sh_syst app]. rewrite !map_length, Nat.eqb_refl. reflexivity.
Qed.
Print Assumptions C66_sherpa_none.

(** if the alphabetically first instrument is not listed, the call fails *)
Theorem C66_sherpa_first_unlisted : forall t E_min E_max d r, NoDup (map fst d) -> In r t -> dict_value (instrument r) d = None ->
  (forall r', In r' t -> instrument r' = instrument r \/ before (instrument r) (instrument r')) ->
  load_sherpa_flux_points t E_min E_max (Some d) = Err UnboundLocalError.
Proof.
  intros t E_min E_max d r ND Hr Hd Hmin. unfold load_sherpa_flux_points, groups.
  assert (E : exists l, keys t = instrument r :: l).
  { pose proof (keys_sorted t) as S. pose proof (proj2 (keys_in t (instrument r)) (ex_intro _ r (conj Hr eq_refl))) as I.
    destruct (keys t) as [|k l] eqn:K; [destruct I|]. exists l. f_equal. destruct I as [|I]; auto. apply StronglySorted_inv in S as [_ F]. rewrite Forall_forall in F.
    assert (Ik : In k (keys t)) by (rewrite K; left; auto). apply keys_in in Ik as (r' & Hr' & <-).
    destruct (Hmin r' Hr') as [->|B]; auto. exfalso. apply (before_irrefl (instrument r)). eapply before_trans; eauto. }
  destruct E as (l & E). rewrite E. cbn [map sherpa_loop]. fold (rows_of (instrument r) t). rewrite rows_of_name by (rewrite E; left; auto).
  rewrite syst_loop_lookup by auto. rewrite Hd. reflexivity.
Qed.
Print Assumptions C66_sherpa_first_unlisted.

(** of two instruments the second of which is not listed, it inherits the
    errors of the first, point by point, or the call fails when the numbers of
    points differ *)
Theorem C66_sherpa_inherits : forall t E_min E_max d a b s, NoDup (map fst d) -> before a b ->
  (forall r, In r t -> instrument r = a \/ instrument r = b) -> (exists r, In r t /\ instrument r = a) -> (exists r, In r t /\ instrument r = b) ->
  dict_value a d = Some s -> dict_value b d = None ->
  let ta := filter (fun r => String.eqb (instrument r) a) t in
  let tb := filter (fun r => String.eqb (instrument r) b) t in
  (length ta = length tb -> exists data, load_sherpa_flux_points t E_min E_max (Some d) = Ok data /\
     sh_y (sd_arrays data) = map e2dnde ta ++ map e2dnde tb /\
     sh_syst (sd_arrays data) = map (fun r => s * e2dnde r) ta ++ map (fun r => s * e2dnde r) ta) /\
  (length ta <> length tb -> exists m, load_sherpa_flux_points t E_min E_max (Some d) = Err (ValueError m)).
Proof.
  intros t E_min E_max d a b s ND Hab Hall Ha Hb Da Db ta tb.
  assert (K : keys t = [a; b]).
  { apply sorted_unique; [apply keys_sorted|repeat constructor; auto|]. intros x. rewrite keys_in. cbn. split.
    - intros (r & Hr & <-). destruct (Hall r Hr); auto.
    - intros [<-|[<-|[]]]; auto. }
  assert (Na : group_name ta = a) by (apply rows_of_name; rewrite K; cbn; auto).
  assert (Nb : group_name tb = b) by (apply rows_of_name; rewrite K; cbn; auto).
  unfold load_sherpa_flux_points, groups. rewrite K. cbn [map sherpa_loop]. fold ta tb. rewrite Na, Nb, !syst_loop_lookup, Da, Db by auto.
  cbn [bind sh_x sh_y sh_stat sh_syst app]. rewrite !app_length, !map_length. split; intros L.
  - rewrite L, Nat.eqb_refl. eexists. split; [reflexivity|]. cbn [sd_arrays sh_y sh_syst]. rewrite map_map. auto.
  - replace (length ta + length ta =? length ta + length tb)%nat with false by (symmetry; apply Nat.eqb_neq; lia). eauto.
Qed.
Print Assumptions C66_sherpa_inherits.

(** gammapy: total error sqrt(stat^2 + (s flux)^2) for a listed instrument, the
    statistical error alone for the others *)
Definition flux_of (r : row) : R := e2dnde r / e_ref r ^ 2.
Definition total_error (d : option syst_dict) (n : string) (stat flux : R) : R :=
  match d with
  | Some d => match dict_value n d with Some s => sqrt (stat ^ 2 + (s * flux) ^ 2) | None => stat end
  | None => stat
  end.
Lemma map2_maps {A} (f : R -> R -> R) (g h : A -> R) l : map2 f (map g l) (map h l) = map (fun x => f (g x) (h x)) l.
Proof. induction l as [|x l IH]; cbn [map map2]; auto. rewrite IH; auto. Qed.
Lemma fold_syst n (d : syst_dict) f : NoDup (map fst d) ->
  fold_left (fun f kv => if String.eqb n (fst kv) then add_systematic (snd kv) f else f) d f = match dict_value n d with Some s => add_systematic s f | None => f end.
Proof.
  revert f. induction d as [|[k v] d IH]; intros f ND; cbn [fold_left fst snd dict_value]; auto. inversion ND; subst. rewrite IH by auto.
  destruct (String.eqb_spec n k), (string_dec k n); try congruence. subst.
  match goal with |- context [dict_value ?m d] => destruct (dict_value m d) eqn:E end; auto. exfalso. apply H1. eapply dict_keys; eauto.
Qed.
Theorem C66_gammapy : forall ref t d, (forall d', d = Some d' -> NoDup (map fst d')) -> (forall r, In r t -> ref (e_ref r) <> 0) ->
  length (load_gammapy_flux_points ref t d) = length (groups t) /\
  forall i g, nth_error (groups t) i = Some g -> exists f, nth_error (load_gammapy_flux_points ref t d) i = Some f /\
    fp_name f = group_name g /\ fp_energy f = map e_ref g /\ dnde f = map flux_of g /\
    dnde_errn f = map (fun r => total_error d (instrument r) (e2dnde_errn r / e_ref r ^ 2) (flux_of r)) g /\
    dnde_errp f = map (fun r => total_error d (instrument r) (e2dnde_errp r / e_ref r ^ 2) (flux_of r)) g.
Proof.
  intros ref t d ND Href. unfold load_gammapy_flux_points. split; [apply map_length|]. intros i g Hg.
  eexists. split; [rewrite nth_error_map, Hg; cbn [option_map]; reflexivity|].
  assert (Hin : In g (groups t)) by (eapply nth_error_In; eauto).
  assert (Hr : forall r, In r g -> instrument r = group_name g /\ ref (e_ref r) <> 0).
  { intros r H. split; [eapply group_rows; eauto|]. apply Href. destruct (C66_groups t) as (Pm & _). eapply Permutation_in; [exact Pm|]. apply in_concat. eauto. }
  assert (Base : dnde_errn (from_table ref g) = map (fun r => e2dnde_errn r / e_ref r ^ 2) g /\ dnde_errp (from_table ref g) = map (fun r => e2dnde_errp r / e_ref r ^ 2) g).
  { unfold dnde_errn, dnde_errp, from_table. cbn [norm_errn norm_errp dnde_ref]. rewrite !map2_maps. split; apply map_ext_in; intros r H; destruct (Hr r H) as [_ N];
      set (w := ref (e_ref r)) in *; unfold Rdiv; rewrite Rmult_assoc, Rinv_l by auto; ring. }
  destruct Base as [Bn Bp]. cbv zeta.
  assert (Plain : (forall r, In r g -> forall st, total_error d (instrument r) st (flux_of r) = st) ->
    fp_name (from_table ref g) = group_name g /\ fp_energy (from_table ref g) = map e_ref g /\ dnde (from_table ref g) = map flux_of g /\
    dnde_errn (from_table ref g) = map (fun r => total_error d (instrument r) (e2dnde_errn r / e_ref r ^ 2) (flux_of r)) g /\
    dnde_errp (from_table ref g) = map (fun r => total_error d (instrument r) (e2dnde_errp r / e_ref r ^ 2) (flux_of r)) g).
  { intros T. split; [reflexivity|split; [reflexivity|split; [reflexivity|]]]. rewrite Bn, Bp. split; apply map_ext_in; intros r H; rewrite T; auto. }
  destruct d as [d|]; [|apply Plain; reflexivity]. rewrite fold_syst by auto. destruct (dict_value (group_name g) d) as [s|] eqn:E.
  - split; [reflexivity|split; [reflexivity|split; [reflexivity|]]]. unfold add_systematic. cbv zeta.
    split; [unfold dnde_errn at 1|unfold dnde_errp at 1]; cbn [norm_errn norm_errp dnde_ref]; rewrite ?Bn, ?Bp; cbn [dnde dnde_ref from_table]; rewrite map_map, !map2_maps;
    apply map_ext_in; intros r H; destruct (Hr r H) as [En N]; unfold total_error; rewrite En, E; fold (flux_of r); field_simplify; auto.
  - apply Plain. intros r H st. unfold total_error. rewrite (proj1 (Hr r H)), E. reflexivity.
Qed.
Print Assumptions C66_gammapy.

(** Fermi is listed, MAGIC is not: MAGIC's points get Fermi's errors *)
Definition c66_table : list row :=
  [{| instrument := "MAGIC"; e_ref := 1e11; e2dnde := 2; e2dnde_errn := 0.5; e2dnde_errp := 0.7 |};
   {| instrument := "Fermi"; e_ref := 1e9; e2dnde := 10; e2dnde_errn := 1; e2dnde_errp := 1 |}].
Example C66_case : (exists data, load_sherpa_flux_points c66_table 1 1e12 (Some [("Fermi", 0.1)]) = Ok data /\ sh_y (sd_arrays data) = [10; 2] /\ sh_syst (sd_arrays data) = [0.1 * 10; 0.1 * 10]) /\
  load_sherpa_flux_points c66_table 1 1e12 (Some [("MAGIC", 0.1)]) = Err UnboundLocalError /\
  exists f, nth_error (load_gammapy_flux_points (fun _ => 1) c66_table (Some [("Fermi", 0.1)])) 1 = Some f /\ dnde_errn f = [0.5 / 1e11 ^ 2].
Proof.
  split; [|split].
  - destruct (C66_sherpa_inherits c66_table 1 1e12 [("Fermi", 0.1)] "Fermi" "MAGIC" 0.1) as [H _]; try reflexivity.
    + repeat constructor. intros [].
    + intros r [<-|[<-|[]]]; cbn; auto.
    + exists (nth 1 c66_table {| instrument := ""; e_ref := 0; e2dnde := 0; e2dnde_errn := 0; e2dnde_errp := 0 |}). cbn. auto.
    + exists (nth 0 c66_table {| instrument := ""; e_ref := 0; e2dnde := 0; e2dnde_errn := 0; e2dnde_errp := 0 |}). cbn. auto.
    + destruct (H eq_refl) as (data & H1 & H2 & H3). exists data. split; [exact H1|split; [exact H2|exact H3]].
  - apply (C66_sherpa_first_unlisted c66_table 1 1e12 [("MAGIC", 0.1)] (nth 1 c66_table {| instrument := ""; e_ref := 0; e2dnde := 0; e2dnde_errn := 0; e2dnde_errp := 0 |})); try reflexivity.
    + repeat constructor. intros [].
    + cbn. auto.
    + intros r [<-|[<-|[]]]; cbn; auto. right. reflexivity.
  - destruct (C66_gammapy (fun _ => 1) c66_table (Some [("Fermi", 0.1)])) as [_ H].
    + intros d' E. injection E as <-. repeat constructor. intros [].
    + intros. lra.
    + destruct (H 1%nat [nth 0 c66_table {| instrument := ""; e_ref := 0; e2dnde := 0; e2dnde_errn := 0; e2dnde_errp := 0 |}] eq_refl) as (f & F & _ & _ & _ & En & _).
      exists f. split; [exact F|]. rewrite En. reflexivity.
Qed.
