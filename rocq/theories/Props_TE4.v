(** C18 (constructor) and C20 (default grid) of TimeEvolution. *)
From Verif Require Import Base TEUtils TimeEvolution ListFacts TEIndexFacts TEStageFacts TEStepFacts NumpyInst Spec_TE Spec_Init TEInitFacts TEExamples.

(* ------------------------------------------------------------------ C18 *)

Ltac open_guards H :=
  repeat match type of H with
  | bind (guard ?b ?m) _ = _ => let E := fresh "G" in destruct b eqn:E; cbn [guard bind] in H; [|try discriminate H]
  end.

Lemma init_inv np a c : te_init np a = Ok c ->
  (forall rows, a_subinit a = Some rows -> rectangular rows) -> accepted a.
Proof.
  intros H Hrect. unfold te_init in H.
  assert (Hs : a_step a = SString "auto" \/ exists s, a_step a = SQuantity s).
  { destruct (a_step a) as [s|s|]; [eauto| |discriminate]. destruct (String.eqb s "auto") eqn:E; [|discriminate]. apply String.eqb_eq in E. subst; auto. }
  destruct (match a_step a with SQuantity s => Ok (Fixed s) | SString s => if String.eqb s "auto" then Ok Auto else _ | SOther => _ end) as [sd|] eqn:Esd; [|discriminate].
  cbn [bind] in H. open_guards H.
  assert (Hd := proj1 (guard_distinct a) G). clear G.
  destruct (match a_bounds a, a_g0 a with Some bd, Some g => _ | _, _ => _ end) as [u|] eqn:Eb; [|discriminate]. cbn [bind] in H.
  assert (Hb : forall lo hi g x, a_bounds a = Some (lo, hi) -> a_g0 a = Some g -> In x g -> lo <= x <= hi).
  { intros lo hi g x E1 E2 Hx. rewrite E1, E2 in Eb. cbn [fst snd] in Eb.
    destruct (negb (existsb (fun x => Rltb x lo) g)) eqn:A1; [|discriminate]. cbn [guard bind] in Eb.
    destruct (negb (existsb (fun x => Rltb hi x) g)) eqn:A2; [|discriminate].
    split. { exact (proj1 (guard_low lo g) A1 x Hx). } exact (proj1 (guard_high hi g) A2 x Hx). }
  clear Eb.
  destruct (match a_g0 a with Some g => guard (strictly_increasingb g) _ | None => _ end) as [u2|] eqn:Ei; [|discriminate]. cbn [bind] in H.
  assert (Hi : forall g, a_g0 a = Some g -> increasing g).
  { intros g E. rewrite E in Ei. apply strict_increasing. destruct (strictly_increasingb g); [auto|discriminate]. }
  clear Ei. open_guards H.
  assert (Hr : a_optimize a = Some true -> a_step a = SString "auto").
  { intros E. rewrite E in G. destruct (a_step a) as [s|s|]; [|destruct Hs as [Hs|(s2 & Hs)]; congruence|discriminate]. injection Esd as <-. discriminate. }
  destruct (if String.eqb (a_method a) "heun" then _ else _) as [m|] eqn:Em; [|discriminate]. cbn [bind] in H.
  assert (Hm : a_method a = "heun"%string /\ m = Heun \/ a_method a = "euler"%string /\ m = Euler).
  { destruct (String.eqb (a_method a) "heun") eqn:E1. { apply String.eqb_eq in E1. injection Em as <-. auto. }
    destruct (String.eqb (a_method a) "euler") eqn:E2; [|discriminate]. apply String.eqb_eq in E2. injection Em as <-. auto. }
  open_guards H.
  assert (Hh : a_method a = "heun"%string -> ~ reuse_wanted a).
  { intros E. destruct Hm as [(_ & ->)|(E2 & _)]; [|rewrite E in E2; discriminate]. intros [E2|(E2 & E3)]; rewrite E2 in G0; [discriminate|].
    rewrite E3 in Esd. injection Esd as <-. discriminate. }
  assert (Hk := proj1 (guard_known a _ eq_refl) G1).
  destruct (match a_subinit a with None => _ | Some s => _ end) as [u3|] eqn:Ep; [|discriminate].
  constructor; auto. { destruct Hm as [(E & _)|(E & _)]; auto. }
  intros rows E. rewrite E in Ep. destruct (forallb close_to_1 (col_sum (ncols rows) rows)) eqn:A1; [|discriminate]. cbn [guard bind] in Ep.
  assert (A2 := proj1 (guard_sums rows (Hrect rows E)) A1). destruct (a_subgroups a) eqn:Eg; [|discriminate]. cbn [guard bind] in Ep.
  destruct (a_g0 a) as [g|] eqn:Eg0; [|discriminate]. destruct (Nat.eqb_spec (ncols rows) (length g)); [|discriminate].
  split; [discriminate|]. split. { exists g. split; auto. intros first Ef. destruct rows as [|r0 rows]; [discriminate|]. injection Ef as <-. auto. }
  split; auto. intros ->. simpl in *. destruct g; auto. discriminate.
Qed.

Lemma init_complete np a : (forall rows, a_subinit a = Some rows -> rectangular rows) -> accepted a -> exists c, te_init np a = Ok c.
Proof.
  intros Hrect [Hs Hd Hb Hi Hr Hm Hh Hk Hp]. unfold te_init.
  assert (Esd : exists sd, match a_step a with SQuantity s => Ok (Fixed s) | SString s => if String.eqb s "auto" then Ok Auto
     else Err (ValueError "step_duration must be a time Quantity, or a string auto") | SOther => Err (ValueError "step_duration must be a time Quantity, or a string auto") end = Ok sd
     /\ (sd = Auto <-> a_step a = SString "auto")).
  { destruct Hs as [->|(s & ->)]; simpl; eexists; split; try reflexivity; split; congruence. }
  destruct Esd as (sd & -> & Hsd). cbn [bind].
  rewrite (proj2 (guard_distinct a) Hd). cbn [guard bind].
  match goal with |- exists c, bind ?x _ = Ok c => assert (E : x = Ok tt) end.
  { destruct (a_bounds a) as [[lo hi]|] eqn:E1; auto. destruct (a_g0 a) as [g|] eqn:E2; auto. cbn [fst snd].
    rewrite (proj2 (guard_low lo g)) by (intros x Hx; apply (Hb lo hi g x); auto). cbn [guard bind].
    rewrite (proj2 (guard_high hi g)) by (intros x Hx; apply (Hb lo hi g x); auto). reflexivity. }
  rewrite E; clear E. cbn [bind].
  match goal with |- exists c, bind ?x _ = Ok c => assert (E : x = Ok tt) end.
  { destruct (a_g0 a) as [g|] eqn:E2; auto. rewrite (proj2 (strict_increasing g)); auto. }
  rewrite E; clear E. cbn [bind].
  match goal with |- exists c, bind (guard ?b _) _ = Ok c => assert (E : b = true) end.
  { destruct (a_optimize a) as [[|]|]; auto. rewrite (proj2 Hsd); auto. }
  rewrite E; clear E. cbn [guard bind].
  set (opt := match a_optimize a with None => _ | Some b => b end).
  assert (Ho : opt = true -> reuse_wanted a).
  { unfold opt, reuse_wanted. destruct (a_optimize a) as [b|]. { intros ->; auto. } destruct sd eqn:E2; intros E3; try discriminate. right. split; auto. apply Hsd. auto. }
  match goal with |- exists c, bind ?x _ = Ok c => assert (E : exists m, x = Ok m /\ (m = Heun -> a_method a = "heun"%string)) end.
  { destruct Hm as [-> | ->]; simpl; eexists; split; try reflexivity; auto; discriminate. }
  destruct E as (m & -> & Em). cbn [bind].
  match goal with |- exists c, bind (guard ?b _) _ = Ok c => assert (E : b = true) end.
  { destruct m; [now rewrite andb_false_r|]. destruct opt; auto. exfalso. apply (Hh (Em eq_refl)). auto. }
  rewrite E; clear E. cbn [guard bind]. rewrite (proj2 (guard_known a _ eq_refl) Hk). cbn [guard bind].
  match goal with |- exists c, bind ?x _ = Ok c => assert (E : x = Ok tt) end.
  { destruct (a_subinit a) as [rows|] eqn:E1; auto. destruct (Hp rows eq_refl) as (H1 & (g & E2 & H2) & H3 & H4).
    rewrite (proj2 (guard_sums rows (Hrect rows eq_refl)) H4). cbn [guard bind]. destruct (a_subgroups a); [|congruence]. cbn [guard bind]. rewrite E2.
    destruct (Nat.eqb_spec (ncols rows) (length g)) as [|N]; auto. exfalso. apply N. destruct rows as [|r0 rows]; [|apply (H2 r0); auto].
    rewrite E2 in H3. specialize (H3 eq_refl). injection H3 as ->. reflexivity. }
  rewrite E; clear E. cbn [bind]. eauto.
Qed.

(** The constructor succeeds exactly on the acceptable arguments; *)
Theorem C18_accepts np a : (forall rows, a_subinit a = Some rows -> rectangular rows) ->
  ((exists c, te_init np a = Ok c) <-> accepted a).
Proof. intros Hr. split; [intros (c & H); eapply init_inv; eauto|apply init_complete; auto]. Qed.
Print Assumptions C18_accepts.

(** on all others it raises ValueError, never anything else. *)
Theorem C18_rejects np a : (forall rows, a_subinit a = Some rows -> rectangular rows) ->
  ~ accepted a -> exists msg, te_init np a = Err (ValueError msg).
Proof.
  intros Hr Hn. assert (G : (exists c, te_init np a = Ok c) \/ exists msg, te_init np a = Err (ValueError msg)).
  { unfold te_init.
    repeat match goal with
    | |- (exists c, Ok _ = Ok c) \/ _ => left; eauto
    | |- _ \/ exists msg, Err (ValueError _) = _ => right; eauto
    | |- context [match a_step a with _ => _ end] => destruct (a_step a); cbn [bind]
    | |- context [if String.eqb ?x ?y then _ else _] => destruct (String.eqb x y); cbn [bind]
    | |- context [guard ?b ?m] => destruct b; cbn [guard bind]
    | |- context [match a_bounds a with _ => _ end] => destruct (a_bounds a); cbn [bind]
    | |- context [match a_g0 a with _ => _ end] => destruct (a_g0 a); cbn [bind]
    | |- context [match a_subinit a with _ => _ end] => destruct (a_subinit a); cbn [bind]
    end. }
  destruct G as [G|G]; auto. exfalso. apply Hn. apply (C18_accepts np a Hr). exact G.
Qed.
Print Assumptions C18_rejects.

Lemma init_fields np a c : te_init np a = Ok c ->
  exists sd m, c = {| total := a_total a; stepd := sd; en_fns := fns_dict true (a_en a); rel_fns := fns_dict false (a_rel a); abs_fns := fns_dict false (a_abs a);
        g0 := match a_g0 a with Some g => g | None => default_grid np a end;
        bounds := a_bounds a; creep := a_creep a; merge_thr := a_merge a; maxE := a_maxE a; maxD := a_maxD a;
        maxI := a_maxI a; optimize := match a_optimize a with None => match sd with Auto => true | Fixed _ => false end | Some b => b end;
        method := m; subgroups := a_subgroups a; subinit := a_subinit a; mec2 := b_mec2 a |} /\
   (sd = Auto /\ a_step a = SString "auto" \/ exists s, sd = Fixed s /\ a_step a = SQuantity s) /\
   (m = Heun /\ a_method a = "heun"%string \/ m = Euler /\ a_method a = "euler"%string).
Proof.
  intros H. unfold te_init in H.
  destruct (match a_step a with SQuantity s => Ok (Fixed s) | SString s => if String.eqb s "auto" then Ok Auto else _ | SOther => _ end) as [sd|] eqn:Esd; [|discriminate].
  cbn [bind] in H. open_guards H.
  destruct (match a_bounds a, a_g0 a with Some bd, Some g => _ | _, _ => _ end) as [u|] eqn:Eb; [|discriminate]. cbn [bind] in H.
  destruct (match a_g0 a with Some g => guard (strictly_increasingb g) _ | None => _ end) as [u2|] eqn:Ei; [|discriminate]. cbn [bind] in H.
  open_guards H.
  destruct (if String.eqb (a_method a) "heun" then _ else _) as [m|] eqn:Em; [|discriminate]. cbn [bind] in H. open_guards H.
  destruct (match a_subinit a with None => _ | Some s => _ end) as [u3|] eqn:Ep; [|discriminate]. cbn [bind] in H. injection H as <-.
  exists sd, m. split; [reflexivity|]. split.
  - destruct (a_step a) as [s|s|]; [injection Esd as <-; eauto| |discriminate]. destruct (String.eqb s "auto") eqn:E; [|discriminate]. apply String.eqb_eq in E. subst s. injection Esd as <-; auto.
  - destruct (String.eqb (a_method a) "heun") eqn:E1. { apply String.eqb_eq in E1. injection Em as <-. auto. }
    destruct (String.eqb (a_method a) "euler") eqn:E2; [|discriminate]. apply String.eqb_eq in E2. injection Em as <-. auto.
Qed.

(** What the instance stores: the arguments as given; the grid given or the
    default one (C20); the step policy and the method asked for; rate reuse as
    asked, or on exactly for automatic steps if unspecified. *)
Theorem C18_stored np a c : te_init np a = Ok c ->
  total c = a_total a /\ bounds c = a_bounds a /\ creep c = a_creep a /\ merge_thr c = a_merge a /\
  maxE c = a_maxE a /\ maxD c = a_maxD a /\ maxI c = a_maxI a /\ subgroups c = a_subgroups a /\ subinit c = a_subinit a /\
  (forall g, a_g0 a = Some g -> g0 c = g) /\
  (forall s, stepd c = Fixed s <-> a_step a = SQuantity s) /\ (stepd c = Auto <-> a_step a = SString "auto") /\
  (method c = Heun <-> a_method a = "heun"%string) /\ (method c = Euler <-> a_method a = "euler"%string) /\
  (optimize c = true <-> reuse_wanted a).
Proof.
  intros H. apply init_fields in H as (sd & m & -> & Hsd & Hm). cbn [total bounds creep merge_thr maxE maxD maxI subgroups subinit g0 stepd method optimize].
  do 9 (split; [reflexivity|]). split. { intros g ->. reflexivity. }
  unfold reuse_wanted.
  destruct Hsd as [(-> & ->)|(s0 & -> & ->)]; destruct Hm as [(-> & ->)|(-> & ->)];
    (split; [intros s; split; congruence|]); (split; [split; congruence|]); (split; [split; congruence|]); (split; [split; congruence|]);
    destruct (a_optimize a) as [[|]|]; split; auto; try discriminate; intros [H|(H1 & H2)]; discriminate.
Qed.
Print Assumptions C18_stored.

(** The functions stored for one argument [f]: a dictionary as it is, a single
    function under its name, and for a list the last function of each name,
    each name once. *)
Definition stored_functions (energy : bool) (f : fns_arg) (d : list (string * GammaFn)) : Prop :=
  match f with
  | FDict d' => d = d'
  | FOne n g => d = [(n, g)]
  | FList l => NoDup (map fst d) /\ forall k g, In (k, g) d <-> exists l1 l2, l = l1 ++ (k, g) :: l2 /\ ~ In k (map fst l2)
  | FNone => if energy then map fst d = ["None"%string] /\ forall n g ne p, In (n, g) d -> exists m, g ne p = Err (TypeError m) else d = []
  end.

Lemma dict_set_keys {A} k (v : A) d : NoDup (map fst d) -> NoDup (map fst (dict_set k v d)) /\ forall x, In x (map fst (dict_set k v d)) <-> x = k \/ In x (map fst d).
Proof.
  intros H. induction d as [|[k' f'] d IH]; simpl in *.
  - split. { constructor; auto. } intros x; split; intros [?|[]]; auto.
  - inversion H as [|? ? Hn Hd]; subst. destruct (String.eqb_spec k k') as [->|N]; simpl.
    + split; auto. intros x. split; intros [?|?]; auto.
    + destruct (IH Hd) as (I1 & I2). split. { constructor; auto. rewrite I2. intros [?|?]; auto. }
      intros x. rewrite I2. tauto.
Qed.
Lemma dict_set_entries {A} k (v : A) d x g : NoDup (map fst d) -> In (x, g) (dict_set k v d) <-> (x = k /\ g = v) \/ (x <> k /\ In (x, g) d).
Proof.
  intros H. induction d as [|[k' f'] d IH]; simpl in *.
  - split. { intros [E|[]]. injection E; auto. } intros [(-> & ->)|(_ & [])]; auto.
  - inversion H as [|? ? Hn Hd]; subst. destruct (String.eqb_spec k k') as [->|N]; simpl.
    + split.
      * intros [E|E]. { injection E; auto. } right. split; auto. intros ->. apply Hn. apply in_map_iff. exists (k', g). auto.
      * intros [(-> & ->)|(E1 & [E2|E2])]; auto. congruence.
    + rewrite (IH Hd). split.
      * intros [E|[E|(E1 & E2)]]; auto. right. split; auto. congruence.
      * intros [E|(E1 & [E2|E2])]; auto.
Qed.
Lemma dict_of_snoc {A} (l : list (string * A)) kv : dict_of (l ++ [kv]) = dict_set (fst kv) (snd kv) (dict_of l).
Proof. unfold dict_of. rewrite fold_left_app. reflexivity. Qed.
Lemma dict_of_nodup {A} (l : list (string * A)) : NoDup (map fst (dict_of l)).
Proof. induction l as [|kv l IH] using rev_ind. { constructor. } rewrite dict_of_snoc. apply dict_set_keys. auto. Qed.
Lemma snoc_split {A} (l l1 l2 : list A) x y : l ++ [x] = l1 ++ y :: l2 -> (l2 = [] /\ l1 = l /\ y = x) \/ exists l2', l2 = l2' ++ [x] /\ l = l1 ++ y :: l2'.
Proof.
  intros H. destruct l2 as [|z l2 _] using rev_ind.
  - left. apply app_inj_tail in H. destruct H; auto.
  - right. exists l2. rewrite app_comm_cons, app_assoc in H. apply app_inj_tail in H. destruct H as (H1 & H2). subst. auto.
Qed.
Lemma dict_of_entries {A} (l : list (string * A)) k g : In (k, g) (dict_of l) <-> exists l1 l2, l = l1 ++ (k, g) :: l2 /\ ~ In k (map fst l2).
Proof.
  induction l as [|[k0 v0] l IH] using rev_ind.
  - split. { intros []. } intros (l1 & l2 & E & _). destruct l1; discriminate.
  - rewrite dict_of_snoc, dict_set_entries, IH by apply dict_of_nodup. cbn [fst snd]. split.
    + intros [(-> & ->)|(N & l1 & l2 & -> & H)].
      * exists l, []. split; auto.
      * exists l1, (l2 ++ [(k0, v0)]). split. { rewrite <- app_assoc. reflexivity. } rewrite map_app, in_app_iff. simpl. intros [?|[?|[]]]; auto.
    + intros (l1 & l2 & E & H). apply snoc_split in E as [(-> & -> & E)|(l2' & -> & ->)].
      * injection E; auto.
      * rewrite map_app, in_app_iff in H. simpl in H. right. split; [|exists l1, l2'; split; auto; tauto]. intros ->. apply H. auto.
Qed.

Theorem C18_functions np a c : te_init np a = Ok c ->
  stored_functions true (a_en a) (en_fns c) /\ stored_functions false (a_rel a) (rel_fns c) /\ stored_functions false (a_abs a) (abs_fns c).
Proof.
  intros H. apply init_fields in H as (sd & m & -> & _ & _). cbn [en_fns rel_fns abs_fns].
  assert (G : forall b f, stored_functions b f (fns_dict b f)).
  { intros b [d|l|n g|]; simpl; auto.
    - split; [apply dict_of_nodup|intros; apply dict_of_entries].
    - destruct b; auto. split; auto. intros n g ne p [E|[]]. injection E as <- <-. eauto. }
  repeat split; apply G.
Qed.
Print Assumptions C18_functions.

(** An accepted configuration is [valid] in the sense of the other theorems,
    for a blob with a positive rest energy and a split with at least one row. *)
Theorem C18_valid np a c : te_init np a = Ok c -> 0 < b_mec2 a ->
  (forall rows, a_subinit a = Some rows -> rectangular rows /\ rows <> []) -> valid c.
Proof.
  intros H Hm Hr. assert (Ha := init_inv np a c H (fun rows E => proj1 (Hr rows E))).
  apply init_fields in H as (sd & m & -> & Hsd & Hme). constructor; cbn [mec2 subinit optimize stepd method g0].
  - exact Hm.
  - intros rows E. destruct (Hr rows E) as (R1 & R2). split; auto. intros r Hi. destruct (ac_split a Ha rows E) as (_ & (g & -> & Hl) & _ & _).
    destruct rows as [|r0 rows]; [contradiction|]. rewrite <- (Hl r0 eq_refl). apply R1; simpl; auto.
  - intros Ho. destruct Hsd as [(-> & _)|(s & -> & E)]; auto. destruct (a_optimize a) as [[|]|] eqn:Eo; try discriminate. assert (T := ac_reuse a Ha Eo). congruence.
  - intros Ho. destruct Hme as [(-> & E)|(-> & _)]; auto. exfalso. apply (ac_heun a Ha E). unfold reuse_wanted.
    destruct (a_optimize a) as [[|]|] eqn:Eo; auto; try discriminate. destruct Hsd as [(-> & E2)|(s & -> & E2)]; auto. discriminate.
Qed.
Print Assumptions C18_valid.

(** A configuration with everything given, accepted; and rejected with the
    second function renamed to the name of the first. *)
Definition ex_args (n : string) (bsize : nat) (bd : option (R * R)) (g : option (list R)) (sp : option (list (list R))) : args :=
  {| a_total := 5; a_en := FList [("cool"%string, zerof); ("cool"%string, zerof)]; a_rel := FOne n zerof; a_abs := FNone; a_step := SQuantity 2;
     a_g0 := g; a_bounds := bd; a_creep := 1 / 10; a_merge := None; a_maxE := 1; a_maxD := 1; a_maxI := 1;
     a_optimize := None; a_method := "heun"; a_subgroups := Some [["cool"%string]; ["esc"%string]]; a_subinit := sp;
     b_gmin := 10; b_gmax := 1000; b_size := bsize; b_mec2 := 1 |}.
Definition ex_full (n : string) : args := ex_args n 3 (Some (1, 10 ^ 6)) (Some [10; 100]) (Some [[1 / 4; 1]; [3 / 4; 0]]).
Example C18_case : (forall n rows, a_subinit (ex_full n) = Some rows -> rectangular rows /\ rows <> []) /\ accepted (ex_full "esc") /\
  ~ accepted (ex_full "cool") /\ exists c, te_init np0 (ex_full "esc") = Ok c /\ optimize c = false /\ map fst (en_fns c) = ["cool"%string].
Proof.
  assert (R : forall n rows, a_subinit (ex_full n) = Some rows -> rectangular rows /\ rows <> []).
  { intros n rows E. injection E as <-. split; [|discriminate]. intros r r' [<-|[<-|[]]] [<-|[<-|[]]]; reflexivity. }
  split; [exact R|].
  assert (A : accepted (ex_full "esc")).
  { constructor; cbn.
    - right. eauto.
    - intros k. repeat split; try tauto; [intros ((f & [E|[E|[]]]) & E2); congruence| |]; intros (_ & (E & _)); discriminate.
    - intros lo hi g x E1 E2. injection E1 as <- <-. injection E2 as <-. intros [<-|[<-|[]]]; lra.
    - intros g E. injection E as <-. intros [|[|i]] x y (E1 & E2); simpl in *; try (destruct i; discriminate); try discriminate. injection E1 as <-. injection E2 as <-. lra.
    - discriminate.
    - auto.
    - intros _ [E|(_ & E)]; discriminate.
    - intros gs names k E. injection E as <-. intros [<-|[<-|[]]] [<-|[]]; eauto.
    - intros rows E. injection E as <-. split; [discriminate|]. split. { eexists; split; [reflexivity|]. intros f Ef. injection Ef as <-. reflexivity. }
      split; [discriminate|]. intros [|[|j]] f Ef; injection Ef as <-; cbn; intros Hj; try lia;
        match goal with |- Rabs ?x <= _ => replace x with 0 by lra end; rewrite Rabs_R0; lra. }
  split; [exact A|]. split.
  - intros B. destruct (ac_distinct _ B "cool") as (N & _). apply N. split; [exists zerof|]; simpl; auto.
  - destruct (proj2 (C18_accepts np0 _ (fun rows E => proj1 (R _ rows E))) A) as (c & Hc). exists c. split; auto.
    apply init_fields in Hc as (sd & m & -> & Hsd & _). cbn. destruct Hsd as [(_ & E)|(s & -> & _)]; [discriminate|]. auto.
Qed.

(* ------------------------------------------------------------------ C20 *)

Lemma p10_strict np x y : numpy_ok np -> numpy_exact np -> x < y -> p10 np x < p10 np y.
Proof.
  intros Ho He H. destruct (Rlt_or_le (p10 np x) (p10 np y)); auto. assert (T := lg_mono np Ho _ _ (p10_pos np Ho y) H0). rewrite !(lg_p10 np He) in T. lra.
Qed.
Lemma te_logspace_nth np lo hi n i : (i < n)%nat -> nth_error (logspace np lo hi n) i = Some (p10 np (lg np lo + INR i * ((lg np hi - lg np lo) / INR (n - 1)))).
Proof.
  intros H. unfold logspace. rewrite nth_error_map. rewrite (nth_error_nth' (seq 0 n) 0%nat) by (rewrite seq_length; auto). rewrite seq_nth by auto. reflexivity.
Qed.
Lemma te_logspace_ends np lo hi n : numpy_exact np -> 0 < lo -> 0 < hi -> (2 <= n)%nat ->
  nth_error (logspace np lo hi n) 0 = Some lo /\ nth_error (logspace np lo hi n) (n - 1) = Some hi.
Proof.
  intros He Hl Hh Hn. rewrite !te_logspace_nth by lia. split; f_equal.
  - cbn [INR]. rewrite Rmult_0_l, Rplus_0_r. apply (p10_lg np He). auto.
  - rewrite <- (p10_lg np He hi) at 2 by auto. f_equal. field. apply not_0_INR. lia.
Qed.
Lemma te_logspace_neighbours np lo hi n i a b : (2 <= n)%nat -> neighbours (logspace np lo hi n) i a b ->
  exists u, a = p10 np u /\ b = p10 np (u + (lg np hi - lg np lo) / INR (n - 1)).
Proof.
  intros Hn (H1 & H2). assert (L : length (logspace np lo hi n) = n). { unfold logspace. rewrite map_length, seq_length. auto. }
  assert (Li : (S i < n)%nat). { rewrite <- L. apply nth_error_Some. congruence. }
  rewrite te_logspace_nth in H1 by lia. rewrite te_logspace_nth in H2 by lia.
  assert (T : forall x y : R, Some x = Some y -> y = x) by congruence. apply T in H1. apply T in H2. subst a b.
  eexists. split; [reflexivity|]. f_equal. rewrite S_INR. lra.
Qed.

(** Without initial_gamma_array: [b_size] gammas, from the larger of the lower
    limits to the smaller of the upper limits, strictly increasing if that
    range is not empty. *)
Theorem C20_default np a c lo hi : numpy_ok np -> numpy_exact np -> te_init np a = Ok c -> a_g0 a = None -> (2 <= b_size a)%nat -> 0 < b_gmin a ->
  (a_bounds a = None -> lo = b_gmin a /\ hi = b_gmax a) ->
  (forall bl bh, a_bounds a = Some (bl, bh) -> lo = Rmax (b_gmin a) bl /\ hi = Rmin (b_gmax a) bh) ->
  lo < hi ->
  length (g0 c) = b_size a /\ nth_error (g0 c) 0 = Some lo /\ nth_error (g0 c) (b_size a - 1) = Some hi /\ increasing (g0 c) /\
  forall g, In g (g0 c) -> lo <= g <= hi.
Proof.
  intros Ho He H Hg Hn Hp Hb1 Hb2 Hlh. apply init_fields in H as (sd & m & -> & _ & _). cbn [g0]. rewrite Hg.
  assert (E : default_grid np a = logspace np lo hi (b_size a)).
  { unfold default_grid. destruct (a_bounds a) as [[bl bh]|]; cbn [fst snd].
    - destruct (Hb2 bl bh eq_refl) as (-> & ->). reflexivity.
    - destruct (Hb1 eq_refl) as (-> & ->). rewrite Rmax_left by lra. reflexivity. }
  assert (Hlo : 0 < lo). { destruct (a_bounds a) as [[bl bh]|]. { destruct (Hb2 bl bh eq_refl) as (-> & _). eapply Rlt_le_trans; [exact Hp|apply Rmax_l]. } destruct (Hb1 eq_refl) as (-> & _). auto. }
  rewrite E. clear E. assert (L : length (logspace np lo hi (b_size a)) = b_size a). { unfold logspace. rewrite map_length, seq_length. auto. }
  assert (D : 0 < (lg np hi - lg np lo) / INR (b_size a - 1)).
  { apply Rdiv_lt_0_compat. { assert (T := lg_strict np He lo hi Hlo Hlh). lra. } apply lt_0_INR. lia. }
  destruct (te_logspace_ends np lo hi (b_size a)) as (E1 & E2); auto; [lra|].
  split; [exact L|]. split; [exact E1|]. split; [exact E2|]. split.
  - intros i x y Hxy. apply te_logspace_neighbours in Hxy as (u & -> & ->); auto. apply p10_strict; auto. lra.
  - intros g Hi. apply In_nth_error in Hi as (i & Hi). assert (Li : (i < b_size a)%nat). { rewrite <- L. apply nth_error_Some. congruence. }
    rewrite te_logspace_nth in Hi by auto. assert (T : forall x y : R, Some x = Some y -> y = x) by congruence. apply T in Hi. subst g. clear T. set (d := (lg np hi - lg np lo) / INR (b_size a - 1)) in *.
    assert (P : forall x y, x <= y -> p10 np x <= p10 np y). { intros x y [T|T]; [left; apply p10_strict; auto|subst; lra]. }
    assert (Q1 := p10_lg np He lo Hlo). assert (Q2 := p10_lg np He hi ltac:(lra)).
    assert (I0 : 0 <= INR i) by apply pos_INR. assert (I1 : INR i <= INR (b_size a - 1)) by (apply le_INR; lia).
    assert (Eh : lg np hi = lg np lo + INR (b_size a - 1) * d). { unfold d. field. apply not_0_INR. lia. }
    split; [rewrite <- Q1 at 1|rewrite <- Q2, Eh]; apply P; nra.
Qed.
Print Assumptions C20_default.

(** If the range is empty the constructor nevertheless succeeds, with a
    decreasing grid running the wrong way, outside the bounds at one end. *)
Theorem C20_empty_range np a lo hi : numpy_ok np -> numpy_exact np -> accepted a -> a_g0 a = None -> a_bounds a = Some (lo, hi) -> (2 <= b_size a)%nat -> 0 < lo -> 0 < hi -> 0 < b_gmin a -> 0 < b_gmax a ->
  Rmin (b_gmax a) hi < Rmax (b_gmin a) lo ->
  exists c, te_init np a = Ok c /\ nth_error (g0 c) 0 = Some (Rmax (b_gmin a) lo) /\ nth_error (g0 c) (b_size a - 1) = Some (Rmin (b_gmax a) hi) /\
    forall i x y, neighbours (g0 c) i x y -> y < x.
Proof.
  intros Ho He Ha Hg Hb Hn Hlo Hhi Hgm HgM Hlt.
  assert (Hr : forall rows, a_subinit a = Some rows -> rectangular rows). { intros rows E. destruct (ac_split a Ha rows E) as (_ & (g & E2 & _) & _). congruence. }
  destruct (proj2 (C18_accepts np a Hr) Ha) as (c & Hc). exists c. split; auto. apply init_fields in Hc as (sd & m & -> & _ & _). cbn [g0]. rewrite Hg. unfold default_grid. rewrite Hb. cbn [fst snd].
  set (l := Rmax (b_gmin a) lo) in *. set (h := Rmin (b_gmax a) hi) in *.
  assert (Hl : 0 < l) by (eapply Rlt_le_trans; [exact Hgm|apply Rmax_l]). assert (Hh : 0 < h) by (apply Rmin_glb_lt; auto).
  destruct (te_logspace_ends np l h (b_size a)) as (E1 & E2); auto. split; [exact E1|]. split; [exact E2|].
  intros i x y Hxy. apply te_logspace_neighbours in Hxy as (u & -> & ->); auto. apply p10_strict; auto.
  assert (0 < (lg np l - lg np h) / INR (b_size a - 1)).
  { apply Rdiv_lt_0_compat. { assert (T := lg_strict np He h l Hh Hlt). lra. } apply lt_0_INR. lia. }
  replace ((lg np h - lg np l) / INR (b_size a - 1)) with (- ((lg np l - lg np h) / INR (b_size a - 1))) by (field; apply not_0_INR; lia). lra.
Qed.
Print Assumptions C20_empty_range.

Lemma ex_args_accepted bd : accepted (ex_args "esc" 3 (Some bd) None None).
Proof.
  constructor; cbn; try discriminate; auto.
  - right. eauto.
  - intros k. repeat split; try tauto; [intros ((f & [E|[E|[]]]) & E2); congruence| |]; intros (_ & (E & _)); discriminate.
  - intros _ [E|(_ & E)]; discriminate.
  - intros gs names k E. injection E as <-. intros [<-|[<-|[]]] [<-|[]]; eauto.
Qed.
(** a blob distribution between 10 and 1000 with bounds (1, 500): three gammas
    from 10 to 500; with bounds (2000, 5000): an empty range *)
Example C20_case : numpy_ok np0 /\ numpy_exact np0 /\
  (exists c, te_init np0 (ex_args "esc" 3 (Some (1, 500)) None None) = Ok c /\ nth_error (g0 c) 0 = Some 10 /\ nth_error (g0 c) 2 = Some 500) /\
  (exists c, te_init np0 (ex_args "esc" 3 (Some (2000, 5000)) None None) = Ok c /\ nth_error (g0 c) 0 = Some 2000 /\ nth_error (g0 c) 2 = Some 1000).
Proof.
  split; [exact np0_ok|]. split; [exact np0_exact|]. split.
  - destruct (proj2 (C18_accepts np0 (ex_args "esc" 3 (Some (1, 500)) None None) ltac:(discriminate)) (ex_args_accepted _)) as (c & Hc). exists c. split; auto.
    assert (E1 : Rmax 10 1 = 10) by (apply Rmax_left; lra). assert (E2 : Rmin 1000 500 = 500) by (apply Rmin_right; lra).
    destruct (C20_default np0 _ c 10 500 np0_ok np0_exact Hc eq_refl) as (_ & H1 & H2 & _); cbn [a_bounds ex_args b_size b_gmin b_gmax]; try lra; try lia; try discriminate.
    { intros bl bh E. injection E as <- <-. split; symmetry; auto. } auto.
  - destruct (C20_empty_range np0 (ex_args "esc" 3 (Some (2000, 5000)) None None) 2000 5000 np0_ok np0_exact (ex_args_accepted _) eq_refl eq_refl) as (c & Hc & H1 & H2 & _); cbn [a_bounds ex_args b_size b_gmin b_gmax]; try lra; try lia.
    { rewrite Rmin_left, Rmax_right by lra. lra. }
    exists c. split; auto. cbn [b_gmin b_gmax b_size ex_args] in H1, H2. rewrite Rmax_right in H1 by lra. rewrite Rmin_left in H2 by lra. auto.
Qed.
