(** C93: the directory made for figures; C94: checks against reference values. *)
From Coq Require Import Ascii.
From Verif Require Import Base Utils Spec_Utils.
From Verif Require Import MathUtils Conversion Spectra Blob MathFacts Spec_Emission Spec_Beams Props_Beams Props_Blob Props_Budget.
Open Scope string_scope.
Open Scope list_scope.
Open Scope R_scope.

(** ** C93 *)
Lemma is_prefix_spec p q : is_prefix p q = true <-> inside p q.
Proof.
  revert q; induction p as [|a p IH]; intros q; simpl; [split; [intros _; exists q; auto|auto]|].
  destruct q as [|b q]; [split; [discriminate|intros [r H]; discriminate]|].
  rewrite andb_true_iff, String.eqb_eq, IH. split.
  - intros [-> [r ->]]. exists r. auto.
  - intros [r H]. injection H as -> ->. split; auto. exists r; auto.
Qed.
Lemma is_prefix_false p q : is_prefix p q = false <-> ~ inside p q.
Proof. rewrite <- is_prefix_spec. destruct (is_prefix p q); split; congruence. Qed.
Lemma inside_refl p : inside p p.
Proof. exists nil. rewrite app_nil_r. auto. Qed.
Lemma inside_trans p q r : inside p q -> inside q r -> inside p r.
Proof. intros [a ->] [b ->]. exists (a ++ b). rewrite app_assoc. auto. Qed.
Lemma inside_anti p q : inside p q -> inside q p -> p = q.
Proof. intros [a ->] [b H]. rewrite <- app_assoc in H. rewrite <- (app_nil_r p) in H at 1. apply app_inv_head in H. destruct a; [rewrite app_nil_r; auto|discriminate]. Qed.
Lemma inside_snoc q p c : inside q (p ++ c :: nil) -> q = p ++ c :: nil \/ inside q p.
Proof.
  intros [r H]. destruct r as [|x r] using rev_ind; [left; rewrite app_nil_r in H; auto|]. right.
  rewrite app_assoc in H. apply app_inj_tail in H. destruct H as [-> _]. exists r; auto.
Qed.
Lemma inside_parent p c : inside p (p ++ c :: nil).
Proof. exists (c :: nil). auto. Qed.
(** everything on the way to an existing place is a directory *)
Lemma fs_above f p q : fs_ok f -> inside q p -> q <> p -> f p <> None -> f q = Some DirNode.
Proof.
  intros [_ H] [r ->]. revert q. induction r as [|c r IH] using rev_ind; intros q Hne Hp; [rewrite app_nil_r in Hne; contradiction|].
  rewrite app_assoc in Hp. apply H in Hp. destruct r as [|x r]; [rewrite app_nil_r in Hp; auto|]. apply IH.
  - intros E. apply (f_equal (@length string)) in E. rewrite app_length in E. simpl in E. lia.
  - congruence.
Qed.
Lemma file_above_spec f p : file_above f p = true <-> exists q, inside q p /\ q <> p /\ f q = Some FileNode.
Proof.
  unfold file_above. rewrite existsb_exists. split.
  - intros (i & Hi & H). apply in_seq in Hi. exists (firstn i p). split; [exists (skipn i p); symmetry; apply firstn_skipn|]. split.
    + intros E. apply (f_equal (@length string)) in E. rewrite firstn_length in E. lia.
    + destruct (f (firstn i p)) as [[]|]; congruence.
  - intros (q & [r ->] & Hne & H). exists (length q). rewrite app_length. split.
    + apply in_seq. destruct r; [rewrite app_nil_r in Hne; contradiction|simpl; lia].
    + rewrite firstn_app, Nat.sub_diag, firstn_all. simpl. rewrite app_nil_r, H. auto.
Qed.

Definition with_dirs (f : fsys) (p : path) (f' : fsys) : Prop :=
  forall q, (inside q p -> f' q = Some DirNode) /\ (~ inside q p -> f' q = f q).
Lemma mkdir_p_ok p : forall n f, fs_ok f -> (length p <= n)%nat -> ~ blocked f p -> exists f', mkdir_p n f p = Done f' /\ with_dirs f p f'.
Proof.
  induction p as [|c p IH] using rev_ind; intros n f Hf Hn Hb.
  - assert (F : file_above f nil = false) by reflexivity. destruct Hf as [H0 H]. exists f. split.
    + destruct n; cbn [mkdir_p]; rewrite F, H0; auto.
    + intros q. split; auto. intros [r E]. symmetry in E. apply app_eq_nil in E. destruct E as [-> _]. auto.
  - rewrite app_length in Hn. simpl in Hn. destruct n as [|n]; [lia|].
    assert (F : file_above f (p ++ c :: nil) = false).
    { destruct (file_above f (p ++ c :: nil)) eqn:E; auto. apply file_above_spec in E. destruct E as (q & A & _ & B). exfalso. apply Hb. exists q. auto. }
    assert (Pa : parent (p ++ c :: nil) = p) by (unfold parent; apply removelast_last).
    assert (Hbp : ~ blocked f p). { intros (q & A & B). apply Hb. exists q. split; auto. eapply inside_trans; [exact A|apply inside_parent]. }
    destruct (f (p ++ c :: nil)) as [[]|] eqn:Ep.
    + exfalso. apply Hb. exists (p ++ c :: nil). split; [apply inside_refl|auto].
    + exists f. cbn [mkdir_p]. rewrite F, Ep. split; auto. intros q. split; auto. intros Hq.
      destruct (path_eq_dec q (p ++ c :: nil)) as [->|Hne]; auto. apply (fs_above f (p ++ c :: nil)); auto. congruence.
    + assert (SD : forall f1, with_dirs f p f1 -> with_dirs f (p ++ c :: nil) (set_dir f1 (p ++ c :: nil))).
      { intros f1 W q. unfold set_dir. destruct (path_eq_dec q (p ++ c :: nil)) as [->|Hne].
        - split; auto. intros X. exfalso. apply X, inside_refl.
        - split; intros Hq.
          + destruct (inside_snoc _ _ _ Hq) as [|Hq']; [contradiction|]. apply W; auto.
          + apply W. intros X. apply Hq. eapply inside_trans; [exact X|apply inside_parent]. }
      destruct (f p) as [nd|] eqn:Epp.
      * exists (set_dir f (p ++ c :: nil)). split; [cbn [mkdir_p]; rewrite F, Ep, Pa, Epp; auto|]. apply SD. intros q. split; auto. intros Hq.
        destruct (path_eq_dec q p) as [->|Hne].
        -- destruct nd; auto. exfalso. apply Hbp. exists p. split; [apply inside_refl|auto].
        -- apply (fs_above f p); auto. congruence.
      * destruct (IH n f Hf ltac:(lia) Hbp) as (f' & E' & W). exists (set_dir f' (p ++ c :: nil)). split; [cbn [mkdir_p]; rewrite F, Ep, Pa, Epp, E'; auto|].
        apply SD; auto.
Qed.
Lemma mkdir_p_blocked n f p : file_above f p = true -> mkdir_p n f p = Fail NotADirectoryError.
Proof. intros H. destruct n; cbn [mkdir_p]; rewrite H; auto. Qed.

Lemma rmtree_ok f p : fs_ok f -> f p = Some DirNode -> p <> nil -> fs_ok (rmtree f p).
Proof.
  intros [H0 H] Hp Hne. split.
  - unfold rmtree. destruct p; [contradiction|]. auto.
  - intros q c. unfold rmtree. destruct (is_prefix p (q ++ c :: nil)) eqn:E; [contradiction|]. intros Hq.
    destruct (is_prefix p q) eqn:E'; [|apply (H q c); auto].
    apply is_prefix_spec in E'. apply is_prefix_false in E. exfalso. apply E. eapply inside_trans; [exact E'|apply inside_parent].
Qed.

(** Nothing in the way: an empty directory stands there afterwards, with the
    directories leading to it; nothing else has changed. *)
Theorem C93_fresh_directory cwd f main sub pp : fs_ok f -> target_dir main sub = Done pp ->
  let p := resolve cwd pp in
  ~ In ".." p -> p <> nil -> ~ inside p cwd -> ~ blocked f p ->
  exists f', clean_and_make_dir cwd f main sub = (f', Done pp) /\ fresh_dir f p f' /\ fs_ok f'.
Proof.
  intros Hf Ht p _ Hp _ Hb. unfold clean_and_make_dir. rewrite Ht. fold p.
  set (f1 := match f p with Some DirNode => rmtree f p | _ => f end).
  assert (H1 : fs_ok f1). { unfold f1. destruct (f p) as [[]|] eqn:E; auto. apply rmtree_ok; auto. }
  assert (Q : forall q, f1 q = if is_prefix p q then None else f q).
  { intros q. unfold f1. destruct (f p) as [[]|] eqn:E; [exfalso; apply Hb; exists p; split; auto; apply inside_refl|reflexivity|].
    destruct (is_prefix p q) eqn:E'; auto. apply is_prefix_spec in E'. destruct (f q) eqn:Eq; auto.
    destruct (path_eq_dec p q) as [->|Hne]; [congruence|]. rewrite (fs_above f q p Hf) in E; auto; congruence. }
  assert (B1 : ~ blocked f1 p). { intros (q & A & B). rewrite Q in B. destruct (is_prefix p q); [discriminate|]. apply Hb. exists q; auto. }
  destruct (mkdir_p_ok p (length p) f1 H1 (le_n _) B1) as (f' & E' & W). rewrite E'. exists f'. split; auto.
  assert (FD : fresh_dir f p f').
  { intros q. split; [apply W|]. split.
    - intros Hi Hne. rewrite (proj2 (W q)); [|intros X; apply Hne; apply inside_anti; auto]. rewrite Q. rewrite (proj2 (is_prefix_spec _ _) Hi). auto.
    - intros N1 N2. rewrite (proj2 (W q) N1), Q. rewrite (proj2 (is_prefix_false _ _) N2). auto. }
  split; auto. split.
  - apply FD. exists p. auto.
  - intros q c Hq. destruct (is_prefix (q ++ c :: nil) p) eqn:E1.
    + apply is_prefix_spec in E1. apply FD. eapply inside_trans; [apply inside_parent|exact E1].
    + apply is_prefix_false in E1. destruct (is_prefix p (q ++ c :: nil)) eqn:E2.
      * apply is_prefix_spec in E2. rewrite (proj1 (proj2 (FD _))) in Hq; [congruence|auto|]. intros X. apply E1. rewrite X. apply inside_refl.
      * apply is_prefix_false in E2. rewrite (proj2 (proj2 (FD _))) in Hq; auto. apply (proj2 Hf) in Hq.
        destruct (is_prefix q p) eqn:E3; [apply is_prefix_spec in E3; apply FD; auto|]. apply is_prefix_false in E3.
        rewrite (proj2 (proj2 (FD q))); auto. intros X. apply E2. eapply inside_trans; [exact X|apply inside_parent].
Qed.
Print Assumptions C93_fresh_directory.

(** A file in the way, or arguments of the wrong type: an exception, and nothing
    has changed. *)
Theorem C93_refused cwd f main sub : fs_ok f ->
  (forall pp, target_dir main sub = Done pp -> blocked f (resolve cwd pp) ->
     exists e, clean_and_make_dir cwd f main sub = (f, Fail e) /\
       (e = FileExistsError <-> f (resolve cwd pp) = Some FileNode) /\ (e = NotADirectoryError <-> f (resolve cwd pp) <> Some FileNode)) /\
  (forall s, main = AOther s \/ (exists p, main = APath p /\ sub = Some (AOther s)) -> clean_and_make_dir cwd f main sub = (f, Fail WrongTypes)).
Proof.
  intros Hf. split.
  - intros pp Ht (q & Hq & Ef). set (p := resolve cwd pp) in *. unfold clean_and_make_dir. rewrite Ht. fold p.
    assert (Nd : f p <> Some DirNode). { intros E. destruct (path_eq_dec q p) as [->|Hne]; [congruence|]. rewrite (fs_above f p q Hf) in Ef; auto; congruence. }
    assert (E1 : match f p with Some DirNode => rmtree f p | _ => f end = f) by (destruct (f p) as [[]|]; congruence). rewrite E1.
    destruct (path_eq_dec q p) as [->|Hne].
    + assert (F : file_above f p = false).
      { destruct (file_above f p) eqn:E; auto. apply file_above_spec in E. destruct E as (q & A & B & C). rewrite (fs_above f p q Hf) in C; auto; congruence. }
      exists FileExistsError. destruct (length p); cbn [mkdir_p]; rewrite F, Ef; (split; [reflexivity|]); split; split; congruence.
    + exists NotADirectoryError. rewrite mkdir_p_blocked by (apply file_above_spec; exists q; auto). split; [reflexivity|].
      assert (f p <> Some FileNode). { intros E. rewrite (fs_above f p q Hf) in Ef; auto; congruence. }
      split; split; congruence.
  - intros s [-> | (p & -> & ->)]; unfold clean_and_make_dir; [destruct sub|]; reflexivity.
Qed.
Print Assumptions C93_refused.

Lemma split_slash s : forall cur t, split_parts cur (s ++ String "/" t) = split_parts cur s ++ split_parts "" t.
Proof.
  induction s as [|c s IH]; intros cur t; [reflexivity|]. cbn [append split_parts].
  destruct (Ascii.eqb c "/"); rewrite IH; auto.
Qed.
Lemma parts_slash s t : parts (s ++ "/" ++ t) = parts s ++ parts t.
Proof. unfold parts. change (s ++ "/" ++ t)%string with (s ++ String "/" t)%string. rewrite split_slash, filter_app. auto. Qed.

Lemma split_free s : forall cur, slash_free s -> split_parts cur s = (cur ++ s)%string :: nil.
Proof.
  induction s as [|c s IH]; intros cur H; cbn [split_parts].
  - f_equal. induction cur as [|d cur IH]; auto. cbn. f_equal. exact IH.
  - destruct H as [Hc H]. destruct (Ascii.eqb_spec c "/"); [contradiction|]. rewrite IH by auto. f_equal.
    clear. induction cur as [|d cur IH]; auto. cbn. f_equal. exact IH.
Qed.
(** The parts of a path: they are determined by these three clauses. *)
Theorem C93_parts :
  (forall s, slash_free s -> s <> "" -> s <> "." -> parts s = s :: nil) /\
  parts "" = nil /\ parts "." = nil /\
  (forall s t, parts (s ++ "/" ++ t) = parts s ++ parts t) /\
  (forall c s, is_abs (String c s) = true <-> c = "/"%char) /\ is_abs "" = false.
Proof.
  split; [|split; [|split; [|split; [|split]]]]; auto.
  - intros s H N1 N2. unfold parts. rewrite split_free by auto. cbn [append filter]. unfold proper_part.
    destruct (String.eqb_spec s ""); [contradiction|]. destruct (String.eqb_spec s "."); [contradiction|]. auto.
  - apply parts_slash.
  - intros c s. cbn. apply Ascii.eqb_eq.
Qed.
Print Assumptions C93_parts.

(** Which directory: below main_dir, except for an absolute sub_dir given with a
    PosixPath, which stands alone, and an empty main_dir string, which puts
    sub_dir below the root. *)
Theorem C93_place cwd s t p : let at_ a b := match target_dir a (Some b) with Done pp => Some (resolve cwd pp) | Fail _ => None end in
  (s <> "" -> at_ (AStr s) (AStr t) = Some (resolve cwd (mk_path s) ++ parts t)) /\
  at_ (AStr "") (AStr t) = Some (parts t) /\
  (is_abs t = false -> at_ (APath p) (AStr t) = Some (resolve cwd p ++ parts t)) /\
  (is_abs t = true -> at_ (APath p) (AStr t) = Some (parts t)) /\
  (forall a, target_dir (AStr s) None = Done a -> resolve cwd a = resolve cwd (mk_path s)) /\ target_dir (APath p) None = Done p.
Proof.
  intros at_. unfold at_. cbn [target_dir arg_str]. split; [|split; [|split; [|split; [|split]]]]; auto.
  - intros Hs. unfold resolve, mk_path. cbn [pp_abs pp_parts]. rewrite parts_slash.
    replace (is_abs (s ++ "/" ++ t)) with (is_abs s) by (destruct s; [contradiction|reflexivity]). destruct (is_abs s); auto. rewrite app_assoc; auto.
  - intros Ht. unfold join, mk_path, resolve. cbn [pp_abs pp_parts]. rewrite Ht. cbn [pp_abs pp_parts]. destruct (pp_abs p); auto. rewrite app_assoc; auto.
  - intros Ht. unfold join, mk_path, resolve. cbn [pp_abs pp_parts]. rewrite Ht. cbn [pp_abs pp_parts]. try rewrite Ht. auto.
  - cbn. intros a Ea. congruence.
Qed.
Print Assumptions C93_place.

(** a home directory with an old figure in it *)
Definition ex_fs : fsys := fun q =>
  if path_eq_dec q nil then Some DirNode
  else if path_eq_dec q ("home" :: nil) then Some DirNode
  else if path_eq_dec q ("home" :: "figures" :: nil) then Some DirNode
  else if path_eq_dec q ("home" :: "figures" :: "old.png" :: nil) then Some FileNode
  else if path_eq_dec q ("home" :: "notes" :: nil) then Some FileNode
  else None.
Lemma ex_fs_ok : fs_ok ex_fs.
Proof.
  split; [reflexivity|]. intros p c. unfold ex_fs.
  destruct (path_eq_dec (p ++ c :: nil) nil) as [E|_]; [destruct p; discriminate|].
  destruct (path_eq_dec (p ++ c :: nil) ("home" :: nil)) as [E|_]; [apply (app_inj_tail p nil) in E; destruct E as [-> _]; auto|].
  destruct (path_eq_dec (p ++ c :: nil) ("home" :: "figures" :: nil)) as [E|_]; [apply (app_inj_tail p ("home" :: nil)) in E; destruct E as [-> _]; auto|].
  destruct (path_eq_dec (p ++ c :: nil) ("home" :: "figures" :: "old.png" :: nil)) as [E|_]; [apply (app_inj_tail p ("home" :: "figures" :: nil)) in E; destruct E as [-> _]; auto|].
  destruct (path_eq_dec (p ++ c :: nil) ("home" :: "notes" :: nil)) as [E|_]; [apply (app_inj_tail p ("home" :: nil)) in E; destruct E as [-> _]; auto|].
  contradiction.
Qed.
Example C93_case : exists f', clean_and_make_dir ("home" :: nil) ex_fs (AStr "figures/") (Some (AStr "ssc")) = (f', Done {| pp_abs := false; pp_parts := "figures" :: "ssc" :: nil |}) /\
  f' ("home" :: "figures" :: "ssc" :: nil) = Some DirNode /\ f' ("home" :: "figures" :: "old.png" :: nil) = Some FileNode.
Proof.
  set (pp := {| pp_abs := false; pp_parts := "figures" :: "ssc" :: nil |}).
  pose proof (C93_fresh_directory ("home" :: nil) ex_fs (AStr "figures/") (Some (AStr "ssc")) pp ex_fs_ok eq_refl) as X. cbv zeta in X.
  assert (X1 : ~ In ".." (resolve ("home" :: nil) pp)) by (cbn; intuition; discriminate).
  assert (X2 : resolve ("home" :: nil) pp <> nil) by discriminate.
  assert (X3 : ~ inside (resolve ("home" :: nil) pp) ("home" :: nil)) by (cbn; intros [r H]; discriminate).
  assert (X4 : ~ blocked ex_fs (resolve ("home" :: nil) pp)).
  { intros (q & Hq & Ef). cbn in Hq. destruct Hq as [r Hq].
    destruct q as [|a q]; [vm_compute in Ef; discriminate|]. injection Hq as <- Hq.
    destruct q as [|a q]; [vm_compute in Ef; discriminate|]. injection Hq as <- Hq.
    destruct q as [|a q]; [vm_compute in Ef; discriminate|]. injection Hq as <- Hq.
    destruct q as [|a q]; [vm_compute in Ef; discriminate|discriminate]. }
  destruct (X X1 X2 X3 X4) as (f' & H1 & H2 & H3). exists f'. split; [exact H1|]. split.
  - apply H2. apply inside_refl.
  - rewrite (proj2 (proj2 (H2 _))); [reflexivity| |]; cbn; intros [r H]; discriminate.
Qed.
(** cleaning the directory of figures removes the figure; a PosixPath with an
    absolute second argument removes a directory elsewhere *)
Example C93_case_removed : exists f', clean_and_make_dir ("home" :: nil) ex_fs (APath (mk_path "figures")) None = (f', Done (mk_path "figures")) /\ f' ("home" :: "figures" :: "old.png" :: nil) = None.
Proof. eexists. split; [reflexivity|reflexivity]. Qed.
Example C93_case_elsewhere : exists f', clean_and_make_dir ("work" :: nil) ex_fs (APath (mk_path "/work")) (Some (AStr "/home/figures")) = (f', Done (mk_path "/home/figures")) /\ f' ("home" :: "figures" :: "old.png" :: nil) = None.
Proof. eexists. split; [reflexivity|reflexivity]. Qed.
Example C93_case_refused : clean_and_make_dir ("home" :: nil) ex_fs (AStr "notes") None = (ex_fs, Fail FileExistsError) /\
  clean_and_make_dir ("home" :: nil) ex_fs (AStr "notes") (Some (AStr "a")) = (ex_fs, Fail NotADirectoryError).
Proof. split; reflexivity. Qed.

(** ** C94 *)
Lemma close1_spec rtol a b : close1 rtol (a, b) = true <-> agree rtol a b.
Proof. destruct a as [u|], b as [v|]; cbn; try (split; [discriminate|contradiction]). apply Rleb_true. Qed.
Lemma in_range_spec lo hi v : num_le lo v && num_le v hi = true <-> within (Some (lo, hi)) v.
Proof.
  rewrite andb_true_iff. destruct lo as [l|], hi as [h|], v as [t|]; cbn; rewrite ?Rleb_true; split; intros H; try (destruct H; discriminate); try contradiction.
  - exists t. intuition.
  - destruct H as (u & E & H). injection E as <-. intuition.
  - destruct H as (u & E & _). discriminate.
Qed.
Lemma select_nth {A} (mask : list bool) : forall (l m : list A), length mask = length l -> length mask = length m ->
  length (select mask l) = length (select mask m) /\
  forall P : A * A -> bool, forallb P (combine (select mask l) (select mask m)) = true <->
    (forall i a b, nth_error mask i = Some true -> nth_error l i = Some a -> nth_error m i = Some b -> P (a, b) = true).
Proof.
  induction mask as [|t mask IH]; intros [|a l] [|b m] H1 H2; try discriminate.
  - split; auto. intros P. split; [intros _ [|i] x y H; discriminate|auto].
  - simpl in H1, H2. destruct (IH l m ltac:(congruence) ltac:(congruence)) as [L IH']. destruct t; simpl.
    + split; [congruence|]. intros P. rewrite andb_true_iff, IH'. split.
      * intros [Hp H] [|i] x y E1 E2 E3; simpl in *; [congruence|eauto].
      * intros H. split; [apply (H O); auto|]. intros i x y. apply (H (S i)).
    + split; auto. intros P. rewrite IH'. split.
      * intros H [|i] x y E1 E2 E3; simpl in *; [discriminate|eauto].
      * intros H i x y. apply (H (S i)).
Qed.
Lemma all_nth {A} : forall (l m : list A) (P : A * A -> bool), length l = length m -> forallb P (combine l m) = true <->
    (forall i a b, nth_error l i = Some a -> nth_error m i = Some b -> P (a, b) = true).
Proof.
  induction l as [|a l IH]; intros [|b m] P H; try discriminate.
  - split; [intros _ [|i] x y E; discriminate|auto].
  - simpl in *. rewrite andb_true_iff, IH by congruence. split.
    + intros [Hp Hq] [|i] x y E1 E2; simpl in *; [congruence|eauto].
    + intros Hq. split; [apply (Hq O); auto|]. intros i x y. apply (Hq (S i)).
Qed.

(** For arrays of one length the answer is yes exactly if each pair in the range agrees. *)
Theorem C94_accepts x y_comp y_ref rtol range : length x = length y_comp -> length x = length y_ref ->
  exists r, check_deviation x y_comp y_ref rtol range = Ok r /\
  (r = true <-> forall i v a b, nth_error x i = Some v -> nth_error y_comp i = Some a -> nth_error y_ref i = Some b -> within range v -> agree rtol a b).
Proof.
  intros H1 H2. unfold check_deviation. destruct range as [[lo hi]|].
  - set (cond := map _ x). assert (Lc : length cond = length x) by apply map_length. unfold masked.
    rewrite (proj2 (Nat.eqb_eq _ _) (eq_trans Lc H2)). cbn [bind]. rewrite (proj2 (Nat.eqb_eq _ _) (eq_trans Lc H1)). cbn [bind fst snd].
    destruct (select_nth cond y_comp y_ref ltac:(congruence) ltac:(congruence)) as [L S]. unfold broadcast. rewrite (proj2 (Nat.eqb_eq _ _) L). cbn [bind].
    eexists. split; [reflexivity|]. rewrite S. split.
    + intros H i v a b E1 E2 E3 W. apply close1_spec. apply (H i); auto. unfold cond. rewrite nth_error_map, E1. cbn. f_equal. apply in_range_spec; auto.
    + intros H i a b E1 E2 E3. apply close1_spec. unfold cond in E1. rewrite nth_error_map in E1. destruct (nth_error x i) as [v|] eqn:Ev; [|discriminate].
      cbn in E1. apply (H i v a b); auto. apply in_range_spec. congruence.
  - cbn [bind fst snd]. unfold broadcast. rewrite (proj2 (Nat.eqb_eq _ _) (eq_trans (eq_sym H1) H2)). cbn [bind]. eexists. split; [reflexivity|].
    rewrite all_nth by congruence. split.
    + intros H i v a b _ E2 E3 _. apply close1_spec. eauto.
    + intros H i a b E2 E3. apply close1_spec. assert (Hi : (i < length x)%nat) by (rewrite H1; apply nth_error_Some; congruence).
      destruct (nth_error x i) as [v|] eqn:Ev; [|apply nth_error_None in Ev; lia]. apply (H i v a b); auto. exact Logic.I.
Qed.
Print Assumptions C94_accepts.

(** what agreement means, how it chains, and what it does not mean *)
Theorem C94_agreement :
  (forall rtol a b, b <> 0 -> agree rtol (Some a) (Some b) <-> Rabs (a / b - 1) <= rtol) /\
  (forall rtol a, agree rtol (Some a) (Some 0) <-> a = 0) /\
  (forall r s a b c, 0 <= r -> agree r a b -> agree s b c -> agree (r + s + r * s) a c) /\
  (forall r a b, 0 <= r < 1 -> agree r a b -> agree (r / (1 - r)) b a) /\
  (forall r, 0 < r -> exists a b, agree r a b /\ ~ agree r b a).
Proof.
  split; [|split; [|split; [|split]]].
  - intros rtol a b Hb. cbn. replace (a / b - 1) with ((a - b) / b) by (field; auto). unfold Rdiv at 1. rewrite Rabs_mult, Rabs_inv.
    assert (Hp : 0 < Rabs b) by (apply Rabs_pos_lt; auto). split; intros H.
    + apply Rmult_le_reg_r with (Rabs b); auto. rewrite Rmult_assoc, Rinv_l by lra. lra.
    + apply Rmult_le_compat_r with (r := Rabs b) in H; [|lra]. rewrite Rmult_assoc, Rinv_l in H by lra. lra.
  - intros rtol a. cbn. rewrite Rminus_0_r, Rabs_R0, Rmult_0_r. split; [|intros ->; rewrite Rabs_R0; lra].
    intros H. destruct (Req_dec a 0) as [|N]; auto. pose proof (Rabs_pos_lt a N). lra.
  - intros r s a b c Hr. destruct a as [x|], b as [y|], c as [z|]; cbn; try contradiction. intros A B.
    replace (x - z) with ((x - y) + (y - z)) by ring. pose proof (Rabs_triang (x - y) (y - z)).
    assert (Rabs y <= Rabs (y - z) + Rabs z) by (replace y with ((y - z) + z) at 1 by ring; apply Rabs_triang).
    assert (r * Rabs y <= r * (Rabs (y - z) + Rabs z)) by (apply Rmult_le_compat_l; auto).
    assert (r * Rabs (y - z) <= r * (s * Rabs z)) by (apply Rmult_le_compat_l; auto). lra.
  - intros r a b Hr. destruct a as [x|], b as [y|]; cbn; try contradiction. intros A. rewrite Rabs_minus_sym in A.
    assert (Rabs y <= Rabs (y - x) + Rabs x) by (replace y with ((y - x) + x) at 1 by ring; apply Rabs_triang).
    apply Rmult_le_reg_r with (1 - r); [lra|]. replace (r / (1 - r) * Rabs x * (1 - r)) with (r * Rabs x) by (field; lra).
    assert (Rabs (y - x) <= r * (Rabs (y - x) + Rabs x)) by (apply Rle_trans with (r * Rabs y); auto; apply Rmult_le_compat_l; lra). lra.
  - intros r Hr. destruct (Rlt_dec r 1) as [H1|H1].
    + assert (Hq : 0 < / (1 - r)) by (apply Rinv_0_lt_compat; lra). assert (E : / (1 - r) - 1 = r * / (1 - r)) by (field; lra).
      assert (1 < / (1 - r)) by nra. exists (Some 1), (Some (/ (1 - r))). cbn. rewrite Rabs_left, (Rabs_pos_eq (/ (1 - r))) by lra.
      rewrite (Rabs_pos_eq (/ (1 - r) - 1)), (Rabs_pos_eq 1) by lra. split; [lra|nra].
    + exists (Some 0), (Some 1). cbn. replace (0 - 1) with (- (1)) by ring. rewrite Rabs_Ropp, Rminus_0_r, Rabs_R0, Rabs_R1. split; lra.
Qed.
Print Assumptions C94_agreement.

(** Passing in a range implies passing in every smaller one with any larger
    tolerance; a range without points is passed by anything. *)
Theorem C94_ranges x y_comp y_ref : length x = length y_comp -> length x = length y_ref ->
  (forall lo hi lo' hi' r s, lo <= lo' -> hi' <= hi -> r <= s -> check_deviation x y_comp y_ref r (Some (Some lo, Some hi)) = Ok true ->
     check_deviation x y_comp y_ref s (Some (Some lo', Some hi')) = Ok true) /\
  (forall r lo hi, (forall v, In (Some v) x -> v < lo \/ hi < v) -> check_deviation x y_comp y_ref r (Some (Some lo, Some hi)) = Ok true).
Proof.
  intros L1 L2. split.
  - intros lo hi lo' hi' r s Hlo Hhi Hr H.
    destruct (C94_accepts x y_comp y_ref r (Some (Some lo, Some hi)) L1 L2) as (b1 & E1 & S1).
    destruct (C94_accepts x y_comp y_ref s (Some (Some lo', Some hi')) L1 L2) as (b2 & E2 & S2).
    rewrite E2. f_equal. apply S2. rewrite E1 in H. assert (Hb : b1 = true) by congruence. intros i v a b Hv Ha Hb' (t & -> & Ht).
    assert (A : agree r a b). { apply (proj1 S1 Hb i (Some t)); auto. exists t. split; auto. lra. }
    destruct a as [u|], b as [w|]; try contradiction. cbn in A |- *. pose proof (Rabs_pos w). nra.
  - intros r lo hi H. destruct (C94_accepts x y_comp y_ref r (Some (Some lo, Some hi)) L1 L2) as (b1 & E1 & S1). rewrite E1. f_equal. apply S1.
    intros i v a b Hv _ _ (t & -> & Ht). apply nth_error_In in Hv. destruct (H t Hv); lra.
Qed.
Print Assumptions C94_ranges.

(** Arrays of other lengths: with a range the two arrays must be as long as x;
    without one x is not looked at, and an array of one element is compared with all. *)
Theorem C94_lengths x y_comp y_ref rtol :
  (forall range, length x <> length y_ref \/ length x <> length y_comp -> check_deviation x y_comp y_ref rtol (Some range) = Err IndexError) /\
  (length y_comp <> length y_ref -> length y_comp <> 1%nat -> length y_ref <> 1%nat -> exists e, check_deviation x y_comp y_ref rtol None = Err (ValueError e)) /\
  (forall b, y_ref = b :: nil -> y_comp <> nil -> exists r, check_deviation x y_comp y_ref rtol None = Ok r /\ (r = true <-> forall a, In a y_comp -> agree rtol a b)).
Proof.
  split; [|split].
  - intros [lo hi] H. unfold check_deviation, masked. rewrite map_length.
    destruct (Nat.eqb_spec (length x) (length y_ref)) as [E|E]; cbn [bind]; auto. destruct (Nat.eqb_spec (length x) (length y_comp)) as [E'|E']; cbn [bind]; auto. destruct H; contradiction.
  - intros H1 H2 H3. unfold check_deviation. cbn [bind fst snd]. unfold broadcast. rewrite (proj2 (Nat.eqb_neq _ _) H1).
    destruct y_comp as [|a [|a' l]], y_ref as [|b [|b' m]]; try (exfalso; apply H2; reflexivity); try (exfalso; apply H3; reflexivity); cbn [bind]; eexists; reflexivity.
  - intros b -> Hne. unfold check_deviation. cbn [bind fst snd]. unfold broadcast. destruct y_comp as [|a l]; [contradiction|]. destruct l as [|a' l].
    + cbn [length Nat.eqb bind combine]. eexists. split; [reflexivity|]. cbn [forallb]. rewrite andb_true_r, close1_spec. split; [intros H u [<-|[]]; auto|intros H; apply H; left; auto].
    + cbn [length Nat.eqb bind]. eexists. split; [reflexivity|]. rewrite forallb_forall. split.
      * intros H u Hu. apply close1_spec. apply H. apply in_map_iff. exists u; auto.
      * intros H p Hp. apply in_map_iff in Hp. destruct Hp as (u & <- & Hu). apply close1_spec. auto.
Qed.
Print Assumptions C94_lengths.

(** The two columns of a table of at least two rows and columns, row by row. *)
Theorem C94_columns rows w : (2 <= length rows)%nat -> (2 <= w)%nat -> (forall r, In r rows -> length r = w) ->
  exists x y, extract_columns rows = Ok (x, y) /\ length x = length rows /\ length y = length rows /\
    forall i r, nth_error rows i = Some r -> nth_error x i = nth_error r 0 /\ nth_error y i = nth_error r 1.
Proof.
  intros L W H. unfold extract_columns, loadtxt_2d. destruct rows as [|r [|q rest]]; try (simpl in L; lia).
  assert (F : forallb (fun q0 => Nat.eqb (length q0) (length r)) (q :: rest) = true).
  { apply forallb_forall. intros z Hz. apply Nat.eqb_eq. rewrite (H z), (H r); auto. left; auto. right; auto. }
  rewrite F. assert (Lr : length r = w) by (apply H; left; auto). rewrite Lr. replace (Nat.leb w 1) with false by (symmetry; apply Nat.leb_gt; lia). cbn [bind].
  eexists. eexists. split; [reflexivity|]. rewrite !map_length. split; auto. split; auto.
  intros i z Hz. rewrite !nth_error_map, Hz. cbn [option_map]. assert (Lz : length z = w) by (apply H; eapply nth_error_In; eauto).
  destruct z as [|a [|b z]]; try (simpl in Lz; lia). auto.
Qed.
Print Assumptions C94_columns.
(** a table with a single row, or a single column, is refused *)
Theorem C94_single_row : (forall r, extract_columns (r :: nil) = Err IndexError) /\
  (forall l, l <> nil -> extract_columns (map (fun a => a :: nil) l) = Err IndexError).
Proof.
  split; [reflexivity|]. intros [|a l] H; [contradiction|]. unfold extract_columns, loadtxt_2d. cbn [map].
  replace (forallb _ (map (fun a0 : R => a0 :: nil) l)) with true; [destruct l; reflexivity|].
  symmetry. apply forallb_forall. intros x Hx. apply in_map_iff in Hx. destruct Hx as (b & <- & _). reflexivity.
Qed.
Print Assumptions C94_single_row.

(** to_total_energy_gev_sqr is E^2 dN/dE of all particles in the blob: divided by
    E and summed over the energies it is the energy of the electrons. *)
Theorem C94_total_energy P b GeV : 0 < GeV -> 0 < c_me P -> 0 < c_c P -> 0 < gamma_min (n_e b) -> gamma_min (n_e b) <= gamma_max (n_e b) ->
  let m := c_me P * c_c P ^ 2 / GeV in
  let gs := sampled (n_e b) (gamma_e_size b) in
  let y := to_total_energy_gev_sqr m gs (map (density (n_e b)) gs) (V_b b) in
  let energies := map (fun g => g * m) gs in
  (forall i g v, nth_error gs i = Some g -> nth_error y i = Some v -> v = (g * m) ^ 2 * (population b (n_e b) g / m)) /\
  trapezia (combine energies (map2 Rdiv y energies)) = W_e P b / GeV.
Proof.
  intros HG Hm Hc H0 H1 m gs y energies.
  assert (Mp : 0 < m) by (unfold m; apply Rdiv_lt_0_compat; auto; apply Rmult_lt_0_compat; auto; apply pow_lt; auto).
  assert (Ey : y = map (fun g => (g * m) ^ 2 * (population b (n_e b) g / m)) gs).
  { unfold y, to_total_energy_gev_sqr. clear - Mp. induction gs as [|g l IH]; auto. cbn [map map2]. f_equal; auto. unfold population, V_b. field. lra. }
  split.
  - intros i g v Hg Hv. rewrite Ey, nth_error_map, Hg in Hv. cbn [option_map] in Hv. congruence.
  - destruct (C90_contents P b H0 H1) as (_ & _ & _ & _ & EW). rewrite EW. fold gs.
    assert (Gp : forall g, In g gs -> 0 < g).
    { intros g Hg. unfold gs, sampled in Hg. unfold log_grid in Hg. apply logspace_pos in Hg. auto. }
    rewrite Ey. unfold energies, over. clear - Mp HG Gp Hm Hc. induction gs as [|g l IH]; [cbn; unfold Rdiv; ring|].
    destruct l as [|h l]; [cbn; unfold Rdiv; ring|].
    cbn [map combine map2 trapezia] in IH |- *. rewrite IH by (intros; apply Gp; right; auto).
    assert (0 < g) by (apply Gp; left; auto). assert (0 < h) by (apply Gp; right; left; auto). unfold m. field. unfold m in Mp.
    repeat split; try lra.
Qed.
Print Assumptions C94_total_energy.

(** three frequencies, a reference without a value at the last one *)
Example C94_case :
  check_deviation (Some 1 :: Some 2 :: Some 3 :: nil) (Some 10 :: Some 21 :: Some 5 :: nil) (Some 10 :: Some 20 :: None :: nil) (1 / 10) (Some (Some 1, Some 2)) = Ok true /\
  check_deviation (Some 1 :: Some 2 :: Some 3 :: nil) (Some 10 :: Some 21 :: Some 5 :: nil) (Some 10 :: Some 20 :: None :: nil) (1 / 10) None = Ok false.
Proof.
  split.
  - destruct (C94_accepts (Some 1 :: Some 2 :: Some 3 :: nil) (Some 10 :: Some 21 :: Some 5 :: nil) (Some 10 :: Some 20 :: None :: nil) (1 / 10) (Some (Some 1, Some 2))) as (r & -> & H); auto. f_equal. apply H.
    intros [|[|[|i]]] v a b E1 E2 E3 (t & -> & Ht); try discriminate; try (destruct i; discriminate); injection E1 as <-; injection E2 as <-; injection E3 as <-; cbn.
    + replace (10 - 10) with 0 by ring. rewrite Rabs_R0, Rabs_pos_eq; lra.
    + replace (21 - 20) with 1 by ring. rewrite !Rabs_pos_eq; lra.
    + lra.
  - destruct (C94_accepts (Some 1 :: Some 2 :: Some 3 :: nil) (Some 10 :: Some 21 :: Some 5 :: nil) (Some 10 :: Some 20 :: None :: nil) (1 / 10) None) as (r & -> & H); auto. f_equal.
    destruct r; auto. exfalso. apply (proj1 H eq_refl 2%nat (Some 3) (Some 5) None); try reflexivity; try exact Logic.I.
Qed.
Example C94_case_columns : extract_columns ((1 :: 2 :: nil) :: (3 :: 4 :: nil) :: nil) = Ok (1 :: 3 :: nil, 2 :: 4 :: nil).
Proof. reflexivity. Qed.
Example C94_case_energy : let b := ex_blob in let m := c_me codata * c_c codata ^ 2 / 1.602176634e-3 in
  let gs := sampled (n_e b) (gamma_e_size b) in let energies := map (fun g => g * m) gs in
  trapezia (combine energies (map2 Rdiv (to_total_energy_gev_sqr m gs (map (density (n_e b)) gs) (V_b b)) energies)) = W_e codata b / 1.602176634e-3.
Proof.
  intros b m gs energies. destruct codata_ok. apply (C94_total_energy codata b 1.602176634e-3); auto; try lra; unfold b, ex_blob; cbn; lra.
Qed.
