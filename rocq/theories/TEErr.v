(** Where the errors of a step come from. *)
From Verif Require Import Base TEUtils TimeEvolution ListFacts TEIndexFacts TEStageFacts TEStepFacts TELoopFacts TEInv.

Definition may {A} (S : exn -> Prop) (x : res A) : Prop := forall e, x = Err e -> S e.

Lemma may_ok {A} S (a : A) : may S (Ok a).
Proof. intros e H; discriminate. Qed.
Lemma may_err {A} (S : exn -> Prop) e : S e -> may S (@Err A e).
Proof. intros H e' E. injection E as <-. auto. Qed.
Lemma may_bind {A B} S (x : res A) (f : A -> res B) : may S x -> (forall a, x = Ok a -> may S (f a)) -> may S (bind x f).
Proof. intros H1 H2 e E. destruct x as [a|e']; simpl in E; [apply (H2 a); auto|]. injection E as <-. apply H1; auto. Qed.
Lemma may_mapM {A B} S (f : A -> res B) l : (forall a, In a l -> may S (f a)) -> may S (mapM f l).
Proof.
  induction l as [|a l IH]; intros H; simpl; [apply may_ok|]. apply may_bind; [apply H; simpl; auto|]. intros b _.
  apply may_bind; [apply IH; intros; apply H; simpl; auto|]. intros; apply may_ok.
Qed.

(** errors that have nothing to do with the physics of the step *)
Definition plain : list exn :=
  [IndexError; KeyError; CollapseError; ValueError "No default value provided for new elements";
   ValueError "x must contain at least 2 elements"; ValueError "x must be strictly increasing sequence";
   ValueError "cannot reshape array"; ValueError "operands could not be broadcast together";
   ValueError "Particles cannot escape when density is zero";
   ValueError "zero-size array to reduction operation minimum which has no identity"].

Ltac ordinary := match goal with HS : forall e, In e plain -> _ e |- _ => apply HS; simpl; tauto end.

Section Sources.
Variable np : numpy.
Variable c : cfg.
Variable S : exn -> Prop.
Hypothesis HS : forall e, In e plain -> S e.
Hypothesis HU : forall kf d p e, In kf (en_fns c ++ rel_fns c ++ abs_fns c) -> snd kf d p = Err e -> S e.

Lemma may_py_get {A} (l : list A) i : may S (py_get l i).
Proof.
  unfold py_get. destruct (_ || _)%bool; [apply may_err; ordinary|]. destruct (nth_error _ _); [apply may_ok|apply may_err; ordinary].
Qed.
Lemma may_take {A} (l : list A) idx : may S (take_idx l idx).
Proof. apply may_mapM. intros; apply may_py_get. Qed.
Lemma may_remap {A} m (l : list A) d : may S (remap m l d).
Proof.
  unfold remap. apply may_bind; [apply may_take|]. intros a _. destruct (existsb _ m); [|apply may_ok]. destruct d; [apply may_ok|apply may_err; ordinary].
Qed.
Lemma may_remap_dict {A} m (d : list (string * list A)) dv : may S (remap_dict m d dv).
Proof. apply may_mapM. intros kv _. apply may_bind; [apply may_remap|]. intros; apply may_ok. Qed.
Lemma may_row m v row : may S (remap_row m v row).
Proof. apply may_bind; [apply may_take|]. intros; apply may_ok. Qed.
Lemma may_subgroups m rows : may S (remap_subgroups_density m rows).
Proof.
  destruct rows; simpl; [apply may_err; ordinary|]. apply may_bind; [apply may_row|]. intros a _.
  apply may_bind; [apply may_mapM; intros; apply may_row|]. intros; apply may_ok.
Qed.
Lemma may_combine f s : may S (combine_mapping f s).
Proof. apply may_bind; [apply may_take|]. intros; apply may_ok. Qed.
Lemma may_recalc {A} (sh : shape A) cols fns ne dens subs prev msk : (forall kf, In kf fns -> In kf (en_fns c ++ rel_fns c ++ abs_fns c)) ->
  may S (recalc_new_rates sh cols fns ne dens subs prev msk).
Proof.
  intros Hf. unfold recalc_new_rates. apply may_bind; [apply may_subgroups|]. intros sm _. apply may_mapM. intros kf Hkf.
  assert (Hc : forall p n, may S (call_fn sh (snd kf) ne p n)).
  { intros p n. unfold call_fn. apply may_bind; [intros e E; apply (HU kf ne p e); auto|]. intros v _.
    destruct (unflat sh v); [|apply may_err; ordinary]. destruct (Nat.eqb _ _); [apply may_ok|apply may_err; ordinary]. }
  destruct msk; [destruct (lookup _ _); [|apply may_err; ordinary]|]; (apply may_bind; [apply Hc|intros; apply may_ok]).
Qed.
Lemma may_interpolated g n : may S (interpolated np g n).
Proof. unfold interpolated. destruct (Nat.ltb _ 2); [apply may_err; ordinary|]. destruct (strictly_increasingb _); [apply may_ok|apply may_err; ordinary]. Qed.
Lemma may_update b n : may S (update_distribution np b n).
Proof.
  unfold update_distribution. destruct (sort_and_merge_duplicates np b n None) as [[sb sn] m]. destruct (forallb _ sn); [apply may_ok|].
  destruct (Nat.eqb _ 1); [apply may_err; ordinary|apply may_interpolated].
Qed.
Lemma may_bcast {A B C} (f : list A -> list B -> list C) m k : may S (bcast_rows f m k).
Proof. unfold bcast_rows. destruct (Nat.eqb _ _); [apply may_ok|]. destruct m as [|? [|]], k as [|? [|]]; try apply may_ok; apply may_err; ordinary. Qed.
Lemma may_max e dg eng relg absg acc : may S (calc_max_times c e dg eng relg absg acc).
Proof.
  revert eng relg absg acc. induction dg as [|d dg IH]; intros eng relg absg acc; simpl; [apply may_ok|].
  destruct eng; [apply may_err; ordinary|]. destruct relg; [apply may_err; ordinary|]. destruct absg; [apply may_err; ordinary|].
  destruct (existsb _ _); [apply may_err; ordinary|apply IH].
Qed.
Lemma may_min l : may S (ext_list_min l).
Proof. destruct l; [apply may_err; ordinary|apply may_ok]. Qed.
Lemma may_regrid b0 xs : may S (regrid_groups np b0 xs).
Proof.
  revert b0. induction xs as [|[b d] xs IH]; intros b0; cbn [regrid_groups]; [apply may_ok|].
  destruct (_ || _)%bool.
  - apply may_bind; [apply IH|]. intros [x y] _. apply may_ok.
  - apply may_bind; [apply may_interpolated|]. intros dd _. destruct (dist_call np dd (lbs b0)) as [lb' vals].
    apply may_bind; [apply IH|]. intros [x y] _. apply may_ok.
Qed.
Lemma may_close thr b dens d : may S (remove_too_close_bins np thr b dens d).
Proof.
  unfold remove_too_close_bins. destruct (Nat.ltb _ 2); [apply may_err; ordinary|]. destruct (too_close np thr b); [apply may_ok|].
  destruct (merge_points _ _ _ _). apply may_ok.
Qed.
Lemma may_sort b dens d : may S (sort_and_merge_bins np c b dens d).
Proof.
  unfold sort_and_merge_bins. destruct (sort_and_merge_duplicates np b dens _) as [[b1 d1] m1]. destruct (merge_thr c); [|apply may_ok].
  apply may_bind; [apply may_close|]. intros [[b2 d2] m2] _. apply may_bind; [apply may_combine|]. intros; apply may_ok.
Qed.
Lemma may_boundary bd b er : may S (add_boundary_bins np c bd b er).
Proof.
  unfold add_boundary_bins. destruct b; [apply may_err; ordinary|]. destruct er; [apply may_err; ordinary|].
  cbv zeta. match goal with |- may S (let '(_, _) := ?x in _) => destruct x end. apply may_ok.
Qed.
Lemma may_stage345 b n s d eng : may S (stage345 np c b n s d eng).
Proof.
  unfold stage345. apply may_bind; [apply may_sort|]. intros [[b3 n3] m3] _. apply may_bind; [apply may_subgroups|]. intros s3 _.
  destruct (bounds c) as [bd|]; [|apply may_ok]. destruct (remove_gamma_beyond_bounds bd b3) as [b4 m4].
  apply may_bind; [apply may_remap|]. intros n4 _. apply may_bind; [apply may_subgroups|]. intros s4 _. apply may_bind; [apply may_combine|]. intros m34 _.
  destruct eng as [|er eng]; [apply may_err; ordinary|]. apply may_bind; [apply may_boundary|]. intros [b5 m5] _.
  apply may_bind; [apply may_remap|]. intros n5 _. apply may_bind; [apply may_subgroups|]. intros s5 _. apply may_bind; [apply may_combine|]. intros m _. apply may_ok.
Qed.

Lemma may_choose s : may S (known (st_en s)) -> may S (known (st_rel s)) -> may S (known (st_abs s)) -> may S (choose_step c s).
Proof.
  intros K1 K2 K3. unfold choose_step, group_energy, group_injection.
  apply may_bind; [apply may_bind; [auto|intros; apply may_ok]|]. intros eng _.
  apply may_bind; [apply may_bind; [auto|intros; apply may_ok]|]. intros relg _.
  apply may_bind; [apply may_bind; [auto|intros; apply may_ok]|]. intros absg _.
  apply may_bind; [apply may_bcast|]. intros dr _. apply may_bind; [apply may_bcast|]. intros inj _.
  apply may_bind; [|intros [l st] _; apply may_ok].
  destruct (stepd c); [apply may_ok|]. apply may_bind; [apply may_max|]. intros mx _.
  destruct (optimize c); (apply may_bind; [apply may_min|intros; apply may_ok]).
Qed.

Lemma may_eval e dens subs ch inj :
  (forall row cg, In row subs -> In cg ch -> may S (recalc_gamma_bins_and_density (mec2 c) e cg (map2 Rmult dens row))) ->
  (forall xs, recalc_groups c e dens subs ch = Ok xs -> may S (inject_groups xs inj)) ->
  may S (apply_time_eval np c e dens subs ch inj).
Proof.
  intros H1 H2. unfold apply_time_eval. apply may_bind.
  { clear H2. revert ch H1. induction subs as [|row subs IH]; intros ch H1; simpl; [apply may_ok|]. destruct ch as [|cg ch]; [apply may_err; ordinary|].
    apply may_bind; [apply H1; simpl; auto|]. intros x _. apply may_bind; [|intros; apply may_ok]. apply IH. intros; apply H1; simpl; auto. }
  intros xs Hxs. apply may_bind; [auto|]. intros [|[b0 d0] rest] _; [apply may_err; ordinary|].
  apply may_bind; [apply may_regrid|]. intros [b' ds] _. apply may_ok.
Qed.

Lemma mayS_bind {A B} (x : St A) (f : A -> St B) ne : may S (snd (x ne)) -> (forall d a, x ne = (d, Ok a) -> may S (snd (f a d))) -> may S (snd (bindS x f ne)).
Proof.
  intros H1 H2. unfold bindS. destruct (x ne) as [d [a|e]] eqn:E; [apply H2; auto|]. simpl in *. apply may_err. apply H1; auto.
Qed.
Lemma mayS_lift {A} (x : res A) ne : may S x -> may S (snd (lift x ne)).
Proof. auto. Qed.
Lemma mayS_set b n ne : may S (snd (set_distribution np b n ne)).
Proof. unfold set_distribution. apply mayS_bind; [apply mayS_lift, may_update|]. intros d a _. apply may_ok. Qed.

Lemma recalc_known {A} (sh : shape A) cols fns ne dens subs prev r : recalc_new_rates sh cols fns ne dens subs prev None = Ok r -> exists k, known r = Ok k.
Proof.
  unfold recalc_new_rates. intros H. apply bind_Ok in H as (sm & _ & H). apply mapM_Forall2 in H. apply known_ok.
  intros kv x Hkv Hx. apply In_nth_error in Hkv as [i Hi]. destruct (Forall2_nth_error_r _ _ _ H _ _ Hi) as (kf & Hkf & E).
  apply bind_Ok in E as (v & E & E2). injection E2 as <-. simpl in Hx. unfold call_fn in E. apply bind_Ok in E as (fl & _ & E).
  destruct (unflat sh fl); [|discriminate]. destruct (Nat.eqb _ _); [|discriminate]. injection E as <-. apply in_map_iff in Hx as (y & <- & _). discriminate.
Qed.

(** an error of a step is ordinary, or from a user function, or the update of
    the bins refused the step *)
Lemma may_step s ne :
  may S (known (st_en s)) -> may S (known (st_rel s)) -> may S (known (st_abs s)) ->
  (forall eng inj left0 t, choose_step c s = Ok (eng, inj, left0, t) ->
     may S (apply_time_eval np c (to_erg (mec2 c) (st_bins s)) (st_dens s) (st_subs s) (map (scale_bins t) eng) (map (scale t) inj)) /\
     (method c = Heun -> forall s1 avg,
       may S (apply_time_eval np c (to_erg (mec2 c) (st_bins s)) (st_dens s) s1 (map (scale_bins t) avg) (map (scale t) inj)))) ->
  may S (snd (step np c s ne)).
Proof.
  intros K1 K2 K3 HE. unfold step. apply mayS_bind; [apply mayS_lift, may_choose; auto|]. intros d1 [[[eng inj] left0] t] Ec.
  assert (Ec' : choose_step c s = Ok (eng, inj, left0, t)) by (unfold lift in Ec; congruence). destruct (HE _ _ _ _ Ec') as [HE1 HE2].
  assert (I1 : forall kf, In kf (en_fns c) -> In kf (en_fns c ++ rel_fns c ++ abs_fns c)) by (intros; apply in_or_app; auto).
  assert (I2 : forall kf, In kf (rel_fns c) -> In kf (en_fns c ++ rel_fns c ++ abs_fns c)) by (intros; apply in_or_app; right; apply in_or_app; auto).
  assert (I3 : forall kf, In kf (abs_fns c) -> In kf (en_fns c ++ rel_fns c ++ abs_fns c)) by (intros; apply in_or_app; right; apply in_or_app; auto).
  apply mayS_bind.
  { unfold apply_time_changes. apply mayS_bind; [|intros d [[[[b n] sg] dd] eng'] _; apply mayS_lift, may_stage345].
    unfold stage12. apply mayS_bind; [apply mayS_lift; auto|]. intros d [[b1 n1] s1] _. apply mayS_bind; [apply mayS_set|]. intros d' dd _.
    destruct (method c) eqn:Em; [apply may_ok|]. apply mayS_bind; [apply may_ok|]. intros d2 ne2 _.
    apply mayS_bind; [apply mayS_lift, may_recalc; auto|]. intros d3 en' E3. assert (E3' : recalc_new_rates shape2 b1 (en_fns c) ne2 n1 s1 [] None = Ok en') by (unfold lift in E3; congruence).
    apply mayS_bind. { apply mayS_lift. unfold group_energy. destruct (recalc_known _ _ _ _ _ _ _ _ E3') as [k ->]. apply may_ok. }
    intros d4 eng' _. cbv zeta. apply mayS_bind; [apply mayS_lift; apply HE2; auto|]. intros d5 [[b2 n2] s2] _. apply mayS_bind; [apply mayS_set|]. intros d6 dd2 _. apply may_ok. }
  intros d2 [[[b n] sg] m] _. apply mayS_bind.
  { apply mayS_lift. destruct (optimize c); [|apply may_ok]. apply may_bind; [apply may_remap|]. intros; apply may_ok. }
  intros d3 [left' mask] _. cbv zeta. apply mayS_bind; [apply may_ok|]. intros d4 ne4 _.
  apply mayS_bind; [apply mayS_lift, may_bind; [apply may_remap_dict|intros; apply may_recalc; auto]|]. intros d5 en _.
  apply mayS_bind; [apply mayS_lift, may_bind; [apply may_remap_dict|intros; apply may_recalc; auto]|]. intros d6 ab _.
  apply mayS_bind; [apply mayS_lift, may_bind; [apply may_remap_dict|intros; apply may_recalc; auto]|]. intros d7 rel _. apply may_ok.
Qed.

Lemma may_initial ne : may S (initial_values np c ne).
Proof.
  assert (I1 : forall kf, In kf (en_fns c) -> In kf (en_fns c ++ rel_fns c ++ abs_fns c)) by (intros; apply in_or_app; auto).
  assert (I2 : forall kf, In kf (rel_fns c) -> In kf (en_fns c ++ rel_fns c ++ abs_fns c)) by (intros; apply in_or_app; right; apply in_or_app; auto).
  assert (I3 : forall kf, In kf (abs_fns c) -> In kf (en_fns c ++ rel_fns c ++ abs_fns c)) by (intros; apply in_or_app; right; apply in_or_app; auto).
  unfold initial_values. destruct (dist_call np ne (g0 c)) as [lb' density]. apply may_bind.
  { unfold initial_subs. destruct (subgroups c) as [[|]|]; destruct (subinit c); try apply may_ok; apply may_err; ordinary. }
  intros subs _. apply may_bind; [apply may_recalc; auto|]. intros en _. apply may_bind; [apply may_recalc; auto|]. intros rel _.
  apply may_bind; [apply may_recalc; auto|]. intros ab _. apply may_ok.
Qed.

(** errors of a run: of a step taken from a state satisfying the invariant *)
Lemma may_evaluate (I : dist -> tstate -> Prop) fuel ne ne' recs out :
  S OutOfFuel -> (forall s0, initial_values np c ne = Ok s0 -> I ne s0) ->
  (forall s d, I d s -> st_elapsed s < total c -> may S (snd (step np c s d)) /\ forall d' s', step np c s d = (d', Ok s') -> I d' s') ->
  evaluate np c fuel ne = (ne', recs, out) -> may S out.
Proof.
  intros HF Hi Hs H. unfold evaluate in H. destruct (initial_values np c ne) as [s0|e0] eqn:E0.
  2: { injection H as <- <- <-. apply may_err. apply (may_initial ne). auto. }
  specialize (Hi _ eq_refl).
  assert (G : forall fuel s d d' tr r, I d s -> loop np c fuel s d = (d', tr, r) -> may S r).
  { induction fuel0 as [|f IH]; intros s d d' tr r HI Hl; simpl in Hl; destruct (Rltb_spec (st_elapsed s) (total c)); try (injection Hl as <- <- <-; first [apply may_ok|apply may_err; auto]).
    destruct (Hs _ _ HI r0) as [H1 H2]. destruct (step np c s d) as [d1 [s1|e]] eqn:Es.
    - destruct (loop np c f s1 d1) as [[d2 tr2] r2] eqn:El. injection Hl as <- <- <-. eapply IH; [|exact El]. auto.
    - injection Hl as <- <- <-. apply may_err. apply H1. auto. }
  destruct (loop np c fuel s0 ne) as [[d1 tr] r] eqn:El. injection H as <- <- <-. specialize (G _ _ _ _ _ _ Hi El).
  intros e E. destruct r; [discriminate|]. simpl in E. injection E as <-. apply G; auto.
Qed.
End Sources.

(** what the update of the bins can raise *)
Definition bin_errors (e : exn) : Prop :=
  e = ValueError "Negative gamma obtained at bins" \/ e = ValueError "Negative density obtained at bins" \/ e = NonFinite \/
  e = ValueError "Negative density obtained".

Lemma may_recalc_gamma m e ch dens (S : exn -> Prop) : (forall x, bin_errors x -> S x) -> may S (recalc_gamma_bins_and_density m e ch dens).
Proof.
  intros H. unfold recalc_gamma_bins_and_density. apply may_bind; [|intros [a b] _; apply may_ok].
  unfold recalc_energy_bins_and_density_increase. repeat (destruct (existsb _ _); [apply may_err, H; red; tauto|]). apply may_ok.
Qed.
Lemma may_inject xs inj (S : exn -> Prop) : S IndexError -> (forall x, bin_errors x -> S x) -> may S (inject_groups xs inj).
Proof.
  intros HI H. revert inj. induction xs as [|[b d] xs IH]; intros inj; simpl; [apply may_ok|]. destruct inj; [apply may_err; auto|].
  destruct (existsb _ _); [apply may_err, H; red; tauto|]. apply may_bind; [auto|]. intros; apply may_ok.
Qed.
Lemma may_eval_all np c e dens subs ch inj (S : exn -> Prop) : (forall x, In x plain -> S x) -> (forall x, bin_errors x -> S x) -> may S (apply_time_eval np c e dens subs ch inj).
Proof.
  intros HS H. apply may_eval; auto.
  - intros. apply may_recalc_gamma; auto.
  - intros. apply may_inject; auto. apply HS. simpl; auto.
Qed.
