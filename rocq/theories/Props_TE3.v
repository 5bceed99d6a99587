(** Properties C10-C13, C16 and C17 (time evolution). *)
From Verif Require Import Base TEUtils TimeEvolution Spec_TE TEExamples TEExamples2 TEExamples3 TEExamples4 NumpyInst TEShift TEThm1 TEThm2 TEThm3 TEThm4 TEThm8 TEErr TEAuto TEAuto2 TELoopFacts.

(** ** C10 *)
(** every pass of every run with automatic steps (no reuse): the step is
    positive, respects the limits at every bin and subgroup, and, unless it is
    the last one, no longer step would *)
Theorem C10_limits np c ne d s d' s' : numpy_ok np -> valid c -> stepd c = Auto -> optimize c = false -> positive_grid c -> positive_steps c ->
  reached np c ne d s -> st_elapsed s < total c -> step np c s d = (d', Ok s') ->
  let dt := st_elapsed s' - st_elapsed s in
  0 < dt /\
  (forall g i, (g < length (st_subs s))%nat -> (i < length (st_bins s))%nat -> limits_at c s g i dt) /\
  (st_elapsed s' < total c -> forall dt', dt < dt' ->
     exists g i, (g < length (st_subs s))%nat /\ (i < length (st_bins s))%nat /\ ~ limits_at c s g i dt').
Proof. intros Hnp Hv. exact (thm_auto_step np Hnp c Hv ne d s d' s'). Qed.
Print Assumptions C10_limits.
Example C10_case : exists d s d' s', reached np0 (ex_auto 2) ex_ne d s /\ step np0 (ex_auto 2) s d = (d', Ok s') /\ st_elapsed s' < total (ex_auto 2) /\
  valid (ex_auto 2) /\ stepd (ex_auto 2) = Auto /\ optimize (ex_auto 2) = false /\ positive_grid (ex_auto 2) /\ positive_steps (ex_auto 2) /\
  map fst (st_bins s) = [10; 100; 1000] /\ map fst (st_bins s') = [9; 99; 999] /\ st_elapsed s' = 1.
Proof.
  destruct (ex_auto_step 2 ltac:(lra)) as (d' & s' & Hi & Hs & Hb & Hd & Ht). exists ex_ne, ex_start, d', s'. split; [apply at_start; exact Hi|]. split; auto. split; [rewrite Ht; simpl; lra|].
  split; [constructor; simpl; try lra; discriminate|]. split; auto. split; auto. split; [split; simpl; [intros g H; intuition; subst; lra|discriminate]|].
  split; [unfold positive_steps; simpl; lra|]. split; [reflexivity|]. split; auto.
Qed.

(** ** C11 *)
(** Automatic steps, Euler, max_energy_change < 1: the errors "Negative gamma",
    "Negative density obtained at bins" (a negative bin width) and a bin of zero
    width never arise, unless a function of the user raises that very error.
    Rate reuse together with subgroups is excluded: see the note of C11 in the
    manifest. *)
Theorem C11_no_bad_bins np c fuel ne ne' recs out e : numpy_ok np -> valid c -> positive_grid c -> positive_steps c -> stepd c = Auto ->
  method c = Euler -> maxE c < 1 -> (optimize c = true -> subgroups c = None /\ distinct_names c) ->
  evaluate np c fuel ne = (ne', recs, out) -> out = Err e -> bin_error e -> user_raises c e.
Proof. intros Hnp Hv Hg Hp Ha. exact (thm_auto_valid_bins np Hnp c Hv Hg Hp Ha fuel ne ne' recs out e). Qed.
Print Assumptions C11_no_bad_bins.
(** a function that cools faster than the content allows would raise with a
    fixed step; with automatic steps the run completes *)
Example C11_case : exists ne' recs r, evaluate np0 (ex_auto 1) 1 ex_ne = (ne', recs, Ok r) /\ r_gamma r = [9; 99; 999] /\
  valid (ex_auto 1) /\ positive_grid (ex_auto 1) /\ positive_steps (ex_auto 1) /\ stepd (ex_auto 1) = Auto /\ method (ex_auto 1) = Euler /\ maxE (ex_auto 1) < 1 /\ optimize (ex_auto 1) = false.
Proof.
  destruct ex_auto_run as (d & recs & r & H & Hg & _). exists d, recs, r. split; auto. split; auto. split; [constructor; simpl; try lra; discriminate|].
  split; [split; simpl; [intros g Hin; intuition; subst; lra|discriminate]|]. split; [unfold positive_steps; simpl; lra|]. split; auto. split; auto. split; [simpl; lra|reflexivity].
Qed.
(** and one that does raise, because its own function does *)
Definition ex_raise : cfg :=
  {| total := 1; stepd := Auto; en_fns := [("bad"%string, fun _ _ => Err NonFinite)]; rel_fns := []; abs_fns := []; g0 := [10; 100]; bounds := None; creep := 0; merge_thr := None;
     maxE := 1 / 2; maxD := 1; maxI := 1; optimize := false; method := Euler; subgroups := None; subinit := None; mec2 := 1 |}.
Example C11_case_raise : exists ne' recs, evaluate np0 ex_raise 1 ex_ne = (ne', recs, Err NonFinite) /\ user_raises ex_raise NonFinite.
Proof.
  eexists _, _. split.
  - unfold evaluate, initial_values. simpl. unfold correct_bounds, correct_first, correct_last. decide_R. simpl. decide_R. simpl. decide_R. reflexivity.
  - exists ("bad"%string, fun _ _ => Err NonFinite), ex_ne, {| fp_gamma := []; fp_densities := []; fp_subgroups := [] |}. split; simpl; auto.
Qed.

(** ** C12 *)
Theorem C12_no_negative_density np c fuel ne ne' recs out e : numpy_ok np -> valid c -> positive_grid c -> positive_steps c -> stepd c = Auto ->
  method c = Euler -> maxE c < 1 -> maxD c <= 1 -> (optimize c = true -> subgroups c = None /\ distinct_names c) ->
  (forall g, 0 <= dist_eval np ne g) -> split_in_unit (start_split c) ->
  (forall kf, In kf (abs_fns c) -> forall d p vals, snd kf d p = Ok vals -> nonneg vals) ->
  evaluate np c fuel ne = (ne', recs, out) -> out = Err e -> density_error e \/ bin_error e -> user_raises c e.
Proof.
  intros Hnp Hv Hg Hp Ha Hm HE HD Ho Hn Hs Hf H Eo He. apply (thm_auto_no_negative np Hnp c Hv Hg Hp Ha fuel ne ne' recs out e); auto.
  unfold bin_errors, density_error, bin_error in *. tauto.
Qed.
Print Assumptions C12_no_negative_density.
(** without the two conditions on absolute rates and max_density_change the
    error can be raised, whatever the user functions do *)
Theorem C12_absolute_escape : exists c ne, valid c /\ positive_grid c /\ positive_steps c /\ stepd c = Auto /\ method c = Euler /\ optimize c = false /\ maxE c < 1 /\ maxD c <= 1 /\
  (forall g, 0 <= dist_eval np0 ne g) /\ split_in_unit (start_split c) /\ ~ user_raises c (ValueError "Negative density obtained") /\
  evaluate np0 c 1 ne = (ne, [], Err (ValueError "Negative density obtained")).
Proof.
  exists ex_escape, ex_thin. split; [constructor; simpl; try lra; discriminate|]. split; [split; simpl; [intros g Hin; intuition; subst; lra|discriminate]|].
  split; [unfold positive_steps; simpl; lra|]. do 3 (split; [reflexivity|]). split; [simpl; lra|]. split; [simpl; lra|].
  split; [intros g; simpl; destruct (_ && _)%bool; lra|]. split; [intros row f Hr Hf; simpl in Hr; destruct Hr as [<-|[]]; simpl in Hf; intuition; subst; lra|].
  split; [intros (kf & d & p & Hin & E); simpl in Hin; unfold const_fn in Hin; intuition; subst; discriminate E|exact ex_escape_run].
Qed.
Print Assumptions C12_absolute_escape.
Theorem C12_large_density_change : exists c ne, valid c /\ positive_grid c /\ positive_steps c /\ stepd c = Auto /\ method c = Euler /\ optimize c = false /\ maxE c < 1 /\ maxD c = 2 /\ abs_fns c = [] /\
  (forall g, 0 <= dist_eval np0 ne g) /\ split_in_unit (start_split c) /\ ~ user_raises c (ValueError "Negative density obtained") /\
  evaluate np0 c 1 ne = (ne, [], Err (ValueError "Negative density obtained")).
Proof.
  exists ex_spread, ex_ne. split; [constructor; simpl; try lra; discriminate|]. split; [split; simpl; [intros g Hin; intuition; subst; lra|discriminate]|].
  split; [unfold positive_steps; simpl; lra|]. do 3 (split; [reflexivity|]). split; [simpl; lra|]. split; [reflexivity|]. split; [reflexivity|].
  split; [intros g; simpl; destruct (_ && _)%bool; lra|]. split; [intros row f Hr Hf; simpl in Hr; destruct Hr as [<-|[]]; simpl in Hf; intuition; subst; lra|].
  split; [intros (kf & d & p & Hin & E); simpl in Hin; unfold const_fn in Hin; intuition; subst; discriminate E|exact ex_spread_run].
Qed.
Print Assumptions C12_large_density_change.
Example C12_case : exists ne' recs r, evaluate np0 (ex_auto 1) 1 ex_ne = (ne', recs, Ok r) /\ r_dens r = [7 / 4; 7 / 4; 7 / 4] /\ maxD (ex_auto 1) <= 1 /\
  (forall g, 0 <= dist_eval np0 ex_ne g) /\ split_in_unit (start_split (ex_auto 1)) /\
  (forall kf, In kf (abs_fns (ex_auto 1)) -> forall d p vals, snd kf d p = Ok vals -> nonneg vals).
Proof.
  destruct ex_auto_run as (d & recs & r & H & _ & Hd). exists d, recs, r. split; auto. split; auto. split; [simpl; lra|].
  split; [intros g; simpl; destruct (_ && _)%bool; lra|]. split; [intros row f Hr Hf; simpl in Hr; destruct Hr as [<-|[]]; simpl in Hf; intuition; subst; lra|].
  intros kf [<-|[]] d0 p vals E. simpl in E. unfold const_fn in E. injection E as <-. intros v Hv. apply repeat_spec in Hv. lra.
Qed.

(** ** C13 *)
(** With reuse, at every pass and for every bin: there is an earlier moment
    (state [s0], blob.n_e [d0], bin [k]) at which the rates now used for the bin
    were computed for the bin as it then was, and the limits of C10, taken for
    that bin and those rates, still hold for the whole time from that moment to
    the end of the present step. *)
Theorem C13_reuse_in_time np c ne d s d' s' i : numpy_ok np -> valid c -> positive_grid c -> positive_steps c -> stepd c = Auto ->
  optimize c = true -> distinct_names c -> reached np c ne d s -> st_elapsed s < total c -> step np c s d = (d', Ok s') ->
  (i < length (st_bins s))%nat ->
  exists d0 s0 k l u v, reached np c ne d0 s0 /\ leads_to np c d0 s0 d s /\ fresh_at c d0 s0 k l u v /\ same_rates s0 k s i /\
    (forall g, (g < length (st_subs s))%nat -> within_limits c l u (group_rate c fst (st_en s) g i) (group_rate c snd (st_en s) g i)
        (group_rate c (fun x => x) (st_rel s) g i) (group_rate c (fun x => x) (st_abs s) g i) (st_elapsed s' - st_elapsed s0)) /\
    (subgroups c = None -> let a := st_elapsed s - st_elapsed s0 in
       nth_error (st_bins s) i = Some (l + group_rate c fst (st_en s) 0 i * a / mec2 c, u + group_rate c snd (st_en s) 0 i * a / mec2 c)).
Proof. intros Hnp Hv Hg Hp Ha. exact (thm_reuse np Hnp c Hv Hg Hp ne d s d' s' i). Qed.
Print Assumptions C13_reuse_in_time.
Lemma first_pass np c fuel ne ne' recs out : evaluate np c fuel ne = (ne', recs, out) -> recs <> [] ->
  exists s d' s', reached np c ne ne s /\ st_elapsed s < total c /\ step np c s ne = (d', Ok s').
Proof.
  unfold evaluate. destruct (initial_values np c ne) as [s|e] eqn:Ei; [|intros H; injection H as _ <- _; congruence].
  destruct (loop np c fuel s ne) as [[ne1 tr] o] eqn:El. intros H Hne. injection H as _ <- _.
  destruct fuel; simpl in El; destruct (Rltb_spec (st_elapsed s) (total c)); try (injection El as _ <- _; simpl in Hne; congruence).
  destruct (step np c s ne) as [d' [s'|e]] eqn:Es; [|injection El as _ <- _; simpl in Hne; congruence]. exists s, d', s'. split; [apply at_start; auto|]. auto.
Qed.
Example C13_case : exists s d' s', reached np0 (ex_cfg 5 Auto true Euler) ex_ne ex_ne s /\ st_elapsed s < 5 /\ step np0 (ex_cfg 5 Auto true Euler) s ex_ne = (d', Ok s') /\
  valid (ex_cfg 5 Auto true Euler) /\ positive_grid (ex_cfg 5 Auto true Euler) /\ positive_steps (ex_cfg 5 Auto true Euler) /\ distinct_names (ex_cfg 5 Auto true Euler).
Proof.
  destruct ex_run_auto as (d & recs & r & H & Hne). destruct (first_pass _ _ _ _ _ _ _ H Hne) as (s & d' & s' & R1 & Lt & Hs). exists s, d', s'. do 3 (split; auto).
  split; [apply ex_valid; auto|]. split; [apply ex_positive|]. split; [unfold positive_steps; simpl; lra|].
  split; [|split]; simpl; repeat constructor; simpl; tauto.
Qed.

(** ** C16 *)
(** The last record given to the callback and the returned record: they agree
    except that the callback's has the relative and absolute injection rates
    exchanged. *)
Theorem C16_callback_partial np c fuel ne ne' recs r : evaluate np c fuel ne = (ne', recs, Ok r) -> recs <> [] ->
  exists pre x, recs = pre ++ [x] /\ r_time x = r_time r /\ r_gamma x = r_gamma r /\ r_dens x = r_dens r /\ r_subs x = r_subs r /\ r_en x = r_en r /\
    r_rel x = r_abs r /\ r_abs x = r_rel r.
Proof. exact (thm_callback np c fuel ne ne' recs r). Qed.
Print Assumptions C16_callback_partial.
(** so the two are equal exactly when the two dictionaries of injection rates
    are equal, e.g. when there are no injection functions *)
Theorem C16_callback_equal_partial np c fuel ne ne' recs r : evaluate np c fuel ne = (ne', recs, Ok r) -> recs <> [] ->
  exists pre x, recs = pre ++ [x] /\ (x = r <-> r_rel r = r_abs r).
Proof.
  intros H Hne. destruct (thm_callback np c fuel ne ne' recs r H Hne) as (pre & x & E & E1 & E2 & E3 & E4 & E5 & E6 & E7). exists pre, x. split; auto.
  split; [intros ->; congruence|]. intros E8. destruct x, r; simpl in *. congruence.
Qed.
Print Assumptions C16_callback_equal_partial.
(** so the property (all fields equal) fails *)
Theorem C16_callback_refuted : exists c ne ne' pre x r, evaluate np0 c 2 ne = (ne', pre ++ [x], Ok r) /\
  map fst (r_rel r) = ["esc"%string] /\ map fst (r_rel x) = ["inj"%string] /\ x <> r.
Proof.
  destruct (ex_move_run Euler) as (d & recs & r & H & L & _). assert (Hne : recs <> []) by (intros ->; discriminate L).
  destruct (thm_callback _ _ _ _ _ _ _ H Hne) as (pre & x & -> & _ & _ & _ & _ & _ & E1 & E2).
  assert (Hv : valid (ex_move Euler)) by (constructor; simpl; try lra; discriminate).
  destruct (thm_aligned' np0 np0_ok (ex_move Euler) Hv _ _ _ _ _ H) as (_ & K & _). destruct (K r eq_refl) as (_ & K1 & K2). red in K1, K2. simpl in K1, K2.
  exists (ex_move Euler), ex_ne, d, pre, x, r. split; auto. split; auto. split; [rewrite E1; auto|]. intros ->. rewrite <- E1 in K2. rewrite K1 in K2. discriminate.
Qed.
Print Assumptions C16_callback_refuted.
Example C16_case : exists ne' recs r, evaluate np0 (ex_move Heun) 2 ex_ne = (ne', recs, Ok r) /\ recs <> [].
Proof. destruct (ex_move_run Heun) as (d & recs & r & H & L & _). exists d, recs, r. split; auto. intros ->; discriminate L. Qed.

(** ** C17 *)
(** One group: the step is Heun's.  [b1], [n1]: the Euler prediction, installed
    in the blob as [d1]; [en1]: the energy rates there; [b2], [n2]: the state
    before the step moved with the average rates, installed as [d'].
    Missing: subgroups, for which the property fails (C17_heun_refuted). *)
Theorem C17_heun_partial np c ne d s d' s' : numpy_ok np -> valid c -> subgroups c = None -> method c = Heun -> reached np c ne d s -> step np c s d = (d', Ok s') ->
  let dt := st_elapsed s' - st_elapsed s in
  exists b1 n1 d1 subs1 en1 b2 n2,
    moved c s dt (total_edge_rate fst (st_en s)) (total_edge_rate snd (st_en s)) b1 n1 /\ update_distribution np b1 n1 = Ok d1 /\
    (exists row, subs1 = [row] /\ length row = length b1 /\ forall f, In f row -> f = 1) /\ energy_rates_at c d1 b1 n1 subs1 en1 /\
    moved c s dt (fun i => (total_edge_rate fst (st_en s) i + total_edge_rate fst en1 i) / 2) (fun i => (total_edge_rate snd (st_en s) i + total_edge_rate snd en1 i) / 2) b2 n2 /\
    update_distribution np b2 n2 = Ok d' /\
    (bounds c = None -> merge_thr c = None -> increasing (map (lg np) (map fst b2)) -> map fst (st_bins s') = map fst b2 /\ st_dens s' = n2).
Proof. intros Hnp Hv. exact (thm_heun np Hnp c Hv ne d s d' s'). Qed.
Print Assumptions C17_heun_partial.
(** Two subgroups, only the second of which is acted on: the first nevertheless
    loses half of its particles, because the corrected step starts from the
    split of the predicted state. *)
Theorem C17_heun_refuted : exists c ne d s d' s', valid c /\ method c = Heun /\ reached np0 c ne d s /\ step np0 c s d = (d', Ok s') /\
  (forall i, (i < 2)%nat -> group_rate c fst (st_en s) 0 i = 0 /\ group_rate c snd (st_en s) 0 i = 0 /\ group_rate c (fun x => x) (st_rel s) 0 i = 0 /\ group_rate c (fun x => x) (st_abs s) 0 i = 0) /\
  map fst (st_bins s) = [10; 100] /\ map fst (st_bins s') = [10; 100] /\
  map2 Rmult (st_dens s) (nth 0 (st_subs s) []) = [5; 5] /\ map2 Rmult (st_dens s') (nth 0 (st_subs s') []) = [5 / 2; 5 / 2].
Proof.
  destruct ex_two_step as (d' & H). eexists ex_two, ex_ten, ex_ten, _, d', _.
  split. { constructor; simpl; try lra; try discriminate. intros rows E. injection E as <-. split; [discriminate|]. intros r [<-|[<-|[]]]; auto. }
  split; [reflexivity|]. split; [apply at_start; exact ex_two_initial|]. split; [exact H|].
  split. { intros [|[|i]] Hi; [| |lia]; unfold group_rate; simpl; unfold rate_at; simpl; lra. }
  split; [reflexivity|]. split; [reflexivity|]. simpl. split; list_eq.
Qed.
Print Assumptions C17_heun_refuted.
Example C17_case : exists s d' s', reached np0 (ex_move Heun) ex_ne ex_ne s /\ st_elapsed s < 2 /\ step np0 (ex_move Heun) s ex_ne = (d', Ok s') /\ subgroups (ex_move Heun) = None /\ valid (ex_move Heun).
Proof.
  destruct (ex_move_run Heun) as (d & recs & r & H & L & _). assert (Hne : recs <> []) by (intros ->; discriminate L).
  destruct (first_pass _ _ _ _ _ _ _ H Hne) as (s & d' & s' & R1 & Lt & Hs). exists s, d', s'. do 4 (split; auto). constructor; simpl; try lra; discriminate.
Qed.
