(** Properties C09, C14, C15, C19, C21, C24-C27 and C68 (time evolution). *)
From Coq Require Import Sorting.Sorted.
From Verif Require Import Base TEUtils TimeEvolution Spec_TE TEExamples TEExamples2 NumpyInst TEZero TEZeroRun TEThm1 TEThm2 TEThm3 TEThm4 TEThm5 TEThm6 TEThm7 TEReach.

(** ** C09 *)
(** Every step of every run with one group and Euler's method: the table [b], [n]
    installed in the blob by the step (and kept by it if nothing is to be
    merged, sorted or cut) has its edges moved by rate*dt/mec2, and
    n' w' = n w + (n rel + abs) dt w'. *)
Theorem C09_conservation np c ne d s d' s' : numpy_ok np -> valid c -> subgroups c = None -> method c = Euler ->
  reached np c ne d s -> step np c s d = (d', Ok s') ->
  exists b n, update_distribution np b n = Ok d' /\ length b = length (st_bins s) /\ length n = length (st_bins s) /\
    (forall i l u v, nth_error (st_bins s) i = Some (l, u) -> nth_error (st_dens s) i = Some v ->
      let dt := st_elapsed s' - st_elapsed s in
      let l' := l + total_edge_rate fst (st_en s) i * dt / mec2 c in
      let u' := u + total_edge_rate snd (st_en s) i * dt / mec2 c in
      exists v', nth_error b i = Some (l', u') /\ nth_error n i = Some v' /\ 0 < l' < u' /\
        v' * (u' - l') = v * (u - l) + (v * total_rate (st_rel s) i + total_rate (st_abs s) i) * dt * (u' - l')) /\
    (bounds c = None -> merge_thr c = None -> increasing (map (lg np) (map fst b)) -> map fst (st_bins s') = map fst b /\ st_dens s' = n).
Proof. intros Hnp Hv. exact (reached_conserve np Hnp c Hv ne d s d' s'). Qed.
Print Assumptions C09_conservation.
(** every record handed out is one of these states *)
Theorem C09_reports np c fuel ne ne' recs out : evaluate np c fuel ne = (ne', recs, out) ->
  (forall x, In x recs -> exists d s, reached np c ne d s /\ r_time x = st_elapsed s /\ r_gamma x = map fst (st_bins s) /\ r_dens x = st_dens s) /\
  (forall x, out = Ok x -> exists s, reached np c ne ne' s /\ r_time x = st_elapsed s /\ r_gamma x = map fst (st_bins s) /\ r_dens x = st_dens s).
Proof.
  intros H. destruct (reached_reported np c fuel ne ne' recs out H) as [H1 H2]. split.
  - intros x Hx. destruct (H1 x Hx) as (d & s & Hr & ->). exists d, s. auto.
  - intros x Hx. destruct (H2 x Hx) as (s & Hr & ->). exists s. auto.
Qed.
Print Assumptions C09_reports.
(** three bins cooling by 1 s^-1, escape 1/4 s^-1, injection 1 s^-1 *)
Example C09_case : exists d s d' s', reached np0 (ex_move Euler) ex_ne d s /\ step np0 (ex_move Euler) s d = (d', Ok s') /\
  valid (ex_move Euler) /\ numpy_ok np0 /\ subgroups (ex_move Euler) = None /\ method (ex_move Euler) = Euler /\
  map fst (st_bins s) = [10; 100; 1000] /\ map fst (st_bins s') = [9; 99; 999] /\ st_dens s = [1; 1; 1] /\ st_dens s' = [7 / 4; 7 / 4; 7 / 4].
Proof.
  destruct ex_move_step as (s & d' & s' & Hi & Hs & Hb & Hd & Hb' & Hd'). exists ex_ne, s, d', s'.
  split; [apply at_start; exact Hi|]. split; auto. split; [constructor; simpl; try lra; discriminate|]. split; [apply np0_ok|].
  split; auto. split; auto. split; [rewrite Hb; reflexivity|]. auto.
Qed.

(** ** C14 *)
Theorem C14_fresh_rates np c fuel ne ne' recs r : numpy_ok np -> valid c -> optimize c = false ->
  evaluate np c fuel ne = (ne', recs, Ok r) -> recs <> [] ->
  rates_now_en c ne' r /\ rates_now (rel_fns c) ne' r (r_rel r) /\ rates_now (abs_fns c) ne' r (r_abs r).
Proof. intros Hnp Hv. exact (thm_fresh np Hnp c Hv fuel ne ne' recs r). Qed.
Print Assumptions C14_fresh_rates.
Example C14_case : exists ne' recs r, evaluate np0 (ex_move Heun) 2 ex_ne = (ne', recs, Ok r) /\ recs <> [] /\ valid (ex_move Heun) /\ optimize (ex_move Heun) = false.
Proof.
  destruct (ex_move_run Heun) as (d & recs & x & H & L & _). exists d, recs, x. split; auto. split; [destruct recs; [discriminate L|discriminate]|].
  split; auto. constructor; simpl; try lra; discriminate.
Qed.

(** ** C15 *)
Theorem C15_no_nan_reported np c fuel ne ne' recs out : numpy_ok np -> valid c -> (optimize c = true -> positive_grid c /\ positive_steps c) ->
  evaluate np c fuel ne = (ne', recs, out) -> forall x, reported recs out x -> finite_report x.
Proof. intros Hnp Hv. exact (thm_no_nan np Hnp c Hv fuel ne ne' recs out). Qed.
Print Assumptions C15_no_nan_reported.
(** [NaNRate] is what the model raises when a computation meets a placeholder:
    it never does, unless a user function itself raises that value *)
Theorem C15_no_nan_used np c fuel ne ne' recs out : numpy_ok np -> valid c -> (optimize c = true -> positive_grid c /\ positive_steps c) ->
  evaluate np c fuel ne = (ne', recs, out) -> out = Err NaNRate ->
  exists kf d p, In kf (en_fns c ++ rel_fns c ++ abs_fns c) /\ snd kf d p = Err NaNRate.
Proof. intros Hnp Hv. exact (thm_never_nan np Hnp c Hv fuel ne ne' recs out). Qed.
Print Assumptions C15_no_nan_used.
Example C15_case : exists ne' recs r, evaluate np0 (ex_cfg 5 Auto true Euler) 1 ex_ne = (ne', recs, Ok r) /\ reported recs (Ok r) r /\
  valid (ex_cfg 5 Auto true Euler) /\ positive_grid (ex_cfg 5 Auto true Euler) /\ positive_steps (ex_cfg 5 Auto true Euler).
Proof.
  destruct ex_run_auto as (d & recs & r & H & Hne). exists d, recs, r. split; [auto|]. split; [right; auto|].
  split; [apply ex_valid; auto|]. split; [apply ex_positive|]. unfold positive_steps; simpl; lra.
Qed.

(** ** C19 *)
(** [sum_change_rates Rplus 0 n d (Some groups)]: one row of applied rates per
    subgroup, from the dictionary [d] of rates of [n] bins *)
Theorem C19_group_sum n d groups k names : arrays_of_length n d -> nth_error groups k = Some names ->
  exists row, nth_error (sum_change_rates Rplus 0 n d (Some groups)) k = Some row /\ length row = n /\
    forall i, (i < n)%nat -> nth i row 0 = Rsum (map (fun x => rate_of d x i) names).
Proof. exact (thm_group_sum n d groups k names). Qed.
Print Assumptions C19_group_sum.
Theorem C19_no_groups n d : arrays_of_length n d ->
  exists row, sum_change_rates Rplus 0 n d None = [row] /\ length row = n /\
    forall i, (i < n)%nat -> nth i row 0 = Rsum (map (fun kv => nth i (snd kv) 0) d).
Proof. exact (thm_single_sum n d). Qed.
Print Assumptions C19_no_groups.
Theorem C19_total n d groups i : arrays_of_length n d -> NoDup (map fst d) ->
  (forall k, In k (map fst d) -> count_occ string_dec (concat groups) k = 1%nat) -> (i < n)%nat ->
  Rsum (map (fun row => nth i row 0) (sum_change_rates Rplus 0 n d (Some groups))) = Rsum (map (fun kv => nth i (snd kv) 0) d).
Proof. exact (thm_groups_total n d groups i). Qed.
Print Assumptions C19_total.
Theorem C19_unlisted n d1 k v d2 groups : ~ In k (concat groups) -> ~ In k (map fst (d1 ++ d2)) ->
  sum_change_rates Rplus 0 n (d1 ++ (k, v) :: d2) (Some groups) = sum_change_rates Rplus 0 n (d1 ++ d2) (Some groups).
Proof. exact (thm_unlisted n d1 k v d2 groups). Qed.
Print Assumptions C19_unlisted.
(** the same for energy rates, edge by edge *)
Theorem C19_edges n d groups (p : bin -> R) : p = fst \/ p = snd ->
  map (map p) (sum_change_rates add_bin (0, 0) n d groups) = sum_change_rates Rplus 0 n (edge p d) groups.
Proof. exact (thm_energy_edges n d groups p). Qed.
Print Assumptions C19_edges.
Example C19_case : let d := [("a"%string, [1; 2]); ("b"%string, [10; 20]); ("c"%string, [100; 200])] in let groups := [["c"; "a"]%string; ["b"]%string] in
  arrays_of_length 2 d /\ NoDup (map fst d) /\ (forall k, In k (map fst d) -> count_occ string_dec (concat groups) k = 1%nat) /\
  sum_change_rates Rplus 0 2 d (Some groups) = [[101; 202]; [10; 20]].
Proof.
  cbv zeta. split; [intros k v H; simpl in H; destruct H as [H|[H|[H|[]]]]; injection H as _ <-; auto|]. split; [repeat constructor; simpl; intuition discriminate|].
  split; [intros k H; simpl in H; intuition; subst; reflexivity|]. unfold sum_change_rates, vsum, map2. simpl. apply (f_equal2 cons); [list_eq|apply (f_equal2 cons); [list_eq|reflexivity]].
Qed.

(** ** C21 *)
Theorem C21_arrays {A} (f s : list Z) (v v1 v2 : list A) d : remap f v d = Ok v1 -> remap s v1 d = Ok v2 ->
  exists fs, combine_mapping f s = Ok fs /\ remap fs v d = Ok v2.
Proof. exact (thm_remap_compose f s v v1 v2 d). Qed.
Print Assumptions C21_arrays.
Theorem C21_subgroups f s rows r1 r2 : remap_subgroups_density f rows = Ok r1 -> remap_subgroups_density s r1 = Ok r2 ->
  exists fs, combine_mapping f s = Ok fs /\ remap_subgroups_density fs rows = Ok r2.
Proof. exact (thm_subgroups_compose f s rows r1 r2). Qed.
Print Assumptions C21_subgroups.
Theorem C21_dictionaries {A} (f s : list Z) (d1 d2 d3 : list (string * list A)) dv : d1 <> [] ->
  remap_dict f d1 dv = Ok d2 -> remap_dict s d2 dv = Ok d3 ->
  exists fs, combine_mapping f s = Ok fs /\ remap_dict fs d1 dv = Ok d3.
Proof. exact (thm_dict_compose f s d1 d2 d3 dv). Qed.
Print Assumptions C21_dictionaries.
(** what applying a map means *)
Theorem C21_meaning {A} (m : list Z) (v r : list A) (d : A) : (forall z, In z m -> (-1 <= z)%Z) -> remap m v (Some d) = Ok r ->
  length r = length m /\
  forall i z x, nth_error m i = Some z -> nth_error r i = Some x ->
    (z = (-1)%Z /\ x = d) \/ ((0 <= z)%Z /\ nth_error v (Z.to_nat z) = Some x).
Proof. exact (thm_remap_meaning m v r d). Qed.
Print Assumptions C21_meaning.
Example C21_case : remap [-1; 2; 0]%Z [10; 20; 30] (Some 7) = Ok [7; 30; 10] /\ remap [1; -1; 0; 2]%Z [7; 30; 10] (Some 7) = Ok [30; 7; 7; 10] /\
  combine_mapping [-1; 2; 0]%Z [1; -1; 0; 2]%Z = Ok [2; -1; -1; 0]%Z.
Proof. auto. Qed.

(** ** C24 *)
Theorem C24_remove_empty K x : (1 <= K)%nat -> lined_up K x ->
  exists y, remove_empty_densities x = Ok y /\ keeps_positive x y /\ (forall v, In v (r_dens y) -> 0 < v) /\ lined_up K y /\
    remove_empty_densities y = Ok y.
Proof. exact (thm_remove_empty K x). Qed.
Print Assumptions C24_remove_empty.
Definition C24_record := {| r_time := 3; r_gamma := [1; 2; 3]; r_dens := [5; 0; 7]; r_subs := [[1 / 2; 0; 1]; [1 / 2; 1; 0]];
  r_en := [("e"%string, [Some 1; Some 2; Some 3])]; r_rel := []; r_abs := [] |}.
Example C24_case : lined_up 2 C24_record /\ exists y, remove_empty_densities C24_record = Ok y /\ r_gamma y = [1; 3] /\ r_dens y = [5; 7] /\ r_subs y = [[1 / 2; 1]; [1 / 2; 0]].
Proof.
  split.
  - unfold lined_up, C24_record. simpl. split; auto. split; auto. split; [intros row [<-|[<-|[]]]; auto|]. split; [intros k v [H|[]]; injection H as _ <-; auto|].
    split; intros k v [].
  - unfold remove_empty_densities, C24_record. cbn [r_dens r_subs r_gamma r_en map]. decide_R. eexists. split; [reflexivity|]. auto.
Qed.

(** ** C25 *)
Theorem C25_nothing_acts np c ne dens fuel : numpy_ok np -> valid c -> inert np c ne dens ->
  match stepd c with Auto => (1 <= fuel)%nat | Fixed s => 0 < s /\ total c <= INR fuel * s end ->
  exists ne' recs r, evaluate np c fuel ne = (ne', recs, Ok r) /\
    (forall x, In x (r :: recs) -> r_gamma x = g0 c /\ r_dens x = dens /\ r_subs x = start_split c /\ r_en x = zero_rates (en_fns c) (length (g0 c))) /\
    r_rel r = zero_rates (rel_fns c) (length (g0 c)) /\ r_abs r = zero_rates (abs_fns c) (length (g0 c)).
Proof. intros Hnp Hv. exact (thm_inert np Hnp c Hv ne dens fuel). Qed.
Print Assumptions C25_nothing_acts.
Lemma C25_inert T sd o m : inert np0 (ex_cfg T sd o m) ex_ne [1; 1; 1].
Proof.
  constructor.
  - intros kf H d p. simpl in H. destruct H as [<-|[<-|[<-|[]]]]; reflexivity.
  - split; [discriminate|]. split; [intros g H; simpl in H; intuition; subst; lra|].
    apply (increasing_of_lt np0 [10; 100; 1000]). intros [|[|[|i]]] a b H1 H2; simpl in *; try (destruct i; discriminate); try discriminate; injection H1 as <-; injection H2 as <-;
      apply log10_lt; lra.
  - split; [symmetry; apply ex_n|]. intros v H. simpl in H. intuition; subst; lra.
  - right. simpl. decide_R. simpl. lia.
  - split; [discriminate|]. split; auto. split; [|intros [|[|[|j]]] Hj; simpl in *; try lra; lia].
    intros row [<-|[<-|[]]]; (split; [auto|intros v H; simpl in H; intuition; subst; lra]).
  - intros thr H. injection H as <-. split; [simpl; lia|]. intros [|[|i]] a b [H1 H2] L1 L2; simpl in *; lia.
  - intros lo hi H. injection H as <- <-. intros g Hg. simpl in Hg. intuition; subst; lra.
Qed.
Example C25_case : valid (ex_cfg 5 Auto true Euler) /\ inert np0 (ex_cfg 5 Auto true Euler) ex_ne [1; 1; 1] /\
  valid (ex_cfg 5 (Fixed 2) false Heun) /\ inert np0 (ex_cfg 5 (Fixed 2) false Heun) ex_ne [1; 1; 1].
Proof. split; [apply ex_valid; auto|]. split; [apply C25_inert|]. split; [apply ex_valid; discriminate|apply C25_inert]. Qed.

(** ** C26 *)
Theorem C26_groups (dup : list nat) (n : nat) : StronglySorted lt dup -> (forall i, In i dup -> (1 <= i < n)%nat) ->
  (forall g, In g (group_duplicates dup) -> exists a k, (2 <= k)%nat /\ g = seq a k /\ (a + k <= n)%nat /\
     ~ In a dup /\ (forall i, (a < i < a + k)%nat -> In i dup) /\ ~ In (a + k)%nat dup) /\
  (forall i, (exists g, In g (group_duplicates dup) /\ In i g) <-> (In i dup \/ In (S i) dup)) /\
  NoDup (concat (group_duplicates dup)) /\
  forall (x y : list R) d, length x = n -> length y = n ->
    let kept := filter (fun i => negb (existsb (Nat.eqb i) dup)) (seq 0 n) in
    (length kept + length dup = n)%nat /\
    length (fst (merge_points x y (group_duplicates dup) d)) = length kept /\
    length (snd (merge_points x y (group_duplicates dup) d)) = length kept /\
    forall j i, nth_error kept j = Some i -> exists k vx vy,
      (1 <= k)%nat /\ (i + k <= n)%nat /\ (forall m, (i < m < i + k)%nat -> In m dup) /\ ~ In (i + k)%nat dup /\
      nth_error (fst (merge_points x y (group_duplicates dup) d)) j = Some vx /\
      nth_error (snd (merge_points x y (group_duplicates dup) d)) j = Some vy /\
      if (k =? 1)%nat then vx = nth i x 0 /\ vy = nth i y 0
      else vx = exp (average (map ln (block x i k))) /\ vy = match d with Some f => f vx | None => average (block y i k) end.
Proof. exact (thm_group_partition dup n). Qed.
Print Assumptions C26_groups.
Example C26_case : StronglySorted lt [1; 2; 4]%nat /\ (forall i, In i [1; 2; 4]%nat -> (1 <= i < 6)%nat) /\ group_duplicates [1; 2; 4]%nat = [[0; 1; 2]; [3; 4]]%nat.
Proof. split; [repeat constructor|]. split; [intros i H; simpl in H; lia|reflexivity]. Qed.

(** ** C27 *)
Theorem C27_failing np c fuel ne ne' recs e : evaluate np c fuel ne = (ne', recs, Err e) ->
  exists dk r, evaluate np c (length recs) ne = (dk, recs, r) /\ (ne' = dk \/ well_formed np ne').
Proof. exact (thm_failing np c fuel ne ne' recs e). Qed.
Print Assumptions C27_failing.
Theorem C27_well_formed np c fuel ne ne' recs out : evaluate np c fuel ne = (ne', recs, out) -> ne' = ne \/ well_formed np ne'.
Proof. exact (thm_well_formed np c fuel ne ne' recs out). Qed.
Print Assumptions C27_well_formed.
(** a step (Euler) that raised before its distribution was built *)
Theorem C27_untouched np c s ne ne' e : method c = Euler -> step np c s ne = (ne', Err e) ->
  (forall eng inj left t, choose_step c s = Ok (eng, inj, left, t) ->
     match apply_time_eval np c (to_erg (mec2 c) (st_bins s)) (st_dens s) (st_subs s) (map (scale_bins t) eng) (map (scale t) inj) with
     | Ok (b, n, _) => forall d, update_distribution np b n <> Ok d
     | Err _ => True
     end) -> ne' = ne.
Proof. exact (thm_untouched np c s ne ne' e). Qed.
Print Assumptions C27_untouched.
Example C27_case : evaluate np0 ex_drain 1 ex_ne = (ex_ne, [], Err (ValueError "Negative density obtained")) /\ valid ex_drain.
Proof. split; [exact ex_drain_run|]. constructor; simpl; try lra; discriminate. Qed.

(** ** C68 *)
(** [density_after r q t i v] is v after i times v := v + (v r + q) t *)
Theorem C68_constant_rates np T t a r q m gs me ne k ns : numpy_ok np -> 0 < m -> 0 < t -> T = INR k * t -> gs <> [] -> (forall g, In g gs -> 0 < g) ->
  ns = snd (dist_call np ne gs) ->
  (forall i, (1 <= i <= k)%nat ->
     let gi := map (fun g => g + INR i * (a * t / m)) gs in let ni := map (density_after r q t i) ns in
     (forall g, In g gi -> 0 < g) /\ increasing (map (lg np) gi) /\ nonneg ni /\
     ((forall v, In v ni -> v = 0) \/ (2 <= length (filter (fun v => negb (Reqb v 0)) ni))%nat)) ->
  exists d recs x, evaluate np (const_cfg T t a r q m gs me) k ne = (d, recs, Ok x) /\ length recs = k /\
    r_time x = T /\ r_gamma x = map (fun g => g + a * T / m) gs /\ r_dens x = map (density_after r q t k) ns /\
    (forall i y, nth_error recs i = Some y -> r_time y = INR (S i) * t /\
       r_gamma y = map (fun g => g + INR (S i) * (a * t / m)) gs /\ r_dens y = map (density_after r q t (S i)) ns).
Proof. exact (thm_const np T t a r q m gs me ne k ns). Qed.
Print Assumptions C68_constant_rates.
Theorem C68_closed_form r q t i v :
  (r = 0 -> density_after r q t i v = v + INR i * (q * t)) /\
  (r <> 0 -> density_after r q t i v = (v + q / r) * (1 + r * t) ^ i - q / r).
Proof. split; [intros ->; exact (density_after_0 q t i v)|exact (density_after_r r q t i v)]. Qed.
Print Assumptions C68_closed_form.
Example C68_case me : exists d recs x, evaluate np0 (ex_move me) 2 ex_ne = (d, recs, Ok x) /\ length recs = 2%nat /\
  r_gamma x = [8; 98; 998] /\ r_dens x = [37 / 16; 37 / 16; 37 / 16].
Proof. exact (ex_move_run me). Qed.
