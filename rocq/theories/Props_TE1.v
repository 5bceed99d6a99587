(** Properties C01-C08 (runs of TimeEvolution.evaluate).

    [evaluate np c fuel ne] is a run on a blob with distribution [ne] with at
    most [fuel] passes through the loop; it gives blob.n_e afterwards, the
    records handed to distribution_change_callback, and the returned record or
    the exception.  [np] are the numerical primitives; every theorem holds for
    every [np] satisfying [numpy_ok] (log10 weakly increasing, powers of ten
    positive, argsort a sorting permutation); [np0] is an instance. *)
From Coq Require Import Sorting.Sorted.
From Verif Require Import Base TEUtils TimeEvolution Spec_TE TEExamples NumpyInst TEZero TEZeroRun TEThm1 TEThm2 TEThm3 TEThm4 TEThm5.

(** ** C01 *)
Theorem C01_total_time np c fuel ne ne' recs r : valid c -> evaluate np c fuel ne = (ne', recs, Ok r) ->
  (0 < total c -> r_time r = total c /\ exists pre x, recs = pre ++ [x] /\ r_time x = total c) /\
  (total c <= 0 -> r_time r = 0 /\ recs = []).
Proof. intros Hv. exact (thm_total_time np c Hv fuel ne ne' recs r). Qed.
Print Assumptions C01_total_time.

Theorem C01_times_increase np c fuel ne ne' recs out : numpy_ok np -> valid c -> positive_grid c -> positive_steps c ->
  evaluate np c fuel ne = (ne', recs, out) ->
  increasing (0 :: map r_time recs) /\ (0 <= total c -> forall x, In x recs -> r_time x <= total c).
Proof.
  intros Hnp Hv Hg Hp H. exact (conj (thm_time_increasing np Hnp c Hv fuel ne ne' recs out Hg Hp H)
    (fun Ht x Hx => thm_time_le np c Hv fuel ne ne' recs out x Ht H Hx)).
Qed.
Print Assumptions C01_times_increase.

Example C01_case : exists ne' recs r, evaluate np0 (ex_cfg 5 (Fixed 2) false Heun) 3 ex_ne = (ne', recs, Ok r) /\ recs <> [] /\
  numpy_ok np0 /\ valid (ex_cfg 5 (Fixed 2) false Heun) /\ positive_grid (ex_cfg 5 (Fixed 2) false Heun) /\ positive_steps (ex_cfg 5 (Fixed 2) false Heun) /\ r_time r = 5.
Proof.
  destruct (ex_run_fixed Heun) as (d & recs & r & H & Hne). exists d, recs, r. split; [auto|]. split; [auto|]. split; [apply np0_ok|].
  assert (Hv : valid (ex_cfg 5 (Fixed 2) false Heun)) by (apply ex_valid; discriminate).
  split; auto. split; [apply ex_positive|]. split; [unfold positive_steps; simpl; lra|].
  exact (proj1 (proj1 (C01_total_time _ _ _ _ _ _ _ Hv H) ltac:(simpl; lra))).
Qed.
Example C01_case_auto : exists ne' recs r, evaluate np0 (ex_cfg 5 Auto true Euler) 1 ex_ne = (ne', recs, Ok r) /\ recs <> [] /\ valid (ex_cfg 5 Auto true Euler) /\
  positive_grid (ex_cfg 5 Auto true Euler) /\ positive_steps (ex_cfg 5 Auto true Euler).
Proof.
  destruct ex_run_auto as (d & recs & r & H & Hne). exists d, recs, r. split; [auto|]. split; [auto|].
  split; [apply ex_valid; auto|]. split; [apply ex_positive|]. unfold positive_steps; simpl; lra.
Qed.

(** ** C02 *)
(** the k-th record has the time min(k*s, T), there are as many records as
    needed, and no run needs more passes than that *)
Theorem C02_fixed_steps np c s fuel ne ne' recs out : valid c -> stepd c = Fixed s -> 0 < s -> 0 <= total c ->
  evaluate np c fuel ne = (ne', recs, out) ->
  (forall i x, nth_error recs i = Some x -> INR i * s < total c /\ r_time x = Rmin (INR (S i) * s) (total c)) /\
  (forall r, out = Ok r -> total c <= INR (length recs) * s).
Proof. intros Hv. exact (thm_fixed_times np c Hv s fuel ne ne' recs out). Qed.
Print Assumptions C02_fixed_steps.
Theorem C02_terminates np c s n m ne : valid c -> stepd c = Fixed s -> 0 < s -> 0 <= total c -> total c <= INR n * s ->
  evaluate np c (n + m) ne = evaluate np c n ne.
Proof. intros Hv. exact (thm_fixed_terminates np c Hv s n m ne). Qed.
Print Assumptions C02_terminates.
(** never finishes for a non-positive step *)
Theorem C02_nonpositive_step np c s fuel ne ne' recs out : valid c -> stepd c = Fixed s -> s <= 0 -> 0 < total c ->
  evaluate np c fuel ne = (ne', recs, out) -> forall r, out <> Ok r.
Proof. intros Hv. exact (thm_fixed_nonpos np c Hv s fuel ne ne' recs out). Qed.
Print Assumptions C02_nonpositive_step.
Example C02_case : exists d recs r, evaluate np0 (ex_cfg 5 (Fixed 2) false Euler) 3 ex_ne = (d, recs, Ok r) /\ length recs = 3%nat.
Proof.
  destruct (ex_run_fixed Euler) as (d & recs & r & H & Hne). exists d, recs, r. split; [auto|].
  assert (Hv : valid (ex_cfg 5 (Fixed 2) false Euler)) by (apply ex_valid; discriminate).
  destruct (C02_fixed_steps _ _ 2 _ _ _ _ _ Hv eq_refl ltac:(lra) ltac:(simpl; lra) H) as [H1 H2].
  specialize (H2 r eq_refl). simpl total in *.
  destruct (le_lt_dec 3 (length recs)) as [L|L].
  - destruct (le_lt_dec (length recs) 3) as [L'|L']; [lia|]. exfalso.
    destruct (nth_error recs 3) as [x|] eqn:E; [|apply nth_error_None in E; lia]. destruct (H1 3%nat x E) as [G _]. simpl in G. lra.
  - exfalso. assert (G : INR (length recs) <= INR 2) by (apply le_INR; lia). simpl in G. lra.
Qed.
(** with a step of 0 the loop is still running after any number of passes *)
Example C02_case_zero fuel : exists d recs, evaluate np0 (ex_cfg 5 (Fixed 0) false Euler) fuel ex_ne = (d, recs, Err OutOfFuel) /\ length recs = fuel.
Proof.
  apply (zr_run_endless np0 np0_ok (ex_cfg 5 (Fixed 0) false Euler) ltac:(simpl; lra) ex_ne [1; 1; 1] ex_split) with (s := 0); simpl; auto; try lra.
  apply ex_quiet. discriminate.
Qed.

(** ** C03 *)
Theorem C03_bounds np c fuel ne ne' recs out lo hi : numpy_ok np -> valid c -> bounds c = Some (lo, hi) ->
  evaluate np c fuel ne = (ne', recs, out) ->
  forall x, reported_after_step recs out x -> forall g, In g (r_gamma x) -> lo <= g /\ g * (1 + 1 / 10000) <= hi.
Proof. intros Hnp Hv. exact (thm_bounds np Hnp c Hv fuel ne ne' recs out lo hi). Qed.
Print Assumptions C03_bounds.
Example C03_case : exists ne' recs r, evaluate np0 (ex_cfg 5 Auto true Euler) 1 ex_ne = (ne', recs, Ok r) /\ reported_after_step recs (Ok r) r /\
  bounds (ex_cfg 5 Auto true Euler) = Some (1, 10 ^ 6) /\ valid (ex_cfg 5 Auto true Euler).
Proof. destruct ex_run_auto as (d & recs & r & H & Hne). exists d, recs, r. split; [auto|]. split; [right; auto|]. split; [auto|]. apply ex_valid; auto. Qed.

(** ** C04 *)
Theorem C04_increasing np c fuel ne ne' recs out : numpy_ok np -> valid c -> evaluate np c fuel ne = (ne', recs, out) ->
  (forall lo hi, bounds c = Some (lo, hi) -> 0 < creep c /\ lg np hi - lg np (hi / (1 + 1 / 10000)) < creep c) ->
  forall x, reported_after_step recs out x -> increasing (r_gamma x).
Proof. intros Hnp Hv. exact (thm_increasing np Hnp c Hv fuel ne ne' recs out). Qed.
Print Assumptions C04_increasing.
(** the same with an exact logarithm: the creep exceeds log10(1+1e-4) *)
Theorem C04_increasing_exact np c fuel ne ne' recs out : numpy_ok np -> valid c -> numpy_exact np -> evaluate np c fuel ne = (ne', recs, out) ->
  (forall lo hi, bounds c = Some (lo, hi) -> 0 < hi) -> lg np (1 + 1 / 10000) < creep c ->
  forall x, reported_after_step recs out x -> increasing (r_gamma x).
Proof. intros Hnp Hv. exact (thm_increasing_exact np Hnp c Hv fuel ne ne' recs out). Qed.
Print Assumptions C04_increasing_exact.

Lemma log10_small : log10 (1 + 1 / 10000) < 1 / 10.
Proof.
  (* 1.0001^10 < 10 *)
  assert (H : log10 ((1 + 1 / 10000) ^ 10) < log10 10) by (apply log10_lt; simpl; lra). rewrite log10_10 in H.
  replace ((1 + 1 / 10000) ^ 10) with ((1 + 1 / 10000) * ((1 + 1 / 10000) * ((1 + 1 / 10000) * ((1 + 1 / 10000) * ((1 + 1 / 10000) * ((1 + 1 / 10000) * ((1 + 1 / 10000) * ((1 + 1 / 10000) * ((1 + 1 / 10000) * (1 + 1 / 10000)))))))))) in H by ring.
  repeat rewrite log10_mul in H by lra. lra.
Qed.
Example C04_case : exists ne' recs r, evaluate np0 (ex_cfg 5 Auto true Euler) 1 ex_ne = (ne', recs, Ok r) /\ reported_after_step recs (Ok r) r /\ valid (ex_cfg 5 Auto true Euler) /\
  numpy_ok np0 /\ numpy_exact np0 /\ lg np0 (1 + 1 / 10000) < creep (ex_cfg 5 Auto true Euler).
Proof.
  destruct ex_run_auto as (d & recs & r & H & Hne). exists d, recs, r. split; [auto|]. split; [right; auto|]. split; [apply ex_valid; auto|].
  split; [apply np0_ok|]. split; [apply np0_exact|]. exact log10_small.
Qed.

(** ** C05 *)
(** neighbouring gammas, except at the ends, are at least the threshold apart *)
Theorem C05_gaps np c fuel ne ne' recs out thr : numpy_ok np -> valid c -> merge_thr c = Some thr -> evaluate np c fuel ne = (ne', recs, out) ->
  forall x, reported_after_step recs out x ->
  let skip := match bounds c with None => 1%nat | Some _ => 2%nat end in
  forall i a b, neighbours (r_gamma x) i a b -> (skip <= i)%nat -> (S i + skip < length (r_gamma x))%nat -> thr <= lg np b - lg np a.
Proof. intros Hnp Hv. exact (thm_gaps np Hnp c Hv fuel ne ne' recs out thr). Qed.
Print Assumptions C05_gaps.

(** merging the positions [dup] (each too close to its predecessor) into their
    predecessors: the merged gamma lies in the hull of the block i..i+k-1 it
    replaces *)
Theorem C05_merge_hull (dup : list nat) (x y : list R) d : StronglySorted lt dup -> (forall i, In i dup -> (1 <= i < length x)%nat) -> length y = length x ->
  (forall v, In v x -> 0 < v) ->
  forall j v, nth_error (fst (merge_points x y (group_duplicates dup) d)) j = Some v ->
  exists i k, nth_error (filter (fun i => negb (existsb (Nat.eqb i) dup)) (seq 0 (length x))) j = Some i /\ (1 <= k)%nat /\ (i + k <= length x)%nat /\
    (forall m, (i < m < i + k)%nat -> In m dup) /\ ~ In (i + k)%nat dup /\
    forall lo hi, 0 < lo -> (forall w, In w (block x i k) -> lo <= w <= hi) -> lo <= v <= hi.
Proof. exact (thm_merge_hull dup x y d). Qed.
Print Assumptions C05_merge_hull.
Example C05_case : exists ne' recs r, evaluate np0 (ex_cfg 5 (Fixed 2) false Euler) 3 ex_ne = (ne', recs, Ok r) /\ reported_after_step recs (Ok r) r /\ valid (ex_cfg 5 (Fixed 2) false Euler) /\ merge_thr (ex_cfg 5 (Fixed 2) false Euler) = Some (1 / 100).
Proof. destruct (ex_run_fixed Euler) as (d & recs & r & H & Hne). exists d, recs, r. split; [auto|]. split; [right; auto|]. split; [apply ex_valid; discriminate|auto]. Qed.
Example C05_case_merge : group_duplicates [1; 2; 4]%nat = [[0; 1; 2]; [3; 4]]%nat /\ StronglySorted lt [1; 2; 4]%nat.
Proof. split; [reflexivity|]. repeat constructor. Qed.

(** ** C06 *)
Theorem C06_aligned np c fuel ne ne' recs out : numpy_ok np -> valid c -> evaluate np c fuel ne = (ne', recs, out) ->
  (forall x, reported recs out x -> lined_up (start_rows c) x) /\
  (forall r, out = Ok r -> keys_of (en_fns c) (r_en r) /\ keys_of (rel_fns c) (r_rel r) /\ keys_of (abs_fns c) (r_abs r)) /\
  (* the callback gets the two injection dictionaries in the other order, see C16 *)
  (forall x, In x recs -> keys_of (en_fns c) (r_en x) /\ keys_of (abs_fns c) (r_rel x) /\ keys_of (rel_fns c) (r_abs x)).
Proof. intros Hnp Hv. exact (thm_aligned' np Hnp c Hv fuel ne ne' recs out). Qed.
Print Assumptions C06_aligned.
Example C06_case : exists ne' recs r, evaluate np0 (ex_cfg 5 (Fixed 2) false Heun) 3 ex_ne = (ne', recs, Ok r) /\ valid (ex_cfg 5 (Fixed 2) false Heun) /\ numpy_ok np0 /\ start_rows (ex_cfg 5 (Fixed 2) false Heun) = 2%nat.
Proof. destruct (ex_run_fixed Heun) as (d & recs & r & H & _). exists d, recs, r. split; [auto|]. split; [apply ex_valid; discriminate|]. split; [apply np0_ok|reflexivity]. Qed.

(** ** C07 *)
Theorem C07_nonnegative np c fuel ne ne' recs out : numpy_ok np -> valid c -> (forall g, 0 <= dist_eval np ne g) -> evaluate np c fuel ne = (ne', recs, out) ->
  (forall x, reported recs out x -> nonneg (r_dens x)) /\ (forall g, 0 <= dist_eval np ne' g).
Proof.
  intros Hnp Hv Hn H. exact (conj (thm_nonneg np Hnp c Hv fuel ne ne' recs out Hn H) (thm_ne_nonneg np Hnp c fuel ne ne' recs out Hn H)).
Qed.
Print Assumptions C07_nonnegative.
(** one evaluation step: with bin (l,u), energy changes (cl,cu), density v,
    fraction f and injection q of subgroup g at bin i, the new density of the
    subgroup is v*f*(u-l)/(u'-l') + q; it is not accepted if negative *)
Theorem C07_negative_not_accepted np c e dens subs ch inj out : apply_time_eval np c e dens subs ch inj = Ok out ->
  forall g i l u cl cu v f q row cg qg, nth_error subs g = Some row -> nth_error ch g = Some cg -> nth_error inj g = Some qg ->
    nth_error e i = Some (l, u) -> nth_error cg i = Some (cl, cu) -> nth_error dens i = Some v -> nth_error row i = Some f -> nth_error qg i = Some q ->
    0 <= v * f * ((u - l) / ((u + cu) - (l + cl))) + q.
Proof. exact (thm_negative_raises np c e dens subs ch inj out). Qed.
Print Assumptions C07_negative_not_accepted.
Theorem C07_error xs inj g i b d qg v q : nth_error xs g = Some (b, d) -> nth_error inj g = Some qg ->
  nth_error d i = Some v -> nth_error qg i = Some q -> v + q < 0 -> (length xs <= length inj)%nat ->
  inject_groups xs inj = Err (ValueError "Negative density obtained").
Proof. exact (thm_negative_error xs inj g i b d qg v q). Qed.
Print Assumptions C07_error.
Example C07_case : exists ne' recs r, evaluate np0 (ex_cfg 5 (Fixed 2) false Heun) 3 ex_ne = (ne', recs, Ok r) /\ forall g, 0 <= dist_eval np0 ex_ne g.
Proof.
  destruct (ex_run_fixed Heun) as (d & recs & r & H & _). exists d, recs, r. split; auto. intros g. simpl. destruct (_ && _)%bool; lra.
Qed.
Example C07_case_error : inject_groups [([(1, 2)], [1])] [[-2]] = Err (ValueError "Negative density obtained").
Proof. apply (C07_error _ _ 0 0 [(1, 2)] [1] [-2] 1 (-2)); auto; lra. Qed.

(** ** C08 *)
Theorem C08_split_default np c fuel ne ne' recs out : numpy_ok np -> valid c -> subinit c = None -> evaluate np c fuel ne = (ne', recs, out) ->
  forall x, reported recs out x -> forall j, (j < length (r_gamma x))%nat ->
    (forall v, In v (col j (r_subs x)) -> 0 <= v <= 1) /\ Rsum (col j (r_subs x)) = 1.
Proof. intros Hnp Hv. exact (thm_split_default np Hnp c Hv fuel ne ne' recs out). Qed.
Print Assumptions C08_split_default.
Theorem C08_split_given np c eps rows fuel ne ne' recs out : numpy_ok np -> valid c -> 0 <= eps -> subinit c = Some rows -> subgroups c <> None ->
  (forall j, (j < length (g0 c))%nat -> (forall v, In v (col j rows) -> 0 <= v <= 1) /\ Rabs (Rsum (col j rows) - 1) <= eps) ->
  evaluate np c fuel ne = (ne', recs, out) ->
  forall x, reported recs out x -> forall j, (j < length (r_gamma x))%nat ->
    (forall v, In v (col j (r_subs x)) -> 0 <= v <= 1) /\ Rabs (Rsum (col j (r_subs x)) - 1) <= eps.
Proof. intros Hnp Hv. exact (thm_split_given np Hnp c Hv eps rows fuel ne ne' recs out). Qed.
Print Assumptions C08_split_given.
Example C08_case : exists ne' recs r, evaluate np0 (ex_cfg 5 Auto true Euler) 1 ex_ne = (ne', recs, Ok r) /\ valid (ex_cfg 5 Auto true Euler) /\
  subinit (ex_cfg 5 Auto true Euler) = Some ex_split /\
  (forall j, (j < 3)%nat -> (forall v, In v (col j ex_split) -> 0 <= v <= 1) /\ Rabs (Rsum (col j ex_split) - 1) <= 0).
Proof.
  destruct ex_run_auto as (d & recs & r & H & _). exists d, recs, r. split; auto. split; [apply ex_valid; auto|]. split; auto.
  intros [|[|[|j]]] Hj; try lia; simpl; (split; [intros v [<-|[<-|[]]]; lra|]); match goal with |- Rabs ?x <= 0 => replace x with 0 by lra end; rewrite Rabs_R0; lra.
Qed.
