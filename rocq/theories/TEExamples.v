(** Concrete configurations used as non-vacuity examples for the theorems on
    the time evolution. *)
From Verif Require Import Base TEUtils TimeEvolution ListFacts TEIndexFacts TEStageFacts TEStepFacts TELoopFacts TEInv TEForward TEZero TEZeroRun NumpyInst Spec_TE.

Definition zerof : GammaFn := fun _ p => Ok (repeat 0 (length (fp_gamma p))).
(** a flat distribution of density 1 between 1 and 10^5 *)
Definition ex_ne : dist := DOrig (fun _ => 1) 1 (10 ^ 5).

(** three bins, two subgroups, bounds and merging; [sd] step policy, [o] rate reuse *)
Definition ex_cfg (T : R) (sd : step_policy) (o : bool) (m : method_t) : cfg :=
  {| total := T; stepd := sd;
     en_fns := [("cool"%string, zerof)]; rel_fns := [("esc"%string, zerof)]; abs_fns := [("inj"%string, zerof)];
     g0 := [10; 100; 1000]; bounds := Some (1, 10 ^ 6); creep := 1 / 10; merge_thr := Some (1 / 100);
     maxE := 1 / 100; maxD := 1 / 10; maxI := 1; optimize := o; method := m;
     subgroups := Some [["cool"%string; "inj"%string]; ["esc"%string]];
     subinit := Some [[1 / 4; 1 / 4; 1 / 4]; [3 / 4; 3 / 4; 3 / 4]]; mec2 := 1 |}.

Lemma log10_100 : log10 100 = 2.
Proof. replace 100 with (10 * 10) by lra. rewrite log10_mul, log10_10 by lra. lra. Qed.
Lemma log10_1000 : log10 1000 = 3.
Proof. replace 1000 with (100 * 10) by lra. rewrite log10_mul, log10_10, log10_100 by lra. lra. Qed.

Lemma zerof_zero : zero_fn zerof.
Proof. intros ne p. reflexivity. Qed.

Ltac decide_R := repeat match goal with
  | |- context [Rltb ?a ?b] => first [rewrite (proj2 (Rltb_true a b)) by lra | rewrite (proj2 (Rltb_false a b)) by lra]
  | |- context [Rleb ?a ?b] => first [rewrite (proj2 (Rleb_true a b)) by lra | rewrite (proj2 (Rleb_false a b)) by lra]
  | |- context [Reqb ?a ?b] => first [rewrite (proj2 (Reqb_true a b)) by lra | rewrite (proj2 (Reqb_false a b)) by lra]
  end.

Lemma ex_quiet T sd o m : (o = true -> sd = Auto) -> quiet np0 (ex_cfg T sd o m) ex_ne [1; 1; 1] [[1 / 4; 1 / 4; 1 / 4]; [3 / 4; 3 / 4; 3 / 4]].
Proof.
  intros Ho. constructor; simpl; auto.
  - intros kf [<-|[]]; apply zerof_zero.
  - intros kf [<-|[]]; apply zerof_zero.
  - intros kf [<-|[]]; apply zerof_zero.
  - intros v H. simpl in H. intuition; subst; lra.
  - discriminate.
  - intros [|[|[|i]]] a b H1 H2; simpl in *; try (destruct i; discriminate); try discriminate; injection H1 as <-; injection H2 as <-;
      rewrite ?log10_1000, ?log10_100, ?log10_10; lra.
  - unfold correct_bounds, correct_first, correct_last. decide_R. simpl. decide_R. simpl. decide_R. reflexivity.
  - intros v [<-|[<-|[<-|[]]]]; lra.
  - right. simpl. decide_R. simpl. lia.
  - discriminate.
  - intros r [<-|[<-|[]]]; split; auto; simpl; intros v H; intuition; subst; lra.
  - intros [|[|[|j]]] Hj; unfold column; simpl; try lra; lia.
  - intros thr H. injection H as <-. split; [|lia]. intros [|[|k]] a b H1 H2 E1 E2; simpl in *; lia.
  - intros bd H. injection H as <-. intros g Hg. simpl in *. unfold bin_size_factor. intuition; subst; lra.
Qed.

Lemma ex_valid T sd o m : (o = true -> sd = Auto /\ m = Euler) -> valid (ex_cfg T sd o m).
Proof.
  intros Ho. constructor; simpl; try lra; try (intros E; apply Ho; auto).
  intros rows H. injection H as <-. split; [discriminate|]. intros r [<-|[<-|[]]]; auto.
Qed.
Lemma ex_positive T sd o m : positive_grid (ex_cfg T sd o m).
Proof. split; simpl; [intros g H; intuition; subst; lra|]. intros lo hi H. injection H as <- <-. lra. Qed.

Definition ex_split : list (list R) := [[1 / 4; 1 / 4; 1 / 4]; [3 / 4; 3 / 4; 3 / 4]].

(** a run with automatic steps and rate reuse exists *)
Lemma ex_run_auto : exists d recs r, evaluate np0 (ex_cfg 5 Auto true Euler) 1 ex_ne = (d, recs, Ok r) /\ recs <> [].
Proof.
  assert (Q : quiet np0 (ex_cfg 5 Auto true Euler) ex_ne [1; 1; 1] ex_split) by (apply ex_quiet; auto).
  assert (Hm : 0 < mec2 (ex_cfg 5 Auto true Euler)) by (simpl; lra). assert (Ht : 0 < total (ex_cfg 5 Auto true Euler)) by (simpl; lra).
  assert (Hf : enough_fuel (ex_cfg 5 Auto true Euler) 1 0) by (unfold enough_fuel; simpl; auto).
  destruct (zr_run np0 np0_ok _ Hm _ _ _ Q 1%nat Ht Hf) as (d & recs & r & H & Hne & _). eauto.
Qed.
(** a run with fixed steps: 5 = 2 + 2 + 1 *)
Lemma ex_run_fixed m : exists d recs r, evaluate np0 (ex_cfg 5 (Fixed 2) false m) 3 ex_ne = (d, recs, Ok r) /\ recs <> [].
Proof.
  assert (Q : quiet np0 (ex_cfg 5 (Fixed 2) false m) ex_ne [1; 1; 1] ex_split) by (apply ex_quiet; discriminate).
  assert (Hm : 0 < mec2 (ex_cfg 5 (Fixed 2) false m)) by (simpl; lra). assert (Ht : 0 < total (ex_cfg 5 (Fixed 2) false m)) by (simpl; lra).
  assert (Hf : enough_fuel (ex_cfg 5 (Fixed 2) false m) 3 0) by (unfold enough_fuel; simpl; lra).
  destruct (zr_run np0 np0_ok _ Hm _ _ _ Q 3%nat Ht Hf) as (d & recs & r & H & Hne & _). eauto.
Qed.
