(** Flux points of any number of instruments (C66) and the size of the error of
    power_law_integral near p = 1 (C59) *)
From Verif Require Import Base TEUtils ListFacts FitData Spec_Fit MathUtils MathFacts Props_FitData Props_Math.
From Coq Require Import String List Ascii Sorted Permutation.
From Coquelicot Require Import Coquelicot.
Import ListNotations.
Open Scope string_scope.
Open Scope list_scope.
Open Scope R_scope.

(** the table whose errors an instrument gets: of the tables up to its own the
    last one that is listed *)
Definition error_source (d : syst_dict) (gs : list (list row)) (i : nat) (h : list row) : Prop :=
  exists j, (j <= i)%nat /\ nth_error gs j = Some h /\ dict_value (group_name h) d <> None /\
    forall k g, (j < k <= i)%nat -> nth_error gs k = Some g -> dict_value (group_name g) d = None.
Definition errors_of (d : syst_dict) (h : list row) : list R := map (fun r => match dict_value (group_name h) d with Some s => s | None => 0 end * e2dnde r) h.

Lemma loop_sources d : NoDup (map fst d) -> forall gs h0 acc, dict_value (group_name h0) d <> None ->
  exists src, length src = length gs /\
   (forall i h, nth_error src i = Some h -> error_source d (h0 :: gs) (S i) h) /\
   sherpa_loop (Some d) (Some (errors_of d h0)) gs acc =
   Ok {| sh_x := sh_x acc ++ map e_ref (concat gs); sh_y := sh_y acc ++ map e2dnde (concat gs);
         sh_stat := sh_stat acc ++ map (fun r => (e2dnde_errn r + e2dnde_errp r) / 2) (concat gs);
         sh_syst := sh_syst acc ++ concat (map (errors_of d) src) |}.
Proof.
  intros ND. induction gs as [|g gs IH]; intros h0 acc H0.
  - exists []. split; [reflexivity|]. split; [intros [|i] h E; discriminate|]. cbn. rewrite !app_nil_r. destruct acc; reflexivity.
  - cbn [sherpa_loop]. rewrite syst_loop_lookup by auto. destruct (dict_value (group_name g) d) as [s|] eqn:E.
    + assert (EE : map (Rmult s) (map e2dnde g) = errors_of d g) by (unfold errors_of; rewrite map_map, E; reflexivity). rewrite EE.
      destruct (IH g {| sh_x := sh_x acc ++ map e_ref g; sh_y := sh_y acc ++ map e2dnde g; sh_stat := sh_stat acc ++ map (fun r => (e2dnde_errn r + e2dnde_errp r) / 2) g; sh_syst := sh_syst acc ++ errors_of d g |} ltac:(congruence)) as (src & L & S & R).
      exists (g :: src). split; [cbn; lia|]. split.
      * intros [|i] h Hi. { injection Hi as <-. exists 1%nat. split; [lia|]. split; [reflexivity|]. split; [congruence|]. intros k g' Hk. lia. }
        destruct (S i h Hi) as (j & J1 & J2 & J3 & J4). exists (Datatypes.S j). split; [lia|]. split; [exact J2|]. split; auto. intros [|k] g' Hk Hg; [lia|]. apply (J4 k g'); [lia|exact Hg].
      * rewrite R. cbn [sh_x sh_y sh_stat sh_syst concat map]. rewrite !map_app, !app_assoc. reflexivity.
    + destruct (IH h0 {| sh_x := sh_x acc ++ map e_ref g; sh_y := sh_y acc ++ map e2dnde g; sh_stat := sh_stat acc ++ map (fun r => (e2dnde_errn r + e2dnde_errp r) / 2) g; sh_syst := sh_syst acc ++ errors_of d h0 |} H0) as (src & L & S & R).
      exists (h0 :: src). split; [cbn; lia|]. split.
      * intros [|i] h Hi. { injection Hi as <-. exists 0%nat. split; [lia|]. split; [reflexivity|]. split; auto. intros [|[|k]] g' Hk Hg; try lia. injection Hg as <-. auto. }
        destruct (S i h Hi) as (j & J1 & J2 & J3 & J4). destruct j as [|j].
        -- exists 0%nat. split; [lia|]. split; [exact J2|]. split; auto. intros [|[|k]] g' Hk Hg; [lia|injection Hg as <-; auto|]. apply (J4 (Datatypes.S k) g'); [lia|exact Hg].
        -- exists (Datatypes.S (Datatypes.S j)). split; [lia|]. split; [exact J2|]. split; auto. intros [|[|k]] g' Hk Hg; try lia. apply (J4 (Datatypes.S k) g'); [lia|exact Hg].
      * rewrite R. cbn [sh_x sh_y sh_stat sh_syst concat map]. rewrite !map_app, !app_assoc. reflexivity.
Qed.

(** sherpa, any number of instruments: the errors are those of the last listed
    instrument up to the own one (in alphabetical order), and the call fails if
    the numbers of points do not add up *)
Theorem C66_sherpa_any : forall t E_min E_max d, NoDup (map fst d) ->
  (forall g, nth_error (groups t) 0 = Some g -> dict_value (group_name g) d <> None) ->
  exists src, length src = length (groups t) /\ (forall i h, nth_error src i = Some h -> error_source d (groups t) i h) /\
  let rows := concat (groups t) in
  let errs := concat (map (errors_of d) src) in
  (length errs = length rows -> load_sherpa_flux_points t E_min E_max (Some d) = Ok {|
    sd_arrays := {| sh_x := map e_ref rows; sh_y := map e2dnde rows; sh_stat := map (fun r => (e2dnde_errn r + e2dnde_errp r) / 2) rows; sh_syst := errs |};
    sd_mask := map (fun x => Rleb E_min x && Rleb x E_max) (map e_ref rows) |}) /\
  (length errs <> length rows -> exists m, load_sherpa_flux_points t E_min E_max (Some d) = Err (ValueError m)).
Proof.
  intros t E_min E_max d ND H. unfold load_sherpa_flux_points. destruct (groups t) as [|g gs].
  - exists []. split; [reflexivity|]. split; [intros [|i] h E; discriminate|]. cbn. split; [reflexivity|congruence].
  - specialize (H g eq_refl). cbn [sherpa_loop]. rewrite syst_loop_lookup by auto. destruct (dict_value (group_name g) d) as [s|] eqn:E; [|congruence].
    assert (EE : map (Rmult s) (map e2dnde g) = errors_of d g) by (unfold errors_of; rewrite map_map, E; reflexivity). rewrite EE. cbn [sh_x sh_y sh_stat sh_syst app].
    destruct (loop_sources d ND gs g {| sh_x := map e_ref g; sh_y := map e2dnde g; sh_stat := map (fun r => (e2dnde_errn r + e2dnde_errp r) / 2) g; sh_syst := errors_of d g |} ltac:(congruence)) as (src & L & S & R).
    exists (g :: src). split; [cbn; lia|]. split.
    + intros [|i] h Hi; [|apply S; exact Hi]. injection Hi as <-. exists 0%nat. split; [lia|]. split; [reflexivity|]. split; [congruence|]. intros k g' Hk. lia.
    + rewrite R. cbn [bind sh_x sh_y sh_stat sh_syst concat map]. rewrite <- !map_app. set (errs := errors_of d g ++ _). rewrite map_length.
      split; intros K. * rewrite K, Nat.eqb_refl. reflexivity. * apply Nat.eqb_neq in K. rewrite K. eauto.
Qed.
Print Assumptions C66_sherpa_any.
(** three instruments, the second not listed *)
Example C66_any_case : let r n y := {| instrument := n; e_ref := 1; e2dnde := y; e2dnde_errn := 1; e2dnde_errp := 1 |} in
  let t := [r "A" 10; r "B" 2; r "C" 5] in let d := [("A", 0.1); ("C", 0.2)] in
  nth_error (groups t) 0 = Some (r "A" 10 :: nil) /\ dict_value "A" d <> None /\ error_source d (groups t) 1 (r "A" 10 :: nil) /\ error_source d (groups t) 2 (r "C" 5 :: nil).
Proof.
  cbv zeta. split; [reflexivity|]. split; [discriminate|]. split.
  - exists 0%nat. split; [lia|]. split; [reflexivity|]. split; [discriminate|]. intros [|[|k]] g Hk Hg; try lia. injection Hg as <-. reflexivity.
  - exists 2%nat. split; [lia|]. split; [reflexivity|]. split; [discriminate|]. intros k g Hk. lia.
Qed.

Lemma exp_mono x y : x <= y -> exp x <= exp y.
Proof. intros [H|<-]; [left; apply exp_increasing; auto|lra]. Qed.
(** near p = 1 (where np.isclose takes the logarithm) the relative error is at
    most about 1e-5 times the logarithm of the upper bound *)
Theorem C59_error : forall k p a b v, 1 <= a -> a < b -> 0 < k -> ln b <= 1000 -> isclose_1 p = true ->
  is_RInt (fun g => k * Rpower g (- p)) a b v ->
  0 < v /\ Rabs (power_law_integral k p a b - v) <= 102 / 10 ^ 7 * ln b * v.
Proof.
  intros k p a b v Ha Hb Hk Hl Hp Hv. unfold power_law_integral. rewrite Hp. apply C59_isclose in Hp. set (e := 1 / 10 ^ 8 + 1 / 10 ^ 5) in *.
  assert (Lb : 0 < ln b) by (rewrite <- ln_1; apply ln_increasing; lra). set (w := e * ln b). assert (W : 0 < w <= 10011 / 10 ^ 6) by (unfold w, e; lra).
  pose proof (inverse_RInt k a b ltac:(lra) ltac:(lra)) as I1.
  assert (B : forall g, a < g < b -> Rabs ((1 - p) * ln g) <= w). { intros g Hg. assert (0 <= ln g <= ln b). { split; [rewrite <- ln_1; apply Rcomplements.ln_le; lra|apply Rcomplements.ln_le; lra]. } rewrite Rabs_mult, (Rabs_right (ln g)) by lra. apply Rmult_le_compat; try lra; [apply Rabs_pos|]. rewrite Rabs_minus_sym. exact Hp. }
  assert (E : forall g, a < g < b -> k * Rpower g (- p) = exp ((1 - p) * ln g) * (k * Rpower g (-1))). { intros g Hg. unfold Rpower. replace (- p * ln g) with ((1 - p) * ln g + -1 * ln g) by ring. rewrite exp_plus. ring. }
  assert (Pk : forall g, 0 < k * Rpower g (-1)) by (intros g; apply Rmult_lt_0_compat; auto; apply exp_pos).
  assert (Up : v <= exp w * (k * ln (b / a))). { apply (is_RInt_le (fun g => k * Rpower g (- p)) (fun g => exp w * (k * Rpower g (-1))) a b); [lra|exact Hv|apply (is_RInt_scal (V := R_NormedModule)); exact I1|]. intros g Hg. rewrite E by auto. apply Rmult_le_compat_r; [left; apply Pk|]. apply exp_mono. specialize (B g Hg). apply Rabs_le_between in B. lra. }
  assert (Lo : exp (- w) * (k * ln (b / a)) <= v). { apply (is_RInt_le (fun g => exp (- w) * (k * Rpower g (-1))) (fun g => k * Rpower g (- p)) a b); [lra|apply (is_RInt_scal (V := R_NormedModule)); exact I1|exact Hv|]. intros g Hg. rewrite E by auto. apply Rmult_le_compat_r; [left; apply Pk|]. apply exp_mono. specialize (B g Hg). apply Rabs_le_between in B. lra. }
  set (l := k * ln (b / a)) in *. assert (Pl : 0 < l). { unfold l. apply Rmult_lt_0_compat; auto. rewrite <- ln_1. apply ln_increasing; [lra|]. apply Rmult_lt_reg_r with a; [lra|]. unfold Rdiv. rewrite Rmult_assoc, Rinv_l; lra. }
  pose proof (exp_ineq1_le (- w)) as K. assert (Q : exp w * exp (- w) = 1) by (rewrite <- exp_plus, Rplus_opp_r; apply exp_0). pose proof (exp_pos w) as Pw.
  assert (K2 : exp w <= 1 + 1012 / 1000 * w). { assert (exp w * (1 + - w) <= exp w * exp (- w)) by (apply Rmult_le_compat_l; lra). assert (1 <= (1 + 1012 / 1000 * w) * (1 + - w)) by nra. apply Rmult_le_reg_r with (1 + - w); lra. }
  assert (Vp : 0 < v). { assert (0 < exp (- w) * l) by (apply Rmult_lt_0_compat; [apply exp_pos|auto]). lra. } split; auto.
  assert (L1 : l <= exp w * v). { replace l with (exp w * (exp (- w) * l)) by (rewrite <- Rmult_assoc, Q; ring). apply Rmult_le_compat_l; lra. }
  assert (L2 : l <= (1 + 1012 / 1000 * w) * v) by (eapply Rle_trans; [exact L1|]; apply Rmult_le_compat_r; lra). assert (L3 : v <= (1 + 1012 / 1000 * w) * l) by (eapply Rle_trans; [exact Up|]; apply Rmult_le_compat_r; lra).
  assert (W2 : 1012 / 1000 * w <= 102 / 10 ^ 7 * ln b) by (unfold w, e; lra). assert (W3 : 1012 / 1000 * w * v <= 102 / 10 ^ 7 * ln b * v) by (apply Rmult_le_compat_r; lra).
  apply Rabs_le. split; [|lra]. destruct (Rle_dec v l) as [C|C]; [lra|]. assert (1012 / 1000 * w * l <= 1012 / 1000 * w * v) by (apply Rmult_le_compat_l; lra). lra.
Qed.
Print Assumptions C59_error.
Example C59_error_case : isclose_1 (1 + 1 / 10 ^ 6) = true /\ ex_RInt (fun g => 2 * Rpower g (- (1 + 1 / 10 ^ 6))) 10 (10 ^ 5) /\ ln (10 ^ 5) <= 1000.
Proof.
  split; [apply C59_isclose; rewrite Rabs_right; lra|]. split. - eexists. apply (power_RInt 2 (- (1 + 1 / 10 ^ 6)) 10 (10 ^ 5)); lra.
  - rewrite Rcomplements.ln_pow by lra. pose proof (exp_ineq1_le (ln 10)) as K. rewrite exp_ln in K by lra. simpl INR. lra.
Qed.
