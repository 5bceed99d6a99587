(** Fit wrappers: C64, C65, C72. *)
From Verif Require Import Base TEUtils ListFacts NumpyInst MathUtils MathFacts Conversion Spectra Blob Synchrotron Geometry Kernels SSC Targets ExternalCompton RadProc Fit Spec_Fit SpectraFacts BlobFacts Props_Targets.
From Coq Require Import String List.
Import ListNotations.
Open Scope string_scope.
Open Scope list_scope.
Open Scope R_scope.

Lemma lookup_dict k d : lookup k d = dict_value k d.
Proof. induction d as [|[a b] d IH]; cbn; auto. destruct (String.eqb_spec a k), (string_dec a k); congruence. Qed.

(** ** C64 *)
Definition par_names (s : spectrum) : list string :=
  match s with
  | PowerLaw _ _ _ _ => ["log10_k"; "p"; "log10_gamma_min"; "log10_gamma_max"]
  | BrokenPowerLaw _ _ _ _ _ _ => ["log10_k"; "p1"; "p2"; "log10_gamma_b"; "log10_gamma_min"; "log10_gamma_max"]
  | LogParabola _ _ _ _ _ _ => ["log10_k"; "p"; "q"; "log10_gamma_0"; "log10_gamma_min"; "log10_gamma_max"]
  | ExpCutoffPowerLaw _ _ _ _ _ => ["log10_k"; "p"; "log10_gamma_c"; "log10_gamma_min"; "log10_gamma_max"]
  | ExpCutoffBrokenPowerLaw _ _ _ _ _ _ _ => ["log10_k"; "p1"; "p2"; "log10_gamma_c"; "log10_gamma_b"; "log10_gamma_min"; "log10_gamma_max"]
  | Interpolated _ _ _ _ _ => ["log10_norm"; "log10_gamma_min"; "log10_gamma_max"]
  | EmptyDist _ _ => ["log10_gamma_min"; "log10_gamma_max"]
  end.
Lemma pars_exist s : exists l, spectral_parameters s = Ok l /\ map par_name l = par_names s.
Proof. destruct s; cbn; eexists; split; reflexivity. Qed.

(** every class yields a parameter list with distinct names, in which exactly
    the two bounds are frozen *)
Theorem C64_parameters : forall s, exists l, spectral_parameters s = Ok l /\ NoDup (map par_name l) /\
  forall p, In p l -> (par_frozen p = true <-> par_name p = "log10_gamma_min" \/ par_name p = "log10_gamma_max").
Proof.
  intros s. destruct s; cbn; eexists; (split; [reflexivity|split]); cbn.
  all: match goal with |- NoDup _ => repeat (constructor; [cbn; intuition discriminate|]); constructor | _ => idtac end.
  all: intros pp Hin; repeat destruct Hin as [<-|Hin]; try contradiction; cbn; split; intros; try tauto; try discriminate; intuition discriminate.
Qed.
Print Assumptions C64_parameters.

(** unscaled by either wrapper, the values in the order of the parameters are
    exactly the arguments of evaluate: the class is evaluated with its named
    parameters *)
Theorem C64_sherpa : forall s l v, ~ is_empty s -> spectral_parameters s = Ok l ->
  (let! args := sherpa_scale s (map (fun p => ANum (v (par_name p))) l) in with_args s args) = Ok (fitted s v).
Proof.
  intros s l v Hs H. destruct s; cbn in H; injection H as <-; try (exfalso; exact (Hs Logic.I)); reflexivity.
Qed.
Print Assumptions C64_sherpa.
Theorem C64_gammapy : forall s l v kwargs, spectral_parameters s = Ok l ->
  (forall p, In p l -> dict_value (par_name p) kwargs = Some (v (par_name p))) ->
  (let! args := gammapy_sort (map par_name l) s kwargs in with_args s args) = Ok (fitted s v).
Proof.
  intros s l v kw H Hk. assert (Hk' : forall p, In p l -> lookup (par_name p) kw = Some (v (par_name p))) by (intros; rewrite lookup_dict; auto).
  clear Hk.
  destruct s; cbn in H; injection H as <-; unfold gammapy_sort; cbn [map par_name mk_par mapM];
  repeat match goal with |- context [lookup ?n kw] =>
    let E := fresh "E" in assert (E : lookup n kw = Some (v n)) by (match type of Hk' with context [In _ ?l] => 
      first [ exact (Hk' (nth 0 l norm_parameter) ltac:(cbn; tauto)) | exact (Hk' (nth 1 l norm_parameter) ltac:(cbn; tauto)) | exact (Hk' (nth 2 l norm_parameter) ltac:(cbn; tauto))
            | exact (Hk' (nth 3 l norm_parameter) ltac:(cbn; tauto)) | exact (Hk' (nth 4 l norm_parameter) ltac:(cbn; tauto)) | exact (Hk' (nth 5 l norm_parameter) ltac:(cbn; tauto))
            | exact (Hk' (nth 6 l norm_parameter) ltac:(cbn; tauto)) ] end); rewrite E; clear E end; reflexivity.
Qed.
Print Assumptions C64_gammapy.

(** the initial values describe the distribution the wrapper was built with *)
Theorem C64_initial : forall s l v, fit_positive s -> spectral_parameters s = Ok l ->
  (forall p, In p l -> v (par_name p) = par_value p) -> fitted s v = s.
Proof.
  assert (T : forall x, 0 < x -> ten (log10 x) = x) by (intros; apply pow10_log10; auto).
  intros s l v Hp H Hv. destruct s; cbn in H; injection H as <-; cbn in Hp; unfold fitted; auto;
  repeat match goal with |- context [v ?n] =>
    let E := fresh "E" in
    (match type of Hv with context [In _ ?l] => 
      first [ pose proof (Hv (nth 0 l norm_parameter) ltac:(cbn; tauto) : v n = _) as E | pose proof (Hv (nth 1 l norm_parameter) ltac:(cbn; tauto) : v n = _) as E
            | pose proof (Hv (nth 2 l norm_parameter) ltac:(cbn; tauto) : v n = _) as E | pose proof (Hv (nth 3 l norm_parameter) ltac:(cbn; tauto) : v n = _) as E
            | pose proof (Hv (nth 4 l norm_parameter) ltac:(cbn; tauto) : v n = _) as E | pose proof (Hv (nth 5 l norm_parameter) ltac:(cbn; tauto) : v n = _) as E
            | pose proof (Hv (nth 6 l norm_parameter) ltac:(cbn; tauto) : v n = _) as E ] end); cbn in E; rewrite E; clear E end;
  rewrite ?T by tauto; reflexivity.
Qed.
Print Assumptions C64_initial.

(** the empty distribution has no normalisation: sherpa's wrapper takes the
    lower bound for it and fails, gammapy's evaluates the empty distribution *)
Theorem C64_empty : forall a b x y kwargs, 
  sherpa_scale (EmptyDist a b) [ANum x; ANum y] = Err (TypeError "Can only apply 'power' function to dimensionless quantities") /\
  (dict_value "log10_gamma_min" kwargs = Some x -> dict_value "log10_gamma_max" kwargs = Some y ->
   exists l args, spectral_parameters (EmptyDist a b) = Ok l /\ gammapy_sort (map par_name l) (EmptyDist a b) kwargs = Ok args /\ with_args (EmptyDist a b) args = Ok (EmptyDist a b)).
Proof.
  intros a b x y kw. split; [reflexivity|]. rewrite <- !lookup_dict. intros H1 H2.
  eexists; eexists; split; [reflexivity|split]; [|reflexivity].
  unfold gammapy_sort. cbn [map par_name mk_par mapM]. rewrite H1. cbn -[lookup]. rewrite H2. reflexivity.
Qed.
Print Assumptions C64_empty.

Definition c64_v (n : string) : R := if String.eqb n "log10_k" then 2 else if String.eqb n "p1" then 2.1 else if String.eqb n "p2" then 3.2 else if String.eqb n "log10_gamma_b" then 4 else if String.eqb n "log10_gamma_min" then 1 else 7.
Example C64_case : exists l args, spectral_parameters (BrokenPowerLaw 1 2 3 1e4 10 1e6) = Ok l /\
  sherpa_scale (BrokenPowerLaw 1 2 3 1e4 10 1e6) (map (fun p => ANum (c64_v (par_name p))) l) = Ok args /\
  with_args (BrokenPowerLaw 1 2 3 1e4 10 1e6) args = Ok (BrokenPowerLaw (ten 2) 2.1 3.2 (ten 4) (ten 1) (ten 7)) /\ fit_positive (BrokenPowerLaw 1 2 3 1e4 10 1e6).
Proof. eexists; eexists; split; [reflexivity|split; [reflexivity|split; [reflexivity|cbn; lra]]]. Qed.

(** ** C65 *)
Definition dict_fun (kwargs : list (string * R)) (n : string) : R := match dict_value n kwargs with Some x => x | None => 0 end.
Lemma same_app names1 names2 values kwargs : same_values (names1 ++ names2) values kwargs ->
  exists v1 v2, values = v1 ++ v2 /\ v1 = map (dict_fun kwargs) names1 /\ length v2 = length names2 /\ same_values names2 v2 kwargs /\
  (forall n, In n names1 -> dict_value n kwargs = Some (dict_fun kwargs n)).
Proof.
  revert values. induction names1 as [|n names1 IH]; intros values [L H]; cbn in *.
  - exists [], values. repeat split; auto; intros; contradiction.
  - destruct values as [|x values]; [discriminate|]. cbn in L.
    destruct (IH values) as (v1 & v2 & E & E1 & L2 & S2 & D).
    { split; [lia|]. intros i m y Hm Hy. apply (H (S i) m y); auto. }
    pose proof (H O n x eq_refl eq_refl) as Hn.
    assert (Df : dict_fun kwargs n = x) by (unfold dict_fun; rewrite Hn; auto).
    exists (x :: v1), v2. split; [subst values; reflexivity|split; [rewrite Df, E1; reflexivity|split; [auto|split; [auto|]]]].
    intros m [<-|Hm]; [congruence|auto].
Qed.
Lemma same_all names values kwargs : same_values names values kwargs ->
  values = map (dict_fun kwargs) names /\ (forall n, In n names -> lookup n kwargs = Some (dict_fun kwargs n)).
Proof.
  intros H. destruct (same_app names [] values kwargs) as (v1 & v2 & E & E1 & L2 & _ & D); [rewrite app_nil_r; auto|].
  destruct v2; [|discriminate]. rewrite app_nil_r in E. split; [congruence|]. intros; rewrite lookup_dict; auto.
Qed.
Lemma star_unpack_app n a b : length b = n -> star_unpack n (a ++ b) = Ok (a, b).
Proof.
  intros L. unfold star_unpack. rewrite app_length. replace (length a + length b <? n)%nat with false by (symmetry; apply Nat.ltb_ge; lia).
  replace (length a + length b - n)%nat with (length a + 0)%nat by lia. rewrite firstn_app_2, skipn_app, Nat.add_0_r. cbn.
  rewrite app_nil_r, skipn_all, Nat.sub_diag. reflexivity.
Qed.
Lemma bind_ok_inv {A B : Type} (e : res A) (f : A -> res B) y : (let! x := e in f x) = Ok y -> exists x, e = Ok x /\ f x = Ok y.
Proof. destruct e; cbn; intros; [eauto|discriminate]. Qed.
Lemma ok_inj_eq {A : Type} (x y : A) : Ok x = Ok y -> y = x.
Proof. congruence. Qed.
Lemma sherpa_args s l kwargs : ~ is_empty s -> spectral_parameters s = Ok l ->
  exists args, sherpa_scale s (map ANum (map (dict_fun kwargs) (map par_name l))) = Ok args /\ with_args s args = Ok (fitted s (dict_fun kwargs)).
Proof. intros Hs H. apply bind_ok_inv. rewrite !map_map. apply C64_sherpa; auto. Qed.
Lemma gammapy_args s l kwargs : spectral_parameters s = Ok l -> (forall n, In n (map par_name l) -> lookup n kwargs = Some (dict_fun kwargs n)) ->
  exists args, gammapy_sort (map par_name l) s kwargs = Ok args /\ with_args s args = Ok (fitted s (dict_fun kwargs)).
Proof.
  intros H Hk. apply bind_ok_inv. apply C64_gammapy; auto. intros p Hp. rewrite <- lookup_dict. apply Hk. apply in_map; auto.
Qed.
Lemma differential_spec x gs : to_differential x gs = (fst gs, photons_per_eV x (snd gs)).
Proof.
  unfold to_differential, photons_per_eV. change electronvolt with eV_erg. f_equal. destruct gs as [g l]; cbn [snd fst]. revert x. induction l as [|f l IH]; intros [|e x]; auto.
  cbn [map2 combine map fst snd]. rewrite IH. f_equal. cbn. rewrite Rmult_1_r. auto.
Qed.
Lemma add_swap a b c : map2 Rplus (map2 Rplus a b) c = map2 Rplus (map2 Rplus a c) b.
Proof. revert b c. induction a as [|x a IH]; intros [|y b] [|w c]; cbn; auto. rewrite IH. f_equal. lra. Qed.

Lemma add_swap2 a b c d : map2 Rplus (map2 Rplus (map2 Rplus a b) c) d = map2 Rplus (map2 Rplus (map2 Rplus a d) b) c.
Proof. rewrite add_swap. f_equal. apply add_swap. Qed.

Section C65.
Variable P : phys.
Variable dist : R -> res R.

Ltac kws Hk := repeat match goal with |- context [kw ?n ?k] =>
  let E := fresh in assert (E : kw n k = Ok (dict_fun k n)) by (unfold kw; rewrite (Hk n) by (rewrite ?in_app_iff; cbn; tauto); reflexivity); rewrite E; clear E end.

(** the SSC model: gammapy's value is sherpa's turned into a differential flux;
    errors and the shared grid are the same *)
Theorem C65_ssc : forall s ssa l pars kwargs x grid, ~ is_empty s -> ssc_parameters s = Ok l -> same_values (map par_name l) pars kwargs ->
  gammapy_ssc P dist s ssa kwargs x grid =
  (let! r := sherpa_ssc P dist s ssa pars x grid in Ok (fst r, photons_per_eV x (snd r))).
Proof.
  intros s ssa l pars kwargs x grid Hs Hl HV. unfold ssc_parameters in Hl.
  destruct (bind_ok_inv _ _ _ Hl) as (sp & Hsp & E). injection E as <-. rewrite map_app in HV.
  destruct (same_all _ _ _ HV) as [Hp Hk]. rewrite map_app in Hp.
  destruct (sherpa_args s sp kwargs Hs Hsp) as (a1 & A1 & W1).
  destruct (gammapy_args s sp kwargs Hsp) as (a2 & A2 & W2); [intros; apply Hk; rewrite in_app_iff; auto|].
  unfold gammapy_ssc, sherpa_ssc, spectral_names. rewrite Hsp. cbn [bind]. rewrite A2. cbn [bind]. rewrite Hp, star_unpack_app by reflexivity.
  cbn [bind fst snd]. cbn [emission_region_parameters map par_name mk_par]. rewrite A1. cbn [bind].
  unfold sort_emission_region. kws Hk. cbn [bind].
  change NumpyInst.pow10 with pow10. destruct (dist (dict_fun kwargs "z")); [|reflexivity]. cbn [bind]. rewrite W1, W2. cbn [bind].
  destruct (synch_and_ssc _ _ _ _ _ _ _ _ _ _); [|reflexivity]. cbn [bind]. rewrite differential_spec. reflexivity.
Qed.

Ltac ec_start l Hl HV Hp Hk Hs sp Hsp :=
  let E := fresh in let A1 := fresh "A1" in let A2 := fresh "A2" in let W1 := fresh "W1" in let W2 := fresh "W2" in
  unfold ec_parameters in Hl; destruct (bind_ok_inv _ _ _ Hl) as (sp & Hsp & E); apply ok_inj_eq in E; subst l; rewrite map_app in HV;
  destruct (same_all _ _ _ HV) as [Hp Hk]; rewrite map_app in Hp;
  match type of HV with same_values _ _ ?kwargs => match type of Hsp with spectral_parameters ?s = _ =>
    destruct (sherpa_args s sp kwargs Hs Hsp) as (? & A1 & W1);
    destruct (gammapy_args s sp kwargs Hsp) as (? & A2 & W2); [intros; apply Hk; rewrite in_app_iff; auto|] end end;
  unfold gammapy_ec, spectral_names; rewrite Hsp; cbn [bind]; rewrite A2; cbn [bind];
  rewrite Hp, star_unpack_app by reflexivity; cbn [bind fst snd];
  match goal with |- context [map (dict_fun ?k) (map par_name (emission_region_parameters true ++ ?t))] =>
    let l := eval cbn in (map par_name (emission_region_parameters true ++ t)) in
    change (map par_name (emission_region_parameters true ++ t)) with l in * end; cbn [map];
  rewrite A1; cbn [bind]; unfold sort_emission_region; kws Hk; cbn [bind];
  match goal with |- context [dist ?z] => destruct (dist z); [|reflexivity] end; cbn [bind]; rewrite W1, W2; cbn [bind];
  destruct (synch_and_ssc _ _ _ _ _ _ _ _ _ _); [|reflexivity]; cbn [bind];
  destruct (evaluate_multi_T_bb_norm_sed _ _ _ _ _ _ _ _ _ _); [|reflexivity]; cbn [bind].

Definition agrees (sherpa : res (option (list R * list R))) (gammapy : res (list R * list R)) (x : list R) : Prop :=
  match sherpa with
  | Ok (Some r) => gammapy = Ok (fst r, photons_per_eV x (snd r))
  | Ok None => False
  | Err e => gammapy = Err e
  end.
(** the external Compton model, for each list of targets sherpa's wrapper knows *)
Theorem C65_ec : forall s targets ssa l pars kwargs x grid, ~ is_empty s ->
  targets = ["blr"] \/ targets = ["dt"] \/ targets = ["blr"; "dt"] ->
  ec_parameters s targets = Ok l -> same_values (map par_name l) pars kwargs ->
  agrees (sherpa_ec P dist s targets ssa pars x grid) (gammapy_ec P dist s targets ssa kwargs x grid) x.
Proof.
  intros s targets ssa l pars kwargs x grid Hs [-> |[-> | ->]] Hl HV; unfold agrees, sherpa_ec;
  match goal with |- context [list_eqb ?a ?b] => change (list_eqb a ["blr"]) with false || change (list_eqb a ["blr"]) with true end;
  repeat match goal with |- context [list_eqb ?a ?b] => change (list_eqb a b) with false || change (list_eqb a b) with true end; cbv iota.
  - unfold sherpa_ec_blr. ec_start l Hl HV Hp Hk Hs sp Hsp. cbn [rmap has existsb String.eqb Ascii.eqb Bool.eqb orb]. kws Hk. cbn [bind].
    rewrite differential_spec. reflexivity.
  - unfold sherpa_ec_dt. ec_start l Hl HV Hp Hk Hs sp Hsp. cbn [rmap has existsb String.eqb Ascii.eqb Bool.eqb orb]. kws Hk. cbn [bind].
    rewrite differential_spec. cbn [fst snd]. rewrite add_swap. reflexivity.
  - unfold sherpa_ec_blr_dt. ec_start l Hl HV Hp Hk Hs sp Hsp. cbn [rmap has existsb String.eqb Ascii.eqb Bool.eqb orb]. kws Hk. cbn [bind].
    rewrite differential_spec. cbn [fst snd]. rewrite add_swap2. reflexivity.
Qed.

(** sherpa's wrapper gives no value exactly for the other lists *)
Theorem C65_sherpa_none : forall s targets ssa pars x grid,
  sherpa_ec P dist s targets ssa pars x grid = Ok None <-> targets <> ["blr"] /\ targets <> ["dt"] /\ targets <> ["blr"; "dt"].
Proof.
  intros. unfold sherpa_ec, list_eqb. repeat destruct (list_eq_dec string_dec _ _); split; intros H; subst; try tauto; try reflexivity;
  try (destruct H as (? & ? & ?); congruence);
  match type of H with rmap Some ?e = _ => destruct e; discriminate end.
Qed.
(** gammapy's wrapper only asks which targets are in the list: the order does
    not matter, and ["dt"; "blr"] is evaluated like ["blr"; "dt"], with the same parameters *)
Theorem C65_order : forall s targets targets' ssa kwargs x grid,
  (In "blr" targets <-> In "blr" targets') -> (In "dt" targets <-> In "dt" targets') ->
  gammapy_ec P dist s targets ssa kwargs x grid = gammapy_ec P dist s targets' ssa kwargs x grid /\ ec_parameters s targets = ec_parameters s targets'.
Proof.
  assert (Hh : forall t l, has t l = true <-> In t l).
  { intros t l. unfold has. rewrite existsb_exists. split; [intros (y & H & E); apply String.eqb_eq in E; subst; auto|intros; exists t; split; auto; apply String.eqb_refl]. }
  intros s t t' ssa kwargs x grid H1 H2.
  assert (E1 : has "blr" t = has "blr" t') by (apply Bool.eq_iff_eq_true; rewrite !Hh; auto).
  assert (E2 : has "dt" t = has "dt" t') by (apply Bool.eq_iff_eq_true; rewrite !Hh; auto).
  unfold gammapy_ec, ec_parameters, targets_parameters. rewrite E1, E2. auto.
Qed.
Theorem C65_reversed_list : forall s ssa pars kwargs x grid,
  sherpa_ec P dist s ["dt"; "blr"] ssa pars x grid = Ok None /\
  gammapy_ec P dist s ["dt"; "blr"] ssa kwargs x grid = gammapy_ec P dist s ["blr"; "dt"] ssa kwargs x grid.
Proof.
  intros. split; [apply C65_sherpa_none; repeat split; discriminate|].
  apply C65_order; cbn; tauto.
Qed.

(** the norm parameter has no effect: only the other values matter *)
Lemma mapM_ext_in {A B} (f g : A -> res B) l : (forall a, In a l -> f a = g a) -> mapM f l = mapM g l.
Proof. induction l as [|a l IH]; intros H; cbn; auto. rewrite H by (left; auto). destruct (g a); auto. cbn. rewrite IH; auto. intros; apply H; right; auto. Qed.
Theorem C65_norm : forall s targets ssa kwargs kwargs' x grid, (forall n, n <> "norm" -> dict_value n kwargs = dict_value n kwargs') ->
  gammapy_ec P dist s targets ssa kwargs x grid = gammapy_ec P dist s targets ssa kwargs' x grid /\
  gammapy_ssc P dist s ssa kwargs x grid = gammapy_ssc P dist s ssa kwargs' x grid.
Proof.
  intros s targets ssa kwargs kwargs' x grid H.
  assert (Hk : forall n, n <> "norm" -> kw n kwargs = kw n kwargs') by (intros; unfold kw; rewrite !lookup_dict, H; auto).
  assert (Hs : forall l, spectral_names s = Ok l -> gammapy_sort l s kwargs = gammapy_sort l s kwargs').
  { intros l Hl. assert (Hn : ~ In "norm" l).
    { unfold spectral_names in Hl. destruct (bind_ok_inv _ _ _ Hl) as (sp & Hsp & E). injection E as <-.
      destruct (pars_exist s) as (l' & H1 & H2). rewrite Hsp in H1. injection H1 as ->. rewrite H2. destruct s; cbn; intuition discriminate. }
    unfold gammapy_sort. rewrite (mapM_ext_in _ (fun key => match lookup key kwargs' with None => Err KeyError | Some v => Ok (ANum (if prefix "log10_" key then pow10 v else v)) end)); auto.
    intros n Hin. rewrite !lookup_dict, H; auto. intros ->. auto. }
  assert (He : sort_emission_region P dist kwargs = sort_emission_region P dist kwargs').
  { unfold sort_emission_region. repeat rewrite (Hk _) by discriminate. reflexivity. }
  split.
  - unfold gammapy_ec. destruct (spectral_names s) as [l|e] eqn:Hl; [|reflexivity]. cbn [bind]. rewrite (Hs l eq_refl), He.
    rewrite !Hk by discriminate. reflexivity.
  - unfold gammapy_ssc. destruct (spectral_names s) as [l|e] eqn:Hl; [|reflexivity]. cbn [bind]. rewrite (Hs l eq_refl), He. reflexivity.
Qed.
End C65.
Theorem C65_backend : forall name, 
  (choose_backend name = Ok Gammapy <-> name = "gammapy") /\ (choose_backend name = Ok Sherpa <-> name = "sherpa") /\
  (name <> "gammapy" -> name <> "sherpa" -> exists m, choose_backend name = Err (ValueError m)).
Proof.
  intros name. unfold choose_backend. destruct (String.eqb_spec name "sherpa"), (String.eqb_spec name "gammapy"); subst; repeat split; intros; try discriminate; try congruence; eauto.
Qed.
Print Assumptions C65_ssc. Print Assumptions C65_ec. Print Assumptions C65_sherpa_none. Print Assumptions C65_order. Print Assumptions C65_reversed_list. Print Assumptions C65_norm. Print Assumptions C65_backend.

(** parameters with a dictionary that agrees with them, norm included *)
Lemma same_combine names values extra : NoDup names -> length values = length names -> same_values names values (combine names values ++ extra).
Proof.
  intros ND L. split; auto. revert values L. induction ND as [|n names Hn ND IH]; intros [|x values] L i m y Hm Hy; try discriminate; destruct i; cbn in *; try discriminate.
  - injection Hm as ->. injection Hy as ->. destruct (string_dec m m); congruence.
  - destruct (string_dec n m) as [->|]; [exfalso; apply Hn; eapply nth_error_In; eauto|]. eapply IH; eauto.
Qed.
Example C65_case : exists l, ec_parameters (PowerLaw 1 2 10 1e6) ["blr"; "dt"] = Ok l /\ length l = 21%nat /\ ~ is_empty (PowerLaw 1 2 10 1e6) /\
  same_values (map par_name l) (map par_value l) (combine (map par_name l) (map par_value l) ++ [("norm", 1)]).
Proof.
  eexists. split; [reflexivity|split; [reflexivity|split; [exact (fun H => H)|]]]. apply same_combine; [|reflexivity].
  cbn. repeat (constructor; [cbn; intuition discriminate|]); constructor.
Qed.

(** ** C72: fit models loaded from the objects *)
(** the stored values of a list of parameters, by name *)
Definition start (l : list fit_par) : list (string * R) := map (fun p => (par_name p, par_value p)) l.
Lemma assign_names k v D : map fst (assign k v D) = map fst D.
Proof. unfold assign. rewrite map_map. apply map_ext. intros [n x]. cbn. destruct (String.eqb_spec n k); cbn; auto. Qed.
Lemma dict_assign n k v D : dict_value n (assign k v D) = if string_dec n k then (if dict_value n D then Some v else None) else dict_value n D.
Proof.
  induction D as [|[m x] D IH]; cbn; [destruct (string_dec n k); auto|].
  destruct (String.eqb_spec m k); cbn; destruct (string_dec n k); subst.
  - destruct (string_dec k k); congruence.
  - destruct (string_dec k n); [congruence|]. auto.
  - destruct (string_dec m k); [congruence|]. auto.
  - destruct (string_dec m n); auto.
Qed.
Lemma dict_assign_ne n k v D : n <> k -> dict_value n (assign k v D) = dict_value n D.
Proof. intros. rewrite dict_assign. destruct (string_dec n k); congruence. Qed.
Lemma dict_assign_eq k v D : (exists y, dict_value k D = Some y) -> dict_value k (assign k v D) = Some v.
Proof. intros [y H]. rewrite dict_assign, H. destruct (string_dec k k); congruence. Qed.
Lemma dict_in n D : In n (map fst D) -> exists x, dict_value n D = Some x.
Proof. induction D as [|[m x] D IH]; cbn; [tauto|]. destruct (string_dec m n); [eauto|]. intros [H|H]; [congruence|auto]. Qed.
Lemma dict_start l p : NoDup (map par_name l) -> In p l -> dict_value (par_name p) (start l) = Some (par_value p).
Proof.
  induction l as [|q l IH]; cbn; [tauto|]. intros ND H. inversion ND; subst. destruct H as [->|H].
  - destruct (string_dec _ _); congruence.
  - destruct (string_dec _ _) as [E|]; [|auto]. exfalso. apply H2. rewrite E. apply in_map; auto.
Qed.
Lemma same_self D : NoDup (map fst D) -> same_values (map fst D) (map snd D) D.
Proof.
  intros ND. split; [rewrite !map_length; auto|]. induction D as [|[m x] D IH]; intros i n y Hn Hy; destruct i; cbn in *; try discriminate.
  - injection Hn as ->. injection Hy as ->. destruct (string_dec n n); congruence.
  - inversion ND; subst. destruct (string_dec m n) as [->|]; [exfalso; apply H1; eapply nth_error_In; eauto|]. eapply IH; eauto.
Qed.
Fixpoint nodupb (l : list string) : bool := match l with [] => true | a :: l' => negb (existsb (String.eqb a) l') && nodupb l' end.
Lemma nodupb_ok l : nodupb l = true -> NoDup l.
Proof.
  induction l as [|a l IH]; cbn; [constructor|]. intros H. apply andb_prop in H as [H1 H2]. constructor; auto.
  intros Hin. apply negb_true_iff in H1. assert (E : existsb (String.eqb a) l = true) by (apply existsb_exists; exists a; split; auto; apply String.eqb_refl). congruence.
Qed.
Lemma names_sp s sp : spectral_parameters s = Ok sp -> map par_name sp = par_names s.
Proof. intros H. destruct (pars_exist s) as (l & H1 & H2). rewrite H in H1. apply ok_inj_eq in H1. subst l. auto. Qed.
Lemma nodup_ssc s l : ssc_parameters s = Ok l -> NoDup (map par_name l).
Proof.
  unfold ssc_parameters. intros H. destruct (bind_ok_inv _ _ _ H) as (sp & Hsp & E). apply ok_inj_eq in E. subst l.
  rewrite map_app, (names_sp s sp Hsp). destruct s; apply nodupb_ok; reflexivity.
Qed.
Lemma nodup_ec s t l : t = ["blr"] \/ t = ["dt"] \/ t = ["blr"; "dt"] -> ec_parameters s t = Ok l -> NoDup (map par_name l).
Proof.
  unfold ec_parameters. intros Ht H. destruct (bind_ok_inv _ _ _ H) as (sp & Hsp & E). apply ok_inj_eq in E. subst l.
  rewrite map_app, (names_sp s sp Hsp). destruct Ht as [-> |[-> | ->]]; destruct s; apply nodupb_ok; reflexivity.
Qed.

Lemma ssa_fst s gs r : evaluate_SSA_integrand s gs = Ok r -> fst r = gs \/ fst r = corrected s gs.
Proof. unfold evaluate_SSA_integrand. destruct s; intros H; try discriminate; apply ok_inj_eq in H; subst r; auto. Qed.

Definition other_keys : list string := ["z"; "delta_D"; "log10_B"; "t_var"; "mu_s"; "log10_r"; "log10_L_disk"; "M_BH"; "m_dot"; "R_in"; "R_out"; "xi_line"; "lambda_line"; "R_line"; "xi_dt"; "T_dt"; "R_dt"].
Lemma in_keys k : existsb (String.eqb k) other_keys = true -> In k other_keys.
Proof. intros H. apply existsb_exists in H as (y & H & E). apply String.eqb_eq in E. subst; auto. Qed.
Lemma keys_disjoint s n k : In n (par_names s) -> In k other_keys -> n <> k.
Proof.
  intros Hn Hk E. subst k. assert (A : forallb (fun n => negb (existsb (String.eqb n) other_keys)) (par_names s) = true) by (destruct s; reflexivity).
  rewrite forallb_forall in A. specialize (A n Hn). apply negb_true_iff in A.
  assert (B : existsb (String.eqb n) other_keys = true) by (apply existsb_exists; exists n; split; auto; apply String.eqb_refl). congruence.
Qed.

Section C72.
Variable P : phys.
Variable dist : R -> res R.
Definition region_ok (b : blob) : Prop := 0 < c_c P /\ 0 < delta_D b /\ -1 < redshift b /\ 0 < B_field b /\ dist (redshift b) = Ok (d_L b) /\ fit_positive (n_e b) /\ ~ is_empty (n_e b).

Lemma R_b_recovered b : region_ok b -> R_b_of P (redshift b) (delta_D b) (t_var P b) = R_b b.
Proof. intros (H1 & H2 & H3 & _). unfold R_b_of, t_var. field. lra. Qed.

Lemma fitted_self s sp D : fit_positive s -> spectral_parameters s = Ok sp ->
  (forall p, In p sp -> dict_value (par_name p) D = Some (par_value p)) -> fitted s (dict_fun D) = s.
Proof. intros Hp Hs H. eapply C64_initial; eauto. intros p Hin. unfold dict_fun. rewrite H; auto. Qed.

(** frequencies of the energies *)
Definition freq (x : list R) : list R := map (fun e => e * electronvolt / c_h P) x.

(** SSC: the wrapper evaluates synchrotron and SSC with exactly the blob's
    redshift, distance, Doppler factor, field, radius and electrons *)
Theorem C72_ssc : forall b ssa l x grid, region_ok b -> ssc_parameters (n_e b) = Ok l ->
  let D := set_region_from_blob P b (start l) in
  let objects := (let! r1 := evaluate_sed_flux P (freq x) (redshift b) (d_L b) (delta_D b) (B_field b) (R_b b) (n_e b) ssa trapz grid in
    let! r2 := ssc_evaluate_sed_flux P (freq x) (redshift b) (d_L b) (delta_D b) (B_field b) (R_b b) (n_e b) ssa trapz (fst r1) in
    Ok (fst r2, map2 Rplus (snd r1) (snd r2))) in
  sherpa_ssc P dist (n_e b) ssa (map snd D) x grid = objects /\
  gammapy_ssc P dist (n_e b) ssa D x grid = (let! r := objects in Ok (fst r, photons_per_eV x (snd r))).
Proof.
  intros b ssa l x grid Hb Hl D objects.
  assert (S : same_values (map par_name l) (map snd D) D).
  { replace (map par_name l) with (map fst D).
    - apply same_self. unfold D, set_region_from_blob. rewrite !assign_names. unfold start. rewrite map_map. apply nodup_ssc with (n_e b); auto.
    - unfold D, set_region_from_blob. rewrite !assign_names. unfold start. rewrite map_map. auto. }
  assert (E1 : sherpa_ssc P dist (n_e b) ssa (map snd D) x grid = objects).
  2:{ split; auto. rewrite (C65_ssc P dist (n_e b) ssa l (map snd D) D x grid); auto; [rewrite E1; reflexivity|apply Hb]. }
  pose proof (nodup_ssc _ _ Hl) as ND.
  pose proof Hb as (Hc & Hd & Hz & HB & Hdist & Hpos & Hne).
  pose proof Hl as Hl'. unfold ssc_parameters in Hl'. destruct (bind_ok_inv _ _ _ Hl') as (sp & Hsp & E). apply ok_inj_eq in E.
  destruct (same_all _ _ _ S) as [Hp Hk].
  assert (Hpres : forall n, In n (map par_name l) -> exists y, dict_value n (start l) = Some y).
  { intros n Hn. apply dict_in. unfold start. rewrite map_map. auto. }
  assert (Hin : forall n, In n (map par_name (emission_region_parameters false)) -> In n (map par_name l)) by (intros; subst l; rewrite map_app, in_app_iff; auto).
  destruct (Hpres "z") as (z0 & Z0); [apply Hin; cbn; tauto|]. destruct (Hpres "delta_D") as (d0 & D0); [apply Hin; cbn; tauto|].
  destruct (Hpres "log10_B") as (B0 & HB0); [apply Hin; cbn; tauto|]. destruct (Hpres "t_var") as (t0 & T0); [apply Hin; cbn; tauto|].
  assert (V : dict_fun D "z" = redshift b /\ dict_fun D "delta_D" = delta_D b /\ dict_fun D "log10_B" = log10 (B_field b) /\ dict_fun D "t_var" = t_var P b).
  { unfold dict_fun, D, set_region_from_blob. rewrite !dict_assign, Z0, D0, HB0, T0. cbn. auto. }
  destruct V as (V1 & V2 & V3 & V4).
  rewrite E in Hp. rewrite !map_app in Hp. destruct (sherpa_args (n_e b) sp D Hne Hsp) as (a1 & A1 & W1).
  unfold sherpa_ssc. rewrite Hp, star_unpack_app by reflexivity. cbn [bind fst snd emission_region_parameters map par_name mk_par].
  rewrite A1. cbn [bind]. rewrite V1, V2, V3, V4, Hdist. cbn [bind]. rewrite W1. cbn [bind].
  rewrite (fitted_self (n_e b) sp D Hpos Hsp).
  2:{ intros p Hin'. assert (Np : In (par_name p) (par_names (n_e b))).
      { destruct (pars_exist (n_e b)) as (l' & H1 & H2). rewrite Hsp in H1. apply ok_inj_eq in H1. subst l'. rewrite <- H2. apply in_map; auto. }
      assert (Hstart : dict_value (par_name p) (start l) = Some (par_value p)) by (apply dict_start; auto; subst l; apply in_or_app; auto).
      unfold D, set_region_from_blob. rewrite !dict_assign, Hstart.
      repeat match goal with |- context [string_dec (par_name p) ?k] => destruct (string_dec (par_name p) k) as [Eq|_]; [rewrite Eq in Np; exfalso; revert Np; destruct (n_e b); cbn; intuition discriminate|] end. reflexivity. }
  rewrite R_b_recovered by auto. rewrite pow10_log10 by auto. reflexivity.
Qed.

(** on the blob's own grid this is the sum of the two objects' SEDs *)
Theorem C72_ssc_objects : forall b ssa l x sy sc, region_ok b -> 0 < gamma_min (n_e b) <= gamma_max (n_e b) -> ssc_parameters (n_e b) = Ok l ->
  synch_sed_flux P {| sy_blob := b; sy_ssa := ssa; sy_integ := trapz |} (freq x) = Ok sy ->
  ssc_sed_flux P {| sc_blob := b; sc_ssa := ssa; sc_integ := trapz |} (freq x) = Ok sc ->
  exists grid', sherpa_ssc P dist (n_e b) ssa (map snd (set_region_from_blob P b (start l))) x (gamma_e b) = Ok (grid', map2 Rplus sy sc).
Proof.
  intros b ssa l x sy sc Hb Hg Hl H1 H2. destruct (C72_ssc b ssa l x (gamma_e b) Hb Hl) as [E _]. rewrite E. clear E.
  unfold synch_sed_flux in H1. unfold ssc_sed_flux in H2. cbn [sy_blob sy_ssa sy_integ sc_blob sc_ssa sc_integ] in *.
  destruct (bind_ok_inv _ _ _ H1) as ([g1 s1] & F1 & E1). destruct (bind_ok_inv _ _ _ H2) as ([g2 s2] & F2 & E2).
  apply ok_inj_eq in E1, E2. cbn [snd] in E1, E2. subst sy sc.
  assert (G : g1 = gamma_e b).
  { unfold evaluate_sed_flux in F1. rewrite eval_gamma_e in F1 by lra. destruct ssa; [|congruence].
    destruct (bind_ok_inv _ _ _ F1) as ([g3 tau] & F3 & E3). apply ok_inj_eq in E3. injection E3 as -> _. cbn [fst].
    unfold evaluate_tau_ssa in F3. destruct (bind_ok_inv _ _ _ F3) as ([g4 i4] & F4 & E4). apply ok_inj_eq in E4. injection E4 as -> _.
    destruct (ssa_fst _ _ _ F4) as [E|E]; cbn [fst] in E; subst g4; auto. apply corrected_id. intros; apply gamma_e_in; auto; lra. }
  rewrite F1. cbn [bind fst snd]. rewrite G, F2. cbn [bind fst snd]. eauto.
Qed.

(** ExternalCompton(blob, target, r) for a blob with gamma_size 300 *)
Definition ec_of (b : blob) (t : target) (r : R) : res ec := ec_init (set_sizes 300 (gamma_p_size b) b) t (Some r) trapz.

Ltac val HD Hin Hpres D k v :=
  let E := fresh "V" in
  assert (E : dict_fun D k = v) by (unfold dict_fun; rewrite HD; unfold set_targets, set_region_from_blob; rewrite ?dict_assign_ne by discriminate; rewrite dict_assign_eq;
    [reflexivity|rewrite ?dict_assign_ne by discriminate; apply Hpres; apply Hin; cbn; tauto]).
Ltac vals HD Hin Hpres D b ms r d :=
  val HD Hin Hpres D "z" (redshift b); val HD Hin Hpres D "delta_D" (delta_D b); val HD Hin Hpres D "log10_B" (log10 (B_field b)); val HD Hin Hpres D "t_var" (t_var P b);
  val HD Hin Hpres D "mu_s" ms; val HD Hin Hpres D "log10_r" (log10 r); val HD Hin Hpres D "log10_L_disk" (log10 (sd_L_disk d)); val HD Hin Hpres D "M_BH" (sd_M_BH d);
  val HD Hin Hpres D "m_dot" (sd_m_dot d); val HD Hin Hpres D "R_in" (sd_R_in d); val HD Hin Hpres D "R_out" (sd_R_out d).
Ltac decide_lists := repeat match goal with |- context [list_eq_dec string_dec ?a ?b] => destruct (list_eq_dec string_dec a b); try congruence end.
Ltac ec_done D Hp A1 W1 Hdist EL Eb Er Erb Hgs Hsd :=
  rewrite Hp, star_unpack_app by reflexivity; cbn [bind fst snd];
  cbn [emission_region_parameters targets_parameters has existsb String.eqb Ascii.eqb Bool.eqb orb app map par_name mk_par];
  rewrite A1; cbn [bind];
  repeat match goal with V : dict_fun D ?k = _ |- _ => rewrite V; clear V end;
  rewrite Hdist; cbn [bind]; rewrite W1; cbn [bind]; rewrite EL, Eb, Er, Erb;
  change (map (eV_to_Hz P)) with (freq); rewrite Hgs; cbn [bind].

Theorem C72_ec : forall b r L d xi line Rl bl xidt T Rdt ms targets l D0 ssa x grid gs sd sblr sdt, region_ok b -> 0 < r -> 0 < L ->
  sd_L_disk d = L -> blr_init P L xi line Rl = Ok bl -> mu_s b = Ok ms ->
  let dt := dt_init P L xidt T Rdt in
  let nu := freq x in
  targets = ["blr"] \/ targets = ["dt"] \/ targets = ["blr"; "dt"] ->
  ec_parameters (n_e b) targets = Ok l ->
  set_region_from_blob_ec P b r (start l) = Ok D0 ->
  synch_and_ssc P nu (redshift b) (d_L b) (delta_D b) (B_field b) (R_b b) (n_e b) ssa grid = Ok gs ->
  ssdisk_sed_flux P d nu (redshift b) (d_L b) 1 = Ok sd ->
  (let! e := ec_of b (TBLR bl) r in ec_sed_flux P e nu) = Ok (Some sblr) ->
  (let! e := ec_of b (TDustTorus dt) r in ec_sed_flux P e nu) = Ok (Some sdt) ->
  let D := set_targets d (if in_dec string_dec "blr" targets then Some bl else None) (if in_dec string_dec "dt" targets then Some dt else None) D0 in
  let thermal := dt_sed_flux P dt nu (redshift b) (d_L b) in
  let total := if list_eq_dec string_dec targets ["blr"] then map2 Rplus (map2 Rplus (snd gs) sd) sblr
               else if list_eq_dec string_dec targets ["dt"] then map2 Rplus (map2 Rplus (map2 Rplus (snd gs) sd) thermal) sdt
               else map2 Rplus (map2 Rplus (map2 Rplus (map2 Rplus (snd gs) sd) thermal) sblr) sdt in
  sherpa_ec P dist (n_e b) targets ssa (map snd D) x grid = Ok (Some (fst gs, total)) /\
  gammapy_ec P dist (n_e b) targets ssa D x grid = Ok (fst gs, photons_per_eV x total).
Proof.
  intros b r L d xi line Rl bl xidt T Rdt ms targets l D0 ssa x grid gs sd sblr sdt Hb Hr HL HLd Hbl Hmu dt nu Ht Hl HD0 Hgs Hsd Hblr Hdt D thermal total.
  subst nu. unfold set_region_from_blob_ec in HD0. rewrite Hmu in HD0. cbn [bind] in HD0. apply ok_inj_eq in HD0. subst D0.
  pose proof (nodup_ec _ _ _ Ht Hl) as ND.
  assert (Names : map fst D = map par_name l).
  { unfold D, set_targets. destruct (in_dec string_dec "blr" targets), (in_dec string_dec "dt" targets); unfold set_region_from_blob;
    rewrite !assign_names; unfold start; rewrite map_map; reflexivity. }
  assert (S : same_values (map par_name l) (map snd D) D) by (rewrite <- Names; apply same_self; rewrite Names; auto).
  assert (E1 : sherpa_ec P dist (n_e b) targets ssa (map snd D) x grid = Ok (Some (fst gs, total))).
  2:{ split; auto. pose proof (C65_ec P dist (n_e b) targets ssa l (map snd D) D x grid) as A. unfold agrees in A. rewrite E1 in A. apply A; auto. apply Hb. }
  pose proof Hb as (Hc & Hd & Hz & HB & Hdist & Hpos & Hne).
  unfold ec_parameters in Hl. destruct (bind_ok_inv _ _ _ Hl) as (sp & Hsp & E). apply ok_inj_eq in E.
  destruct (same_all _ _ _ S) as [Hp Hk].
  assert (Hpres : forall n, In n (map par_name l) -> exists y, dict_value n (start l) = Some y).
  { intros n Hn. apply dict_in. unfold start. rewrite map_map. auto. }
  assert (Hin : forall n, In n (map par_name (emission_region_parameters true ++ targets_parameters targets)) -> In n (map par_name l)) by (intros; subst l; rewrite map_app, in_app_iff; auto).
  assert (Hf : fitted (n_e b) (dict_fun D) = n_e b).
  { apply (fitted_self (n_e b) sp D Hpos Hsp). intros p Hin'.
    assert (Np : In (par_name p) (par_names (n_e b))) by (rewrite <- (names_sp _ _ Hsp); apply in_map; auto).
    assert (Hstart : dict_value (par_name p) (start l) = Some (par_value p)) by (apply dict_start; auto; subst l; apply in_or_app; auto).
    unfold D, set_targets. destruct (in_dec string_dec "blr" targets), (in_dec string_dec "dt" targets); unfold set_region_from_blob;
    rewrite !dict_assign_ne by (apply (keys_disjoint (n_e b)); [exact Np|apply in_keys; reflexivity]); exact Hstart. }
  assert (EL : pow10 (log10 (sd_L_disk d)) = L) by (rewrite HLd; apply pow10_log10; auto).
  assert (Ebl : blr_L_disk bl = L /\ blr_epsilon bl = epsilon_of_line P (blr_lambda bl)).
  { unfold blr_init in Hbl. destruct (lookup_line line lines_dictionary); [|discriminate]. apply ok_inj_eq in Hbl. subst bl. split; reflexivity. }
  destruct Ebl as [Ebl1 Ebl2].
  unfold ec_of, ec_init in Hblr, Hdt. cbn [bind] in Hblr, Hdt. unfold ec_sed_flux in Hblr, Hdt. cbn [ec_target ec_blob ec_r ec_integ the_r] in Hblr, Hdt.
  change (mu_s (set_sizes 300 (gamma_p_size b) b)) with (mu_s b) in *. rewrite Hmu in Hblr, Hdt. cbn [bind] in Hblr, Hdt.
  apply ok_inj_eq, eq_sym, some_inj in Hblr. apply ok_inj_eq, eq_sym, some_inj in Hdt.
  destruct (sherpa_args (n_e b) sp D Hne Hsp) as (a1 & A1 & W1). rewrite Hf in W1.
  rewrite E in Hp. rewrite !map_app in Hp.
  assert (Erb := R_b_recovered b Hb). assert (Eb := pow10_log10 (B_field b) HB). assert (Er := pow10_log10 r Hr).
  unfold sherpa_ec, list_eqb. clear S Hk Names. unfold total. clear total.
  destruct Ht as [-> |[-> | ->]].
  - assert (HD : D = set_targets d (Some bl) None (assign "log10_r" (log10 r) (assign "mu_s" ms (set_region_from_blob P b (start l))))) by reflexivity. clearbody D.
    vals HD Hin Hpres D b ms r d. val HD Hin Hpres D "xi_line" (blr_xi bl). val HD Hin Hpres D "lambda_line" (blr_lambda bl). val HD Hin Hpres D "R_line" (blr_R_line bl).
    decide_lists. unfold sherpa_ec_blr. ec_done D Hp A1 W1 Hdist EL Eb Er Erb Hgs Hsd.
    unfold ssdisk_sed_flux in Hsd. rewrite HLd in Hsd. rewrite Hsd. cbn [bind rmap]. rewrite <- Hblr, Ebl1, Ebl2. reflexivity.
  - assert (HD : D = set_targets d None (Some dt) (assign "log10_r" (log10 r) (assign "mu_s" ms (set_region_from_blob P b (start l))))) by reflexivity. clearbody D.
    vals HD Hin Hpres D b ms r d. val HD Hin Hpres D "xi_dt" (dt_xi dt). val HD Hin Hpres D "T_dt" (dt_T dt). val HD Hin Hpres D "R_dt" (dt_R dt).
    decide_lists. unfold sherpa_ec_dt. ec_done D Hp A1 W1 Hdist EL Eb Er Erb Hgs Hsd.
    unfold ssdisk_sed_flux in Hsd. rewrite HLd in Hsd. rewrite Hsd. cbn [bind rmap]. rewrite <- Hdt. reflexivity.
  - assert (HD : D = set_targets d (Some bl) (Some dt) (assign "log10_r" (log10 r) (assign "mu_s" ms (set_region_from_blob P b (start l))))) by reflexivity. clearbody D.
    vals HD Hin Hpres D b ms r d. val HD Hin Hpres D "xi_line" (blr_xi bl). val HD Hin Hpres D "lambda_line" (blr_lambda bl). val HD Hin Hpres D "R_line" (blr_R_line bl).
    val HD Hin Hpres D "xi_dt" (dt_xi dt). val HD Hin Hpres D "T_dt" (dt_T dt). val HD Hin Hpres D "R_dt" (dt_R dt).
    decide_lists. unfold sherpa_ec_blr_dt. ec_done D Hp A1 W1 Hdist EL Eb Er Erb Hgs Hsd.
    unfold ssdisk_sed_flux in Hsd. rewrite HLd in Hsd. rewrite Hsd. cbn [bind rmap]. rewrite <- Hblr, <- Hdt, Ebl1, Ebl2. reflexivity.
Qed.
End C72.
Print Assumptions C72_ssc. Print Assumptions C72_ssc_objects. Print Assumptions C72_ec.

Definition c72_blob : blob :=
  {| R_b := 1e16; redshift := 0.1; d_L := 1e27; delta_D := 10; Gamma := 10; B_field := 1; n_e := PowerLaw 1 2 10 1e5; n_p_opt := None; xi := 1; gamma_e_size := 200; gamma_p_size := 200 |}.
Definition c72_disk : ssdisk :=
  {| sd_M_BH := 1e42; sd_L_disk := 1e46; sd_eta := 1 / 12; sd_R_in := 1e14; sd_R_out := 1e17; sd_R_in_tilde := 6; sd_R_out_tilde := 6e3; sd_L_Edd := 1e46; sd_l_Edd := 1; sd_m_dot := 1e26; sd_R_g := 1e14 |}.
Lemma norm_any_nu P nu nu' z L M m a b dl ms s : evaluate_multi_T_bb_norm_sed P nu z L M m a b dl ms = Ok s -> exists s', evaluate_multi_T_bb_norm_sed P nu' z L M m a b dl ms = Ok s'.
Proof. unfold evaluate_multi_T_bb_norm_sed. intros H. destruct (bind_ok_inv _ _ _ H) as (n & E & _). rewrite E. cbn [bind]. eauto. Qed.
Example C72_case : exists bl ms l D0 gs sd sblr sdt,
  let P := codata in let dist := fun _ : R => Ok 1e27 in let b := c72_blob in let x := [1; 1e3; 1e9] in
  region_ok P dist b /\ blr_init P 1e46 0.1 "Lyalpha" 1e17 = Ok bl /\ mu_s b = Ok ms /\ ec_parameters (n_e b) ["blr"; "dt"] = Ok l /\
  set_region_from_blob_ec P b 1e18 (start l) = Ok D0 /\
  synch_and_ssc P (freq P x) (redshift b) (d_L b) (delta_D b) (B_field b) (R_b b) (n_e b) false gamma_e_to_integrate = Ok gs /\
  ssdisk_sed_flux P c72_disk (freq P x) (redshift b) (d_L b) 1 = Ok sd /\
  (let! e := ec_of b (TBLR bl) 1e18 in ec_sed_flux P e (freq P x)) = Ok (Some sblr) /\
  (let! e := ec_of b (TDustTorus (dt_init P 1e46 0.1 1e3 None)) 1e18 in ec_sed_flux P e (freq P x)) = Ok (Some sdt).
Proof.
  assert (M : exists m, mu_s c72_blob = Ok m).
  { unfold mu_s, Beta. cbn [Gamma delta_D c72_blob]. rewrite !div_ok by lra. cbn [bind]. rewrite sqrt_ok by lra. cbn [bind].
    rewrite div_ok; [eauto|]. apply Rgt_not_eq, sqrt_lt_R0. lra. }
  destruct M as (ms & M).
  assert (Sd : exists sd, ssdisk_sed_flux codata c72_disk (freq codata [1; 1e3; 1e9]) (redshift c72_blob) (d_L c72_blob) 1 = Ok sd).
  { destruct (C53_disk_luminosity codata c72_disk (redshift c72_blob) (d_L c72_blob) 1) as (s0 & H & _);
      [apply codata_ok|unfold c72_blob, c72_disk; cbn [sd_M_BH sd_m_dot sd_R_in sd_R_out redshift d_L]; lra..|].
    unfold ssdisk_sed_flux in *. eapply norm_any_nu. exact H. }
  destruct Sd as (sd & Sd).
  eexists; exists ms; eexists; eexists; eexists; exists sd; eexists; eexists. cbv zeta.
  split; [|split; [reflexivity|split; [exact M|split; [reflexivity|split; [|split; [reflexivity|split; [|split]]]]]]].
  - unfold region_ok. pose proof codata_ok as []. cbn [delta_D redshift B_field d_L n_e c72_blob fit_positive is_empty]. repeat split; auto; try lra.
  - unfold set_region_from_blob_ec. rewrite M. reflexivity.
  - exact Sd.
  - unfold ec_of, ec_init, ec_sed_flux. cbn [bind ec_target ec_blob]. change (mu_s (set_sizes 300 (gamma_p_size c72_blob) c72_blob)) with (mu_s c72_blob). rewrite M. reflexivity.
  - unfold ec_of, ec_init, ec_sed_flux. cbn [bind ec_target ec_blob]. change (mu_s (set_sizes 300 (gamma_p_size c72_blob) c72_blob)) with (mu_s c72_blob). rewrite M. reflexivity.
Qed.
