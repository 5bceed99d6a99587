(** Property C84: the parameters a fit starts from. *)
From Verif Require Import Base NumpyInst Spectra Fit FitParameters Spec_Fit Props_Fit.
From Coq Require Import String List.
Import ListNotations.
Open Scope string_scope.
Open Scope list_scope.
Open Scope R_scope.

(** ** specification *)
(** the quantity [q] starts at [from], is sought between [low] and [high], and
    is kept fixed or not; searched in its decimal logarithm if [as_log] *)
Record sought := { q_name : string; as_log : bool; from : R; low : R; high : R; kept : bool }.
Definition the (n : string) (x lo hi : R) (k : bool) : sought := {| q_name := n; as_log := false; from := x; low := lo; high := hi; kept := k |}.
Definition the_log (n : string) (x lo hi : R) (k : bool) : sought := {| q_name := n; as_log := true; from := x; low := lo; high := hi; kept := k |}.
Definition stands_for (q : sought) (p : fit_par) : Prop :=
  let plain x := if as_log q then ten x else x in
  par_name p = (if as_log q then ("log10_" ++ q_name q)%string else q_name q) /\
  plain (par_value p) = from q /\ plain (par_min p) = low q /\ plain (par_max p) = high q /\ par_frozen p = kept q.
(** emission region (G, s, cm) *)
Definition region (ec : bool) : list sought :=
  [the "z" 0.1 0.001 10 true; the "delta_D" 10 1 100 false; the_log "B" 0.01 0.0001 100 false; the "t_var" 600 10 (PI * 10 ^ 7) false] ++
  (if ec then [the "mu_s" 0 0 1 true; the_log "r" (10 ^ 18) (10 ^ 16) (10 ^ 22) true] else []).
(** disk (erg/s, g, g/s, cm), lines (Angstrom, cm), torus (K, cm) *)
Definition disk_q : list sought :=
  [the_log "L_disk" (10 ^ 45) (10 ^ 42) (10 ^ 48) true; the "M_BH" (10 ^ 42) (10 ^ 32) (10 ^ 45) true; the "m_dot" (10 ^ 26) (10 ^ 24) (10 ^ 30) true;
   the "R_in" (10 ^ 14) (10 ^ 12) (10 ^ 16) true; the "R_out" (10 ^ 17) (10 ^ 12) (10 ^ 19) true].
Definition blr_q : list sought := [the "xi_line" 0.6 0 1 true; the "lambda_line" 1215.67 900 7000 true; the "R_line" (10 ^ 17) (10 ^ 16) (10 ^ 18) true].
Definition torus_q : list sought := [the "xi_dt" 0.6 0 1 true; the "T_dt" 1000 100 10000 true; the "R_dt" (3 * 10 ^ 18) (10 ^ 17) (10 ^ 20) true].
(** the distributions whose parameters lie in the ranges that are searched *)
Definition searchable (s : spectrum) : Prop :=
  let dens k := 1 / 10 ^ 15 <= k <= 10 ^ 15 in let index p := 1 <= p <= 5 in let inner g := 10 ^ 2 <= g <= 10 ^ 6 in
  let ends a b := 1 <= a <= 10 ^ 4 /\ 10 ^ 4 <= b <= 10 ^ 8 in
  match s with
  | PowerLaw k p a b => dens k /\ index p /\ ends a b
  | BrokenPowerLaw k p1 p2 gb a b => dens k /\ index p1 /\ index p2 /\ inner gb /\ ends a b
  | LogParabola k p q g0 a b => dens k /\ index p /\ 0.001 <= q <= 1 /\ inner g0 /\ ends a b
  | ExpCutoffPowerLaw k p gc a b => dens k /\ index p /\ inner gc /\ ends a b
  | ExpCutoffBrokenPowerLaw k p1 p2 gc gb a b => dens k /\ index p1 /\ index p2 /\ inner gc /\ inner gb /\ ends a b
  | Interpolated n a b _ _ => 0.001 <= n <= 1000 /\ ends a b
  | EmptyDist _ _ => True
  end.
Definition in_limits (p : fit_par) : Prop := par_min p <= par_value p <= par_max p.

Lemma ten_pow n : ten (INR n) = 10 ^ n.
Proof. apply Rpower_pow. lra. Qed.
Lemma ten_neg n : ten (- INR n) = / 10 ^ n.
Proof. unfold ten. rewrite Rpower_Ropp, Rpower_pow by lra. auto. Qed.
Lemma log_between x lo hi : 0 < x -> (lo <= log10 x <= hi <-> ten lo <= x <= ten hi).
Proof.
  intros Hx. assert (T : forall y, ten y = pow10 y) by reflexivity. pose proof (pow10_log10 x Hx) as E.
  assert (M : forall a b, a <= b -> ten a <= ten b). { intros a b H. apply Rle_Rpower; lra. }
  assert (M' : forall a b, a < b -> ten a < ten b). { intros a b H. apply Rpower_lt; lra. }
  rewrite <- T in E. split; intros [A B].
  - rewrite <- E. split; apply M; auto.
  - rewrite <- E in A, B. split; apply Rnot_lt_le; intros H; apply M' in H; lra.
Qed.
Ltac tens := repeat match goal with
  | |- context [ten (IZR (Zneg ?p))] => let n := eval compute in (Pos.to_nat p) in replace (ten (IZR (Zneg p))) with (/ 10 ^ n) by (rewrite <- ten_neg; f_equal; simpl; lra)
  | |- context [ten (IZR (Zpos ?p))] => let n := eval compute in (Pos.to_nat p) in replace (ten (IZR (Zpos p))) with (10 ^ n) by (rewrite <- ten_pow; f_equal; simpl; lra)
  | |- context [ten (IZR Z0)] => replace (ten (IZR Z0)) with 1 by (unfold ten; rewrite Rpower_O; lra)
  | |- context [ten (- IZR (Zpos ?p))] => let n := eval compute in (Pos.to_nat p) in replace (ten (- IZR (Zpos p))) with (/ 10 ^ n) by (rewrite <- ten_neg; f_equal; simpl; lra)
  end.

Fixpoint nodupb (l : list string) : bool := match l with [] => true | x :: r => negb (existsb (String.eqb x) r) && nodupb r end.
Lemma nodupb_ok l : nodupb l = true -> NoDup l.
Proof.
  induction l as [|x l IH]; cbn; intros H; constructor; apply andb_true_iff in H as [H1 H2]; auto. intros Hin. apply negb_true_iff in H1.
  assert (existsb (String.eqb x) l = true) by (apply existsb_exists; exists x; split; auto; apply String.eqb_refl). congruence.
Qed.

(** ** C84 *)
(** the parameters of the emission region and of the targets are these *)
Theorem C84_region : forall ec, Forall2 stands_for (region ec) (emission_region_parameters ec).
Proof.
  intros []; unfold region, emission_region_parameters; cbn [app]; repeat constructor; cbn [as_log the the_log mk_par par_name par_value par_min par_max par_frozen q_name from low high kept]; tens; lra || reflexivity.
Qed.
Print Assumptions C84_region.
Theorem C84_targets : forall targets, Forall2 stands_for
  (disk_q ++ (if in_dec string_dec "blr" targets then blr_q else []) ++ (if in_dec string_dec "dt" targets then torus_q else [])) (targets_parameters targets).
Proof.
  assert (Hh : forall t l (A : Type) (x y : A), (if has t l then x else y) = if in_dec string_dec t l then x else y).
  { intros t l A x y. unfold has. destruct (existsb (String.eqb t) l) eqn:E; destruct (in_dec string_dec t l) as [H|H]; auto; exfalso.
    - apply existsb_exists in E as (z & Hz & Ez). apply String.eqb_eq in Ez. subst. auto.
    - assert (existsb (String.eqb t) l = true) by (apply existsb_exists; exists t; split; auto; apply String.eqb_refl). congruence. }
  intros targets. unfold targets_parameters. rewrite !Hh. apply Forall2_app; [|apply Forall2_app; destruct (in_dec _ _ _)]; try constructor;
  unfold disk_q, blr_q, torus_q; repeat constructor; cbn [as_log the the_log mk_par par_name par_value par_min par_max par_frozen q_name from low high kept]; tens; lra || reflexivity.
Qed.
Print Assumptions C84_targets.
(** they start inside their limits *)
Theorem C84_start : forall ec targets p, In p (emission_region_parameters ec) \/ In p (targets_parameters targets) -> in_limits p /\ par_min p < par_max p.
Proof.
  intros ec targets p [H|H].
  - assert (PI > 3) by (pose proof PI2_3_2; lra). unfold emission_region_parameters in H. destruct ec; simpl in H; repeat destruct H as [<-|H]; try contradiction; unfold in_limits; simpl; lra.
  - unfold targets_parameters in H. rewrite !in_app_iff in H. destruct H as [H|[H|H]]; [|destruct (has "blr" targets)|destruct (has "dt" targets)];
    simpl in H; repeat destruct H as [<-|H]; try contradiction; unfold in_limits; simpl; lra.
Qed.
Print Assumptions C84_start.
(** those of the distribution exactly if it is in the ranges *)
Theorem C84_spectral : forall s l, fit_positive s -> ~ is_empty s -> spectral_parameters s = Ok l -> (Forall in_limits l <-> searchable s).
Proof.
  intros s l Hp He H. destruct s; cbn in H; injection H as <-; cbn in Hp; cbn [searchable]; try (exfalso; apply He; exact Logic.I);
  repeat rewrite Forall_cons_iff; unfold in_limits; cbn [mk_par par_value par_min par_max];
  rewrite ?log_between by tauto; tens; replace (/ 10 ^ 15) with (1 / 10 ^ 15) by lra; pose proof (Forall_nil in_limits); intuition lra.
Qed.
Print Assumptions C84_spectral.
(** no two parameters of a model have the same name, so that none of them hides
    another among the attributes of the model; the conversions keep name, value, limits and freezing *)
Theorem C84_names : forall s targets l, ec_parameters s targets = Ok l -> NoDup (map par_name (l ++ [norm_parameter])).
Proof.
  intros s targets l H. unfold ec_parameters in H. destruct (pars_exist s) as (sp & Hsp & En). rewrite Hsp in H. cbn [bind] in H.
  apply (f_equal (fun x => match x with Ok y => map par_name y | Err _ => [] end)) in H. cbv beta iota in H. rewrite map_app, <- H, !map_app, En.
  unfold emission_region_parameters, targets_parameters, norm_parameter. destruct (has "blr" targets), (has "dt" targets), s; cbn [app map par_name mk_par par_names]; apply nodupb_ok; reflexivity.
Qed.
Print Assumptions C84_names.

(** sherpa is given the same numbers, and a hard limit that the limit respects
    unless it is beyond 1e50 *)
Theorem C84_sherpa : forall m p, let q := to_sherpa_parameter m p in
  sh_model q = m /\ sh_name q = par_name p /\ sh_val q = par_value p /\ sh_min q = par_min p /\ sh_max q = par_max p /\ sh_frozen q = par_frozen p /\
  (sh_max q <= sh_hard_max q <-> par_max p <= 10 ^ 50).
Proof.
  intros m p q. unfold q, to_sherpa_parameter. cbn [sh_model sh_name sh_val sh_min sh_max sh_frozen sh_hard_max]. repeat (split; [reflexivity|]).
  destruct (Rltb_spec 3.40282e38 (par_max p)); lra.
Qed.
Print Assumptions C84_sherpa.
(** so it holds of every parameter of both models *)
Theorem C84_sherpa_models : forall s targets l, sherpa_ssc_pars s = Ok l \/ sherpa_ec_pars s targets = Ok l ->
  forall q, In q l -> sh_max q <= sh_hard_max q.
Proof.
  assert (Hsp : forall s l, spectral_parameters s = Ok l -> forall p, In p l -> par_max p <= 10 ^ 50).
  { intros s l H p Hin. destruct s; cbn in H; injection H as <-; repeat destruct Hin as [<-|Hin]; try contradiction; cbn [mk_par par_max]; lra. }
  assert (Hem : forall ec p, In p (emission_region_parameters ec) -> par_max p <= 10 ^ 50).
  { pose proof PI_4. intros ec p H'. destruct ec; cbn in H'; repeat destruct H' as [<-|H']; try contradiction; cbn [mk_par par_max]; lra. }
  assert (Hta : forall t p, In p (targets_parameters t) -> par_max p <= 10 ^ 50).
  { intros t p H. unfold targets_parameters in H. rewrite !in_app_iff in H. destruct H as [H|[H|H]]; [|destruct (has "blr" t)|destruct (has "dt" t)];
    cbn [In] in H; repeat destruct H as [<-|H]; try contradiction; cbn [mk_par par_max]; lra. }
  intros s targets l H q Hq. destruct H as [H|H]; [unfold sherpa_ssc_pars, ssc_parameters in H|unfold sherpa_ec_pars, ec_parameters in H];
  destruct (spectral_parameters s) as [sp|e] eqn:E; cbn [bind rmap] in H; try discriminate;
  apply (f_equal (fun x => match x with Ok y => y | Err _ => [] end)) in H; cbv beta iota in H; subst l; apply in_map_iff in Hq as (p & <- & Hp);
  apply C84_sherpa; rewrite !in_app_iff in Hp; intuition eauto.
Qed.
Print Assumptions C84_sherpa_models.
(** gammapy is given the same numbers, for both models, and the norm *)
Theorem C84_gammapy : forall s targets,
  let keeps l l' := Forall2 (fun p q => gp_name q = par_name p /\ gp_value q = par_value p /\ gp_min q = par_min p /\ gp_max q = par_max p /\ gp_frozen q = par_frozen p) l l' in
  exists a b a' b' n, ssc_parameters s = Ok a /\ ec_parameters s targets = Ok b /\ gammapy_ssc_pars s = Ok (a' ++ [n]) /\ gammapy_ec_pars s targets = Ok (b' ++ [n]) /\
    keeps a a' /\ keeps b b' /\ gp_name n = "norm" /\ gp_value n = 1 /\ gp_min n = 1 / 10 /\ gp_max n = 10 /\ gp_frozen n = true.
Proof.
  intros s targets keeps. assert (Hsp : exists sp, spectral_parameters s = Ok sp) by (destruct s; cbn; eauto). destruct Hsp as [sp Hsp].
  unfold gammapy_ssc_pars, gammapy_ec_pars, ssc_parameters, ec_parameters. rewrite Hsp. cbn [bind rmap].
  assert (K : forall l, keeps l (map to_gammapy_parameter l)). { intros l. induction l; constructor; auto. }
  eexists _, _, _, _, _. split; [reflexivity|]. split; [reflexivity|]. split; [rewrite map_app; reflexivity|]. split; [rewrite (map_app _ (_ ++ _)); reflexivity|].
  split; [apply K|]. split; [apply K|]. cbn. repeat split; lra.
Qed.
Print Assumptions C84_gammapy.

(** a typical broken power law is in the ranges; one that starts at gamma = 10^5 is not *)
Example C84_case : searchable (BrokenPowerLaw 1e-8 2 3 1e4 10 1e6) /\ ~ searchable (PowerLaw 1e-8 2 1e5 1e6) /\ fit_positive (PowerLaw 1e-8 2 1e5 1e6).
Proof. cbn [searchable fit_positive]. repeat split; try lra. Qed.
Example C84_case_hard : let q := to_sherpa_parameter "ec" (mk_par "M_BH" 1e42 1e32 1e45 true) in sh_hard_max q = 10 ^ 50.
Proof. cbn [to_sherpa_parameter sh_hard_max mk_par par_max]. destruct (Rltb_spec 3.40282e38 1e45); lra. Qed.
