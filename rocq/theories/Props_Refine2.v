(** C98: the Compton SEDs converge to integrals over the electrons when the
    Lorentz factors are sampled more finely. *)
From Verif Require Import Base TEUtils ListFacts NumpyInst MathUtils Conversion Spectra Blob Synchrotron Kernels Geometry Targets SSC ExternalCompton Spec_Math Spec_Spectra Spec_Blob Spec_Rad Spec_Geom Spec_Beams Spec_Emission MathFacts SpectraFacts SpectraFacts2 BlobFacts Calculus AbsorptionFacts SynchFacts SynchFacts2 Props_Blob Props_Synch ComptonFacts TargetFacts Props_EC Props_Beams Props_Opacity Props_Thermal Props_Emission SynchPower Props_Budget Props_Refine Riemann.
From Coquelicot Require Import Coquelicot.
From Coq Require Import List Lra Lia.
Import ListNotations.
Open Scope list_scope.
Open Scope R_scope.

(** ** sums of finitely many limits *)
Lemma trapezia_limit {A : Type} (e : A -> R) (y : nat -> A -> R) (Y : A -> R) : forall l, (forall x, In x l -> is_lim_seq (fun n => y n x) (Y x)) ->
  is_lim_seq (fun n => trapezia (map (fun x => (e x, y n x)) l)) (trapezia (map (fun x => (e x, Y x)) l)).
Proof.
  induction l as [|x l IH]; intros H; [apply is_lim_seq_const|]. destruct l as [|z l]; [apply is_lim_seq_const|].
  cbn [map trapezia]. apply is_lim_seq_plus'; [|apply IH; intros; apply H; right; auto].
  assert (Hx := H x (or_introl eq_refl)). assert (Hz := H z (or_intror (or_introl eq_refl))).
  apply (is_lim_seq_ext (fun n => (e z - e x) / 2 * (y n x + y n z))). { intros n. lra. }
  replace ((e z - e x) * (Y x + Y z) / 2) with ((e z - e x) / 2 * (Y x + Y z)) by lra. apply lim_scale. apply is_lim_seq_plus'; auto.
Qed.

(** ** Jones' cross section *)
Lemma jones_int P b s eps es : phys_ok P -> emitter_ok b s -> gamma_min s < gamma_max s -> continuous_within s -> 0 < eps -> 0 < es ->
  ex_RInt (fun g => population b s g * jones_cross_section P g eps es) (gamma_min s) (gamma_max s).
Proof.
  intros HP Hb H1 (d & Hd) He Hs. pose proof Hb as [].
  set (gs := (es + sqrt (es ^ 2 + es / eps)) / 2). set (top := if Rlt_dec es eps then eps * es / (eps - es) else gamma_max s).
  assert (Q0 : 0 < es / eps) by (apply Rdiv_lt_0_compat; auto).
  assert (S2 : sqrt (es ^ 2 + es / eps) ^ 2 = es ^ 2 + es / eps) by (apply pow2_sqrt; nra).
  assert (S1 : es < sqrt (es ^ 2 + es / eps)). { rewrite <- (sqrt_pow2 es) at 1 by lra. apply sqrt_lt_1_alt. nra. }
  assert (G0 : es < gs) by (unfold gs; lra).
  assert (Gs : 4 * gs * eps * (gs - es) = es). { unfold gs. set (t := sqrt _) in *. replace (4 * ((es + t) / 2) * eps * ((es + t) / 2 - es)) with (eps * (t ^ 2 - es ^ 2)) by field. rewrite S2. field. lra. }
  set (h := fun g => 4 / 3 * PI * R_b b ^ 3 * d g * (let q := es / (4 * g * eps * (g - es)) in let G := 4 * g * eps in 3 * c_sigmaT P / (4 * eps * g ^ 2) * (2 * q * ln q + (1 + 2 * q) * (1 - q) + (G * q) ^ 2 / (1 + G * q) * (1 - q) / 2))).
  apply (piece_int _ h _ _ gs top); auto.
  - intros g Hg [Hg1 _]. unfold h. apply (continuous_mult (fun g : R_UniformSpace => 4 / 3 * PI * R_b b ^ 3 * d g : R_AbsRing)).
    + apply (continuous_scal_r (4 / 3 * PI * R_b b ^ 3) d g). apply Hd. auto.
    + assert (K : 0 < 4 * g * eps * (g - es)) by (apply Rmult_lt_0_compat; [nra|lra]). assert (Kq : 0 < es / (4 * g * eps * (g - es))) by (apply Rdiv_lt_0_compat; auto).
      cbv zeta. apply (ex_derive_continuous (fun g => 3 * c_sigmaT P / (4 * eps * g ^ 2) * (2 * (es / (4 * g * eps * (g - es))) * ln (es / (4 * g * eps * (g - es))) + (1 + 2 * (es / (4 * g * eps * (g - es)))) * (1 - es / (4 * g * eps * (g - es))) + (4 * g * eps * (es / (4 * g * eps * (g - es)))) ^ 2 / (1 + 4 * g * eps * (es / (4 * g * eps * (g - es)))) * (1 - es / (4 * g * eps * (g - es))) / 2))).
      auto_derive. assert (0 < g) by lra. repeat split; auto; try (apply Rgt_not_eq; try nra).
      * assert (0 < 4 * g * eps * (es * / (4 * g * eps * (g + - es)))). { apply Rmult_lt_0_compat; [nra|]. exact Kq. } lra.
  - intros g Hg Hg1. unfold h, population. rewrite (proj1 (Hd g ltac:(lra))). f_equal. unfold jones_cross_section. cbv zeta.
    destruct (Rlt_dec es g) as [L|L]; [|lra].
    assert (K : 0 < 4 * g * eps * (g - es)) by (apply Rmult_lt_0_compat; [nra|lra]).
    destruct (Rle_dec (1 / (4 * g ^ 2)) (es / (4 * g * eps * (g - es)))) as [L1|L1].
    + destruct (Rle_dec (es / (4 * g * eps * (g - es))) 1) as [L2|L2]; [reflexivity|]. exfalso. apply L2. apply (proj2 (Rle_div_l es 1 _ K)). assert (X : gs * (gs - es) <= g * (g - es)) by (apply Rmult_le_compat; lra). assert (Y : eps * (gs * (gs - es)) <= eps * (g * (g - es))) by (apply Rmult_le_compat_l; lra). lra.
    + exfalso. apply L1. apply (proj1 (Rle_div_r _ es _ K)). replace (1 / (4 * g ^ 2) * (4 * g * eps * (g - es))) with (eps * (g - es) / g) by (field; lra). apply (proj2 (Rle_div_l _ es g ltac:(lra))).
      unfold top in Hg1. destruct (Rlt_dec es eps) as [T|T]; [|nra]. destruct Hg1 as [_ Hg1]. apply (proj2 (Rlt_div_r g (eps * es) (eps - es) ltac:(lra))) in Hg1. lra.
  - intros g Hg Hout. unfold jones_cross_section. cbv zeta. destruct (Rlt_dec es g) as [L|L]; [|ring].
    assert (K : 0 < 4 * g * eps * (g - es)) by (apply Rmult_lt_0_compat; [nra|lra]).
    destruct (Rle_dec (1 / (4 * g ^ 2)) (es / (4 * g * eps * (g - es)))) as [L1|L1]; [|ring]. destruct (Rle_dec (es / (4 * g * eps * (g - es))) 1) as [L2|L2]; [|ring]. exfalso. apply Hout. split.
    + apply (proj1 (Rle_div_l es 1 _ K)) in L2. destruct (Rle_dec gs g) as [X|X]; auto. exfalso. assert (W : g * (g - es) < gs * (gs - es)) by (apply Rmult_le_0_lt_compat; lra). assert (Y : eps * (g * (g - es)) < eps * (gs * (gs - es))) by (apply Rmult_lt_compat_l; lra). lra.
    + unfold top. destruct (Rlt_dec es eps) as [T|T]; [|lra]. apply (proj1 (Rle_div_r g (eps * es) (eps - es) ltac:(lra))). apply (proj2 (Rle_div_r _ es _ K)) in L1. replace (1 / (4 * g ^ 2) * (4 * g * eps * (g - es))) with (eps * (g - es) / g) in L1 by (field; lra). apply (proj1 (Rle_div_l _ es g ltac:(lra))) in L1. lra.
Qed.

Lemma combine_self {A B} (f : A -> B) l : combine l (map f l) = map (fun x => (x, f x)) l.
Proof. induction l as [|x l IH]; simpl; congruence. Qed.

(** ** self absorption *)
Definition break_of (sh : shape) (a : R) : R := match sh with ShBPL _ _ gb | ShECBPL _ _ _ gb => gb | _ => a end.
Lemma slope_piece sh k a b u v : 0 < a -> shape_ok sh -> a <= u -> v <= b -> (v <= break_of sh a \/ break_of sh a <= u) ->
  exists h, (forall g, u <= g <= v -> continuous h g) /\ forall g, u < g < v -> h g = ssa_point (build sh k a b) g.
Proof.
  intros Ha Hs Hu Hv Hm.
  assert (IN : forall s g, gamma_min s <= g <= gamma_max s -> in_range s g = true). { intros s g H. unfold in_range. rewrite !(proj2 (Rleb_true _ _)) by lra. reflexivity. }
  pose proof ln10_pos as L10.
  assert (BR : forall gb p1 p2, v <= gb \/ gb <= u -> exists p : R, forall g, u < g < v -> (if Rleb g gb then p1 else p2) = p).
  { intros gb p1 p2 [H|H]; [exists p1|exists p2]; intros g Hg; [rewrite (proj2 (Rleb_true g gb)) by lra|rewrite (proj2 (Rleb_false g gb)) by lra]; reflexivity. }
  destruct sh as [p|p1 p2 gb|p q g0|p gc|p1 p2 gc gb]; cbn [build break_of shape_ok] in *.
  - exists (fun g => k * (- (p + 2) * exp ((- p - 1) * ln g))). split.
    + intros g Hg. apply (ex_derive_continuous (fun g => k * (- (p + 2) * exp ((- p - 1) * ln g)))). auto_derive. lra.
    + intros g Hg. unfold ssa_point. rewrite IN by (cbn [gamma_min gamma_max]; lra). reflexivity.
  - destruct (BR gb p1 p2 Hm) as [p Hp]. exists (fun g => k * - (p + 2) / g * exp (- p * ln (g / gb))). split.
    + intros g Hg. apply (ex_derive_continuous (fun g => k * - (p + 2) / g * exp (- p * ln (g / gb)))). assert (0 < g / gb) by (apply Rdiv_lt_0_compat; lra). auto_derive. repeat split; auto; lra.
    + intros g Hg. unfold ssa_point. rewrite IN by (cbn [gamma_min gamma_max]; lra). cbv zeta. rewrite Hp by auto. reflexivity.
  - exists (fun g => - (p + 2 * q * (ln (g / g0) / ln 10) + 2) / g * (k * exp ((- p - q * (ln (g / g0) / ln 10)) * ln (g / g0)))). split.
    + intros g Hg. apply (ex_derive_continuous (fun g => - (p + 2 * q * (ln (g / g0) / ln 10) + 2) / g * (k * exp ((- p - q * (ln (g / g0) / ln 10)) * ln (g / g0))))). assert (0 < g / g0) by (apply Rdiv_lt_0_compat; lra). auto_derive. repeat split; auto; lra.
    + intros g Hg. unfold ssa_point, density. rewrite IN by (cbn [gamma_min gamma_max]; lra). reflexivity.
  - exists (fun g => (- (p + 2) / g + - 1 / gc) * (k * exp (- p * ln g) * exp (- g / gc))). split.
    + intros g Hg. apply (ex_derive_continuous (fun g => (- (p + 2) / g + - 1 / gc) * (k * exp (- p * ln g) * exp (- g / gc)))). auto_derive. repeat split; auto; lra.
    + intros g Hg. unfold ssa_point, density. rewrite IN by (cbn [gamma_min gamma_max]; lra). reflexivity.
  - destruct Hs as [Hc Hb]. destruct (BR gb p1 p2 Hm) as [p Hp]. exists (fun g => (- (p + 2) / g + - 1 / gc) * (k * exp (- p * ln (g / gb)) * exp (- g / gc))). split.
    + intros g Hg. apply (ex_derive_continuous (fun g => (- (p + 2) / g + - 1 / gc) * (k * exp (- p * ln (g / gb)) * exp (- g / gc)))). assert (0 < g / gb) by (apply Rdiv_lt_0_compat; lra). auto_derive. repeat split; auto; lra.
    + intros g Hg. unfold ssa_point, density, ssa_prefactor. rewrite IN by (cbn [gamma_min gamma_max]; lra). cbv zeta. rewrite Hp by auto. reflexivity.
Qed.
(** [slope] is gamma^2 d(n / gamma^2)/dgamma away from the bounds and the break *)
Definition slope_of (sh : shape) (k a b : R) (slope : R -> R) : Prop :=
  forall g, a < g < b -> off_break sh g -> is_derive (fun x => density (build sh k a b) x / x ^ 2) g (slope g / g ^ 2).
Lemma slope_int sh k a b slope (w : R -> R) : 0 < a -> a < b -> shape_ok sh -> (forall g, a <= g <= b -> continuous w g) -> slope_of sh k a b slope ->
  exists I, is_RInt (fun g => slope g * w g) a b I /\ is_RInt (fun g => ssa_point (build sh k a b) g * w g) a b I.
Proof.
  intros Ha Hab Hs Hw HS.
  assert (EQ : forall g, a < g < b -> off_break sh g -> slope g = ssa_point (build sh k a b) g).
  { intros g Hg Ho. pose proof (HS g Hg Ho) as D1. pose proof (ssa_derivative sh k a b g Hs ltac:(lra) Hg Ho) as D2. apply is_derive_unique in D1. apply is_derive_unique in D2. rewrite D1 in D2. assert (0 < g ^ 2) by (apply pow_lt; lra).
    apply (Rmult_eq_reg_r (/ g ^ 2)); [exact D2|]. apply Rgt_not_eq, Rinv_0_lt_compat; auto. }
  assert (PC : forall u v, a <= u -> u <= v -> v <= b -> (v <= break_of sh a \/ break_of sh a <= u) -> exists I, is_RInt (fun g => slope g * w g) u v I /\ is_RInt (fun g => ssa_point (build sh k a b) g * w g) u v I).
  { intros u v Hu Huv Hv Hm. destruct (slope_piece sh k a b u v Ha Hs Hu Hv Hm) as (h & Hc & He).
    assert (Ex : ex_RInt (fun g => h g * w g) u v). { apply (@ex_RInt_continuous R_CompleteNormedModule). intros x. rewrite Rmin_left, Rmax_right by lra. intros Hx. apply (continuous_mult (h : R_UniformSpace -> R_AbsRing) (w : R_UniformSpace -> R_AbsRing)); [apply Hc|apply Hw]; lra. }
    destruct Ex as [I HI]. exists I. split; revert HI; apply is_RInt_ext; intros x; rewrite Rmin_left, Rmax_right by lra; intros Hx; rewrite He by auto; auto. rewrite EQ; auto; [lra|].
    destruct sh; cbn [off_break break_of] in *; auto; lra. }
  set (m := Rmax a (Rmin (break_of sh a) b)). assert (Hm : a <= m <= b) by (unfold m; split; [apply Rmax_l|]; apply Rmax_lub; [lra|apply Rmin_r]).
  destruct (PC a m ltac:(lra) ltac:(lra) ltac:(lra)) as (I1 & A1 & B1).
  { unfold m. destruct (Rle_dec (break_of sh a) a) as [L|L]; [right; auto|left]. apply Rmax_lub; [lra|apply Rmin_l]. }
  destruct (PC m b ltac:(lra) ltac:(lra) ltac:(lra)) as (I2 & A2 & B2).
  { destruct (Rle_dec (break_of sh a) b) as [L|L]; [right|left; lra]. unfold m. rewrite Rmin_left by auto. apply Rmax_r. }
  exists (plus I1 I2). split; eapply is_RInt_Chasles; eauto.
Qed.
Lemma ssa_sed P b s nu k n : s = n_e b -> (forall a c, s <> EmptyDist a c) -> phys_ok P -> emitter_ok b s -> (forall x, In x nu -> 0 < x) ->
  let g := log_grid (gamma_min s) (gamma_max s) n in
  synch_sed_flux P {| sy_blob := set_sizes n k b; sy_ssa := true; sy_integ := trapz |} nu =
  Ok (map (fun x => received b (comoving b x * over g (fun g => population b s g * synch_power P (c_me P) (B_field b) g (comoving b x))) *
    tau_to_attenuation (2 * R_b b * (- over g (fun y => ssa_point s y * synch_power P (c_me P) (B_field b) y (comoving b x)) / (8 * PI * c_me P * comoving b x ^ 2)))) nu).
Proof.
  intros -> Hne HP Hb Hnu g. set (b' := set_sizes n k b). assert (Hb' : emitter_ok b' (n_e b')) by (destruct Hb; constructor; auto). pose proof Hb as [].
  destruct (C78_self_absorption P b' nu (map (ssa_point (n_e b')) g) HP Hb' Hnu) as (thin & E1 & E2).
  { cbn [b' set_sizes n_e gamma_e_size]. fold g. apply ssa_array; auto. apply corrected_id. intros x. apply grid_in; auto. }
  rewrite C78_synchrotron in E1 by auto. cbn [b' set_sizes n_e gamma_e_size B_field R_b] in E1, E2. fold g in E1, E2. match type of E1 with Ok ?x = Ok ?y => assert (Et : y = x) by congruence end. subst thin.
  rewrite E2. f_equal. rewrite !combine_self, map_map. apply map_ext. intros x. cbn [fst snd]. unfold absorption_coefficient, over. rewrite map_map. reflexivity.
Qed.
(** the fraction of the photons that leaves the blob, as tau_to_attenuation has
    it at optical depths other than 1e-3 *)
Definition leaving (tau : R) : R := if Rlt_dec tau (1 / 10 ^ 3) then 1 else escape_fraction tau.
Lemma attenuation_limit u tau : tau <> 1 / 10 ^ 3 -> is_lim_seq u tau -> is_lim_seq (fun n => tau_to_attenuation (u n)) (leaving tau).
Proof.
  intros Hne Hu. unfold leaving. destruct (Rlt_dec tau (1 / 10 ^ 3)) as [L|L].
  - apply (is_lim_seq_ext_loc (fun _ => 1)); [|apply is_lim_seq_const]. apply is_lim_seq_spec in Hu. destruct (Hu (mkposreal (1 / 10 ^ 3 - tau) ltac:(lra))) as [N HN]. exists N. intros n Hn. specialize (HN n Hn). cbn [pos] in HN. apply Rabs_lt_between in HN.
    unfold tau_to_attenuation. cbv zeta. rewrite (proj2 (Rltb_true (u n) (1 / 10 ^ 3))) by lra. reflexivity.
  - assert (G : 1 / 10 ^ 3 < tau) by (destruct (Rtotal_order tau (1 / 10 ^ 3)) as [T|[T|T]]; [lra|contradiction|auto]). assert (P3 : 0 < 1 / 10 ^ 3) by lra.
    set (f := fun t => 3 * (1 / 2 + exp (- t) / t - (1 - exp (- t)) / t ^ 2) / t).
    assert (Ef : forall t, 1 / 10 ^ 3 <= t -> tau_to_attenuation t = f t). { intros t Ht. unfold tau_to_attenuation. cbv zeta. rewrite (proj2 (Rltb_false t (1 / 10 ^ 3))) by lra. reflexivity. }
    rewrite <- (proj1 (C78_escape tau ltac:(lra)) ltac:(lra)), Ef by lra.
    apply (is_lim_seq_ext_loc (fun n => f (u n))).
    + apply is_lim_seq_spec in Hu. destruct (Hu (mkposreal (tau - 1 / 10 ^ 3) ltac:(lra))) as [N HN]. exists N. intros n Hn. specialize (HN n Hn). cbn [pos] in HN. apply Rabs_lt_between in HN. symmetry. apply Ef. lra.
    + apply is_lim_seq_continuous; auto. apply continuity_pt_filterlim. apply (ex_derive_continuous f). unfold f. auto_derive. assert (0 < tau * (tau * 1)) by nra. repeat split; lra.
Qed.
Definition optical_depth (P : phys) (b : blob) (slope : R -> R) (nu : R) : R :=
  2 * R_b b * (- RInt (fun g => slope g * synch_power P (c_me P) (B_field b) g nu) (gamma_min (n_e b)) (gamma_max (n_e b)) / (8 * PI * c_me P * nu ^ 2)).
Lemma thin_limit P b x : phys_ok P -> emitter_ok b (n_e b) -> gamma_min (n_e b) < gamma_max (n_e b) -> continuous_within (n_e b) -> 0 < x ->
  is_lim_seq (fun n => received b (comoving b x * over (log_grid (gamma_min (n_e b)) (gamma_max (n_e b)) n) (fun g => population b (n_e b) g * synch_power P (c_me P) (B_field b) g (comoving b x))))
   (received b (comoving b x * RInt (fun g => population b (n_e b) g * synch_power P (c_me P) (B_field b) g (comoving b x)) (gamma_min (n_e b)) (gamma_max (n_e b)))).
Proof.
  intros HP Hb H1 Hc Hx. pose proof Hb as []. pose proof HP as []. pose proof PI_RGT_0. assert (CP : 0 < comoving b x) by (unfold comoving; pos).
  apply (is_lim_seq_ext (fun n => delta_D b ^ 4 * comoving b x / (4 * PI * d_L b ^ 2) * over (log_grid (gamma_min (n_e b)) (gamma_max (n_e b)) n) (fun g => population b (n_e b) g * synch_power P (c_me P) (B_field b) g (comoving b x)))). { intros n. unfold received. field. lra. }
    match goal with |- is_lim_seq _ (Finite (received b (comoving b x * ?i))) => replace (received b (comoving b x * i)) with (delta_D b ^ 4 * comoving b x / (4 * PI * d_L b ^ 2) * i) by (unfold received; field; lra) end. apply lim_scale.
    apply riemann_limit; auto. apply (@RInt_correct R_CompleteNormedModule). 
    destruct (weighted trapz (n_e b) (fun g => 4 / 3 * PI * R_b b ^ 3 * synch_power P (c_me P) (B_field b) g (comoving b x)) em_min H1 Hc) as [Ex _]; [|left; auto|].
    { intros g Hg. apply (continuous_scal_r (4 / 3 * PI * R_b b ^ 3) (fun g => synch_power P (c_me P) (B_field b) g (comoving b x)) g). apply synch_power_cont; auto. lra. }
    revert Ex. apply ex_RInt_ext. intros g _. unfold population. match goal with |- ?a = ?b => change (@eq R a b) end. ring.
Qed.
Lemma ssa_limit P b sh kk slope x : phys_ok P -> emitter_ok b (n_e b) -> gamma_min (n_e b) < gamma_max (n_e b) -> shape_ok sh -> n_e b = build sh kk (gamma_min (n_e b)) (gamma_max (n_e b)) -> slope_of sh kk (gamma_min (n_e b)) (gamma_max (n_e b)) slope -> 0 < x ->
  optical_depth P b slope (comoving b x) <> 1 / 10 ^ 3 ->
  is_lim_seq (fun n => let g := log_grid (gamma_min (n_e b)) (gamma_max (n_e b)) n in received b (comoving b x * over g (fun g => population b (n_e b) g * synch_power P (c_me P) (B_field b) g (comoving b x))) *
    tau_to_attenuation (2 * R_b b * (- over g (fun y => ssa_point (n_e b) y * synch_power P (c_me P) (B_field b) y (comoving b x)) / (8 * PI * c_me P * comoving b x ^ 2))))
   (received b (comoving b x * RInt (fun g => population b (n_e b) g * synch_power P (c_me P) (B_field b) g (comoving b x)) (gamma_min (n_e b)) (gamma_max (n_e b))) * leaving (optical_depth P b slope (comoving b x))).
Proof.
  intros HP Hb H1 Hs HE HS Hx Ht. pose proof Hb as []. pose proof HP as []. pose proof PI_RGT_0. assert (CP : 0 < comoving b x) by (unfold comoving; pos).
  assert (Hc : continuous_within (n_e b)) by (rewrite HE; apply (proj1 C97_distributions); auto).
  cbv zeta. apply is_lim_seq_mult'; [apply thin_limit; auto|].
  apply attenuation_limit; auto. unfold optical_depth.
    destruct (slope_int sh kk (gamma_min (n_e b)) (gamma_max (n_e b)) slope (fun g => synch_power P (c_me P) (B_field b) g (comoving b x)) em_min H1 Hs) as (I & A & B); auto.
    { intros g Hg. apply synch_power_cont; auto. lra. }
    rewrite <- HE in B. rewrite (@is_RInt_unique R_CompleteNormedModule _ _ _ _ A).
    apply (is_lim_seq_ext (fun n => - (2 * R_b b) / (8 * PI * c_me P * comoving b x ^ 2) * over (log_grid (gamma_min (n_e b)) (gamma_max (n_e b)) n) (fun y => ssa_point (n_e b) y * synch_power P (c_me P) (B_field b) y (comoving b x)))). { intros n. field. lra. }
    replace (2 * R_b b * (- I / (8 * PI * c_me P * comoving b x ^ 2))) with (- (2 * R_b b) / (8 * PI * c_me P * comoving b x ^ 2) * I) by (field; lra). apply lim_scale. apply riemann_limit; auto.
Qed.

Theorem C98_self_absorption : forall P b k nu sh norm slope, phys_ok P -> emitter_ok b (n_e b) -> gamma_min (n_e b) < gamma_max (n_e b) ->
  shape_ok sh -> n_e b = build sh norm (gamma_min (n_e b)) (gamma_max (n_e b)) -> slope_of sh norm (gamma_min (n_e b)) (gamma_max (n_e b)) slope -> 0 < nu ->
  optical_depth P b slope (comoving b nu) <> 1 / 10 ^ 3 ->
  exists F, (forall n, synch_sed_flux P {| sy_blob := set_sizes n k b; sy_ssa := true; sy_integ := trapz |} (nu :: nil) = Ok (F n :: nil)) /\
    is_lim_seq F (received b (comoving b nu * RInt (fun g => population b (n_e b) g * synch_power P (c_me P) (B_field b) g (comoving b nu)) (gamma_min (n_e b)) (gamma_max (n_e b))) *
                  leaving (optical_depth P b slope (comoving b nu))).
Proof.
  intros P b k nu sh norm slope HP Hb H1 Hs HE HS Hn Ht. eexists. split; [|apply (ssa_limit P b sh norm slope nu HP Hb H1 Hs HE HS Hn Ht)].
  intros n. rewrite (ssa_sed P b (n_e b)); auto. { intros a c K. rewrite HE in K. destruct sh; discriminate. } intros x [<-|[]]. auto.
Qed.
Print Assumptions C98_self_absorption.

(** ** synchrotron self Compton *)
Lemma ssc_limit P b k ssa nu (Sn : nat -> R -> R) (S : R -> R) : phys_ok P -> emitter_ok b (n_e b) -> gamma_min (n_e b) < gamma_max (n_e b) -> gamma_max (n_e b) <= 2 ^ 510 -> continuous_within (n_e b) -> 0 < nu ->
  (forall n, synch_sed_flux P {| sy_blob := set_sizes n k b; sy_ssa := ssa; sy_integ := trapz |} (np_logspace 5 30 200) = Ok (map (Sn n) (np_logspace 5 30 200))) ->
  (forall x, In x (np_logspace 5 30 200) -> is_lim_seq (fun n => Sn n x) (S x)) ->
  let mc2 := c_me P * c_c P ^ 2 in
  let electrons w := RInt (fun g => population b (n_e b) g * w g) (gamma_min (n_e b)) (gamma_max (n_e b)) in
  let es := comoving_energy P b nu in
  let sed := es ^ 2 * mc2 * trapezia (map (fun n =>
      let eps := comoving_energy P b n in
      let photons := sphere_density P (R_b b) (4 * PI * d_L b ^ 2 * S n / (delta_D b ^ 4 * eps)) / (eps * mc2) in
      (eps, photons * c_c P * electrons (fun g => jones_cross_section P g eps es))) (np_logspace 5 30 200)) in
  exists F, (forall n, ssc_sed_flux P {| sc_blob := set_sizes n k b; sc_ssa := ssa; sc_integ := trapz |} (nu :: nil) = Ok (F n :: nil)) /\
    is_lim_seq F (received b sed).
Proof.
  intros HP Hb H1 H510 Hc Hn HSn HS mc2 electrons es sed. pose proof Hb as []. pose proof HP as []. pose proof PI_RGT_0.
  set (s := n_e b) in *. set (a := gamma_min s) in *. set (z := gamma_max s) in *.
  assert (CP : forall n, 0 < n -> 0 < comoving b n) by (intros n Hn'; unfold comoving; apply Rdiv_lt_0_compat; auto; apply Rmult_lt_0_compat; auto).
  assert (EP : forall n, 0 < n -> 0 < comoving_energy P b n) by (intros n Hn'; specialize (CP n Hn'); unfold comoving_energy; pos).
  assert (EPs : 0 < es) by (apply EP; auto).
  set (fr := np_logspace 5 30 200) in *.
  set (val := fun n x => let eps := comoving_energy P b x in sphere_density P (R_b b) (4 * PI * d_L b ^ 2 * Sn n x / (delta_D b ^ 4 * eps)) / (eps * mc2) * c_c P * over (log_grid a z n) (fun g => population b s g * jones_cross_section P g eps es)).
  exists (fun n => received b (es ^ 2 * mc2 * trapezia (map (fun x => (comoving_energy P b x, val n x)) fr))). split.
  - intros n. assert (Hb' : emitter_ok (set_sizes n k b) (n_e (set_sizes n k b))) by (destruct Hb; constructor; auto).
    rewrite (C77_ssc P (set_sizes n k b) ssa (nu :: nil) _ HP Hb' H510 (HSn n)). cbn [map]. change (np_logspace 5 30 200) with fr. rewrite combine_self, map_map. reflexivity.
  - assert (LS : forall c, received b c = delta_D b ^ 4 / (4 * PI * d_L b ^ 2) * c). { intros c. unfold received. field. lra. }
    apply (is_lim_seq_ext (fun n => delta_D b ^ 4 / (4 * PI * d_L b ^ 2) * (es ^ 2 * mc2) * trapezia (map (fun x => (comoving_energy P b x, val n x)) fr))). { intros n. rewrite LS. ring. }
    rewrite LS. unfold sed. rewrite <- (Rmult_assoc _ (es ^ 2 * mc2)). apply lim_scale.
    apply (trapezia_limit (comoving_energy P b) val). intros x Hx. specialize (HS x Hx). assert (Hxp : 0 < x) by (apply (logspace_pos 5 30 200); exact Hx). specialize (CP x Hxp). specialize (EP x Hxp).
    set (eps := comoving_energy P b x) in *. set (c0 := sphere_density P (R_b b) 1 * (4 * PI * d_L b ^ 2 / (delta_D b ^ 4 * eps)) / (eps * mc2) * c_c P).
    assert (Hmc : 0 < mc2) by (unfold mc2; pos).
    apply (is_lim_seq_ext (fun n => c0 * (Sn n x * over (log_grid a z n) (fun g => population b s g * jones_cross_section P g eps es)))).
    { intros n. unfold val. cbv zeta. fold eps. set (o2 := over _ _). unfold c0, sphere_density. field. repeat split; lra. }
    match goal with |- is_lim_seq _ (Finite ?t) => replace t with (c0 * (S x * electrons (fun g => jones_cross_section P g eps es))) end.
    2:{ set (o2 := electrons _). unfold c0, sphere_density. field. repeat split; lra. }
    apply lim_scale. apply is_lim_seq_mult'; auto. apply riemann_limit; auto. apply (@RInt_correct R_CompleteNormedModule). apply jones_int; auto.
Qed.
Theorem C98_ssc : forall P b k nu, phys_ok P -> emitter_ok b (n_e b) -> gamma_min (n_e b) < gamma_max (n_e b) -> gamma_max (n_e b) <= 2 ^ 510 -> continuous_within (n_e b) -> 0 < nu ->
  let mc2 := c_me P * c_c P ^ 2 in
  let electrons w := RInt (fun g => population b (n_e b) g * w g) (gamma_min (n_e b)) (gamma_max (n_e b)) in
  let es := comoving_energy P b nu in
  let sed := es ^ 2 * mc2 * trapezia (map (fun n =>
      let eps := comoving_energy P b n in
      let luminosity := comoving b n * electrons (fun g => synch_power P (c_me P) (B_field b) g (comoving b n)) / eps in
      let photons := sphere_density P (R_b b) luminosity / (eps * mc2) in
      (eps, photons * c_c P * electrons (fun g => jones_cross_section P g eps es))) (np_logspace 5 30 200)) in
  exists F, (forall n, ssc_sed_flux P {| sc_blob := set_sizes n k b; sc_ssa := false; sc_integ := trapz |} (nu :: nil) = Ok (F n :: nil)) /\
    is_lim_seq F (received b sed).
Proof.
  intros P b k nu HP Hb H1 H510 Hc Hn mc2 electrons es sed. pose proof Hb as []. pose proof HP as []. pose proof PI_RGT_0.
  assert (CP : forall n, 0 < n -> 0 < comoving b n) by (intros n Hn'; unfold comoving; apply Rdiv_lt_0_compat; auto; apply Rmult_lt_0_compat; auto).
  destruct (ssc_limit P b k false nu (fun n x => received b (comoving b x * over (log_grid (gamma_min (n_e b)) (gamma_max (n_e b)) n) (fun g => population b (n_e b) g * synch_power P (c_me P) (B_field b) g (comoving b x))))
    (fun x => received b (comoving b x * electrons (fun g => synch_power P (c_me P) (B_field b) g (comoving b x)))) HP Hb H1 H510 Hc Hn) as (F & HF & HL).
  - intros n. assert (Hb' : emitter_ok (set_sizes n k b) (n_e (set_sizes n k b))) by (destruct Hb; constructor; auto). rewrite (C78_synchrotron P (set_sizes n k b) _ HP Hb'). reflexivity.
  - intros x Hx. apply thin_limit; auto. apply (logspace_pos 5 30 200); exact Hx.
  - exists F. split; auto. replace sed with (es ^ 2 * mc2 * trapezia (map (fun n => let eps := comoving_energy P b n in
      let photons := sphere_density P (R_b b) (4 * PI * d_L b ^ 2 * received b (comoving b n * electrons (fun g => synch_power P (c_me P) (B_field b) g (comoving b n))) / (delta_D b ^ 4 * eps)) / (eps * mc2) in
      (eps, photons * c_c P * electrons (fun g => jones_cross_section P g eps es))) (np_logspace 5 30 200))); [exact HL|].
    unfold sed. f_equal. f_equal. apply map_ext_in. intros x Hx. cbv zeta. assert (Hxp : 0 < x) by (apply (logspace_pos 5 30 200); exact Hx). f_equal. f_equal. f_equal. f_equal. f_equal. assert (0 < comoving_energy P b x) by (specialize (CP x Hxp); unfold comoving_energy; pos).
    set (o1 := electrons _). unfold received. field. repeat split; lra.
Qed.
Print Assumptions C98_ssc.
(** the same with self absorption, for the analytical distributions, unless an
    optical depth equals 1e-3, where tau_to_attenuation jumps *)
Theorem C98_ssc_absorbed : forall P b k nu sh norm slope, phys_ok P -> emitter_ok b (n_e b) -> gamma_min (n_e b) < gamma_max (n_e b) -> gamma_max (n_e b) <= 2 ^ 510 ->
  shape_ok sh -> n_e b = build sh norm (gamma_min (n_e b)) (gamma_max (n_e b)) -> slope_of sh norm (gamma_min (n_e b)) (gamma_max (n_e b)) slope ->
  (forall x, In x (np_logspace 5 30 200) -> optical_depth P b slope (comoving b x) <> 1 / 10 ^ 3) -> 0 < nu ->
  let mc2 := c_me P * c_c P ^ 2 in
  let electrons w := RInt (fun g => population b (n_e b) g * w g) (gamma_min (n_e b)) (gamma_max (n_e b)) in
  let es := comoving_energy P b nu in
  let sed := es ^ 2 * mc2 * trapezia (map (fun n =>
      let eps := comoving_energy P b n in
      let luminosity := comoving b n * electrons (fun g => synch_power P (c_me P) (B_field b) g (comoving b n)) * leaving (optical_depth P b slope (comoving b n)) / eps in
      let photons := sphere_density P (R_b b) luminosity / (eps * mc2) in
      (eps, photons * c_c P * electrons (fun g => jones_cross_section P g eps es))) (np_logspace 5 30 200)) in
  exists F, (forall n, ssc_sed_flux P {| sc_blob := set_sizes n k b; sc_ssa := true; sc_integ := trapz |} (nu :: nil) = Ok (F n :: nil)) /\
    is_lim_seq F (received b sed).
Proof.
  intros P b k nu sh norm slope HP Hb H1 H510 Hs HE HS Ht Hn mc2 electrons es sed. pose proof Hb as []. pose proof HP as []. pose proof PI_RGT_0.
  assert (Hc : continuous_within (n_e b)) by (rewrite HE; apply (proj1 C97_distributions); auto).
  assert (Hne : forall a c, n_e b <> EmptyDist a c) by (intros a c K; rewrite HE in K; destruct sh; discriminate).
  assert (CP : forall n, 0 < n -> 0 < comoving b n) by (intros n Hn'; unfold comoving; apply Rdiv_lt_0_compat; auto; apply Rmult_lt_0_compat; auto).
  destruct (ssc_limit P b k true nu (fun n x => let g := log_grid (gamma_min (n_e b)) (gamma_max (n_e b)) n in received b (comoving b x * over g (fun g => population b (n_e b) g * synch_power P (c_me P) (B_field b) g (comoving b x))) *
    tau_to_attenuation (2 * R_b b * (- over g (fun y => ssa_point (n_e b) y * synch_power P (c_me P) (B_field b) y (comoving b x)) / (8 * PI * c_me P * comoving b x ^ 2))))
    (fun x => received b (comoving b x * electrons (fun g => synch_power P (c_me P) (B_field b) g (comoving b x))) * leaving (optical_depth P b slope (comoving b x))) HP Hb H1 H510 Hc Hn) as (F & HF & HL).
  - intros n. apply ssa_sed; auto. intros x Hx. apply (logspace_pos 5 30 200); exact Hx.
  - intros x Hx. apply (ssa_limit P b sh norm); auto. apply (logspace_pos 5 30 200); exact Hx.
  - exists F. split; auto. replace sed with (es ^ 2 * mc2 * trapezia (map (fun n => let eps := comoving_energy P b n in
      let photons := sphere_density P (R_b b) (4 * PI * d_L b ^ 2 * (received b (comoving b n * electrons (fun g => synch_power P (c_me P) (B_field b) g (comoving b n))) * leaving (optical_depth P b slope (comoving b n))) / (delta_D b ^ 4 * eps)) / (eps * mc2) in
      (eps, photons * c_c P * electrons (fun g => jones_cross_section P g eps es))) (np_logspace 5 30 200))); [exact HL|].
    unfold sed. f_equal. f_equal. apply map_ext_in. intros x Hx. cbv zeta. assert (Hxp : 0 < x) by (apply (logspace_pos 5 30 200); exact Hx). f_equal. f_equal. f_equal. f_equal. f_equal. assert (0 < comoving_energy P b x) by (specialize (CP x Hxp); unfold comoving_energy; pos).
    set (o1 := electrons _). set (o2 := leaving _). unfold received. field. repeat split; lra.
Qed.
Print Assumptions C98_ssc_absorbed.

(** ** external Compton *)
(** the SED of [scattered_sed] (Spec_Beams) with the integral over the electrons,
    N of them per unit Lorentz factor, from lo to hi *)
Definition scattered_integral (P : phys) (dl dd mu_s es : R) (N : R -> R) (lo hi : R) (b : beam) : R :=
  let c := dot (b_dir b) (observer mu_s) in
  es ^ 2 * dd ^ 3 / (4 * PI * dl ^ 2) *
  RInt (fun g => N g * (c_c P * (b_u b / b_eps b) * (1 - c)) * compton_cross_section P g es (b_eps b) c) lo hi.

Lemma compton_int P s dd V ep c es lo hi : 0 < dd -> 0 < gamma_min s -> continuous_within s -> 0 < ep -> c <= 1 -> 0 < es -> 0 < lo -> lo < hi -> forall k,
  ex_RInt (fun g => V * density s (g / dd) * (k * (1 - c)) * compton_cross_section P g es ep c) lo hi.
Proof.
  intros Hdd Hm (d & Hd) Hep Hc Hes Hlo Hlh k.
  destruct (Req_dec c 1) as [->|Hc1].
  { apply (ex_RInt_ext (fun _ => 0)); [|apply ex_RInt_const]. intros x _. match goal with |- ?a = ?b => change (@eq R a b) end. ring. }
  set (e := ep * (1 - c)). assert (He : 0 < e) by (unfold e; apply Rmult_lt_0_compat; lra).
  assert (Q0 : 0 < 2 * es / e) by (apply Rdiv_lt_0_compat; lra).
  set (t := sqrt (es ^ 2 + 2 * es / e)). assert (S2 : t ^ 2 = es ^ 2 + 2 * es / e) by (apply pow2_sqrt; nra).
  assert (S1 : es < t). { unfold t. rewrite <- (sqrt_pow2 es) at 1 by lra. apply sqrt_lt_1_alt. nra. }
  set (gs := (es + t) / 2). assert (G0 : es < gs) by (unfold gs; lra).
  assert (Gs : 2 * e * (gs * (gs - es)) = es). { unfold gs. replace (2 * e * ((es + t) / 2 * ((es + t) / 2 - es))) with (e * (t ^ 2 - es ^ 2) / 2) by field. rewrite S2. field. lra. }
  assert (COND : forall g, 0 < g -> (es <= 2 * g * (g * ep * (1 - c)) / (1 + 2 * (g * ep * (1 - c))) <-> es <= 2 * e * (g * (g - es)))).
  { intros g Hg. replace (g * ep * (1 - c)) with (g * e) by (unfold e; ring). assert (K : 0 < 1 + 2 * (g * e)) by (assert (0 < g * e) by (apply Rmult_lt_0_compat; auto); lra). split; intros L.
    - apply (proj2 (Rle_div_r es _ _ K)) in L. lra.
    - apply (proj1 (Rle_div_r es _ _ K)). lra. }
  set (h := fun g => V * d (g / dd) * (k * (1 - c)) * (3 / 8 * c_sigmaT P / (g * (g * e)) * ((1 - es / g) + 1 / (1 - es / g) - 2 * es / (g * (g * e) * (1 - es / g)) + (es / (g * (g * e) * (1 - es / g))) ^ 2))).
  apply (piece_int _ h _ _ (Rmax gs (dd * gamma_min s)) (dd * gamma_max s)); auto.
  - intros g Hg [Hg1 Hg2]. assert (Hgs : gs <= g) by (eapply Rle_trans; [apply Rmax_l|exact Hg1]). assert (Hgm : dd * gamma_min s <= g) by (eapply Rle_trans; [apply Rmax_r|exact Hg1]).
    assert (Hr : gamma_min s <= g / dd <= gamma_max s). { split; [apply (proj1 (Rle_div_r _ g dd Hdd))|apply (proj2 (Rle_div_l g _ dd Hdd))]; lra. }
    assert (Y : 0 < 1 - es / g). { assert (es / g < 1); [|lra]. apply (proj2 (Rlt_div_l es 1 g ltac:(lra))). lra. }
    unfold h. apply (continuous_mult (fun g : R_UniformSpace => V * d (g / dd) * (k * (1 - c)) : R_AbsRing)).
    + apply (continuous_ext (fun g => (V * (k * (1 - c))) * d (g / dd))). { intros x. match goal with |- ?a = ?b => change (@eq R a b) end. ring. }
      apply (continuous_scal_r (V * (k * (1 - c))) (fun g => d (g / dd)) g). apply (continuous_comp (fun g => g / dd) d); [|apply Hd; auto]. apply (ex_derive_continuous (fun g => g / dd)). auto_derive. lra.
    + assert (0 < g) by lra. assert (0 < g * (g * e)) by (apply Rmult_lt_0_compat; [|apply Rmult_lt_0_compat]; auto). assert (0 < g * (g * e) * (1 - es / g)) by (apply Rmult_lt_0_compat; auto).
      apply (ex_derive_continuous (fun g => 3 / 8 * c_sigmaT P / (g * (g * e)) * ((1 - es / g) + 1 / (1 - es / g) - 2 * es / (g * (g * e) * (1 - es / g)) + (es / (g * (g * e) * (1 - es / g))) ^ 2))).
      auto_derive. unfold Rminus, Rdiv in *. repeat split; auto; lra.
  - intros g Hg [Hg1 Hg2]. assert (Hgs : gs < g) by (eapply Rle_lt_trans; [apply Rmax_l|exact Hg1]). assert (Hgm : dd * gamma_min s < g) by (eapply Rle_lt_trans; [apply Rmax_r|exact Hg1]).
    assert (Hr : gamma_min s <= g / dd <= gamma_max s). { split; [apply (proj1 (Rle_div_r _ g dd Hdd))|apply (proj2 (Rle_div_l g _ dd Hdd))]; lra. }
    unfold h. rewrite (proj1 (Hd _ Hr)). f_equal. unfold compton_cross_section. cbv zeta. destruct (Rle_dec _ _) as [L|L].
    + replace (g * ep * (1 - c)) with (g * e) by (unfold e; ring). reflexivity.
    + exfalso. apply L. apply COND; [lra|]. assert (X : gs * (gs - es) <= g * (g - es)) by (apply Rmult_le_compat; lra). assert (Z : e * (gs * (gs - es)) <= e * (g * (g - es))) by (apply Rmult_le_compat_l; lra). lra.
  - intros g Hg Hout. destruct (Rle_dec (dd * gamma_min s) g) as [A|A]; [destruct (Rle_dec g (dd * gamma_max s)) as [B|B]|].
    2, 3: replace (density s (g / dd)) with 0; [ring|]; symmetry; apply density_outside.
    + unfold compton_cross_section. cbv zeta. destruct (Rle_dec es _) as [L|L]; [|ring]. exfalso. apply Hout. split; auto. apply Rmax_lub; auto. apply COND in L; [|lra].
      destruct (Rle_dec gs g) as [X|X]; auto. exfalso. destruct (Rle_dec g es) as [Z|Z]; [assert (g * (g - es) <= 0) by nra; nra|].
      assert (W : g * (g - es) < gs * (gs - es)) by (apply Rmult_le_0_lt_compat; lra). assert (Y : e * (g * (g - es)) < e * (gs * (gs - es))) by (apply Rmult_lt_compat_l; lra). lra.
    + right. apply (proj1 (Rlt_div_r (gamma_max s) g dd Hdd)). lra.
    + left. apply (proj2 (Rlt_div_l g (gamma_min s) dd Hdd)). lra.
Qed.
(** values that differ at some points of the grid *)
Fixpoint gap (l : list (R * (R * R))) : R := match l with nil => 0 | t :: l' => Rabs (fst (snd t) - snd (snd t)) + gap l' end.
Lemma gap_nonneg l : 0 <= gap l.
Proof. induction l as [|t l IH]; simpl; [lra|]. pose proof (Rabs_pos (fst (snd t) - snd (snd t))). lra. Qed.
Lemma gap_app l m : gap (l ++ m) = gap l + gap m.
Proof. induction l as [|t l IH]; simpl; [lra|]. rewrite IH. ring. Qed.
Lemma gap_same (f : R -> R) l : gap (map (fun x => (x, (f x, f x))) l) = 0.
Proof. induction l as [|t l IH]; simpl; auto. rewrite IH, Rminus_eq_0, Rabs_R0. lra. Qed.
Lemma trapezia_gap m : 0 <= m -> forall l : list (R * (R * R)),
  (forall i u v, nth_error (map fst l) i = Some u -> nth_error (map fst l) (S i) = Some v -> 0 <= v - u <= m) ->
  Rabs (trapezia (map (fun t => (fst t, fst (snd t))) l) - trapezia (map (fun t => (fst t, snd (snd t))) l)) <= m * gap l.
Proof.
  intros Hm l H.
  assert (X : Rabs (trapezia (map (fun t => (fst t, fst (snd t))) l) - trapezia (map (fun t => (fst t, snd (snd t))) l)) <= m * (gap l - match l with nil => 0 | t :: _ => Rabs (fst (snd t) - snd (snd t)) / 2 end)).
  { induction l as [|[x [y y']] l IH]; [simpl; rewrite Rminus_eq_0, Rabs_R0; lra|].
    destruct l as [|[z [w w']] l]. { simpl. rewrite Rminus_eq_0, Rabs_R0. pose proof (Rabs_pos (y - y')). nra. }
    specialize (IH ltac:(intros i u v Hu Hv; apply (H (S i)); auto)). destruct (H 0%nat x z eq_refl eq_refl) as [Z1 Z2].
    set (t1 := trapezia (map (fun t => (fst t, fst (snd t))) ((z, (w, w')) :: l))) in *. set (t2 := trapezia (map (fun t => (fst t, snd (snd t))) ((z, (w, w')) :: l))) in *.
    change (trapezia (map (fun t => (fst t, fst (snd t))) ((x, (y, y')) :: (z, (w, w')) :: l))) with ((z - x) * (y + w) / 2 + t1). change (trapezia (map (fun t => (fst t, snd (snd t))) ((x, (y, y')) :: (z, (w, w')) :: l))) with ((z - x) * (y' + w') / 2 + t2). clearbody t1 t2. cbn [gap fst snd] in *.
    replace ((z - x) * (y + w) / 2 + t1 - ((z - x) * (y' + w') / 2 + t2)) with ((z - x) * ((y - y') + (w - w')) / 2 + (t1 - t2)) by field.
    eapply Rle_trans; [apply Rabs_triang|]. 
    assert (C : Rabs ((z - x) * (y - y' + (w - w')) / 2) <= m * (Rabs (y - y') + Rabs (w - w')) / 2).
    { unfold Rdiv. rewrite Rabs_mult, Rabs_mult, (Rabs_pos_eq (z - x)), (Rabs_pos_eq (/ 2)) by lra. apply Rmult_le_compat_r; [lra|]. apply Rmult_le_compat; try lra; [apply Rabs_pos|apply Rabs_triang]. }
    lra. }
  eapply Rle_trans; [exact X|]. apply Rmult_le_compat_l; auto. destruct l as [|t l]; [lra|]. pose proof (Rabs_pos (fst (snd t) - snd (snd t))). lra.
Qed.
Lemma ends_split (l : list R) a z : (2 <= length l)%nat -> nth_error l 0 = Some a -> nth_error l (length l - 1) = Some z -> exists m, l = a :: m ++ z :: nil.
Proof.
  intros H Ha Hz. destruct l as [|x l]; [discriminate|]. cbn in Ha. apply some_inj in Ha. subst x. destruct l as [|y l _] using rev_ind; [simpl in H; lia|].
  exists l. rewrite app_comm_cons in Hz. rewrite app_length in Hz. cbn [length] in Hz. replace (S (length l) + 1 - 1)%nat with (length (a :: l)) in Hz by (cbn [length]; lia). rewrite nth_error_app2 in Hz by auto. rewrite Nat.sub_diag in Hz. cbn in Hz. congruence.
Qed.
Definition first_of (s : spectrum) (x : R) : R := match s with EmptyDist _ _ => x | _ => if Rltb x (gamma_min s) && Rltb ((gamma_min s - x) / x) (1 / 10 ^ 10) then gamma_min s else x end.
Definition last_one (s : spectrum) (x : R) : R := match s with EmptyDist _ _ => x | _ => if Rltb (gamma_max s) x && Rltb ((x - gamma_max s) / gamma_max s) (1 / 10 ^ 10) then gamma_max s else x end.
Lemma corrected_ends s a m z : corrected s (a :: m ++ z :: nil) = first_of s a :: m ++ last_one s z :: nil.
Proof.
  assert (K : forall lo hi, correct_bounds lo hi (a :: m ++ z :: nil) = (if Rltb a lo && Rltb ((lo - a) / a) (1 / 10 ^ 10) then lo else a) :: m ++ (if Rltb hi z && Rltb ((z - hi) / hi) (1 / 10 ^ 10) then hi else z) :: nil).
  { intros lo hi. unfold correct_bounds. replace (correct_first lo (a :: m ++ z :: nil)) with (((if Rltb a lo && Rltb ((lo - a) / a) (1 / 10 ^ 10) then lo else a) :: m) ++ z :: nil). 2:{ cbn [correct_first]. destruct (Rltb a lo && _); reflexivity. }
    rewrite correct_last_snoc. reflexivity. }
  destruct s; cbn [corrected first_of last_one]; try apply K. reflexivity.
Qed.
Lemma log10_of n : log10 (10 ^ n) = INR n.
Proof. unfold log10. rewrite ln_pow by lra. field. apply Rgt_not_eq. apply ln10_pos. Qed.
Lemma external_grid n : np_logspace 1 9 n = log_grid 10 (10 ^ 9) n.
Proof.
  unfold log_grid. rewrite log10_of. assert (E : log10 10 = 1) by (unfold log10; field; apply Rgt_not_eq, ln10_pos). rewrite E. f_equal. simpl. lra.
Qed.
Lemma beam_limit P b k ms es bm : phys_ok P -> 0 < delta_D b -> 0 < d_L b -> 0 < gamma_min (n_e b) -> continuous_within (n_e b) -> 0 < es -> 0 < b_eps bm -> dot (b_dir bm) (observer ms) <= 1 ->
  let electrons n := combine (np_logspace 1 9 n) (map (fun x => 4 / 3 * PI * R_b b ^ 3 * x) (snd (evaluate (n_e (set_sizes n k b)) (map (fun g => g / delta_D b) (np_logspace 1 9 n))))) in
  is_lim_seq (fun n => scattered_sed P (d_L b) (delta_D b) ms es (electrons n) bm) (scattered_integral P (d_L b) (delta_D b) ms es (fun g => population b (n_e b) (g / delta_D b)) 10 (10 ^ 9) bm).
Proof.
  intros HP Hdd Hdl Hm Hc Hes Hep Hdot electrons. unfold scattered_sed, scattered_integral. cbv zeta. set (c := dot _ _) in *. apply lim_scale.
  set (V := 4 / 3 * PI * R_b b ^ 3). set (s := n_e b) in *. set (dd := delta_D b) in *. set (w := fun g => c_c P * (b_u bm / b_eps bm) * (1 - c) * compton_cross_section P g es (b_eps bm) c).
  set (f := fun g => V * density s (g / dd) * (c_c P * (b_u bm / b_eps bm) * (1 - c)) * compton_cross_section P g es (b_eps bm) c).
  assert (H10 : 10 < 10 ^ 9) by (simpl; lra).
  assert (L1 : is_lim_seq (fun n => over (log_grid 10 (10 ^ 9) n) f) (RInt f 10 (10 ^ 9))).
  { apply riemann_limit; [lra|lra|]. apply (@RInt_correct R_CompleteNormedModule). apply compton_int; auto; lra. }
  apply (is_lim_seq_incr_n _ 2). 
  set (x0 := first_of s (10 / dd)). set (x1 := last_one s (10 ^ 9 / dd)).
  set (C := Rabs (V * density s x0 * w 10 - f 10) + Rabs (V * density s x1 * w (10 ^ 9) - f (10 ^ 9))).
  set (M := 10 ^ 9 * (10 ^ 9 / 10) * ln (10 ^ 9 / 10)).
  assert (D : forall n, Rabs (trapezia (map (fun gN => (fst gN, snd gN * (c_c P * (b_u bm / b_eps bm) * (1 - c)) * compton_cross_section P (fst gN) es (b_eps bm) c)) (electrons (S (S n)))) - over (log_grid 10 (10 ^ 9) (S (S n))) f) <= M / INR (S n) * C).
  { intros n. destruct (grid_ends 10 (10 ^ 9) n ltac:(lra) H10) as [E0 E1]. pose proof (fun i u v => grid_mesh 10 (10 ^ 9) n i u v ltac:(lra) H10) as Me.
    assert (HL : (2 <= length (log_grid 10 (10 ^ 9) (S (S n))))%nat) by (unfold log_grid; rewrite logspace_length; lia).
    unfold electrons. rewrite external_grid. destruct (ends_split _ _ _ HL E0 E1) as [mid Emid]. rewrite Emid in *. clear E0 E1 HL.
    unfold evaluate. cbn [n_e set_sizes]. fold s. rewrite map_cons, map_app. cbn [map]. rewrite corrected_ends. fold x0 x1. cbn [snd]. rewrite !map_cons, !map_app, !map_map. cbn [map].
    set (l := ((10, (V * density s x0 * w 10, f 10)) :: map (fun x => (x, (f x, f x))) mid ++ (10 ^ 9, (V * density s x1 * w (10 ^ 9), f (10 ^ 9))) :: nil) : list (R * (R * R))).
    assert (Ef : map fst l = 10 :: mid ++ 10 ^ 9 :: nil). { unfold l. cbn [map fst]. rewrite map_app, map_map. cbn [map fst]. rewrite map_id. reflexivity. }
    assert (Eg : gap l = C). { unfold l, C. cbn [gap fst snd]. rewrite gap_app, gap_same. cbn [gap fst snd]. ring. }
    assert (Hn : 0 < INR (S n)) by (apply lt_0_INR; lia).
    pose proof (trapezia_gap (M / INR (S n)) ltac:(apply Rlt_le, Rdiv_lt_0_compat; auto; unfold M; apply Rmult_lt_0_compat; [lra|]; rewrite <- ln_1; apply ln_increasing; lra) l) as T. rewrite Ef, Eg in T.
    match type of T with (?A -> Rabs (?p - ?q) <= _) => assert (Ep : p = trapezia (map (fun gN => (fst gN, snd gN * (c_c P * (b_u bm / b_eps bm) * (1 - c)) * compton_cross_section P (fst gN) es (b_eps bm) c)) (combine (10 :: mid ++ 10 ^ 9 :: nil) (V * density s x0 :: map (fun x => V * density s (x / dd)) mid ++ V * density s x1 :: nil)))); [|assert (Eq : q = over (10 :: mid ++ 10 ^ 9 :: nil) f)] end.
    - f_equal. unfold l. cbn [map combine fst snd]. f_equal. { f_equal. unfold w. ring. }
      clear. induction mid as [|x mid IH]; cbn [map app combine fst snd]; [|rewrite IH; reflexivity]. f_equal. f_equal. unfold w. ring.
    - unfold over. f_equal. rewrite <- Ef, map_map. clear. assert (G : forall l0 : list (R * (R * R)), (forall t, In t l0 -> snd (snd t) = f (fst t)) -> map (fun t => (fst t, snd (snd t))) l0 = map (fun t => (fst t, f (fst t))) l0). { intros l0 H. apply map_ext_in. intros t Ht. rewrite H; auto. }
      apply G. intros t Ht. unfold l in Ht. destruct Ht as [<-|Ht]; [reflexivity|]. apply in_app_or in Ht. destruct Ht as [Ht|[<-|[]]]; [|reflexivity]. apply in_map_iff in Ht. destruct Ht as (x & <- & _). reflexivity.
    - rewrite Ep, Eq in T. apply T. intros i u v Hu Hv. destruct (Me i u v Hu Hv) as (_ & _ & A & B). fold M in B. lra. }
  apply (is_lim_seq_incr_n _ 2) in L1.
  apply (is_lim_seq_ext (fun n => over (log_grid 10 (10 ^ 9) (n + 2)) f + (trapezia (map (fun gN => (fst gN, snd gN * (c_c P * (b_u bm / b_eps bm) * (1 - c)) * compton_cross_section P (fst gN) es (b_eps bm) c)) (electrons (n + 2)%nat)) - over (log_grid 10 (10 ^ 9) (n + 2)) f))). { intros n. ring. }
  replace (RInt _ _ _) with (RInt f 10 (10 ^ 9) + 0) by (rewrite Rplus_0_r; reflexivity). apply is_lim_seq_plus'; auto.
  apply is_lim_seq_abs_0. apply (is_lim_seq_le_le (fun _ => 0) _ (fun n => M * C * / INR (S n))).
  - intros n. split; [apply Rabs_pos|]. replace (n + 2)%nat with (S (S n)) by lia. eapply Rle_trans; [apply D|]. right. unfold Rdiv. ring.
  - apply is_lim_seq_const.
  - replace (Finite 0) with (Rbar_mult (M * C) 0) by (simpl; f_equal; ring). apply is_lim_seq_scal_l. apply (is_lim_seq_incr_1 (fun n => / INR n)). replace (Finite 0) with (Rbar_inv p_infty) by reflexivity. apply is_lim_seq_inv; [apply is_lim_seq_INR|discriminate].
Qed.
Lemma over_lim xs (Fn : nat -> R -> R) (F : R -> R) : (forall x, In x xs -> is_lim_seq (fun n => Fn n x) (F x)) -> is_lim_seq (fun n => over xs (Fn n)) (over xs F).
Proof. intros H. unfold over. exact (trapezia_limit (fun x => x) Fn F xs H). Qed.
Lemma schwarz v o : dot v v = 1 -> dot o o = 1 -> dot v o <= 1.
Proof. destruct v as [a b c], o as [x y z]. unfold dot. cbn [px py pz]. intros. assert (0 <= (a - x) ^ 2 + (b - y) ^ 2 + (c - z) ^ 2) by (pose proof (pow2_ge_0 (a - x)); pose proof (pow2_ge_0 (b - y)); pose proof (pow2_ge_0 (c - z)); lra). nra. Qed.
Lemma spherical_unit mu phi : -1 <= mu <= 1 -> dot (spherical 1 mu phi) (spherical 1 mu phi) = 1.
Proof.
  intros H. unfold dot, spherical. cbn [px py pz]. assert (S : sqrt (1 - mu ^ 2) ^ 2 = 1 - mu ^ 2) by (apply pow2_sqrt; nra). pose proof (sin2_cos2 phi) as T. unfold Rsqr in T. set (q := sqrt _) in *. nra.
Qed.
Lemma shine_dir P lum eps q p ms : -1 <= ms <= 1 -> dot (b_dir (shine P lum eps q p)) (observer ms) <= 1.
Proof.
  intros Hm. cbn [shine b_dir]. unfold dist. set (v := Spec_Geom.minus p q). assert (N : 0 <= dot v v). { destruct v as [x y z]. unfold dot. cbn [px py pz]. nra. }
  destruct (Req_dec (dot v v) 0) as [Z|Z].
  - rewrite Z, sqrt_0, Rinv_0. unfold times, dot. cbn [px py pz]. lra.
  - apply schwarz; [|apply spherical_unit; auto]. assert (S : sqrt (dot v v) * sqrt (dot v v) = dot v v) by (apply sqrt_sqrt; auto). assert (0 < sqrt (dot v v)) by (apply sqrt_lt_R0; lra).
    set (t := sqrt (dot v v)) in *. transitivity (/ t * / t * dot v v). { destruct v as [x y z]. unfold times, dot. cbn [px py pz]. ring. } rewrite <- S. field. lra.
Qed.
Lemma axis_limit P t r r' nmu nphi ms (Fn : nat -> beam -> R) (F : beam -> R) : target_ok t r' -> (r' = Some r \/ exists c, t = TCMB c) -> -1 <= ms <= 1 ->
  (forall b, 0 < b_eps b -> dot (b_dir b) (observer ms) <= 1 -> is_lim_seq (fun n => Fn n b) (F b)) ->
  is_lim_seq (fun n => axis_field P t r nmu nphi (Fn n)) (axis_field P t r nmu nphi F).
Proof.
  intros Ht Hr Hm H. assert (OB : dot (observer ms) (observer ms) = 1) by (apply spherical_unit; auto).
  destruct t as [t|t|t|t|t|t|]; cbn [target_ok] in Ht; try (exfalso; exact Ht); cbn [axis_field]; cbv zeta.
  - unfold isotropic_field. apply over_lim. intros p _. apply (over_lim _ (fun n mu => Fn n _)). intros m Hmu. apply linspace_in in Hmu; [|lra]. apply H; cbn [b_eps b_dir]; [apply Ht|]. apply schwarz; auto. apply spherical_unit; auto.
  - apply H; [apply Ht|apply shine_dir; auto].
  - destruct Ht as (HLd & HM & He & Hi & Hio & h & E & Hh). assert (h = r) by (destruct Hr as [Hr|(t' & Hr)]; congruence). subst h.
    unfold disk_field. apply over_lim. intros p _. apply (over_lim _ (fun n mu => Fn n _)). intros m Hmu.
    assert (S : forall x, 0 < x -> 0 < r / sqrt (r ^ 2 + x ^ 2) <= 1). { intros x Hx. assert (Q : 0 < r ^ 2) by (apply pow_lt; auto). assert (Q2 : 0 < x ^ 2) by (apply pow_lt; auto). assert (W : r <= sqrt (r ^ 2 + x ^ 2)) by (rewrite <- (sqrt_pow2 r) at 1 by lra; apply sqrt_le_1_alt; lra). split; [apply Rdiv_lt_0_compat; [auto|lra]|]. apply (proj2 (Rle_div_l r 1 (sqrt (r ^ 2 + x ^ 2)) ltac:(lra))). lra. }
    assert (Hro : r / sqrt (r ^ 2 + sd_R_out t ^ 2) <= r / sqrt (r ^ 2 + sd_R_in t ^ 2)). { unfold Rdiv. apply Rmult_le_compat_l; [lra|]. apply Rinv_le_contravar; [apply sqrt_lt_R0; nra|]. apply sqrt_le_1_alt. nra. }
    apply linspace_in in Hmu; [|auto]. pose proof (S (sd_R_in t) ltac:(lra)). pose proof (S (sd_R_out t) ltac:(lra)).
    apply H; cbn [b_eps b_dir]; [apply disk_photon_pos|]. apply schwarz; auto. apply spherical_unit; lra.
  - unfold shell_field. apply over_lim. intros p _. apply (over_lim _ (fun n mu => Fn n _)). intros m _. apply H; [apply Ht|apply shine_dir; auto].
  - unfold ring_field. apply (over_lim _ (fun n phi => Fn n _)). intros p _. apply H; [apply Ht|apply shine_dir; auto].
Qed.
(** an ExternalCompton object whose blob has n Lorentz factors *)
Definition resampled (n k : nat) (e : ec) : ec :=
  {| ec_blob := set_sizes n k (ec_blob e); ec_target := ec_target e; ec_r := ec_r e; ec_integ := ec_integ e; ec_mu_size := ec_mu_size e; ec_phi_size := ec_phi_size e |}.
Theorem C98_ec : forall P e k r ms nu, phys_ok P -> ec_ok e -> (forall t, ec_target e = TDustTorus t -> 0 <= dt_R t) -> ec_integ e = trapz ->
  mu_s (ec_blob e) = Ok ms -> (ec_r e = Some r \/ exists t, ec_target e = TCMB t) -> 0 < gamma_min (n_e (ec_blob e)) -> continuous_within (n_e (ec_blob e)) -> 0 < nu ->
  let b := ec_blob e in
  let es := c_h P * nu * (1 + redshift b) / (c_me P * c_c P ^ 2) in
  exists F, (forall n, ec_sed_flux P (resampled n k e) (nu :: nil) = Ok (Some (F n :: nil))) /\
    is_lim_seq F (axis_field P (ec_target e) r (ec_mu_size e) (ec_phi_size e)
      (scattered_integral P (d_L b) (delta_D b) ms es (fun g => population b (n_e b) (g / delta_D b)) 10 (10 ^ 9))).
Proof.
  intros P e k r ms nu HP Hok Hdt Hi Hms Hr Hg Hc Hnu b es.
  eexists. split.
  - intros n. rewrite (C74_superposition P (resampled n k e) (nu :: nil) r ms); auto. { cbn [map]. reflexivity. } intros x [<-|[]]. auto.
  - cbn [resampled ec_blob ec_target ec_mu_size ec_phi_size]. fold b. destruct Hok as (Hz & Hdl & Hdd & Hrb & Hd & (ms' & Hms' & Hmr) & Ho & Ht). fold b in Hz, Hdl, Hdd, Hrb, Hms. assert (ms' = ms) by (fold b in Hms'; congruence). subst ms'.
    apply (axis_limit P (ec_target e) r (ec_r e) _ _ ms); auto. intros bm Hep Hdot.
    apply beam_limit; auto. unfold es. pose proof HP as []. pos.
Qed.
Print Assumptions C98_ec.
Example C98_case :
  (emitter_ok ex_blob (n_e ex_blob) /\ gamma_min (n_e ex_blob) < gamma_max (n_e ex_blob) <= 2 ^ 510 /\ continuous_within (n_e ex_blob)) /\
  (ec_ok ex_ec /\ (exists ms, mu_s (ec_blob ex_ec) = Ok ms) /\ 0 < gamma_min (n_e (ec_blob ex_ec)) /\ continuous_within (n_e (ec_blob ex_ec))).
Proof.
  split.
  - destruct C77_case as (_ & _ & H). destruct C97_case as (A & B & C & _). auto.
  - split; [exact C48_case|]. split; [destruct C48_case as (_ & _ & _ & _ & _ & (m & Hm & _) & _); exists m; exact Hm|].
    unfold ex_ec. cbn [ec_blob n_e]. split; [cbn [gamma_min]; lra|]. apply (proj1 C97_distributions (ShPL 2) 1 10 100); [lra|exact Logic.I].
Qed.
(** a blob transparent at all the frequencies of the self Compton calculation *)
Definition faint_blob : blob := set_n_e (PowerLaw 1e-22 2.1 10 1e5) ex_blob.
Lemma power_le P m B g nu : phys_ok P -> 0 < m -> 0 < B -> 0 < g -> 0 < nu -> 0 <= synch_power P m B g nu <= sqrt 3 * c_e P ^ 3 * B / (m * c_c P ^ 2) * 1.7.
Proof.
  intros HP Hm HB Hg Hn. pose proof HP as []. pose proof PI_RGT_0. unfold synch_power. cbv zeta. set (x := nu / _).
  assert (Hx : 0 < x) by (unfold x; pos). assert (S3 : 0 < sqrt 3) by (apply sqrt_lt_R0; lra). assert (K : 0 <= sqrt 3 * c_e P ^ 3 * B / (m * c_c P ^ 2)) by (left; pos).
  pose proof (shape_pos x) as S0. assert (S : synch_shape x <= 1.7).
  { rewrite shape_gy. pose proof (gy_bound (Rpower x (1 / 3)) ltac:(left; apply exp_pos)). assert (0 < exp (- x) <= 1) by (split; [apply exp_pos|rewrite <- exp_0; left; apply exp_increasing; lra]). 
    apply Rle_trans with (1.7 * exp (- x)); [apply Rmult_le_compat_r; lra|]. nra. }
  split; [apply Rmult_le_pos; lra|apply Rmult_le_compat_l; lra].
Qed.
Example C98_absorbed_case : let b := faint_blob in let slope := ssa_point (n_e b) in
  emitter_ok b (n_e b) /\ gamma_min (n_e b) < gamma_max (n_e b) <= 2 ^ 510 /\ n_e b = build (ShPL 2.1) 1e-22 (gamma_min (n_e b)) (gamma_max (n_e b)) /\
  slope_of (ShPL 2.1) 1e-22 (gamma_min (n_e b)) (gamma_max (n_e b)) slope /\
  forall x, In x (np_logspace 5 30 200) -> optical_depth codata b slope (comoving b x) <> 1 / 10 ^ 3.
Proof.
  intros b slope. assert (HE : n_e b = build (ShPL 2.1) 1e-22 10 1e5) by reflexivity. assert (HB : emitter_ok b (n_e b)).
  { destruct ex_emitter. constructor; auto; rewrite HE; cbn [build gamma_min gamma_max]; lra. }
  rewrite !HE. cbn [build gamma_min gamma_max]. split; [rewrite HE in HB; exact HB|]. split; [destruct C77_case as (_ & _ & K); unfold ex_blob in K; cbn [n_e gamma_max] in K; split; [lra|exact K]|]. split; [reflexivity|].
  assert (HS : slope_of (ShPL 2.1) 1e-22 10 1e5 slope). { intros g Hg Ho. unfold slope. rewrite HE. apply ssa_derivative; auto; try exact Logic.I; lra. }
  split; [exact HS|].
  intros x Hx. apply Rlt_not_eq. assert (Hx5 : 10 ^ 5 <= x).
  { assert (E : np_logspace 5 30 200 = log_grid (10 ^ 5) (10 ^ 30) 200) by (unfold log_grid; rewrite !log10_of; f_equal; simpl; lra). rewrite E in Hx. apply grid_in in Hx; [lra|simpl; lra|apply Rle_pow; [lra|lia]]. }
  unfold optical_depth. set (nu := comoving b x). assert (Hnu : 10000 <= nu). { unfold nu, comoving, b, faint_blob, ex_blob. cbn [set_n_e redshift delta_D]. simpl in Hx5. lra. }
  rewrite HE. cbn [build gamma_min gamma_max]. set (f := fun g => slope g * _).
  set (C := sqrt 3 * c_e codata ^ 3 * 1 / (c_me codata * c_c codata ^ 2) * 1.7).
  assert (Ex : ex_RInt f 10 1e5).
  { destruct (slope_int (ShPL 2.1) 1e-22 10 1e5 slope (fun g => synch_power codata (c_me codata) 1 g nu) ltac:(lra) ltac:(lra) Logic.I) as (I & A & _); auto; [|exists I; exact A]. intros g Hg. apply synch_power_cont; [exact codata_ok| | | |]; try lra. destruct codata_ok; auto. }
  assert (Bd : forall g, 10 <= g <= 1e5 -> Rabs (f g) <= 4.1e-22 * C).
  { intros g Hg. unfold f. rewrite Rabs_mult. pose proof (power_le codata (c_me codata) 1 g nu codata_ok ltac:(destruct codata_ok; auto) ltac:(lra) ltac:(lra) ltac:(lra)) as [P0 P1]. fold C in P1. apply Rmult_le_compat; try apply Rabs_pos; [|rewrite Rabs_pos_eq; auto].
    unfold slope. rewrite HE. cbn [build ssa_point]. unfold in_range. cbn [gamma_min gamma_max]. rewrite !(proj2 (Rleb_true _ _)) by lra. cbn [andb]. unfold npow, Rpower. set (e := exp _). assert (He : 0 < e <= 1). { unfold e. split; [apply exp_pos|]. apply Rle_trans with (exp 0); [|rewrite exp_0; lra]. left. apply exp_increasing. assert (0 < ln g) by (rewrite <- ln_1; apply ln_increasing; lra). set (t := ln g) in *. clearbody t. lra. }
    clearbody e. rewrite Rabs_left1; lra. }
  pose proof (abs_RInt_le_const f 10 1e5 _ ltac:(lra) Ex Bd) as HI. apply Rabs_le_between in HI.
  assert (HC : 0 < C <= 1e-21). { unfold C, codata. cbn [c_e c_me c_c]. assert (S3 : 0 < sqrt 3 <= 2). { split; [apply sqrt_lt_R0; lra|]. rewrite <- (sqrt_pow2 2) by lra. apply sqrt_le_1_alt. lra. } set (s3 := sqrt 3) in *. clearbody s3. lra. }
  set (I := RInt f 10 1e5) in *. clearbody I. change (R_b b) with 1e16. unfold codata. cbn [c_me]. pose proof PI_bounds as HPI.
  assert (Dn : 1.8e-18 <= 8 * PI * 9.1093837015e-28 * nu ^ 2). { assert (N2 : 100000000 <= nu ^ 2) by nra. set (n2 := nu ^ 2) in *. clearbody n2. nra. }
  assert (HI2 : - I <= 1e5 * (4.1e-22 * 1e-21)) by nra.
  set (D := 8 * PI * 9.1093837015e-28 * nu ^ 2) in *. clearbody D. assert (- I / D < 3e-20). { apply (proj2 (Rlt_div_l (- I) 3e-20 D ltac:(lra))). nra. } lra.
Qed.
