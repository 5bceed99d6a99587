(** The SED scattered out of one beam of a family of beams: the trapezoidal rule
    over the electrons converges uniformly over the family, and its limit is
    uniformly continuous on the family. *)
From Verif Require Import Base TEUtils ListFacts NumpyInst MathUtils Conversion Spectra Blob Synchrotron Kernels Geometry Targets SSC ExternalCompton Spec_Math Spec_Spectra Spec_Blob Spec_Rad Spec_Geom Spec_Beams Spec_Emission MathFacts SpectraFacts SpectraFacts2 BlobFacts Calculus AbsorptionFacts SynchFacts SynchFacts2 Props_Blob Props_Synch ComptonFacts TargetFacts Props_EC Props_Beams Props_Opacity Props_Thermal Props_Emission SynchPower Props_Budget Props_Refine Riemann Props_Refine2 TensorGrid JumpGrid.
From Coquelicot Require Import Coquelicot.
From Coq Require Import List Lra Lia.
Import ListNotations.
Open Scope list_scope.
Open Scope R_scope.

Lemma clamp_cont a b (d : R -> R) : a <= b -> (forall t, a <= t <= b -> continuous d t) -> forall t, continuity_pt (fun t => d (clamp a b t)) t.
Proof.
  intros Hab Hd t. apply (continuity_pt_comp (clamp a b) d).
  - apply (lipschitz _ 1). intros x y. rewrite Rmult_1_l. apply clamp_close; auto.
  - apply continuity_pt_filterlim. apply Hd. apply clamp_in; auto.
Qed.

Section Family.
Variable X : Type.
Variable D : X -> Prop.
Variable near : R -> X -> X -> Prop.
Hypothesis Hn : narrows near.
Variables U E C : X -> R.
Hypothesis HU : nice X D near U.
Hypothesis HE : nice X D near E.
Hypothesis HC : nice X D near C.
Variable m0 : R.
Hypothesis Hm0 : 0 < m0.
Hypothesis Em0 : forall x, D x -> m0 <= E x.
Hypothesis C1 : forall x, D x -> C x <= 1.
Variable P : phys.
Variable s : spectrum.
Variables dd es V k G : R.
Hypothesis Hdd : 0 < dd.
Hypothesis Hgm : 0 < gamma_min s.
Hypothesis Hgg : gamma_min s < gamma_max s.
Hypothesis Hcw : continuous_within s.
Hypothesis Hes : 0 < es.
Hypothesis HG : 10 < G.

Definition kern (z : X * R) : R := k * (U (fst z) / E (fst z)) * (1 - C (fst z)) * compton_cross_section P (snd z) es (E (fst z)) (C (fst z)).
Let f (z : X * R) : R := V * density s (snd z / dd) * kern z.
Let w (x : X) : R := E x * (1 - C x).
Let m : R := es / (4 * G ^ 2).
Let wm (x : X) : R := Rmax (w x) m.
Let thr (v : R) : R := (es + sqrt (es ^ 2 + 2 * es * / v)) / 2.
Let Hm : 0 < m. Proof. unfold m. apply Rdiv_lt_0_compat; auto. assert (0 < G ^ 2) by (apply pow_lt; lra). lra. Qed.
Lemma w_nice : nice X D near w.
Proof. unfold w. apply (nice_mult X D near Hn); auto. apply (nice_minus X D near Hn); auto. apply nice_const. Qed.
Lemma wm_nice : nice X D near wm.
Proof. unfold wm. apply (nice_comp X D near (fun t => Rmax t m)); [intros t; apply cont_max_r|apply w_nice]. Qed.
Lemma wm_low x : m <= wm x. Proof. apply Rmax_r. Qed.
Lemma w_nonneg x : D x -> 0 <= w x.
Proof. intros Hx. specialize (C1 x Hx). specialize (Em0 x Hx). unfold w. apply Rmult_le_pos; lra. Qed.
(** the electrons that can scatter to energy es *)
Lemma passes x g : D x -> 0 < g -> (es <= 2 * g * (g * E x * (1 - C x)) / (1 + 2 * (g * E x * (1 - C x))) <-> es <= 2 * w x * (g * (g - es))).
Proof.
  intros Hx Hg. pose proof (w_nonneg x Hx) as Hw. replace (g * E x * (1 - C x)) with (g * w x) by (unfold w; ring). assert (K : 0 < 1 + 2 * (g * w x)) by (assert (0 <= g * w x) by (apply Rmult_le_pos; lra); lra). split; intros L.
  - apply (proj2 (Rle_div_r es _ _ K)) in L. lra.
  - apply (proj1 (Rle_div_r es _ _ K)). lra.
Qed.
Lemma thr_root v : 0 < v -> es < thr v /\ 2 * v * (thr v * (thr v - es)) = es.
Proof.
  intros Hv. assert (Q0 : 0 < 2 * es * / v) by (apply Rmult_lt_0_compat; [lra|apply Rinv_0_lt_compat; auto]). unfold thr. set (t := sqrt _).
  assert (S2 : t ^ 2 = es ^ 2 + 2 * es * / v) by (apply pow2_sqrt; nra). assert (S1 : es < t). { unfold t. rewrite <- (sqrt_pow2 es) at 1 by lra. apply sqrt_lt_1_alt. nra. }
  split; [lra|]. replace (2 * v * ((es + t) / 2 * ((es + t) / 2 - es))) with (v * (t ^ 2 - es ^ 2) / 2) by field. rewrite S2. field. lra.
Qed.
Lemma above x g : D x -> 0 < g <= G -> (es <= 2 * w x * (g * (g - es)) <-> thr (wm x) <= g).
Proof.
  intros Hx Hg. pose proof (w_nonneg x Hx) as Hw. destruct (thr_root (wm x)) as [T1 T2]; [pose proof (wm_low x); pose proof Hm; lra|]. set (t := thr (wm x)) in *.
  assert (HG2 : 0 < G ^ 2) by (apply pow_lt; lra). assert (Em : 4 * G ^ 2 * m = es) by (unfold m; field; lra).
  destruct (Rle_dec m (w x)) as [Hge|Hlt].
  - assert (Ew : wm x = w x) by (apply Rmax_left; auto). rewrite Ew in *. assert (W0 : 0 < w x) by (pose proof Hm; lra). split; intros L.
    + apply Rnot_lt_le. intros K. destruct (Rle_dec g es) as [Z|Z]; [assert (g * (g - es) <= 0) by nra; nra|]. assert (Q : g * (g - es) < t * (t - es)) by (apply Rmult_le_0_lt_compat; lra). assert (2 * w x * (g * (g - es)) < 2 * w x * (t * (t - es))) by (apply Rmult_lt_compat_l; lra). lra.
    + assert (Q : t * (t - es) <= g * (g - es)) by (apply Rmult_le_compat; lra). assert (2 * w x * (t * (t - es)) <= 2 * w x * (g * (g - es))) by (apply Rmult_le_compat_l; lra). lra.
  - assert (Ew : wm x = m) by (apply Rmax_right; lra). rewrite Ew in *. split; intros L; exfalso.
    + assert (Q : g * (g - es) <= G ^ 2) by nra. assert (Q0 : 0 < g * (g - es)) by (apply Rnot_le_lt; intros K; nra). assert (2 * w x * (g * (g - es)) <= 2 * m * (g * (g - es))) by (apply Rmult_le_compat_r; lra). assert (2 * m * (g * (g - es)) <= 2 * m * G ^ 2) by (apply Rmult_le_compat_l; pose proof Hm; lra). lra.
    + assert (Q : t * (t - es) <= G ^ 2) by nra. assert (2 * m * (t * (t - es)) <= 2 * m * G ^ 2) by (apply Rmult_le_compat_l; pose proof Hm; lra). lra.
Qed.
Lemma thr_low x : D x -> thr (wm x) <= G -> m <= w x.
Proof.
  intros Hx Ht. apply Rnot_lt_le. intros K. destruct (thr_root (wm x)) as [T1 T2]; [pose proof (wm_low x); pose proof Hm; lra|]. set (t := thr (wm x)) in *. assert (Ew : wm x = m) by (apply Rmax_right; lra). rewrite Ew in *.
  assert (HG2 : 0 < G ^ 2) by (apply pow_lt; lra). assert (Em : 4 * G ^ 2 * m = es) by (unfold m; field; lra). assert (Q : t * (t - es) <= G ^ 2) by nra. assert (2 * m * (t * (t - es)) <= 2 * m * G ^ 2) by (apply Rmult_le_compat_l; pose proof Hm; lra). lra.
Qed.
Lemma thr_nice : nice X D near (fun x => thr (wm x)).
Proof.
  unfold thr. apply (nice_ext X D near (fun x => (es + sqrt (es ^ 2 + 2 * es * / wm x)) * / 2)); [intros; reflexivity|]. apply (nice_mult X D near Hn); [|apply nice_const]. apply (nice_plus X D near Hn); [apply nice_const|].
  apply (nice_comp X D near sqrt); [intros t; apply continuity_pt_filterlim, continuous_sqrt|]. apply (nice_plus X D near Hn); [apply nice_const|]. apply (nice_mult X D near Hn); [apply nice_const|]. apply (nice_inv X D near _ m); [apply Hm|intros; apply wm_low|apply wm_nice].
Qed.

(** the kernel, continued continuously below the threshold *)
Variable W : R.
Hypothesis HW : forall x, D x -> w x <= W.
Hypothesis HW0 : 0 < W.
Let y0 : R := es / (2 * W * G ^ 2).
Let yy (g : R) : R := Rmax (1 - es * / g) y0.
Let q (z : X * R) : R := es * (/ snd z) ^ 2 * / wm (fst z) * / yy (snd z).
Let K (z : X * R) : R := k * U (fst z) * (/ E (fst z)) ^ 2 * (3 / 8 * c_sigmaT P * (/ snd z) ^ 2 * (yy (snd z) + / yy (snd z) - 2 * q z + q z ^ 2)).
Let y0_pos : 0 < y0.
Proof. unfold y0. assert (0 < G ^ 2) by (apply pow_lt; lra). apply Rdiv_lt_0_compat; auto. apply Rmult_lt_0_compat; lra. Qed.
Lemma kern_is x g : D x -> 10 <= g <= G -> thr (wm x) <= g -> kern (x, g) = K (x, g).
Proof.
  intros Hx Hg Ht. pose proof (thr_low x Hx ltac:(lra)) as Hwm. assert (Ew : wm x = w x) by (apply Rmax_left; auto). pose proof Hm as Hm'. pose proof (Em0 x Hx) as HEx. pose proof (proj2 (above x g Hx ltac:(lra)) Ht) as Q.
  unfold kern, K, q. cbn [fst snd]. rewrite Ew. unfold compton_cross_section. cbv zeta. destruct (Rle_dec es _) as [L|L]; [|exfalso; apply L, passes; auto; lra].
  assert (HG2 : 0 < g ^ 2) by (apply pow_lt; lra). assert (G2 : g ^ 2 <= G ^ 2) by (apply pow_incr; lra).
  assert (Y : y0 <= 1 - es * / g).
  { assert (A : es <= 2 * W * g ^ 2 * (1 - es * / g)). { replace (2 * W * g ^ 2 * (1 - es * / g)) with (2 * W * (g * (g - es))) by (field; lra). eapply Rle_trans; [exact Q|]. apply Rmult_le_compat_r; [|specialize (HW x Hx); lra]. apply Rnot_lt_le. intros Z. assert (w x * (g * (g - es)) <= 0) by nra. lra. }
    assert (B : 0 <= 1 - es * / g). { apply Rnot_lt_le. intros Z. assert (0 < 2 * W * g ^ 2) by (apply Rmult_lt_0_compat; lra). nra. }
    unfold y0. assert (Z : 0 < 2 * W * G ^ 2) by (apply Rmult_lt_0_compat; lra). apply (proj2 (Rle_div_l es _ _ Z)). eapply Rle_trans; [exact A|]. rewrite Rmult_comm. apply Rmult_le_compat_l; auto. apply Rmult_le_compat_l; lra. }
  assert (Ey : yy g = 1 - es / g) by (unfold yy; rewrite Rmax_left by auto; reflexivity). rewrite Ey. assert (Yp : 0 < 1 - es / g) by (pose proof y0_pos; unfold Rdiv; lra). set (y := 1 - es / g) in *.
  unfold w in *. assert (0 < 1 - C x). { apply Rnot_le_lt. intros Z. assert (E x * (1 - C x) <= 0) by nra. lra. } set (c := 1 - C x) in *. set (ep := E x) in *. field. repeat split; lra.
Qed.
Lemma kern_zero x g : D x -> 10 <= g <= G -> g < thr (wm x) -> kern (x, g) = 0.
Proof.
  intros Hx Hg Ht. unfold kern. cbn [fst snd]. unfold compton_cross_section. cbv zeta. destruct (Rle_dec es _) as [L|L]; [|ring]. exfalso. apply passes in L; auto; [|lra]. apply above in L; auto; lra.
Qed.
Lemma K_nice : nice _ (pdom D 10 G) (pnear near) K.
Proof.
  pose proof (pnear_narrows near Hn) as Hp.
  assert (Ng : nice _ (pdom D 10 G) (pnear near) (fun z => / snd z)) by (apply (nice_inv _ _ _ _ 10); [lra|intros z [_ Hz]; lra|apply nice_last; auto]).
  assert (Ny : nice _ (pdom D 10 G) (pnear near) (fun z => yy (snd z))).
  { unfold yy. apply (nice_comp _ _ _ (fun t => Rmax t y0) (fun z => 1 - es * / snd z)); [intros t; apply cont_max_r|]. apply (nice_minus _ _ _ Hp); [apply nice_const|]. apply (nice_mult _ _ _ Hp); [apply nice_const|exact Ng]. }
  assert (Niy : nice _ (pdom D 10 G) (pnear near) (fun z => / yy (snd z))) by (apply (nice_inv _ _ _ _ y0); [apply y0_pos|intros z _; apply Rmax_r|exact Ny]).
  assert (Nw : nice _ (pdom D 10 G) (pnear near) (fun z => / wm (fst z))) by (apply (nice_inv _ _ _ _ m); [apply Hm|intros z _; apply wm_low|apply nice_first; auto; apply wm_nice]).
  assert (NE : nice _ (pdom D 10 G) (pnear near) (fun z => / E (fst z))) by (apply (nice_inv _ _ _ _ m0); [auto|intros z [Hz _]; auto|apply nice_first; auto]).
  assert (SQ : forall h, nice _ (pdom D 10 G) (pnear near) h -> nice _ (pdom D 10 G) (pnear near) (fun z => h z ^ 2)).
  { intros h Hh. apply (nice_ext _ _ _ (fun z => h z * h z)); [intros; ring|]. apply (nice_mult _ _ _ Hp); auto. }
  assert (Nq : nice _ (pdom D 10 G) (pnear near) q).
  { unfold q. apply (nice_mult _ _ _ Hp); auto. apply (nice_mult _ _ _ Hp); auto. apply (nice_mult _ _ _ Hp); [apply nice_const|]. apply SQ. exact Ng. }
  unfold K. apply (nice_mult _ _ _ Hp).
  - apply (nice_mult _ _ _ Hp); [apply (nice_mult _ _ _ Hp); [apply nice_const|apply nice_first; auto]|apply SQ; exact NE].
  - apply (nice_mult _ _ _ Hp); [apply (nice_mult _ _ _ Hp); [apply nice_const|apply SQ; exact Ng]|]. apply (nice_plus _ _ _ Hp); [|apply SQ; exact Nq]. apply (nice_minus _ _ _ Hp); [apply (nice_plus _ _ _ Hp); auto|]. apply (nice_mult _ _ _ Hp); [apply nice_const|exact Nq].
Qed.
Lemma kern_bounded : exists B, 0 <= B /\ forall x g, D x -> 10 <= g <= G -> Rabs (kern (x, g)) <= B.
Proof.
  destruct (proj2 K_nice) as [B HB]. exists (Rabs B). split; [apply Rabs_pos|]. intros x g Hx Hg. destruct (Rlt_dec g (thr (wm x))) as [L|L].
  - rewrite kern_zero by auto. rewrite Rabs_R0. apply Rabs_pos.
  - rewrite kern_is by (auto; lra). eapply Rle_trans; [apply HB; split; auto|apply Rle_abs].
Qed.
(** the function under the integral and where it jumps *)
Lemma family_parts : exists L h, nice X D near L /\ nice _ (pdom D 10 G) (pnear near) h /\
  (forall x g, D x -> 10 <= g <= G -> L x <= g <= dd * gamma_max s -> f (x, g) = h (x, g)) /\
  (forall x g, D x -> 10 <= g <= G -> g < L x \/ dd * gamma_max s < g -> f (x, g) = 0) /\
  (forall x, D x -> ex_RInt (fun g => f (x, g)) 10 G).
Proof.
  destruct Hcw as (d & Hd). pose proof (pnear_narrows near Hn) as Hp.
  exists (fun x => Rmax (thr (wm x)) (dd * gamma_min s)), (fun z => V * d (clamp (gamma_min s) (gamma_max s) (snd z * / dd)) * K z).
  split; [|split; [|split; [|split]]].
  - apply (nice_comp X D near (fun t => Rmax t (dd * gamma_min s))); [intros t; apply cont_max_r|apply thr_nice].
  - apply (nice_mult _ _ _ Hp); [|apply K_nice]. apply (nice_mult _ _ _ Hp); [apply nice_const|]. apply (nice_comp _ _ _ (fun t => d (clamp (gamma_min s) (gamma_max s) t))); [apply clamp_cont; [lra|intros t Ht; apply Hd; auto]|]. apply (nice_mult _ _ _ Hp); [apply nice_last; auto|apply nice_const].
  - intros x g Hx Hg [L1 L2]. assert (A1 : thr (wm x) <= g) by (eapply Rle_trans; [apply Rmax_l|exact L1]). assert (A2 : dd * gamma_min s <= g) by (eapply Rle_trans; [apply Rmax_r|exact L1]).
    assert (Hr : gamma_min s <= g / dd <= gamma_max s). { split; [apply (proj1 (Rle_div_r _ g dd Hdd))|apply (proj2 (Rle_div_l g _ dd Hdd))]; lra. }
    unfold f. cbn [fst snd]. rewrite kern_is by auto. fold (g / dd). rewrite clamp_id by auto. rewrite <- (proj1 (Hd _ Hr)). reflexivity.
  - intros x g Hx Hg Hout. unfold f. cbn [fst snd]. destruct (Rlt_dec g (thr (wm x))) as [A|A]; [rewrite kern_zero by auto; ring|].
    assert (O : density s (g / dd) = 0); [|rewrite O; ring]. apply density_outside. destruct Hout as [B|B].
    + left. apply (proj2 (Rlt_div_l g (gamma_min s) dd Hdd)). unfold Rmax in B. destruct (Rle_dec _ _); lra.
    + right. apply (proj1 (Rlt_div_r (gamma_max s) g dd Hdd)). lra.
  - intros x Hx. pose proof (compton_int P s dd V (E x) (C x) es 10 G Hdd Hgm (ex_intro _ d Hd) ltac:(specialize (Em0 x Hx); lra) (C1 x Hx) Hes ltac:(lra) HG (k * (U x / E x))) as Q. revert Q. apply ex_RInt_ext. intros g _. unfold f, kern. cbn [fst snd]. match goal with |- ?a = ?b => change (@eq R a b) end. ring.
Qed.
End Family.

(** the correction of the end points of the grid changes two values *)
Lemma electrons_gap s dd V (wt : R -> R) n :
  let electrons := combine (log_grid 10 (10 ^ 9) (S (S n))) (map (fun x => V * x) (snd (evaluate s (map (fun g => g / dd) (log_grid 10 (10 ^ 9) (S (S n))))))) in
  Rabs (trapezia (map (fun gN => (fst gN, snd gN * wt (fst gN))) electrons) - over (log_grid 10 (10 ^ 9) (S (S n))) (fun g => V * density s (g / dd) * wt g)) <=
  10 ^ 9 * (10 ^ 9 / 10) * ln (10 ^ 9 / 10) / INR (S n) *
  (Rabs (V * density s (first_of s (10 / dd)) * wt 10 - V * density s (10 / dd) * wt 10) + Rabs (V * density s (last_one s (10 ^ 9 / dd)) * wt (10 ^ 9) - V * density s (10 ^ 9 / dd) * wt (10 ^ 9))).
Proof.
  intros electrons. set (f := fun g => V * density s (g / dd) * wt g). set (x0 := first_of s (10 / dd)). set (x1 := last_one s (10 ^ 9 / dd)).
  set (C := Rabs (V * density s x0 * wt 10 - V * density s (10 / dd) * wt 10) + Rabs (V * density s x1 * wt (10 ^ 9) - V * density s (10 ^ 9 / dd) * wt (10 ^ 9))). set (M := 10 ^ 9 * (10 ^ 9 / 10) * ln (10 ^ 9 / 10)).
  assert (H10 : 10 < 10 ^ 9) by (simpl; lra).
  destruct (grid_ends 10 (10 ^ 9) n ltac:(lra) H10) as [E0 E1]. pose proof (fun i u v => grid_mesh 10 (10 ^ 9) n i u v ltac:(lra) H10) as Me.
  assert (HL : (2 <= length (log_grid 10 (10 ^ 9) (S (S n))))%nat) by (unfold log_grid; rewrite logspace_length; lia).
  unfold electrons. clear electrons. destruct (ends_split _ _ _ HL E0 E1) as [mid Emid]. rewrite Emid in *. clear E0 E1 HL.
  unfold evaluate. rewrite map_cons, map_app. cbn [map]. rewrite corrected_ends. fold x0 x1. cbn [snd]. rewrite !map_cons, !map_app, !map_map. cbn [map].
  set (l := ((10, (V * density s x0 * wt 10, f 10)) :: map (fun x => (x, (f x, f x))) mid ++ (10 ^ 9, (V * density s x1 * wt (10 ^ 9), f (10 ^ 9))) :: nil) : list (R * (R * R))).
  assert (Ef : map fst l = 10 :: mid ++ 10 ^ 9 :: nil). { unfold l. cbn [map fst]. rewrite map_app, map_map. cbn [map fst]. rewrite map_id. reflexivity. }
  assert (Eg : gap l = C). { unfold l, C. cbn [gap fst snd]. rewrite gap_app, gap_same. cbn [gap fst snd]. unfold f. ring. }
  assert (Hn : 0 < INR (S n)) by (apply lt_0_INR; lia).
  pose proof (trapezia_gap (M / INR (S n)) ltac:(apply Rlt_le, Rdiv_lt_0_compat; auto; unfold M; apply Rmult_lt_0_compat; [lra|]; rewrite <- ln_1; apply ln_increasing; lra) l) as T. rewrite Ef, Eg in T.
  match type of T with (?A -> Rabs (?p - ?q) <= _) => assert (Ep : p = trapezia (map (fun gN => (fst gN, snd gN * wt (fst gN))) (combine (10 :: mid ++ 10 ^ 9 :: nil) (V * density s x0 :: map (fun x => V * density s (x / dd)) mid ++ V * density s x1 :: nil)))); [|assert (Eq : q = over (10 :: mid ++ 10 ^ 9 :: nil) f)] end.
  - f_equal. unfold l. cbn [map combine fst snd]. f_equal. clear. induction mid as [|x mid IH]; cbn [map app combine fst snd]; [|rewrite IH; reflexivity]. reflexivity.
  - unfold over. f_equal. rewrite <- Ef, map_map. clear. assert (G : forall l0 : list (R * (R * R)), (forall t, In t l0 -> snd (snd t) = f (fst t)) -> map (fun t => (fst t, snd (snd t))) l0 = map (fun t => (fst t, f (fst t))) l0). { intros l0 H. apply map_ext_in. intros t Ht. rewrite H; auto. }
    apply G. intros t Ht. unfold l in Ht. destruct Ht as [<-|Ht]; [reflexivity|]. apply in_app_or in Ht. destruct Ht as [Ht|[<-|[]]]; [|reflexivity]. apply in_map_iff in Ht. destruct Ht as (x & <- & _). reflexivity.
  - rewrite Ep, Eq in T. apply T. intros i u v Hu Hv. destruct (Me i u v Hu Hv) as (_ & _ & A & B). fold M in B. lra.
Qed.
Lemma log_fine a b d : 0 < a -> a < b -> 0 < d -> exists N, forall n, (N <= n)%nat -> fine a b d (log_grid a b n).
Proof.
  intros Ha Hab Hd. set (M := b * (b / a) * ln (b / a)). destruct (nfloor_ex (Rabs (M / d))) as [N HN]; [apply Rabs_pos|]. exists (N + 3)%nat. intros [|[|n]] Hn; try lia.
  destruct (grid_ends a b n Ha Hab) as (E1 & E2). split; auto. split; auto. intros i u v Hu Hv. destruct (grid_mesh a b n i u v Ha Hab Hu Hv) as (Iu & Iv & Huv & Hm). repeat split; try lra.
  eapply Rle_lt_trans; [exact Hm|]. fold M. assert (Hp : 0 < INR (S n)) by (apply lt_0_INR; lia). assert (INR N + 1 <= INR (S n)) by (rewrite <- S_INR; apply le_INR; lia). apply Rmult_lt_reg_r with (INR (S n)); auto. unfold Rdiv. rewrite Rmult_assoc, Rinv_l, Rmult_1_r by lra.
  assert (K : M / d < INR (S n)) by (pose proof (Rle_abs (M / d)); lra). apply Rmult_lt_compat_r with (r := d) in K; auto. unfold Rdiv in K. rewrite Rmult_assoc, Rinv_l in K by lra. lra.
Qed.

Section Beams.
Variable X : Type.
Variable D : X -> Prop.
Variable near : R -> X -> X -> Prop.
Hypothesis Hn : narrows near.
Variable bm : X -> beam.
Variables m0 ms : R.
Hypothesis HU : nice X D near (fun x => b_u (bm x)).
Hypothesis HE : nice X D near (fun x => b_eps (bm x)).
Hypothesis HC : nice X D near (fun x => dot (b_dir (bm x)) (observer ms)).
Hypothesis Hm0 : 0 < m0.
Hypothesis Em0 : forall x, D x -> m0 <= b_eps (bm x).
Hypothesis C1 : forall x, D x -> dot (b_dir (bm x)) (observer ms) <= 1.
Variable P : phys.
Variable s : spectrum.
Variables dd dl es V : R.
Hypothesis Hdd : 0 < dd.
Hypothesis Hgm : 0 < gamma_min s.
Hypothesis Hgg : gamma_min s < gamma_max s.
Hypothesis Hcw : continuous_within s.
Hypothesis Hes : 0 < es.
Let U x := b_u (bm x).
Let E x := b_eps (bm x).
Let C x := dot (b_dir (bm x)) (observer ms).
Let f (z : X * R) : R := V * density s (snd z / dd) * kern X U E C P es (c_c P) z.
Let ten : 10 < 10 ^ 9. Proof. simpl; lra. Qed.
Lemma w_above : exists W, (forall x, D x -> E x * (1 - C x) <= W) /\ 0 < W.
Proof. destruct (proj2 (w_nice X D near Hn E C HE HC)) as [B HB]. exists (Rabs B + 1). pose proof (Rabs_pos B). split; [|lra]. intros x Hx. specialize (HB x Hx). pose proof (Rle_abs (E x * (1 - C x))). pose proof (Rle_abs B). unfold E, C in *. lra. Qed.
Lemma beam_nice : nice X D near (fun x => scattered_integral P dl dd ms es (fun g => V * density s (g / dd)) 10 (10 ^ 9) (bm x)).
Proof.
  destruct w_above as (W & HW & HW0).
  destruct (family_parts X D near Hn U E C HU HE HC m0 Hm0 Em0 C1 P s dd es V (c_c P) (10 ^ 9) Hdd Hgm Hgg Hcw Hes ten W HW HW0) as (L & h & HL & Hh & Hin & Hout & Hex).
  pose proof (jump_nice X D near Hn 10 (10 ^ 9) (dd * gamma_max s) ten L HL f h Hh Hin Hout Hex) as J.
  apply (nice_ext X D near (fun x => es ^ 2 * dd ^ 3 / (4 * PI * dl ^ 2) * RInt (fun g => V * density s (g / dd) * kern X U E C P es (c_c P) (x, g)) 10 (10 ^ 9))).
  - intros x Hx. unfold scattered_integral. cbv zeta. f_equal. apply (@RInt_ext R_CompleteNormedModule). intros g _. unfold kern, U, E, C. cbn [fst snd]. match goal with |- ?a = ?b => change (@eq R a b) end. ring.
  - apply (nice_mult X D near Hn); [apply nice_const|exact J].
Qed.
Lemma beam_grid e : 0 < e -> exists N, forall n x, (N <= n)%nat -> D x ->
  Rabs (scattered_sed P dl dd ms es (combine (log_grid 10 (10 ^ 9) n) (map (fun x => V * x) (snd (evaluate s (map (fun g => g / dd) (log_grid 10 (10 ^ 9) n)))))) (bm x) -
        scattered_integral P dl dd ms es (fun g => V * density s (g / dd)) 10 (10 ^ 9) (bm x)) <= e.
Proof.
  intros He. destruct w_above as (W & HW & HW0).
  destruct (family_parts X D near Hn U E C HU HE HC m0 Hm0 Em0 C1 P s dd es V (c_c P) (10 ^ 9) Hdd Hgm Hgg Hcw Hes ten W HW HW0) as (L & h & HL & Hh & Hin & Hout & Hex).
  destruct (kern_bounded X D near Hn U E C HU HE HC m0 Hm0 Em0 C1 P es (c_c P) (10 ^ 9) Hes ten W HW HW0) as (B & HB0 & HB).
  set (pf := es ^ 2 * dd ^ 3 / (4 * PI * dl ^ 2)). set (e' := e / (2 * (Rabs pf + 1))). pose proof (Rabs_pos pf) as Pf0. assert (He' : 0 < e') by (apply Rdiv_lt_0_compat; lra).
  destruct (jump_grid X D near Hn 10 (10 ^ 9) (dd * gamma_max s) ten L HL f h Hh Hin Hout Hex e' He') as (d & Hd & J). destruct (log_fine 10 (10 ^ 9) d ltac:(lra) ten Hd) as [N1 HN1].
  set (Q := Rabs (V * density s (first_of s (10 / dd)) - V * density s (10 / dd)) * B + Rabs (V * density s (last_one s (10 ^ 9 / dd)) - V * density s (10 ^ 9 / dd)) * B).
  set (M := 10 ^ 9 * (10 ^ 9 / 10) * ln (10 ^ 9 / 10)). assert (M0 : 0 < M) by (unfold M; apply Rmult_lt_0_compat; [lra|]; rewrite <- ln_1; apply ln_increasing; lra).
  assert (Q0 : 0 <= Q) by (unfold Q; apply Rplus_le_le_0_compat; apply Rmult_le_pos; auto using Rabs_pos).
  destruct (nfloor_ex (M * Q / e')) as [N2 HN2]; [apply Rdiv_le_0_compat; [apply Rmult_le_pos; lra|auto]|].
  exists (N1 + N2 + 3)%nat. intros n x Hnn Hx. destruct n as [|[|n]]; try lia.
  pose proof (J (log_grid 10 (10 ^ 9) (S (S n))) x (HN1 (S (S n)) ltac:(lia)) Hx) as A1.
  pose proof (electrons_gap s dd V (fun g => kern X U E C P es (c_c P) (x, g)) n) as A2. cbv zeta in A2. fold M in A2. set (el := combine _ _) in *.
  assert (A3 : Rabs (trapezia (map (fun gN => (fst gN, snd gN * kern X U E C P es (c_c P) (x, fst gN))) el) - over (log_grid 10 (10 ^ 9) (S (S n))) (fun g => V * density s (g / dd) * kern X U E C P es (c_c P) (x, g))) <= e').
  { eapply Rle_trans; [exact A2|]. assert (Hp : 0 < INR (S n)) by (apply lt_0_INR; lia). assert (Hq : INR N2 + 1 <= INR (S n)) by (rewrite <- S_INR; apply le_INR; lia).
    apply Rle_trans with (M / INR (S n) * Q).
    - apply Rmult_le_compat_l; [apply Rlt_le, Rdiv_lt_0_compat; auto|]. unfold Q. rewrite <- !Rmult_minus_distr_r, !Rabs_mult. apply Rplus_le_compat; (apply Rmult_le_compat_l; [auto using Rabs_pos, Rmult_le_pos|apply HB; auto; lra]).
    - replace (M / INR (S n) * Q) with (M * Q / INR (S n)) by (field; lra). apply (proj2 (Rle_div_l (M * Q) e' _ Hp)). assert (Z : M * Q / e' <= INR (S n)) by lra. apply (proj1 (Rle_div_l (M * Q) (INR (S n)) e' He')) in Z. lra. }
  unfold scattered_sed, scattered_integral. cbv zeta. fold pf.
  match goal with |- Rabs (pf * ?t - pf * ?i) <= _ => assert (Et : t = trapezia (map (fun gN => (fst gN, snd gN * kern X U E C P es (c_c P) (x, fst gN))) el)); [|assert (Ei : i = RInt (fun g => V * density s (g / dd) * kern X U E C P es (c_c P) (x, g)) 10 (10 ^ 9))] end.
  - f_equal. apply map_ext. intros gN. f_equal. unfold kern, U, E, C. cbn [fst snd]. ring.
  - apply (@RInt_ext R_CompleteNormedModule). intros g _. unfold kern, U, E, C. cbn [fst snd]. match goal with |- ?a = ?b => change (@eq R a b) end. ring.
  - rewrite Et, Ei, <- Rmult_minus_distr_l, Rabs_mult. cbn [fst snd] in A1. set (t := trapezia _) in *. set (o := over _ _) in *. set (i := RInt _ _ _) in *.
    assert (T : Rabs (t - i) <= 2 * e'). { apply Rabs_le_between in A1. apply Rabs_le_between in A3. apply Rabs_le. lra. }
    apply Rle_trans with (Rabs pf * (2 * e')); [apply Rmult_le_compat_l; auto|]. replace e with ((Rabs pf + 1) * (2 * e')) by (unfold e'; field; lra). apply Rmult_le_compat_r; lra.
Qed.
End Beams.
