(** Runs with automatic steps end: no step but the last is shorter than the time
    the limits allow for freshly computed rates (C83). *)
From Verif Require Import Base TEUtils TimeEvolution ListFacts TEIndexFacts TEStageFacts TEStepFacts TELoopFacts TEInv Spec_TE TEThm1 TEReach TEReuse TEAuto TEAuto2 TEErr Spec_Finish.

Section Finish.
Variable np : numpy.
Hypothesis Hnp : numpy_ok np.
Variable c : cfg.
Hypothesis Hv : valid c.
Hypothesis Hg : positive_grid c.
Hypothesis Hp : positive_steps c.
Hypothesis Hauto : stepd c = Auto.
Hypothesis Hnames : distinct_names c.

Lemma fresh_all ne d s k : optimize c = false -> reached np c ne d s -> (k < length (st_bins s))%nat -> exists l u v, fresh_at c d s k l u v.
Proof.
  intros Ho Hr Hk. destruct (nth_error_Some_ex _ _ Hk) as [[l u] Hb]. inversion Hr as [s0 Hi|d0 s0 d1 s1 Hr0 Hlt Hst]; subst.
  { destruct (fresh_initial np c Hv Hg _ _ _ _ Hi Hb) as [v F]. eauto. }
  destruct (reached_steady np Hnp c Hv ne d0 s0 Hg Hp Hr0) as (Ha & _). destruct (reached_steady np Hnp c Hv ne d s Hg Hp Hr) as (Ha' & Hs' & _).
  destruct (step_fresh np Hnp c (v_mec _ Hv) s0 d0 d s Ha Ho Hst) as (Hf & Hen & Hrel & Hab).
  destruct (nth_error_Some_ex (st_dens s) k) as [v Hd]; [rewrite (al_dens _ _ Ha'); auto|]. exists l, u, v. pose proof (lbs_nth _ _ _ Hb) as Hl. simpl in Hl.
  constructor; auto.
  - apply (sd_pos _ _ Hs'). apply nth_error_In with k. auto.
  - exact (Hf _ (nth_error_In _ _ Hb)).
  - eapply Forall2_impl; [|exact Hen]. intros kf kv (E1 & vals & E2 & out & Ho' & Hu & Lv). split; auto. simpl in Ho', Hu.
    destruct (nth_error_Some_ex vals k) as [[rl ru] Hy]; [lia|]. exists rl, ru. split; [rewrite E2, nth_error_map, Hy; auto|].
    destruct (nth_interlace _ _ _ Hb) as [I1 I2]. destruct (nth_pairs _ _ _ _ Hu Hy) as [O1 O2]. eexists _, out, k. split; [exact Ho'|]. simpl. auto 6.
  - eapply Forall2_impl; [|exact Hrel]. intros kf kv (E1 & vals & E2 & out & Ho' & Hu & Lv). split; auto. simpl in Ho', Hu. injection Hu as ->. rewrite lbs_length in Lv.
    destruct (nth_error_Some_ex vals k) as [y Hy]; [lia|]. exists l, y. split; auto. split; [rewrite E2, nth_error_map, Hy; auto|]. eexists _, vals, k. split; [exact Ho'|]. simpl. auto.
  - eapply Forall2_impl; [|exact Hab]. intros kf kv (E1 & vals & E2 & out & Ho' & Hu & Lv). split; auto. simpl in Ho', Hu. injection Hu as ->. rewrite lbs_length in Lv.
    destruct (nth_error_Some_ex vals k) as [y Hy]; [lia|]. exists l, y. split; auto. split; [rewrite E2, nth_error_map, Hy; auto|]. eexists _, vals, k. split; [exact Ho'|]. simpl. auto.
Qed.

Variable ne : dist.
Variable tau : R.
Hypothesis Htau : 0 < tau.
(** the limits allow [tau] wherever rates have just been computed *)
Hypothesis Hslow : forall d s k l u v g, reached np c ne d s -> fresh_at c d s k l u v -> (g < length (st_subs s))%nat -> limits_at c s g k tau.

Definition rested (s : tstate) : Prop := optimize c = true -> forall i x, nth_error (st_left s) i = Some x -> x = Some 0 \/ ext_le (Some tau) x.

Lemma long_choice d s eng inj left0 t : reached np c ne d s -> rested s -> st_elapsed s < total c -> choose_step c s = Ok (eng, inj, left0, t) ->
  tau <= t \/ t = total c - st_elapsed s.
Proof.
  intros Hr HR Hlt Hc. destruct (reached_steady np Hnp c Hv ne d s Hg Hp Hr) as (Ha & Hs & _).
  apply choose_step_Ok in Hc as (ken & krel & kabs & dr & step0 & H1 & H2 & H3 & He & _ & _ & H6 & H7).
  pose proof Hp as Hp'. red in Hp'. rewrite Hauto in Hp', H6. destruct Hp' as (HE & HD & HI). destruct H6 as (mx & Hmx & H6). rewrite He in Hmx.
  pose proof (mx_length c _ _ _ _ _ Ha H1 H2 H3 Hmx) as Lmx.
  destruct step0 as [t0|]; [|auto]. destruct (Rltb_spec (total c - st_elapsed s) t0); [auto|]. subst t0. left.
  assert (Hfr : forall i x l u v, nth_error mx i = Some x -> fresh_at c d s i l u v -> ext_le (Some tau) x).
  { intros i x l u v Hx F. pose proof (fa_pos _ _ _ _ _ _ _ F) as P. pose proof (fa_width _ _ _ _ _ _ _ F) as W.
    apply (mx_limits c Hv s ken krel kabs mx i x l u tau HE HD HI Ha H1 H2 H3 Hmx Hx (fa_bin _ _ _ _ _ _ _ F)); [lra|lra|]. intros g Hgl. eapply Hslow; eauto. }
  destruct (optimize c) eqn:Eo.
  - destruct H6 as [El Hmin]. apply ext_list_min_spec in Hmin as [Hin _]. apply In_nth_error in Hin as [i Hi]. rewrite El, nth_error_map2 in Hi.
    destruct (nth_error (st_left s) i) as [x|] eqn:Ex; [|discriminate]. destruct (nth_error mx i) as [z|] eqn:Ez; [|discriminate].
    assert (Hq : (if ext_is0 x then z else x) = Some t) by congruence. clear Hi.
    destruct (HR Eo i x Ex) as [->|Hx].
    + unfold ext_is0 in Hq. rewrite (proj2 (Reqb_true 0 0)) in Hq by auto. subst z.
      destruct (origin_inv np Hnp c Hv Hg Hp Eo Hnames ne d s Hr i _ Ex) as (d0 & s0 & k & l & u & v & M & _ & _ & F & _ & _ & _ & [(_ & -> & -> & ->)|(N & _)] & _); [|congruence].
      apply (Hfr i (Some t) l u v); auto.
    + destruct x as [x|]; [|discriminate]. unfold ext_is0 in Hq. destruct (Reqb_spec x 0) as [->|]. { simpl in Hx. lra. } injection Hq as ->. exact Hx.
  - destruct H6 as [_ Hmin]. apply ext_list_min_spec in Hmin as [Hin _]. apply In_nth_error in Hin as [i Hi].
    destruct (fresh_all ne d s i Eo Hr) as (l & u & v & F); [rewrite <- Lmx; eapply nth_error_lt; eauto|]. apply (Hfr i (Some t) l u v); auto.
Qed.

Lemma rested_inv d s : reached np c ne d s -> rested s \/ total c <= st_elapsed s.
Proof.
  intros Hr. induction Hr as [s Hi|d s d' s' Hr IH Hlt Hst].
  - left. intros _ i x Hx. left. apply initial_Ok in Hi as (sg & _ & Hi). destruct (dist_call np ne (g0 c)). destruct Hi as (_ & _ & _ & _ & El & _).
    rewrite El, nth_error_map in Hx. destruct (nth_error (initial_bins c) i); [|discriminate]. simpl in Hx. congruence.
  - destruct IH as [HR|]; [|lra].
    apply step_Ok in Hst as (eng & inj & left0 & t & b & n & sg & m & left' & mask & pen & pab & prel & Hc & _ & Hmask & _ & _ & _ & _ & _ & _ & El & Et & _).
    destruct (long_choice d s eng inj left0 t Hr HR Hlt Hc) as [Hlong|Hend]; [|right; lra]. left. intros Ho i x Hx.
    rewrite Ho in Hmask. destruct Hmask as (l1 & _ & Em & E'). rewrite El, E', Em, nth_error_map2, nth_error_map in Hx.
    destruct (nth_error (map2 _ l1 b) i) as [y|]; [|discriminate]. simpl in Hx. destruct (ext_ltb y t) eqn:Elt; [left; congruence|]. assert (y = x) by congruence. subst y.
    right. destruct x as [x|]; simpl in *; auto. apply Rltb_false in Elt. lra.
Qed.

Lemma thm_long_steps d s d' s' : reached np c ne d s -> st_elapsed s < total c -> step np c s d = (d', Ok s') ->
  tau <= st_elapsed s' - st_elapsed s \/ st_elapsed s' = total c.
Proof.
  intros Hr Hlt Hst. destruct (rested_inv d s Hr) as [HR|]; [|lra]. apply step_time in Hst as (eng & inj & left0 & t & Hc & Et & _).
  destruct (long_choice d s eng inj left0 t Hr HR Hlt Hc); [left|right]; lra.
Qed.

Lemma loop_ends n : forall m s d, reached np c ne d s -> total c - st_elapsed s <= INR n * tau -> loop np c (n + m) s d = loop np c n s d.
Proof.
  induction n as [|n IH]; intros m s d Hr Hn.
  - simpl INR in Hn. destruct m; auto. cbn [loop Nat.add]. destruct (Rltb_spec (st_elapsed s) (total c)); [lra|auto].
  - cbn [loop Nat.add]. destruct (Rltb_spec (st_elapsed s) (total c)) as [Hlt|]; auto. destruct (step np c s d) as [d' [s'|]] eqn:Es; auto.
    rewrite IH; auto. { eapply after_pass; eauto. } rewrite S_INR in Hn. pose proof (pos_INR n).
    destruct (thm_long_steps d s d' s' Hr Hlt Es) as [H0|H0]; [lra|]. rewrite H0. nra.
Qed.
Lemma step_no_fuel d s : reached np c ne d s -> snd (step np c s d) = Err OutOfFuel -> user_raises c OutOfFuel.
Proof.
  intros Hr. destruct (reached_steady np Hnp c Hv ne d s Hg Hp Hr) as (_ & _ & N1 & N2 & N3).
  set (S := fun e => e = OutOfFuel -> user_raises c OutOfFuel).
  assert (HS : forall e, In e plain -> S e). { intros e He ->. exfalso. simpl in He. intuition congruence. }
  assert (HB : forall e, bin_errors e -> S e). { intros e He ->. exfalso. red in He. intuition congruence. }
  intros E. refine (may_step np c S HS _ s d _ _ _ _ OutOfFuel E eq_refl).
  - intros kf d0 p e Hk Hf ->. red. eauto.
  - destruct (known_ok (st_en s) N1) as [k ->]. apply may_ok.
  - destruct (known_ok (st_rel s) N2) as [k ->]. apply may_ok.
  - destruct (known_ok (st_abs s) N3) as [k ->]. apply may_ok.
  - intros eng inj left0 t _. split; intros; apply may_eval_all; auto.
Qed.
Lemma loop_not_out n : forall s d d' tr, reached np c ne d s -> total c - st_elapsed s <= INR n * tau -> loop np c n s d = (d', tr, Err OutOfFuel) -> user_raises c OutOfFuel.
Proof.
  induction n as [|n IH]; intros s d d' tr Hr Hn; cbn [loop]; destruct (Rltb_spec (st_elapsed s) (total c)) as [Hlt|]; try congruence.
  - simpl INR in Hn. lra.
  - destruct (step np c s d) as [d1 [s1|e]] eqn:Es.
    + destruct (loop np c n s1 d1) as [[d2 tr2] r2] eqn:El. intros E. assert (r2 = Err OutOfFuel) by congruence. subst r2. eapply IH; [| |exact El].
      * eapply after_pass; eauto.
      * rewrite S_INR in Hn. pose proof (pos_INR n). destruct (thm_long_steps d s d1 s1 Hr Hlt Es) as [H0|H0]; [lra|]. rewrite H0. nra.
    + intros E. assert (e = OutOfFuel) by congruence. subst e. apply (step_no_fuel d s Hr). rewrite Es. auto.
Qed.
Lemma thm_auto_ends n m : 0 <= total c -> total c <= INR n * tau ->
  evaluate np c (n + m) ne = evaluate np c n ne /\ (snd (evaluate np c n ne) = Err OutOfFuel -> user_raises c OutOfFuel).
Proof.
  intros Ht Hn. unfold evaluate. destruct (initial_values np c ne) as [s|e] eqn:Hi.
  - pose proof (initial_aligned np c ne s (valid_split c Hv) Hi) as (_ & E0 & _). assert (Hr : reached np c ne ne s) by (apply at_start; auto).
    split; [rewrite loop_ends; auto; rewrite E0; lra|]. destruct (loop np c n s ne) as [[d' tr] r] eqn:El. simpl. intros E. destruct r as [sf|e]; [discriminate|]. simpl in E.
    assert (e = OutOfFuel) by congruence. subst e. apply (loop_not_out n s ne d' tr Hr); auto. rewrite E0. lra.
  - split; auto. simpl. intros E. assert (e = OutOfFuel) by congruence. subst e.
    assert (K : may (fun e => e = OutOfFuel -> user_raises c OutOfFuel) (initial_values np c ne)).
    { apply may_initial. { intros e He ->. exfalso. simpl in He. intuition congruence. } intros kf d0 p e Hk Hf ->. red. eauto. }
    apply (K _ Hi eq_refl).
Qed.
End Finish.

(** ** conditions on the functions of the user *)
Section Gentle.
Variable np : numpy.
Hypothesis Hnp : numpy_ok np.
Variable c : cfg.
Hypothesis Hv : valid c.
Hypothesis Hg : positive_grid c.
Hypothesis Hp : positive_steps c.
Hypothesis Hauto : stepd c = Auto.

Lemma Rsum_bound {A} (f : A -> R) l k B : 0 <= B -> (length l <= k)%nat -> (forall x, In x l -> f x <= B) -> Rsum (map f l) <= INR k * B.
Proof.
  intros HB Hl H. apply Rle_trans with (INR (length l) * B); [|apply Rmult_le_compat_r; auto; apply le_INR; auto]. clear Hl. induction l as [|a l IH]; [simpl; lra|].
  cbn [map length]. rewrite S_INR. change (Rsum (f a :: map f l)) with (f a + Rsum (map f l)). specialize (H a (or_introl eq_refl)) as Ha. specialize (IH (fun x Hx => H x (or_intror Hx))). lra.
Qed.
Lemma Rsum_abs_bound {A} (f : A -> R) l k B : 0 <= B -> (length l <= k)%nat -> (forall x, In x l -> Rabs (f x) <= B) -> Rabs (Rsum (map f l)) <= INR k * B.
Proof.
  intros HB Hl H. apply Rabs_le. split.
  - assert (K : Rsum (map (fun x => - f x) l) <= INR k * B). { apply Rsum_bound; auto. intros x Hx. specialize (H x Hx). pose proof (Rle_abs (- f x)). rewrite Rabs_Ropp in H0. lra. }
    assert (E : Rsum (map (fun x => - f x) l) = - Rsum (map f l)). { clear. induction l as [|a l IH]; simpl; [unfold Rsum; simpl; lra|]. unfold Rsum in *. simpl. rewrite IH. lra. } lra.
  - apply Rsum_bound; auto. intros x Hx. specialize (H x Hx). pose proof (Rle_abs (f x)). lra.
Qed.

Definition value {A} (p : A -> R) (kv : string * list (option A)) (i : nat) : R := match nth_error (snd kv) i with Some (Some x) => p x | _ => 0 end.
Lemma group_rate_abs {A} (p : A -> R) (r : rates A) g i k B : 0 <= B -> 
  match subgroups c with None => (length r <= k)%nat | Some gs => forall names, In names gs -> (length names <= k)%nat end ->
  (forall kv, In kv r -> Rabs (value p kv i) <= B) -> Rabs (group_rate c p r g i) <= INR k * B.
Proof.
  intros HB Hk H. unfold group_rate. destruct (subgroups c) as [gs|].
  - apply Rsum_abs_bound; auto. { destruct (nth_in_or_default g gs []) as [Hin| ->]; [auto|simpl; lia]. }
    intros x _. unfold rate_at. destruct (lookup x r) as [v|] eqn:E; [|rewrite Rabs_R0; auto]. apply lookup_In in E. apply (H (x, v) E).
  - apply Rsum_abs_bound; auto.
Qed.
Lemma group_rate_below {A} (p : A -> R) (r : rates A) g i k B : 0 <= B -> 
  match subgroups c with None => (length r <= k)%nat | Some gs => forall names, In names gs -> (length names <= k)%nat end ->
  (forall kv, In kv r -> - value p kv i <= B) -> - group_rate c p r g i <= INR k * B.
Proof.
  intros HB Hk H. 
  assert (E : forall T (f : T -> R) l, - Rsum (map f l) = Rsum (map (fun x => - f x) l)). { intros T f l. induction l as [|a l IH]; unfold Rsum in *; simpl; [lra|]. rewrite <- IH. lra. }
  unfold group_rate. destruct (subgroups c) as [gs|]; rewrite E.
  - apply Rsum_bound; auto. { destruct (nth_in_or_default g gs []) as [Hin| ->]; [auto|simpl; lia]. }
    intros x _. unfold rate_at. destruct (lookup x r) as [v|] eqn:E1; [|lra]. apply lookup_In in E1. apply (H (x, v) E1).
  - apply Rsum_bound; auto.
Qed.
Lemma group_rate_minus (r : rates bin) g i : group_rate c snd r g i - group_rate c fst r g i = group_rate c (fun x => snd x - fst x) r g i.
Proof.
  assert (E : forall T (f h k : T -> R) l, (forall x, f x - h x = k x) -> Rsum (map f l) - Rsum (map h l) = Rsum (map k l)).
  { intros T f h k l H. induction l as [|a l IH]; unfold Rsum in *; simpl; [lra|]. rewrite <- IH, <- (H a). lra. }
  unfold group_rate. destruct (subgroups c) as [gs|]; apply E; intros x; unfold rate_at.
  - destruct (lookup x r) as [v|]; [|lra]. destruct (nth_error v i) as [[y|]|]; lra.
  - destruct (nth_error (snd x) i) as [[y|]|]; lra.
Qed.

Lemma reached_allowed ne d s k l u : reached np c ne d s -> nth_error (st_bins s) k = Some (l, u) -> allowed c l.
Proof.
  intros Hr Hb. apply lbs_nth in Hb. simpl in Hb. apply nth_error_In in Hb. inversion Hr as [s0 Hi|d0 s0 d1 s1 Hr0 Hlt Hst]; subst.
  - left. apply (initial_aligned np c _ s (valid_split c Hv)) in Hi as (_ & _ & Eg & _). rewrite <- Eg. exact Hb.
  - right. destruct (reached_steady np Hnp c Hv ne d0 s0 Hg Hp Hr0) as (Ha & _). destruct (step_spec np Hnp c (v_mec _ Hv) s0 d0 d s Ha Hst) as (_ & _ & _ & _ & _ & Hbd).
    destruct (bounds c) as [[lo hi]|]; auto. destruct (Hbd _ eq_refl) as (Hw & _). destruct (Hw l Hb) as [W1 W2]. simpl in W1, W2. split; auto.
    unfold bin_size_factor in W2. apply (Rmult_le_compat_r (1 + 1 / 10000)) in W2; [|lra]. replace (hi / (1 + 1 / 10000) * (1 + 1 / 10000)) with hi in W2 by (field; lra). exact W2.
Qed.

Lemma value_bound {A} (P : string * GammaFn -> A -> Prop) (p : A -> R) fns (r : rates A) k (Q : R -> Prop) :
  Forall2 (fun kf kv => fst kv = fst kf /\ exists x, nth_error (snd kv) k = Some (Some x) /\ P kf x) fns r ->
  (forall kf x, In kf fns -> P kf x -> Q (p x)) -> forall kv, In kv r -> Q (value p kv k).
Proof.
  intros H HQ kv Hkv. induction H as [|kf kv' fns r (_ & x & Hx & HP) HF IH]; [destruct Hkv|]. destruct Hkv as [<-|Hkv].
  - unfold value. rewrite Hx. eapply HQ; eauto. left; auto.
  - apply IH; auto. intros kf' x' Hin. apply HQ. right; auto.
Qed.

Lemma gentle_slow k rate amount tau : 0 <= rate -> 0 <= amount -> 0 < tau -> gentle c rate amount -> at_most c k -> allows c k rate amount tau ->
  forall ne d s i l u v g, reached np c ne d s -> fresh_at c d s i l u v -> limits_at c s g i tau.
Proof.
  intros H1 H2 Ht [GE GR GA] Hk (A1 & A2 & A3 & A4) ne d s i l u v g Hr F. pose proof (reached_allowed ne d s i l u Hr (fa_bin _ _ _ _ _ _ _ F)) as Hall.
  destruct F as [Fb Fp Fw Fd Fe Fr Fa]. exists l, u. split; auto. pose proof (v_mec _ Hv) as Hm.
  assert (HD : 0 < maxD c). { pose proof Hp as Hp'. red in Hp'. rewrite Hauto in Hp'. tauto. }
  pose proof (Forall2_length _ _ _ Fe) as Le. pose proof (Forall2_length _ _ _ Fr) as Lr. pose proof (Forall2_length _ _ _ Fa) as La.
  assert (Hw : 0 < u - l) by lra.
  assert (Fe' : Forall2 (fun kf kv => fst kv = fst kf /\ exists x, nth_error (snd kv) i = Some (Some x) /\ called_en (snd kf) d l u v (fst x) (snd x)) (en_fns c) (st_en s)).
  { eapply Forall2_impl; [|exact Fe]. intros kf kv (E & rl & ru & Hn & Hcl). split; auto. exists (rl, ru). auto. }
  assert (Fr' : Forall2 (fun kf kv => fst kv = fst kf /\ exists x, nth_error (snd kv) i = Some (Some x) /\ exists g0, called (snd kf) d g0 v x) (rel_fns c) (st_rel s)).
  { eapply Forall2_impl; [|exact Fr]. intros kf kv (E & g0 & r & _ & Hn & Hcl). split; auto. exists r. eauto. }
  assert (Fa' : Forall2 (fun kf kv => fst kv = fst kf /\ exists x, nth_error (snd kv) i = Some (Some x) /\ exists g0, called (snd kf) d g0 v x) (abs_fns c) (st_abs s)).
  { eapply Forall2_impl; [|exact Fa]. intros kf kv (E & g0 & r & _ & Hn & Hcl). split; auto. exists r. eauto. }
  assert (Ke : match subgroups c with None => (length (st_en s) <= k)%nat | Some gs => forall names, In names gs -> (length names <= k)%nat end).
  { red in Hk. destruct (subgroups c); auto. lia. }
  assert (Kr : match subgroups c with None => (length (st_rel s) <= k)%nat | Some gs => forall names, In names gs -> (length names <= k)%nat end).
  { red in Hk. destruct (subgroups c); auto. lia. }
  assert (Ka : match subgroups c with None => (length (st_abs s) <= k)%nat | Some gs => forall names, In names gs -> (length names <= k)%nat end).
  { red in Hk. destruct (subgroups c); auto. lia. }
  assert (Bl : Rabs (group_rate c fst (st_en s) g i) <= INR k * (rate * (l * mec2 c))).
  { apply group_rate_abs; auto; [apply Rmult_le_pos; nra|]. apply (value_bound _ _ _ _ _ (fun y => Rabs y <= rate * (l * mec2 c)) Fe'). intros kf x Hin Hc. apply (GE kf d l u v _ _ Hin Hc Hall Fp Fw). }
  assert (Bu : Rabs (group_rate c snd (st_en s) g i) <= INR k * (rate * (u * mec2 c))).
  { apply group_rate_abs; auto; [apply Rmult_le_pos; nra|]. apply (value_bound _ _ _ _ _ (fun y => Rabs y <= rate * (u * mec2 c)) Fe'). intros kf x Hin Hc. apply (GE kf d l u v _ _ Hin Hc Hall Fp Fw). }
  assert (Bw : Rabs (group_rate c snd (st_en s) g i - group_rate c fst (st_en s) g i) <= INR k * (rate * ((u - l) * mec2 c))).
  { rewrite group_rate_minus. apply group_rate_abs; auto; [apply Rmult_le_pos; nra|]. apply (value_bound _ (fun x => snd x - fst x) _ _ _ (fun y => Rabs y <= rate * ((u - l) * mec2 c)) Fe'). intros kf x Hin Hc. apply (GE kf d l u v _ _ Hin Hc Hall Fp Fw). }
  assert (Br : - group_rate c (fun x => x) (st_rel s) g i <= INR k * rate).
  { apply group_rate_below; auto. apply (value_bound _ _ _ _ _ (fun y => - y <= rate) Fr'). intros kf x Hin (g0 & Hc). eapply GR; eauto. }
  assert (Ba : Rabs (group_rate c (fun x => x) (st_abs s) g i) <= INR k * amount).
  { apply group_rate_abs; auto. apply (value_bound _ _ _ _ _ (fun y => Rabs y <= amount) Fa'). intros kf x Hin (g0 & Hc). eapply GA; eauto. }
  set (rl := group_rate c fst (st_en s) g i) in *. set (ru := group_rate c snd (st_en s) g i) in *. set (rr := group_rate c (fun x => x) (st_rel s) g i) in *. set (ra := group_rate c (fun x => x) (st_abs s) g i) in *.
  assert (Hmul : forall x B, Rabs x <= INR k * (rate * B) -> Rabs (x * tau) <= INR k * rate * tau * B).
  { intros x B Hx. rewrite Rabs_mult, (Rabs_pos_eq tau) by lra. apply Rle_trans with (INR k * (rate * B) * tau); [apply Rmult_le_compat_r; lra|right; ring]. }
  apply Hmul in Bl. apply Hmul in Bu. apply Hmul in Bw.
  constructor.
  - eapply Rle_trans; [exact Bl|]. apply Rmult_le_compat_r; auto. nra.
  - eapply Rle_trans; [exact Bu|]. apply Rmult_le_compat_r; auto. nra.
  - intros w. assert (Hww : 0 < w) by (unfold w; apply Rmult_lt_0_compat; lra). fold w in Bw.
    assert (K : Rabs ((ru - rl) * tau) <= maxD c / (1 + maxD c) * w). { eapply Rle_trans; [exact Bw|]. apply Rmult_le_compat_r; lra. }
    assert (E : maxD c / (1 + maxD c) * w = w - w / (1 + maxD c)) by (field; lra).
    assert (Hsm : maxD c / (1 + maxD c) <= maxD c). { apply Rmult_le_reg_r with (1 + maxD c); [lra|]. unfold Rdiv. rewrite Rmult_assoc, Rinv_l by lra. nra. }
    assert (Hsm' : maxD c / (1 + maxD c) * w <= maxD c * w) by (apply Rmult_le_compat_r; lra).
    pose proof (Rle_abs ((ru - rl) * tau)). pose proof (Rle_abs (- ((ru - rl) * tau))) as N. rewrite Rabs_Ropp in N. split; lra.
  - apply Rle_trans with (INR k * rate * tau); [apply Rmult_le_compat_r; lra|auto].
  - rewrite Rabs_mult, (Rabs_pos_eq tau) by lra. apply Rle_trans with (INR k * amount * tau); [apply Rmult_le_compat_r; lra|auto].
Qed.
End Gentle.
