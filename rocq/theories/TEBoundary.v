(** Inserted boundary bins (C08, C73). *)
From Verif Require Import Base TEUtils TimeEvolution ListFacts TEIndexFacts TEStageFacts TEStepFacts TELoopFacts TEInv TEForward Spec_TE TEThm5 TEReach Spec_Init.

Lemma take_app {A} (l : list A) m1 m2 r1 r2 : take_idx l m1 = Ok r1 -> take_idx l m2 = Ok r2 -> take_idx l (m1 ++ m2) = Ok (r1 ++ r2).
Proof.
  unfold take_idx. revert r1. induction m1 as [|z m1 IH]; simpl; intros r1 H1 H2; [injection H1 as <-; auto|].
  destruct (py_get l z) as [a|]; [|discriminate]. simpl in *. destruct (mapM (py_get l) m1) as [r|]; [|discriminate]. simpl in H1. injection H1 as <-.
  rewrite (IH r eq_refl H2). auto.
Qed.
Lemma take_minus1 {A} (l : list A) : l <> [] -> exists w, take_idx l [(-1)%Z] = Ok [w].
Proof.
  intros H. destruct (nth_error_Some_ex l (length l - 1)) as [w Hw]. { destruct l; [congruence|simpl; lia]. }
  exists w. unfold take_idx. simpl. unfold py_get.
  assert (L : (0 < length l)%nat) by (destruct l; [congruence|simpl; lia]).
  replace ((-1 <? 0)%Z) with true by reflexivity. replace (-1 + Z.of_nat (length l))%Z with (Z.of_nat (length l - 1)) by lia.
  destruct (orb _ _) eqn:E. { apply orb_true_iff in E as [E|E]; [apply Z.ltb_lt in E; lia|apply Z.leb_le in E; lia]. }
  rewrite Nat2Z.id, Hw. auto.
Qed.

(** the mapping of _add_boundary_bins *)
Definition bmap (low high : bool) (n : nat) : list Z := framed low high (-1)%Z (-1)%Z (arange n).
Lemma take_bmap {A} (l : list A) low high : l <> [] -> exists w, take_idx l (bmap low high (length l)) = Ok (framed low high w w l).
Proof.
  intros H. destruct (take_minus1 l H) as [w Hw]. exists w. unfold bmap, framed. apply take_app; [destruct low; auto|]. apply take_app; [apply take_arange|]. destruct high; auto.
Qed.
Lemma framed_map2 {A B C} (f : A -> B -> C) low high x y u v l k : length l = length k ->
  map2 f (framed low high x y l) (framed low high u v k) = framed low high (f x u) (f y v) (map2 f l k).
Proof.
  intros L. unfold framed. assert (G : map2 f (l ++ (if high then [y] else [])) (k ++ (if high then [v] else [])) = map2 f l k ++ (if high then [f y v] else [])).
  { revert k L. induction l as [|a l IH]; intros [|b k] L; try discriminate; simpl; [destruct high; auto|]. f_equal. auto. }
  destruct low; simpl; rewrite G; auto.
Qed.
Lemma bmap_values {A} (d : A) (l : list A) : map2 (fun i v => if Z.eqb i (-1) then d else v) (arange (length l)) l = l.
Proof.
  apply nth_error_ext'. intros i. rewrite nth_error_map2. destruct (nth_error l i) as [a|] eqn:E.
  - rewrite nth_error_arange by (eapply nth_error_lt; eauto). destruct (Z.eqb_spec (Z.of_nat i) (-1)); [lia|auto].
  - destruct (nth_error (arange (length l)) i); auto.
Qed.
Lemma row_bmap nv (l : list R) low high : l <> [] -> remap_row (bmap low high (length l)) nv l = Ok (framed low high nv nv l).
Proof.
  intros H. unfold remap_row. destruct (take_bmap l low high H) as [w ->]. cbn [bind]. unfold bmap. rewrite framed_map2 by apply arange_length. rewrite bmap_values. auto.
Qed.
Lemma remap_bmap {A} (d : A) (l : list A) low high : l <> [] -> remap (bmap low high (length l)) l (Some d) = Ok (framed low high d d l).
Proof.
  intros H. unfold remap. destruct (take_bmap l low high H) as [w E]. rewrite E. cbn [bind]. destruct (existsb _ _) eqn:Ex.
  - unfold bmap. rewrite framed_map2 by apply arange_length. rewrite bmap_values. auto.
  - unfold bmap, framed in *. destruct low; [discriminate|]. destruct high; [|auto]. exfalso. simpl in Ex. rewrite existsb_app in Ex. simpl in Ex. rewrite orb_true_r in Ex. discriminate.
Qed.

Section Boundary.
Variable np : numpy.
Hypothesis Hnp : numpy_ok np.
Variable c : cfg.

Lemma stage345_boundary b n s d eng b5 n5 s5 m lo hi : length n = length b -> all_pos (lbs b) -> s <> [] -> (forall r, In r s -> length r = length b) ->
  bounds c = Some (lo, hi) -> stage345 np c b n s d eng = Ok (b5, n5, s5, m) ->
  exists er rest rf rl gs ns rows low high, eng = er :: rest /\ nth_error er 0 = Some rf /\ nth_error er (length er - 1) = Some rl /\ gs <> [] /\ length ns = length gs /\
    (forall r, In r rows -> length r = length gs) /\ (forall g, In g gs -> lo <= g <= hi / (1 + bin_size_factor)) /\
    lbs b5 = framed low high lo (hi / (1 + bin_size_factor)) gs /\ n5 = framed low high 0 0 ns /\
    s5 = match rows with [] => [] | r0 :: rs => framed low high 1 1 r0 :: map (framed low high 0 0) rs end /\
    (low = true <-> creep c <= lg np (hd 0 gs) - lg np lo /\ 0 < fst rf) /\
    (high = true <-> creep c <= lg np hi - lg np (last gs 0) /\ fst rl < 0).
Proof.
  intros L Hp Hs Hr Hb H.
  destruct (stage345_spec np Hnp c _ _ _ _ _ _ _ _ _ L Hp H) as (_ & _ & _ & _ & W). destruct (W (lo, hi) Hb) as (W' & _). clear W. rename W' into W. unfold within in W. cbn [fst snd] in W.
  unfold stage345 in H. apply bind_Ok in H as ([[b3 n3] m3] & H3 & H). apply bind_Ok in H as (s3 & Hs3 & H). rewrite Hb in H.
  destruct (sort_and_merge_bins_spec np Hnp c _ _ _ _ _ _ L Hp H3) as ((U1 & U2 & _) & _).
  unfold remove_gamma_beyond_bounds in H. set (mask := map (in_bounds (lo, hi)) b3) in *.
  apply bind_Ok in H as (n4 & Hn4 & H). apply bind_Ok in H as (s4 & Hs4 & H). apply bind_Ok in H as (m34 & _ & H).
  destruct eng as [|er rest]; [discriminate|]. apply bind_Ok in H as ([b5' m5] & H5 & H). apply bind_Ok in H as (n5' & Hn5 & H). apply bind_Ok in H as (s5' & Hs5 & H).
  apply bind_Ok in H as (mm & _ & H). injection H as -> -> -> ->.
  assert (Lm : length mask = length n3) by (unfold mask; rewrite map_length; lia).
  rewrite remap_mask_None in Hn4 by auto. assert (T4 : n4 = select mask n3) by congruence.
  apply add_boundary_cases in H5 as (bf & bl & rf & rl & Hbf & Hbl & Hrf & Hrl & pre & post & E5 & Em5 & Hpre & Hpost).
  set (b4 := select mask b3) in *.
  assert (L4 : length n4 = length b4). { rewrite T4. unfold b4. rewrite !select_length by lia. auto. }
  assert (Ne : b4 <> []) by (intros E; rewrite E in Hbf; discriminate).
  assert (R4 : forall r, In r s4 -> length r = length b4).
  { intros r Hr'. rewrite (proj2 (proj2 (remap_subgroups_rows _ _ _ Hs4)) r Hr'). unfold mask_to_mapping, b4. rewrite !select_length; auto; rewrite ?arange_length; auto. lia. }
  set (low := match pre with [] => false | _ => true end). set (high := match post with [] => false | _ => true end).
  assert (Em : m5 = bmap low high (length b4)).
  { rewrite Em5. unfold bmap, framed, low, high. destruct Hpre as [[-> _]|[-> _]]; destruct Hpost as [[-> _]|[-> _]]; reflexivity. }
  assert (Eg : lbs b5 = framed low high lo (hi / (1 + bin_size_factor)) (lbs b4)).
  { rewrite E5. unfold framed, low, high, lbs. rewrite !map_app. destruct Hpre as [[-> _]|[-> _]]; destruct Hpost as [[-> _]|[-> _]]; reflexivity. }
  exists er, rest, rf, rl, (lbs b4), n4, s4, low, high. split; [reflexivity|]. split; [auto|]. split; [auto|].
  split; [unfold lbs; destruct b4; [congruence|discriminate]|]. split; [rewrite lbs_length; auto|]. split; [intros r Hr'; rewrite lbs_length; auto|].
  split. { intros g Hg. apply W. rewrite Eg. unfold framed. apply in_or_app; right. apply in_or_app; left. auto. }
  split; [exact Eg|]. subst m5. rewrite Em in Hn5, Hs5.
  split. { rewrite <- L4 in Hn5. rewrite remap_bmap in Hn5 by (intros E; rewrite E in L4; destruct b4; [congruence|discriminate]). congruence. }
  split. { destruct s4 as [|r0 rs]; [discriminate|]. simpl in Hs5. 
    assert (G : forall nv r, In r (r0 :: rs) -> remap_row (bmap low high (length b4)) nv r = Ok (framed low high nv nv r)).
    { intros nv r Hin. rewrite <- (R4 r Hin). apply row_bmap. intros ->. specialize (R4 [] Hin). destruct b4; [congruence|discriminate]. }
    rewrite G in Hs5 by (simpl; auto). cbn [bind] in Hs5.
    assert (E : mapM (remap_row (bmap low high (length b4)) 0) rs = Ok (map (framed low high 0 0) rs)).
    { apply mapM_Forall2. apply Forall2_from_nth; [rewrite map_length; auto|]. intros i x y Hx Hy. rewrite nth_error_map, Hx in Hy. simpl in Hy. assert (y = framed low high 0 0 x) by congruence. subst y.
      apply G. right. eapply nth_error_In; eauto. }
    rewrite E in Hs5. cbn [bind] in Hs5. congruence. }
  assert (Eh : hd 0 (lbs b4) = fst bf). { destruct b4; [discriminate|]. simpl in Hbf. injection Hbf as ->. auto. }
  assert (El : last (lbs b4) 0 = fst bl). { unfold lbs. clear - Hbl. induction b4 as [|x [|y l] IH]; [discriminate| |].
    - simpl in Hbl. injection Hbl as ->. auto.
    - rewrite <- IH; [auto|]. rewrite <- Hbl. simpl. rewrite Nat.sub_0_r. auto. }
  rewrite Eh, El. cbn [fst snd] in *. split.
  - unfold low. destruct Hpre as [[-> Hx]|[-> Hx]]; split; try discriminate; auto. lra.
  - unfold high. destruct Hpost as [[-> Hx]|[-> Hx]]; split; try discriminate; auto. lra.
Qed.

Lemma step_boundary s ne ne' s' lo hi : 0 < mec2 c -> aligned c s -> bounds c = Some (lo, hi) -> step np c s ne = (ne', Ok s') ->
  exists rf rl gs ns rows low high, gs <> [] /\ length ns = length gs /\ (forall r, In r rows -> length r = length gs) /\
    (forall g, In g gs -> lo <= g <= hi / (1 + bin_size_factor)) /\
    lbs (st_bins s') = framed low high lo (hi / (1 + bin_size_factor)) gs /\ st_dens s' = framed low high 0 0 ns /\
    st_subs s' = match rows with [] => [] | r0 :: rs => framed low high 1 1 r0 :: map (framed low high 0 0) rs end /\
    (low = true <-> creep c <= lg np (hd 0 gs) - lg np lo /\ 0 < rf) /\
    (high = true <-> creep c <= lg np hi - lg np (last gs 0) /\ rl < 0) /\
    (method c = Euler -> subgroups c = None -> rf = total_edge_rate fst (st_en s) 0 /\ rl = total_edge_rate fst (st_en s) (length (st_bins s) - 1)).
Proof.
  intros Hm Ha Hb H. pose proof H as H0. apply step_Ok in H as (eng & inj & left0 & t & b & n & sg & m & left' & mask & pen & pab & prel & Hc & Hat & Hmask & _ & _ & _ & Eb & En & Esg & _).
  apply apply_time_changes_Ok in Hat as (b2 & n2 & s2 & d & eng' & H12 & H345).
  destruct (choose_step_shapes c _ _ _ _ _ Ha Hc) as (Leng & Linj & _).
  assert (Le : length (to_erg (mec2 c) (st_bins s)) = length (st_bins s)) by apply map_length.
  destruct (al_subs c s Ha) as (Hs1 & Hs2).
  pose proof H12 as H12'.
  destruct (stage12_spec np Hnp c Hm _ _ _ _ _ _ _ _ _ _ _ _ _ H12) as (_ & Hu & Leng' & _ & Lb2 & Ln2 & Ls2 & Lr2 & P2 & N2); rewrite ?Le; auto.
  { apply Ha. }
  destruct (stage345_boundary b2 n2 s2 d eng' b n sg m lo hi) as (er & rest & rf & rl & gs & ns & rows & low & high & E1 & E2 & E3 & E4 & E5 & E6 & E7 & E8 & E9 & E10 & E11 & E12); auto.
  { lia. } { intros E. rewrite E in Ls2. destruct (st_subs s); [congruence|discriminate]. } { intros r Hr. rewrite Lr2, Lb2 by auto. auto. }
  assert (Lm : length mask = length b).
  { assert (Lmm : length b = length m /\ length n = length m). { destruct (stage345_spec np Hnp c b2 n2 s2 d eng' b n sg m) as ((_ & X2 & _) & _ & X & _); auto; try lia. }
    apply (mask_length_step c s b n m left0 t mask left'); tauto. }
  exists (fst rf), (fst rl), gs, ns, rows, low, high. repeat (split; [assumption|]).
  split. { rewrite Eb, lbs_update by auto. auto. }
  split; [rewrite En; auto|]. split; [rewrite Esg; auto|]. split; [auto|]. split; [auto|].
  intros Hme Hsg. apply stage12_Ok in H12' as (_ & _ & H12'). rewrite Hme in H12'. destruct H12' as [_ ->].
  pose proof (choose_step_Ok c s _ inj left0 t Hc) as (ken & krel & kabs & dr & step0 & Ken & _ & _ & Eeng & _).
  rewrite Hsg in Eeng. simpl in Eeng. rewrite E1 in Eeng. injection Eeng as Ee _. rewrite Ee in E2, E3.
  assert (Len : forall kv, In kv (st_en s) -> length (snd kv) = length (st_bins s)) by apply (rates_ok_len _ _ _ (al_en c s Ha)).
  set (N := length (st_bins s)) in *.
  assert (Lv : length (vsum add_bin (0, 0) N (map snd ken)) = N). { apply vsum_length. intros a Hin. apply in_map_iff in Hin as ([k v] & <- & Hin). apply (known_len N _ _ Ken Len k v Hin). }
  assert (HN : (0 < N)%nat). { rewrite <- Lv. eapply nth_error_lt. exact E2. }
  rewrite Lv in E3. rewrite (single_energy N _ _ 0 Ken Len HN) in E2. rewrite (single_energy N _ _ (N - 1) Ken Len) in E3 by lia.
  assert (T : forall x y : R * R, Some x = Some y -> x = y) by congruence. apply T in E2. apply T in E3. subst rf rl. auto.
Qed.
End Boundary.
