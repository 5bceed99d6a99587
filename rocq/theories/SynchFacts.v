(** Facts about the synchrotron model *)
From Verif Require Import Base TEUtils NumpyInst MathUtils Conversion Spectra Blob Synchrotron Spec_Math Spec_Spectra Spec_Blob Spec_Rad MathFacts SpectraFacts BlobFacts Calculus.
From Coquelicot Require Import Coquelicot.
Import ListNotations.
Open Scope list_scope.
Open Scope R_scope.
Notation Forall := List.Forall (only parsing).

(** ** the attenuation factor *)
Definition att_num (t : R) : R := t ^ 2 / 2 - 1 + (1 + t) * exp (- t).
Lemma att_eq t : t <> 0 -> 3 * (1 / 2 + exp (- t) / t - (1 - exp (- t)) / t ^ 2) / t = 3 * att_num t / t ^ 3.
Proof. intros H. unfold att_num. field. auto. Qed.
Lemma exp_neg_lt_1 t : 0 < t -> exp (- t) < 1.
Proof. intros H. rewrite <- exp_0. apply exp_increasing. lra. Qed.
Lemma att_num_d t : is_derive att_num t (t * (1 - exp (- t))).
Proof. unfold att_num. auto_derive; auto. field. Qed.
Lemma att_num_0 : att_num 0 = 0.
Proof. unfold att_num. rewrite Ropp_0, exp_0. field. Qed.
Lemma att_num_pos t : 0 < t -> 0 < att_num t.
Proof.
  intros H. rewrite <- att_num_0. apply (strict_incr att_num (fun t => t * (1 - exp (- t)))); auto.
  - intros x _. apply att_num_d.
  - intros x Hx. pose proof (exp_neg_lt_1 x (proj1 Hx)). nra.
Qed.
Lemma att_num_lt t : 0 < t -> 3 * att_num t < t ^ 3.
Proof.
  intros H. assert (0 ^ 3 - 3 * att_num 0 < t ^ 3 - 3 * att_num t); [|rewrite att_num_0 in *; lra].
  apply (strict_incr (fun t => t ^ 3 - 3 * att_num t) (fun t => 3 * t ^ 2 - 3 * (t * (1 - exp (- t))))); auto.
  - intros x _. apply (is_derive_minus (fun t => t ^ 3) (fun t => 3 * att_num t)).
    + auto_derive; auto. ring.
    + apply (is_derive_scal att_num x 3 (x * (1 - exp (- x)))). apply att_num_d.
  - intros x Hx. pose proof (exp_gt (- x)). assert (1 + - x < exp (- x)) by (apply H0; lra). simpl. nra.
Qed.
Lemma att_decr_num t : 0 < t -> t ^ 2 * (1 - exp (- t)) < 3 * att_num t.
Proof.
  intros H. assert (t ^ 2 * (1 - exp (- t)) - 3 * att_num t < 0 ^ 2 * (1 - exp (- 0)) - 3 * att_num 0); [|rewrite att_num_0 in *; simpl in *; lra].
  apply (strict_decr (fun t => t ^ 2 * (1 - exp (- t)) - 3 * att_num t) (fun t => t * ((1 + t) * exp (- t) - 1))); auto.
  - intros x _. unfold att_num. auto_derive; auto. field.
  - intros x Hx. pose proof (exp_gt x ltac:(lra)) as E. assert (P : (1 + x) * exp (- x) < 1).
    { rewrite exp_Ropp. apply (Rmult_lt_reg_r (exp x)); [apply exp_pos|]. rewrite Rmult_assoc, Rinv_l by (pose proof (exp_pos x); lra). lra. }
    nra.
Qed.
Definition att (t : R) : R := 3 * att_num t / t ^ 3.
Lemma att_range t : 0 < t -> 0 < att t < 1.
Proof.
  intros H. pose proof (att_num_pos t H). pose proof (att_num_lt t H). assert (0 < t ^ 3) by (apply pow_lt; auto). unfold att. split.
  - apply Rdiv_lt_0_compat; lra.
  - apply (Rmult_lt_reg_r (t ^ 3)); auto. unfold Rdiv. rewrite Rmult_assoc, Rinv_l by lra. lra.
Qed.
Lemma att_decr s t : 0 < s -> s < t -> att t < att s.
Proof.
  intros Hs Hst. apply (strict_decr att (fun x => 3 * (x ^ 2 * (1 - exp (- x)) - 3 * att_num x) / x ^ 4)); auto.
  - intros x Hx. unfold att, att_num. auto_derive. { assert (0 < x) by lra. repeat split; auto. apply Rgt_not_eq. repeat apply Rmult_lt_0_compat; lra. }
    unfold Rdiv, Rminus. field. lra.
  - intros x Hx. pose proof (att_decr_num x ltac:(lra)). assert (0 < x ^ 4) by (apply pow_lt; lra).
    apply (Rmult_lt_reg_r (x ^ 4)); auto. unfold Rdiv. rewrite Rmult_assoc, Rinv_l by lra. lra.
Qed.
Lemma attenuation_eq t : tau_to_attenuation t = if Rltb t (1 / 10 ^ 3) then 1 else att t.
Proof.
  unfold tau_to_attenuation. cbv zeta. destruct (Rltb_spec t (1 / 10 ^ 3)); auto. apply att_eq. simpl in n. lra.
Qed.
Lemma attenuation_range t : 0 < tau_to_attenuation t <= 1.
Proof.
  rewrite attenuation_eq. destruct (Rltb_spec t (1 / 10 ^ 3)); [lra|]. destruct (att_range t) as [A B]. { simpl in n. lra. } lra.
Qed.
Lemma attenuation_decr s t : s <= t -> tau_to_attenuation t <= tau_to_attenuation s.
Proof.
  intros H. destruct H as [H|H]; [|subst; lra]. rewrite !attenuation_eq. destruct (Rltb_spec s (1 / 10 ^ 3)); destruct (Rltb_spec t (1 / 10 ^ 3)); try lra.
  - destruct (att_range t) as [A B]. { simpl in n. lra. } lra.
  - left. apply att_decr; auto. simpl in n. lra.
Qed.

(** ** positivity of the single particle power *)
Lemma npow_pos' x y : 0 < npow x y.
Proof. apply npow_pos. Qed.
Lemma R_func_pos x : 0 < R_func x.
Proof.
  unfold R_func. cbv zeta. pose proof (npow_pos x (1 / 3)). pose proof (npow_pos x (2 / 3)). pose proof (npow_pos x (4 / 3)).
  assert (0 < sqrt (1 + 3.4 * npow x (2 / 3))) by (apply sqrt_lt_R0; lra).
  apply Rmult_lt_0_compat; [|apply exp_pos]. apply Rdiv_lt_0_compat; [|lra]. apply Rmult_lt_0_compat; [|lra]. apply Rdiv_lt_0_compat; lra.
Qed.
Lemma power_pos P b eps g m : phys_ok P -> 0 < b -> 0 < single_particle_synch_power P b eps g m.
Proof.
  intros [] Hb. unfold single_particle_synch_power. apply Rmult_lt_0_compat; [|apply R_func_pos].
  apply Rdiv_lt_0_compat; auto. repeat apply Rmult_lt_0_compat; auto; try lra; try (apply pow_lt; auto). apply sqrt_lt_R0; lra.
Qed.
Lemma eps_pos P nu z dd m : phys_ok P -> 0 < nu -> 0 < 1 + z -> 0 < dd -> 0 < nu_to_epsilon_prime P nu z dd m.
Proof.
  intros [] Hn Hz Hd. unfold nu_to_epsilon_prime, nu_to_eps, rest_energy.
  assert (0 < mass_of P m) by (destruct m; auto). assert (0 < c_c P ^ 2) by (apply pow_lt; auto).
  apply Rdiv_lt_0_compat; auto. apply Rmult_lt_0_compat; auto. apply Rdiv_lt_0_compat; apply Rmult_lt_0_compat; auto.
Qed.

(** ** integrators *)
Lemma offered_nonneg integ x y : offered integ -> incr x -> (forall v, In v x -> 0 < v) -> all_nonneg y -> 0 <= integ y x.
Proof.
  intros H Hx Hp Hy. assert (F : Forall (fun v => 0 <= v) y) by (apply List.Forall_forall; exact Hy).
  destruct H as [->| ->]; [apply trapz_nonneg; auto|apply loglog_nonneg; auto].
Qed.
Lemma interval_nonpos y0 y1 x0 x1 : y0 <= 0 -> y1 <= 0 -> 0 < x0 -> x0 < x1 -> loglog_interval y0 y1 x0 x1 <= 0.
Proof.
  intros H0 H1 Hx Hlt. destruct (Req_dec y0 0) as [->|N0]. { unfold loglog_interval. rewrite (proj2 (Reqb_true 0 0) eq_refl). simpl. lra. }
  destruct (Req_dec y1 0) as [->|N1]. { unfold loglog_interval. rewrite (proj2 (Reqb_true 0 0) eq_refl). rewrite Bool.orb_true_r. simpl. lra. }
  rewrite interval_negative by lra. nra.
Qed.
Lemma loglog_nonpos x : incr x -> (forall v, In v x -> 0 < v) -> forall y, (forall v, In v y -> v <= 0) -> trapz_loglog y x <= 0.
Proof.
  induction x as [|x0 x IH]; intros Hx Hp y H. { rewrite loglog_nil_r. lra. }
  destruct y as [|y0 y]. { simpl. lra. } destruct x as [|x1 x]. { rewrite loglog_one. lra. }
  destruct y as [|y1 y]. { simpl. lra. } rewrite loglog_cons2. destruct Hx as [H01 Hx].
  assert (A : loglog_interval y0 y1 x0 x1 <= 0). { apply interval_nonpos; auto. - apply H; simpl; auto. - apply H; simpl; auto. - apply Hp; simpl; auto. }
  assert (B : trapz_loglog (y1 :: y) (x1 :: x) <= 0) by (apply IH; auto; intros v Hv; [apply Hp|apply H]; right; auto). lra.
Qed.
Lemma trapz_nonpos x y : incr x -> (forall v, In v y -> v <= 0) -> trapz y x <= 0.
Proof.
  intros Hx H. assert (0 <= trapz (map (Rmult (-1)) y) x).
  { apply trapz_nonneg; auto. apply List.Forall_forall. intros v Hv. apply in_map_iff in Hv. destruct Hv as (w & <- & Hw). specialize (H w Hw). lra. }
  rewrite trapz_scale in H0. lra.
Qed.
Lemma offered_nonpos integ x y : offered integ -> incr x -> (forall v, In v x -> 0 < v) -> (forall v, In v y -> v <= 0) -> integ y x <= 0.
Proof. intros H Hx Hp Hy. destruct H as [->| ->]; [apply trapz_nonpos; auto|apply loglog_nonpos; auto]. Qed.

(** ** the corrected grid *)
Lemma correct_first_idem a l : correct_first a (correct_first a l) = correct_first a l.
Proof.
  destruct l as [|x l]; auto. unfold correct_first at 2 3. destruct (Rltb x a && Rltb ((a - x) / x) (1 / 10 ^ 10)) eqn:E.
  - unfold correct_first. rewrite (proj2 (Rltb_false a a)) by lra. reflexivity.
  - unfold correct_first. rewrite E. reflexivity.
Qed.
Lemma spaced_incr l : (forall v, In v l -> 0 < v) -> spaced l -> incr l.
Proof.
  induction l as [|a l IH]; simpl; auto. destruct l as [|b l]; auto. intros Hp [H1 H2]. split; [|apply IH; auto].
  assert (0 < a) by (apply Hp; auto). simpl in H1. nra.
Qed.
Lemma spaced_app_r l m : spaced (l ++ m) -> spaced m.
Proof.
  induction l as [|a l IH]; auto. cbn [app]. destruct l as [|b l]; cbn [app] in *.
  - destruct m; [simpl; auto|]. intros [_ H]; auto.
  - intros [_ H]. auto.
Qed.
(** incr of l ++ [x] *)
Lemma incr_snoc l x : incr l -> (forall l' y, l = l' ++ y :: nil -> y < x) -> incr (l ++ x :: nil).
Proof.
  induction l as [|a l IH]; simpl; auto. intros Hl H. destruct l as [|b l].
  - simpl. split; auto. apply (H nil). reflexivity.
  - destruct Hl as [H1 H2]. cbn [app]. split; auto. apply IH; auto. intros l' y E. apply (H (a :: l')). rewrite E. reflexivity.
Qed.
Lemma incr_snoc_inv l x : incr (l ++ x :: nil) -> incr l /\ (forall l' y, l = l' ++ y :: nil -> y < x).
Proof.
  induction l as [|a l IH]; simpl. { intros _. split; auto. intros l' y E. destruct l'; discriminate. }
  destruct l as [|b l].
  - simpl. intros [H _]. split; auto. intros l' y E. destruct l' as [|c [|d l']]; simpl in E; try congruence; discriminate.
  - cbn [app]. intros [H1 H2]. destruct (IH H2) as [A B]. split; [split; auto|]. intros l' y E. destruct l' as [|c l']; [discriminate|].
    injection E as -> E. apply (B l'). exact E.
Qed.
(** a grid with neighbours apart by more than a factor 1 + 1e-9 stays increasing (with positive limits) *)
Lemma correct_first_shape a x l : exists x', correct_first a (x :: l) = x' :: l /\ x <= x' /\ (0 < x -> x' < x * (1 + 1 / 10 ^ 10) \/ x' = x) /\ (x' = x \/ x' = a).
Proof.
  unfold correct_first. destruct (Rltb x a && Rltb ((a - x) / x) (1 / 10 ^ 10)) eqn:E.
  - apply Bool.andb_true_iff in E. destruct E as [E1 E]. apply Rltb_true in E. apply Rltb_true in E1. exists a. split; auto. split; [lra|]. split; [|auto].
    intros Hx. left. apply (Rmult_lt_compat_r x) in E; auto. unfold Rdiv in E. rewrite Rmult_assoc, Rinv_l in E by lra. simpl in *. lra.
  - exists x. split; auto. split; [lra|]. split; auto.
Qed.
Lemma correct_last_shape b l x : 0 < b -> exists x', correct_last b (l ++ x :: nil) = l ++ x' :: nil /\ x' <= x /\ (x' * (1 + 1 / 10 ^ 10) > x \/ x' = x) /\ (x' = x \/ x' = b).
Proof.
  intros Hb. rewrite correct_last_snoc. destruct (Rltb b x && Rltb ((x - b) / b) (1 / 10 ^ 10)) eqn:E.
  - apply Bool.andb_true_iff in E. destruct E as [E1 E]. apply Rltb_true in E. apply Rltb_true in E1. exists b. split; auto. split; [lra|]. split; [|auto].
    left. apply (Rmult_lt_compat_r b) in E; auto. unfold Rdiv in E. rewrite Rmult_assoc, Rinv_l in E by lra. simpl in *. lra.
  - exists x. split; auto. split; [lra|]. split; auto.
Qed.
Lemma corrected_incr a b l : 0 < a -> 0 < b -> (forall v, In v l -> 0 < v) -> spaced l ->
  incr (correct_bounds a b l) /\ (forall v, In v (correct_bounds a b l) -> 0 < v).
Proof.
  intros Ha Hb Hp Hs. unfold correct_bounds.
  destruct l as [|x l]. { unfold correct_first, correct_last. simpl. split; [exact Logic.I|intros v []]. }
  assert (Hx : 0 < x) by (apply Hp; left; auto).
  destruct (correct_first_shape a x l) as (x' & -> & Hge & Hlt & _). specialize (Hlt Hx).
  destruct l as [|y l].
  - destruct (correct_last_shape b [] x' Hb) as (x2 & E & _ & _ & [->| ->]); cbn [app] in E; rewrite E; (split; [simpl; auto|]); intros v [<-|[]]; lra.
  - destruct (@exists_last _ (y :: l) ltac:(discriminate)) as (m & w & Em).
    assert (Hw : 0 < w). { apply Hp. right. rewrite Em. apply in_or_app. right. left. auto. }
    rewrite Em in *. change (x' :: m ++ w :: nil) with ((x' :: m) ++ w :: nil).
    destruct (correct_last_shape b (x' :: m) w Hb) as (w' & -> & Hle & Hgt & Hw').
    assert (Hpos : 0 < w'). { destruct Hw' as [->| ->]; auto. }
    split.
    2:{ intros v Hv. apply in_app_or in Hv. destruct Hv as [[<-|Hv]|[<-|[]]]; auto; try lra. apply Hp. right. apply in_or_app. left. auto. }
    change (x :: m ++ w :: nil) with ((x :: m) ++ w :: nil) in Hs.
    assert (Hi : incr ((x :: m) ++ w :: nil)). { apply spaced_incr; auto. }
    apply incr_snoc_inv in Hi. destruct Hi as [Hi1 Hi2].
    assert (I1 : incr (x' :: m)).
    { destruct m as [|y' m]; [simpl; auto|]. split.
      - destruct Hs as [Hs _]. cbn [app] in Hs. destruct Hlt as [Hlt| ->]; simpl in *; nra.
      - destruct Hi1; auto. }
    apply incr_snoc; auto. intros l' z E.
    (* z is the last of x' :: m ; compare with w' *)
    assert (Z : exists z0, (exists q, x :: m = q ++ z0 :: nil) /\ 0 < z0 /\ z <= z0 * (1 + 1 / 10 ^ 10)).
    { destruct l' as [|c l'].
      - cbn [app] in E. injection E as <- ->. exists x. split; [exists nil; reflexivity|]. split; auto. destruct Hlt as [Hlt| ->]; simpl in *; nra.
      - injection E as <- ->. exists z. split; [exists (x :: l'); reflexivity|]. assert (0 < z). { apply Hp. right. apply in_or_app. left. apply in_or_app. right. left. auto. } split; auto. simpl; nra. }
    destruct Z as (z0 & (q & Eq) & Hz0 & Hz).
    assert (S : z0 * (1 + 1 / 10 ^ 9) < w).
    { assert (T : spaced (z0 :: w :: nil)). { rewrite Eq in Hs. rewrite <- app_assoc in Hs. apply spaced_app_r in Hs. exact Hs. } destruct T; auto. }
    destruct Hgt as [Hgt| ->]; simpl in *; nra.
Qed.
Lemma corrected_good s l : nonneg_dist s -> (forall v, In v l -> 0 < v) -> spaced l -> incr (corrected s l) /\ (forall v, In v (corrected s l) -> 0 < v).
Proof.
  intros (H0 & H1 & _) Hp Hs. destruct s; try (apply corrected_incr; auto). split; auto. apply spaced_incr; auto.
Qed.
Lemma correct_last_idem b l : correct_last b (correct_last b l) = correct_last b l.
Proof.
  destruct l as [|x l] using rev_ind; auto. rewrite correct_last_snoc. destruct (Rltb b x && _) eqn:E.
  - rewrite correct_last_snoc. rewrite (proj2 (Rltb_false b b)) by lra. reflexivity.
  - rewrite correct_last_snoc, E. reflexivity.
Qed.
Lemma bounds_idem a b l : a <= b -> correct_bounds a b (correct_bounds a b l) = correct_bounds a b l.
Proof.
  intros Hab. unfold correct_bounds. destruct l as [|x l]; auto. destruct (correct_first_shape a x l) as (x' & E & _ & _ & Hx'). rewrite E.
  destruct l as [|y l].
  - assert (N : correct_last b (x' :: nil) = (x' :: nil) \/ correct_last b (x' :: nil) = (b :: nil)).
    { change (x' :: nil) with (nil ++ x' :: nil) at 1 3. rewrite correct_last_snoc. cbn [app]. destruct (Rltb b x' && _); auto. }
    destruct N as [N|N]; rewrite N.
    + rewrite <- E at 1. rewrite correct_first_idem, E. exact N.
    + assert (F : correct_first a (b :: nil) = b :: nil). { unfold correct_first. rewrite (proj2 (Rltb_false b a)) by lra. reflexivity. }
      rewrite F. rewrite <- N. apply correct_last_idem.
  - destruct (@exists_last _ (y :: l) ltac:(discriminate)) as (m & w & Em). rewrite Em in *.
    change (x' :: m ++ w :: nil) with ((x' :: m) ++ w :: nil). rewrite correct_last_snoc. set (w' := if _ : bool then b else w).
    assert (F : correct_first a ((x' :: m) ++ w' :: nil) = (x' :: m) ++ w' :: nil).
    { cbn [app]. cbn [app] in E. pose proof (correct_first_idem a (x :: m ++ w :: nil)) as I. rewrite E in I. unfold correct_first in *.
      destruct (Rltb x' a && Rltb ((a - x') / x') (1 / 10 ^ 10)); auto. injection I as ->. reflexivity. }
    rewrite F. rewrite correct_last_snoc. f_equal. f_equal. unfold w'. destruct (Rltb b w && _) eqn:G.
    + rewrite (proj2 (Rltb_false b b)) by lra. reflexivity.
    + rewrite G. reflexivity.
Qed.
Lemma corrected_idem s l : gamma_min s <= gamma_max s -> corrected s (corrected s l) = corrected s l.
Proof. intros H. destruct s; try (apply bounds_idem; exact H). reflexivity. Qed.
