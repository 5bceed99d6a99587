(** C67: constructors validate their inputs *)
From Verif Require Import Base TEUtils ListFacts NumpyInst MathUtils Conversion Spectra Blob Synchrotron Geometry Targets Absorption EBL SpectraFacts.
From Coq Require Import String List.
Import ListNotations.
Open Scope string_scope.
Open Scope list_scope.
Open Scope R_scope.

(** Blob: a positive number, nothing else; what is stored is what was given *)
Theorem C67_blob : forall dist rb z dd gam b ne np x es ps,
  ((exists d, dd = Num d /\ 0 < d) <-> exists f, blob_init dist rb z dd gam b ne np x es ps = (let! dl := dist z in Ok (f dl)) /\
     forall dl, delta_D (f dl) = (match dd with Num d => d | NotNum => 0 end) /\ d_L (f dl) = dl /\ R_b (f dl) = rb /\ redshift (f dl) = z /\ Gamma (f dl) = gam /\ B_field (f dl) = b /\
       n_e (f dl) = ne /\ n_p_opt (f dl) = np /\ xi (f dl) = x /\ gamma_e_size (f dl) = es /\ gamma_p_size (f dl) = ps /\ 0 < delta_D (f dl)) /\
  (~ (exists d, dd = Num d /\ 0 < d) -> exists m, blob_init dist rb z dd gam b ne np x es ps = Err (ValueError m)).
Proof.
  intros dist rb z dd gam b ne np x es ps. split; [split|].
  - intros (d & -> & Hd). unfold blob_init. destruct (Rleb_spec d 0) as [H|H]; [lra|].
    exists (fun dl => {| R_b := rb; redshift := z; d_L := dl; delta_D := d; Gamma := gam; B_field := b; n_e := ne; n_p_opt := np; xi := x; gamma_e_size := es; gamma_p_size := ps |}).
    split; [reflexivity|]. intros dl. repeat split; auto.
  - intros (f & _ & H). destruct (H 0) as (A & _ & _ & _ & _ & _ & _ & _ & _ & _ & _ & B). destruct dd as [d|]; [exists d; split; auto; lra|lra].
  - intros H. unfold blob_init. destruct dd as [d|]; [|eexists; reflexivity]. destruct (Rleb_spec d 0) as [K|K]; [eexists; reflexivity|]. exfalso. apply H. exists d. split; auto. lra.
Qed.
Print Assumptions C67_blob.

(** proton quantities: AttributeError exactly when the blob has no protons *)
Theorem C67_protons : forall P b gs integ nu, (n_p_opt b = None ->
    n_p b = Err AttributeError /\ gamma_p b = Err AttributeError /\ N_p b gs = Err AttributeError /\ n_p_tot b = Err AttributeError /\ N_p_tot b = Err AttributeError /\
    u_p P b = Err AttributeError /\ W_p P b = Err AttributeError /\ proton_sed_flux P b integ nu = Err AttributeError /\ proton_sed_luminosity P b integ nu = Err AttributeError) /\
  (n_p_opt b <> None -> exists s g n t T u W f L,
    n_p b = Ok s /\ gamma_p b = Ok g /\ N_p b gs = Ok n /\ n_p_tot b = Ok t /\ N_p_tot b = Ok T /\
    u_p P b = Ok u /\ W_p P b = Ok W /\ proton_sed_flux P b integ nu = Ok f /\ proton_sed_luminosity P b integ nu = Ok L).
Proof.
  intros P b gs integ nu. unfold proton_sed_luminosity, proton_sed_flux, W_p, u_p, N_p_tot, n_p_tot, N_p, gamma_p, n_p. destruct (n_p_opt b) as [s|]; split; intros H; try discriminate; try congruence.
  - cbn [bind]. do 9 eexists. repeat split; reflexivity.
  - repeat split; reflexivity.
Qed.
Print Assumptions C67_protons.

(** SphericalShellBLR: the line has to be in the dictionary *)
Lemma lookup_in l d : (exists x, lookup_line l d = Some x) <-> In l (map fst d).
Proof.
  induction d as [|[k x] d IH]; simpl. { split; [intros (x & H); discriminate|tauto]. }
  destruct (String.eqb_spec k l) as [->|H]. { split; [auto|intros _; eexists; reflexivity]. }
  rewrite IH. split; [auto|]. intros [E|E]; [contradiction|auto].
Qed.
Theorem C67_blr : forall P L x line Rl,
  (In line (map fst lines_dictionary) -> exists t, blr_init P L x line Rl = Ok t /\ blr_L_disk t = L /\ blr_xi t = x /\ blr_line t = line /\ blr_R_line t = Rl /\ lookup_line line lines_dictionary = Some (blr_lambda t)) /\
  (~ In line (map fst lines_dictionary) -> blr_init P L x line Rl = Err NameError).
Proof.
  intros P L x line Rl. unfold blr_init. split; intros H.
  - apply lookup_in in H. destruct H as [lam ->]. eexists. split; [reflexivity|]. repeat split.
  - destruct (lookup_line line lines_dictionary) as [lam|] eqn:E; auto. exfalso. apply H, lookup_in. exists lam. auto.
Qed.
Print Assumptions C67_blr.

(** SSDisk: both radii plain numbers with R_g_units, both quantities without *)
Definition consistent_radii (R_g_units : bool) (a b : radius_arg) : Prop :=
  match a, b with Plain _, Plain _ => R_g_units = true | Quantity _, Quantity _ => R_g_units = false | _, _ => False end.
Theorem C67_ssdisk : forall P M L eta ri ro units,
  (consistent_radii units ri ro -> exists d, ssdisk_init P M L eta ri ro units = Ok d /\ sd_M_BH d = M /\ sd_L_disk d = L /\ sd_eta d = eta) /\
  (~ consistent_radii units ri ro -> exists m, ssdisk_init P M L eta ri ro units = Err (TypeError m)).
Proof.
  intros P M L eta ri ro units. unfold ssdisk_init. cbv zeta. destruct units, ri, ro; simpl; split; intros H; try tauto; try discriminate; try (exfalso; apply H; reflexivity);
    first [eexists; split; [reflexivity|repeat split] | eexists; reflexivity].
Qed.
Print Assumptions C67_ssdisk.

(** EBL: one of the five names *)
Theorem C67_ebl : forall m lo hi z v, ~ In m ["franceschini_2008"; "franceschini_2017"; "dominguez_2011"; "finke_2010"; "saldana_lopez_2021"] ->
  exists e, ebl_init m lo hi z v = Err (ValueError e).
Proof.
  intros m lo hi z v H. unfold ebl_init. destruct (existsb (String.eqb m) ebl_models) eqn:E; [|eexists; reflexivity].
  exfalso. apply H. apply existsb_exists in E. destruct E as (k & Hk & Ek). apply String.eqb_eq in Ek. subst. exact Hk.
Qed.
Print Assumptions C67_ebl.
Theorem C67_ebl_accepts : forall m lo hi z v, In m ["franceschini_2017"; "dominguez_2011"; "finke_2010"; "saldana_lopez_2021"] ->
  strictly_ascending (map2 (fun a b => sqrt (a * b)) lo hi) = true -> strictly_ascending z = true -> length v = length z ->
  (forall row, In row v -> length row = length (map2 (fun a b => sqrt (a * b)) lo hi)) ->
  exists t, ebl_init m lo hi z v = Ok t /\ ebl_model t = m /\ ebl_z t = z /\ ebl_values t = v.
Proof.
  intros m lo hi z v Hm H1 H2 H3 H4. unfold ebl_init.
  assert (E : existsb (String.eqb m) ebl_models = true). { apply existsb_exists. exists m. split; [|apply String.eqb_refl]. right. exact Hm. }
  assert (F : String.eqb m "franceschini_2008" = false). { simpl in Hm. destruct Hm as [<-|[<-|[<-|[<-|[]]]]]; reflexivity. }
  rewrite E, F. cbn [negb bind fst snd]. rewrite H1, H2, (proj2 (Nat.eqb_eq _ _) H3). cbn [andb].
  replace (forallb (fun row => Nat.eqb (length row) (length (map2 (fun a b => sqrt (a * b)) lo hi))) v) with true.
  - eexists. split; [reflexivity|]. repeat split.
  - symmetry. apply forallb_forall. intros row Hr. apply Nat.eqb_eq. auto.
Qed.
Print Assumptions C67_ebl_accepts.

(** particle distributions: electrons or protons *)
Theorem C67_mass : forall sh k a b m, ((forall x, m <> MassOther x) -> exists p, construct sh k a b m = Ok (build sh k a b, p) /\ (p = Electron <-> m = MassElectron)) /\
  (forall x, m = MassOther x -> exists e, construct sh k a b m = Err (ValueError e)).
Proof.
  intros sh k a b m. unfold construct, check_mass. split.
  - intros H. destruct m as [| |x]; [exists Electron|exists Proton|exfalso; apply (H x); reflexivity]; split; try reflexivity; split; intros; try reflexivity; discriminate.
  - intros x ->. eexists. reflexivity.
Qed.
Print Assumptions C67_mass.
Theorem C67_mass_builders : forall P sh x n V gmin gmax, (exists e, from_total_density n (MassOther x) sh gmin gmax = Err e) /\
  (exists e, from_total_energy_density P n (MassOther x) sh gmin gmax = Err e) /\ (exists e, from_total_energy P n V (MassOther x) sh gmin gmax = Err e) /\
  (forall a b, exists e, from_density_at_gamma_1 n (MassOther x) sh a b = Err e).
Proof.
  intros P sh x n V gmin gmax.
  assert (T : forall A (r : res R) (f : R -> res A), (forall k, exists e, f k = Err e) -> exists e, bind r f = Err e).
  { intros A r f H. destruct r as [k|e]; cbn [bind]; [apply H|eexists; reflexivity]. }
  assert (C : forall k a b, exists e, construct sh k a b (MassOther x) = Err e) by (intros; eexists; reflexivity).
  assert (U : exists e, from_total_energy_density P n (MassOther x) sh gmin gmax = Err e).
  { unfold from_total_energy_density. destruct gmin as [a|], gmax as [b|]; try (eexists; reflexivity). cbv zeta. apply T. auto. }
  split; [|split; [exact U|split]].
  - unfold from_total_density. destruct gmin as [a|], gmax as [b|]; try (eexists; reflexivity). apply T. auto.
  - unfold from_total_energy. apply T. intros u. unfold from_total_energy_density. destruct gmin as [a|], gmax as [b|]; try (eexists; reflexivity). cbv zeta. apply T. auto.
  - intros a b. unfold from_density_at_gamma_1. apply T. auto.
Qed.
Print Assumptions C67_mass_builders.
(** tabulated distributions: also the unit of the densities, and a table with entries *)
Theorem C67_interpolated : forall mk gs ns unit norm m, (exists s, interpolated_init mk gs ns unit norm m = Ok s) ->
  gs <> [] /\ unit = true /\ forall x, m <> MassOther x.
Proof.
  intros mk gs ns unit norm m (s & H). unfold interpolated_init in H. destruct gs as [|g gs]; [discriminate|]. split; [discriminate|].
  destruct m as [| |x]; cbn [check_mass bind] in H; try discriminate; (destruct unit; cbn [negb] in H; [|discriminate]); split; auto; intros y; discriminate.
Qed.
Print Assumptions C67_interpolated.

(** Absorption: r is optional for a blob only *)
Theorem C67_absorption : forall t r z ms, (exists a, absorption_init t r z ms = Ok a) <-> (r <> None \/ exists b, t = TBlob b).
Proof.
  intros t r z ms. unfold absorption_init. split.
  - intros (a & H). destruct r as [h|]; [left; discriminate|]. destruct t; try discriminate. right. eexists. reflexivity.
  - intros [H|[b ->]]; destruct r as [h|]; try congruence; eexists; reflexivity.
Qed.
Print Assumptions C67_absorption.

(** cases on both sides *)
Example C67_case_blob : (exists b, blob_init (fun _ => Ok 1e27) 1e16 0.1 (Num 10) 10 1 (PowerLaw 1 2 10 1e5) None 1 200 200 = Ok b /\ delta_D b = 10 /\ n_p_opt b = None) /\
  (exists m, blob_init (fun _ => Ok 1e27) 1e16 0.1 (Num (-10)) 10 1 (PowerLaw 1 2 10 1e5) None 1 200 200 = Err (ValueError m)).
Proof.
  split.
  - unfold blob_init. destruct (Rleb_spec 10 0) as [H|H]; [lra|]. cbn [bind]. eexists. repeat split.
  - apply (proj2 (C67_blob (fun _ => Ok 1e27) 1e16 0.1 (Num (-10)) 10 1 (PowerLaw 1 2 10 1e5) None 1 200 200)). intros (d & E & H). injection E as <-. lra.
Qed.
Example C67_case_lines : In "Halpha" (map fst lines_dictionary) /\ ~ In "Lya" (map fst lines_dictionary).
Proof. split; [simpl; tauto|]. intros H. simpl in H. repeat destruct H as [H|H]; try discriminate; auto. Qed.
Example C67_case_radii : consistent_radii true (Plain 6) (Plain 200) /\ ~ consistent_radii false (Plain 6) (Quantity 200).
Proof. split; simpl; auto. Qed.
