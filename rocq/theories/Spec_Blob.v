(** Vocabulary of the statements about blobs. *)
From Verif Require Import Base MathUtils Conversion Spectra Blob.

(** Doppler factor 1 / (Gamma (1 - beta cos theta)) with beta from Gamma^2 (1 - beta^2) = 1 *)
Definition doppler (gam theta : R) : R := / (gam * (1 - sqrt (1 - / gam ^ 2) * cos theta)).

(** the things a user can do to a blob after constructing it *)
Inductive update : Type :=
| AssignR_b (r : R) | AssignZ (z : R) | AssignDelta (d : R) | AssignGamma (g : R) | AssignB (x : R)
| AssignN_e (s : spectrum) | AssignN_p (s : spectrum) | AssignXi (x : R) | AssignSizes (e p : nat)
| CallSetDeltaD (gam theta : R).
Definition do_update (u : update) (b : blob) : blob :=
  match u with
  | AssignR_b r => set_R_b r b
  | AssignZ z => set_z z b
  | AssignDelta d => set_delta d b
  | AssignGamma g => set_Gamma g b
  | AssignB x => set_B x b
  | AssignN_e s => set_n_e s b
  | AssignN_p s => set_n_p s b
  | AssignXi x => set_xi x b
  | AssignSizes e p => set_sizes e p b
  | CallSetDeltaD g t => fst (set_delta_D g t b)
  end.
Definition do_updates (us : list update) (b : blob) : blob := fold_left (fun b u => do_update u b) us b.

(** value of an attribute after the updates: the last one assigned, or the initial one *)
Definition current {A : Type} (sel : update -> option A) (us : list update) (init : A) : A :=
  fold_left (fun a u => match sel u with Some x => x | None => a end) us init.
Definition sel_R_b u := match u with AssignR_b r => Some r | _ => None end.
Definition sel_z u := match u with AssignZ z => Some z | _ => None end.
Definition sel_delta u := match u with AssignDelta d => Some d | CallSetDeltaD g t => Some (doppler g t) | _ => None end.
Definition sel_Gamma u := match u with AssignGamma g => Some g | CallSetDeltaD g _ => Some g | _ => None end.
Definition sel_B u := match u with AssignB x => Some x | _ => None end.
Definition sel_n_e u := match u with AssignN_e s => Some s | _ => None end.
Definition sel_n_p u := match u with AssignN_p s => Some (Some s) | _ => None end.
Definition sel_xi u := match u with AssignXi x => Some x | _ => None end.
Definition sel_esize u := match u with AssignSizes e _ => Some e | _ => None end.
Definition sel_psize u := match u with AssignSizes _ p => Some p | _ => None end.
(** calls of set_delta_D with a proper Lorentz factor *)
Definition proper_calls (us : list update) : Prop := forall g t, In (CallSetDeltaD g t) us -> 1 < g.
(** a distribution with positive support and non-negative density on it *)
Definition proper_dist (s : spectrum) : Prop := 0 < gamma_min s /\ gamma_min s < gamma_max s /\ forall g, 0 <= density s g.
