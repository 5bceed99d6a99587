(** Model of /repo/agnpy/emission_regions/blob.py.  Quantities are numbers in
    cgs units (angles in radians unless noted).  A value that is inf or nan in
    Python is [Err NonFinite]. *)
From Verif Require Import Base TEUtils NumpyInst MathUtils Conversion Spectra.

(** attributes of a Blob, blob.py L78-90 *)
Record blob := {
  R_b : R;
  redshift : R;
  d_L : R;
  delta_D : R;
  Gamma : R;
  B_field : R;
  n_e : spectrum;
  n_p_opt : option spectrum;     (* _n_p, None if there is none *)
  xi : R;
  gamma_e_size : nat;
  gamma_p_size : nat
}.

(** the delta_D argument: a number, or an object that is not a numbers.Number *)
(** the delta_D argument, blob.py L61-90 *)
Inductive num_arg : Type := Num (x : R) | NotNum.

(** Blob.__init__, L61-90.  [dist] is astropy's Distance(z=.., cosmology=..):
    any function, which may raise. *)
Definition blob_init (dist : R -> res R) (rb z : R) (dd : num_arg) (gam b : R) (ne : spectrum) (np : option spectrum)
    (x : R) (esize psize : nat) : res blob :=
  match dd with
  | NotNum => Err (ValueError "delta_D must be a positive number")
  | Num d =>
      if Rleb d 0 then Err (ValueError "delta_D must be a positive number")
      else
        let! dl := dist z in
        Ok {| R_b := rb; redshift := z; d_L := dl; delta_D := d; Gamma := gam; B_field := b; n_e := ne; n_p_opt := np;
              xi := x; gamma_e_size := esize; gamma_p_size := psize |}
  end.

(** np.sqrt: nan for negative arguments *)
Definition sqrt_res (x : R) : res R := if Rltb x 0 then Err NonFinite else Ok (sqrt x).

Section Blob.
Variable P : phys.

(** V_b, L93-95 *)
Definition V_b (b : blob) : R := 4 / 3 * PI * R_b b ^ 3.
(** t_var in seconds, L98-102 (the property converts it to days) *)
Definition t_var (b : blob) : R := (1 + redshift b) * R_b b / (c_c P * delta_D b).
(** Beta, L105-107 *)
Definition Beta (b : blob) : res R := let! i := div_res 1 (Gamma b ^ 2) in sqrt_res (1 - i).
(** mu_s, L110-112 *)
Definition mu_s (b : blob) : res R :=
  let! i := div_res 1 (Gamma b * delta_D b) in
  let! be := Beta b in
  div_res (1 - i) be.
(** theta_s in degrees, L115-117; arccos is nan outside [-1, 1] *)
Definition to_deg (x : R) : R := x * 180 / PI.
(** blob.py L115-117 *)
Definition theta_s (b : blob) : res R :=
  let! m := mu_s b in
  if Rltb m (-1) || Rltb 1 m then Err NonFinite else Ok (to_deg (acos m)).
(** B_cgs, L120-122 *)
Definition B_cgs (b : blob) : R := B_to_cgs (B_field b).

(** attribute assignment *)
(** blob.Gamma = g, an attribute assigned in blob.py L61-90 (also by set_delta_D, L124-137) *)
Definition set_Gamma (g : R) (b : blob) : blob :=
  {| R_b := R_b b; redshift := redshift b; d_L := d_L b; delta_D := delta_D b; Gamma := g; B_field := B_field b; n_e := n_e b;
     n_p_opt := n_p_opt b; xi := xi b; gamma_e_size := gamma_e_size b; gamma_p_size := gamma_p_size b |}.
(** blob.delta_D = d, an attribute assigned in blob.py L61-90 *)
Definition set_delta (d : R) (b : blob) : blob :=
  {| R_b := R_b b; redshift := redshift b; d_L := d_L b; delta_D := d; Gamma := Gamma b; B_field := B_field b; n_e := n_e b;
     n_p_opt := n_p_opt b; xi := xi b; gamma_e_size := gamma_e_size b; gamma_p_size := gamma_p_size b |}.
(** blob.R_b = r, an attribute assigned in blob.py L61-90 *)
Definition set_R_b (r : R) (b : blob) : blob :=
  {| R_b := r; redshift := redshift b; d_L := d_L b; delta_D := delta_D b; Gamma := Gamma b; B_field := B_field b; n_e := n_e b;
     n_p_opt := n_p_opt b; xi := xi b; gamma_e_size := gamma_e_size b; gamma_p_size := gamma_p_size b |}.
(** blob.z = z, an attribute assigned in blob.py L61-90 *)
Definition set_z (z : R) (b : blob) : blob :=
  {| R_b := R_b b; redshift := z; d_L := d_L b; delta_D := delta_D b; Gamma := Gamma b; B_field := B_field b; n_e := n_e b;
     n_p_opt := n_p_opt b; xi := xi b; gamma_e_size := gamma_e_size b; gamma_p_size := gamma_p_size b |}.
(** blob.B = x, an attribute assigned in blob.py L61-90 *)
Definition set_B (x : R) (b : blob) : blob :=
  {| R_b := R_b b; redshift := redshift b; d_L := d_L b; delta_D := delta_D b; Gamma := Gamma b; B_field := x; n_e := n_e b;
     n_p_opt := n_p_opt b; xi := xi b; gamma_e_size := gamma_e_size b; gamma_p_size := gamma_p_size b |}.
(** blob.d_L = d, an attribute assigned in blob.py L61-90 *)
Definition set_d_L (d : R) (b : blob) : blob :=
  {| R_b := R_b b; redshift := redshift b; d_L := d; delta_D := delta_D b; Gamma := Gamma b; B_field := B_field b; n_e := n_e b;
     n_p_opt := n_p_opt b; xi := xi b; gamma_e_size := gamma_e_size b; gamma_p_size := gamma_p_size b |}.
(** blob._gamma_e_size and _gamma_p_size, attributes assigned in blob.py L61-90 *)
Definition set_sizes (e p : nat) (b : blob) : blob :=
  {| R_b := R_b b; redshift := redshift b; d_L := d_L b; delta_D := delta_D b; Gamma := Gamma b; B_field := B_field b; n_e := n_e b;
     n_p_opt := n_p_opt b; xi := xi b; gamma_e_size := e; gamma_p_size := p |}.
(** blob.xi = x, an attribute assigned in blob.py L61-90 *)
Definition set_xi (x : R) (b : blob) : blob :=
  {| R_b := R_b b; redshift := redshift b; d_L := d_L b; delta_D := delta_D b; Gamma := Gamma b; B_field := B_field b; n_e := n_e b;
     n_p_opt := n_p_opt b; xi := x; gamma_e_size := gamma_e_size b; gamma_p_size := gamma_p_size b |}.
(** n_e setter, L171-174 *)
Definition set_n_e (s : spectrum) (b : blob) : blob :=
  {| R_b := R_b b; redshift := redshift b; d_L := d_L b; delta_D := delta_D b; Gamma := Gamma b; B_field := B_field b; n_e := s;
     n_p_opt := n_p_opt b; xi := xi b; gamma_e_size := gamma_e_size b; gamma_p_size := gamma_p_size b |}.
(** n_p setter, L184-187 *)
Definition set_n_p (s : spectrum) (b : blob) : blob :=
  {| R_b := R_b b; redshift := redshift b; d_L := d_L b; delta_D := delta_D b; Gamma := Gamma b; B_field := B_field b; n_e := n_e b;
     n_p_opt := Some s; xi := xi b; gamma_e_size := gamma_e_size b; gamma_p_size := gamma_p_size b |}.

(** set_delta_D, L124-137, [theta] in radians.  Gamma is assigned before the
    Doppler factor is computed, so it stays assigned if Beta is nan.  (A python
    division by zero raises ZeroDivisionError or gives inf depending on the
    scalar type; both are NonFinite here.) *)
Definition set_delta_D (gam theta : R) (b : blob) : blob * res unit :=
  let b1 := set_Gamma gam b in
  let ms := cos theta in
  match (let! be := Beta b1 in div_res 1 (Gamma b1 * (1 - be * ms))) with
  | Ok d => (set_delta d b1, Ok tt)
  | Err e => (b1, Err e)
  end.

(** gamma_e, L140-145 (0 < gamma_min assumed by the theorems) *)
Definition gamma_e (b : blob) : list R :=
  np_logspace (log10 (gamma_min (n_e b))) (log10 (gamma_max (n_e b))) (gamma_e_size b).
(** gamma_e_external_frame, L148-151 *)
Definition gamma_e_external_frame (b : blob) : list R := np_logspace 1 9 (gamma_e_size b).
(** n_p getter, L177-182 *)
Definition n_p (b : blob) : res spectrum := match n_p_opt b with Some s => Ok s | None => Err AttributeError end.
(** gamma_p, L154-164 *)
Definition gamma_p (b : blob) : res (list R) :=
  match n_p_opt b with
  | Some s => Ok (np_logspace (log10 (gamma_min s)) (log10 (gamma_max s)) (gamma_p_size b))
  | None => Err AttributeError
  end.

(** N_e, L210-219; N_p, L221-230 *)
Definition N_e (b : blob) (gs : list R) : list R := map (Rmult (V_b b)) (snd (evaluate (n_e b) gs)).
(** blob.py L221-230 *)
Definition N_p (b : blob) (gs : list R) : res (list R) := let! s := n_p b in Ok (map (Rmult (V_b b)) (snd (evaluate s gs))).

(** n_e_tot, L233-239: the call corrects a temporary array only *)
Definition n_e_tot (b : blob) : R := trapz (snd (evaluate (n_e b) (gamma_e b))) (gamma_e b).
(** n_p_tot, L242-248 *)
Definition n_p_tot (b : blob) : res R :=
  let! s := n_p b in let! g := gamma_p b in Ok (trapz (snd (evaluate s g)) g).
(** N_e_tot, L251-257; N_p_tot, L260-266 *)
Definition N_e_tot (b : blob) : R := V_b b * n_e_tot b.
(** blob.py L260-266 *)
Definition N_p_tot (b : blob) : res R := let! n := n_p_tot b in Ok (V_b b * n).
(** u_e, L269-275 *)
Definition u_e (b : blob) : R := mec2_erg P * trapz (map2 Rmult (gamma_e b) (snd (evaluate (n_e b) (gamma_e b)))) (gamma_e b).
(** u_p, L278-289: self.n_p raises AttributeError if there are no protons *)
Definition u_p (b : blob) : res R :=
  let! s := n_p b in
  let! g := gamma_p b in
  Ok (mpc2_erg P * trapz (map2 Rmult g (snd (evaluate s g))) g).
(** W_e, L292-298; W_p, L301-307 *)
Definition W_e (b : blob) : R := V_b b * u_e b.
(** blob.py L301-307 *)
Definition W_p (b : blob) : res R := let! u := u_p b in Ok (V_b b * u).
(** U_B, L310-317 *)
Definition U_B (b : blob) : R := B_cgs b ^ 2 / (8 * PI).
(** total particle energy density used by k_eq and P_jet_ke *)
(** u_e or u_e + u_p, blob.py L323-326 and L339-342 *)
Definition u_particles (b : blob) : res R :=
  match n_p_opt b with None => Ok (u_e b) | Some _ => let! up := u_p b in Ok (u_e b + up) end.
(** k_eq, L320-326 *)
Definition k_eq (b : blob) : res R := let! u := u_particles b in div_res u (U_B b).
(** P_jet_ke, L329-341; P_jet_B, L344-353 *)
Definition P_jet_prefactor (b : blob) : res R :=
  let! be := Beta b in Ok (2 * PI * R_b b ^ 2 * be * Gamma b ^ 2 * c_c P).
(** blob.py L329-342 *)
Definition P_jet_ke (b : blob) : res R := let! f := P_jet_prefactor b in let! u := u_particles b in Ok (f * u).
(** blob.py L344-353 *)
Definition P_jet_B (b : blob) : res R := let! f := P_jet_prefactor b in Ok (f * U_B b).
(** u_ph_synch, L356-389 *)
Definition u_ph_synch (b : blob) : R :=
  c_sigmaT P * U_B b * R_b b * trapz (map2 (fun g n => g ^ 2 * n) (gamma_e b) (snd (evaluate (n_e b) (gamma_e b)))) (gamma_e b).
(** evaluate_u_ph_synch_diff, L395-404, at one epsilon' *)
Definition evaluate_u_ph_synch_diff (rb dl dd eps sed : R) : R := (3 * dl ^ 2 * sed) / (c_c P * rb ^ 2 * dd ^ 4 * eps) * (3 / 4).
(** u_ph_synch_diff, L391-393 *)
Definition u_ph_synch_diff (b : blob) (eps sed : list R) : list R := map2 (evaluate_u_ph_synch_diff (R_b b) (d_L b) (delta_D b)) eps sed.
End Blob.
