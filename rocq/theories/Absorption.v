(** Model of /repo/agnpy/absorption/targets_absorption.py.  Each opacity is
    computed point by point, in the order of the integrations of the code.  A
    grid point at zero distance from the emitting element makes the code's
    integrand nan and with it the whole opacity: [Err NonFinite]. *)
From Verif Require Import Base TEUtils NumpyInst MathUtils Conversion Spectra Blob Synchrotron Geometry Targets.
From Coq Require Import String List.
Import ListNotations.
Open Scope string_scope.
Open Scope R_scope.

Section Absorption.
Variable P : phys.

(** sigma, L34-42.  For s < 1 the square root is nan and the value is then set to 0. *)
Definition sigma (s : R) : R :=
  if Rltb s 1 then 0 else
  let beta_cm := sqrt (1 - 1 / s) in
  let prefactor := 3 / 16 * c_sigmaT P * (1 - beta_cm ^ 2) in
  let term1 := (3 - beta_cm ^ 4) * clog ((1 + beta_cm) / (1 - beta_cm)) in
  let term2 := - (2) * beta_cm * (2 - beta_cm ^ 2) in
  prefactor * (term1 + term2).

(** nu_to_epsilon_prime(nu, z) with the default delta_D = 1 *)
(** nu_to_epsilon_prime(nu, z), e.g. targets_absorption.py L88-118 *)
Definition eps_1 (nu z : R) : R := nu_to_epsilon_prime P nu z 1 Electron.

(** evaluate_tau_ps_behind_blob, L88-118 (r = 0 is a division by zero) *)
Definition tau_ps_behind_blob (nu : list R) (z mu_s epsilon_0 L_0 r : R) : list R :=
  map (fun n =>
    let s := epsilon_0 * eps_1 n z * (1 - mu_s) / 2 in
    let integral := (1 - mu_s) * sigma s / r in
    L_0 / (4 * PI * epsilon_0 * c_me P * c_c P ^ 3) * integral) nu.

(** evaluate_tau_ps_behind_blob_mu_s, L128-173 *)
Definition tau_ps_behind_blob_mu_s (nu : list R) (z mu_s epsilon_0 L_0 r : R) (u_size : nat) : res (list R) :=
  let uu := map (fun x => x * r) (np_logspace (- (5)) 5 u_size) in
  let x u := sqrt (r * r + u * u + 2 * u * r * mu_s) in
  if existsb (fun u => Reqb (x u) 0) uu then Err NonFinite else
  Ok (map (fun n =>
    let integrand u :=
      let mu := (r + u * mu_s) / x u in
      let c := cos_psi mu_s mu 0 in
      let s := eps_1 n z * epsilon_0 * (1 - c) / 2 in
      (1 - c) / x u ^ 2 * sigma s in
    let integral := trapz (map integrand uu) uu in
    L_0 / (4 * PI * epsilon_0 * c_me P * c_c P ^ 3) * integral) nu).

(** evaluate_tau_ss_disk, L183-264 *)
Definition tau_ss_disk (nu : list R) (z mu_s M_BH L_disk eta R_in R_out r : R) (R_tilde_size l_tilde_size : nat) (phi : list R) : list R :=
  let Rg := c_G P * M_BH / c_c P ^ 2 in
  let r_tilde := to_R_g_units P r M_BH in
  let R_in_tilde := to_R_g_units P R_in M_BH in
  let R_out_tilde := to_R_g_units P R_out M_BH in
  let Rt := linspace R_in_tilde R_out_tilde R_tilde_size in
  let lt := map (fun x => x * r_tilde) (np_logspace 0 5 l_tilde_size) in
  map (fun n =>
    let integrand l p R_ :=
      let epsilon := evaluate_epsilon L_disk M_BH eta R_ in
      let phi_disk := 1 - sqrt (R_in_tilde / R_) in
      let mu := npow (1 + R_ ^ 2 / l ^ 2) (- (1) / 2) in
      let c := cos_psi mu_s mu p in
      let s := epsilon * eps_1 n z * (1 - c) / 2 in
      1 / l ^ 2 / R_ ^ 2 / npow (1 + R_ ^ 2 / l ^ 2) (3 / 2) * phi_disk / epsilon * sigma s * (1 - c) in
    let integral_R l p := trapz (map (integrand l p) Rt) Rt in
    let integral_phi l := trapz (map (integral_R l) phi) phi in
    let integral := trapz (map integral_phi lt) lt in
    3 * L_disk / ((4 * PI) ^ 2 * eta * c_me P * c_c P ^ 3 * Rg) * integral) nu.

(** np.isclose(x, R_line, rtol=min_rel_distance): atol = 1e-8 in the unit of x, here cm *)
Definition isclose_line (x R_line : R) : bool := Rleb (Rabs (x - R_line)) (1 / 10 ^ 8 + min_rel_distance * Rabs R_line).
(** l[idx] += min_rel_distance * R_line *)
(** targets_absorption.py L338 and L411 *)
Definition moved (idx : bool) (R_line l : R) : R := if idx then l + min_rel_distance * R_line else l.

(** the path of evaluate_tau_blr, L333-338 *)
Definition blr_path (R_line r : R) (l_size : nat) : list R :=
  map (fun l => moved (isclose_line l R_line) R_line l) (map (fun x => x * r) (np_logspace 0 5 l_size)).
(** evaluate_tau_blr, L285-353 *)
Definition tau_blr (nu : list R) (z mu_s L_disk xi_line epsilon_line R_line r : R) (l_size : nat) (mu phi : list R) : res (list R) :=
  let l := blr_path R_line r l_size in
  if existsb (fun m => existsb (fun li => Reqb (x_re_shell m R_line li) 0) l) mu then Err NonFinite else
  Ok (map (fun n =>
    let integrand li p m :=
      let x := x_re_shell m R_line li in
      let c := cos_psi mu_s (mu_star_shell m R_line li) p in
      let s := eps_1 n z * epsilon_line * (1 - c) / 2 in
      (1 - c) / x ^ 2 * sigma s in
    let integral_mu li p := trapz (map (integrand li p) mu) mu in
    let integral_phi li := trapz (map (integral_mu li) phi) phi in
    let integral := trapz (map integral_phi l) l in
    L_disk * xi_line / ((4 * PI) ^ 2 * epsilon_line * c_me P * c_c P ^ 3) * integral) nu).

(** np.sort *)
Fixpoint insert_sorted (x : R) (l : list R) : list R :=
  match l with [] => [x] | y :: l' => if Rleb x y then x :: l else y :: insert_sorted x l' end.
(** np.sort, targets_absorption.py L414 *)
Definition np_sort (l : list R) : list R := fold_right insert_sorted [] l.
(** the path of evaluate_tau_blr_mu_s, L405-414 *)
Definition blr_path_mu_s (R_line r mu_s : R) (u_size : nat) : list R :=
  let uu := map (fun x => x * r) (np_logspace (- (5)) 5 u_size) in
  let idx u := isclose_line (sqrt (r ^ 2 + u ^ 2 + 2 * u * r * mu_s)) R_line in
  if existsb idx uu then np_sort (map (fun u => moved (idx u) R_line u) uu) else uu.
(** evaluate_tau_blr_mu_s, L356-436 *)
Definition tau_blr_mu_s (nu : list R) (z mu_s L_disk xi_line epsilon_line R_line r : R) (u_size : nat) (mu phi : list R) : res (list R) :=
  let uu := blr_path_mu_s R_line r mu_s u_size in
  if existsb (fun m => existsb (fun p => existsb (fun u => Reqb (x_re_shell_mu_s R_line r p m u mu_s) 0) uu) phi) mu then Err NonFinite else
  Ok (map (fun n =>
    let integrand u p m :=
      let x := x_re_shell_mu_s R_line r p m u mu_s in
      let pm := phi_mu_re_shell R_line r p m u mu_s in
      let c := cos_psi mu_s (snd pm) (fst pm) in
      let s := eps_1 n z * epsilon_line * (1 - c) / 2 in
      (1 - c) / x ^ 2 * sigma s in
    let integral_mu u p := trapz (map (integrand u p) mu) mu in
    let integral_phi u := trapz (map (integral_mu u) phi) phi in
    let integral := trapz (map integral_phi uu) uu in
    L_disk * xi_line / ((4 * PI) ^ 2 * epsilon_line * c_me P * c_c P ^ 3) * integral) nu).

(** evaluate_tau_dt, L475-532 *)
Definition tau_dt (nu : list R) (z mu_s L_disk xi_dt epsilon_dt R_dt r : R) (l_size : nat) (phi : list R) : list R :=
  let l := map (fun x => x * r) (np_logspace 0 5 l_size) in
  map (fun n =>
    let integrand li p :=
      let x := x_re_ring R_dt li in
      let mu := li / x in
      let c := cos_psi mu_s mu p in
      let s := eps_1 n z * epsilon_dt * (1 - c) / 2 in
      (1 - c) / x ^ 2 * sigma s in
    let integral_phi li := trapz (map (integrand li) phi) phi in
    let integral := trapz (map integral_phi l) l in
    L_disk * xi_dt / (8 * PI ^ 2 * epsilon_dt * c_me P * c_c P ^ 3) * integral) nu.

(** evaluate_tau_dt_mu_s, L535-597 *)
Definition tau_dt_mu_s (nu : list R) (z mu_s L_disk xi_dt epsilon_dt R_dt r : R) (u_size : nat) (phi_re : list R) : res (list R) :=
  let uu := map (fun x => x * r) (np_logspace (- (5)) 5 u_size) in
  if existsb (fun p => existsb (fun u => Reqb (x_re_ring_mu_s R_dt r p u mu_s) 0) uu) phi_re then Err NonFinite else
  Ok (map (fun n =>
    let integrand u p :=
      let x := x_re_ring_mu_s R_dt r p u mu_s in
      let pm := phi_mu_re_ring R_dt r p u mu_s in
      let c := cos_psi mu_s (snd pm) (fst pm) in
      let s := eps_1 n z * epsilon_dt * (1 - c) / 2 in
      (1 - c) / x ^ 2 * sigma s in
    let integral_phi u := trapz (map (integrand u) phi_re) phi_re in
    let integral := trapz (map integral_phi uu) uu in
    L_disk * xi_dt / (8 * PI ^ 2 * epsilon_dt * c_me P * c_c P ^ 3) * integral) nu).

(** tau_on_synchrotron, L629-694, with the default nu_s_size = 200 and delta_margin_low = 1e-2 *)
Definition tau_on_synchrotron (b : blob) (nu : list R) : res (list R) :=
  let nu_s_min := nu_synch_peak P (B_field b) (gamma_min (n_e b)) (c_me P) * (1 / 10 ^ 2) in
  let nu_s_max := nu_synch_peak P (B_field b) (gamma_max (n_e b)) (c_me P) * 10 ^ 2 in
  let nu_s := np_logspace (log10 nu_s_min) (log10 nu_s_max) 200 in
  let nu_s_obs := map (fun n => n * delta_D b / (1 + redshift b)) nu_s in
  let epsilon := map (fun n => nu_to_epsilon_prime P n (redshift b) (delta_D b) Electron) nu_s_obs in
  let! sed_synch := synch_sed_flux P {| sy_blob := b; sy_ssa := true; sy_integ := trapz |} nu_s_obs in
  let n_synch := map2 (fun f e => (3 * d_L b ^ 2 * f) / (c_c P * R_b b ^ 2 * delta_D b ^ 4 * e ^ 2 * c_me P * c_c P ^ 2) * (3 / 4)) sed_synch epsilon in
  Ok (map (fun n =>
    let e1 := nu_to_epsilon_prime P n (redshift b) (delta_D b) Electron in
    2 * R_b b * trapz (map2 (fun v e => v * sigma (e * e1 / 2)) n_synch epsilon) epsilon) nu).

(** Absorption.__init__, L59-73, and the set_* methods, L75-86 *)
Record absorber := { ab_target : target; ab_r : option R; ab_z : R; ab_mu_s : R; ab_mu_size : nat; ab_phi_size : nat; ab_l_size : nat }.
(** targets_absorption.py L59-73 *)
Definition absorption_init (t : target) (r : option R) (z mu_s : R) : res absorber :=
  let a := {| ab_target := t; ab_r := r; ab_z := z; ab_mu_s := mu_s; ab_mu_size := 100; ab_phi_size := 50; ab_l_size := 50 |} in
  match r, t with
  | Some _, _ => Ok a
  | None, TBlob _ => Ok a
  | None, _ => Err (ValueError "No distance provided for absorption on ..., this can be only done for Blob class")
  end.
(** set_mu, targets_absorption.py L75-77 *)
Definition ab_mu (a : absorber) : list R := linspace (-1) 1 (ab_mu_size a).
(** set_phi, targets_absorption.py L79-82 *)
Definition ab_phi (a : absorber) : list R := linspace 0 (2 * PI) (ab_phi_size a).
(** self.r as used by the methods listed at [tau] *)
Definition ab_the_r (a : absorber) : res R := match ab_r a with Some r => Ok r | None => Err (TypeError "r is None") end.

(** tau, L696-730, with the methods tau_ps_behind_blob (L120-126),
    tau_ps_behind_blob_mu_s (L175-180), tau_ss_disk (L266-283), tau_blr
    (L438-454), tau_blr_mu_s (L456-473), tau_dt (L599-612), tau_dt_mu_s
    (L614-627).  [None]: no branch returns, the method gives None. *)
Definition tau (a : absorber) (nu : list R) : res (option (list R)) :=
  let z := ab_z a in let ms := ab_mu_s a in
  match ab_target a with
  | TBlob b => let! t := tau_on_synchrotron b nu in Ok (Some t)
  | tg =>
      if Reqb ms 1 then
        match tg with
        | TPointSource t => let! r := ab_the_r a in Ok (Some (tau_ps_behind_blob nu z ms (ps_epsilon_0 t) (ps_L_0 t) r))
        | TDisk t => let! r := ab_the_r a in
            Ok (Some (tau_ss_disk nu z ms (sd_M_BH t) (sd_L_disk t) (sd_eta t) (sd_R_in t) (sd_R_out t) r 100 (ab_l_size a) (ab_phi a)))
        | TBLR t => let! r := ab_the_r a in
            let! v := tau_blr nu z ms (blr_L_disk t) (blr_xi t) (blr_epsilon t) (blr_R_line t) r (ab_l_size a) (ab_mu a) (ab_phi a) in Ok (Some v)
        | TDustTorus t => let! r := ab_the_r a in
            Ok (Some (tau_dt nu z ms (dt_L_disk t) (dt_xi t) (dt_epsilon t) (dt_R t) r (ab_l_size a) (ab_phi a)))
        | _ => Ok None
        end
      else
        match tg with
        | TPointSource t => let! r := ab_the_r a in
            let! v := tau_ps_behind_blob_mu_s nu z ms (ps_epsilon_0 t) (ps_L_0 t) r 100 in Ok (Some v)
        | TBLR t => let! r := ab_the_r a in
            let! v := tau_blr_mu_s nu z ms (blr_L_disk t) (blr_xi t) (blr_epsilon t) (blr_R_line t) r (2 * ab_l_size a) (ab_mu a) (ab_phi a) in Ok (Some v)
        | TDustTorus t => let! r := ab_the_r a in
            let! v := tau_dt_mu_s nu z ms (dt_L_disk t) (dt_xi t) (dt_epsilon t) (dt_R t) r (2 * ab_l_size a) (ab_phi a) in Ok (Some v)
        | _ => Ok None
        end
  end.
(** absorption, L732-736; negating None raises TypeError *)
Definition absorption (a : absorber) (nu : list R) : res (list R) :=
  let! t := tau a nu in
  match t with Some t => Ok (map (fun x => exp (- x)) t) | None => Err (TypeError "bad operand type for unary -: 'NoneType'") end.
(** absorption_homogeneous, L738-747; 0 / 0 is nan ([None]) at the frequencies without opacity *)
Definition absorption_homogeneous (a : absorber) (nu : list R) : res (list (option R)) :=
  let! t := tau a nu in
  match t with
  | Some t => Ok (map (fun x => if Reqb x 0 then None else Some ((1 - exp (- x)) / x)) t)
  | None => Err (TypeError "bad operand type for unary -: 'NoneType'")
  end.
End Absorption.
