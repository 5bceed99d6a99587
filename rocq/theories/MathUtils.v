(** Model of /repo/agnpy/utils/math.py.  Arrays are lists of reals. *)
From Verif Require Import Base NumpyInst.

(** np.linspace(a, b, n), n >= 2 *)
Definition linspace (a b : R) (n : nat) : list R :=
  map (fun i => a + INR i * ((b - a) / INR (n - 1))) (seq 0 n).
(** np.logspace(a, b, n): 10**np.linspace(a, b, n) *)
Definition np_logspace (a b : R) (n : nat) : list R := map pow10 (linspace a b n).

(** math.py L6-9 *)
Definition gamma_e_to_integrate : list R := np_logspace 1 9 200.
(** math.py L7, in Hz *)
Definition nu_to_integrate : list R := np_logspace 5 30 200.
(** math.py L8 *)
Definition mu_to_integrate : list R := linspace (-1) 1 100.
(** math.py L9 *)
Definition phi_to_integrate : list R := linspace 0 (2 * PI) 50.

(** math.py L12 *)
Definition min_rel_distance : R := 1 / 10 ^ 4.
(** math.py L14-19: smallest positive normal and largest float64 *)
Definition ftiny : R := / 2 ^ 1022.
(** math.py L18-19 *)
Definition fmax : R := (2 - / 2 ^ 52) * 2 ^ 1023.

(** np.trapz(y, x) for arrays of equal length (numpy raises otherwise; every
    call of the code evaluates y on x): sum of (x_{i+1}-x_i)(y_i+y_{i+1})/2 *)
Fixpoint trapz (y x : list R) : R :=
  match y, x with
  | y0 :: y', x0 :: x' =>
      match y', x' with
      | y1 :: _, x1 :: _ => (x1 - x0) * (y0 + y1) / 2 + trapz y' x'
      | _, _ => 0
      end
  | _, _ => 0
  end.

(** log, math.py L49-52: np.log(np.clip(x, ftiny, fmax)) *)
Definition clog (x : R) : R := ln (Rmin (Rmax x ftiny) fmax).

(** np.power(x, m) for x > 0 *)
Definition npow (x m : R) : R := Rpower x m.

(** one interval of trapz_loglog, math.py L98-117.  If x_low and x_up differ
    but are both clipped to the same value the slope is 0/0 or infinite in
    Python; the theorems assume abscissae within the clipping range. *)
Definition slope (y0 y1 x0 x1 : R) : R := (clog y0 - clog y1) / (clog x0 - clog x1).
(** one interval of trapz_loglog, math.py L104-117 *)
Definition loglog_interval (y0 y1 x0 x1 : R) : R :=
  if Reqb y0 0 || Reqb y1 0 || Reqb x0 x1 then 0
  else
    let m := slope y0 y1 x0 x1 in
    if Rltb (1 / 10 ^ 10) (Rabs (m + 1)) then y0 / (m + 1) * (x1 * npow (x1 / x0) m - x0)
    else x0 * y0 * clog (x1 / x0).
(** trapz_loglog, math.py L55-119, along one axis *)
Fixpoint trapz_loglog (y x : list R) : R :=
  match y, x with
  | y0 :: y', x0 :: x' =>
      match y', x' with
      | y1 :: _, x1 :: _ => loglog_interval y0 y1 x0 x1 + trapz_loglog y' x'
      | _, _ => 0
      end
  | _, _ => 0
  end.

(** an integrator argument (np.trapz or trapz_loglog), called as integrator(y, x) *)
Definition integrator_t : Type := list R -> list R -> R.

(** np.isclose(p, 1.0): |p - 1| <= 1e-8 + 1e-5 *)
Definition isclose_1 (p : R) : bool := Rleb (Rabs (p - 1)) (1 / 10 ^ 8 + 1 / 10 ^ 5).
(** power_law_integral, math.py L121-129 *)
Definition power_law_integral (k p gmin gmax : R) : R :=
  k * (if isclose_1 p then ln (gmax / gmin)
       else (npow gmax (1 - p) - npow gmin (1 - p)) / (1 - p)).

(** n-dimensional arrays: shape and row-major data *)
(** the arrays of math.py L22-46 *)
Record ndarray := { shape_of : list nat; data_of : list R }.
(** row-major offset of a multi-index *)
(** numpy's C order, as kept by np.reshape in math.py L44 *)
Fixpoint ravel (shape idx : list nat) : nat :=
  match shape, idx with
  | _ :: shape', i :: idx' => (i * fold_right Nat.mul 1 shape' + ravel shape' idx')%nat
  | _, _ => O
  end.
(** a[idx] (numpy indexing; no code of its own) *)
Definition nd_get (a : ndarray) (idx : list nat) : option R := nth_error (data_of a) (ravel (shape_of a) idx).
(** list(dim)[i] = size *)
(** reshaped_dim[i] = arg.size, math.py L43 *)
Fixpoint set_nth {A} (l : list A) (i : nat) (v : A) : list A :=
  match l, i with
  | [], _ => []
  | _ :: l', O => v :: l'
  | a :: l', S i' => a :: set_nth l' i' v
  end.
(** axes_reshaper, math.py L22-46: reshape keeps the data *)
Definition axes_reshaper (args : list (list R)) : list ndarray :=
  let n := length args in
  map (fun iarg => {| shape_of := set_nth (repeat 1%nat n) (fst iarg) (length (snd iarg)); data_of := snd iarg |})
      (combine (seq 0 n) args).
(** numpy broadcasting of one axis: equal sizes, or one of them 1 *)
Definition bcast_dim (a b : nat) : option nat :=
  if Nat.eqb a b then Some a else if Nat.eqb a 1 then Some b else if Nat.eqb b 1 then Some a else None.
(** numpy broadcasting of two shapes of the same length, as applied to the arrays of math.py
    L22-46 *)
Fixpoint bcast_shape (a b : list nat) : option (list nat) :=
  match a, b with
  | [], [] => Some []
  | x :: a', y :: b' =>
      match bcast_dim x y, bcast_shape a' b' with Some z, Some r => Some (z :: r) | _, _ => None end
  | _, _ => None
  end.
(** numpy broadcasting of several shapes of length n *)
Definition bcast_shapes (n : nat) (l : list (list nat)) : option (list nat) :=
  fold_left (fun acc s => match acc with Some a => bcast_shape a s | None => None end) l (Some (repeat 1%nat n)).
(** element of a broadcast array: index 0 along axes of size 1 *)
(** numpy broadcasting: the index into an array with axes of size 1 *)
Definition bcast_index (shape idx : list nat) : list nat := map2 (fun d i => if Nat.eqb d 1 then O else i) shape idx.
(** numpy broadcasting: an element of a broadcast array *)
Definition bcast_get (a : ndarray) (idx : list nat) : option R := nd_get a (bcast_index (shape_of a) idx).
