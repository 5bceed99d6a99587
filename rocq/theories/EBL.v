(** Model of /repo/agnpy/absorption/ebl_absorption.py.  The contents of the FITS
    file are an argument: (energies in keV, redshifts, values per redshift). *)
From Verif Require Import Base TEUtils NumpyInst MathUtils Conversion.
From Coq Require Import String List.
Import ListNotations.
Open Scope string_scope.
Open Scope R_scope.

(** ebl_files_dict, L12-18: the known names *)
Definition ebl_models : list string := ["franceschini_2008"; "franceschini_2017"; "dominguez_2011"; "finke_2010"; "saldana_lopez_2021"].

(** the attributes assigned in ebl_absorption.py L35-64 *)
Record ebl := { ebl_model : string; ebl_energy : list R; ebl_z : list R; ebl_values : list (list R) (* a row per redshift *) }.
(** np.delete(l, i), for i within range *)
Definition np_delete {A} (l : list A) (i : nat) : res (list A) :=
  if Nat.ltb i (length l) then Ok (firstn i l ++ skipn (S i) l)%list else Err IndexError.
(** the check of RegularGridInterpolator, ebl_absorption.py L57-64 *)
Fixpoint strictly_ascending (l : list R) : bool :=
  match l with a :: l' => match l' with b :: _ => Rltb a b && strictly_ascending l' | [] => true end | [] => true end.
(** __init__, L35-42, load_absorption_table, L44-55 ([lo], [hi]: ENERG_LO,
    ENERG_HI), and the checks of RegularGridInterpolator, L57-64 (scipy also
    accepts descending points, which no table uses) *)
Definition ebl_init (model : string) (lo hi z : list R) (values : list (list R)) : res ebl :=
  if negb (existsb (String.eqb model) ebl_models) then Err (ValueError "No EBL model for the reference you specified") else
  let energy := map2 (fun a b => sqrt (a * b)) lo hi in
  let! zv := (if String.eqb model "franceschini_2008" then let! z' := np_delete z 1001 in let! v' := np_delete values 1001 in Ok (z', v') else Ok (z, values)) in
  if strictly_ascending energy && strictly_ascending (fst zv) && Nat.eqb (length (snd zv)) (length (fst zv)) && forallb (fun row => Nat.eqb (length row) (length energy)) (snd zv)
  then Ok {| ebl_model := model; ebl_energy := energy; ebl_z := fst zv; ebl_values := snd zv |}
  else Err (ValueError "The points in dimension must be strictly ascending").

(** scipy: index of the interval, np.searchsorted(grid, x) - 1 clipped to [0, size - 2], and the normalised distance *)
Definition searchsorted (grid : list R) (x : R) : nat := length (filter (fun g => Rltb g x) grid).
(** inside RegularGridInterpolator, called in ebl_absorption.py L66-73 *)
Definition find_index (grid : list R) (x : R) : nat := Nat.min (searchsorted grid x - 1) (length grid - 2).
(** inside RegularGridInterpolator, called in ebl_absorption.py L66-73 *)
Definition norm_distance (grid : list R) (x : R) : R :=
  let i := find_index grid x in (x - nth i grid 0) / (nth (S i) grid 0 - nth i grid 0).
(** bounds_error=False of RegularGridInterpolator, ebl_absorption.py L57-64 *)
Definition out_of_bounds (grid : list R) (x : R) : bool := Rltb x (nth 0 grid 0) || Rltb (nth (length grid - 1) grid 0) x.
(** RegularGridInterpolator(points=(energy, z), method="linear", bounds_error=False): None is nan *)
(** the interpolator made in ebl_absorption.py L57-64, called in L66-73 *)
Definition interpolate (t : ebl) (e z : R) : option R :=
  if out_of_bounds (ebl_energy t) e || out_of_bounds (ebl_z t) z then None else
  let i := find_index (ebl_energy t) e in let j := find_index (ebl_z t) z in
  let a := norm_distance (ebl_energy t) e in let b := norm_distance (ebl_z t) z in
  let v i j := nth i (nth j (ebl_values t) []) 0 in
  Some ((1 - a) * (1 - b) * v i j + (1 - a) * b * v i (S j) + a * (1 - b) * v (S i) j + a * b * v (S i) (S j)).
(** keV in erg *)
(** the unit of ebl_absorption.py L66-73, in erg *)
Definition keV : R := 1.602176634e-9.
(** absorption, L66-73: h nu in keV *)
Definition ebl_absorption (P : phys) (t : ebl) (nu : list R) (z : R) : list (option R) := map (fun n => interpolate t (c_h P * n / keV) z) nu.
