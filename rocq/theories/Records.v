(** Model of the objects that TimeEvolution.evaluate hands out,
    /repo/agnpy/time_evolution/time_evolution.py L225-279.

    evaluate() makes one Quantity for the elapsed time (L228) and changes it in
    place (`total_time_elapsed += step_time`, L270: numpy's in-place addition on
    a zero-dimensional Quantity keeps the object).  Every TimeEvaluationResult
    (L272-274, L279) refers to this object.  The arrays of a result are made
    anew in each pass (fancy indexing, arithmetic or .copy()), and nothing
    writes to them after the callback: update_bin_ub (L263) writes to the bins
    of the pass before the callback, `time_left_per_bin -= ...` (L256) to an
    array that is in no result.  They are therefore kept by value. *)
From Verif Require Import Base TEUtils TimeEvolution.

(** scalar Quantity objects in memory; the address is the position *)
(** the Quantity objects made in time_evolution.py L228 and changed in L270 *)
Definition heap := list R.
(** L228, `0 * u.s` *)
Definition new_quantity (h : heap) (v : R) : heap * nat := (h ++ [v], length h).
(** reading a Quantity of time_evolution.py L228 *)
Definition read (h : heap) (a : nat) : R := nth a h 0.
(** L270, `+=` *)
Fixpoint write (h : heap) (a : nat) (v : R) : heap :=
  match h, a with
  | [], _ => []
  | _ :: h', O => v :: h'
  | x :: h', S a' => x :: write h' a' v
  end.

(** a TimeEvaluationResult (types.py L17-24): total_time is a reference.  The
    number in [k_rest]'s own r_time is not part of it, see [look]. *)
Record handed := { k_time : nat; k_rest : result }.
(** reading the attributes of a TimeEvaluationResult *)
(** reading the attributes of a TimeEvaluationResult, types.py L17-24 *)
Definition look (h : heap) (k : handed) : result :=
  {| r_time := read h (k_time k); r_gamma := r_gamma (k_rest k); r_dens := r_dens (k_rest k); r_subs := r_subs (k_rest k);
     r_en := r_en (k_rest k); r_rel := r_rel (k_rest k); r_abs := r_abs (k_rest k) |}.

(** the state of time_evolution.py L227-230 with another clock value *)
Definition with_elapsed (s : tstate) (t : R) : tstate :=
  {| st_bins := st_bins s; st_dens := st_dens s; st_subs := st_subs s; st_en := st_en s; st_rel := st_rel s; st_abs := st_abs s;
     st_left := st_left s; st_elapsed := t |}.

Section Objects.
Variable np : numpy.
Variable c : cfg.

(** The while loop, L232-276, with the elapsed time at address [a]: memory
    afterwards, blob.n_e, what each call of the callback got together with the
    memory at that time, the state or exception. *)
Fixpoint object_loop (fuel : nat) (h : heap) (a : nat) (s : tstate) (ne : dist) : heap * dist * list (handed * heap) * res tstate :=
  if Rltb (read h a) (total c) then
    match fuel with
    | O => (h, ne, [], Err OutOfFuel)
    | S fuel' =>
        match step np c (with_elapsed s (read h a)) ne with
        | (ne', Err e) => (h, ne', [], Err e)
        | (ne', Ok s') =>
            let h' := write h a (st_elapsed s') in
            let '(h'', ne'', ks, r) := object_loop fuel' h' a s' ne' in
            (h'', ne'', ({| k_time := a; k_rest := callback_report s' |}, h') :: ks, r)
        end
    end
  else (h, ne, [], Ok s).

(** evaluate(), L213-279, in a program whose memory is [h] *)
Definition object_evaluate (fuel : nat) (h : heap) (ne : dist) : heap * dist * list (handed * heap) * res handed :=
  match initial_values np c ne with
  | Err e => (h, ne, [], Err e)
  | Ok s =>
      let (h0, a) := new_quantity h 0 in
      let '(h', ne', ks, r) := object_loop fuel h0 a s ne in
      (h', ne', ks, rmap (fun s' => {| k_time := a; k_rest := final_report s' |}) r)
  end.
End Objects.
