(** Vocabulary of the statements about the integration helpers: no code of
    /repo is modelled here. *)
From Verif Require Import Base MathUtils.

(** strictly increasing list *)
Fixpoint incr (l : list R) : Prop :=
  match l with a :: l' => match l' with b :: _ => a < b /\ incr l' | [] => True end | [] => True end.

(** inside the range to which [log] clips: positive normal float64 numbers *)
Definition representable (x : R) : Prop := ftiny <= x <= fmax.

(** sum of y_i (x_{i+1} - x_i) *)
Fixpoint left_riemann (y x : list R) : R :=
  match y, x with
  | y0 :: y', x0 :: x' =>
      match y', x' with
      | _ :: _, x1 :: _ => y0 * (x1 - x0) + left_riemann y' x'
      | _, _ => 0
      end
  | _, _ => 0
  end.
