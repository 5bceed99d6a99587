(** What the rounding properties C105 and C106 say, in plain numbers *)
From Verif Require Import Base.
From Flocq Require Import Core.
Open Scope R_scope.

(** [a] is [b] up to [k] roundings to the nearest double: unit roundoff 2^-53 *)
Definition within (k : nat) (a b : R) : Prop := b / (1 + / 2 ^ 53) ^ k <= a <= b * (1 + / 2 ^ 53) ^ k.
(** the numbers m 2^e of a double (without an upper limit of e) *)
Definition double (x : R) : Prop := exists m e : Z, (Z.abs m < 2 ^ 53)%Z /\ (-1074 <= e)%Z /\ x = IZR m * powerRZ 2 e.
(** neighbours in an array *)
Definition neighbours {A : Type} (l : list A) (a b : A) : Prop := exists i, nth_error l i = Some a /\ nth_error l (S i) = Some b.
(** neighbouring points and the values there *)
Definition interval (x y : list R) (x0 x1 y0 y1 : R) : Prop :=
  exists i, nth_error x i = Some x0 /\ nth_error x (S i) = Some x1 /\ nth_error y i = Some y0 /\ nth_error y (S i) = Some y1.
