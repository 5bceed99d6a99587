(** Vocabulary of the statements about the geometry: points of space. *)
From Verif Require Import Base.

Record point := { px : R; py : R; pz : R }.
Definition dot (a b : point) : R := px a * px b + py a * py b + pz a * pz b.
Definition minus (a b : point) : point := {| px := px a - px b; py := py a - py b; pz := pz a - pz b |}.
Definition dist (a b : point) : R := sqrt (dot (minus a b) (minus a b)).
(** the point at distance d from the origin with polar angle arccos mu (from the jet axis z) and azimuth phi *)
Definition spherical (d mu phi : R) : point := {| px := d * sqrt (1 - mu ^ 2) * cos phi; py := d * sqrt (1 - mu ^ 2) * sin phi; pz := d * mu |}.
(** a point of the jet axis at height r, moved by u along the direction of the observer (polar cosine mu_s, azimuth 0) *)
Definition on_sight_line (r u mu_s : R) : point := {| px := u * sqrt (1 - mu_s ^ 2); py := 0; pz := r + u * mu_s |}.
(** polar coordinates of a direction: cosine of the angle to the axis and azimuth in (-pi, pi] *)
Definition is_direction (v : point) (phi mu : R) : Prop :=
  mu = pz v / sqrt (dot v v) /\ - 1 <= mu <= 1 /\ - PI < phi <= PI /\
  px v = sqrt (dot v v) * sqrt (1 - mu ^ 2) * cos phi /\ py v = sqrt (dot v v) * sqrt (1 - mu ^ 2) * sin phi.
