(* Specification vocabulary for trajectory arcs. *)
From Verif Require Import Vec3 ArcModel.

(* within the tolerance of the finders *)
Definition near (x r : R) : Prop := Rabs (x - r) <= reps.

(* the finder result [res] is right for the roots of f in [lo, hi]: every reported value is in range and is
   a root up to the tolerance, and every root in range is reported up to the tolerance *)
Definition finds_roots (f : R -> R) (lo hi : R) (res : list R) : Prop :=
  (forall x, In x res -> lo <= x <= hi /\ exists r, f r = 0 /\ near x r) /\
  (forall r, lo <= r <= hi -> f r = 0 -> exists x, In x res /\ near x r).

Definition quadratic (a b c t : R) : R := a * (t * t) + b * t + c.
Definition cubic (a b c d t : R) : R := a * (t * t * t) + b * (t * t) + c * t + d.

(* discriminant of the depressed cubic of a t^3 + b t^2 + c t + d *)
Definition cubic_disc (a b c d : R) : R :=
  let p := b / a in let q := c / a in let r := d / a in
  let A := q - p * p / 3 in
  let B := r - p * q / 3 + 2 * p * p * p / 27 in
  - 4 * A * A * A - 27 * B * B.
