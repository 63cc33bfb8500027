(* What a Keplerian orbit is (C153). *)
From Verif Require Import Vec3 TransformSpec.
Open Scope R_scope.

(* Kepler's equation is solved *)
Definition solves (solver : R -> R -> R) : Prop := forall e M, 0 <= e < 1 -> solver e M - e * sin (solver e M) = M.
(* motion under the gravity G of a body at the origin: the velocity is the derivative of the position, the acceleration points to the origin with strength G / distance^2 *)
Definition two_body (G : R) (r v : R -> vec3) : Prop :=
  forall t, 0 < vlen (r t) /\ vderive r t (v t) /\ vderive v t (vscale (- (G / (vlen (r t) * vlen (r t) * vlen (r t)))) (r t)).
(* the normal of a plane inclined by i to the xy plane, cutting it along the direction raan from x, on the side from which the orbit turns counterclockwise *)
Definition plane_normal (i raan : R) : vec3 := V3 (sin raan * sin i) (- cos raan * sin i) (cos i).
(* the direction in that plane at the angle argp from the ascending node, counterclockwise *)
Definition in_plane_direction (i raan argp : R) : vec3 :=
  let node := V3 (cos raan) (sin raan) 0 in vadd (vscale (cos argp) node) (vscale (sin argp) (cross (plane_normal i raan) node)).
