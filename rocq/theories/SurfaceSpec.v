(* Specification vocabulary for surface hits. *)
From Verif Require Import Common Vec3 TransformModel.
Open Scope R_scope.

Definition positive3 (r : vec3) : Prop := 0 < vx r /\ 0 < vy r /\ 0 < vz r.
(* the points of a ray *)
Definition along (O D : vec3) (t : R) : vec3 := vadd O (vscale t D).
(* the ellipsoid with semi-axes r, as a level set, and its outward gradient *)
Definition level (r p : vec3) : R := (vx p / vx r) ^ 2 + (vy p / vy r) ^ 2 + (vz p / vz r) ^ 2.
Definition on_ellipsoid (r p : vec3) : Prop := level r p = 1.
Definition outward (r p : vec3) : vec3 := V3 (2 * vx p / vx r ^ 2) (2 * vy p / vy r ^ 2) (2 * vz p / vz r ^ 2).
(* ray parameters that the caller asked for: from 0 up to an optional end *)
Definition asked (tfar : option R) (t : R) : Prop := 0 <= t /\ match tfar with Some f => t <= f | None => True end.
Definition inside_box (b : vec3 * vec3) (p : vec3) : Prop :=
  vx (fst b) <= vx p <= vx (snd b) /\ vy (fst b) <= vy p <= vy (snd b) /\ vz (fst b) <= vz p <= vz (snd b).
(* the same direction *)
Definition same_direction (a b : vec3) : Prop := exists k, 0 < k /\ a = vscale k b.
(* a right-handed orthonormal frame (tangent, bitangent, normal) *)
Definition frame (t b n : vec3) : Prop := dot t t = 1 /\ dot b b = 1 /\ dot n n = 1 /\ dot t b = 0 /\ dot t n = 0 /\ dot b n = 0 /\ cross t b = n.
(* p is in the triangle abc *)
Definition in_triangle (a b c p : vec3) : Prop := exists x y z, 0 <= x /\ 0 <= y /\ 0 <= z /\ x + y + z = 1 /\ p = vadd (vadd (vscale x a) (vscale y b)) (vscale z c).
(* the world normal n is perpendicular to every direction of the transformed surface, whose local normal is g *)
Definition normal_to_image (xf : transform) (g n : vec3) : Prop := forall t, dot t g = 0 -> dot (to_direction xf t) n = 0.
