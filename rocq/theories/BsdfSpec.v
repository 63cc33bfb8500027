(* Specification vocabulary for BSDFs and direction samplers. *)
From Coq Require Import Reals.
From Verif Require Import Common Vec3.
From Coquelicot Require Import Coquelicot.
Open Scope R_scope.

Definition unit (v : vec3) : Prop := dot v v = 1.
Definition orthonormal (a b c : vec3) : Prop := unit a /\ unit b /\ unit c /\ dot a b = 0 /\ dot a c = 0 /\ dot b c = 0.
Definition above (n w : vec3) : Prop := 0 < dot w n.
(* A sampler of directions about +z that turns uniform numbers u1, u2 into (r(u1) cos 2 pi u2, r(u1) sin 2 pi u2, z(u1)) has density q(z) per solid angle
   iff for every z0 the share of u1 in [0, 1] whose z is at least z0 is the integral of q over the cap z >= z0, that is of 2 pi q from z0 to 1
   (Archimedes' hat-box theorem). All the samplers are monotone in u1, so that the u1 in question form an interval at one end of [0, 1]. *)
Definition density (z q : R -> R) : Prop := forall z0, 0 < z0 <= 1 -> exists m, 0 <= m <= 1 /\ is_RInt (fun t => 2 * PI * q t) z0 1 m /\
  ((forall u, 0 <= u < 1 -> (z0 <= z u <-> u <= m)) \/ (forall u, 0 < u < 1 -> (z0 <= z u <-> 1 - m <= u))).
(* the share of the light arriving along one direction that a surface sends back in all directions, for a BSDF whose value g depends only on the cosine
   of the outgoing direction *)
Definition reflected_share (g : R -> R) (x : R) : Prop := is_RInt (fun z => 2 * PI * (g z * z)) 0 1 x.
