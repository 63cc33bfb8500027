(* Densities of direction samplers per solid angle, in two dimensions (C108). *)
From Coq Require Import Reals.
From Coquelicot Require Import Coquelicot.
From Verif Require Import Common Vec3.
Open Scope R_scope.

(* the velocity of a moving point *)
Definition velocity (g : R -> vec3) (a : R) (v : vec3) : Prop :=
  is_derive (fun t => vx (g t)) a (vx v) /\ is_derive (fun t => vy (g t)) a (vy v) /\ is_derive (fun t => vz (g t)) a (vz v).
(* A map f from the unit square of random numbers to directions spreads them, near (a, b), over J units of solid angle per unit of area: the
   parallelogram spanned by the two partial derivatives, seen from the centre of the sphere *)
Definition spread (f : R -> R -> vec3) (a b J : R) : Prop := exists fa fb,
  velocity (fun t => f t b) a fa /\ velocity (fun t => f a t) b fb /\ J = Rabs (dot (f a b) (cross fa fb)).
(* The density of f's directions near a direction reached from the numbers (a_i, b_i) alone is the sum of 1 / J_i over them: that many units of
   area of the square end up in a unit of solid angle *)
