(* Specification vocabulary for rotations and transforms. *)
From Verif Require Import Vec3 TransformModel.
From Coq Require Import Ascii String.
From Coquelicot Require Import Coquelicot.
Open Scope R_scope.

(* a rotation: linear (it is a matrix), keeps inner products and handedness *)
Definition is_rotation (m : mat3) : Prop :=
  (forall u v, dot (mapply m u) (mapply m v) = dot u v) /\ (forall u v, mapply m (cross u v) = cross (mapply m u) (mapply m v)).
(* rotation of v by an angle about a unit vector n: the part along n stays, the rest turns in the plane of itself and n x itself *)
Definition turned (n : vec3) (angle : R) (v : vec3) : vec3 :=
  let along := vscale (dot n v) n in let rest := vsub v along in
  vadd along (vadd (vscale (cos angle) rest) (vscale (sin angle) (cross n rest))).
(* the unit vector of an axis letter *)
Definition ex := V3 1 0 0.
Definition ey := V3 0 1 0.
Definition ez := V3 0 0 1.
Definition uniform (s : vec3) : Prop := vx s = vy s /\ vy s = vz s.
(* a vector function of time with derivative d at time t *)
Definition vderive (f : R -> vec3) (t : R) (d : vec3) : Prop :=
  is_derive (fun x => vx (f x)) t (vx d) /\ is_derive (fun x => vy (f x)) t (vy d) /\ is_derive (fun x => vz (f x)) t (vz d).
(* at time t, the moving frame f has the position, rotation, velocity and angular velocity that it says *)
Definition moves (f : R -> transform) (t : R) : Prop :=
  vderive (fun x => t_pos (f x)) t (t_vel (f t)) /\ forall v, vderive (fun x => mapply (t_rot (f x)) v) t (cross (t_ang (f t)) (mapply (t_rot (f t)) v)).
(* the axis named by a letter of an Euler sequence *)
Definition axis_named (ch : ascii) : option vec3 :=
  match ch with "x" | "X" | "1" => Some ex | "y" | "Y" | "2" => Some ey | "z" | "Z" | "3" => Some ez | _ => None end%char.
(* every way the API offers to obtain a rotation; eps is the shortest axis length that is accepted *)
Inductive built (eps : R) : mat3 -> Prop :=
| b_ident : built eps ident
| b_matrix m r : set_matrix m = Ok r -> built eps r
| b_parent m r : from_parent_matrix m = Ok r -> built eps r
| b_axis n a r : from_axis_angle eps n a = Ok r -> built eps r
| b_axis_parent n a r : from_parent_axis_angle eps n a = Ok r -> built eps r
| b_quat q r : from_quat q = Ok r -> built eps r
| b_quat_parent q r : from_parent_quat q = Ok r -> built eps r
| b_extrinsic a b c s r : extrinsic a b c s = Ok r -> built eps r
| b_intrinsic a b c s r : intrinsic a b c s = Ok r -> built eps r
| b_inverse m r : built eps m -> rot_inverse m = Ok r -> built eps r
| b_mul m n r : built eps m -> built eps n -> rot_mul m n = Ok r -> built eps r.
(* a transform whose rotation is a rotation *)
Definition proper (t : transform) : Prop := is_rotation (t_rot t).
(* apply the transforms of a list in turn, the last one first *)
Definition in_turn (l : list transform) (p : vec3) : vec3 := fold_right to_point p l.
(* the 4x4 matrix sends (p, 1) to (f p, 1) *)
Definition same_action (m : nat -> nat -> R) (f : vec3 -> vec3) : Prop :=
  forall p, mat4_point m p 0 = vx (f p) /\ mat4_point m p 1 = vy (f p) /\ mat4_point m p 2 = vz (f p) /\ mat4_point m p 3 = 1.
