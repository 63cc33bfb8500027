(* Model of rotations and transforms: include/huira_impl/core/rotation.ipp and transform.ipp, with exact real arithmetic
   in place of float/double. A Mat3 is its three columns (glm's m[0], m[1], m[2]). *)
From Verif Require Import Vec3.
From Coq Require Import Ascii String.
Open Scope R_scope.

Record mat3 := M3 { c0 : vec3; c1 : vec3; c2 : vec3 }.
(* glm mat3 * vec3, mat3 * mat3, transpose, determinant *)
Definition mapply (m : mat3) (v : vec3) : vec3 := vadd (vadd (vscale (vx v) (c0 m)) (vscale (vy v) (c1 m))) (vscale (vz v) (c2 m)).
Definition mmul (a b : mat3) : mat3 := M3 (mapply a (c0 b)) (mapply a (c1 b)) (mapply a (c2 b)).
Definition transpose (m : mat3) : mat3 := M3 (V3 (vx (c0 m)) (vx (c1 m)) (vx (c2 m))) (V3 (vy (c0 m)) (vy (c1 m)) (vy (c2 m))) (V3 (vz (c0 m)) (vz (c1 m)) (vz (c2 m))).
Definition det (m : mat3) : R :=
  vx (c0 m) * (vy (c1 m) * vz (c2 m) - vy (c2 m) * vz (c1 m)) - vx (c1 m) * (vy (c0 m) * vz (c2 m) - vy (c2 m) * vz (c0 m)) + vx (c2 m) * (vy (c0 m) * vz (c1 m) - vy (c1 m) * vz (c0 m)).
Definition normalize (v : vec3) : vec3 := vscale (/ vlen v) v.
Definition ident : mat3 := M3 (V3 1 0 0) (V3 0 1 0) (V3 0 0 1).

(* Rotation::orthonormalize_, rotation.ipp:547-570 *)
Definition orthonormalize (m : mat3) : mat3 :=
  let x := normalize (c0 m) in
  let y := normalize (vsub (c1 m) (vscale (dot (c1 m) x) x)) in
  M3 x y (cross x y).
(* Rotation::set_matrix_, rotation.ipp:529-540; also from_local_to_parent(Mat3) 21-27, the constructor rotation.hpp:83 and from_basis_vectors 238-249 *)
Definition set_matrix (m : mat3) : outcome mat3 := if Rltb (/ 1000) (Rabs (det m - 1)) then Throws else Ok (orthonormalize m).
(* from_local_to_parent(axis, angle), rotation.ipp:61-99; eps is numeric_limits<T>::epsilon() *)
Definition rodrigues (n : vec3) (c s : R) : mat3 :=
  let x := vx n in let y := vy n in let z := vz n in
  M3 (V3 (c + x * x * (1 - c)) (y * x * (1 - c) + z * s) (z * x * (1 - c) - y * s))
     (V3 (x * y * (1 - c) - z * s) (c + y * y * (1 - c)) (z * y * (1 - c) + x * s))
     (V3 (x * z * (1 - c) + y * s) (y * z * (1 - c) - x * s) (c + z * z * (1 - c))).
Definition from_axis_angle (eps : R) (axis : vec3) (angle : R) : outcome mat3 :=
  if Rltb (vlen axis) eps then set_matrix ident else set_matrix (rodrigues (vscale (/ vlen axis) axis) (cos angle) (sin angle)).
(* from_parent_to_local(Mat3) 107-111, and of axis and angle 141-145 *)
Definition from_parent_matrix (m : mat3) : outcome mat3 := set_matrix (transpose m).
Definition from_parent_axis_angle (eps : R) (axis : vec3) (angle : R) : outcome mat3 := from_axis_angle eps axis (- angle).
(* glm::mat3_cast, glm::inverse of a quaternion (w, x, y, z); from_local_to_parent(Quaternion) 34-40, from_parent_to_local(Quaternion) 118-122; the Shuster overloads 47-53 and 129-133 reorder the components (types.hpp:57-69) *)
Definition quat4 := (R * R * R * R)%type.
Definition mat3_cast (q : quat4) : mat3 := match q with (w, x, y, z) =>
  M3 (V3 (1 - 2 * (y * y + z * z)) (2 * (x * y + w * z)) (2 * (x * z - w * y)))
     (V3 (2 * (x * y - w * z)) (1 - 2 * (x * x + z * z)) (2 * (y * z + w * x)))
     (V3 (2 * (x * z + w * y)) (2 * (y * z - w * x)) (1 - 2 * (x * x + y * y))) end.
Definition qinverse (q : quat4) : quat4 := match q with (w, x, y, z) => let d := w * w + x * x + y * y + z * z in (w / d, - x / d, - y / d, - z / d) end.
Definition from_quat (q : quat4) : outcome mat3 := set_matrix (mat3_cast q).
Definition from_parent_quat (q : quat4) : outcome mat3 := from_quat (qinverse q).
(* local_to_parent_x/y/z, rotation.ipp:416-490 *)
Definition rot_x (a : R) : mat3 := M3 (V3 1 0 0) (V3 0 (cos a) (sin a)) (V3 0 (- sin a) (cos a)).
Definition rot_y (a : R) : mat3 := M3 (V3 (cos a) 0 (- sin a)) (V3 0 1 0) (V3 (sin a) 0 (cos a)).
Definition rot_z (a : R) : mat3 := M3 (V3 (cos a) (sin a) 0) (V3 (- sin a) (cos a) 0) (V3 0 0 1).
(* one step of the loops of extrinsic_euler_angles, rotation.ipp:167-180, and intrinsic_euler_angles, 207-220. The angles
   are stored in degrees on the way: [deg] *)
Definition deg (a : R) : R := a / (PI / 180).
Definition of_deg (d : R) : R := d * (PI / 180).
Definition axis_matrix (ch : ascii) (a : R) : outcome mat3 :=
  match ch with
  | "x"%char | "X"%char | "1"%char => Ok (rot_x (of_deg (deg a)))
  | "y"%char | "Y"%char | "2"%char => Ok (rot_y (of_deg (deg a)))
  | "z"%char | "Z"%char | "3"%char => Ok (rot_z (of_deg (deg a)))
  | _ => Throws
  end.
(* extrinsic_euler_angles, rotation.ipp:155-190 *)
Definition extrinsic (a1 a2 a3 : R) (s : string) : outcome mat3 :=
  match s with
  | String k1 (String k2 (String k3 EmptyString)) =>
      obind (axis_matrix k1 a1) (fun b0 => obind (axis_matrix k2 a2) (fun b1 => obind (axis_matrix k3 a3) (fun b2 => set_matrix (mmul (mmul b2 b1) b0))))
  | _ => Throws
  end.
(* intrinsic_euler_angles, rotation.ipp:197-232 *)
Definition intrinsic (a1 a2 a3 : R) (s : string) : outcome mat3 :=
  match s with
  | String k1 (String k2 (String k3 EmptyString)) =>
      obind (axis_matrix k1 a1) (fun b0 => obind (axis_matrix k2 a2) (fun b1 => obind (axis_matrix k3 a3) (fun b2 => set_matrix (mmul (mmul b0 b1) b2))))
  | _ => Throws
  end.
(* inverse, rotation.ipp:278-284, and operator* of rotations 381-388 *)
Definition rot_inverse (m : mat3) : outcome mat3 := set_matrix (transpose m).
Definition rot_mul (a b : mat3) : outcome mat3 := set_matrix (mmul a b).

(** Transform, include/huira/core/transform.hpp *)
Record transform := T { t_pos : vec3; t_rot : mat3; t_scale : vec3; t_vel : vec3; t_ang : vec3 }.
(* glm component-wise product of vectors *)
Definition vmul (a b : vec3) : vec3 := V3 (vx a * vx b) (vy a * vy b) (vz a * vz b).
Definition vopp (a : vec3) : vec3 := vscale (-1) a.
(* inverse, transform.ipp:109-130 *)
Definition t_inverse (t : transform) : outcome transform :=
  obind (rot_inverse (t_rot t)) (fun r =>
  let s := V3 (1 / vx (t_scale t)) (1 / vy (t_scale t)) (1 / vz (t_scale t)) in
  Ok (T (mapply r (vmul (vopp (t_pos t)) s)) r s (mapply r (vmul (vopp (t_vel t)) s)) (mapply r (vopp (t_ang t))))).
(* operator*, transform.ipp:137-160 *)
Definition t_mul (a b : transform) : outcome transform :=
  obind (rot_mul (t_rot a) (t_rot b)) (fun r =>
  Ok (T (vadd (t_pos a) (mapply (t_rot a) (vmul (t_scale a) (t_pos b)))) r (vmul (t_scale a) (t_scale b))
        (vadd (vadd (t_vel a) (mapply (t_rot a) (vmul (t_scale a) (t_vel b)))) (cross (t_ang a) (mapply (t_rot a) (vmul (t_scale a) (t_pos b)))))
        (vadd (t_ang a) (mapply (t_rot a) (t_ang b))))).
(* apply_to_point 167-176, apply_to_direction 183-191, apply_to_velocity 198-207, apply_to_angular_velocity 214-220,
   velocity_of_point 227-236, velocity_of_local_point 243-250 *)
Definition to_point (t : transform) (p : vec3) : vec3 := vadd (mapply (t_rot t) (vmul p (t_scale t))) (t_pos t).
Definition to_direction (t : transform) (p : vec3) : vec3 := mapply (t_rot t) (vmul p (t_scale t)).
Definition to_velocity (t : transform) (v : vec3) : vec3 := vadd (mapply (t_rot t) (vmul v (t_scale t))) (t_vel t).
Definition to_angular (t : transform) (w : vec3) : vec3 := vadd (mapply (t_rot t) w) (t_ang t).
Definition velocity_of_point (t : transform) (p : vec3) : vec3 := vadd (t_vel t) (cross (t_ang t) (vsub p (t_pos t))).
Definition velocity_of_local_point (t : transform) (p : vec3) : vec3 := velocity_of_point t (to_point t p).
(* to_matrix, transform.ipp:31-55: entry m[i][j] of column i, row j *)
Definition vget (v : vec3) (j : nat) : R := match j with O => vx v | 1%nat => vy v | _ => vz v end.
Definition mcol (m : mat3) (i : nat) : vec3 := match i with O => c0 m | 1%nat => c1 m | _ => c2 m end.
Definition to_matrix (t : transform) (i j : nat) : R :=
  match i, j with
  | 3%nat, 3%nat => 1
  | 3%nat, _ => 0
  | i, 3%nat => vget (t_pos t) i
  | i, j => vget (mcol (t_rot t) i) j * vget (t_scale t) j
  end.
(* glm mat4 * vec4(p, 1): component j of the result *)
Definition mat4_point (m : nat -> nat -> R) (p : vec3) (j : nat) : R := m 0%nat j * vx p + m 1%nat j * vy p + m 2%nat j * vz p + m 3%nat j.
