(* Model of the quaternion getters of Rotation, core/rotation.ipp:290-325, with exact real arithmetic. A Hamilton quaternion is
   (w, x, y, z); a Shuster quaternion is the four numbers in the order x, y, z, w. *)
From Verif Require Import Vec3 TransformModel.
Open Scope R_scope.

(* glm::quat_cast(mat3), glm/gtc/quaternion.inl (GLM 0.9.9 and 1.0): the largest of the four squares is taken *)
Definition quat_cast (m : mat3) : quat4 :=
  let m00 := vx (c0 m) in let m01 := vy (c0 m) in let m02 := vz (c0 m) in
  let m10 := vx (c1 m) in let m11 := vy (c1 m) in let m12 := vz (c1 m) in
  let m20 := vx (c2 m) in let m21 := vy (c2 m) in let m22 := vz (c2 m) in
  let fx := m00 - m11 - m22 in let fy := m11 - m00 - m22 in let fz := m22 - m00 - m11 in let fw := m00 + m11 + m22 in
  let '(i, b) := (0%nat, fw) in
  let '(i, b) := if Rltb b fx then (1%nat, fx) else (i, b) in
  let '(i, b) := if Rltb b fy then (2%nat, fy) else (i, b) in
  let '(i, b) := if Rltb b fz then (3%nat, fz) else (i, b) in
  let v := sqrt (b + 1) * (1 / 2) in let k := (1 / 4) / v in
  match i with
  | 0%nat => (v, (m12 - m21) * k, (m20 - m02) * k, (m01 - m10) * k)
  | 1%nat => ((m12 - m21) * k, v, (m01 + m10) * k, (m20 + m02) * k)
  | 2%nat => ((m20 - m02) * k, (m01 + m10) * k, v, (m12 + m21) * k)
  | _ => ((m01 - m10) * k, (m20 + m02) * k, (m12 + m21) * k, v)
  end.
(* to_shuster and to_hamilton, core/types.hpp:59-69 *)
Definition shuster4 := (R * R * R * R)%type.
Definition to_shuster (q : quat4) : shuster4 := match q with (w, x, y, z) => (x, y, z, w) end.
Definition to_hamilton (s : shuster4) : quat4 := match s with (x, y, z, w) => (w, x, y, z) end.
(* local_to_parent_quaternion, parent_to_local_quaternion and their Shuster forms, rotation.ipp:290-325 *)
Definition get_quat (m : mat3) : quat4 := quat_cast m.
Definition get_parent_quat (m : mat3) : quat4 := qinverse (quat_cast m).
Definition get_shuster (m : mat3) : shuster4 := to_shuster (get_quat m).
Definition get_parent_shuster (m : mat3) : shuster4 := to_shuster (get_parent_quat m).
(* from_local_to_parent(ShusterQuaternion), 47-53, and from_parent_to_local(ShusterQuaternion), 129-133 *)
Definition from_shuster (s : shuster4) : outcome mat3 := from_quat (to_hamilton s).
Definition from_parent_shuster (s : shuster4) : outcome mat3 := from_parent_quat (to_hamilton s).
