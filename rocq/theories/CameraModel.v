(* Model of CameraModel, include/huira_impl/cameras/camera_model.ipp. Arithmetic is exact (float rounding,
   overflow and the float/double casts are not modelled); NaN and the infinities appear where the setters
   test for them. Logging and the aperture PSF rebuild are not modelled. *)
From Verif Require Import Vec3 DistortionModel FrustumModel.

(* a float argument as the setters see it *)
Inductive fl := Fin (r : R) | PInf | NInf | NaN.
Definition is_nan (a : fl) : bool := match a with NaN => true | _ => false end.
Definition is_inf (a : fl) : bool := match a with PInf | NInf => true | _ => false end.
(* a <= 0 and a < 0 (false on NaN) *)
Definition le0 (a : fl) : bool := match a with Fin r => Rleb r 0 | NInf => true | _ => false end.
Definition lt0 (a : fl) : bool := match a with Fin r => Rltb r 0 | NInf => true | _ => false end.
(* a / b; the quotient by zero is an infinity or NaN in IEEE arithmetic, here NaN: every use in
   this model only asks whether the value is a positive finite number *)
Definition fdiv (a b : fl) : fl :=
  match a, b with
  | Fin x, Fin y => if Req_EM_T y 0 then NaN else Fin (x / y)
  | Fin _, (PInf | NInf) => Fin 0
  | PInf, Fin y => if Rltb 0 y then PInf else if Rltb y 0 then NInf else NaN
  | NInf, Fin y => if Rltb 0 y then NInf else if Rltb y 0 then PInf else NaN
  | _, _ => NaN
  end.
Definition fmulz (a : fl) (n : Z) : fl :=
  match a with Fin x => Fin (x * IZR n) | PInf => if (0 <? n)%Z then PInf else NaN | NInf => if (0 <? n)%Z then NInf else NaN | NaN => NaN end.

(* glm::normalize: x * inversesqrt(dot(x, x)); the zero vector gives NaN components, here None *)
Definition normalize (d : vec3) : option vec3 :=
  if Req_EM_T (dot d d) 0 then None else Some (vscale (/ vlen d) d).

(* a Distortion object (virtual distort/undistort), distortion.hpp:36-41 *)
Record distortion := { d_distort : pixel -> pixel; d_undistort : pixel -> pixel }.

(* the three caches: distortion_field_, view_frustum_ and pixel_solid_angles_, camera_model.hpp:194-205. An
   image is its resolution and its pixels; a NaN pixel is None; a plane with NaN normal is None. *)
Record image (A : Type) := { iw : Z; ih : Z; ipix : Z -> Z -> A }.
Arguments iw {A}. Arguments ih {A}. Arguments ipix {A}.
Arguments Build_image {A}.

(* the data members that the setters of this file write, camera_model.hpp:159-208, with the sensor's
   resolution and pitch *)
Record camera := {
  focal : fl;
  res_x : Z; res_y : Z; pitch_x : fl; pitch_y : fl;
  fx : fl; fy : fl; cx : fl; cy : fl;
  rx : Z; ry : Z;
  is_explicit : bool;
  dist : option distortion;
  blender : bool;
  field : image (option vec3);
  frustum : list (option vec3);
  solid : image (option R)
}.

(* ---- pinhole geometry ---- *)
(* project_point, camera_model.ipp:457-472, for finite intrinsics *)
Definition project_point (fx fy cx cy : R) (dm : option distortion) (blender : bool) (p : vec3) : pixel :=
  let depth := if blender then - vz p else vz p in
  let sign_y := if blender then -1 else 1 in
  let normalized := (vx p / depth, sign_y * vy p / depth) in
  let normalized := match dm with Some d => d_distort d normalized | None => normalized end in
  (fx * fst normalized + cx, fy * snd normalized + cy).

(* pixel_to_direction_, camera_model.ipp:617-643, for finite intrinsics *)
Definition pixel_to_direction (fx fy cx cy : R) (dm : option distortion) (blender : bool) (p : pixel) : vec3 :=
  let normalized := ((fst p - cx) / fx, (snd p - cy) / fy) in
  let normalized := match dm with Some d => d_undistort d normalized | None => normalized end in
  if blender then V3 (fst normalized) (- snd normalized) (-1) else V3 (fst normalized) (snd normalized) 1.

(* the same on a camera state: NaN (None) when an intrinsic is not a finite number or a focal length is 0 *)
Definition pix_dir (c : camera) (p : pixel) : option vec3 :=
  match fx c, fy c, cx c, cy c with
  | Fin a, Fin b, Fin u, Fin v =>
      if Req_EM_T a 0 then None else if Req_EM_T b 0 then None
      else Some (pixel_to_direction a b u v (dist c) (blender c) p)
  | _, _, _, _ => None
  end.
Definition onorm (d : option vec3) : option vec3 := match d with Some v => normalize v | None => None end.

Definition zpix (x y : Z) : pixel := (IZR x, IZR y).

(* compute_distortion_field_, camera_model.ipp:644-657 *)
Definition field_of (c : camera) : image (option vec3) :=
  Build_image (res_x c) (res_y c) (fun x y => onorm (pix_dir c (zpix x y))).

(* tangent_, camera_model.ipp:686-693 *)
Definition tangent (p0 p1 : vec3) : option vec3 :=
  normalize (cross (cross p0 (vsub p1 p0)) p0).
Definition obind2 {A B C} (f : A -> B -> C) (a : option A) (b : option B) : option C :=
  match a, b with Some x, Some y => Some (f x y) | _, _ => None end.
Definition corner_angle (p q r : vec3) : option R := obind2 (fun s t => acos (dot s t)) (tangent p q) (tangent p r).
(* triangle_solid_angle_, camera_model.ipp:695-715 *)
Definition triangle_solid_angle (c0 c1 c2 : vec3) : option R :=
  match corner_angle c0 c1 c2, corner_angle c1 c0 c2, corner_angle c2 c0 c1 with
  | Some a, Some b, Some c => Some (a + b + c - PI)
  | _, _, _ => None
  end.
(* compute_pixel_solid_angles_, camera_model.ipp:659-684 *)
Definition pixel_solid_angle (c : camera) (x y : Z) : option R :=
  match onorm (pix_dir c (zpix x y)), onorm (pix_dir c (zpix (x + 1) y)),
        onorm (pix_dir c (zpix (x + 1) (y + 1))), onorm (pix_dir c (zpix x (y + 1))) with
  | Some c0, Some c1, Some c2, Some c3 => obind2 Rplus (triangle_solid_angle c0 c1 c2) (triangle_solid_angle c0 c2 c3)
  | _, _, _, _ => None
  end.
Definition solid_of (c : camera) : image (option R) := Build_image (res_x c) (res_y c) (pixel_solid_angle c).

Section Sampling.
(* Image::sample_bilinear<WrapMode::Clamp>, images/image.ipp; a parameter of this model *)
Variable sample : image (option vec3) -> R -> R -> option vec3.

(* cast_ray(int, int), camera_model.ipp:514-537; the assert is not modelled *)
Definition cast_dir (c : camera) (x y : Z) : option vec3 :=
  onorm (match dist c with
         | Some _ => sample (field c) (IZR x / IZR (rx c - 1)) (IZR y / IZR (ry c - 1))
         | None => pix_dir c (zpix x y)
         end).

(* the lambda update, camera_model.ipp:746-754, over a list of pixels; a NaN direction never compares less *)
Fixpoint scan (dir : Z -> Z -> option vec3) (zdir : vec3) (pts : list (Z * Z)) (s : vec3 * R) : vec3 * R :=
  match pts with
  | [] => s
  | (i, j) :: r =>
      let s' := match dir i j with
                | Some d => if Rltb (dot d zdir) (snd s) then (d, dot d zdir) else s
                | None => s
                end in
      scan dir zdir r s'
  end.
Definition zrange (a b : Z) : list Z := map (fun k => (a + Z.of_nat k)%Z) (seq 0 (Z.to_nat (b - a))).

(* compute_frustum_, camera_model.ipp:717-771 *)
Definition frustum_of (c : camera) : list (option vec3) :=
  let xdir := V3 1 0 0 in
  let ydir := if blender c then V3 0 (-1) 0 else V3 0 1 0 in
  let zdir := if blender c then V3 0 0 (-1) else V3 0 0 1 in
  let ext pts := fst (scan (cast_dir c) zdir pts (vzero, 100)) in
  let w := res_x c in let h := res_y c in
  let top := ext (map (fun i => (i, 0%Z)) (zrange 0 w)) in
  let bottom := ext (map (fun i => (i, (h - 1)%Z)) (zrange 0 w)) in
  let left := ext (map (fun j => (0%Z, j)) (zrange 1 (h - 1))) in
  let right := ext (map (fun j => ((w - 1)%Z, j)) (zrange 1 (h - 1))) in
  [Some zdir; normalize (cross ydir left); normalize (cross right ydir); normalize (cross top xdir); normalize (cross xdir bottom)].

(* Frustum::contains, frustum.ipp:25-33: a comparison with a NaN dot product is false, so a NaN plane rejects nothing *)
Definition real_planes (l : list (option vec3)) : list vec3 := flat_map (fun o => match o with Some n => [n] | None => [] end) l.
(* in_fov, camera_model.ipp:546-554 *)
Definition in_fov (c : camera) (p : vec3) : bool :=
  if Rltb (dot p p) (/ 1000000000000) then false else contains (real_planes (frustum c)) p.

(* ---- configuration calls: the new state, and whether the call threw ---- *)
Definition set_field c v := {| focal := focal c; res_x := res_x c; res_y := res_y c; pitch_x := pitch_x c; pitch_y := pitch_y c;
  fx := fx c; fy := fy c; cx := cx c; cy := cy c; rx := rx c; ry := ry c; is_explicit := is_explicit c; dist := dist c;
  blender := blender c; field := v; frustum := frustum c; solid := solid c |}.
Definition set_frustum c v := {| focal := focal c; res_x := res_x c; res_y := res_y c; pitch_x := pitch_x c; pitch_y := pitch_y c;
  fx := fx c; fy := fy c; cx := cx c; cy := cy c; rx := rx c; ry := ry c; is_explicit := is_explicit c; dist := dist c;
  blender := blender c; field := field c; frustum := v; solid := solid c |}.
Definition set_solid c v := {| focal := focal c; res_x := res_x c; res_y := res_y c; pitch_x := pitch_x c; pitch_y := pitch_y c;
  fx := fx c; fy := fy c; cx := cx c; cy := cy c; rx := rx c; ry := ry c; is_explicit := is_explicit c; dist := dist c;
  blender := blender c; field := field c; frustum := frustum c; solid := v |}.
Definition set_dist c v := {| focal := focal c; res_x := res_x c; res_y := res_y c; pitch_x := pitch_x c; pitch_y := pitch_y c;
  fx := fx c; fy := fy c; cx := cx c; cy := cy c; rx := rx c; ry := ry c; is_explicit := is_explicit c; dist := v;
  blender := blender c; field := field c; frustum := frustum c; solid := solid c |}.
Definition set_blender c v := {| focal := focal c; res_x := res_x c; res_y := res_y c; pitch_x := pitch_x c; pitch_y := pitch_y c;
  fx := fx c; fy := fy c; cx := cx c; cy := cy c; rx := rx c; ry := ry c; is_explicit := is_explicit c; dist := dist c;
  blender := v; field := field c; frustum := frustum c; solid := solid c |}.
Definition set_focal c v e := {| focal := v; res_x := res_x c; res_y := res_y c; pitch_x := pitch_x c; pitch_y := pitch_y c;
  fx := fx c; fy := fy c; cx := cx c; cy := cy c; rx := rx c; ry := ry c; is_explicit := e; dist := dist c;
  blender := blender c; field := field c; frustum := frustum c; solid := solid c |}.
Definition set_intr c a b u v e := {| focal := focal c; res_x := res_x c; res_y := res_y c; pitch_x := pitch_x c; pitch_y := pitch_y c;
  fx := a; fy := b; cx := u; cy := v; rx := rx c; ry := ry c; is_explicit := e; dist := dist c;
  blender := blender c; field := field c; frustum := frustum c; solid := solid c |}.
Definition set_res c w h := {| focal := focal c; res_x := w; res_y := h; pitch_x := pitch_x c; pitch_y := pitch_y c;
  fx := fx c; fy := fy c; cx := cx c; cy := cy c; rx := rx c; ry := ry c; is_explicit := is_explicit c; dist := dist c;
  blender := blender c; field := field c; frustum := frustum c; solid := solid c |}.
Definition set_pitch c a b := {| focal := focal c; res_x := res_x c; res_y := res_y c; pitch_x := a; pitch_y := b;
  fx := fx c; fy := fy c; cx := cx c; cy := cy c; rx := rx c; ry := ry c; is_explicit := is_explicit c; dist := dist c;
  blender := blender c; field := field c; frustum := frustum c; solid := solid c |}.
Definition set_rxy c a b := {| focal := focal c; res_x := res_x c; res_y := res_y c; pitch_x := pitch_x c; pitch_y := pitch_y c;
  fx := fx c; fy := fy c; cx := cx c; cy := cy c; rx := a; ry := b; is_explicit := is_explicit c; dist := dist c;
  blender := blender c; field := field c; frustum := frustum c; solid := solid c |}.

(* sequencing of calls that may throw *)
Definition thn (r : camera * bool) (k : camera -> camera * bool) : camera * bool := if snd r then r else k (fst r).

(* compute_intrinsics_, camera_model.ipp:600-615 *)
Definition compute_intrinsics (c : camera) : camera :=
  let c := set_rxy c (res_x c) (res_y c) in
  let c := if is_explicit c then c
           else set_intr c (fdiv (focal c) (pitch_x c)) (fdiv (focal c) (pitch_y c)) (cx c) (cy c) false in
  let c := set_frustum c (frustum_of c) in
  set_solid c (solid_of c).

(* SensorModel::set_resolution, sensor_model.ipp:36-43 *)
Definition sensor_set_resolution (w h : Z) (c : camera) : camera * bool :=
  if ((w <? 0) || (h <? 0))%bool%Z then (c, true) else (set_res c w h, false).
Definition bad_length (a : fl) : bool := le0 a || is_inf a || is_nan a.
(* SensorModel::set_pixel_pitch, sensor_model.ipp:53-64 (arguments in metres) *)
Definition sensor_set_pitch (a b : fl) (c : camera) : camera * bool :=
  if (bad_length a || bad_length b)%bool then (c, true) else (set_pitch c a b, false).
(* SensorModel::set_sensor_size, sensor_model.ipp:86-98 *)
Definition sensor_set_size (w h : fl) (c : camera) : camera * bool :=
  if (bad_length w || bad_length h)%bool then (c, true)
  else sensor_set_pitch (fdiv w (Fin (IZR (res_x c)))) (fdiv h (Fin (IZR (res_y c)))) c.

(* set_focal_length, camera_model.ipp:33-53 (argument in metres) *)
Definition set_focal_length (f : fl) (c : camera) : camera * bool :=
  let c := set_focal c f false in
  if bad_length f then (c, true) else (compute_intrinsics c, false).
(* set_distortion, camera_model.ipp:62-69; delete_distortion, camera_model.hpp:65 *)
Definition set_distortion (d : distortion) (c : camera) : camera * bool :=
  let c := set_dist c (Some d) in
  let c := set_field c (field_of c) in
  (set_frustum c (frustum_of c), false).
Definition delete_distortion (c : camera) : camera * bool := (set_dist c None, false).
(* use_blender_convention, camera_model.hpp:155 *)
Definition use_blender_convention (b : bool) (c : camera) : camera * bool := (set_blender c b, false).
(* set_sensor, camera_model.ipp:108-115, for a sensor whose constructor accepted its resolution and pitch *)
Definition set_sensor (w h : Z) (a b : fl) (c : camera) : camera * bool :=
  (compute_intrinsics (set_pitch (set_res c w h) a b), false).
(* the principal point default and check shared by configure_sensor_from_pitch and _from_size,
   camera_model.ipp:143-163 and 195-215 *)
Definition finish_configure (w h : Z) (u v : option fl) (c : camera) : camera * bool :=
  let cu := match u with Some a => a | None => Fin (IZR w * / 2) end in
  let cv := match v with Some a => a | None => Fin (IZR h * / 2) end in
  if (is_nan cu || is_nan cv || is_inf cu || is_inf cv)%bool then (c, true)
  else (compute_intrinsics (set_intr c (fx c) (fy c) cu cv (is_explicit c)), false).
(* configure_sensor_from_pitch, camera_model.ipp:127-165 *)
Definition configure_from_pitch (w h : Z) (px : fl) (py : option fl) (u v : option fl) (c : camera) : camera * bool :=
  let c := set_focal c (focal c) false in
  thn (sensor_set_resolution w h c) (fun c =>
  thn (sensor_set_pitch px (match py with Some a => a | None => px end) c) (finish_configure w h u v)).
(* configure_sensor_from_size, camera_model.ipp:178-217 *)
Definition configure_from_size (w h : Z) (width : fl) (height : option fl) (u v : option fl) (c : camera) : camera * bool :=
  let c := set_focal c (focal c) false in
  thn (sensor_set_resolution w h c) (fun c =>
  thn (match height with
       | Some b => sensor_set_size width b c
       | None => let p := fdiv width (Fin (IZR w)) in sensor_set_pitch p p c
       end) (finish_configure w h u v)).
(* set_intrinsics, camera_model.ipp:246-271 *)
Definition set_intrinsics (a b u v : fl) (w h : Z) (anchor : fl) (c : camera) : camera * bool :=
  let c := set_intr c a b u v true in
  thn (sensor_set_resolution w h c) (fun c =>
  let c := set_focal c anchor true in
  let px := fdiv (focal c) (fx c) in
  let py := fdiv (focal c) (fy c) in
  thn (sensor_set_pitch px py c) (fun c =>
  thn (sensor_set_size (fmulz px w) (fmulz py h) c) (fun c => (compute_intrinsics c, false)))).
(* set_intrinsic_matrix, camera_model.ipp:225-235. Mat3 is glm::mat<3,3>: m[c][r] is column c, row r. *)
Definition set_intrinsic_matrix (m : nat -> nat -> fl) (w h : Z) (anchor : fl) (c : camera) : camera * bool :=
  set_intrinsics (m 0 0)%nat (m 1 1)%nat (m 0 2)%nat (m 1 2)%nat w h anchor c.

(* the constructor, camera_model.ipp:17-27, with SensorConfig's defaults (sensor_model.hpp:27-29) and
   focal_length_ = .05 (camera_model.hpp:159) *)
Definition empty_image {A} (d : A) : image A := Build_image 0 0 (fun _ _ => d).
Definition camera0 : camera :=
  compute_intrinsics
    {| focal := Fin (5 / 100); res_x := 1024; res_y := 1024; pitch_x := Fin (85 / 10000000); pitch_y := Fin (85 / 10000000);
       fx := Fin 0; fy := Fin 0; cx := Fin (1024 * / 2); cy := Fin (1024 * / 2); rx := 0; ry := 0;
       is_explicit := false; dist := None; blender := false; field := empty_image None; frustum := []; solid := empty_image None |}.

(* a configuration call *)
Inductive call :=
| SetFocalLength (f : fl) | SetDistortion (d : distortion) | DeleteDistortion | UseBlender (b : bool)
| SetSensor (w h : Z) (a b : R)
| ConfigurePitch (w h : Z) (px : fl) (py u v : option fl)
| ConfigureSize (w h : Z) (width : fl) (height u v : option fl)
| SetIntrinsics (a b u v : fl) (w h : Z) (anchor : fl).
Definition do_call (k : call) (c : camera) : camera * bool :=
  match k with
  | SetFocalLength f => set_focal_length f c
  | SetDistortion d => set_distortion d c
  | DeleteDistortion => delete_distortion c
  | UseBlender b => use_blender_convention b c
  | SetSensor w h a b => set_sensor w h (Fin a) (Fin b) c
  | ConfigurePitch w h px py u v => configure_from_pitch w h px py u v c
  | ConfigureSize w h width height u v => configure_from_size w h width height u v c
  | SetIntrinsics a b u v w h anchor => set_intrinsics a b u v w h anchor c
  end.
(* a history; an exception thrown by a call is caught by the user *)
Fixpoint run (l : list call) (c : camera) : camera := match l with [] => c | k :: r => run r (fst (do_call k c)) end.
End Sampling.
