(* What a user expects of the camera. *)
From Verif Require Import Vec3 DistortionModel CameraModel.

(* depth of a point along the viewing axis of the chosen convention *)
Definition depth (blender : bool) (p : vec3) : R := if blender then - vz p else vz p.

(* K p, dehomogenised: K is a 3x3 matrix given by row and column; y is counted downwards, so in
   Blender's convention the camera axes y and z are flipped first *)
Definition matrix_project (K : nat -> nat -> R) (p : vec3) : pixel :=
  let row i := K i 0%nat * vx p + K i 1%nat * vy p + K i 2%nat * vz p in
  (row 0%nat / row 2%nat, row 1%nat / row 2%nat).
Definition pinhole_matrix (f g u v : R) (i j : nat) : R :=
  match i, j with
  | O, O => f | O, 2%nat => u
  | 1%nat, 1%nat => g | 1%nat, 2%nat => v
  | 2%nat, 2%nat => 1
  | _, _ => 0
  end.

(* inside the rectangle spanned by the outermost pixel positions (0,0) and (w-1,h-1) *)
Definition between_pixels (w h : Z) (q : pixel) : Prop :=
  0 <= fst q <= IZR (w - 1) /\ 0 <= snd q <= IZR (h - 1).
(* inside the image: pixel (x,y) covers [x,x+1) x [y,y+1), as in the solid angle map *)
Definition inside_image (w h : Z) (q : pixel) : Prop :=
  0 <= fst q < IZR w /\ 0 <= snd q < IZR h.

Section Fresh.
Variable sample : image (option vec3) -> R -> R -> option vec3.
(* the cached data are those of the current configuration *)
Definition fresh (c : camera) : Prop :=
  rx c = res_x c /\ ry c = res_y c
  /\ (dist c <> None -> field c = field_of c)
  /\ frustum c = frustum_of sample c
  /\ solid c = solid_of c.
(* no call of the history throws, starting from c *)
Fixpoint all_return (l : list call) (c : camera) : Prop :=
  match l with [] => True | k :: r => snd (do_call sample k c) = false /\ all_return r (fst (do_call sample k c)) end.
End Fresh.
(* calls that change neither the distortion nor the axis convention *)
Definition plain_call (k : call) : Prop :=
  match k with SetDistortion _ | DeleteDistortion | UseBlender _ => False | _ => True end.
(* what the getters focal_length(), resolution(), sensor pitch and project_point depend on *)
Definition observables (c : camera) := (focal c, (res_x c, res_y c), (pitch_x c, pitch_y c), (fx c, fy c), (cx c, cy c)).
