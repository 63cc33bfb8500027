(* Specification of loading a model file: what the file says, in terms of what ASSIMP returns. Independent of how it is converted *)
From Verif Require Import Common Vec3 TransformModel TransformSpec SurfaceModel RegistryModel LoadModel.
Open Scope R_scope.
Open Scope list_scope.

(* the three-cornered faces, in the order of the file *)
Fixpoint triangles (faces : list (list nat)) : list (nat * nat * nat) :=
  match faces with [] => [] | [a; b; c] :: r => (a, b, c) :: triangles r | _ :: r => triangles r end.
(* every array a mesh has holds one entry for each vertex *)
Definition complete (m : ai_mesh) : Prop :=
  let n := List.length (am_verts m) in
  (forall l, am_normals m = Some l -> List.length l = n) /\ (forall l, am_uvs m = Some l -> List.length l = n) /\
  (forall l, am_colors m = Some l -> List.length l = n) /\ (forall l, am_tangents m = Some l -> List.length l = n).
(* the data of a vertex: an absent normal is +y, absent texture coordinates are 0, an absent colour is white *)
Definition file_pos (m : ai_mesh) (i : nat) : vec3 := nth i (am_verts m) vzero.
Definition file_normal (m : ai_mesh) (i : nat) : vec3 := match am_normals m with Some l => nth i l vzero | None => V3 0 1 0 end.
Definition file_u (m : ai_mesh) (i : nat) : R := match am_uvs m with Some l => fst (nth i l (0, 0)) | None => 0 end.
Definition file_v (m : ai_mesh) (i : nat) : R := match am_uvs m with Some l => 1 - snd (nth i l (0, 0)) | None => 0 end.
Definition file_albedo (conv : R * R * R -> list R) (one : list R) (m : ai_mesh) (i : nat) : list R :=
  match am_colors m with Some l => conv (nth i l (0, 0, 0)) | None => one end.
Definition file_tangent (m : ai_mesh) (i : nat) : vec3 * vec3 := match am_tangents m with Some l => nth i l (vzero, vzero) | None => (vzero, vzero) end.

(* the triangles refer to vertices of the mesh *)
Definition indices_ok (m : ai_mesh) : Prop := forall a b c, In (a, b, c) (triangles (am_faces m)) -> (a < List.length (am_verts m) /\ b < List.length (am_verts m) /\ c < List.length (am_verts m))%nat.
(* the surface a mesh of the file shows at the barycentric point (1 - u - v, u, v) of a triangle *)
Definition file_surface (conv : R * R * R -> list R) (one : list R) (m : ai_mesh) (a b c : nat) (u v : R) : local :=
  let w := 1 - u - v in
  Lo (mix3 w u v (file_pos m a) (file_pos m b) (file_pos m c)) (mix3 w u v (file_normal m a) (file_normal m b) (file_normal m c))
     (mix1 w u v (file_u m a) (file_u m b) (file_u m c)) (mix1 w u v (file_v m a) (file_v m b) (file_v m c))
     (mixl w u v (file_albedo conv one m a) (file_albedo conv one m b) (file_albedo conv one m c))
     (Some (mix3 w u v (fst (file_tangent m a)) (fst (file_tangent m b)) (fst (file_tangent m c)))) (Some (mix3 w u v (snd (file_tangent m a)) (snd (file_tangent m b)) (snd (file_tangent m c)))).
(* a mesh that can be loaded: its triangles have their vertices, its material is in the file *)
Definition mesh_ok (nmat : nat) (m : ai_mesh) : Prop := indices_ok m /\ (am_material m < nmat)%nat.
(* every node below the root: its matrix and its meshes *)
Fixpoint nodes_of (n : ai_node) : list (mat4 * list nat) := match n with AN _ m ms kids => (m, ms) :: flat_map nodes_of kids end.
(* the placements: the matrices from the top down to the node, and the mesh *)
Fixpoint node_places (pre : list mat4) (n : ai_node) : list (list mat4 * nat) :=
  match n with AN _ m ms kids => map (fun i => (pre ++ [m], i)) ms ++ flat_map (node_places (pre ++ [m])) kids end.
Fixpoint frame_places (pre : list transform) (f : frame) : list (list transform * nat) :=
  match f with Frame x ps kids => map (fun p => (pre ++ [x], p)) ps ++ flat_map (frame_places (pre ++ [x])) kids end.
(* the matrices accepted: their columns, made unit vectors, span a volume within 1/1000 of 1 (columns shorter than 1e-10 are kept) *)
Definition unit_of (c : vec3) : vec3 := if Rltb (/ 10 ^ 10) (vlen c) then vscale (/ vlen c) c else c.
Definition accepted (m : mat4) : Prop := Rabs (dot (unit_of (k0 m)) (cross (unit_of (k1 m)) (unit_of (k2 m))) - 1) <= / 1000.
(* a node that can be loaded: its matrix is accepted, its meshes are in the file *)
Definition node_fine (n : nat) (x : mat4 * list nat) : Prop := accepted (fst x) /\ Forall (fun i => (i < n)%nat) (snd x).
(* number of nodes *)
Fixpoint ai_size (n : ai_node) : nat := match n with AN _ _ _ kids => S (list_sum (map ai_size kids)) end.
(* a registry stays below 2^31 - 1 names when n more are added *)
Definition small {A} (l : list A) (n : nat) : Prop := (N.of_nat (List.length l + n) < int_max)%N.
(* the files that can be loaded *)
Definition loadable (f : ai_file) : Prop :=
  Forall (mesh_ok (List.length (f_materials f))) (f_meshes f) /\ accepted (f_matrix f) /\ Forall (node_fine (List.length (f_meshes f))) (flat_map nodes_of (f_kids f)).
(* no registry comes near 2^31 names *)
Definition room (s : lscene) (f : ai_file) : Prop :=
  small (l_models s) 1 /\ small (l_bsdfs s) 1 /\ small (l_mats s) (List.length (f_materials f)) /\ small (l_geoms s) (List.length (f_meshes f)) /\
  small (l_prims s) (List.length (f_meshes f)) /\ small (l_nodes s) (list_sum (map ai_size (f_kids f))).
(* the placements of a file; the root's meshes that are not in the file are left out *)
Definition file_places (f : ai_file) : list (list mat4 * nat) :=
  map (fun i => ([f_matrix f], i)) (filter (fun i => Nat.ltb i (List.length (f_meshes f))) (f_root_meshes f)) ++ flat_map (node_places [f_matrix f]) (f_kids f).
(* the name asked for *)
Definition wanted (stem name : string) : string := if String.eqb name "" then stem else name.
(* a point through a chain of matrices, and through a chain of frames *)
Definition matrix_point (m : mat4) (p : vec3) : vec3 := vadd (vadd (vadd (vscale (vx p) (k0 m)) (vscale (vy p) (k1 m))) (vscale (vz p) (k2 m))) (k3 m).
Definition by_matrices (ms : list mat4) (p : vec3) : vec3 := fold_right matrix_point p ms.
Definition by_frames (xs : list transform) (p : vec3) : vec3 := fold_right to_point p xs.
(* matrices made of a rotation and a scale along each axis, in that order *)
Definition scaled_rotation (m : mat4) : Prop := exists r s, is_rotation r /\ / 10 ^ 10 < vx s /\ / 10 ^ 10 < vy s /\ / 10 ^ 10 < vz s /\
  k0 m = vscale (vx s) (c0 r) /\ k1 m = vscale (vy s) (c1 r) /\ k2 m = vscale (vz s) (c2 r).
(* a name some item of a registry has *)
Definition has_name {A} (l : list (string * A)) (n : string) : Prop := In n (map fst l).
