(* Model of ModelLoader::load (include/huira_impl/assets/io/model_loader.ipp:31-290), reached by Scene::load_model
   (include/huira_impl/scene/scene.ipp:746-754), with the Scene calls it makes: add_geometry, add_primitive, new_material,
   new_bsdf_cook_torrance, register_node_name_ (scene.ipp:160-166, 278-301, 791-795, 849-870, 1404-1408).
   The input is what ASSIMP returns. Floats are exact reals. A call leaves a scene even when it throws.
   Simplified: textures and factors of materials are left out (they never throw; see TextureModel.v); logging is left out;
   deleting assets is left out, so an asset is the place it has in its registry. *)
From Verif Require Import Common Vec3 TransformModel SurfaceModel RegistryModel.
Open Scope R_scope.
Open Scope list_scope.

(** What ASSIMP returns *)
(* aiMatrix4x4 by its columns; the fourth row is not read *)
Record mat4 := M4 { k0 : vec3; k1 : vec3; k2 : vec3; k3 : vec3 }.
(* aiMesh: an absent array is None (HasNormals, HasTextureCoords(0), HasVertexColors(0), HasTangentsAndBitangents) *)
Record ai_mesh := AM { am_name : string; am_verts : list vec3; am_normals : option (list vec3); am_uvs : option (list (R * R));
  am_colors : option (list (R * R * R)); am_tangents : option (list (vec3 * vec3)); am_faces : list (list nat); am_material : nat }.
(* aiNode *)
Inductive ai_node := AN (name : string) (mat : mat4) (meshes : list nat) (kids : list ai_node).
(* aiScene: the names of the materials, the meshes and the root *)
Record ai_file := AF { f_materials : list string; f_meshes : list ai_mesh; f_matrix : mat4; f_root_meshes : list nat; f_kids : list ai_node }.

(** The scene *)
(* a FrameNode of a model: its transform, the primitives of its instances, its child frames (how
   instances and child frames interleave is left out) *)
Inductive frame := Frame (xf : transform) (insts : list nat) (kids : list frame).
(* the registries, in the order of insertion, and the next SceneObject id; a primitive is its geometry and its material *)
Record lscene := LS { l_models : list (string * frame); l_bsdfs : list (string * unit); l_mats : list (string * unit); l_geoms : list (string * mesh);
  l_prims : list (string * (nat * nat)); l_nodes : list (string * unit); l_next : N }.

(* NameRegistry::add, name_registry.ipp:17-31 *)
Definition add_item {A} (ty : string) (id : N) (l : list (string * A)) (name : string) (a : A) : outcome (list (string * A)) :=
  obind (make_unique_name (map (fun p => (fst p, 0%N)) l) (if String.eqb name "" then (ty ++ "." ++ dec id)%string else name)) (fun n => Ok (l ++ [(n, a)])).

(* a call that changes the scene, then returns, throws or is undefined *)
Definition res (A : Type) := (lscene * outcome A)%type.
Definition rbind {A B} (x : res A) (f : lscene -> A -> res B) : res B :=
  match x with (s, Ok a) => f s a | (s, Throws) => (s, Throws) | (s, UB) => (s, UB) end.
(* storing what a registry call returned; a new object takes an id *)
Definition store {A} (s : lscene) (x : outcome (list A)) (f : lscene -> list A -> lscene) : res unit :=
  match x with Ok l => (f s l, Ok tt) | Throws => (s, Throws) | UB => (s, UB) end.
Definition s_models (s : lscene) l := LS l (l_bsdfs s) (l_mats s) (l_geoms s) (l_prims s) (l_nodes s) (l_next s + 1).
Definition s_bsdfs (s : lscene) l := LS (l_models s) l (l_mats s) (l_geoms s) (l_prims s) (l_nodes s) (l_next s + 1).
Definition s_mats (s : lscene) l := LS (l_models s) (l_bsdfs s) l (l_geoms s) (l_prims s) (l_nodes s) (l_next s + 1).
Definition s_geoms (s : lscene) l := LS (l_models s) (l_bsdfs s) (l_mats s) l (l_prims s) (l_nodes s) (l_next s + 1).
Definition s_prims (s : lscene) l := LS (l_models s) (l_bsdfs s) (l_mats s) (l_geoms s) l (l_nodes s) (l_next s + 1).
Definition s_nodes (s : lscene) l := LS (l_models s) (l_bsdfs s) (l_mats s) (l_geoms s) (l_prims s) l (l_next s + 1).

(* process_materials_, model_loader.ipp:366-476, the registrations only *)
Fixpoint new_materials (names : list string) (s : lscene) : res unit :=
  match names with
  | [] => (s, Ok tt)
  | n :: r => rbind (store s (add_item "Material" (l_next s) (l_mats s) n tt) s_mats) (fun s _ => new_materials r s)
  end.
Definition process_materials (names : list string) (s : lscene) : res unit :=
  rbind (store s (add_item "CookTorranceBSDF" (l_next s) (l_bsdfs s) "" tt) s_bsdfs) (fun s _ => new_materials names s).

(* the index buffer, 155-167: faces of other than three indices are left out *)
Fixpoint index_buffer (faces : list (list nat)) : list nat :=
  match faces with [] => [] | f :: r => if Nat.eqb (List.length f) 3 then f ++ index_buffer r else index_buffer r end.
(* one vertex, 174-211 *)
Section Convert.
Variable conv : R * R * R -> list R. (* spectral_conversion *)
Variable one : list R. (* TSpectral{1}: Vertex's default albedo, vertex.hpp:19 *)
Definition convert_vertex (m : ai_mesh) (i : nat) (p : vec3) : outcome vertex :=
  obind (match am_normals m with Some l => at_ l i | None => Ok (V3 0 1 0) end) (fun n =>
  obind (match am_uvs m with Some l => obind (at_ l i) (fun t => Ok (fst t, 1 - snd t)) | None => Ok (0, 0) end) (fun t =>
  obind (match am_colors m with Some l => obind (at_ l i) (fun c => Ok (conv c)) | None => Ok one end) (fun a =>
  Ok (Vx p a n (fst t) (snd t))))).
Fixpoint convert_vertices (m : ai_mesh) (i : nat) (ps : list vec3) : outcome (list vertex) :=
  match ps with [] => Ok [] | p :: r => obind (convert_vertex m i p) (fun v => obind (convert_vertices m (S i) r) (fun l => Ok (v :: l))) end.
(* the tangents pushed in the same loop, 203-208 *)
Fixpoint convert_tangents (m : ai_mesh) (i : nat) (ps : list vec3) : outcome (list (vec3 * vec3)) :=
  match ps with
  | [] => Ok []
  | _ :: r => match am_tangents m with
      | Some l => obind (at_ l i) (fun t => obind (convert_tangents m (S i) r) (fun q => Ok (t :: q)))
      | None => convert_tangents m (S i) r
      end
  end.
(* the Mesh of an aiMesh, 155-217 *)
Definition build_mesh (m : ai_mesh) : outcome mesh :=
  obind (convert_vertices m 0 (am_verts m)) (fun vs => obind (convert_tangents m 0 (am_verts m)) (fun ts => new_mesh (index_buffer (am_faces m)) vs ts)).
(* convert_mesh_, 150-235; nmat is the size of ctx.material_map, whose materials are the last nmat of the scene. An invalid
   material handle makes add_primitive throw (scene.ipp:288-290) after the geometry has been registered. Returns the primitive *)
Definition convert_mesh (nmat : nat) (m : ai_mesh) (s : lscene) : res nat :=
  rbind (s, build_mesh m) (fun s g =>
  let gi := List.length (l_geoms s) in
  rbind (store s (add_item "Mesh" (l_next s) (l_geoms s) (am_name m) g) s_geoms) (fun s _ =>
  if Nat.ltb (am_material m) nmat then
    let mi := (List.length (l_mats s) - nmat + am_material m)%nat in
    let pi := List.length (l_prims s) in
    rbind (store s (add_item "Primitive" (l_next s) (l_prims s) (am_name m) (gi, mi)) s_prims) (fun s _ => (s, Ok pi))
  else (s, Throws))).
(* process_meshes_, 125-138: the primitive map, mesh index -> primitive *)
Fixpoint process_meshes (nmat : nat) (ms : list ai_mesh) (s : lscene) : res (list nat) :=
  match ms with
  | [] => (s, Ok [])
  | m :: r => rbind (convert_mesh nmat m s) (fun s p => rbind (process_meshes nmat r s) (fun s l => (s, Ok (p :: l))))
  end.

(* a node matrix, 301-350 *)
Definition convert_matrix (m : mat4) : outcome transform := convert_transform (k0 m) (k1 m) (k2 m) (k3 m).
(* a new FrameNode: Node's members, node.hpp *)
Definition rest : transform := T vzero (M3 (V3 1 0 0) (V3 0 1 0) (V3 0 0 1)) (V3 1 1 1) vzero vzero.
(* the instances of one node, 266-283: the instances made and whether the loop ended *)
Fixpoint instances (prims : list nat) (ms : list nat) : list nat * outcome unit :=
  match ms with
  | [] => ([], Ok tt)
  | i :: r => match nth_error prims i with
      | Some p => let '(l, o) := instances prims r in (p :: l, o)
      | None => ([], Throws)
      end
  end.
(* process_node_, 246-290: the scene and the frame it leaves, also when it throws *)
Definition kids_loop (rec : ai_node -> lscene -> lscene * frame * outcome unit) :=
  fix go (l : list ai_node) (s : lscene) : lscene * list frame * outcome unit :=
    match l with
    | [] => (s, [], Ok tt)
    | k :: r => match rec k s with
        | (s, f, Ok _) => let '(s, fs, o) := go r s in (s, f :: fs, o)
        | (s, f, o) => (s, [f], o)
        end
    end.
Fixpoint process_node (prims : list nat) (n : ai_node) (s : lscene) : lscene * frame * outcome unit :=
  match n with AN name mat ms kids =>
    match convert_matrix mat with
    | Ok x =>
        match store s (add_item "FrameNode" (l_next s) (l_nodes s) name tt) s_nodes with
        | (s, Ok _) =>
            match instances prims ms with
            | (l, Ok _) => let '(s, fs, o) := kids_loop (process_node prims) kids s in (s, Frame x l fs, o)
            | (l, o) => (s, Frame x l [], o)
            end
        | (s, o) => (s, Frame x [] [], o)
        end
    | Throws => (s, Frame rest [] [], Throws)
    | UB => (s, Frame rest [] [], UB)
    end
  end.
Definition process_kids (prims : list nat) (l : list ai_node) (s : lscene) := kids_loop (process_node prims) l s.
(* the root's own meshes, 95-107: an unknown index is only logged *)
Fixpoint root_instances (prims : list nat) (ms : list nat) : list nat :=
  match ms with [] => [] | i :: r => match nth_error prims i with Some p => p :: root_instances prims r | None => root_instances prims r end end.
(* the frames hang below the model, which the scene already holds *)
Definition put_root (k : nat) (f : frame) (s : lscene) : lscene :=
  match nth_error (l_models s) k with
  | Some (n, _) => LS (upd (l_models s) k (n, f)) (l_bsdfs s) (l_mats s) (l_geoms s) (l_prims s) (l_nodes s) (l_next s)
  | None => s
  end.
(* ModelLoader::load, 31-115: None is a file that is missing or that ASSIMP rejects; stem is the file name without extension.
   Returns the model *)
Definition load_model (stem name : string) (file : option ai_file) (s : lscene) : res nat :=
  match file with
  | None => (s, Throws)
  | Some f =>
      let k := List.length (l_models s) in
      rbind (store s (add_item "Model" (l_next s) (l_models s) (if String.eqb name "" then stem else name) (Frame rest [] [])) s_models) (fun s _ =>
      rbind (process_materials (f_materials f) s) (fun s _ =>
      rbind (process_meshes (List.length (f_materials f)) (f_meshes f) s) (fun s prims =>
      rbind (s, convert_matrix (f_matrix f)) (fun s x =>
      match process_kids prims (f_kids f) s with
      | (s, fs, Ok _) => (put_root k (Frame x (root_instances prims (f_root_meshes f)) fs) s, Ok k)
      | (s, fs, Throws) => (put_root k (Frame x [] fs) s, Throws)
      | (s, fs, UB) => (put_root k (Frame x [] fs) s, UB)
      end))))
  end.
End Convert.
