(* Model of the scene graph: include/huira_impl/scene/{node,frame_node,scene,scene_view}.ipp, instance.hpp, and the part
   of include/huira_impl/assets/io/model_loader.ipp that builds model graphs.
   Simplifications: nodes and assets are numbers (their addresses), nodes are never reused; doubles are opaque values that
   are only stored and returned (their bit patterns); asset names are omitted (RegistryModel has them), so an asset
   registry is the list of its assets; a call through a handle to a removed node is let through (HandleGet in
   RegistryModel rejects it), which only adds behaviours. *)
From Verif Require Import Common RegistryModel.

Definition vec := (Z * Z * Z)%type.
Definition quat := (Z * Z * Z * Z)%type.
(* TransformMode, include/huira/scene/node.hpp:29-35 *)
Inductive tmode := Manual | Spice | PosCallback | RotCallback | StateCallback.
Definition tmode_eqb (a b : tmode) : bool :=
  match a, b with Manual, Manual | Spice, Spice | PosCallback, PosCallback | RotCallback, RotCallback | StateCallback, StateCallback => true | _, _ => false end.
(* Instantiable, include/huira/scene/instance.hpp:29-34 *)
Inductive asset := APrim (i : nat) | ALight (i : nat) | AUnresolved (i : nat) | ACamera (i : nat) | AModel (i : nat).
Definition asset_eqb (a b : asset) : bool :=
  match a, b with
  | APrim i, APrim j | ALight i, ALight j | AUnresolved i, AUnresolved j | ACamera i, ACamera j | AModel i, AModel j => Nat.eqb i j
  | _, _ => false
  end.

(* Node, include/huira/scene/node.hpp:130-160, FrameNode::children_ and Instance::asset_ (None for a frame).
   n_scene is scene_ != nullptr; the three callbacks are the unique_ptrs, None for null *)
Record node := Node {
  n_scene : bool; n_parent : option nat; n_children : list nat; n_asset : option asset;
  n_pos : vec; n_vel : vec; n_rot : quat; n_ang : vec; n_scale : vec; n_body : bool;
  n_pmode : tmode; n_rmode : tmode; n_origin : string; n_frame : string;
  n_pcb : option nat; n_rcb : option nat; n_scb : option nat }.
(* a node as its constructor leaves it, node.ipp:22-25 and set_parent_, node.hpp:162 *)
Definition fresh (sc : bool) (p : option nat) (a : option asset) : node :=
  Node sc p [] a (0, 0, 0)%Z (0, 0, 0)%Z (0, 0, 0, 1)%Z (0, 0, 0)%Z (1, 1, 1)%Z false Manual Manual "" "" None None None.

(* field updates *)
Definition w_children c (n : node) := Node (n_scene n) (n_parent n) c (n_asset n) (n_pos n) (n_vel n) (n_rot n) (n_ang n) (n_scale n) (n_body n) (n_pmode n) (n_rmode n) (n_origin n) (n_frame n) (n_pcb n) (n_rcb n) (n_scb n).
Definition w_pos x m o (n : node) := Node (n_scene n) (n_parent n) (n_children n) (n_asset n) x (n_vel n) (n_rot n) (n_ang n) (n_scale n) (n_body n) m (n_rmode n) o (n_frame n) (n_pcb n) (n_rcb n) (n_scb n).
Definition w_rot x m f (n : node) := Node (n_scene n) (n_parent n) (n_children n) (n_asset n) (n_pos n) (n_vel n) x (n_ang n) (n_scale n) (n_body n) (n_pmode n) m (n_origin n) f (n_pcb n) (n_rcb n) (n_scb n).
Definition w_scale x (n : node) := Node (n_scene n) (n_parent n) (n_children n) (n_asset n) (n_pos n) (n_vel n) (n_rot n) (n_ang n) x (n_body n) (n_pmode n) (n_rmode n) (n_origin n) (n_frame n) (n_pcb n) (n_rcb n) (n_scb n).
Definition w_vel x (n : node) := Node (n_scene n) (n_parent n) (n_children n) (n_asset n) (n_pos n) x (n_rot n) (n_ang n) (n_scale n) (n_body n) (n_pmode n) (n_rmode n) (n_origin n) (n_frame n) (n_pcb n) (n_rcb n) (n_scb n).
Definition w_ang x b (n : node) := Node (n_scene n) (n_parent n) (n_children n) (n_asset n) (n_pos n) (n_vel n) (n_rot n) x (n_scale n) b (n_pmode n) (n_rmode n) (n_origin n) (n_frame n) (n_pcb n) (n_rcb n) (n_scb n).
Definition w_pcb c (n : node) := Node (n_scene n) (n_parent n) (n_children n) (n_asset n) (n_pos n) (n_vel n) (n_rot n) (n_ang n) (n_scale n) (n_body n) (n_pmode n) (n_rmode n) (n_origin n) (n_frame n) c (n_rcb n) (n_scb n).
Definition w_rcb c (n : node) := Node (n_scene n) (n_parent n) (n_children n) (n_asset n) (n_pos n) (n_vel n) (n_rot n) (n_ang n) (n_scale n) (n_body n) (n_pmode n) (n_rmode n) (n_origin n) (n_frame n) (n_pcb n) c (n_scb n).
Definition w_scb c (n : node) := Node (n_scene n) (n_parent n) (n_children n) (n_asset n) (n_pos n) (n_vel n) (n_rot n) (n_ang n) (n_scale n) (n_body n) (n_pmode n) (n_rmode n) (n_origin n) (n_frame n) (n_pcb n) (n_rcb n) c.

(* Scene, include/huira/scene/scene.hpp: the node heap (node 0 is root_node_), node_registry_, primitives_ with the
   geometry of each, geometries_, the other asset registries in one list, and Model::root_node_ of each model *)
Record scene := Scene {
  sc_nodes : list node; sc_nreg : registry;
  sc_prims : list (nat * nat); sc_geoms : list nat; sc_others : list asset; sc_models : list (nat * nat);
  sc_next : nat }.
Definition w_nodes l (s : scene) := Scene l (sc_nreg s) (sc_prims s) (sc_geoms s) (sc_others s) (sc_models s) (sc_next s).
Definition w_nreg r (s : scene) := Scene (sc_nodes s) r (sc_prims s) (sc_geoms s) (sc_others s) (sc_models s) (sc_next s).
Definition w_prims l (s : scene) := Scene (sc_nodes s) (sc_nreg s) l (sc_geoms s) (sc_others s) (sc_models s) (sc_next s).
Definition w_geoms l (s : scene) := Scene (sc_nodes s) (sc_nreg s) (sc_prims s) l (sc_others s) (sc_models s) (sc_next s).
Definition w_others l (s : scene) := Scene (sc_nodes s) (sc_nreg s) (sc_prims s) (sc_geoms s) l (sc_models s) (sc_next s).
Definition w_models l (s : scene) := Scene (sc_nodes s) (sc_nreg s) (sc_prims s) (sc_geoms s) (sc_others s) l (sc_next s).
Definition bump (s : scene) := Scene (sc_nodes s) (sc_nreg s) (sc_prims s) (sc_geoms s) (sc_others s) (sc_models s) (S (sc_next s)).
Definition get (s : scene) (i : nat) : option node := nth_error (sc_nodes s) i.
Definition put (s : scene) (i : nat) (n : node) : scene := w_nodes (upd (sc_nodes s) i n) s.
(* Scene::Scene, scene.ipp:43-48: the root is a frame with set_spice applied (lines 250-269 of node.ipp) *)
Definition new_scene : scene :=
  Scene [Node true None [] None (0, 0, 0)%Z (0, 0, 0)%Z (0, 0, 0, 1)%Z (0, 0, 0)%Z (1, 1, 1)%Z false Spice Spice "SOLAR SYSTEM BARYCENTER" "J2000" None None None]
    empty_registry [] [] [] [] 0.

(** Node setters and getters *)
(* FrameNode::position_must_be_spice_, frame_node.ipp:158-166, and rotation_must_be_spice_, 173-181; Node's versions
   return false (node.hpp:141-144), which is the same as having no children *)
Definition pos_must (s : scene) (n : node) : bool := existsb (fun c => match get s c with Some m => tmode_eqb (n_pmode m) Spice | None => false end) (n_children n).
Definition rot_must (s : scene) (n : node) : bool := existsb (fun c => match get s c with Some m => tmode_eqb (n_rmode m) Spice | None => false end) (n_children n).
(* position_can_be_spice_, node.ipp:737-746, and rotation_can_be_spice_, 748-757 *)
Definition pos_can (s : scene) (n : node) : bool := match n_parent n with Some p => match get s p with Some m => tmode_eqb (n_pmode m) Spice | None => true end | None => true end.
Definition rot_can (s : scene) (n : node) : bool := match n_parent n with Some p => match get s p with Some m => tmode_eqb (n_rmode m) Spice | None => true end | None => true end.

Inductive nop :=
| SetPosition (v : vec) | SetRotation (q : quat) | SetScale (v : vec) | SetVelocity (v : vec)
| SetAngular (v : vec) | SetAngularUnits (v : vec) | SetBodyAngular (v : vec)
| SetManual (pos vel : vec) (rot : quat) (ang scale : vec)
| SetOrigin (o : string) | SetFrame (f : string) | SetSpice (o f : string)
| SetPosCallback (c : nat) | SetRotCallback (c : nat) | SetStateCallback (c : nat).
(* the setters of one node: set_position node.ipp:31-64, set_rotation 70-84, set_scale 90-112, set_velocity 118-150,
   set_angular_velocity 156-188, set_body_angular_velocity 196-212, set_manual_transform 214-227, set_spice_origin
   233-245, set_spice_frame 251-263, set_spice 270-289, callbacks 291-300, 316-322, 337-345 (set_keplerian_orbit and the
   z_up/z_down setters call these) *)
Definition setter (s : scene) (n : node) (o : nop) : outcome node :=
  match o with
  | SetPosition v => if pos_must s n then Throws else Ok (w_pos v Manual "" n)
  | SetRotation q => if rot_must s n then Throws else Ok (w_rot q Manual "" n)
  | SetScale v => Ok (w_scale v n)
  | SetVelocity v => if tmode_eqb (n_pmode n) Manual then Ok (w_vel v n) else Throws
  | SetAngular v => if tmode_eqb (n_rmode n) Manual then Ok (w_ang v (n_body n) n) else Throws
  | SetAngularUnits v => if tmode_eqb (n_rmode n) Manual then Ok (w_ang v false n) else Throws
  | SetBodyAngular v => if tmode_eqb (n_rmode n) Manual then Ok (w_ang v true n) else Throws
  | SetManual p v q a sc => if rot_must s n || pos_must s n then Throws
      else Ok (w_scale sc (w_ang a false (w_rot q (n_rmode n) (n_frame n) (w_vel v (w_pos p (n_pmode n) (n_origin n) n)))))
  | SetOrigin o => if pos_can s n then Ok (w_pos (n_pos n) Spice o n) else Throws
  | SetFrame f => if rot_can s n then Ok (w_rot (n_rot n) Spice f n) else Throws
  | SetSpice o f => if pos_can s n then if rot_can s n then Ok (w_rot (n_rot n) Spice f (w_pos (n_pos n) Spice o n)) else Throws else Throws
  | SetPosCallback c => Ok (w_pcb (Some c) (w_pos (n_pos n) PosCallback "" n))
  | SetRotCallback c => Ok (w_rcb (Some c) (w_rot (n_rot n) RotCallback "" n))
  | SetStateCallback c => Ok (w_scb (Some c) (w_rot (n_rot n) StateCallback "" (w_pos (n_pos n) StateCallback "" n)))
  end.
(* getters, node.ipp:566-640 *)
Definition get_position (n : node) : outcome vec := if tmode_eqb (n_pmode n) Manual then Ok (n_pos n) else Throws.
Definition get_rotation (n : node) : outcome quat := if tmode_eqb (n_pmode n) Manual then Ok (n_rot n) else Throws.
Definition get_scale (n : node) : outcome vec := Ok (n_scale n).
Definition get_velocity (n : node) : outcome vec := if tmode_eqb (n_pmode n) Manual then Ok (n_vel n) else Throws.
Definition get_angular (n : node) : outcome vec := if tmode_eqb (n_pmode n) Manual then Ok (n_ang n) else Throws.
Definition get_origin (n : node) : outcome string := if tmode_eqb (n_pmode n) Spice then Ok (n_origin n) else Throws.
Definition get_frame (n : node) : outcome string := if tmode_eqb (n_pmode n) Spice then Ok (n_frame n) else Throws.

(* where get_ssb_transform_ takes the local position and rotation of a node from; PZero/RIdentity: from nowhere, the
   default-constructed Transform stays *)
Inductive psource := FromSpice (o : string) | FromManual (p v : vec) | FromCallback (c : nat) | FromState (c : nat) | PZero.
Inductive rsource := RFromSpice (f : string) | RFromManual (q : quat) (w : vec) (body : bool) | RFromCallback (c : nat) | RFromState (c : nat) | RIdentity.
(* the branches of get_ssb_transform_ on one node, node.ipp:430-506, with get_local_position_at_ and
   get_local_rotation_at_ 516-563 as what they read; a null callback is dereferenced *)
Definition local_sources (n : node) : outcome (psource * rsource) :=
  if tmode_eqb (n_pmode n) Spice && tmode_eqb (n_rmode n) Spice then Ok (FromSpice (n_origin n), RFromSpice (n_frame n))
  else if tmode_eqb (n_pmode n) StateCallback && tmode_eqb (n_rmode n) StateCallback then
    match n_scb n with Some c => Ok (FromState c, RFromState c) | None => UB end
  else
    let p := match n_pmode n with Spice => FromSpice (n_origin n) | Manual => FromManual (n_pos n) (n_vel n) | _ => PZero end in
    let r := match n_rmode n with Spice => RFromSpice (n_frame n) | Manual => RFromManual (n_rot n) (n_ang n) (n_body n) | _ => RIdentity end in
    obind (match n_pmode n with PosCallback => match n_pcb n with Some c => Ok (FromCallback c) | None => UB end | _ => Ok p end) (fun p' =>
    obind (match n_rmode n with RotCallback => match n_rcb n with Some c => Ok (RFromCallback c) | None => UB end | _ => Ok r end) (fun r' =>
    Ok (p', r'))).
(* get_ssb_transform_, node.ipp:428-507: the sources of the node and of the ancestors it asks, root side last. SPICE calls are assumed to succeed *)
Fixpoint ssb (fuel : nat) (s : scene) (i : nat) : outcome (list (psource * rsource)) :=
  match fuel with O => UB | S f =>
  match get s i with None => UB | Some n =>
    if tmode_eqb (n_pmode n) Spice && tmode_eqb (n_rmode n) Spice then obind (local_sources n) (fun l => Ok [l])
    else match n_parent n with
         | None => Throws
         | Some p => obind (ssb f s p) (fun up => obind (local_sources n) (fun l => Ok (l :: up)))
         end
  end end.
(* the fuel is the number of ancestors a node can have *)
Definition ssb_transform (s : scene) (i : nat) := ssb (S (List.length (sc_nodes s))) s i.

(** Graph construction and deletion *)
(* make_shared of a node and push_back on the parent's children: new_child, frame_node.ipp:25-35, and new_instance, 70-145 *)
Definition attach (s : scene) (p : nat) (a : option asset) : outcome (scene * nat) :=
  match get s p with
  | Some np => let c := List.length (sc_nodes s) in
      Ok (put (w_nodes (sc_nodes s ++ [fresh (n_scene np) (Some p) a]) s) p (w_children (n_children np ++ [c]) np), c)
  | None => UB
  end.
(* remove the first occurrence: std::find and erase *)
Fixpoint erase1 (c : nat) (l : list nat) : list nat := match l with [] => [] | x :: t => if Nat.eqb x c then t else x :: erase1 c t end.
(* FrameNode::delete_child, frame_node.ipp:41-61; scene_ is null in model graphs *)
Definition delete_child (s : scene) (p c : nat) : outcome scene :=
  match get s p, get s c with
  | Some np, Some nc =>
      match n_parent nc with
      | Some p' => if Nat.eqb p' p then
          if existsb (Nat.eqb c) (n_children np) then
            if n_scene np then obind (remove (sc_nreg s) (N.of_nat c)) (fun r => Ok (put (w_nreg r s) p (w_children (erase1 c (n_children np)) np)))
            else UB
          else Ok s
        else Throws
      | None => Throws
      end
  | _, _ => Throws
  end.
(* prune_graph_references_, scene.ipp:1114-1152: the recursion over a snapshot of the children. The state reached is
   returned with the outcome, since an exception keeps what was done before it *)
Definition prune_list (rec : scene -> nat -> scene * outcome unit) (t : asset) (p : nat) :=
  fix go (s : scene) (cs : list nat) {struct cs} : scene * outcome unit :=
    match cs with
    | [] => (s, Ok tt)
    | c :: r =>
        match get s c with None => (s, UB) | Some nc =>
          if match n_asset nc with Some a => asset_eqb a t | None => false end
          then match delete_child s p c with Ok s' => go s' r | Throws => (s, Throws) | UB => (s, UB) end
          else match rec s c with (s', Ok _) => go s' r | (s', e) => (s', e) end
        end
    end.
Fixpoint prune (fuel : nat) (t : asset) (s : scene) (p : nat) {struct fuel} : scene * outcome unit :=
  match fuel with O => (s, UB) | S f =>
  match get s p with None => (s, UB) | Some np => prune_list (prune f t) t p s (n_children np) end end.
Definition prune_root (t : asset) (s : scene) := prune (S (List.length (sc_nodes s))) t s 0.
(* vector erase by value in an asset registry, name_registry.ipp:37-50; throws when absent *)
Definition has_prim (s : scene) (i : nat) := existsb (fun x => Nat.eqb (fst x) i) (sc_prims s).
(* delete_primitive, scene.ipp:331-338 *)
Definition delete_primitive (s : scene) (i : nat) : scene * outcome unit :=
  match prune_root (APrim i) s with
  | (s', Ok _) => if has_prim s' i then (w_prims (filter (fun x => negb (Nat.eqb (fst x) i)) (sc_prims s')) s', Ok tt) else (s', Throws)
  | r => r
  end.
(* delete_light 449-454, delete_unresolved_object 683-689, delete_camera_model 732-737, delete_model 783-788 *)
Definition delete_other (s : scene) (a : asset) : scene * outcome unit :=
  match prune_root a s with
  | (s', Ok _) => if existsb (asset_eqb a) (sc_others s')
      then (w_models (filter (fun x => negb (asset_eqb a (AModel (fst x)))) (sc_models s')) (w_others (filter (fun x => negb (asset_eqb a x)) (sc_others s')) s'), Ok tt)
      else (s', Throws)
  | r => r
  end.
(* delete_geometry, scene.ipp:196-217: the primitives to purge are collected first, then deleted one by one *)
Fixpoint delete_all (s : scene) (ps : list nat) : scene * outcome unit :=
  match ps with [] => (s, Ok tt) | i :: r => match delete_primitive s i with (s', Ok _) => delete_all s' r | e => e end end.
Definition delete_geometry (s : scene) (g : nat) : scene * outcome unit :=
  match delete_all s (map fst (filter (fun x => Nat.eqb (snd x) g) (sc_prims s))) with
  | (s', Ok _) => if existsb (Nat.eqb g) (sc_geoms s') then (w_geoms (filter (fun x => negb (Nat.eqb g x)) (sc_geoms s')) s', Ok tt) else (s', Throws)
  | e => e
  end.

(* one node of a model file: name, meshes attached, children *)
Inductive mtree := MNode (name : string) (meshes : list nat) (kids : list mtree).
(* the meshes of one node: new_instance for each, model_loader.ipp:267-283 *)
Fixpoint add_meshes (prims : list nat) (s : scene) (p : nat) (ms : list nat) : outcome scene :=
  match ms with
  | [] => Ok s
  | m :: r => match nth_error prims m with Some i => obind (attach s p (Some (APrim i))) (fun sc => add_meshes prims (fst sc) p r) | None => Throws end
  end.
(* the loop over the children, model_loader.ipp:286-288 and 91-93 *)
Definition process_list (rec : scene -> mtree -> outcome scene) :=
  fix go (s : scene) (l : list mtree) : outcome scene := match l with [] => Ok s | k :: r => obind (rec s k) (fun s' => go s' r) end.
(* process_node_, model_loader.ipp:246-290; the node's own transform is omitted *)
Fixpoint process_node (prims : list nat) (s : scene) (p : nat) (t : mtree) {struct t} : outcome scene :=
  match t with MNode name ms kids =>
    obind (attach s p None) (fun sc =>
    obind (add "FrameNode" (sc_nreg (fst sc)) (N.of_nat (snd sc)) name) (fun r =>
    obind (add_meshes prims (w_nreg r (fst sc)) (snd sc) ms) (fun s2 =>
    process_list (fun s k => process_node prims s (snd sc) k) s2 kids)))
  end.
(* process_meshes_, model_loader.ipp:125-138: one geometry and one primitive per mesh *)
Fixpoint load_meshes (n : nat) (s : scene) : scene * list nat :=
  match n with
  | O => (s, [])
  | S k => let (s', l) := load_meshes k s in
      let g := sc_next s' in let p := S g in
      (w_prims (sc_prims s' ++ [(p, g)]) (w_geoms (sc_geoms s' ++ [g]) (bump (bump s'))), l ++ [p])
  end.
(* ModelLoader::load, model_loader.ipp:31-115. Simplified: a failed load leaves nothing behind here *)
Definition load_model (s : scene) (nmesh : nat) (root_meshes : list nat) (kids : list mtree) : outcome scene :=
  let m := sc_next s in
  let (s1, prims) := load_meshes nmesh (w_others (sc_others s ++ [AModel m]) (bump s)) in
  let root := List.length (sc_nodes s1) in
  let s2 := w_models (sc_models s1 ++ [(m, root)]) (w_nodes (sc_nodes s1 ++ [fresh false None None]) s1) in
  obind (process_list (fun s k => process_node prims s root k) s2 kids)
    (fun s3 => add_meshes prims s3 root root_meshes).

(** API calls *)
Inductive sop :=
| NewFrame (p : nat) | NewInstance (p : nat) (a : asset) | NodeOp (i : nat) (o : nop) | DeleteChild (p c : nat)
| AddGeometry | AddPrimitive (g : nat) | AddLight | AddUnresolved | AddCamera | LoadModel (nmesh : nat) (root_meshes : list nat) (kids : list mtree)
| DeletePrimitive (i : nat) | DeleteOther (a : asset) | DeleteGeometry (g : nat).
Definition known (s : scene) (a : asset) : bool := match a with APrim i => has_prim s i | _ => existsb (asset_eqb a) (sc_others s) end.
(* a node a user can hold a handle to: one of the scene's own graph *)
Definition user_node (s : scene) (i : nat) : bool := match get s i with Some n => n_scene n | None => false end.
Definition user_frame (s : scene) (i : nat) : bool := match get s i with Some n => n_scene n && match n_asset n with None => true | Some _ => false end | None => false end.
Definition keep {A} (s : scene) (r : outcome A) (f : A -> scene) : scene * outcome unit := match r with Ok a => (f a, Ok tt) | Throws => (s, Throws) | UB => (s, UB) end.
(* one call: the state it leaves and whether it returned or threw. Calls through handles of unknown objects throw
   (handle.ipp:49-60) *)
Definition sstep (s : scene) (o : sop) : scene * outcome unit :=
  match o with
  | NewFrame p => if user_frame s p then keep s (attach s p None) fst else (s, Throws)
  | NewInstance p a => if user_frame s p && known s a then keep s (attach s p (Some a)) fst else (s, Throws)
  | NodeOp i o => match get s i with Some n => if n_scene n then keep s (setter s n o) (put s i) else (s, Throws) | None => (s, Throws) end
  | DeleteChild p c => if user_frame s p && user_node s c then keep s (delete_child s p c) (fun x => x) else (s, Throws)
  | AddGeometry => (w_geoms (sc_geoms s ++ [sc_next s]) (bump s), Ok tt)
  | AddPrimitive g => if existsb (Nat.eqb g) (sc_geoms s) then (w_prims (sc_prims s ++ [(sc_next s, g)]) (bump s), Ok tt) else (s, Throws)
  | AddLight => (w_others (sc_others s ++ [ALight (sc_next s)]) (bump s), Ok tt)
  | AddUnresolved => (w_others (sc_others s ++ [AUnresolved (sc_next s)]) (bump s), Ok tt)
  | AddCamera => (w_others (sc_others s ++ [ACamera (sc_next s)]) (bump s), Ok tt)
  | LoadModel n ms ks => keep s (load_model s n ms ks) (fun x => x)
  | DeletePrimitive i => if has_prim s i then delete_primitive s i else (s, Throws)
  | DeleteOther a => if existsb (asset_eqb a) (sc_others s) then delete_other s a else (s, Throws)
  | DeleteGeometry g => if existsb (Nat.eqb g) (sc_geoms s) then delete_geometry s g else (s, Throws)
  end.
Definition srun (ops : list sop) (s : scene) : scene := fold_left (fun s o => fst (sstep s o)) ops s.

(** Views of the graph *)
(* find_node_in_tree_, scene.ipp:1371-1397 *)
Definition find_list (rec : nat -> outcome (option nat)) (target : nat) :=
  fix go (cs : list nat) : outcome (option nat) :=
    match cs with
    | [] => Ok None
    | c :: r => if Nat.eqb c target then Ok (Some c) else obind (rec c) (fun x => match x with Some y => Ok (Some y) | None => go r end)
    end.
Fixpoint find_in_tree (fuel : nat) (s : scene) (target cur : nat) {struct fuel} : outcome (option nat) :=
  match fuel with O => UB | S f =>
  if Nat.eqb cur target then Ok (Some cur) else
  match get s cur with None => UB | Some n => find_list (find_in_tree f s target) target (n_children n) end end.
(* Node::get_parent, node.ipp:770-787, with find_node_shared_ptr_, scene.ipp:1349-1359 *)
Definition get_parent (s : scene) (i : nat) : outcome nat :=
  match get s i with
  | Some n => match n_parent n with
      | Some p => if Nat.eqb 0 p then Ok 0%nat else obind (find_in_tree (S (List.length (sc_nodes s))) s p 0) (fun x => match x with Some y => Ok y | None => Throws end)
      | None => Throws
      end
  | None => UB
  end.

(* What a SceneView collects, scene_view.hpp members primitives_ (batches: primitive and the instances of it), lights_,
   unresolved_objects_. An instance is named by the path of instance nodes that led to it (its transform is a function of that path) *)
Record view := View { v_batches : list (nat * list (list nat)); v_lights : list (nat * list nat); v_unresolved : list (nat * list nat) }.
(* add_primitive_instance_, scene_view.ipp:484-503 *)
Fixpoint add_batch (i : nat) (path : list nat) (b : list (nat * list (list nat))) : list (nat * list (list nat)) :=
  match b with [] => [(i, [path])] | (j, l) :: r => if Nat.eqb i j then (j, l ++ [path]) :: r else (j, l) :: add_batch i path r end.
(* model->root_node_ *)
Definition model_root (s : scene) (m : nat) : option nat := option_map snd (List.find (fun x => Nat.eqb (fst x) m) (sc_models s)).
(* traverse_and_collect_, scene_view.ipp:390-422, handle_asset_ptr_, 429-477, and traverse_model_graph_, 545-567: a
   dangling asset pointer is undefined behaviour *)
Definition visit_list (rec : view -> nat -> outcome view) :=
  fix go (v : view) (cs : list nat) : outcome view := match cs with [] => Ok v | c :: r => obind (rec v c) (fun v' => go v' r) end.
Fixpoint visit (fuel : nat) (s : scene) (path : list nat) (v : view) (i : nat) {struct fuel} : outcome view :=
  match fuel with O => UB | S f =>
  match get s i with None => UB | Some n =>
    let path' := path ++ [i] in
    obind (match n_asset n with
           | None | Some (ACamera _) => Ok v
           | Some (APrim p) => if has_prim s p then Ok (View (add_batch p path' (v_batches v)) (v_lights v) (v_unresolved v)) else UB
           | Some (ALight l) => if existsb (asset_eqb (ALight l)) (sc_others s) then Ok (View (v_batches v) (v_lights v ++ [(l, path')]) (v_unresolved v)) else UB
           | Some (AUnresolved l) => if existsb (asset_eqb (AUnresolved l)) (sc_others s) then Ok (View (v_batches v) (v_lights v) (v_unresolved v ++ [(l, path')])) else UB
           | Some (AModel m) => match model_root s m with Some r => visit f s path' v r | None => UB end
           end) (fun v1 =>
    visit_list (visit f s path') v1 (n_children n))
  end end.
(* SceneView::SceneView, scene_view.ipp:79 *)
Definition collect (s : scene) : outcome view := visit (2 * List.length (sc_nodes s) + 2) s [] (View [] [] []) 0.
(* Model::get_material_by_id, model.ipp:68-105: depth-first search with a stack (its top is the end of the list); [mat] is the
   material id of a primitive, and a primitive that has been deleted is dereferenced *)
Fixpoint find_material (fuel : nat) (s : scene) (mat : nat -> nat) (id : nat) (stack : list nat) : outcome nat :=
  match fuel with O => UB | S f =>
  match rev stack with
  | [] => Throws
  | cur :: rest => match get s cur with None => UB | Some n =>
      match n_asset n with
      | Some (APrim p) => if negb (has_prim s p) then UB else if Nat.eqb (mat p) id then Ok p else find_material f s mat id (rev rest ++ n_children n)
      | _ => find_material f s mat id (rev rest ++ n_children n)
      end end
  end end.
Definition get_material_by_id (s : scene) (mat : nat -> nat) (id root : nat) : outcome nat := find_material (S (List.length (sc_nodes s))) s mat id [root].
