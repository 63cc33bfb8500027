(* Model of the irradiance of unresolved objects across scene views: include/huira_impl/scene/scene_view.ipp:135-141 (the view writes the irradiance
   into the object, which all instances and all views share), include/huira_impl/assets/unresolved/*.ipp (which light is used) and
   include/huira_impl/render/renderer.ipp:688-697 (what is drawn). The formulas are those of LightModel. *)
From Verif Require Import Common Vec3 SpectralModel LightModel.
Import ListNotations.
Open Scope R_scope.

(* a light of a view, scene_view_types.hpp:23-27: the light asset, the position of its first transform, and the instance node it came from (the code
   does not keep the node; it is here for the specification) *)
Record light_instance := { li_node : Z; li_light : Z; li_sphere : sphere_light; li_pos : vec3 }.
(* the unresolved objects; [node] and [light] are light_instance_ and light_, unresolved_sphere.ipp:45-58, unresolved_asteroid.ipp:66-80 *)
Inductive kind :=
| Fixed
| Emitter (power : list R)
| LambertSphere (radius : R) (albedo : list R) (node light : Z)
| Asteroid (H G : R) (albedo : list R) (node light : Z).
(* `light_inst.light.get() == light_`, unresolved_sphere.ipp:129-130, unresolved_asteroid.ipp:156-157: the first light of the view with that asset *)
Definition find_light (lights : list light_instance) (light : Z) : option light_instance := find (fun l => (li_light l =? light)%Z) lights.
(* resolve_irradiance at a position; Ok None: the object keeps its irradiance (unresolved_object.ipp:113-119) *)
Definition resolve (bins : list bin) (k : kind) (pos : vec3) (lights : list light_instance) : outcome (option (list R)) :=
  let some (o : outcome (list R)) := match o with Ok x => Ok (Some x) | Throws => Throws | UB => UB end in
  match k with
  | Fixed => Ok None
  | Emitter p => Ok (Some (emitter_irradiance p pos))
  | LambertSphere r a _ l => some (lambert_irradiance r a pos (option_map (fun i => (li_sphere i, li_pos i)) (find_light lights l)))
  | Asteroid H G a _ l => some (asteroid_irradiance bins H G a pos (option_map li_pos (find_light lights l)))
  end.

(* the objects' irradiances: one per object, whatever the number of instances and views *)
Definition heap := Z -> list R.
Definition put (h : heap) (id : Z) (x : list R) : heap := fun j => if (j =? id)%Z then x else h j.
(* a scene view: its unresolved instances (object, position of the first transform) in traversal order and its lights *)
Record view := { v_instances : list (Z * vec3); v_lights : list light_instance }.
Section Scene.
Variable bins : list bin.
Variable kinds : Z -> kind.
(* the loop scene_view.ipp:136-141, with whether it threw *)
Fixpoint resolve_all (h : heap) (l : list (Z * vec3)) (lights : list light_instance) : heap * bool :=
  match l with
  | [] => (h, false)
  | (id, pos) :: r => match resolve bins (kinds id) pos lights with
                      | Ok (Some x) => resolve_all (put h id x) r lights
                      | Ok None => resolve_all h r lights
                      | _ => (h, true)
                      end
  end.
(* what a program does to the objects: build a view, or set_irradiance on an object (unresolved_object.ipp:63-93, arguments it accepts) *)
Inductive event := BuildView (v : view) | SetIrradiance (id : Z) (x : list R).
Definition apply (h : heap) (e : event) : heap := match e with BuildView v => fst (resolve_all h (v_instances v) (v_lights v)) | SetIrradiance id x => put h id x end.
Definition history (l : list event) (h : heap) : heap := fold_left apply l h.
(* the irradiance drawn for an instance of a view that is rendered when the heap is h, renderer.ipp:692-693 *)
Definition drawn (h : heap) (i : Z * vec3) : list R := h (fst i).
End Scene.
