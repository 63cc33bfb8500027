(* Specification vocabulary for the scene graph. *)
From Verif Require Import Common RegistryModel SceneModel.

(* c hangs under p *)
Definition child_of (s : scene) (p c : nat) : Prop := exists n, get s p = Some n /\ In c (n_children n).
(* nodes below a node, and the nodes of the scene graph (node 0 is the root) *)
Inductive below (s : scene) (p : nat) : nat -> Prop :=
| below_here : (exists n, get s p = Some n) -> below s p p
| below_child q c : below s p q -> child_of s q c -> (exists n, get s c = Some n) -> below s p c.
Definition in_graph (s : scene) (i : nat) : Prop := below s 0 i.
Definition refers (s : scene) (i : nat) (a : asset) : Prop := exists n, get s i = Some n /\ n_asset n = Some a.
(* states a user can reach *)
Definition reachable (s : scene) : Prop := exists ops, s = srun ops new_scene.
Definition pmode (s : scene) (i : nat) : option tmode := option_map n_pmode (get s i).
Definition rmode (s : scene) (i : nat) : option tmode := option_map n_rmode (get s i).

(* the instances a view must contain: every way down from the root to an instance, entering a model at its root *)
Inductive occurs (s : scene) : list nat -> nat -> Prop :=
| occ_root : occurs s [0%nat] 0
| occ_child path i c : occurs s path i -> child_of s i c -> occurs s (path ++ [c]) c
| occ_model path i m r : occurs s path i -> refers s i (AModel m) -> model_root s m = Some r -> occurs s (path ++ [r]) r.
