(* Specification vocabulary for the registry properties. *)
From Verif Require Import Common RegistryModel.

(* Usage the scene API makes of the registry (scene.ipp: every add is of a freshly made object and
   renames go through a handle of an object of the scene): [live] are the objects currently in. *)
Fixpoint api_history (ever live : list obj) (cs : list rop) : Prop :=
  match cs with
  | [] => True
  | RAdd _ o _ :: t => ~ In o ever /\ api_history (o :: ever) (o :: live) t
  | RRemove o :: t => api_history ever (List.remove N.eq_dec o live) t
  | RRename o _ :: t => In o live /\ api_history ever live t
  end.

(* the objects live after a history *)
Fixpoint live_after (live : list obj) (cs : list rop) : list obj :=
  match cs with
  | [] => live
  | RAdd _ o _ :: t => live_after (o :: live) t
  | RRemove o :: t => live_after (List.remove N.eq_dec o live) t
  | RRename _ _ :: t => live_after live t
  end.

Definition num_adds (cs : list rop) : nat :=
  List.length (filter (fun c => match c with RAdd _ _ _ => true | _ => false end) cs).

(* every object ever added in a history *)
Definition added (cs : list rop) : list obj :=
  flat_map (fun c => match c with RAdd _ o _ => [o] | _ => [] end) cs.

(* somebody live carries name n *)
Definition name_taken (r : registry) (n : string) : Prop :=
  exists o, In o (objects r) /\ name_of r o = n.
