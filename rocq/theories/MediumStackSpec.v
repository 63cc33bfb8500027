(* Specification vocabulary: which crossing sequences are well nested. *)
From Verif Require Import Common MediumStackModel.

(* the entries in use, bottom first *)
Definition contents (s : mstack) : list entry := firstn (size s) (entries s).
Definition prims_on (s : mstack) : list prim :=
  flat_map (fun e => match en_prim e with Some p => [p] | None => [] end) (contents s).

(* [nested medium O w]: while the ray is inside the volumes O, the crossings w enter and leave
   volumes in a properly nested way; a volume is not entered while already inside it. Crossings of
   surfaces without a medium (or null) may occur anywhere. *)
Inductive nested (medium : prim -> option med) : list prim -> list (option prim) -> Prop :=
| nested_nil O : nested medium O []
| nested_null O w : nested medium O w -> nested medium O (None :: w)
| nested_surface O p w : medium p = None -> nested medium O w -> nested medium O (Some p :: w)
| nested_volume O p w1 w2 : medium p <> None -> ~ In p O ->
    nested medium (p :: O) w1 -> nested medium O w2 ->
    nested medium O (Some p :: w1 ++ Some p :: w2).

(* [inside medium w path]: after crossings w from outside, the volumes entered and not yet left are
   [path], innermost first. *)
Inductive inside (medium : prim -> option med) : list (option prim) -> list prim -> Prop :=
| inside_none w : nested medium [] w -> inside medium w []
| inside_enter w1 path p w2 : inside medium w1 path -> medium p <> None -> ~ In p path ->
    nested medium (p :: path) w2 -> inside medium (w1 ++ Some p :: w2) (p :: path).

(* number of crossings of p *)
Definition crossings (p : prim) (w : list (option prim)) : nat :=
  List.length (filter (fun q => match q with Some q => N.eqb p q | None => false end) w).
