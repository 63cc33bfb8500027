(* Model of huira::NameRegistry<T>, include/huira_impl/scene/name_registry.ipp, and of the part of
   SceneObject (include/huira/scene/scene_object.hpp) and Handle (huira_impl/handles/handle.ipp)
   that it relies on.
   Simplifications: objects are identified by a number (the shared_ptr address); the id used in the
   generated name is that number; logging is omitted; the unordered_map is an association list with
   at most one binding per key (insertion replaces). *)
From Coq Require Import DecimalString DecimalN.
From Verif Require Import Common.

Definition obj := N.

(* std::to_string of a non-negative integer *)
Definition dec (n : N) : string := NilEmpty.string_of_uint (N.to_uint n).

(* Registry: objects_ and name_registry_ (name_registry.hpp members) plus the mutable fields of the
   objects it manages: name_ and scene_owned_ (scene_object.hpp:85-87). *)
Record registry := Registry {
  objects : list obj;
  names : list (string * obj);
  name_of : obj -> string;
  owned : obj -> bool
}.

(* unordered_map::find *)
Fixpoint find (k : string) (m : list (string * obj)) : option obj :=
  match m with
  | [] => None
  | (k', v) :: r => if String.eqb k k' then Some v else find k r
  end.

(* unordered_map::contains *)
Definition contains (k : string) (m : list (string * obj)) : bool :=
  match find k m with Some _ => true | None => false end.

(* unordered_map::erase(key) *)
Definition erase (k : string) (m : list (string * obj)) : list (string * obj) :=
  filter (fun p => negb (String.eqb k (fst p))) m.

(* map[key] = value *)
Definition insert (k : string) (v : obj) (m : list (string * obj)) : list (string * obj) :=
  (k, v) :: erase k m.

(* INT_MAX for the int counter of make_unique_name_ *)
Definition int_max : N := 2147483647%N.

(* the do-while loop of make_unique_name_, name_registry.ipp:96-101. The fuel bounds the number of
   iterations; running out of fuel is Throws-free and reported as UB like a counter overflow
   (name_registry.ipp:99 counter++ on int). *)
Fixpoint unique_loop (base : string) (counter : N) (m : list (string * obj)) (fuel : nat) : outcome string :=
  match fuel with
  | O => UB
  | S f =>
      if N.eqb counter int_max then UB
      else
        let name := (base ++ "_" ++ dec counter)%string in
        if contains name m then unique_loop base (counter + 1) m f else Ok name
  end.

(* NameRegistry::make_unique_name_, name_registry.ipp:92-104 *)
Definition make_unique_name (m : list (string * obj)) (name : string) : outcome string :=
  if contains name m then unique_loop name 1 m (S (List.length m)) else Ok name.

(* function update for the per-object fields *)
Definition fupd {V} (f : obj -> V) (o : obj) (v : V) : obj -> V := fun x => if N.eqb x o then v else f x.

(* NameRegistry::add, name_registry.ipp:17-31. [ty] is object->type(). *)
Definition add (ty : string) (r : registry) (o : obj) (name0 : string) : outcome registry :=
  let name1 := if String.eqb name0 "" then (ty ++ "." ++ dec o)%string else name0 in
  obind (make_unique_name (names r) name1) (fun name =>
  Ok (Registry (objects r ++ [o]) (insert name o (names r)) (fupd (name_of r) o name) (owned r))).

(* vector::erase of the first occurrence found by std::find, name_registry.ipp:39-46 *)
Fixpoint remove_first (o : obj) (l : list obj) : list obj :=
  match l with [] => [] | x :: t => if N.eqb x o then t else x :: remove_first o t end.

(* NameRegistry::remove, name_registry.ipp:37-50 *)
Definition remove (r : registry) (o : obj) : outcome registry :=
  if existsb (N.eqb o) (objects r)
  then Ok (Registry (remove_first o (objects r)) (erase (name_of r o) (names r)) (name_of r) (fupd (owned r) o false))
  else Throws.

(* NameRegistry::set_name, name_registry.ipp:58-71 *)
Definition set_name (r : registry) (o : obj) (name : string) : outcome registry :=
  obind (make_unique_name (names r) name) (fun new_name =>
  let old_name := name_of r o in
  if String.eqb new_name old_name then Ok r
  else Ok (Registry (objects r) (insert new_name o (erase old_name (names r))) (fupd (name_of r) o new_name) (owned r))).

(* NameRegistry::lookup, name_registry.ipp:79-86 *)
Definition lookup (r : registry) (name : string) : outcome obj :=
  match find name (names r) with Some o => Ok o | None => Throws end.

(* A scene starts with an empty registry; new objects have name "" and are scene owned
   (scene_object.hpp:85-87). *)
Definition empty_registry : registry := Registry [] [] (fun _ => EmptyString) (fun _ => true).

(* API calls *)
Inductive rop :=
| RAdd (ty : string) (o : obj) (name : string)
| RRemove (o : obj)
| RRename (o : obj) (name : string).

(* one call; a call that throws leaves the registry as it was (name_registry.ipp:40-42 throws first) *)
Definition rstep (r : registry) (c : rop) : outcome registry :=
  match c with
  | RAdd ty o n => add ty r o n
  | RRemove o => match remove r o with Throws => Ok r | x => x end
  | RRename o n => set_name r o n
  end.

(* history of calls *)
Fixpoint rrun (r : registry) (cs : list rop) : outcome registry :=
  match cs with [] => Ok r | c :: t => obind (rstep r c) (fun r' => rrun r' t) end.

(** Handles *)

(* A weak pointer: the object and whether it is still alive (has a shared owner).
   Handle::get_, handle.ipp:49-60 *)
Definition handle_get (r : registry) (alive : obj -> bool) (o : obj) : outcome obj :=
  if alive o then if owned r o then Ok o else Throws else Throws.

(* Handle::valid, handle.ipp:9-20 *)
Definition handle_valid (r : registry) (alive : obj -> bool) (o : obj) : bool :=
  if alive o then if owned r o then true else false else false.
