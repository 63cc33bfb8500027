(* Model of huira::MediumStack, include/huira/volumes/medium_stack.hpp.
   A primitive pointer is None (nullptr) or Some p; [medium p] is primitive->medium.get(), None for
   nullptr. Simplification: pointers are numbers; media are numbers. *)
From Verif Require Import Common.

Definition prim := N.
Definition med := N.

(* CAPACITY, medium_stack.hpp:22 *)
Definition capacity : nat := 8.

(* struct Entry, medium_stack.hpp:64-67 *)
Record entry := Entry { en_prim : option prim; en_medium : option med }.
Definition null_entry : entry := Entry None None.

(* entries_ and size_, medium_stack.hpp:69-70 *)
Record mstack := MStack { entries : list entry; size : nat }.

(* Default construction, medium_stack.hpp:24, 69-70 *)
Definition empty_stack : mstack := MStack (repeat null_entry capacity) 0.

Section WithScene.
Variable medium : prim -> option med.   (* the scene's assignment of media to primitives *)

(* pointer comparison entries_[size_-1].primitive == primitive with a non-null right side *)
Definition same_prim (a : option prim) (p : prim) : bool :=
  match a with Some q => N.eqb q p | None => false end.

(* MediumStack::toggle, medium_stack.hpp:45-61. Out-of-range array access is UB. *)
Definition toggle (s : mstack) (primitive : option prim) : outcome mstack :=
  match primitive with
  | None => Ok s
  | Some p =>
      match medium p with
      | None => Ok s
      | Some m =>
          match (if Nat.ltb 0 (size s) then
                   match nth_error (entries s) (size s - 1) with
                   | None => UB
                   | Some e => Ok (same_prim (en_prim e) p)
                   end
                 else Ok false) with
          | Ok true => Ok (MStack (entries s) (size s - 1))
          | Ok false =>
              if Nat.ltb (size s) capacity then
                if Nat.ltb (size s) (List.length (entries s))
                then Ok (MStack (upd (entries s) (size s) (Entry (Some p) (Some m))) (size s + 1))
                else UB
              else Ok s
          | _ => UB
          end
      end
  end.

(* MediumStack::top, medium_stack.hpp:29-32 *)
Definition top (s : mstack) : outcome (option med) :=
  if Nat.eqb (size s) 0 then Ok None
  else match nth_error (entries s) (size s - 1) with Some e => Ok (en_medium e) | None => UB end.

(* a ray's sequence of boundary crossings (renderer.ipp:367, 479) *)
Fixpoint toggles (s : mstack) (w : list (option prim)) : outcome mstack :=
  match w with [] => Ok s | p :: t => obind (toggle s p) (fun s' => toggles s' t) end.

End WithScene.
