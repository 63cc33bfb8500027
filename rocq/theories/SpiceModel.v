(* Model of the SPICE wrapper: include/huira_impl/core/spice.ipp and the error subsystem of CSPICE
   as the wrapper uses it.
   The library code is written as a program over the CSPICE (and file system) calls it makes, one
   command per call, so that the same program can be run alone ([run]) or interleaved with other
   threads ([tstep]).
   Simplifications: numbers are opaque bit patterns (Z), what a CSPICE function computes is a
   parameter of the environment ([answer], a function of the loaded kernels and the arguments); the
   conversion km to m and the matrix transposition are in MotionModel.v; log lines are not modelled;
   one CSPICE call is one atomic step; the lambda of the template static is one atomic step (C++
   runs it under a lock). *)
From Verif Require Import Common.
Local Open Scope string_scope.
Local Open Scope list_scope.

(* erract_c: what CSPICE does when an error is signalled. "ABORT" is the default of the toolkit,
   "RETURN" is what spice.ipp:37-38 and 133-134 set. *)
Inductive action := Abort | Return.

(* The short and long error message, getmsg_c, spice.ipp:24-25 *)
Record smsg := Msg { short_msg : string; long_msg : string }.

(* CSPICE functions called by the wrapper and their arguments, spice.ipp:82, 106, 150, 198, 213,
   229, 246-250, 288, 320, 362, 365, 405 *)
Inductive request :=
| Str2et (s : string)
| Deltet (epoch : Z) (eptype : string)
| Unitim (epoch : Z) (insys outsys : string)
| Timout (et : Z) (pictur : string)
| Spkezr (target : string) (et : Z) (frame abcorr observer : string)
| Pxform (from to : string) (et : Z)
| Sxform (from to : string) (et : Z)
| Conics (elements : list Z) (et : Z).

(* What a CSPICE function writes to its outputs or returns *)
Inductive value := Nums (l : list Z) | Text (s : string) | Void.

(* The world outside: files, directories and the computation done by CSPICE.
   [find_file d n] is the kernel in the file named n seen from directory d;
   [change_dir d n] is the directory named n seen from d. *)
Record env := Env {
  find_file : nat -> string -> option nat;
  change_dir : nat -> string -> option nat;
  answer : list nat -> request -> smsg + value;
  load_error : string -> smsg;
  default_lsk : string     (* get_default_lsk_path(), spice.ipp:115-119 *)
}.

(* Process-wide state: the CSPICE error subsystem and kernel pool, the working directory, the
   template statics of call_spice (one per instantiation, spice.ipp:36) and the flag of
   ensure_lsk_loaded (huira/core/spice.hpp:44-45; the once_flag is done exactly when lsk_loaded
   is set, because the only normal end of the lambda stores true). *)
Record state := State {
  act : action;
  printing : bool;
  failed : option smsg;
  kernels : list nat;
  cwd : nat;
  inited : list nat;
  lsk_loaded : bool
}.

(* The state of a fresh process: CSPICE defaults, no kernels *)
Definition fresh (dir : nat) : state := State Abort true None [] dir [] false.

Definition set_act s a := State a (printing s) (failed s) (kernels s) (cwd s) (inited s) (lsk_loaded s).
Definition set_failed s f := State (act s) (printing s) f (kernels s) (cwd s) (inited s) (lsk_loaded s).
Definition set_kernels s k := State (act s) (printing s) (failed s) k (cwd s) (inited s) (lsk_loaded s).
Definition set_cwd s d := State (act s) (printing s) (failed s) (kernels s) d (inited s) (lsk_loaded s).
Definition set_lsk s := State (act s) (printing s) (failed s) (kernels s) (cwd s) (inited s) true.
Definition no_print s := State (act s) false (failed s) (kernels s) (cwd s) (inited s) (lsk_loaded s).
(* The lambda of the template static, spice.ipp:36-46, run once per instantiation *)
Definition static_init s k :=
  if existsb (Nat.eqb k) (inited s) then s
  else State Return false (failed s) (kernels s) (cwd s) (k :: inited s) (lsk_loaded s).

(* The calls the wrapper makes *)
Inductive cmd : Type -> Type :=
| ErractGet : cmd action
| ErractSet (a : action) : cmd unit
| ErrprtNone : cmd unit
| Failed : cmd bool
| Getmsg : cmd smsg
| Reset : cmd unit
| Ask (r : request) : cmd (option value)
| Furnsh (name : string) : cmd unit
| StaticInit (key : nat) : cmd unit
| GetCwd : cmd nat
| SetCwd (d : nat) : cmd unit
| Chdir (name : string) : cmd bool
| LskGet : cmd bool
| LskSet : cmd unit.

(* CSPICE signals an error (sigerr_c): in ABORT mode the process ends *)
Definition signal {A} (s : state) (m : smsg) (a : A) : option (A * state) :=
  match act s with Abort => None | Return => Some (a, set_failed s (Some m)) end.

(* Effect of one call; None: the process is aborted. CSPICE functions that are called while an
   error is pending in RETURN mode return at once and leave their outputs alone (return_c). *)
Definition exec (E : env) {R} (c : cmd R) (s : state) : option (R * state) :=
  match c in cmd R return option (R * state) with
  | ErractGet => Some (act s, s)
  | ErractSet a => Some (tt, set_act s a)
  | ErrprtNone => Some (tt, no_print s)
  | Failed => Some (match failed s with Some _ => true | None => false end, s)
  | Getmsg => Some (match failed s with Some m => m | None => Msg "" "" end, s)
  | Reset => Some (tt, set_failed s None)
  | Ask r =>
      match act s, failed s with
      | Return, Some _ => Some (None, s)
      | _, _ => match answer E (kernels s) r with
                | inr v => Some (Some v, s)
                | inl m => signal s m None
                end
      end
  | Furnsh n =>
      match act s, failed s with
      | Return, Some _ => Some (tt, s)
      | _, _ => match find_file E (cwd s) n with
                | Some k => Some (tt, set_kernels s (kernels s ++ [k]))
                | None => signal s (load_error E n) tt
                end
      end
  | StaticInit k => Some (tt, static_init s k)
  | GetCwd => Some (cwd s, s)
  | SetCwd d => Some (tt, set_cwd s d)
  | Chdir n => match change_dir E (cwd s) n with
               | Some d => Some (true, set_cwd s d)
               | None => Some (false, s)
               end
  | LskGet => Some (lsk_loaded s, s)
  | LskSet => Some (tt, set_lsk s)
  end.

(* Programs over these calls; Throw carries what() of the exception *)
Inductive prog (A : Type) : Type :=
| Ret (a : A)
| Throw (what : string)
| Do {R} (c : cmd R) (k : R -> prog A).
Arguments Ret {A}. Arguments Throw {A}. Arguments Do {A R}.

Fixpoint bind {A B} (p : prog A) (f : A -> prog B) : prog B :=
  match p with
  | Ret a => f a
  | Throw w => Throw w
  | Do c k => Do c (fun r => bind (k r) f)
  end.

(* Destructors of local objects: [fin] runs on every way out of p *)
Fixpoint finally {A} (p : prog A) (fin : prog unit) : prog A :=
  match p with
  | Ret a => bind fin (fun _ => Ret a)
  | Throw w => bind fin (fun _ => Throw w)
  | Do c k => Do c (fun r => finally (k r) fin)
  end.

(* check_spice_error, spice.ipp:15-31 *)
Definition check_spice_error : prog unit :=
  Do Failed (fun f =>
  if f then
    Do Getmsg (fun m1 =>                               (* :24 SHORT *)
    Do Getmsg (fun m2 =>                               (* :25 LONG *)
    Do Reset (fun _ =>                                 (* :26 *)
    Throw (if String.eqb (long_msg m2) "" then short_msg m1    (* :28-32 *)
           else String.append (short_msg m1) (String.append ": " (long_msg m2))))))
  else Ret tt).

(* call_spice, spice.ipp:33-61. [key] names the instantiation (the types of Func and Args). *)
Definition call_spice {R} (key : nat) (func : cmd R) : prog R :=
  Do (StaticInit key) (fun _ =>
  Do Failed (fun f =>
  bind (if f then Do Reset (fun _ => Ret tt) else Ret tt) (fun _ =>
  Do func (fun result =>
  bind check_spice_error (fun _ => Ret result))))).

(* furnsh, spice.ipp:72-76 *)
Definition furnsh (name : string) : prog unit := call_spice 0 (Furnsh name).

(* A path as furnsh_relative_to_file looks at it: parent_path() if there is one, filename(), and
   the whole string *)
Record fpath := Path { parent : option string; filename : string; whole : string }.

(* furnsh_relative_to_file, spice.ipp:82-107. A failing change of directory throws
   filesystem_error; the guard is already constructed. *)
Definition furnsh_relative_to_file (p : fpath) : prog unit :=
  match parent p with
  | None => furnsh (whole p)
  | Some d =>
      Do GetCwd (fun original =>
      finally
        (Do (Chdir d) (fun ok =>
         if ok then call_spice 1 (Furnsh (filename p))
         else Throw "filesystem_error"))
        (Do (SetCwd original) (fun _ => Ret tt)))
  end.

(* the string ensure_lsk_loaded tests with, spice.ipp:140 *)
Definition lsk_test : request := Str2et "2000-001T12:00:00".

(* the text thrown when the default LSK cannot be loaded, spice.ipp:154-155 *)
Definition lsk_error (long : string) : string :=
  String.append "ensure_lsk_loaded() - Failed to load default LSK: " long.
Arguments lsk_error : simpl never.

(* ensure_lsk_loaded, spice.ipp:124-163 *)
Definition ensure_lsk_loaded (E : env) : prog unit :=
  Do LskGet (fun l =>
  if l then Ret tt else
  Do ErractGet (fun old =>
  Do (ErractSet Return) (fun _ =>
  Do ErrprtNone (fun _ =>
  Do (Ask lsk_test) (fun _ =>
  Do Failed (fun f =>
  bind
    (if f then
       Do Reset (fun _ =>
       Do (Furnsh (default_lsk E)) (fun _ =>
       Do Failed (fun f2 =>
       if f2 then
         Do Getmsg (fun m =>
         Do Reset (fun _ =>
         Do (ErractSet old) (fun _ =>
         Throw (lsk_error (long_msg m)))))
       else Ret tt)))
     else Ret tt)
    (fun _ =>
  Do (ErractSet old) (fun _ =>
  Do LskSet (fun _ => Ret tt))))))))).  (* :160-161 *)

(* Instantiation of call_spice used for a request. str2et_c and the others have different function
   types; the numbers only have to name the instantiations. spice.ipp:198-405 *)
Definition key_of (r : request) : nat :=
  match r with
  | Str2et _ => 2 | Deltet _ _ => 3 | Unitim _ _ _ => 4 | Timout _ _ => 5
  | Spkezr _ _ _ _ _ => 6 | Pxform _ _ _ => 7 | Sxform _ _ _ => 8 | Conics _ _ => 9
  end.

(* Which wrappers call ensure_lsk_loaded first: str2et 196, deltet 211, unitim 226, timout 243; not
   spkezr 277-291, pxform 312-320, sxform 353-362, conics 400-405 *)
Definition needs_lsk (r : request) : bool :=
  match r with
  | Str2et _ | Deltet _ _ | Unitim _ _ _ | Timout _ _ => true
  | _ => false
  end.

(* str2et, deltet, unitim, timout, spkezr, pxform, sxform, conics, spice.ipp:194-415: the value of
   the outputs after the call; None: the outputs were never written *)
Definition query (E : env) (r : request) : prog (option value) :=
  bind (if needs_lsk r then ensure_lsk_loaded E else Ret tt) (fun _ =>
  call_spice (key_of r) (Ask r)).

(* Cut at the first NUL, spice.ipp:251-253 *)
Fixpoint cut_nul (s : string) : string :=
  match s with
  | EmptyString => EmptyString
  | String c t => if Ascii.eqb c Ascii.zero then EmptyString else String c (cut_nul t)
  end.

(* The buffer after timout_c: at most lenout - 1 characters of the text, a NUL, and the NULs the
   string was created with. spice.ipp:245-250 *)
Definition nul_string (n : nat) : string :=
  String.concat "" (repeat (String Ascii.zero EmptyString) n).
Definition timout_buffer (lenout : nat) (text : string) : string :=
  let t := substring 0 (lenout - 1) text in
  String.append t (nul_string (lenout - String.length t)).

(* timout's own result from what timout_c wrote, spice.ipp:245-254 *)
Definition timout_result (lenout : nat) (text : string) : string :=
  cut_nul (timout_buffer lenout text).

(* ---- running ---- *)

(* How a call ends *)
Inductive ending (A : Type) :=
| Returned (a : A) (s : state)
| Threw (what : string) (s : state)
| Aborted.
Arguments Returned {A}. Arguments Threw {A}. Arguments Aborted {A}.

(* One thread, alone *)
Fixpoint run (E : env) {A} (p : prog A) (s : state) : ending A :=
  match p with
  | Ret a => Returned a s
  | Throw w => Threw w s
  | Do c k => match exec E c s with
              | Some (r, s') => run E (k r) s'
              | None => Aborted
              end
  end.

(* Several threads: at every step one thread makes its next call *)
Inductive tstep (E : env) {A} : list (prog A) * state -> list (prog A) * state -> Prop :=
| TStep R (c : cmd R) k i ps s r s' :
    nth_error ps i = Some (Do c k) -> exec E c s = Some (r, s') ->
    tstep E (ps, s) (upd ps i (k r), s').

Inductive tsteps (E : env) {A} : list (prog A) * state -> list (prog A) * state -> Prop :=
| TDone x : tsteps E x x
| TMore x y z : tstep E x y -> tsteps E y z -> tsteps E x z.

(* Histories of one thread: calls of the wrapper and calls the user makes to CSPICE directly *)
Inductive op :=
| OpFurnsh (name : string)
| OpFurnshRel (p : fpath)
| OpEnsure
| OpQuery (r : request)
| OpRaw (r : request).        (* the user's own CSPICE call, not through the wrapper *)

(* A wrapper op as a program that returns the value, if any *)
Definition op_prog (E : env) (o : op) : prog (option value) :=
  match o with
  | OpFurnsh n => bind (furnsh n) (fun _ => Ret (Some Void))
  | OpFurnshRel p => bind (furnsh_relative_to_file p) (fun _ => Ret (Some Void))
  | OpEnsure => bind (ensure_lsk_loaded E) (fun _ => Ret (Some Void))
  | OpQuery r => query E r
  | OpRaw r => Do (Ask r) (fun v => Ret v)
  end.

(* the state after a history; None: the process was aborted. The caller catches exceptions. *)
Fixpoint after (E : env) (h : list op) (s : state) : option state :=
  match h with
  | [] => Some s
  | o :: t => match run E (op_prog E o) s with
              | Returned _ s' | Threw _ s' => after E t s'
              | Aborted => None
              end
  end.
