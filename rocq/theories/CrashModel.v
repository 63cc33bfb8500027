(* Model of the crash handling of the logger, include/huira_impl/util/logger.ipp:266-292 (enable_crash_handler), 397-438 (handle_crash), 470-508 (handle_terminate), 522-550 (installation),
   for any number of threads, on Linux with glibc/libstdc++.
   - A message stands for its text. The log is the list of accepted messages, of which the buffer holds the last [cap] (C01); set_level cannot filter errors (C03).
   - std::signal has BSD semantics: the handler stays installed and its signal is blocked in the thread while it runs. A fault (SIGSEGV, SIGFPE, SIGILL, SIGBUS) whose signal is blocked or has
     the default disposition kills the process; when a handler returns from a fault, the faulting instruction runs again and faults again (nothing repairs the cause).
   - abort() unblocks SIGABRT and raises it; if the handler returns it restores the default disposition and raises again.
   - The steps of the handlers that build strings or write files ("risky") need the allocator's lock and may themselves fault, abort or (dump_to_file) throw. An exception that leaves the
     signal handler ends in std::terminate, one that leaves the terminate handler in abort().
   - Windows' exception filter and asynchronous signals sent from outside are not modelled. *)
From Coq Require Import List String Arith Lia Bool.
Import ListNotations.

Inductive signal := SEGV | ABRT | FPE | ILL | BUS.
Definition sig_eqb (a b : signal) : bool := match a, b with SEGV, SEGV | ABRT, ABRT | FPE, FPE | ILL, ILL | BUS, BUS => true | _, _ => false end.
(* what current_exception() gives: nothing, an unknown exception, a std::exception with its text *)
Inductive exc := NoExc | Unknown | What (s : string).
Inductive msg :=
| Text (s : string)                      (* a message of the application *)
| CrashSignal (g : signal)               (* "Crash detected with signal: n" *)
| CrashScope (s : string)                (* "Crash inside scope: " *)
| TraceHead                              (* "Scope trace:" *)
| TraceScope (s : string)                (* " -> " *)
| Uncaught (e : exc).                    (* "Uncaught exception: ...", "Uncaught unknown exception", "Terminate called without active exception" *)

(* the messages handle_crash logs, :412-422; [scopes] is the thread's scope stack, outermost first *)
Definition crash_messages (g : signal) (scopes : list string) : list msg :=
  CrashSignal g :: match scopes with [] => [] | _ => CrashScope (last scopes EmptyString) :: TraceHead :: map TraceScope scopes end.

(* where a thread is inside handle_crash / handle_terminate *)
Inductive cpc := CEntry | CLog (todo : list msg) | CDump | CReport (path : bool) | CDfl | CRaise.
Inductive tpc := TEntry (e : exc) | TLog (e : exc) | TDump | TReport (path : bool).
Inductive frame :=
| Fault (g : signal)            (* a machine instruction that faults *)
| Abort1 | Abort2               (* in abort(), before and after the handler ran *)
| Crash (g : signal) (pc : cpc) (* in handle_crash(g) *)
| Term (pc : tpc).              (* in handle_terminate() *)
Record st := St { enabled : bool; reported : bool; disp : signal -> bool (* handle_crash is installed *); log : list msg; cap : nat; file : option (list msg * bool) (* content, complete *);
  printed : nat; heap : option nat; frames : nat -> list frame; scopes : nat -> list string; dead : option signal }.

(* the program starts with the logger's constructor, :89-98 *)
Definition start (c : nat) : st := St true false (fun _ => true) [] c None 0 None (fun _ => []) (fun _ => []) None.

Definition upd {A} (f : nat -> A) (t : nat) (x : A) : nat -> A := fun u => if Nat.eqb u t then x else f u.
Definition set_frames t fs s := St (enabled s) (reported s) (disp s) (log s) (cap s) (file s) (printed s) (heap s) (upd (frames s) t fs) (scopes s) (dead s).
Definition set_scopes t sc s := St (enabled s) (reported s) (disp s) (log s) (cap s) (file s) (printed s) (heap s) (frames s) (upd (scopes s) t sc) (dead s).
Definition set_reported s := St (enabled s) true (disp s) (log s) (cap s) (file s) (printed s) (heap s) (frames s) (scopes s) (dead s).
Definition set_enabled b s := St b (reported s) (if b then fun _ => true else disp s) (log s) (cap s) (file s) (printed s) (heap s) (frames s) (scopes s) (dead s).
Definition set_default g s := St (enabled s) (reported s) (fun h => if sig_eqb h g then false else disp s h) (log s) (cap s) (file s) (printed s) (heap s) (frames s) (scopes s) (dead s).
Definition add_log m s := St (enabled s) (reported s) (disp s) (log s ++ [m]) (cap s) (file s) (printed s) (heap s) (frames s) (scopes s) (dead s).
Definition set_file f s := St (enabled s) (reported s) (disp s) (log s) (cap s) f (printed s) (heap s) (frames s) (scopes s) (dead s).
Definition set_heap h s := St (enabled s) (reported s) (disp s) (log s) (cap s) (file s) (printed s) h (frames s) (scopes s) (dead s).
Definition print s := St (enabled s) (reported s) (disp s) (log s) (cap s) (file s) (S (printed s)) (heap s) (frames s) (scopes s) (dead s).
Definition die g s := St (enabled s) (reported s) (disp s) (log s) (cap s) (file s) (printed s) (heap s) (frames s) (scopes s) (Some g).

(* the last n elements: what the ring buffer holds *)
Definition lastn {A} (n : nat) (l : list A) : list A := skipn (List.length l - n) l.
(* how dump_to_file ends: everything written; only the first k lines written, unnoticed; no file could be opened; a file system exception *)
Inductive io := Wrote | Short (k : nat) | NoFile | Threw.
Definition blocked (g : signal) (fs : list frame) : bool := existsb (fun f => match f with Crash h _ => sig_eqb g h | _ => false end) fs.

(* one step of a thread that is inside a handler; None: it waits for the allocator's lock for ever *)
Definition go (d : io) (t : nat) (s : st) : option st :=
  match frames s t with
  | [] => None
  | f :: r =>
    let top f' s := set_frames t (f' :: r) s in
    let need s' := match heap s with None => Some s' | Some _ => None end in
    match f with
    | Fault g => if disp s g && negb (blocked g r) then Some (set_frames t (Crash g CEntry :: f :: r) s) else Some (die g s)
    | Crash g CEntry =>                                                           (* :399-411 *)
        if negb (enabled s) then Some (set_frames t r s)
        else if reported s then Some (top (Crash g CDfl) s)
        else Some (top (Crash g (CLog (crash_messages g (scopes s t)))) (set_reported s))
    | Crash g (CLog (m :: ms)) => need (top (Crash g (CLog ms)) (add_log m s))    (* :412-422 *)
    | Crash g (CLog []) => Some (top (Crash g CDump) s)
    | Crash g CDump => need match d with                                          (* :424 *)
        | Wrote => top (Crash g (CReport true)) (set_file (Some (lastn (cap s) (log s), true)) s)
        | Short k => top (Crash g (CReport true)) (set_file (Some (firstn k (lastn (cap s) (log s)), false)) s)
        | NoFile => top (Crash g (CReport false)) s
        | Threw => set_frames t (Term (TEntry Unknown) :: f :: r) s end
    | Crash g (CReport p) => need (top (Crash g CDfl) (if p then print s else s)) (* :425 *)
    | Crash g CDfl => Some (top (Crash g CRaise) (set_default g s))               (* :428, also :408 *)
    | Crash g CRaise => if disp s g then Some (top (Crash g CEntry) s) else Some (die g s)    (* :429, delivered when the handler returns *)
    | Term (TEntry e) =>                                                          (* :472-481 *)
        if negb (enabled s) || reported s then Some (top Abort1 s) else Some (top (Term (TLog e)) (set_reported s))
    | Term (TLog e) => need (top (Term TDump) (add_log (Uncaught e) s))           (* :482-497 *)
    | Term TDump => need match d with                                             (* :498 *)
        | Wrote => top (Term (TReport true)) (set_file (Some (lastn (cap s) (log s), true)) s)
        | Short k => top (Term (TReport true)) (set_file (Some (firstn k (lastn (cap s) (log s)), false)) s)
        | NoFile => top (Term (TReport false)) s
        | Threw => top Abort1 s end
    | Term (TReport p) => need (top Abort1 (if p then print s else s))            (* :499-500 *)
    | Abort1 => if disp s ABRT then Some (set_frames t (Crash ABRT CEntry :: Abort2 :: r) s) else Some (die ABRT s)
    | Abort2 => Some (die ABRT s)
    end
  end.
(* steps that build strings or files *)
Definition risky (f : frame) : bool := match f with Crash _ (CLog (_ :: _)) | Crash _ CDump | Crash _ (CReport _) | Term (TLog _) | Term TDump | Term (TReport _) => true | _ => false end.

(* what can happen in thread t *)
Inductive act := Log (s : string) | Enter (s : string) | Leave | Lock | Unlock   (* the application: messages, HUIRA_TRACE_SCOPE, inside the allocator *)
| Config (b : bool)                                                              (* enable_crash_handler(b) *)
| Crashes (f : frame)                                                            (* a fault, abort() or an uncaught exception begins *)
| Go (d : io).                                                                   (* the handler goes on *)
Inductive begins : frame -> Prop := BFault g : g <> ABRT -> begins (Fault g) | BAbort : begins Abort1 | BTerm e : begins (Term (TEntry e)).
Inductive step (t : nat) : act -> st -> st -> Prop :=
| SLog m s : frames s t = [] -> heap s = None -> step t (Log m) s (add_log (Text m) s)
| SEnter n s : frames s t = [] -> step t (Enter n) s (set_scopes t (scopes s t ++ [n]) s)
| SLeave s : frames s t = [] -> step t Leave s (set_scopes t (removelast (scopes s t)) s)
| SLock s : frames s t = [] -> heap s = None -> step t Lock s (set_heap (Some t) s)
| SUnlock s : frames s t = [] -> heap s = Some t -> step t Unlock s (set_heap None s)
| SConfig b s : frames s t = [] -> step t (Config b) s (set_enabled b s)
| SCrash f s : frames s t = [] -> begins f -> step t (Crashes f) s (set_frames t [f] s)
| SNested f f' r s : frames s t = f' :: r -> risky f' = true -> heap s = None -> begins f -> step t (Crashes f) s (set_frames t (f :: f' :: r) s)
| SGo d s s' : go d t s = Some s' -> step t (Go d) s s'.
(* a run of the process: nothing happens after its death *)
Inductive run : st -> list (nat * act) -> st -> Prop :=
| RNil s : run s [] s
| RCons t a s s1 l s2 : dead s = None -> step t a s s1 -> run s1 l s2 -> run s ((t, a) :: l) s2.
Definition reachable (c : nat) (s : st) : Prop := exists l, run (start c) l s.
