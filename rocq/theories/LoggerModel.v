(* Model of huira::Logger, include/huira_impl/util/logger.ipp and include/huira/util/logger.hpp.
   Simplifications: the timestamp and the thread id of an entry are one opaque number [stamp];
   the entry-to-string formatting, the dump file header and the file system are not modelled
   (dump yields the list of entries written); allocation never fails; sink callbacks do not call
   back into the logger. *)
From Verif Require Import Common.

(* enum class LogLevel, huira/util/logger.hpp:24 *)
Inductive level := Debug | Info | Warning | Error.

(* numeric values of LogLevel, huira/util/logger.hpp:24 *)
Definition level_num (l : level) : nat :=
  match l with Debug => 0 | Info => 1 | Warning => 2 | Error => 3 end.

(* operator< on LogLevel as used in Logger::log, logger.ipp:185 *)
Definition level_ltb (a b : level) : bool := Nat.ltb (level_num a) (level_num b).

(* struct LogEntry, huira/util/logger.hpp:32 (timestamp and thread id collapsed into [stamp]) *)
Record entry := Entry { e_stamp : N; e_level : level; e_msg : string }.

(* Value-initialised LogEntry, as stored by std::vector<LogEntry>(size): empty message.
   logger.ipp:88, 133 *)
Definition blank : entry := Entry 0 Debug EmptyString.

(* size_t arithmetic wraps modulo 2^64 *)
Definition word : N := 18446744073709551616%N.

(* A custom sink: an identity and, for each entry, whether it throws. logger.ipp:167-177 *)
Record sink := Sink { sink_id : nat; sink_throws : entry -> bool }.

(* Data members of Logger that the dump, the filter and the sink use. logger.ipp:87-92 *)
Record logger := Logger {
  buffer : list entry;
  write_index : N;
  min_level : level;
  custom_sink : option sink
}.

(* Logger::Logger, logger.ipp:87-92 *)
Definition init_logger : logger := Logger (repeat blank 1000) 0 Info None.

(* Logger::set_level, logger.ipp:113-116 *)
Definition set_level (s : logger) (l : level) : logger :=
  Logger (buffer s) (write_index s) l (custom_sink s).

(* The copy loop of set_buffer_size, logger.ipp:140-143: new_buffer[i] = old_buffer[(w - n + i) % old] *)
Fixpoint copy_loop (old : list entry) (w n : N) (i : nat) (fuel : nat) (new : list entry) : list entry :=
  match fuel with
  | O => new
  | S f =>
      let old_idx := N.to_nat ((w - n + N.of_nat i) mod N.of_nat (List.length old)) in
      copy_loop old w n (S i) f (upd new i (nth old_idx old blank))
  end.

(* Logger::set_buffer_size, logger.ipp:128-147. [w - n] does not underflow because n <= w. *)
Definition set_buffer_size (s : logger) (size0 : nat) : logger :=
  let size := if Nat.eqb size0 0 then 1 else size0 in
  let w := write_index s in
  let n := N.min w (N.min (N.of_nat (List.length (buffer s))) (N.of_nat size)) in
  let new := copy_loop (buffer s) w n 0 (N.to_nat n) (repeat blank size) in
  Logger new n (min_level s) (custom_sink s).

(* Result of one log call: state, deliveries to the sink, and whether an exception escapes. *)
Record log_result := LogResult {
  lr_state : logger;
  lr_delivered : list (nat * entry);
  lr_escaped : bool
}.

(* Logger::log, logger.ipp:183-204. A zero-sized buffer would make % undefined behaviour. *)
Definition log (s : logger) (e : entry) : outcome log_result :=
  if level_ltb (e_level e) (min_level s) then Ok (LogResult s [] false)
  else
    if Nat.eqb (List.length (buffer s)) 0 then UB
    else
      let index := N.to_nat (write_index s mod N.of_nat (List.length (buffer s))) in
      let s' := Logger (upd (buffer s) index e) ((write_index s + 1) mod word)
                       (min_level s) (custom_sink s) in
      match custom_sink s with
      | None => Ok (LogResult s' [] false)
      | Some k =>
          (* the call is inside try { } catch (...) { }: a throwing sink is ignored *)
          if sink_throws k e then Ok (LogResult s' [(sink_id k, e)] false)
          else Ok (LogResult s' [(sink_id k, e)] false)
      end.

(* Entries read by dump_to_file, logger.ipp:244-255, before the emptiness test *)
Definition dump_entries (s : logger) : list entry :=
  let size := N.of_nat (List.length (buffer s)) in
  let total := N.min (write_index s) size in
  let start := if N.ltb size (write_index s) then (write_index s mod size)%N else 0%N in
  map (fun i => nth (N.to_nat ((start + N.of_nat i) mod size)) (buffer s) blank)
      (seq 0 (N.to_nat total)).

(* !entry.message.empty(), logger.ipp:252 *)
Definition has_text (e : entry) : bool := negb (String.eqb (e_msg e) EmptyString).

(* Logger::dump_to_file, logger.ipp:244-255: the entries that are written, in order *)
Definition dump (s : logger) : list entry := filter has_text (dump_entries s).

(* API calls of the logger state machine *)
Inductive op :=
| OpSetLevel (l : level)
| OpLog (e : entry)
| OpSetSize (n : nat)
| OpSetSink (k : sink)
| OpClearSink.

(* One API call; deliveries to sinks are the observable output. logger.ipp:113-204 *)
Definition step (s : logger) (o : op) : outcome (logger * list (nat * entry)) :=
  match o with
  | OpSetLevel l => Ok (set_level s l, [])
  | OpLog e => obind (log s e) (fun r => if lr_escaped r then Throws else Ok (lr_state r, lr_delivered r))
  | OpSetSize n => Ok (set_buffer_size s n, [])
  | OpSetSink k => Ok (Logger (buffer s) (write_index s) (min_level s) (Some k), [])
  | OpClearSink => Ok (Logger (buffer s) (write_index s) (min_level s) None, [])
  end.

(* A history of API calls (modelling device) *)
Fixpoint run (s : logger) (os : list op) : outcome (logger * list (nat * entry)) :=
  match os with
  | [] => Ok (s, [])
  | o :: os' =>
      obind (step s o) (fun r1 =>
      obind (run (fst r1) os') (fun r2 => Ok (fst r2, snd r1 ++ snd r2)))
  end.

(** ** Console flags (C02) *)

(* The three console atomics. logger.hpp private members; logger.ipp:89-90 *)
Inductive flag := FDebug | FInfo | FWarning.
Definition flag_eqb (a b : flag) : bool :=
  match a, b with FDebug, FDebug | FInfo, FInfo | FWarning, FWarning => true | _, _ => false end.

(* One atomic store (relaxed in the code). logger.ipp:286-329 *)
Record store := Store { st_flag : flag; st_val : bool }.

(* enable_console_debug / info / warning with their argument *)
Inductive console_call := EnDebug (b : bool) | EnInfo (b : bool) | EnWarning (b : bool).

(* The stores a call performs, in program order. logger.ipp:284-329 *)
Definition stores_of (c : console_call) : list store :=
  match c with
  | EnDebug b => Store FDebug b ::
      (if b then [Store FInfo true; Store FWarning true] else [])
  | EnInfo b => Store FInfo b ::
      (if b then [Store FWarning true] else [Store FDebug false])
  | EnWarning b => Store FWarning b ::
      (if b then [] else [Store FInfo false; Store FDebug false])
  end.

(* Values of the three flags *)
Definition flags := flag -> bool.
(* Logger::Logger, logger.ipp:89-90: debug off, info off, warning on *)
Definition init_flags : flags := fun f => match f with FWarning => true | _ => false end.
(* memory effect of one store *)
Definition do_store (m : flags) (s : store) : flags :=
  fun f => if flag_eqb (st_flag s) f then st_val s else m f.

(* A thread: stores of the call in progress still to be made, and calls not begun. *)
Record thread := Thread { pending : list store; calls : list console_call }.

(* Global configuration of the interleaving semantics *)
Record config := Config { mem : flags; threads : list thread }.

(* Thread [i] makes one step: performs its next store, or begins its next call. *)
Definition sched_step (c : config) (i : nat) : config :=
  match nth_error (threads c) i with
  | None => c
  | Some t =>
      match pending t with
      | s :: rest => Config (do_store (mem c) s) (upd (threads c) i (Thread rest (calls t)))
      | [] =>
          match calls t with
          | [] => c
          | k :: ks => Config (mem c) (upd (threads c) i (Thread (stores_of k) ks))
          end
      end
  end.

(* Running a schedule: a list of thread numbers *)
Definition sched_run (c : config) (sch : list nat) : config := fold_left sched_step sch c.

(* Start: each thread has a program of calls, none begun *)
Definition start_config (progs : list (list console_call)) : config :=
  Config init_flags (map (Thread []) progs).

(* no enable_console_* call is in progress *)
Definition quiescent (c : config) : Prop := Forall (fun t => pending t = []) (threads c).

(** ** Relaxed stores (C02): only per-variable coherence.
   std::memory_order_relaxed gives each atomic its own modification order, consistent with the
   program order of each thread on that atomic but not across atomics. An execution is
   given by one total order of the stores per flag; the final value is the last store of it. *)

(* stores of a thread's program to flag f, in program order *)
Definition prog_stores (f : flag) (p : list console_call) : list bool :=
  map st_val (filter (fun s => flag_eqb (st_flag s) f) (flat_map stores_of p)).

(* [merge ls m]: m is an interleaving of the lists ls (each kept in order) *)
Inductive merge {A} : list (list A) -> list A -> Prop :=
| merge_nil ls : Forall (fun l => l = []) ls -> merge ls []
| merge_cons ls i x rest m :
    nth_error ls i = Some (x :: rest) -> merge (upd ls i rest) m -> merge ls (x :: m).

(* final value of flag f under modification order [mo] *)
Definition final_value (f : flag) (mo : list bool) : bool := last mo (init_flags f).

(** ** Concurrent log calls (C04) *)

(* A thread inside log between fetch_add and the completed entry copy: ticket and entry.
   logger.ipp:191-194. Tickets are unbounded naturals (no 2^64 wrap). *)
Record inflight := Inflight { tk : nat; tk_entry : entry }.

(* Shared state of concurrent logging: capacity, ticket counter, slots, calls in flight and
   (ghost) the entries in ticket order. *)
Record clog := Clog {
  c_cap : nat; c_next : nat; c_slots : nat -> option entry;
  c_inflight : list inflight; c_hist : list entry }.

(* TakeTicket e: some thread performs write_index_.fetch_add for entry e.
   Finish k: the k-th call in flight completes buffer_[ticket % size] = entry. *)
Inductive cev := TakeTicket (e : entry) | Finish (k : nat).

(* remove the k-th element *)
Fixpoint drop_nth {A} (k : nat) (l : list A) : list A :=
  match l, k with [], _ => [] | _ :: t, O => t | x :: t, S j => x :: drop_nth j t end.

(* One step of concurrent logging. logger.ipp:191-194 *)
Definition cstep (s : clog) (ev : cev) : clog :=
  match ev with
  | TakeTicket e =>
      Clog (c_cap s) (S (c_next s)) (c_slots s)
           (c_inflight s ++ [Inflight (c_next s) e]) (c_hist s ++ [e])
  | Finish k =>
      match nth_error (c_inflight s) k with
      | None => s
      | Some f =>
          Clog (c_cap s) (c_next s)
               (fun i => if Nat.eqb i (tk f mod c_cap s) then Some (tk_entry f) else c_slots s i)
               (drop_nth k (c_inflight s)) (c_hist s)
      end
  end.

(* running a schedule *)
Definition crun (s : clog) (evs : list cev) : clog := fold_left cstep evs s.
(* empty buffer of capacity c *)
Definition cinit (c : nat) : clog := Clog c 0 (fun _ => None) [] [].

(* Two calls in flight write the same slot: a data race on a LogEntry. *)
Definition slot_race (s : clog) : Prop :=
  exists a b fa fb, a <> b /\ nth_error (c_inflight s) a = Some fa /\
    nth_error (c_inflight s) b = Some fb /\ tk fa mod c_cap s = tk fb mod c_cap s.
