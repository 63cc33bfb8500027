(* Independent specification of the logger: a bounded queue of accepted entries. *)
From Verif Require Import Common LoggerModel.

(* The last n elements of a list *)
Definition lastn {A} (n : nat) (l : list A) : list A := skipn (List.length l - n) l.

(* Abstract logger: capacity, level, retained entries oldest first. *)
Record queue := Queue { q_cap : nat; q_level : level; q_items : list entry }.

Definition q_init : queue := Queue 1000 Info [].

(* An entry is accepted when its level is at least the minimum level. *)
Definition accepted (min : level) (e : entry) : bool := Nat.leb (level_num min) (level_num (e_level e)).

Definition q_step (q : queue) (o : op) : queue :=
  match o with
  | OpSetLevel l => Queue (q_cap q) l (q_items q)
  | OpLog e => if accepted (q_level q) e
               then Queue (q_cap q) (q_level q) (lastn (q_cap q) (q_items q ++ [e])) else q
  | OpSetSize n => Queue (Nat.max 1 n) (q_level q) (lastn (Nat.max 1 n) (q_items q))
  | OpSetSink _ | OpClearSink => q
  end.

Definition q_run (os : list op) : queue := fold_left q_step os q_init.

(* What the sinks must receive: scan of the history with the level and the installed sink. *)
Fixpoint deliveries (min : level) (k : option nat) (os : list op) : list (nat * entry) :=
  match os with
  | [] => []
  | OpSetLevel l :: r => deliveries l k r
  | OpLog e :: r =>
      (if accepted min e then match k with Some i => [(i, e)] | None => [] end else [])
      ++ deliveries min k r
  | OpSetSize _ :: r => deliveries min k r
  | OpSetSink s :: r => deliveries min (Some (sink_id s)) r
  | OpClearSink :: r => deliveries min None r
  end.

Definition num_logs (os : list op) : nat :=
  List.length (filter (fun o => match o with OpLog _ => true | _ => false end) os).

(* Documented effect of one console call (comments at logger.ipp:277-283, 296-303, 316-322):
   turning a level on turns on the less verbose ones, turning it off turns off the more verbose ones. *)
Definition spec_call (m : flags) (k : console_call) : flags :=
  match k with
  | EnDebug true => fun _ => true
  | EnDebug false => fun f => match f with FDebug => false | _ => m f end
  | EnInfo true => fun f => match f with FDebug => m FDebug | _ => true end
  | EnInfo false => fun f => match f with FWarning => m FWarning | _ => false end
  | EnWarning true => fun f => match f with FWarning => true | _ => m f end
  | EnWarning false => fun _ => false
  end.

(* no call in flight has been overtaken by a full turn of the ring *)
Definition not_lapped (s : clog) : Prop :=
  forall f, In f (c_inflight s) -> c_next s <= tk f + c_cap s.

(* every prefix of the schedule keeps every call in flight within one turn of the ring *)
Fixpoint never_lapped (s : clog) (evs : list cev) : Prop :=
  not_lapped s /\ match evs with [] => True | ev :: r => never_lapped (cstep s ev) r end.
