(* Property theorems for the logger: C01, C02, C03, C04. *)
From Verif Require Import Common LoggerModel LoggerSpec LoggerProofs LoggerConcProofs.

Lemma init_sim : sim init_logger q_init.
Proof.
  split; [|split; reflexivity].
  unfold ring, init_logger. cbn [buffer write_index q_items q_init].
  rewrite repeat_length. split; [lia|]. split; [reflexivity|]. intros i Hi; simpl in Hi; lia.
Qed.

(* C01. For every history of fewer than 2^64 log calls, the dump lists the non-empty entries of
   the bounded queue of accepted entries, in order. *)
Theorem logger_dump_is_recent_accepted :
  forall os : list op, (N.of_nat (num_logs os) < word)%N ->
  exists s d, run init_logger os = Ok (s, d) /\
    List.length (buffer s) = q_cap (q_run os) /\
    dump s = filter (fun e => negb (String.eqb (e_msg e) "")) (q_items (q_run os)).
Proof.
  intros os H. destruct (run_sim os init_logger q_init init_sim H) as (s & Hr & Hs).
  exists s, (deliveries Info None os). split; [exact Hr|]. destruct Hs as (Hring & Hcap & _).
  split; [exact Hcap|]. unfold dump. rewrite (ring_dump _ _ Hring). reflexivity.
Qed.
Print Assumptions logger_dump_is_recent_accepted.

(* non-vacuity: three messages in a buffer of size 2, one filtered, one resize *)
Example logger_dump_example :
  let m := fun n l t => OpLog (Entry n l t) in
  let os := [OpSetSize 2; m 1%N Info "a"%string; m 2%N Debug "hidden"%string; m 3%N Error "b"%string;
             m 4%N Warning "c"%string; OpSetSize 5; m 5%N Info "d"%string] in
  (N.of_nat (num_logs os) < word)%N /\
  match run init_logger os with
  | Ok (s, _) => map e_msg (dump s) = ["b"; "c"; "d"]%string
  | _ => False end.
Proof. vm_compute. auto. Qed.

(* C03. Sinks receive exactly the accepted messages, once and in order, whatever they throw; no
   exception leaves the logger. *)
Theorem logger_sink_exact :
  forall os : list op, (N.of_nat (num_logs os) < word)%N ->
  exists s, run init_logger os = Ok (s, deliveries Info None os).
Proof.
  intros os H. destruct (run_sim os init_logger q_init init_sim H) as (s & Hr & Hs).
  exists s. exact Hr.
Qed.
Print Assumptions logger_sink_exact.

(* C03. An Error entry is accepted under every minimum level: it is always the newest retained entry. *)
Theorem logger_error_never_filtered :
  forall os e, (N.of_nat (num_logs (os ++ [OpLog e])) < word)%N -> e_level e = Error ->
  exists s d, run init_logger (os ++ [OpLog e]) = Ok (s, d) /\
    last (dump_entries s) blank = e.
Proof.
  intros os e H He.
  destruct (run_sim _ init_logger q_init init_sim H) as (s & Hr & Hs).
  exists s, (deliveries Info None (os ++ [OpLog e])). split; [exact Hr|].
  destruct Hs as (Hring & Hcap & _). rewrite (ring_dump _ _ Hring).
  rewrite fold_left_app. cbn [fold_left q_step].
  set (q := fold_left q_step os q_init) in *.
  assert (Hacc : accepted (q_level q) e = true).
  { unfold accepted. rewrite He. destruct (q_level q); reflexivity. }
  rewrite Hacc. cbn [q_items].
  destruct Hring as (Hc & _).
  assert (Hq : (1 <= q_cap q)%nat).
  { rewrite fold_left_app in Hcap. cbn [fold_left q_step] in Hcap. fold q in Hcap. rewrite Hacc in Hcap. cbn [q_cap] in Hcap. lia. }
  unfold lastn. rewrite app_length. simpl (List.length [e]).
  rewrite skipn_app. 
  replace (List.length (q_items q) + 1 - q_cap q - List.length (q_items q))%nat with 0%nat by lia.
  cbn [skipn]. apply last_last.
Qed.
Print Assumptions logger_error_never_filtered.

Example logger_sink_example :
  let k := Sink 7 (fun _ => true) in
  let e1 := Entry 1 Info "x"%string in let e2 := Entry 2 Debug "y"%string in let e3 := Entry 3 Error "z"%string in
  deliveries Info None [OpLog e1; OpSetSink k; OpLog e2; OpLog e1; OpSetLevel Error; OpLog e1; OpLog e3; OpClearSink; OpLog e3]
  = [(7, e1); (7, e3)].
Proof. reflexivity. Qed.

(* C02. Under every interleaving of the stores of any number of threads. *)
Theorem console_hierarchy :
  forall (progs : list (list console_call)) (sch : list nat),
  let c := sched_run (start_config progs) sch in
  Forall (fun t => pending t = []) (threads c) ->
  (mem c FDebug = true -> mem c FInfo = true) /\ (mem c FInfo = true -> mem c FWarning = true).
Proof. exact console_hierarchy_lemma. Qed.
Print Assumptions console_hierarchy.

(* C02. Running alone, a thread's calls have their documented effect. *)
Theorem console_sequential_effect :
  forall p : list console_call,
  exists n, let c := sched_run (start_config [p]) (repeat 0 n) in
    threads c = [Thread [] []] /\ forall f, mem c f = fold_left spec_call p init_flags f.
Proof. intros p. exact (single_thread_run p init_flags init_flags (fun _ => eq_refl)). Qed.
Print Assumptions console_sequential_effect.

(* non-vacuity: two threads, interleaved, reach quiescence with debug on *)
Example console_hierarchy_example :
  let c := sched_run (start_config [[EnDebug true]; [EnWarning false]]) [1;1;0;1;0;1;0;0] in
  quiescent c /\ mem c FDebug = false /\ mem c FInfo = true /\ mem c FWarning = true.
Proof. vm_compute. repeat constructor. Qed.

(* C02, relaxed atomics. With only per-atomic coherence (what memory_order_relaxed promises) the
   hierarchy can be broken: enable_console_debug(true) racing enable_console_info(false). *)
Theorem console_hierarchy_relaxed_refuted :
  exists (progs : list (list console_call)) (mo : flag -> list bool),
    (forall f, merge (map (prog_stores f) progs) (mo f)) /\
    final_value FDebug (mo FDebug) = true /\ final_value FInfo (mo FInfo) = false.
Proof.
  exists [[EnDebug true]; [EnInfo false]],
    (fun f => match f with FDebug => [false; true] | FInfo => [true; false] | FWarning => [true] end).
  split; [|split; reflexivity].
  intros []; cbn.
  - eapply (merge_cons _ 1); [reflexivity|]. eapply (merge_cons _ 0); [reflexivity|].
    constructor. repeat constructor.
  - eapply (merge_cons _ 0); [reflexivity|]. eapply (merge_cons _ 1); [reflexivity|].
    constructor. repeat constructor.
  - eapply (merge_cons _ 0); [reflexivity|]. constructor. repeat constructor.
Qed.
Print Assumptions console_hierarchy_relaxed_refuted.

(* C04, full claim is false: for every capacity some schedule has two calls writing one slot. *)
Theorem concurrent_log_race_refuted :
  forall c, 0 < c -> exists evs, slot_race (crun (cinit c) evs).
Proof. intros c H. exists (race_schedule c blank). exact (race_exists c blank H). Qed.
Print Assumptions concurrent_log_race_refuted.

(* C04, true part: as long as no call in flight is lapped by a whole turn of the ring, there is no
   race, and once all calls are complete the ring holds the last c entries in ticket order.
   Missing for the full claim: schedules that lap a call (refuted above), and the 2^64 wrap. *)
Theorem concurrent_log_no_race_partial :
  forall c evs, 0 < c -> never_lapped (cinit c) evs ->
  let s := crun (cinit c) evs in
  ~ slot_race s /\
  (c_inflight s = [] -> forall k, k < List.length (c_hist s) -> List.length (c_hist s) <= k + c ->
     c_slots s (k mod c) = nth_error (c_hist s) k).
Proof.
  intros c evs Hc Hn s. split.
  - exact (no_race_unlapped c evs Hc Hn).
  - exact (quiescent_slots c evs Hc Hn).
Qed.
Print Assumptions concurrent_log_no_race_partial.

Example never_lapped_example :
  let e := Entry 1 Info "x"%string in
  never_lapped (cinit 2) [TakeTicket e; TakeTicket e; Finish 1; Finish 0; TakeTicket e; Finish 0].
Proof. cbn. unfold not_lapped; cbn. repeat split; intros f H; intuition (subst; simpl; lia). Qed.
