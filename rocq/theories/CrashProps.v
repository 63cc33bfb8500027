(* C146: a crash leaves one report, a log, and a dead process. *)
From Coq Require Import List String Arith Lia Bool.
From Verif Require Import CrashModel.
Import ListNotations.

Lemma upd_same {A} (f : nat -> A) t x : upd f t x t = x.
Proof. unfold upd. rewrite Nat.eqb_refl. reflexivity. Qed.
Lemma upd_other {A} (f : nat -> A) t x u : u <> t -> upd f t x u = f u.
Proof. intros H. unfold upd. destruct (Nat.eqb_spec u t); [contradiction|reflexivity]. Qed.
Lemma sig_eqb_spec a b : sig_eqb a b = true <-> a = b.
Proof. destruct a, b; cbn; split; congruence. Qed.

(** ** specification *)
(* the thread has crashed: it is in a handler, in abort() or at a faulting instruction *)
Definition crashed (s : st) (t : nat) : Prop := frames s t <> [].
(* nobody calls enable_crash_handler *)
Definition quiet (l : list (nat * act)) : Prop := forall t b, ~ In (t, Config b) l.
(* the number of steps of thread t *)
Definition count (t : nat) (l : list (nat * act)) : nat := List.length (filter (fun p => Nat.eqb (fst p) t) l).
(* the signal a crash would end the process with if there were no handler *)
Definition cause (f : frame) : signal := match f with Fault g => g | _ => ABRT end.
(* what the log has to say about a crash: the signal; if scopes are open (outermost first), the innermost one and all of them *)
Inductive tells_crash (g : signal) : list string -> list msg -> Prop :=
| NoScope : tells_crash g [] [CrashSignal g]
| InScope outer inner : tells_crash g (outer ++ [inner]) (CrashSignal g :: CrashScope inner :: TraceHead :: map TraceScope (outer ++ [inner])).
Inductive tells_story : frame -> list string -> list msg -> Prop :=
| StoryFault g sc l : tells_crash g sc l -> tells_story (Fault g) sc l
| StoryAbort sc l : tells_crash ABRT sc l -> tells_story Abort1 sc l
| StoryTerm e sc : tells_story (Term (TEntry e)) sc [Uncaught e].
(* what a buffer with room for n messages keeps of the messages l: the newest *)
Definition newest (n : nat) (l kept : list msg) : Prop := List.length kept = Nat.min n (List.length l) /\ exists older, l = older ++ kept.
(* the messages of the story, by the model's function *)
Definition story (f : frame) (sc : list string) : list msg := match f with Fault g => crash_messages g sc | Term (TEntry e) => [Uncaught e] | _ => crash_messages ABRT sc end.
Lemma story_tells f sc : begins f -> tells_story f sc (story f sc).
Proof.
  assert (C : forall g, tells_crash g sc (crash_messages g sc)).
  { intros g. destruct sc as [|x r]; [constructor|].
    destruct (exists_last (l := x :: r)) as (o & i & E'); [discriminate|]. rewrite E'. unfold crash_messages. destruct (o ++ [i]) eqn:Q; [destruct o; discriminate|]. rewrite <- Q. rewrite last_last. constructor. }
  intros B. destruct B; cbn [story]; constructor; auto.
Qed.
Lemma lastn_newest n l : newest n l (lastn n l).
Proof. unfold newest, lastn. split; [rewrite skipn_length; lia|]. exists (firstn (List.length l - n) l). symmetry. apply firstn_skipn. Qed.

(** ** at most one report *)
Definition active (f : frame) : bool := match f with Crash _ (CLog _) | Crash _ CDump | Crash _ (CReport _) | Term (TLog _) | Term TDump | Term (TReport _) => true | _ => false end.
Definition actives (fs : list frame) : nat := List.length (filter active fs).
Definition one (s : st) : Prop := exists t0, (forall t, t <> t0 -> actives (frames s t) = 0) /\ printed s + actives (frames s t0) <= (if reported s then 1 else 0).
Lemma actives_cons f r : actives (f :: r) = (if active f then 1 else 0) + actives r.
Proof. unfold actives. cbn. destruct (active f); reflexivity. Qed.
Arguments actives : simpl never.
(* a change of one thread's frames *)
Lemma one_change s s' t fs : one s -> frames s' = upd (frames s) t fs -> (reported s = true -> reported s' = true) ->
  printed s' + actives fs + (if reported s then 1 else 0) <= printed s + actives (frames s t) + (if reported s' then 1 else 0) -> printed s <= printed s' ->
  (reported s = reported s' -> printed s' + actives fs <= printed s + actives (frames s t)) -> one s'.
Proof.
  intros (t0 & O & B) F R C P D. destruct (Nat.eq_dec t t0) as [->|N].
  - exists t0. split; [intros t H; rewrite F, upd_other by auto; auto|]. rewrite F, upd_same. destruct (reported s), (reported s'); lia.
  - destruct (actives (frames s t0)) eqn:E.
    + exists t. split. { intros u H. rewrite F, upd_other by auto. destruct (Nat.eq_dec u t0) as [->|]; auto. } rewrite F, upd_same. rewrite (O t N) in *. destruct (reported s), (reported s'); try specialize (R eq_refl); try discriminate; lia.
    + exists t0. split. { intros u H. rewrite F. destruct (Nat.eq_dec u t) as [->|]; [rewrite upd_same|rewrite upd_other by auto; auto]. rewrite (O t N) in *. destruct (reported s), (reported s'); try specialize (R eq_refl); try discriminate; lia. }
      rewrite F, upd_other by auto. rewrite E. rewrite (O t N) in *. destruct (reported s), (reported s'); try specialize (R eq_refl); try discriminate; lia.
Qed.
Lemma one_same s s' : one s -> frames s' = frames s -> reported s' = reported s -> printed s' = printed s -> one s'.
Proof. intros (t0 & O & B) F R P. exists t0. rewrite F, R, P. auto. Qed.
Lemma active_reported s t f r : one s -> frames s t = f :: r -> active f = true -> reported s = true.
Proof.
  intros (t0 & O & B) F A. assert (1 <= actives (frames s t)) by (rewrite F, actives_cons, A; lia). destruct (Nat.eq_dec t t0) as [->|N]; [|rewrite (O t N) in *; lia].
  destruct (reported s); [auto|lia].
Qed.
Lemma go_one d t s s' : one s -> go d t s = Some s' -> one s'.
Proof.
  intros O G. unfold go in G. destruct (frames s t) as [|f r] eqn:F; [discriminate|].
  assert (K : forall fs s1, frames s1 = upd (frames s) t fs -> reported s1 = reported s -> printed s <= printed s1 -> printed s1 + actives fs <= printed s + actives (f :: r) -> one s1).
  { intros fs s1 F1 R1 P1 A1. apply (one_change s s1 t fs O F1); rewrite ?R1, ?F; auto. lia. }
  destruct f as [g| | |g [|[|m ms]| |p| |]|[e|e| |p]].
  - destruct (disp s g && negb (blocked g r)); injection G as <-; [|apply (one_same s _ O); reflexivity]. eapply K; cbn; try reflexivity; lia.
  - destruct (disp s ABRT); injection G as <-; [|apply (one_same s _ O); reflexivity]. eapply K; cbn; try reflexivity; rewrite ?actives_cons; cbn; lia.
  - injection G as <-. apply (one_same s _ O); reflexivity.
  - destruct (negb (enabled s)); [injection G as <-; eapply K; cbn; try reflexivity; rewrite ?actives_cons; cbn; lia|]. destruct (reported s) eqn:R; injection G as <-.
    + eapply K; cbn; try reflexivity; auto.
    + eapply (one_change s _ t _ O); cbn; [reflexivity|auto| |lia|congruence]. rewrite R, F, !actives_cons. cbn. lia.
  - injection G as <-. eapply K; cbn; try reflexivity; auto.
  - destruct (heap s); [discriminate|]. injection G as <-. eapply K; cbn; try reflexivity; auto.
  - destruct (heap s); [discriminate|]. destruct d; injection G as <-; eapply K; cbn; try reflexivity; auto; rewrite ?actives_cons; cbn; lia.
  - destruct (heap s); [discriminate|]. injection G as <-. destruct p; eapply K; cbn; try reflexivity; auto; rewrite ?actives_cons; cbn; lia.
  - injection G as <-. eapply K; cbn; try reflexivity; auto.
  - destruct (disp s g); injection G as <-; [|apply (one_same s _ O); reflexivity]. eapply K; cbn; try reflexivity; auto.
  - destruct (negb (enabled s)) eqn:E; cbn [orb] in G; [injection G as <-; eapply K; cbn; try reflexivity; auto|]. destruct (reported s) eqn:R; injection G as <-.
    + eapply K; cbn; try reflexivity; auto.
    + eapply (one_change s _ t _ O); cbn; [reflexivity|auto| |lia|congruence]. rewrite R, F, !actives_cons. cbn. lia.
  - destruct (heap s); [discriminate|]. injection G as <-. eapply K; cbn; try reflexivity; auto.
  - destruct (heap s); [discriminate|]. destruct d; injection G as <-; eapply K; cbn; try reflexivity; auto; rewrite ?actives_cons; cbn; lia.
  - destruct (heap s); [discriminate|]. injection G as <-. destruct p; eapply K; cbn; try reflexivity; auto; rewrite ?actives_cons; cbn; lia.
Qed.
Lemma begins_active f : begins f -> active f = false.
Proof. destruct 1; reflexivity. Qed.
Lemma step_one t a s s' : one s -> step t a s s' -> one s'.
Proof.
  intros O H. destruct H as [m s F|n s F|s F|s F|s F H|b s F|f s F B|f f' r s F R Hp B|d s s' G]; try (apply (one_same s _ O); reflexivity).
  - apply (one_change s _ t [f] O); cbn; auto; rewrite ?F, ?actives_cons, ?(begins_active _ B); cbn; lia.
  - apply (one_change s _ t (f :: f' :: r) O); cbn; auto; rewrite F, (actives_cons f), (begins_active _ B); cbn; lia.
  - eapply go_one; eauto.
Qed.
Lemma run_one s l s' : run s l s' -> one s -> one s'.
Proof. induction 1; auto. intros O. apply IHrun. eapply step_one; eauto. Qed.
Lemma start_one c : one (start c).
Proof. exists 0. unfold actives. cbn. split; [auto|lia]. Qed.
(* C146: however the process crashes - in any thread, in several at once, and again inside the handlers - at most one report is printed *)
Theorem C146_once : forall c s, reachable c s -> printed s <= 1.
Proof. intros c s [l H]. destruct (run_one _ _ _ H (start_one c)) as (t0 & _ & B). destruct (reported s); lia. Qed.

(** ** the report names a file that exists *)
Definition claims (f : frame) : bool := match f with Crash _ (CReport true) | Term (TReport true) => true | _ => false end.
Definition honest (s : st) : Prop := file s = None -> printed s = 0 /\ forall t, existsb claims (frames s t) = false.
Lemma honest_change s s' t fs : honest s -> frames s' = upd (frames s) t fs -> (file s' = None -> file s = None /\ printed s' = printed s /\ (existsb claims (frames s t) = false -> existsb claims fs = false)) -> honest s'.
Proof.
  intros H F K N. destruct (K N) as (A & B & C). destruct (H A) as [P Q]. rewrite B. split; auto. intros u. rewrite F. destruct (Nat.eq_dec u t) as [->|]; [rewrite upd_same|rewrite upd_other; auto]. auto.
Qed.
Lemma step_honest t a s s' : honest s -> step t a s s' -> honest s'.
Proof.
  intros I H. destruct H as [m s F|n s F|s F|s F|s F H|b s F|f s F B|f f' r s F R Hp B|d s s' G]; try exact I.
  - apply (honest_change s _ t [f] I); [reflexivity|]. intros N. repeat split; auto. destruct B; reflexivity.
  - apply (honest_change s _ t (f :: f' :: r) I); [reflexivity|]. intros N. repeat split; auto. rewrite F. destruct B; cbn; auto.
  - assert (K : forall fs s1, frames s1 = upd (frames s) t fs -> (file s1 = None -> file s = None /\ printed s1 = printed s /\ (existsb claims (frames s t) = false -> existsb claims fs = false)) -> honest s1) by (intros; eapply honest_change; eauto).
    unfold go in G. destruct (frames s t) as [|f r] eqn:F; [discriminate|].
    assert (W : file s = None -> claims f = false) by (intros N; destruct (I N) as [_ Q]; specialize (Q t); rewrite F in Q; cbn in Q; apply orb_false_iff in Q; tauto).
    destruct f as [g| | |g [|[|m ms]| |p| |]|[e|e| |p]];
    repeat match type of G with context [if ?b then _ else _] => let Q := fresh "Q" in destruct b eqn:Q | context [match heap s with _ => _ end] => destruct (heap s) | context [match d with _ => _ end] => destruct d end; try discriminate; injection G as <-;
    try exact I; (eapply K; [reflexivity|]); cbn; intros N; try discriminate; try (specialize (W N); discriminate W); repeat split; auto; rewrite F; cbn; auto.
Qed.
(* C146: whatever crashes where, a printed report means that a file was written *)
Theorem C146_honest : forall c s, reachable c s -> 0 < printed s -> exists text complete, file s = Some (text, complete).
Proof.
  intros c s [l H] P. assert (Q : honest s). { assert (Z : honest (start c)) by (intros _; split; [reflexivity|reflexivity]). revert Z. clear P. induction H; auto. intros Z. apply IHrun. eapply step_honest; eauto. }
  destruct (file s) as [[x b]|] eqn:F; [eauto|]. destruct (Q F) as [P0 _]. lia.
Qed.

(** ** a crashed thread does not come back *)
Definition entry (s : st) (t : nat) : nat := if reported s then 3 else 16 + List.length (scopes s t).
Definition frame_rank (s : st) (t : nat) (f : frame) : nat :=
  match f with
  | Fault _ | Abort1 => S (entry s t)
  | Abort2 => 1
  | Crash g CEntry => entry s t
  | Crash _ (CLog ms) => 12 + List.length ms
  | Crash _ CDump | Term TDump => 11
  | Crash _ (CReport _) | Term (TReport _) => 10
  | Crash _ CDfl => 2
  | Crash g CRaise => if disp s g then S (entry s t) else 1
  | Term (TEntry _) => S (S (entry s t))
  | Term (TLog _) => 12
  end.
Definition rank (s : st) (t : nat) : nat := match frames s t with [] => 0 | f :: _ => frame_rank s t f end.
Lemma story_length g sc : List.length (crash_messages g sc) <= 3 + List.length sc.
Proof. unfold crash_messages. destruct sc; cbn; [lia|]. rewrite map_length. lia. Qed.
Lemma go_rank d t s s' : one s -> enabled s = true -> go d t s = Some s' -> dead s' = None -> dead s = None -> frames s' t <> [] /\ rank s' t < rank s t.
Proof.
  intros O E G D D0. unfold go in G. destruct (frames s t) as [|f r] eqn:F; [discriminate|]. unfold rank at 2. rewrite F.
  assert (A : active f = true -> reported s = true) by (eapply active_reported; eauto).
  assert (K : forall f' r' s1, frames s1 = upd (frames s) t (f' :: r') -> frame_rank s1 t f' < frame_rank s t f -> frames s1 t <> [] /\ rank s1 t < frame_rank s t f).
  { intros f' r' s1 F1 R1. unfold rank. rewrite F1, upd_same. split; [discriminate|exact R1]. }
  rewrite E in G. cbn [negb orb] in G.
  destruct f as [g| | |g [|[|m ms]| |p| |]|[e|e| |p]].
  - destruct (disp s g && negb (blocked g r)); injection G as <-; [|discriminate D]. eapply K; [reflexivity|]. cbn. unfold entry. cbn. lia.
  - destruct (disp s ABRT); injection G as <-; [|discriminate D]. eapply K; [reflexivity|]. cbn. unfold entry. cbn. lia.
  - injection G as <-. discriminate D.
  - destruct (reported s) eqn:R; injection G as <-; eapply K; try reflexivity; cbn; unfold entry; rewrite R; [lia|]. pose proof (story_length g (scopes s t)) as L. unfold crash_messages in L. cbn in L. lia.
  - injection G as <-. eapply K; [reflexivity|]. cbn. lia.
  - destruct (heap s); [discriminate|]. injection G as <-. eapply K; [reflexivity|]. cbn. lia.
  - specialize (A eq_refl). destruct (heap s); [discriminate|]. destruct d; injection G as <-; eapply K; try reflexivity; cbn; unfold entry; cbn; rewrite ?A; lia.
  - destruct (heap s); [discriminate|]. injection G as <-. eapply K; [destruct p; reflexivity|]. cbn. lia.
  - injection G as <-. eapply K; [reflexivity|]. cbn. replace (sig_eqb g g) with true by (symmetry; apply sig_eqb_spec; reflexivity). lia.
  - destruct (disp s g) eqn:Q; injection G as <-; [|discriminate D]. eapply K; [reflexivity|]. cbn. rewrite Q. unfold entry. cbn. lia.
  - destruct (reported s) eqn:R; injection G as <-; eapply K; try reflexivity; cbn; unfold entry; cbn; rewrite R; lia.
  - destruct (heap s); [discriminate|]. injection G as <-. eapply K; [reflexivity|]. cbn. lia.
  - specialize (A eq_refl). destruct (heap s); [discriminate|]. destruct d; injection G as <-; eapply K; try reflexivity; cbn; unfold entry; cbn; rewrite ?A; lia.
  - specialize (A eq_refl). destruct (heap s); [discriminate|]. injection G as <-. eapply K; [destruct p; reflexivity|]. cbn. unfold entry. destruct p; cbn; rewrite A; lia.
Qed.
Lemma rank_mono s s' t : frames s' t = frames s t -> (reported s = true -> reported s' = true) -> (forall g, disp s' g = true -> disp s g = true) -> scopes s' t = scopes s t -> rank s' t <= rank s t.
Proof.
  intros F R D S. unfold rank. rewrite F. destruct (frames s t) as [|f r]; [auto|]. assert (E : entry s' t <= entry s t). { unfold entry. rewrite S. destruct (reported s); [rewrite R by auto; lia|destruct (reported s'); lia]. }
  destruct f as [g| | |g [|ms| |p| |]|[e|e| |p]]; cbn; try lia. specialize (D g). destruct (disp s' g); [rewrite D by auto; lia|destruct (disp s g); lia].
Qed.
Lemma go_other d u s s' t : u <> t -> go d u s = Some s' -> frames s' t = frames s t /\ (reported s = true -> reported s' = true) /\ (forall g, disp s' g = true -> disp s g = true) /\ scopes s' = scopes s /\ enabled s' = enabled s.
Proof.
  intros N G. unfold go in G. destruct (frames s u) as [|f r] eqn:F; [discriminate|].
  destruct f as [g| | |g [|[|m ms]| |p| |]|[e|e| |p]];
  repeat match type of G with context [if ?b then _ else _] => let Q := fresh "Q" in destruct b eqn:Q | context [match heap s with _ => _ end] => destruct (heap s) | context [match d with _ => _ end] => destruct d end; try discriminate; injection G as <-; cbn; rewrite ?upd_other by auto; repeat split; auto; try congruence.
  intros h. destruct (sig_eqb h g); [discriminate|auto].
Qed.
Lemma go_enabled d u s s' : go d u s = Some s' -> enabled s' = enabled s.
Proof.
  intros G. unfold go in G. destruct (frames s u) as [|f r] eqn:F; [discriminate|].
  destruct f as [g| | |g [|[|m ms]| |p| |]|[e|e| |p]];
  repeat match type of G with context [if ?b then _ else _] => let Q := fresh "Q" in destruct b eqn:Q | context [match heap s with _ => _ end] => destruct (heap s) | context [match d with _ => _ end] => destruct d end; try discriminate; injection G as <-; cbn; auto.
Qed.
Lemma risky_active f : risky f = true -> active f = true.
Proof. destruct f as [g| | |g [|[|m ms]| |p| |]|[e|e| |p]]; cbn; congruence. Qed.
Lemma risky_rank s t f : risky f = true -> 10 <= frame_rank s t f.
Proof. destruct f as [g| | |g [|[|m ms]| |p| |]|[e|e| |p]]; cbn; intros; try discriminate; lia. Qed.
Lemma step_rank u a s s' t : one s -> enabled s = true -> (forall b, a <> Config b) -> step u a s s' -> crashed s t -> dead s = None -> dead s' = None ->
  enabled s' = true /\ crashed s' t /\ rank s' t + (if Nat.eqb u t then 1 else 0) <= rank s t.
Proof.
  intros O E C H T D D'. unfold crashed in *. destruct (Nat.eqb_spec u t) as [->|N].
  - destruct H as [m s F|n s F|s F|s F|s F H|b s F|f s F B|f f' r s F R Hp B|d s s' G]; try contradiction.
    + cbn. rewrite upd_same. split; [auto|split; [discriminate|]]. unfold rank. cbn. rewrite upd_same, F. pose proof (risky_rank s t f' R) as K. pose proof (active_reported s t f' r O F (risky_active _ R)) as A.
      destruct B; cbn; unfold entry; cbn; rewrite A; lia.
    + rewrite (go_enabled _ _ _ _ G). split; auto. destruct (go_rank d t s s' O E G D' D). split; [auto|lia].
  - assert (K : forall s1, frames s1 t = frames s t -> (reported s = true -> reported s1 = true) -> (forall g, disp s1 g = true -> disp s g = true) -> scopes s1 t = scopes s t -> enabled s1 = enabled s ->
      enabled s1 = true /\ frames s1 t <> [] /\ rank s1 t + 0 <= rank s t).
    { intros s1 F R Q S L. rewrite L, F. repeat split; auto. rewrite Nat.add_0_r. apply rank_mono; auto. }
    destruct H as [m s F|n s F|s F|s F|s F H|b s F|f s F B|f f' r s F R Hp B|d s s' G]; try (apply K; cbn; rewrite ?upd_other by auto; auto; fail).
    + destruct (C b eq_refl).
    + destruct (go_other d u s s' t N G) as (F1 & R1 & D1 & S1 & L1). apply K; auto. rewrite S1. auto.
Qed.
Lemma run_rank s l s' t : run s l s' -> one s -> enabled s = true -> quiet l -> crashed s t -> dead s' = None -> crashed s' t /\ rank s' t + count t l <= rank s t.
Proof.
  induction 1 as [s|u a s s1 l s2 D H R IH]; intros O E Q T D'. { split; auto. unfold count. cbn. lia. }
  assert (D1 : dead s1 = None) by (destruct R; auto).
  destruct (step_rank u a s s1 t O E) as (E1 & T1 & K); auto. { intros b ->. apply (Q u b). left. reflexivity. }
  destruct IH as (T2 & K2); auto. { eapply step_one; eauto. } { intros t' b I. apply (Q t' b). right. auto. }
  split; auto. unfold count in *. cbn [filter]. cbn [fst]. destruct (Nat.eqb u t); cbn [List.length]; lia.
Qed.
(* C146: after a crash no code of the application runs in that thread any more, and the process is dead after at most 20 steps of the thread and one per open scope - whatever the other threads do,
   whatever the disk answers and however often the handlers crash themselves *)
Theorem C146_stops : forall c s t f l s', reachable c s -> enabled s = true -> frames s t = [f] -> begins f -> run s l s' -> quiet l -> dead s' = None ->
  crashed s' t /\ count t l <= 20 + List.length (scopes s t).
Proof.
  intros c s t f l s' [l0 H0] E F B R Q D. destruct (run_rank s l s' t R (run_one _ _ _ H0 (start_one c)) E Q) as (T & K); auto. { unfold crashed. rewrite F. discriminate. }
  split; auto. assert (rank s t <= 18 + List.length (scopes s t)); [|lia]. unfold rank. rewrite F. destruct B; cbn; unfold entry; destruct (reported s); lia.
Qed.
(* and a crashed thread is never stuck, unless the allocator's lock is held *)
Theorem C146_progress : forall s t d, crashed s t -> heap s = None -> exists s', step t (Go d) s s'.
Proof.
  intros s t d T H. assert (G : exists s', go d t s = Some s'); [|destruct G as (s' & G); exists s'; constructor; auto].
  unfold go. destruct (frames s t) as [|f r] eqn:F; [destruct (T F)|]. rewrite H. destruct f as [g| | |g [|[|m ms]| |p| |]|[e|e| |p]];
  repeat match goal with |- context [if ?b then _ else _] => destruct b end; eexists; reflexivity.
Qed.

(** ** the log of an undisturbed crash *)
Definition late (f : frame) : bool := match f with Crash _ CDfl | Crash _ CRaise => true | _ => false end.
Definition fresh (s : st) : Prop := reported s = false -> (forall g, disp s g = true) /\ forall t, existsb late (frames s t) = false.
Lemma step_fresh t a s s' : one s -> fresh s -> step t a s s' -> fresh s'.
Proof.
  intros O I H. destruct H as [m s F|n s F|s F|s F|s F H|b s F|f s F B|f f' r s F R Hp B|d s s' G]; try (exact I).
  - intros R. cbn in *. destruct (I R) as [I1 I2]. destruct b; auto.
  - intros R. cbn in *. destruct (I R) as [I1 I2]. split; auto. intros u. destruct (Nat.eq_dec u t) as [->|]; [rewrite upd_same|rewrite upd_other; auto]. destruct B; reflexivity.
  - intros R'. cbn in *. destruct (I R') as [I1 I2]. split; auto. intros u. destruct (Nat.eq_dec u t) as [->|]; [rewrite upd_same|rewrite upd_other; auto]. specialize (I2 t). rewrite F in I2. destruct B; cbn in *; auto.
  - intros R'. unfold go in G. destruct (frames s t) as [|f r] eqn:F; [discriminate|]. assert (A : active f = true -> reported s = true) by (eapply active_reported; eauto).
    assert (K : forall fs s1, frames s1 = upd (frames s) t fs -> reported s1 = reported s -> (forall g, disp s g = true -> disp s1 g = true) -> (existsb late (f :: r) = false -> existsb late fs = false) -> reported s1 = false -> (forall g, disp s1 g = true) /\ forall t, existsb late (frames s1 t) = false).
    { intros fs s1 F1 R1 D1 L1 R1'. rewrite R1 in R1'. destruct (I R1') as [I1 I2]. split; auto. intros u. rewrite F1. destruct (Nat.eq_dec u t) as [->|]; [rewrite upd_same|rewrite upd_other; auto]. apply L1. rewrite <- F. apply I2. }
    assert (Z : reported s = false -> late f = false /\ forall g, disp s g = true). { intros Q. destruct (I Q) as [I1 I2]. specialize (I2 t). rewrite F in I2. cbn in I2. apply orb_false_iff in I2 as [I2 _]. auto. }
    destruct f as [g| | |g [|[|m ms]| |p| |]|[e|e| |p]]; cbn [active late] in A, Z; try specialize (A eq_refl);
    repeat match type of G with context [if ?b then _ else _] => let Q := fresh "Q" in destruct b eqn:Q | context [match heap s with _ => _ end] => destruct (heap s) | context [match d with _ => _ end] => destruct d end; try discriminate; injection G as <-; cbn in R';
    try congruence; try (destruct (I R') as [I1 I2]; split; [exact I1|exact I2]); try (destruct (Z R') as [Z1 _]; discriminate Z1);
    (eapply K; [reflexivity|reflexivity|cbn; auto|cbn; auto|exact R']).
Qed.

Lemma run_fresh s l s' : run s l s' -> one s -> fresh s -> fresh s'.
Proof. induction 1; auto. intros O I. apply IHrun; [eapply step_one; eauto|eapply step_fresh; eauto]. Qed.
Lemma start_fresh c : fresh (start c).
Proof. intros _. split; reflexivity. Qed.

(* the crash is undisturbed: the crashed thread's handlers run without crashing and its file is written; the other threads only work, as long as they like *)
Definition undisturbed (t : nat) (p : nat * act) : Prop :=
  if Nat.eqb (fst p) t then snd p = Go Wrote else match snd p with Log _ | Enter _ | Leave | Lock | Unlock => True | _ => False end.
Definition of_handler (m : msg) : bool := match m with Text _ => false | _ => true end.
Section Undisturbed.
Variables (s0 : st) (t : nat) (f0 : frame).
Definition tells (n : list msg) (s : st) : Prop := exists X, log s = log s0 ++ X /\ filter of_handler X = n.
Definition filed (s : st) : Prop := exists X, file s = Some (lastn (cap s0) (log s0 ++ X), true) /\ filter of_handler X = story f0 (scopes s0 t).
Definition base : list frame := match f0 with Fault g => [Fault g] | _ => [Abort2] end.
(* where the thread can be, and what is done by then *)
Inductive phase (s : st) : list frame -> Prop :=
| PBegin : tells [] s -> reported s = false -> printed s = 0 -> (forall g, disp s g = true) -> phase s [f0]
| PEntry : tells [] s -> reported s = false -> printed s = 0 -> (forall g, disp s g = true) -> (forall e, f0 <> Term (TEntry e)) -> phase s (Crash (cause f0) CEntry :: base)
| PLog ms done : tells done s -> done ++ ms = story f0 (scopes s0 t) -> reported s = true -> printed s = 0 -> phase s (Crash (cause f0) (CLog ms) :: base)
| PDump : tells (story f0 (scopes s0 t)) s -> reported s = true -> printed s = 0 -> phase s (Crash (cause f0) CDump :: base)
| PReport : filed s -> reported s = true -> printed s = 0 -> phase s (Crash (cause f0) (CReport true) :: base)
| PTLog e : f0 = Term (TEntry e) -> tells [] s -> reported s = true -> printed s = 0 -> (forall g, disp s g = true) -> phase s [Term (TLog e)]
| PTDump e : f0 = Term (TEntry e) -> tells (story f0 (scopes s0 t)) s -> reported s = true -> printed s = 0 -> (forall g, disp s g = true) -> phase s [Term TDump]
| PTReport e : f0 = Term (TEntry e) -> filed s -> reported s = true -> printed s = 0 -> (forall g, disp s g = true) -> phase s [Term (TReport true)]
| PTAbort e : f0 = Term (TEntry e) -> filed s -> reported s = true -> printed s = 1 -> (forall g, disp s g = true) -> phase s [Abort1]
| PTEntry : filed s -> reported s = true -> printed s = 1 -> phase s (Crash (cause f0) CEntry :: base)
| PDfl : filed s -> reported s = true -> printed s = 1 -> phase s (Crash (cause f0) CDfl :: base)
| PRaise : filed s -> reported s = true -> printed s = 1 -> disp s (cause f0) = false -> phase s (Crash (cause f0) CRaise :: base).
Definition inv (s : st) : Prop := enabled s = true /\ cap s = cap s0 /\ scopes s t = scopes s0 t /\ (forall u, u <> t -> frames s u = []) /\
  match dead s with None => phase s (frames s t) | Some g => g = cause f0 /\ filed s /\ printed s = 1 end.
Lemma tells_other m n s s' : tells n s -> log s' = log s ++ [Text m] -> tells n s'.
Proof. intros (X & L & F) L'. exists (X ++ [Text m]). rewrite L', L, app_assoc. split; auto. rewrite filter_app. cbn. rewrite app_nil_r. auto. Qed.
Lemma tells_same n s s' : tells n s -> log s' = log s -> tells n s'.
Proof. intros (X & L & F) L'. exists X. rewrite L'. auto. Qed.
Lemma tells_own m n s s' : tells n s -> of_handler m = true -> log s' = log s ++ [m] -> tells (n ++ [m]) s'.
Proof. intros (X & L & F) O L'. exists (X ++ [m]). rewrite L', L, app_assoc. split; auto. rewrite filter_app. cbn. rewrite O, F. auto. Qed.
Lemma phase_other s s' fs : phase s fs -> (log s' = log s \/ exists m, log s' = log s ++ [Text m]) -> reported s' = reported s -> printed s' = printed s -> disp s' = disp s -> file s' = file s -> phase s' fs.
Proof.
  intros P L R Pr D F. assert (T : forall n, tells n s -> tells n s') by (intros n T; destruct L as [L|(m & L)]; [eapply tells_same; eauto|eapply tells_other; eauto]).
  assert (Fi : filed s -> filed s') by (intros (X & Q & W); exists X; rewrite F; auto).
  destruct P as [| |ms done | | |e|e|e|e| | |]; [apply PBegin|apply PEntry|eapply PLog|apply PDump|apply PReport|eapply PTLog|eapply PTDump|eapply PTReport|eapply PTAbort|apply PTEntry|apply PDfl|apply PRaise]; rewrite ?R, ?Pr, ?D; eauto.
Qed.
Lemma story_handler f sc : Forall (fun m => of_handler m = true) (story f sc).
Proof.
  assert (C : forall g, Forall (fun m => of_handler m = true) (crash_messages g sc)). { intros g. unfold crash_messages. constructor; [auto|]. destruct sc; [constructor|]. repeat (constructor; [reflexivity|]). apply Forall_forall. intros m I. apply in_map_iff in I as (x & <- & _). reflexivity. }
  destruct f as [g| | | |[]]; cbn; auto.
Qed.
End Undisturbed.
Lemma inv_step s0 t f0 u a s s' : begins f0 -> inv s0 t f0 s -> undisturbed t (u, a) -> dead s = None -> step u a s s' -> inv s0 t f0 s'.
Proof.
  intros B (E & C & S & O & P) U D H. rewrite D in P. unfold undisturbed in U. cbn [fst snd] in U. destruct (Nat.eqb_spec u t) as [->|N].
  - subst a. inversion H as [| | | | | | | |d s1 s2 G]; subst. unfold go in G. rewrite E in G. cbn [negb orb] in G.
    assert (K : forall fs s1, frames s1 = upd (frames s) t fs -> enabled s1 = enabled s -> cap s1 = cap s -> scopes s1 = scopes s -> dead s1 = dead s -> phase s0 t f0 s1 fs -> inv s0 t f0 s1).
    { intros fs s1 F1 E1 C1 S1 D1 P1. unfold inv. rewrite F1, E1, C1, S1, D1, D, upd_same. repeat split; auto. intros v V. rewrite upd_other by auto. auto. }
    assert (W : forall s1, enabled s1 = enabled s -> cap s1 = cap s -> scopes s1 = scopes s -> frames s1 = frames s -> dead s1 = Some (cause f0) -> filed s0 t f0 s1 -> printed s1 = 1 -> inv s0 t f0 s1).
    { intros s1 E1 C1 S1 F1 D1 Q1 Q2. unfold inv. rewrite E1, C1, S1, F1, D1. repeat split; auto. }
    assert (SG : forall g, sig_eqb g g = true) by (intros g; apply sig_eqb_spec; reflexivity).
    remember (frames s t) as fs eqn:F. destruct P as [T R Pr Di|T R Pr Di NT|ms done T Q R Pr|T R Pr|T R Pr|e Q T R Pr Di|e Q T R Pr Di|e Q T R Pr Di|e Q T R Pr Di|T R Pr|T R Pr|T R Pr Di]; rewrite ?R in G.
    + destruct B as [g NA| |e]; rewrite ?Di in G; cbn in G; injection G as <-.
      * eapply K; try reflexivity. apply (PEntry s0 t (Fault g)); auto; try discriminate.
      * eapply K; try reflexivity. apply (PEntry s0 t Abort1); auto; try discriminate.
      * eapply K; try reflexivity. eapply PTLog; cbn; eauto.
    + injection G as <-. eapply K; try reflexivity. eapply (PLog s0 t f0 _ _ []); cbn; auto. rewrite S. destruct B; cbn; auto. destruct (NT e eq_refl).
    + destruct ms as [|m ms].
      * injection G as <-. eapply K; try reflexivity. rewrite app_nil_r in Q. subst done. apply PDump; auto.
      * destruct (heap s); [discriminate|]. injection G as <-. eapply K; try reflexivity. eapply (PLog s0 t f0 _ ms (done ++ [m])); cbn; auto.
        -- eapply tells_own; [exact T| |reflexivity]. pose proof (story_handler f0 (scopes s0 t)) as SH. rewrite <- Q in SH. apply Forall_app in SH as [_ SH]. inversion SH; auto.
        -- rewrite <- app_assoc. exact Q.
    + destruct (heap s); [discriminate|]. injection G as <-. eapply K; try reflexivity. apply PReport; cbn; auto. destruct T as (X & L & Fi). exists X. cbn. rewrite C, L. auto.
    + destruct (heap s); [discriminate|]. injection G as <-. eapply K; try reflexivity. apply PDfl; cbn; auto.
    + destruct (heap s); [discriminate|]. injection G as <-. eapply K; try reflexivity. eapply PTDump; cbn; eauto. subst f0. cbn [story]. change [Uncaught e] with ([] ++ [Uncaught e]). eapply tells_own; [exact T|reflexivity|reflexivity].
    + destruct (heap s); [discriminate|]. injection G as <-. eapply K; try reflexivity. eapply PTReport; cbn; eauto. destruct T as (X & L & Fi). exists X. cbn. rewrite C, L. auto.
    + destruct (heap s); [discriminate|]. injection G as <-. eapply K; try reflexivity. eapply PTAbort; cbn; eauto.
    + rewrite Di in G. injection G as <-. eapply K; try reflexivity. subst f0. apply PTEntry; auto.
    + injection G as <-. eapply K; try reflexivity. apply PDfl; auto.
    + injection G as <-. eapply K; try reflexivity. apply PRaise; cbn; auto. rewrite SG. auto.
    + rewrite Di in G. injection G as <-. apply W; auto.
  - assert (K : forall s1, frames s1 = frames s -> enabled s1 = enabled s -> cap s1 = cap s -> scopes s1 t = scopes s t -> dead s1 = dead s -> (log s1 = log s \/ exists m, log s1 = log s ++ [Text m]) -> reported s1 = reported s -> printed s1 = printed s -> disp s1 = disp s -> file s1 = file s -> inv s0 t f0 s1).
    { intros s1 F1 E1 C1 S1 D1 L1 R1 P1 Di1 Fi1. unfold inv. rewrite F1, E1, C1, S1, D1, D. repeat split; auto. eapply phase_other; eauto. }
    destruct H as [m s F|n s F|s F|s F|s F H|b s F|f s F B'|f f' r s F R Hp B'|d s s' G]; try destruct U; apply K; cbn; rewrite ?upd_other by auto; auto. right. exists m. auto.
Qed.
Lemma inv_run s0 t f0 s l s' : begins f0 -> run s l s' -> Forall (undisturbed t) l -> inv s0 t f0 s -> inv s0 t f0 s'.
Proof. intros B. induction 1; intros U I; auto. inversion U; subst. apply IHrun; auto. eapply inv_step; eauto. Qed.
(* C146: the first crash - a fault, abort() or an uncaught exception in any thread of any state the program can reach - ends the process with the signal it would have ended with without huira,
   prints one report, and the file holds what the buffer had room for of: everything logged before, the story of the crash (signal and open scopes, or the exception) in order, and only messages
   of other threads in between *)
Theorem C146_log : forall c s t f l s' g, reachable c s -> enabled s = true -> reported s = false -> frames s t = [f] -> begins f -> dead s = None -> (forall u, u <> t -> frames s u = []) ->
  run s l s' -> Forall (undisturbed t) l -> dead s' = Some g ->
  g = cause f /\ printed s' = 1 /\ exists X kept, file s' = Some (kept, true) /\ newest (cap s) (log s ++ X) kept /\ tells_story f (scopes s t) (filter of_handler X).
Proof.
  intros c s t f l s' g [l0 H0] E R F B D O H U D'. assert (P : printed s = 0). { destruct (run_one _ _ _ H0 (start_one c)) as (t0 & _ & Q). rewrite R in Q. lia. } assert (I : inv s t f s).
  { unfold inv. rewrite D, F. repeat split; auto. destruct (run_fresh _ _ _ H0 (start_one c) (start_fresh c) R) as [Di _]. apply PBegin; auto. exists []. rewrite app_nil_r. auto. }
  assert (Z : inv s t f s') by (eapply inv_run; eauto).
  destruct Z as (_ & _ & _ & _ & Z). rewrite D' in Z. destruct Z as (-> & (X & FX) & PX). split; [auto|split; [auto|]]. destruct FX as [F1 F2]. exists X. eexists. split; [exact F1|]. split; [apply lastn_newest|]. rewrite F2. apply story_tells; auto.
Qed.

(** ** what does not hold *)
(* runs by computation *)
Definition one_step (t : nat) (a : act) (s : st) : option st :=
  match a with
  | Log m => match frames s t, heap s with [], None => Some (add_log (Text m) s) | _, _ => None end
  | Enter n => match frames s t with [] => Some (set_scopes t (scopes s t ++ [n]) s) | _ => None end
  | Crashes f => match frames s t, f with [], Fault ABRT => None | [], Fault _ | [], Abort1 | [], Term (TEntry _) => Some (set_frames t [f] s) | _, _ => None end
  | Go d => go d t s
  | Lock => match frames s t, heap s with [], None => Some (set_heap (Some t) s) | _, _ => None end
  | Config b => match frames s t with [] => Some (set_enabled b s) | _ => None end
  | _ => None
  end.
Fixpoint exec (l : list (nat * act)) (s : st) : option st :=
  match l with [] => Some s | (t, a) :: r => match dead s with Some _ => None | None => match one_step t a s with Some s1 => exec r s1 | None => None end end end.
Lemma exec_run l : forall s s', exec l s = Some s' -> run s l s'.
Proof.
  induction l as [|[t a] l IH]; intros s s' H; cbn in H; [injection H as <-; constructor|]. destruct (dead s) eqn:D; [discriminate|]. destruct (one_step t a s) as [s1|] eqn:O; [|discriminate].
  eapply RCons; [exact D| |apply IH; exact H]. unfold one_step in O. destruct a as [m|n| | | |b|f|d]; try discriminate.
  - destruct (frames s t) eqn:F; [|discriminate]. destruct (heap s) eqn:Hp; [discriminate|]. injection O as <-. constructor; auto.
  - destruct (frames s t) eqn:F; [|discriminate]. injection O as <-. constructor; auto.
  - destruct (frames s t) eqn:F; [|discriminate]. destruct (heap s) eqn:Hp; [discriminate|]. injection O as <-. constructor; auto.
  - destruct (frames s t) eqn:F; [|discriminate]. injection O as <-. constructor; auto.
  - destruct (frames s t) eqn:F; [|discriminate]. destruct f as [[]| | |g pc|[e|e| |p]]; try discriminate; injection O as <-; apply SCrash; auto; constructor; discriminate.
  - constructor; auto.
Qed.
(* two threads that crash at about the same time: the second kills the process before the first has written anything; nothing is reported and there is no log *)
Theorem C146_refuted_two : forall c g g', g <> ABRT -> g' <> ABRT -> exists l s', run (start c) l s' /\ quiet l /\ (forall t d, In (t, Go d) l -> d = Wrote) /\ dead s' = Some g' /\ file s' = None /\ printed s' = 0.
Proof.
  intros c g g' G G'. exists [(0, Crashes (Fault g)); (1, Crashes (Fault g')); (0, Go Wrote); (0, Go Wrote); (1, Go Wrote); (1, Go Wrote); (1, Go Wrote); (1, Go Wrote)].
  assert (X : exists s', exec [(0, Crashes (Fault g)); (1, Crashes (Fault g')); (0, Go Wrote); (0, Go Wrote); (1, Go Wrote); (1, Go Wrote); (1, Go Wrote); (1, Go Wrote)] (start c) = Some s' /\ dead s' = Some g' /\ file s' = None /\ printed s' = 0).
  { destruct g, g'; try contradiction; (eexists; split; [cbv; reflexivity|repeat split; reflexivity]). }
  destruct X as (s' & X & X'). exists s'. split; [apply exec_run; exact X|].
  split; [intros t b I; cbn in I; intuition discriminate|]. split; [intros t d I; cbn in I; intuition congruence|]. exact X'.
Qed.

(* with the handler disabled a fault is never the end: the handler stays installed, returns, and the instruction faults again, for ever *)
Theorem C146_refuted_disabled : forall s t g l s', enabled s = false -> disp s g = true -> frames s t = [Fault g] -> dead s = None -> (forall p, In p l -> fst p = t) -> run s l s' ->
  dead s' = None /\ log s' = log s /\ printed s' = printed s /\ (exists s'', step t (Go Wrote) s' s'').
Proof.
  intros s t g l s' E D F Al A R. assert (I : enabled s' = false /\ disp s' g = true /\ (frames s' t = [Fault g] \/ frames s' t = [Crash g CEntry; Fault g]) /\ dead s' = None /\ log s' = log s /\ printed s' = printed s).
  { assert (F' : frames s t = [Fault g] \/ frames s t = [Crash g CEntry; Fault g]) by auto. clear F.
    induction R as [s|u a s s1 l s2 D0 H R IH]; [repeat split; auto|]. assert (u = t) as -> by (apply (A (u, a)); left; auto).
    assert (K : enabled s1 = false /\ disp s1 g = true /\ (frames s1 t = [Fault g] \/ frames s1 t = [Crash g CEntry; Fault g]) /\ dead s1 = None /\ log s1 = log s /\ printed s1 = printed s).
    { destruct H as [m s F|n s F|s F|s F|s F H|b s F|f s F B|f f' r s F Rk Hp B|d s s' G]; try (destruct F' as [F'|F']; rewrite F in F'; discriminate F').
      - destruct F' as [F'|F']; rewrite F in F'; injection F' as -> ->; discriminate Rk.
      - unfold go in G. destruct F' as [F'|F']; rewrite F' in G.
        + rewrite D in G. cbn in G. injection G as <-. cbn. rewrite upd_same. repeat split; auto.
        + rewrite E in G. cbn in G. injection G as <-. cbn. rewrite upd_same. repeat split; auto. }
    destruct K as (K1 & K2 & K3 & K4 & K5 & K6). destruct IH as (I1 & I2 & I3 & I4 & I5 & I6); auto. { intros p I. apply A. right. auto. } repeat split; auto; congruence. }
  destruct I as (I1 & I2 & I3 & I4 & I5 & I6). repeat split; auto. assert (X : exists s'', go Wrote t s' = Some s''); [|destruct X as (x & X); exists x; constructor; auto].
  unfold go. destruct I3 as [->| ->]; [rewrite I2|rewrite I1]; eexists; reflexivity.
Qed.
(* with the handler disabled, abort() and uncaught exceptions end the process as without huira: SIGABRT, no report, no log *)
Theorem C146_disabled : forall s t f l s', enabled s = false -> dead s = None -> f = Abort1 \/ (exists e, f = Term (TEntry e)) -> frames s t = [f] -> (forall p, In p l -> fst p = t) -> run s l s' ->
  (dead s' = None -> List.length l <= 4) /\ (forall g, dead s' = Some g -> g = ABRT) /\ printed s' = printed s /\ file s' = file s /\ log s' = log s.
Proof.
  intros s t f l s' E D0 Fs F A R. set (m := fun fs => match fs with [Term (TEntry _)] => 4 | [Abort1] => 3 | [Crash ABRT CEntry; Abort2] => 2 | [Abort2] => 1 | _ => 0 end).
  assert (J : exists fs, frames s t = fs /\ 0 < m fs <= 4). { exists [f]. split; auto. destruct Fs as [->|(e & ->)]; cbn; lia. } clear Fs F f.
  assert (G : forall s, run s l s' -> enabled s = false -> dead s = None -> (exists fs, frames s t = fs /\ 0 < m fs <= 4) -> (dead s' = None -> List.length l < m (frames s t)) /\ (forall g, dead s' = Some g -> g = ABRT) /\ printed s' = printed s /\ file s' = file s /\ log s' = log s).
  { clear R E D0 J s. revert A. induction l as [|[u a] l IH]; intros A s R E D0 (fs & F & M).
    - inversion R; subst. split; [intros; cbn; lia|]. split; [congruence|auto].
    - inversion R as [|u' a' s0 s1 l' s2 D H R']; subst. assert (u = t) as -> by (apply (A (u, a)); left; auto).
      assert (K : (dead s1 = None /\ enabled s1 = false /\ 0 < m (frames s1 t) < m (frames s t) \/ dead s1 = Some ABRT) /\ printed s1 = printed s /\ file s1 = file s /\ log s1 = log s).
      { destruct H as [mm s F|n s F|s F|s F|s F H|b s F|f s F B|f f' r s F Rk Hp B|d s s1 G]; try (rewrite F in M; cbn in M; lia).
        - rewrite F in M. destruct f' as [g'| | |g' [|[|]| |p| |]|[e|e| |p]]; try discriminate Rk; cbn in M; try lia; destruct g', r; cbn in M; lia.
        - unfold go in G. destruct (frames s t) as [|[g'| | |g' [|[|]| |p| |]|[e|e| |p]] r]; try discriminate; cbn in M; try (destruct g'); try (destruct r as [|[]]; cbn in M; try lia); try (destruct r; cbn in M; try lia);
          rewrite ?E in G; cbn in G; try (destruct (disp s ABRT)); injection G as <-; cbn; rewrite ?upd_same; cbn; repeat split; auto; try (left; repeat split; auto; lia). }
      destruct K as (K & K1 & K2 & K3). destruct K as [(Ka & Kb & Kc)|K].
      + destruct (IH (fun p I => A p (or_intror I)) s1 R' Kb Ka) as (I1 & I2 & I3 & I4 & I5). { exists (frames s1 t). split; auto. lia. }
        repeat split; auto; try congruence. intros Q. specialize (I1 Q). cbn. lia.
      + inversion R'; subst; [|congruence]. rewrite K. repeat split; auto; congruence. }
  destruct (G s R E D0 J) as (G1 & G2 & G3). split; [|auto]. intros Q. specialize (G1 Q). destruct J as (fs & F & M). rewrite F in G1. lia.
Qed.

(* a thread that crashes inside the allocator waits for its own lock: the process hangs, nothing is written or reported, as long as no other thread crashes *)
Theorem C146_refuted_allocator : forall s t g l s', enabled s = true -> reported s = false -> disp s g = true -> frames s t = [Fault g] -> heap s = Some t -> dead s = None -> (forall u, u <> t -> frames s u = []) ->
  run s l s' -> (forall u a, In (u, a) l -> (forall f, a <> Crashes f) /\ forall b, a <> Config b) -> dead s' = None /\ file s' = file s /\ printed s' = printed s /\ count t l <= 2.
Proof.
  intros s t g l s' E R D F Hp Al O Rn Q.
  set (stage := fun s n => heap s = Some t /\ enabled s = true /\ dead s = None /\ (forall u, u <> t -> frames s u = []) /\
    match n with 2 => frames s t = [Fault g] /\ reported s = false /\ disp s g = true | 1 => frames s t = [Crash g CEntry; Fault g] /\ reported s = false | 0 => exists m ms, frames s t = [Crash g (CLog (m :: ms)); Fault g] | _ => False end).
  assert (St : stage s 2) by (repeat split; auto). clear E R D F Hp Al O.
  assert (G : forall n s, run s l s' -> stage s n -> dead s' = None /\ file s' = file s /\ printed s' = printed s /\ count t l <= n).
  { clear St Rn s. induction l as [|[u a] l IH]; intros n s Rn (Hp & E & Al & O & St).
    - inversion Rn; subst. repeat split; auto. unfold count. cbn. lia.
    - inversion Rn as [|u' a' s0 s1 l' s2 D H Rn']; subst. specialize (IH (fun u a I => Q u a (or_intror I))). destruct (Q u a (or_introl eq_refl)) as [Q1 Q2].
      assert (Ct : count t ((u, a) :: l) = (if Nat.eqb u t then 1 else 0) + count t l) by (unfold count; cbn; destruct (Nat.eqb u t); reflexivity). rewrite Ct. clear Ct.
      destruct (Nat.eqb_spec u t) as [->|N].
      + assert (NE : frames s t <> []). { destruct n as [|[|[|n]]]; [destruct St as (m & ms & ->)|destruct St as (-> & _)|destruct St as (-> & _)|destruct St]; discriminate. }
        destruct H as [mm s F|nn s F|s F|s F|s F H|b s F|f s F B|f f' r s F Rk Hp' B|d s s1 G]; try contradiction.
        * destruct (Q1 f eq_refl).
        * unfold go in G. destruct n as [|[|[|n]]]; [destruct St as (m & ms & St)|destruct St as (St & Rp)|destruct St as (St & Rp & Di)|destruct St]; rewrite St in G.
          -- rewrite Hp in G. discriminate.
          -- rewrite E, Rp in G. cbn in G. injection G as <-. destruct (IH 0 _ Rn') as (I1 & I2 & I3 & I4).
             { repeat split; cbn; auto; [intros u Hu; rewrite upd_other by auto; auto|]. unfold crash_messages. eexists _, _. rewrite upd_same. reflexivity. } cbn in *. repeat split; auto. lia.
          -- rewrite Di in G. cbn in G. injection G as <-. destruct (IH 1 _ Rn') as (I1 & I2 & I3 & I4).
             { repeat split; cbn; auto; [intros u Hu; rewrite upd_other by auto; auto|]. rewrite upd_same. reflexivity. } cbn in *. repeat split; auto. lia.
      + assert (K : heap s1 = Some t -> enabled s1 = true -> dead s1 = None -> frames s1 = frames s -> reported s1 = reported s -> disp s1 = disp s -> file s1 = file s -> printed s1 = printed s -> dead s' = None /\ file s' = file s /\ printed s' = printed s /\ 0 + count t l <= n).
        { intros K1 K2 K3 K4 K5 K6 K7 K8. destruct (IH n s1 Rn') as (I1 & I2 & I3 & I4). { unfold stage. rewrite K1, K2, K3, K4, K5, K6. repeat split; auto. } rewrite <- K7, <- K8. auto. }
        destruct H as [mm s F|nn s F|s F|s F|s F H|b s F|f s F B|f f' r s F Rk Hp' B|d s s1 G]; try (apply K; cbn; auto; fail); try congruence.
        all: try (destruct (Q2 _ eq_refl)); try (destruct (Q1 _ eq_refl)). unfold go in G. rewrite (O u N) in G. discriminate. }
  exact (G 2 s Rn St).
Qed.
(* a disk that fills up goes unnoticed: the report names a log that is not complete *)
Theorem C146_refuted_disk : forall c g k, g <> ABRT -> exists l s', run (start c) l s' /\ quiet l /\ dead s' = Some g /\ printed s' = 1 /\ file s' = Some (firstn k (lastn c [CrashSignal g]), false).
Proof.
  intros c g k G. exists [(0, Crashes (Fault g)); (0, Go (Short k)); (0, Go (Short k)); (0, Go (Short k)); (0, Go (Short k)); (0, Go (Short k)); (0, Go (Short k)); (0, Go (Short k)); (0, Go (Short k))].
  assert (X : exists s', exec [(0, Crashes (Fault g)); (0, Go (Short k)); (0, Go (Short k)); (0, Go (Short k)); (0, Go (Short k)); (0, Go (Short k)); (0, Go (Short k)); (0, Go (Short k)); (0, Go (Short k))] (start c) = Some s' /\ dead s' = Some g /\ printed s' = 1 /\ file s' = Some (firstn k (lastn c [CrashSignal g]), false)).
  { destruct g; try contradiction; (eexists; split; [cbv; reflexivity|repeat split; reflexivity]). }
  destruct X as (s' & X & X'). exists s'. split; [apply exec_run; exact X|]. split; [intros t b I; cbn in I; intuition discriminate|]. exact X'.
Qed.
(* a crash with open scopes in a thread while another logs: hypotheses of C146_log and C146_stops *)
Example C146_case : exists s, reachable 1000 s /\ enabled s = true /\ reported s = false /\ frames s 1 = [Fault SEGV] /\ dead s = None /\ (forall u, u <> 1 -> frames s u = []) /\ scopes s 1 = ["Scene::Scene"%string] /\
  exists l s', run s l s' /\ Forall (undisturbed 1) l /\ dead s' = Some SEGV /\ file s' = Some ([Text "hello"; CrashSignal SEGV; Text "meanwhile"; CrashScope "Scene::Scene"; TraceHead; TraceScope "Scene::Scene"], true).
Proof.
  eexists. split; [exists [(0, Log "hello"); (1, Enter "Scene::Scene"); (1, Crashes (Fault SEGV))]; apply exec_run; cbv -[append]; reflexivity|].
  repeat split; try reflexivity. { intros [|[|u]] N; try reflexivity. destruct (N eq_refl). }
  exists [(1, Go Wrote); (1, Go Wrote); (1, Go Wrote); (0, Log "meanwhile"); (1, Go Wrote); (1, Go Wrote); (1, Go Wrote); (1, Go Wrote); (1, Go Wrote); (1, Go Wrote); (1, Go Wrote); (1, Go Wrote)]. eexists.
  split; [apply exec_run; cbv; reflexivity|]. split; [|split; reflexivity].
  repeat (apply Forall_cons; [first [reflexivity|exact I]|]). apply Forall_nil.
Qed.
(* the states of C146_refuted_disabled, C146_disabled and C146_refuted_allocator are reachable *)
Example C146_case_disabled : (exists s, reachable 1000 s /\ enabled s = false /\ disp s SEGV = true /\ frames s 0 = [Fault SEGV] /\ dead s = None) /\ (exists s, reachable 1000 s /\ enabled s = false /\ frames s 0 = [Abort1] /\ dead s = None).
Proof.
  split; eexists; (split; [eexists; apply exec_run|]).
  - instantiate (2 := [(0, Config false); (0, Crashes (Fault SEGV))]). cbv. reflexivity.
  - repeat split.
  - instantiate (2 := [(0, Config false); (0, Crashes Abort1)]). cbv. reflexivity.
  - repeat split.
Qed.
Example C146_case_allocator : exists s, reachable 1000 s /\ enabled s = true /\ reported s = false /\ disp s SEGV = true /\ frames s 0 = [Fault SEGV] /\ heap s = Some 0 /\ dead s = None /\ forall u, u <> 0 -> frames s u = [].
Proof.
  eexists. split; [exists [(0, Lock); (0, Crashes (Fault SEGV))]; apply exec_run; cbv; reflexivity|]. repeat split. intros [|u] N; [destruct (N eq_refl)|reflexivity].
Qed.
Print Assumptions C146_stops. Print Assumptions C146_log. Print Assumptions C146_refuted_allocator.
