(* C134: the SPICE wrapper in one thread. C135: leap seconds. C136: the wrapper and threads.
   include/huira_impl/core/spice.ipp *)
From Verif Require Import Common SpiceModel.
Local Open Scope string_scope.
Local Open Scope list_scope.

(* ---------- specification ---------- *)

(* what() of the exception for a SPICE error *)
Definition error_text (m : smsg) : string :=
  if String.eqb (long_msg m) "" then short_msg m
  else String.append (short_msg m) (String.append ": " (long_msg m)).

(* A machine without any error flags: loaded kernels and whether leap seconds were seen to.
   [dir] is the working directory. The result is what() or a value. *)
Definition world := (list nat * bool)%type.

Definition spec_furnsh (E : env) (dir : nat) (name : string) (w : world) : (string + value) * world :=
  match find_file E dir name with
  | Some k => (inr Void, (fst w ++ [k], snd w))
  | None => (inl (error_text (load_error E name)), w)
  end.

Definition spec_lsk (E : env) (dir : nat) (w : world) : (string + value) * world :=
  if snd w then (inr Void, w)
  else match answer E (fst w) (Str2et "2000-001T12:00:00") with
       | inr _ => (inr Void, (fst w, true))
       | inl _ =>
           match find_file E dir (default_lsk E) with
           | Some k => (inr Void, (fst w ++ [k], true))
           | None => (inl (String.append "ensure_lsk_loaded() - Failed to load default LSK: "
                                         (long_msg (load_error E (default_lsk E)))), w)
           end
       end.

Definition spec_ask (E : env) (r : request) (w : world) : (string + value) * world :=
  (match answer E (fst w) r with inr v => inr v | inl m => inl (error_text m) end, w).

(* the functions that convert times need leap seconds, the others do not *)
Definition time_function (r : request) : Prop :=
  match r with
  | Str2et _ | Deltet _ _ | Unitim _ _ _ | Timout _ _ => True
  | Spkezr _ _ _ _ _ | Pxform _ _ _ | Sxform _ _ _ | Conics _ _ => False
  end.

Inductive spec_op (E : env) (dir : nat) (w : world) : op -> (string + value) * world -> Prop :=
| SFurnsh n : spec_op E dir w (OpFurnsh n) (spec_furnsh E dir n w)
| SRelPlain f n : spec_op E dir w (OpFurnshRel (Path None f n)) (spec_furnsh E dir n w)
| SRelNoDir d f n : change_dir E dir d = None ->
    spec_op E dir w (OpFurnshRel (Path (Some d) f n)) (inl "filesystem_error", w)
| SRel d d' f n : change_dir E dir d = Some d' ->
    spec_op E dir w (OpFurnshRel (Path (Some d) f n)) (spec_furnsh E d' f w)
| SEnsure : spec_op E dir w OpEnsure (spec_lsk E dir w)
| SAsk r : ~ time_function r -> spec_op E dir w (OpQuery r) (spec_ask E r w)
| STimeNoLsk r t w' : time_function r -> spec_lsk E dir w = (inl t, w') ->
    spec_op E dir w (OpQuery r) (inl t, w')
| STime r v w' : time_function r -> spec_lsk E dir w = (inr v, w') ->
    spec_op E dir w (OpQuery r) (spec_ask E r w').

(* Does the operation look at leap seconds? *)
Definition touches_lsk (o : op) : Prop :=
  match o with OpEnsure => True | OpQuery r => time_function r | _ => False end.

(* ---------- invariant ---------- *)

Definition inv (s : state) : Prop := inited s <> [] -> act s = Return.

Definition clean (s : state) : Prop := failed s = None.

Lemma static_init_act s k : inv s -> act (static_init s k) = Return.
Proof.
  intro H. unfold static_init. destruct (existsb (Nat.eqb k) (inited s)) eqn:e; [|reflexivity].
  apply H. intro c. rewrite c in e. discriminate.
Qed.

Lemma static_init_rest s k :
  failed (static_init s k) = failed s /\ kernels (static_init s k) = kernels s /\
  cwd (static_init s k) = cwd s /\ lsk_loaded (static_init s k) = lsk_loaded s.
Proof. unfold static_init. destruct (existsb (Nat.eqb k) (inited s)); cbn; auto. Qed.

Lemma run_bind E {A B} (p : prog A) (f : A -> prog B) s :
  run E (bind p f) s =
  match run E p s with
  | Returned a s' => run E (f a) s'
  | Threw w s' => Threw w s'
  | Aborted => Aborted
  end.
Proof.
  revert s; induction p as [a|w|R c k IH]; intro s; cbn; auto.
  destruct (exec E c s) as [[r s']|]; auto.
Qed.

Lemma run_finally E {A} (p : prog A) (fin : prog unit) s :
  run E (finally p fin) s =
  match run E p s with
  | Returned a s' => run E (bind fin (fun _ => Ret a)) s'
  | Threw w s' => run E (bind fin (fun _ => Throw w)) s'
  | Aborted => Aborted
  end.
Proof.
  revert s; induction p as [a|w|R c k IH]; intro s; cbn; auto.
  destruct (exec E c s) as [[r s']|]; auto.
Qed.

(* what the flag machine looks like after a wrapper call *)
Definition good (s s' : state) (w : world) : Prop :=
  act s' = Return /\ inv s' /\ clean s' /\ cwd s' = cwd s /\ (kernels s', lsk_loaded s') = w.

Lemma check_clean E s : clean s -> run E check_spice_error s = Returned tt s.
Proof. unfold clean; intro H. cbn. now rewrite H. Qed.

Lemma check_failed E s m : failed s = Some m ->
  run E check_spice_error s = Threw (error_text m) (set_failed s None).
Proof. intro H. cbn. rewrite H. cbn. rewrite H. reflexivity. Qed.

(* state in which the wrapped function runs *)
Definition ready (s : state) (k : nat) : state := set_failed (static_init s k) None.

Lemma set_failed_id s : failed s = None -> set_failed s None = s.
Proof. destruct s; cbn; intros ->; reflexivity. Qed.

Lemma run_call E {R} k (c : cmd R) s :
  run E (call_spice k c) s =
  match exec E c (ready s k) with
  | Some (r, s') => run E (bind check_spice_error (fun _ => Ret r)) s'
  | None => Aborted
  end.
Proof.
  unfold call_spice. cbn [run exec]. unfold ready.
  destruct (failed (static_init s k)) as [m|] eqn:F.
  - reflexivity.
  - rewrite (set_failed_id _ F). reflexivity.
Qed.

Lemma ready_facts s k : inv s ->
  act (ready s k) = Return /\ failed (ready s k) = None /\ kernels (ready s k) = kernels s /\
  cwd (ready s k) = cwd s /\ lsk_loaded (ready s k) = lsk_loaded s.
Proof.
  intro H. unfold ready. cbn. rewrite static_init_act by exact H.
  destruct (static_init_rest s k) as (A & B & C & D). repeat split; auto.
Qed.

Lemma run_call_ask E k r s : inv s ->
  exists s',
    run E (call_spice k (Ask r)) s =
      match answer E (kernels s) r with
      | inr v => Returned (Some v) s'
      | inl m => Threw (error_text m) s'
      end /\ good s s' (kernels s, lsk_loaded s).
Proof.
  intro H. destruct (ready_facts s k H) as (A & F & K & C & L).
  rewrite run_call. cbn [exec]. rewrite A, F, K.
  destruct (answer E (kernels s) r) as [m|v].
  - unfold signal. rewrite A. exists (set_failed (set_failed (ready s k) (Some m)) None). split.
    + rewrite run_bind, (check_failed E _ m) by reflexivity. reflexivity.
    + unfold good, inv, clean; cbn. rewrite static_init_act by exact H.
      destruct (static_init_rest s k) as (A' & B' & C' & D').
      repeat split; auto. now rewrite B', D'.
  - exists (ready s k). split.
    + rewrite run_bind, check_clean by exact F. reflexivity.
    + unfold good, inv, clean. rewrite A, F, K, C, L. auto.
Qed.

Lemma run_call_furnsh E k n s : inv s ->
  exists s',
    run E (call_spice k (Furnsh n)) s =
      match find_file E (cwd s) n with
      | Some _ => Returned tt s'
      | None => Threw (error_text (load_error E n)) s'
      end /\
    good s s' (match find_file E (cwd s) n with Some f => kernels s ++ [f] | None => kernels s end,
               lsk_loaded s).
Proof.
  intro H. destruct (ready_facts s k H) as (A & F & K & C & L).
  rewrite run_call. cbn [exec]. rewrite A, F, K, C.
  destruct (find_file E (cwd s) n) as [f|].
  - exists (set_kernels (ready s k) (kernels s ++ [f])). split.
    + rewrite run_bind, check_clean by exact F. reflexivity.
    + unfold good, inv, clean; cbn. rewrite static_init_act by exact H.
      destruct (static_init_rest s k) as (A' & B' & C' & D'). repeat split; auto. now rewrite D'.
  - unfold signal. rewrite A. exists (set_failed (set_failed (ready s k) (Some (load_error E n))) None).
    split.
    + rewrite run_bind, (check_failed E _ (load_error E n)) by reflexivity. reflexivity.
    + unfold good, inv, clean; cbn. rewrite static_init_act by exact H.
      destruct (static_init_rest s k) as (A' & B' & C' & D').
      repeat split; auto. now rewrite B', D'.
Qed.

(* ensure_lsk_loaded restores the error action it found *)
Definition good' (s s' : state) (w : world) : Prop :=
  act s' = act s /\ inited s' = inited s /\ (clean s -> clean s') /\ cwd s' = cwd s /\
  (kernels s', lsk_loaded s') = w.

Lemma run_ensure E s : clean s \/ lsk_loaded s = true ->
  exists s',
    run E (ensure_lsk_loaded E) s =
      match fst (spec_lsk E (cwd s) (kernels s, lsk_loaded s)) with
      | inr _ => Returned tt s'
      | inl t => Threw t s'
      end /\
    good' s s' (snd (spec_lsk E (cwd s) (kernels s, lsk_loaded s))).
Proof.
  intro H. unfold spec_lsk. cbn [fst snd].
  destruct (lsk_loaded s) eqn:L.
  { exists s. cbn. rewrite L. split; [reflexivity|]. unfold good'. cbn. rewrite L. auto. }
  destruct H as [H|]; [|discriminate].
  unfold clean in H. destruct s as [a pr f K d ini l]. cbn in *. subst.
  cbn. unfold lsk_test.
  destruct (answer E K (Str2et "2000-001T12:00:00")) as [m|v].
  - cbn. destruct (find_file E d (default_lsk E)) as [k|]; cbn.
    + eexists. split; [reflexivity|]. unfold good', clean; cbn. auto.
    + eexists. split; [reflexivity|]. unfold good', clean; cbn. auto.
  - cbn. eexists. split; [reflexivity|]. unfold good', clean; cbn. auto.
Qed.

Lemma good'_inv s s' w : inv s -> good' s s' w -> inv s'.
Proof. intros H (A & B & _). unfold inv. now rewrite A, B. Qed.

(* needs_lsk is the list of time functions *)
Lemma needs_time r : needs_lsk r = true <-> time_function r.
Proof. destruct r; cbn; split; intuition congruence. Qed.

Ltac fin s' :=
  cbn in *; eexists; eexists; exists s'; split; [eassumption|]; split; [reflexivity|];
  split; [assumption|]; split; [first [assumption|reflexivity]|];
  split; [first [assumption|reflexivity]|]; intro; assumption.

(* one wrapper call, from any state that satisfies the invariant *)
Lemma op_refines E o s :
  inv s -> (forall r, o <> OpRaw r) -> (touches_lsk o -> clean s \/ lsk_loaded s = true) ->
  exists res w' s',
    spec_op E (cwd s) (kernels s, lsk_loaded s) o (res, w') /\
    run E (op_prog E o) s =
      match res with inr v => Returned (Some v) s' | inl t => Threw t s' end /\
    inv s' /\ cwd s' = cwd s /\ (kernels s', lsk_loaded s') = w' /\ (clean s -> clean s').
Proof.
  intros I NR TL. destruct o as [n|[pa fi wh]| |r|r].
  - destruct (run_call_furnsh E 0 n s I) as (s' & R & (A & I' & C & D & W)).
    pose proof (SFurnsh E (cwd s) (kernels s, lsk_loaded s) n) as S. unfold spec_furnsh in S.
    cbn [op_prog]. rewrite run_bind. unfold furnsh. rewrite R.
    destruct (find_file E (cwd s) n); fin s'.
  - destruct pa as [d|].
    + cbn [op_prog]. unfold furnsh_relative_to_file. cbn [parent filename whole].
      destruct (change_dir E (cwd s) d) as [d'|] eqn:CD.
      * pose proof (SRel E (cwd s) (kernels s, lsk_loaded s) d d' fi wh CD) as S.
        unfold spec_furnsh in S.
        assert (I1 : inv (set_cwd s d')) by exact I.
        destruct (run_call_furnsh E 1 fi (set_cwd s d') I1) as (s' & R & (A & I' & C & D & W)).
        rewrite run_bind. cbn [run exec]. rewrite run_finally. cbn [run exec]. rewrite CD, R.
        cbn [cwd set_cwd] in *.
        destruct (find_file E d' fi); fin (set_cwd s' (cwd s)).
      * pose proof (SRelNoDir E (cwd s) (kernels s, lsk_loaded s) d fi wh CD) as S.
        rewrite run_bind. cbn [run exec]. rewrite run_finally. cbn [run exec]. rewrite CD.
        fin (set_cwd s (cwd s)).
    + destruct (run_call_furnsh E 0 wh s I) as (s' & R & (A & I' & C & D & W)).
      pose proof (SRelPlain E (cwd s) (kernels s, lsk_loaded s) fi wh) as S. unfold spec_furnsh in S.
      cbn [op_prog]. unfold furnsh_relative_to_file. cbn [parent filename whole].
      rewrite run_bind. unfold furnsh. rewrite R.
      destruct (find_file E (cwd s) wh); fin s'.
  - destruct (run_ensure E s (TL Logic.I)) as (s' & R & G).
    pose proof (SEnsure E (cwd s) (kernels s, lsk_loaded s)) as S.
    pose proof (good'_inv _ _ _ I G) as I'. destruct G as (A & B & C & D & W).
    cbn [op_prog]. rewrite run_bind, R.
    destruct (spec_lsk E (cwd s) (kernels s, lsk_loaded s)) as [res w'] eqn:SL. cbn in *.
    assert (X : forall v, res = inr v -> res = inr Void).
    { unfold spec_lsk in SL. cbn in SL. destruct (lsk_loaded s); [|
        destruct (answer E _ _); [destruct (find_file E _ _)|]]; inversion SL; subst;
        congruence. }
    exists res, w', s'. split; [exact S|]. split; [|auto].
    destruct res as [t|v]; [reflexivity|]. specialize (X v eq_refl). inversion X. reflexivity.
  - cbn [op_prog]. unfold query. destruct (needs_lsk r) eqn:NL.
    + apply needs_time in NL.
      destruct (run_ensure E s (TL NL)) as (s1 & R & G).
      pose proof (good'_inv _ _ _ I G) as I1. destruct G as (A & B & C & D & W).
      rewrite run_bind, R.
      destruct (spec_lsk E (cwd s) (kernels s, lsk_loaded s)) as [res w'] eqn:SL. cbn [fst snd] in *.
      destruct res as [t|v].
      * exists (inl t), w', s1. split; [now apply STimeNoLsk|]. auto.
      * destruct (run_call_ask E (key_of r) r s1 I1) as (s2 & R2 & (A2 & I2 & C2 & D2 & W2)).
        rewrite R2.
        pose proof (STime E (cwd s) (kernels s, lsk_loaded s) r v w' NL SL) as S.
        unfold spec_ask in S.
        assert (K : kernels s1 = fst w') by (rewrite <- W; reflexivity). rewrite K in *.
        assert (L1 : lsk_loaded s1 = snd w') by (rewrite <- W; reflexivity). rewrite L1 in *.
        rewrite D in D2. destruct w' as [wk wl].
        destruct (answer E (fst (wk, wl)) r) as [m|u]; fin s2.
    + assert (NT : ~ time_function r) by (rewrite <- needs_time; congruence).
      rewrite run_bind. cbn [run].
      destruct (run_call_ask E (key_of r) r s I) as (s2 & R2 & (A2 & I2 & C2 & D2 & W2)).
      rewrite R2. pose proof (SAsk E (cwd s) (kernels s, lsk_loaded s) r NT) as S.
      unfold spec_ask in S. cbn [fst] in S.
      destruct (answer E (kernels s) r) as [m|u]; fin s2.
  - exfalso; apply (NR r); reflexivity.
Qed.

Lemma raw_keeps E r s : inv s ->
  match run E (op_prog E (OpRaw r)) s with
  | Returned _ s' | Threw _ s' => inv s' /\ cwd s' = cwd s /\ kernels s' = kernels s /\
                                   lsk_loaded s' = lsk_loaded s
  | Aborted => act s = Abort
  end.
Proof.
  intro I. cbn. destruct (act s) eqn:A.
  - destruct (answer E (kernels s) r); unfold signal; rewrite ?A; auto.
  - destruct (failed s); auto. destruct (answer E (kernels s) r); unfold signal; rewrite ?A; auto.
Qed.

(* When an error is pending (a raw call) ensure_lsk_loaded still ends and keeps the invariant *)
Lemma ensure_keeps E s : inv s ->
  match run E (ensure_lsk_loaded E) s with
  | Returned _ s' | Threw _ s' => inv s' /\ cwd s' = cwd s
  | Aborted => False
  end.
Proof.
  intro I. destruct s as [a pr f K d ini l]. unfold inv in *. cbn in *.
  destruct l; cbn; auto.
  destruct f as [m|]; cbn.
  - destruct (find_file E d (default_lsk E)); cbn; auto.
  - unfold lsk_test; destruct (answer E K (Str2et "2000-001T12:00:00")); cbn; auto.
    destruct (find_file E d (default_lsk E)); cbn; auto.
Qed.

Lemma op_keeps E o s : inv s ->
  match run E (op_prog E o) s with
  | Returned _ s' | Threw _ s' => inv s' /\ cwd s' = cwd s
  | Aborted => exists r, o = OpRaw r
  end.
Proof.
  intro I. destruct o as [n|p| |r|r].
  - destruct (op_refines E (OpFurnsh n) s I) as (res & w' & s' & _ & R & I' & C & _);
      [congruence|cbn; tauto|]. rewrite R. destruct res; auto.
  - destruct (op_refines E (OpFurnshRel p) s I) as (res & w' & s' & _ & R & I' & C & _);
      [congruence|cbn; tauto|]. rewrite R. destruct res; auto.
  - cbn [op_prog]. rewrite run_bind. pose proof (ensure_keeps E s I).
    destruct (run E (ensure_lsk_loaded E) s); cbn; tauto.
  - cbn [op_prog]. unfold query. rewrite run_bind.
    assert (X : match run E (if needs_lsk r then ensure_lsk_loaded E else Ret tt) s with
                | Returned _ s' | Threw _ s' => inv s' /\ cwd s' = cwd s
                | Aborted => False
                end).
    { destruct (needs_lsk r); [apply ensure_keeps; exact I|cbn; auto]. }
    destruct (run E (if needs_lsk r then ensure_lsk_loaded E else Ret tt) s) as [u s1|t s1|];
      [|exact X|contradiction].
    destruct X as [I1 C1].
    destruct (run_call_ask E (key_of r) r s1 I1) as (s2 & R2 & (A2 & I2 & C2 & D2 & W2)).
    rewrite R2. destruct (answer E (kernels s1) r); split; auto; congruence.
  - pose proof (raw_keeps E r s I). destruct (run E (op_prog E (OpRaw r)) s); [tauto|tauto|eauto].
Qed.

Lemma after_inv E h s s' : inv s -> after E h s = Some s' -> inv s' /\ cwd s' = cwd s.
Proof.
  revert s; induction h as [|o h IH]; cbn; intros s I H.
  - inversion H; subst; auto.
  - pose proof (op_keeps E o s I) as K.
    destruct (run E (op_prog E o) s) as [a s1|t s1|]; [| |discriminate];
      destruct K as [I1 C1]; destruct (IH s1 I1 H) as [I2 C2]; split; auto; congruence.
Qed.

Lemma fresh_inv d : inv (fresh d).
Proof. unfold inv, fresh; cbn; congruence. Qed.

(* ---------- theorems ---------- *)

(* C134. In one thread, after any history of wrapper calls and of the user's own CSPICE calls, a
   wrapper call behaves as the machine without error flags: it returns exactly what its SPICE
   function computes from the loaded kernels, or throws exactly that function's message, and keeps
   the working directory. For calls that look at leap seconds no error of a CSPICE call of the
   user's own may be pending before leap seconds were seen to (see C135_pending_error). *)
Theorem C134_calls E dir h s o :
  after E h (fresh dir) = Some s ->
  (forall r, o <> OpRaw r) ->
  (touches_lsk o -> failed s = None \/ lsk_loaded s = true) ->
  exists res w' s',
    spec_op E dir (kernels s, lsk_loaded s) o (res, w') /\
    run E (op_prog E o) s =
      match res with inr v => Returned (Some v) s' | inl t => Threw t s' end /\
    cwd s' = dir /\ (kernels s', lsk_loaded s') = w' /\ (failed s = None -> failed s' = None).
Proof.
  intros H NR TL. destruct (after_inv E h _ _ (fresh_inv dir) H) as [I C]. cbn in C.
  destruct (op_refines E o s I NR TL) as (res & w' & s' & S & R & I' & C' & W & CL).
  rewrite C in *. exists res, w', s'. auto.
Qed.

(* C134. Nothing the wrapper does ends the process, and the working directory never changes,
   whatever came before. *)
Theorem C134_no_abort E dir h s o :
  after E h (fresh dir) = Some s -> (forall r, o <> OpRaw r) ->
  exists s', cwd s' = dir /\
    ((exists v, run E (op_prog E o) s = Returned v s') \/
     (exists t, run E (op_prog E o) s = Threw t s')).
Proof.
  intros H NR. destruct (after_inv E h _ _ (fresh_inv dir) H) as [I C]. cbn in C.
  pose proof (op_keeps E o s I) as K. destruct (run E (op_prog E o) s) as [v s'|t s'|].
  - exists s'. split; [destruct K; congruence|]. left; eauto.
  - exists s'. split; [destruct K; congruence|]. right; eauto.
  - destruct K as [r ->]. exfalso. now apply (NR r).
Qed.

(* Histories without CSPICE calls of the user's own: the whole history runs as the machine without
   flags does *)
Inductive spec_history (E : env) (dir : nat) : world -> list op -> list (string + value) -> world -> Prop :=
| HNil w : spec_history E dir w [] [] w
| HCons w o res w1 h rs w2 :
    spec_op E dir w o (res, w1) -> spec_history E dir w1 h rs w2 ->
    spec_history E dir w (o :: h) (res :: rs) w2.

(* the results of a history as the program sees them *)
Fixpoint results (E : env) (h : list op) (s : state) : list (option (string + option value)) :=
  match h with
  | [] => []
  | o :: t => match run E (op_prog E o) s with
              | Returned v s' => Some (inr v) :: results E t s'
              | Threw w s' => Some (inl w) :: results E t s'
              | Aborted => [None]
              end
  end.

Definition as_result (x : string + value) : option (string + option value) :=
  match x with inl t => Some (inl t) | inr v => Some (inr (Some v)) end.

Theorem C134_history E dir h :
  (forall r, ~ In (OpRaw r) h) ->
  exists rs w s,
    spec_history E dir ([], false) h rs w /\
    results E h (fresh dir) = map as_result rs /\
    after E h (fresh dir) = Some s /\ (kernels s, lsk_loaded s) = w /\ failed s = None.
Proof.
  enough (X : forall h s, inv s -> failed s = None -> (forall r, ~ In (OpRaw r) h) ->
    exists rs w s', spec_history E (cwd s) (kernels s, lsk_loaded s) h rs w /\
      results E h s = map as_result rs /\ after E h s = Some s' /\
      (kernels s', lsk_loaded s') = w /\ failed s' = None).
  { intro NR. exact (X h (fresh dir) (fresh_inv dir) eq_refl NR). }
  clear h. induction h as [|o h IH]; intros s I F NR.
  - exists [], (kernels s, lsk_loaded s), s. cbn. repeat split; auto. constructor.
  - destruct (op_refines E o s I) as (res & w1 & s1 & S & R & I1 & C1 & W1 & F1).
    { intros r ->. apply (NR r). now left. }
    { intros _. left. exact F. }
    destruct (IH s1 I1 (F1 F)) as (rs & w & s' & S' & R' & A' & W' & F').
    { intros r HI. apply (NR r). now right. }
    exists (res :: rs), w, s'. cbn [results after map]. rewrite R.
    rewrite C1, W1 in S'.
    destruct res; cbn; rewrite R', A'; repeat split; auto; econstructor; eauto.
Qed.

(* C134. timout returns the text, cut to the buffer *)
Lemma cut_nul_append_nul t n : (forall i, get i t <> Some Ascii.zero) ->
  cut_nul (String.append t (nul_string n)) = t.
Proof.
  induction t as [|c t IH]; intro H.
  - cbn. destruct n; [reflexivity|]. unfold nul_string. cbn. destruct n; reflexivity.
  - cbn. destruct (Ascii.eqb_spec c Ascii.zero) as [->|NE].
    + exfalso. apply (H 0%nat). reflexivity.
    + f_equal. apply IH. intro i. apply (H (S i)).
Qed.

Lemma substring_no_nul t : forall n, (forall i, get i t <> Some Ascii.zero) ->
  forall i, get i (substring 0 n t) <> Some Ascii.zero.
Proof.
  induction t as [|c t IH]; intros [|n] H i; cbn; try congruence; try (destruct i; cbn; congruence).
  destruct i as [|i]; cbn.
  - apply (H 0%nat).
  - apply IH. intro j. apply (H (S j)).
Qed.

Lemma substring_all t : forall n, (String.length t <= n)%nat -> substring 0 n t = t.
Proof.
  induction t as [|c t IH]; intros [|n] H; cbn in *; auto; try lia. f_equal. apply IH. lia.
Qed.

Theorem C134_timout lenout text :
  (forall i, get i text <> Some Ascii.zero) ->
  timout_result lenout text = substring 0 (lenout - 1) text /\
  ((String.length text < lenout)%nat -> timout_result lenout text = text).
Proof.
  intro H. unfold timout_result, timout_buffer.
  rewrite cut_nul_append_nul by (apply substring_no_nul; exact H).
  split; [reflexivity|]. intro L. apply substring_all. lia.
Qed.

(* C135. Leap seconds, in every history without pending errors: a user's leap second kernel is
   respected, the default is loaded only when none is there, at most once, and a failed attempt is
   repeated at the next call. *)
Theorem C135_respects_user E dir h s r :
  (forall x, ~ In (OpRaw x) h) -> after E h (fresh dir) = Some s ->
  time_function r ->
  (exists v, answer E (kernels s) (Str2et "2000-001T12:00:00") = inr v) ->
  forall s' v, run E (op_prog E (OpQuery r)) s = Returned v s' -> kernels s' = kernels s.
Proof.
  intros NR A T [u U] s' v R.
  destruct (C134_history E dir h NR) as (rs & w & s0 & _ & _ & A0 & _ & F).
  rewrite A in A0; inversion A0; subst s0.
  destruct (C134_calls E dir h s (OpQuery r) A) as (res & w' & s1 & S & R1 & _ & W & _);
    [congruence|auto|].
  rewrite R in R1. destruct res as [t|x]; [discriminate|]. inversion R1; subst.
  assert (SL : snd (spec_lsk E dir (kernels s, lsk_loaded s)) = (kernels s, true)).
  { unfold spec_lsk; cbn. destruct (lsk_loaded s); [reflexivity|]. rewrite U. reflexivity. }
  inversion S; subst; try contradiction.
  match goal with H : spec_lsk _ _ _ = _ |- _ => rewrite H in SL end. cbn in SL. subst.
  congruence.
Qed.

(* A time function returns only with leap seconds seen to; from then on no call of the wrapper
   other than the furnsh functions loads a kernel, in the rest of any history *)
Ltac lsks E o s I L :=
  let res := fresh "res" in let w := fresh "w" in let s1 := fresh "s1" in
  let S := fresh "S" in let R := fresh "R" in let W := fresh "W" in
  destruct (op_refines E o s I) as (res & w & s1 & S & R & _ & _ & W & _);
  [congruence|auto|rewrite R;
   assert (snd w = true) by
     (inversion S; subst; unfold spec_furnsh, spec_lsk, spec_ask in *; cbn in *;
      try rewrite L in *;
      repeat match goal with
             | H : context [match find_file ?a ?b ?c with _ => _ end] |- _ => destruct (find_file a b c)
             | H : (_, _) = (_, _) |- _ => inversion H; clear H; subst
             end; cbn; congruence);
   rewrite <- W in *; destruct res; assumption].

Lemma lsk_stays E h s s' : inv s -> after E h s = Some s' -> lsk_loaded s = true ->
  lsk_loaded s' = true.
Proof.
  revert s; induction h as [|o h IH]; cbn; intros s I H L; [congruence|].
  pose proof (op_keeps E o s I) as K.
  assert (X : match run E (op_prog E o) s with
              | Returned _ s1 | Threw _ s1 => lsk_loaded s1 = true | Aborted => True end).
  { destruct o as [n|p| |r|r].
    - lsks E (OpFurnsh n) s I L.
    - lsks E (OpFurnshRel p) s I L.
    - lsks E OpEnsure s I L.
    - lsks E (OpQuery r) s I L.
    - pose proof (raw_keeps E r s I) as Y.
      destruct (run E (op_prog E (OpRaw r)) s); intuition congruence. }
  destruct (run E (op_prog E o) s) as [a s1|t s1|]; [| |discriminate];
    destruct K as [I1 C1]; eauto.
Qed.

Definition kernel_op (o : op) : Prop :=
  match o with OpFurnsh _ | OpFurnshRel _ => True | _ => False end.

Ltac kst E o s I L :=
  let res := fresh "res" in let w := fresh "w" in let s1 := fresh "s1" in
  let S := fresh "S" in let R := fresh "R" in let W := fresh "W" in
  destruct (op_refines E o s I) as (res & w & s1 & S & R & _ & _ & W & _);
  [congruence|auto|rewrite R;
   assert (fst w = kernels s) by
     (inversion S; subst; unfold spec_furnsh, spec_lsk, spec_ask in *; cbn in *;
      try rewrite L in *;
      repeat match goal with
             | H : (_, _) = (_, _) |- _ => inversion H; clear H; subst
             end; cbn; congruence);
   rewrite <- W in *; destruct res; assumption].

Lemma kernels_stay E h s s' : inv s -> after E h s = Some s' -> lsk_loaded s = true ->
  (forall o, In o h -> ~ kernel_op o) -> kernels s' = kernels s.
Proof.
  revert s; induction h as [|o h IH]; cbn; intros s I H L NK; [congruence|].
  pose proof (op_keeps E o s I) as K.
  assert (X : match run E (op_prog E o) s with
              | Returned _ s1 | Threw _ s1 => kernels s1 = kernels s | Aborted => True end).
  { destruct o as [n|p| |r|r].
    - exfalso. apply (NK (OpFurnsh n)); cbn; auto.
    - exfalso. apply (NK (OpFurnshRel p)); cbn; auto.
    - kst E OpEnsure s I L.
    - kst E (OpQuery r) s I L.
    - pose proof (raw_keeps E r s I) as Y. destruct (run E (op_prog E (OpRaw r)) s); intuition congruence. }
  assert (Y : match run E (op_prog E o) s with
              | Returned _ s1 | Threw _ s1 => lsk_loaded s1 = true | Aborted => True end).
  { destruct (run E (op_prog E o) s) as [a s1|t s1|] eqn:R; auto;
    apply (lsk_stays E [o] s s1); auto; cbn; rewrite R; reflexivity. }
  destruct (run E (op_prog E o) s) as [a s1|t s1|]; [| |discriminate];
    destruct K as [I1 C1]; rewrite (IH s1); auto.
Qed.

Theorem C135_once E dir h1 s1 r v s2 h2 s3 :
  after E h1 (fresh dir) = Some s1 -> failed s1 = None -> time_function r ->
  run E (op_prog E (OpQuery r)) s1 = Returned v s2 ->
  after E h2 s2 = Some s3 -> (forall o, In o h2 -> ~ kernel_op o) ->
  kernels s3 = kernels s2.
Proof.
  intros A F T R A2 NK.
  destruct (after_inv E h1 _ _ (fresh_inv dir) A) as [I1 C1].
  destruct (op_refines E (OpQuery r) s1 I1) as (res & w' & s' & S & R' & I2 & _ & W & _);
    [congruence|intros _; left; exact F|].
  rewrite R in R'. destruct res as [t|x]; [discriminate|]. inversion R'; subst.
  apply (kernels_stay E h2 s'); auto.
  inversion S; subst; try contradiction.
  match goal with H : spec_lsk _ _ _ = (inr _, _) |- _ => unfold spec_lsk in H; cbn in H end.
  destruct (lsk_loaded s1).
  - match goal with H : (inr _, _) = (inr _, _) |- _ => inversion H; subst end. congruence.
  - destruct (answer E (kernels s1) _); [destruct (find_file E (cwd s1) (default_lsk E))|];
      match goal with H : (_, _) = (inr _, _) |- _ => inversion H; subst end; congruence.
Qed.

(* Without a leap second kernel and without the default file every time function throws, loads
   nothing, and the next one tries again: as soon as the file can be found it works *)
Theorem C135_retry E dir h s r :
  (forall x, ~ In (OpRaw x) h) -> after E h (fresh dir) = Some s -> time_function r ->
  lsk_loaded s = false ->
  (forall v, answer E (kernels s) (Str2et "2000-001T12:00:00") <> inr v) ->
  match find_file E dir (default_lsk E) with
  | None => exists t s', run E (op_prog E (OpQuery r)) s = Threw t s' /\ kernels s' = kernels s /\
                         lsk_loaded s' = false /\ failed s' = None
  | Some k => exists s', kernels s' = kernels s ++ [k] /\
      run E (op_prog E (OpQuery r)) s =
        match answer E (kernels s ++ [k]) r with
        | inr v => Returned (Some v) s' | inl m => Threw (error_text m) s' end
  end.
Proof.
  intros NR A T L NL.
  destruct (C134_history E dir h NR) as (rs & w & s0 & _ & _ & A0 & _ & F).
  rewrite A in A0; inversion A0; subst s0.
  destruct (C134_calls E dir h s (OpQuery r) A) as (res & w' & s1 & S & R1 & _ & W & F1);
    [congruence|auto|].
  assert (SL : spec_lsk E dir (kernels s, lsk_loaded s) =
    match find_file E dir (default_lsk E) with
    | Some k => (inr Void, (kernels s ++ [k], true))
    | None => (inl (String.append "ensure_lsk_loaded() - Failed to load default LSK: "
                   (long_msg (load_error E (default_lsk E)))), (kernels s, false))
    end).
  { unfold spec_lsk; cbn. rewrite L. destruct (answer E (kernels s) _) as [m|v] eqn:Q;
      [reflexivity|]. exfalso. now apply (NL v). }
  rewrite R1. destruct (find_file E dir (default_lsk E)) as [k|].
  - inversion S; subst; try contradiction; try congruence.
    match goal with H : spec_lsk _ _ _ = (inr _, _) |- _ => rewrite SL in H; inversion H; subst end.
    exists s1. cbn. split; [congruence|]. destruct (answer E (kernels s ++ [k]) r); reflexivity.
  - inversion S; subst; try contradiction; try congruence.
    match goal with H : spec_lsk _ _ _ = (inl _, _) |- _ => rewrite SL in H; inversion H; subst end.
    eexists; exists s1. split; [reflexivity|]. repeat split; try congruence. auto.
Qed.

(* ---------- a small world for witnesses ---------- *)

(* kernel 1: the user's leap seconds, kernel 2: the default leap seconds; str2et works with either
   and its answer tells which was loaded last; "bad" is never a time; spkezr has no ephemeris *)
Definition demo : env :=
  Env (fun d n => if String.eqb n "mine.tls" then (if Nat.eqb d 7 then Some 1%nat else None)
                  else if String.eqb n "/data/naif0012.tls" then Some 2%nat else None)
      (fun d n => if String.eqb n "kernels" then Some 7%nat else None)
      (fun ks r => match r with
                   | Str2et s => if String.eqb s "bad" then inl (Msg "SPICE(BADTIME)" "no time")
                                 else match ks with [] => inl (Msg "SPICE(NOLEAPSECONDS)" "no leap seconds")
                                      | _ => inr (Nums [Z.of_nat (last ks 0%nat)]) end
                   | Conics l et => inr (Nums [et])
                   | _ => inl (Msg "SPICE(NOEPHEM)" "") end)
      (fun n => Msg "SPICE(NOSUCHFILE)" n)
      "/data/naif0012.tls".

(* C135. A pending error of a CSPICE call made by the user makes ensure_lsk_loaded believe that no
   leap seconds are loaded: it loads its own over the user's *)
Theorem C135_pending_error :
  exists E dir h s, after E h (fresh dir) = Some s /\
    (exists v, answer E (kernels s) (Str2et "2000-001T12:00:00") = inr v) /\
    exists v s', run E (op_prog E (OpQuery (Str2et "2024-001"))) s = Returned (Some v) s' /\
      kernels s' <> kernels s /\ answer E (kernels s) (Str2et "2024-001") <> inr v.
Proof.
  exists demo, 7%nat, [OpFurnsh "mine.tls"; OpRaw (Str2et "bad")]. eexists. split; [reflexivity|].
  split; [eexists; reflexivity|]. eexists. eexists. split; [reflexivity|]. cbn. split; congruence.
Qed.

(* the hypotheses of C134/C135 hold of real histories: an error, a load, a time *)
Example C134_case :
  results demo [OpQuery (Str2et "bad"); OpFurnshRel (Path (Some "kernels") "mine.tls" "kernels/mine.tls");
                OpQuery (Spkezr "EARTH" 0 "J2000" "NONE" "SSB"); OpQuery (Str2et "2024-001");
                OpFurnsh "mine.tls"] (fresh 3) =
  [Some (inl "SPICE(BADTIME): no time"); Some (inr (Some Void)); Some (inl "SPICE(NOEPHEM)");
   Some (inr (Some (Nums [1%Z]))); Some (inl "SPICE(NOSUCHFILE): mine.tls")].
Proof. reflexivity. Qed.

(* ---------- threads ---------- *)

(* C136. The wrapper is documented as thread-safe. It is not: with one call that fails and one that
   does not, both after leap seconds and the error mode are set up, there is a schedule in which
   the failing call returns normally with outputs that nobody wrote ... *)
Definition two_calls (E : env) : list (prog (option value)) :=
  [query E (Spkezr "EARTH" 0 "J2000" "NONE" "SSB"); query E (Conics [] 5)].

Definition settled (s : state) : Prop :=
  act s = Return /\ failed s = None /\ lsk_loaded s = true.

Definition demo_state : state := State Return false None [1%nat] 7 [6%nat; 9%nat] true.

Fixpoint follow (E : env) {A} (sched : list nat) (x : list (prog A) * state)
  : option (list (prog A) * state) :=
  match sched with
  | [] => Some x
  | i :: t => match nth_error (fst x) i with
              | Some (Do c k) => match exec E c (snd x) with
                                 | Some (r, s') => follow E t (upd (fst x) i (k r), s')
                                 | None => None
                                 end
              | _ => None
              end
  end.

Lemma follow_tsteps E {A} sched (x y : list (prog A) * state) :
  follow E sched x = Some y -> tsteps E x y.
Proof.
  revert x; induction sched as [|i t IH]; intros [ps s] H; cbn in H.
  - inversion H; constructor.
  - destruct (nth_error ps i) as [[a|w|R c k]|] eqn:N; try discriminate.
    destruct (exec E c s) as [[r s']|] eqn:X; [|discriminate].
    econstructor; [|exact (IH _ H)]. econstructor; eauto.
Qed.

Theorem C136_wrong_value :
  exists E s, settled s /\
    (exists m, answer E (kernels s) (Spkezr "EARTH" 0 "J2000" "NONE" "SSB") = inl m) /\
    exists ps s', tsteps E (two_calls E, s) (ps, s') /\ nth_error ps 0 = Some (Ret None).
Proof.
  exists demo, demo_state. split; [repeat split|]. split; [eexists; reflexivity|].
  eexists. eexists. split.
  - apply (follow_tsteps demo [0; 0; 0; 1; 1; 1; 0]%nat). reflexivity.
  - reflexivity.
Qed.

(* ... and one in which the good call throws the other thread's error *)
Theorem C136_foreign_error :
  exists E s, settled s /\
    (exists v, answer E (kernels s) (Conics [] 5) = inr v) /\
    exists ps s' m, tsteps E (two_calls E, s) (ps, s') /\
      answer E (kernels s) (Spkezr "EARTH" 0 "J2000" "NONE" "SSB") = inl m /\
      nth_error ps 1 = Some (Throw (error_text m)).
Proof.
  exists demo, demo_state. split; [repeat split|]. split; [eexists; reflexivity|].
  eexists. eexists. eexists. split; [|split; [reflexivity|]].
  - apply (follow_tsteps demo [1; 1; 0; 0; 0; 1; 1; 1; 1; 1]%nat). reflexivity.
  - reflexivity.
Qed.

(* C136. What does hold for every schedule: calls none of which fails do not disturb each other.
   (Kernels are not loaded meanwhile, leap seconds are set up, each CSPICE call is atomic.) *)
Definition calm (K : list nat) (s : state) : Prop :=
  act s = Return /\ failed s = None /\ kernels s = K /\ lsk_loaded s = true.

Fixpoint safe (E : env) (K : list nat) {A} (a : A) (p : prog A) : Prop :=
  match p with
  | Ret b => b = a
  | Throw _ => False
  | Do c k => forall s, calm K s ->
      exists r s', exec E c s = Some (r, s') /\ calm K s' /\ safe E K a (k r)
  end.

Lemma calm_static K s k : calm K s -> calm K (static_init s k).
Proof.
  intros (A & F & KK & L). destruct (static_init_rest s k) as (A' & B' & C' & D').
  unfold calm. rewrite static_init_act by (intro; exact A). rewrite A', B', D'. auto.
Qed.

Lemma safe_query E K r v : answer E K r = inr v -> safe E K (Some v) (query E r).
Proof.
  intro H.
  assert (S : safe E K (Some v) (call_spice (key_of r) (Ask r))).
  { unfold call_spice. cbn [safe]. intros s C. eexists; eexists. split; [reflexivity|].
    split; [now apply calm_static|]. intros s1 C1.
    exists false, s1. split; [|split; [exact C1|]].
    { cbn. destruct C1 as (_ & F & _). now rewrite F. }
    cbn [bind safe]. intros s2 C2. exists (Some v), s2. split; [|split; [exact C2|]].
    { cbn. destruct C2 as (A & F & KK & L). now rewrite A, F, KK, H. }
    cbn [bind safe check_spice_error]. intros s3 C3. exists false, s3.
    split; [|split; [exact C3|reflexivity]].
    cbn. destruct C3 as (_ & F & _). now rewrite F. }
  unfold query. destruct (needs_lsk r); [|exact S].
  unfold ensure_lsk_loaded. cbn [bind safe]. intros s C. exists true, s.
  split; [|split; [exact C|exact S]].
  cbn. destruct C as (_ & _ & _ & L). now rewrite L.
Qed.

Lemma safe_one_step E K (ps : list (prog (option value))) vs i R (c : cmd R) k s r s' :
  Forall2 (fun p v => safe E K (Some v) p) ps vs -> calm K s ->
  nth_error ps i = Some (Do c k) -> exec E c s = Some (r, s') ->
  Forall2 (fun p v => safe E K (Some v) p) (upd ps i (k r)) vs /\ calm K s'.
Proof.
  intros F C N X. revert i N. induction F as [|p v ps vs Sp F IH]; intros i N.
  - destruct i; discriminate.
  - destruct i as [|i]; cbn [nth_error upd] in *.
    + injection N as E0. assert (S2 : safe E K (Some v) (Do c k)) by (rewrite <- E0; exact Sp).
      destruct (S2 s C) as (r0 & s0 & X0 & C0 & S0). rewrite X in X0. inversion X0; subst.
      split; auto.
    + destruct (IH i N) as [G C']. split; auto.
Qed.

Lemma safe_steps E K vs (x y : list (prog (option value)) * state) :
  tsteps E x y ->
  Forall2 (fun p v => safe E K (Some v) p) (fst x) vs -> calm K (snd x) ->
  Forall2 (fun p v => safe E K (Some v) p) (fst y) vs /\ calm K (snd y).
Proof.
  induction 1 as [x|x y z S T IH]; intros F C; auto.
  destruct S as [R c k i ps s r s' N X]. cbn in *.
  destruct (safe_one_step E K ps vs i R c k s r s' F C N X). apply IH; auto.
Qed.

Theorem C136_no_failure_no_interference E s rs vs ps' s' :
  settled s ->
  Forall2 (fun r v => answer E (kernels s) r = inr v) rs vs ->
  tsteps E (map (query E) rs, s) (ps', s') ->
  List.length ps' = List.length rs /\
  forall i p v, nth_error ps' i = Some p -> nth_error vs i = Some v ->
    p = Ret (Some v) \/
    exists R (c : cmd R) k r s'', p = Do c k /\ exec E c s' = Some (r, s'').
Proof.
  intros (A & F & L) H T.
  assert (C : calm (kernels s) s) by (repeat split; auto).
  assert (S : Forall2 (fun p v => safe E (kernels s) (Some v) p) (map (query E) rs) vs).
  { clear T. induction H; cbn; constructor; auto. now apply safe_query. }
  destruct (safe_steps E (kernels s) vs _ _ T S C) as [S' C']. cbn in *.
  split.
  { rewrite <- (map_length (query E) rs). clear - S S'.
    assert (X : forall (P : prog (option value) -> value -> Prop) l m,
      Forall2 P l m -> List.length l = List.length m) by (induction 1; cbn; auto).
    rewrite (X _ _ _ S), (X _ _ _ S'). reflexivity. }
  intros i p v Np Nv.
  assert (Sp : safe E (kernels s) (Some v) p).
  { clear - S' Np Nv. revert i Np Nv. induction S'; intros [|i] Np Nv; cbn in *; try discriminate.
    - congruence.
    - eauto. }
  destruct p as [b|w|R c k].
  - left. cbn in Sp. now subst.
  - destruct Sp.
  - right. destruct (Sp s' C') as (r & s'' & X & _). exists R, c, k, r, s''. auto.
Qed.

(* three threads, all successful *)
Example C136_case :
  settled demo_state /\
  Forall2 (fun r v => answer demo (kernels demo_state) r = inr v)
    [Conics [] 5; Str2et "2024-001"; Conics [] 6] [Nums [5%Z]; Nums [1%Z]; Nums [6%Z]].
Proof. split; [repeat split|]. repeat constructor. Qed.
