(* Proofs about the concurrent parts of the logger model. *)
From Verif Require Import Common LoggerModel LoggerSpec.

(** ** Console flags *)

Definition obliges (s : store) (rest : list store) : Prop :=
  match s with
  | Store FDebug true => In (Store FInfo true) rest
  | Store FInfo true => In (Store FWarning true) rest
  | Store FInfo false => In (Store FDebug false) rest
  | Store FWarning false => In (Store FInfo false) rest
  | _ => True
  end.

Fixpoint wf_pending (l : list store) : Prop :=
  match l with [] => True | s :: r => obliges s r /\ wf_pending r end.

Lemma wf_stores_of c : wf_pending (stores_of c).
Proof. destruct c as [[]|[]|[]]; simpl; intuition. Qed.

Definition some_pending (c : config) (s : store) : Prop :=
  exists i t, nth_error (threads c) i = Some t /\ In s (pending t).

Definition hinv (c : config) : Prop :=
  Forall (fun t => wf_pending (pending t)) (threads c) /\
  (mem c FDebug = true -> mem c FInfo = false ->
     some_pending c (Store FInfo true) \/ some_pending c (Store FDebug false)) /\
  (mem c FInfo = true -> mem c FWarning = false ->
     some_pending c (Store FWarning true) \/ some_pending c (Store FInfo false)).

Lemma Forall_upd {A} (P : A -> Prop) l i v : Forall P l -> P v -> Forall P (upd l i v).
Proof. intros H Hv. revert i; induction H as [|x l Hx Hl IH]; intros [|i]; simpl; auto. Qed.

Lemma Forall_nth_error {A} (P : A -> Prop) l i v : Forall P l -> nth_error l i = Some v -> P v.
Proof. intros H Hn. rewrite Forall_forall in H. apply H. eapply nth_error_In; eauto. Qed.

Lemma some_pending_other m c i t rest ks s s0 :
  nth_error (threads c) i = Some t -> pending t = s0 :: rest ->
  some_pending c s -> s <> s0 \/ In s rest ->
  some_pending (Config m (upd (threads c) i (Thread rest ks))) s.
Proof.
  intros Hi Hp (j & t' & Hj & Hin) Hs.
  assert (Hlen : (i < List.length (threads c))%nat) by (apply nth_error_Some; congruence).
  destruct (Nat.eq_dec i j) as [->|Hne].
  - rewrite Hi in Hj. inversion Hj; subst t'. rewrite Hp in Hin.
    exists j, (Thread rest ks). cbn [threads]. rewrite nth_error_upd_eq by exact Hlen.
    split; [reflexivity|]. simpl. destruct Hin as [<-|Hin]; [|exact Hin].
    destruct Hs as [Hs|Hs]; [congruence|exact Hs].
  - exists j, t'. cbn [threads]. rewrite nth_error_upd_neq by exact Hne. auto.
Qed.

Lemma some_pending_begin c i t k ks s :
  nth_error (threads c) i = Some t -> pending t = [] ->
  some_pending c s ->
  some_pending (Config (mem c) (upd (threads c) i (Thread (stores_of k) ks))) s.
Proof.
  intros Hi Hp (j & t' & Hj & Hin).
  destruct (Nat.eq_dec i j) as [->|Hne].
  - rewrite Hi in Hj. inversion Hj; subst t'. rewrite Hp in Hin. destruct Hin.
  - exists j, t'. cbn [threads]. rewrite nth_error_upd_neq by exact Hne. auto.
Qed.

Lemma some_pending_self m c i t rest ks s :
  nth_error (threads c) i = Some t -> In s rest ->
  some_pending (Config m (upd (threads c) i (Thread rest ks))) s.
Proof.
  intros Hi Hin.
  assert (Hlen : (i < List.length (threads c))%nat) by (apply nth_error_Some; congruence).
  exists i, (Thread rest ks). cbn [threads]. rewrite nth_error_upd_eq by exact Hlen. auto.
Qed.

Lemma hinv_step c i : hinv c -> hinv (sched_step c i).
Proof.
  intros (Hwf & H1 & H2). unfold sched_step.
  destruct (nth_error (threads c) i) as [t|] eqn:Ei; [|split; auto].
  destruct (pending t) as [|s rest] eqn:Ep.
  - destruct (calls t) as [|k ks] eqn:Ec; [split; auto|].
    split; [|split]; cbn [threads mem].
    + apply Forall_upd; [exact Hwf|]. apply wf_stores_of.
    + intros A B. destruct (H1 A B) as [H|H]; [left|right]; eapply some_pending_begin; eauto.
    + intros A B. destruct (H2 A B) as [H|H]; [left|right]; eapply some_pending_begin; eauto.
  - assert (Hw : wf_pending (s :: rest)).
    { rewrite <- Ep. eapply (Forall_nth_error (fun t0 => wf_pending (pending t0))); eauto. }
    destruct Hw as [Hob Hwr].
    split; [|split]; cbn [threads mem].
    + apply Forall_upd; [exact Hwf|exact Hwr].
    + unfold do_store. destruct s as [[] []]; cbn [st_flag st_val flag_eqb]; intros A B; try discriminate.
      * left. eapply some_pending_self; eauto.
      * right. eapply some_pending_self; eauto.
      * destruct (H1 A B) as [H|H]; [left|right]; eapply some_pending_other; eauto; left; discriminate.
      * destruct (H1 A B) as [H|H]; [left|right]; eapply some_pending_other; eauto; left; discriminate.
    + unfold do_store. destruct s as [[] []]; cbn [st_flag st_val flag_eqb]; intros A B; try discriminate.
      * destruct (H2 A B) as [H|H]; [left|right]; eapply some_pending_other; eauto; left; discriminate.
      * destruct (H2 A B) as [H|H]; [left|right]; eapply some_pending_other; eauto; left; discriminate.
      * left. eapply some_pending_self; eauto.
      * right. eapply some_pending_self; eauto.
Qed.

Lemma hinv_run sch : forall c, hinv c -> hinv (sched_run c sch).
Proof. induction sch as [|i sch IH]; intros c H; [exact H|]. cbn. apply IH, hinv_step, H. Qed.

Lemma hinv_start progs : hinv (start_config progs).
Proof.
  split; [|split]; cbn.
  - apply Forall_forall. intros t Ht. apply in_map_iff in Ht. destruct Ht as (p & <- & _). exact I.
  - discriminate.
  - discriminate.
Qed.

Lemma quiescent_no_pending c s : quiescent c -> ~ some_pending c s.
Proof.
  intros Hq (i & t & Hi & Hin).
  pose proof (Forall_nth_error _ _ _ _ Hq Hi) as Hp. cbv beta in Hp. rewrite Hp in Hin. destruct Hin.
Qed.

Lemma console_hierarchy_lemma progs sch :
  let c := sched_run (start_config progs) sch in
  quiescent c ->
  (mem c FDebug = true -> mem c FInfo = true) /\ (mem c FInfo = true -> mem c FWarning = true).
Proof.
  intros c Hq. destruct (hinv_run sch _ (hinv_start progs)) as (_ & H1 & H2).
  fold c in H1, H2. split.
  - intros A. destruct (mem c FInfo) eqn:B; [reflexivity|].
    destruct (H1 A eq_refl) as [H|H]; exfalso; eapply quiescent_no_pending; eauto.
  - intros A. destruct (mem c FWarning) eqn:B; [reflexivity|].
    destruct (H2 A eq_refl) as [H|H]; exfalso; eapply quiescent_no_pending; eauto.
Qed.

(* one thread running alone, every step scheduled *)
Lemma run_pending l : forall m ks,
  sched_run (Config m [Thread l ks]) (repeat 0 (List.length l)) = Config (fold_left do_store l m) [Thread [] ks].
Proof. induction l as [|s l IH]; intros m ks; [reflexivity|].
  cbn [List.length repeat]. unfold sched_run. cbn [fold_left]. unfold sched_step at 2.
  cbn [threads nth_error pending mem calls upd]. apply IH. Qed.

Lemma fold_store_ext l : forall m m', (forall f, m f = m' f) -> forall f, fold_left do_store l m f = fold_left do_store l m' f.
Proof. induction l as [|s l IH]; intros m m' H f; cbn; [apply H|]. apply IH. intros g. unfold do_store. rewrite H. reflexivity. Qed.

Lemma spec_call_stores m k f : fold_left do_store (stores_of k) m f = spec_call m k f.
Proof. destruct k as [[]|[]|[]]; destruct f; reflexivity. Qed.

Lemma sched_run_app c a b : sched_run c (a ++ b) = sched_run (sched_run c a) b.
Proof. unfold sched_run. apply fold_left_app. Qed.

Lemma spec_call_ext m m' k : (forall f, m f = m' f) -> forall f, spec_call m k f = spec_call m' k f.
Proof. intros H f. destruct k as [[]|[]|[]]; destruct f; simpl; auto. Qed.

Lemma single_thread_run p : forall m m', (forall f, m f = m' f) ->
  exists n, let c := sched_run (Config m [Thread [] p]) (repeat 0 n) in
    threads c = [Thread [] []] /\ forall f, mem c f = fold_left spec_call p m' f.
Proof.
  induction p as [|k p IH]; intros m m' H.
  - exists 0. simpl. auto.
  - destruct (IH (fold_left do_store (stores_of k) m) (spec_call m' k)) as (n & Ht & Hm).
    { intros f. rewrite spec_call_stores. apply spec_call_ext, H. }
    exists (S (List.length (stores_of k)) + n). cbv zeta.
    rewrite repeat_app, sched_run_app.
    assert (E : sched_run (Config m [Thread [] (k :: p)]) (repeat 0 (S (List.length (stores_of k)))) =
                sched_run (Config m [Thread (stores_of k) p]) (repeat 0 (List.length (stores_of k)))) by reflexivity.
    rewrite E, run_pending. cbn [fold_left]. split; [exact Ht|exact Hm].
Qed.

(** ** Concurrent logging *)

Record cinv (s : clog) : Prop := {
  ci_hist : List.length (c_hist s) = c_next s;
  ci_nodup : NoDup (map tk (c_inflight s));
  ci_lt : forall f, In f (c_inflight s) -> tk f < c_next s /\ nth_error (c_hist s) (tk f) = Some (tk_entry f);
  ci_slots : forall k, k < c_next s -> c_next s <= k + c_cap s ->
     (forall f, In f (c_inflight s) -> tk f <> k) ->
     c_slots s (k mod c_cap s) = nth_error (c_hist s) k
}.

Lemma In_drop_nth {A} k (l : list A) x : In x (drop_nth k l) -> In x l.
Proof. revert k; induction l as [|y l IH]; intros [|k]; simpl; auto.
  intros [H|H]; auto. right. eapply IH; eauto. Qed.

Lemma NoDup_drop_nth {A} k (l : list A) : NoDup l -> NoDup (drop_nth k l).
Proof. intros H. revert k; induction H as [|x l Hx Hl IH]; intros [|k]; simpl; auto using NoDup_nil.
  constructor; [|auto]. intros Hin. apply Hx. eapply In_drop_nth; eauto. Qed.

Lemma map_drop_nth {A B} (g : A -> B) k l : map g (drop_nth k l) = drop_nth k (map g l).
Proof. revert k; induction l as [|y l IH]; intros [|k]; simpl; auto. rewrite IH. reflexivity. Qed.

Lemma drop_nth_split {A} k (l : list A) x y :
  nth_error l k = Some x -> In y l -> y = x \/ In y (drop_nth k l).
Proof. revert k; induction l as [|z l IH]; intros [|k]; simpl; intros H Hin; try discriminate; try tauto.
  - inversion H; subst. destruct Hin; auto.
  - destruct Hin as [->|Hin]; auto. destruct (IH k H Hin); auto. Qed.

Lemma window_mod_inj c n a b :
  0 < c -> a < n -> n <= a + c -> b < n -> n <= b + c -> a mod c = b mod c -> a = b.
Proof.
  intros Hc Ha1 Ha2 Hb1 Hb2 H.
  assert (W : forall a b, a <= b -> b < a + c -> a mod c = b mod c -> a = b).
  { clear. intros a b Hle Hlt H.
    pose proof (Nat.div_mod_eq a c) as Ha. pose proof (Nat.div_mod_eq b c) as Hb.
    rewrite H in Ha. assert (~ a / c < b / c) by nia.
    assert (~ b / c < a / c) by nia. assert (E : a / c = b / c) by lia. rewrite E in Ha. lia. }
  destruct (Nat.le_ge_cases a b); [apply W|symmetry; apply W]; auto; lia.
Qed.

Lemma cinv_init c : cinv (cinit c).
Proof. constructor; simpl; auto using NoDup_nil; try tauto. intros; lia. Qed.

Lemma cstep_cap s ev : c_cap (cstep s ev) = c_cap s.
Proof. destruct ev; simpl; auto. destruct (nth_error (c_inflight s) k); auto. Qed.

Lemma cinv_step s ev : 0 < c_cap s -> cinv s -> not_lapped s -> cinv (cstep s ev).
Proof.
  intros Hc [Hh Hn Hl Hs] Hlap. destruct ev as [e|k]; cbn [cstep].
  - constructor; cbn [c_hist c_next c_inflight c_slots c_cap].
    + rewrite app_length. simpl. lia.
    + rewrite map_app. simpl.
      apply NoDup_rev in Hn. rewrite <- (rev_involutive (map tk (c_inflight s) ++ [c_next s])).
      apply NoDup_rev. rewrite rev_app_distr. simpl. constructor; [|exact Hn].
      rewrite <- in_rev, in_map_iff. intros (f & Hf & Hin). destruct (Hl f Hin). lia.
    + intros f Hin. apply in_app_or in Hin. destruct Hin as [Hin|[<-|[]]].
      * destruct (Hl f Hin). split; [lia|]. rewrite nth_error_app1 by lia. auto.
      * cbn. split; [lia|]. rewrite nth_error_app2 by lia.
        replace (c_next s - List.length (c_hist s)) with 0 by lia. reflexivity.
    + intros k Hk1 Hk2 Hk3.
      assert (k <> c_next s).
      { intros ->. apply (Hk3 (Inflight (c_next s) e)); [apply in_or_app; right; simpl; auto|reflexivity]. }
      rewrite nth_error_app1 by lia. apply Hs; try lia.
      intros f Hin. apply Hk3. apply in_or_app; auto.
  - destruct (nth_error (c_inflight s) k) as [f|] eqn:Ek; [|constructor; auto].
    pose proof (nth_error_In _ _ Ek) as Hf.
    constructor; cbn [c_hist c_next c_inflight c_slots c_cap].
    + exact Hh.
    + rewrite map_drop_nth. apply NoDup_drop_nth, Hn.
    + intros g Hg. apply Hl. eapply In_drop_nth; eauto.
    + intros j Hj1 Hj2 Hj3. destruct (Hl f Hf) as [Hf1 Hf2].
      destruct (Nat.eqb_spec (j mod c_cap s) (tk f mod c_cap s)) as [E|E].
      * assert (j = tk f) by (apply (window_mod_inj (c_cap s) (c_next s)); auto).
        subst j. rewrite Hf2. reflexivity.
      * apply Hs; auto. intros g Hg Heq.
        destruct (drop_nth_split _ _ _ _ Ek Hg) as [->|Hd].
        -- apply E. rewrite Heq. reflexivity.
        -- apply (Hj3 g Hd Heq).
Qed.

Lemma cinv_run evs : forall s, 0 < c_cap s -> cinv s -> never_lapped s evs -> cinv (crun s evs) /\ not_lapped (crun s evs)
   /\ c_cap (crun s evs) = c_cap s.
Proof.
  induction evs as [|ev evs IH]; intros s Hc Hi Hn; cbn in *.
  - tauto.
  - destruct Hn as [Hn1 Hn2]. destruct (IH (cstep s ev)) as (A & B & C).
    + rewrite cstep_cap; exact Hc.
    + apply cinv_step; auto.
    + exact Hn2.
    + rewrite cstep_cap in C. auto.
Qed.

Lemma nth_error_map_NoDup {A} (g : A -> nat) l a b x y :
  NoDup (map g l) -> nth_error l a = Some x -> nth_error l b = Some y -> g x = g y -> a = b.
Proof.
  intros H Ha Hb E. rewrite NoDup_nth_error in H. apply H.
  - rewrite map_length. apply nth_error_Some. congruence.
  - rewrite !nth_error_map, Ha, Hb. simpl. congruence.
Qed.

Lemma no_race_unlapped c evs :
  0 < c -> never_lapped (cinit c) evs -> ~ slot_race (crun (cinit c) evs).
Proof.
  intros Hc Hn. destruct (cinv_run evs (cinit c) Hc (cinv_init c) Hn) as (Hi & Hl & Hcap).
  intros (a & b & fa & fb & Hab & Ha & Hb & E). apply Hab.
  eapply (nth_error_map_NoDup tk); eauto using ci_nodup.
  pose proof (nth_error_In _ _ Ha) as HaI. pose proof (nth_error_In _ _ Hb) as HbI.
  destruct (ci_lt _ Hi fa HaI). destruct (ci_lt _ Hi fb HbI).
  pose proof (Hl fa HaI). pose proof (Hl fb HbI).
  rewrite Hcap in *. simpl in *. eapply window_mod_inj; eauto.
Qed.

(* when nothing is in flight, the slots hold the last cap entries in ticket order *)
Lemma quiescent_slots c evs :
  0 < c -> never_lapped (cinit c) evs ->
  let s := crun (cinit c) evs in
  c_inflight s = [] ->
  forall k, k < List.length (c_hist s) -> List.length (c_hist s) <= k + c ->
    c_slots s (k mod c) = nth_error (c_hist s) k.
Proof.
  intros Hc Hn s Hq k H1 H2.
  destruct (cinv_run evs (cinit c) Hc (cinv_init c) Hn) as (Hi & Hl & Hcap). fold s in Hi, Hl, Hcap.
  simpl in Hcap. rewrite <- Hcap. apply (ci_slots _ Hi).
  - rewrite <- (ci_hist _ Hi). exact H1.
  - rewrite <- (ci_hist _ Hi), Hcap. exact H2.
  - rewrite Hq. intros f [].
Qed.

(* For every capacity there is a schedule with a race: one call is paused after taking its
   ticket while another thread completes cap-1 calls and begins one more. *)
Definition race_schedule (c : nat) (e : entry) : list cev :=
  TakeTicket e :: flat_map (fun _ => [TakeTicket e; Finish 1]) (seq 1 (c - 1)) ++ [TakeTicket e].

Lemma race_prefix e n : forall b s,
  List.length (c_inflight s) = 1 ->
  let s' := crun s (flat_map (fun _ => [TakeTicket e; Finish 1]) (seq b n)) in
  c_inflight s' = c_inflight s /\ c_next s' = c_next s + n /\ c_cap s' = c_cap s.
Proof.
  unfold crun. induction n as [|n IH]; intros b s H; cbn [seq flat_map app fold_left].
  - repeat split; lia.
  - destruct s as [cap nx sl [|f [|g fl]] h]; simpl in H; try lia.
    match goal with |- context [fold_left cstep _ ?st] => destruct (IH (S b) st) as (A & B & C); [reflexivity|] end.
    cbv zeta. rewrite A, B, C. cbn. repeat split; lia.
Qed.

Lemma race_exists c e : 0 < c -> slot_race (crun (cinit c) (race_schedule c e)).
Proof.
  intros Hc. unfold race_schedule, crun. cbn [fold_left]. rewrite fold_left_app.
  destruct (race_prefix e (c - 1) 1 (cstep (cinit c) (TakeTicket e)) eq_refl) as (A & B & C).
  unfold crun in A, B, C.
  set (s := fold_left cstep (flat_map _ _) _) in *. cbn [fold_left].
  exists 0, 1, (Inflight 0 e), (Inflight (c_next s) e).
  cbn [cstep c_inflight c_cap]. rewrite A, B, C. simpl.
  repeat split; auto.
  replace (S (c - 1)) with (1 * c) by lia. rewrite Nat.mod_mul, Nat.mod_0_l by lia. reflexivity.
Qed.
