(* Proofs about the logger model. *)
From Verif Require Import Common LoggerModel LoggerSpec.

Lemma lastn_length {A} n (l : list A) : List.length (lastn n l) = Nat.min n (List.length l).
Proof. unfold lastn. rewrite skipn_length. lia. Qed.

Lemma nth_skipn {A} k (l : list A) i d : nth i (skipn k l) d = nth (k + i) l d.
Proof. revert l; induction k as [|k IH]; intros l; simpl; [reflexivity|].
  destruct l as [|x l]; simpl; [destruct i; reflexivity|apply IH]. Qed.

Lemma nth_lastn {A} n (l : list A) i d :
  nth i (lastn n l) d = nth (List.length l - n + i) l d.
Proof. unfold lastn. apply nth_skipn. Qed.

(* The ring [buf] with write counter w holds items in order. *)
Definition ring (buf : list entry) (w : N) (items : list entry) : Prop :=
  (1 <= List.length buf)%nat /\
  N.of_nat (List.length items) = N.min w (N.of_nat (List.length buf)) /\
  forall i, (i < List.length items)%nat ->
    nth i items blank =
    nth (N.to_nat ((w - N.of_nat (List.length items) + N.of_nat i) mod N.of_nat (List.length buf))) buf blank.

Lemma mod_inj_window (a b c : N) :
  (0 < c -> a mod c = b mod c -> a <= b -> b < a + c -> a = b)%N.
Proof.
  intros Hc H1 H2 H3.
  pose proof (N.div_mod a c ltac:(lia)) as Ha. pose proof (N.div_mod b c ltac:(lia)) as Hb.
  rewrite H1 in Ha. remember (b mod c)%N as r eqn:Er.
  assert (Hq : (a / c = b / c)%N).
  { assert (a / c <= b / c)%N by (apply N.div_le_mono; lia).
    assert (~ (a / c < b / c))%N; [|lia]. intros Hlt. nia. }
  rewrite Hq in Ha. lia.
Qed.

Lemma ring_push buf w items e :
  ring buf w items ->
  ring (upd buf (N.to_nat (w mod N.of_nat (List.length buf))) e) (w + 1)
       (lastn (List.length buf) (items ++ [e])).
Proof.
  intros (Hc & Hlen & Hnth). unfold ring.
  set (c := List.length buf) in *. rewrite upd_length. fold c.
  assert (HcN : (0 < N.of_nat c)%N) by lia.
  rewrite lastn_length, app_length. simpl (List.length [e]).
  split; [exact Hc|]. split; [lia|].
  intros i Hi. rewrite nth_lastn, app_length. simpl (List.length [e]).
  set (n := List.length items) in *.
  set (m := Nat.min c (n + 1)) in *.
  assert (Hmod : (w mod N.of_nat c < N.of_nat c)%N) by (apply N.mod_lt; lia).
  destruct (Nat.eq_dec (n + 1 - c + i) n) as [E|E].
  - (* the new entry *)
    rewrite E. rewrite app_nth2 by (fold n; lia). fold n. replace (n - n)%nat with O by lia. simpl.
    replace (w + 1 - N.of_nat m + N.of_nat i)%N with w by lia.
    rewrite nth_upd_eq; [reflexivity|]. fold c. lia.
  - rewrite app_nth1 by (fold n; lia).
    rewrite Hnth by (fold n; lia). fold n.
    replace (w + 1 - N.of_nat m + N.of_nat i)%N with (w - N.of_nat n + N.of_nat (n + 1 - c + i))%N by lia.
    set (j := (w - N.of_nat n + N.of_nat (n + 1 - c + i))%N).
    rewrite nth_upd_neq; [reflexivity|].
    intros Heq. apply N2Nat.inj in Heq.
    assert (j = w); [|subst j; lia].
    apply (mod_inj_window j w (N.of_nat c)); subst j; try lia; try exact Heq.
Qed.

Lemma copy_loop_length old w n i fuel new :
  List.length (copy_loop old w n i fuel new) = List.length new.
Proof. revert i new; induction fuel as [|f IH]; intros i new; cbn [copy_loop]; [reflexivity|].
  rewrite IH, upd_length. reflexivity. Qed.

Lemma copy_loop_nth old w n i fuel new k :
  (i + fuel <= List.length new)%nat ->
  nth k (copy_loop old w n i fuel new) blank =
  if (Nat.leb i k && Nat.ltb k (i + fuel))%bool
  then nth (N.to_nat ((w - n + N.of_nat k) mod N.of_nat (List.length old))) old blank
  else nth k new blank.
Proof.
  revert i new; induction fuel as [|f IH]; intros i new H; cbn [copy_loop].
  - destruct (Nat.leb i k && Nat.ltb k (i + 0))%bool eqn:E; [lia|reflexivity].
  - rewrite IH by (rewrite upd_length; lia).
    destruct (Nat.eq_dec k i) as [->|Hk].
    + replace (Nat.leb (S i) i && Nat.ltb i (S i + f))%bool with false by lia.
      replace (Nat.leb i i && Nat.ltb i (i + S f))%bool with true by lia.
      apply nth_upd_eq. lia.
    + rewrite nth_upd_neq by lia.
      replace (Nat.leb (S i) k && Nat.ltb k (S i + f))%bool with (Nat.leb i k && Nat.ltb k (i + S f))%bool by lia.
      reflexivity.
Qed.

Lemma ring_resize s size0 items :
  ring (buffer s) (write_index s) items ->
  ring (buffer (set_buffer_size s size0)) (write_index (set_buffer_size s size0))
       (lastn (Nat.max 1 size0) items) /\
  List.length (buffer (set_buffer_size s size0)) = Nat.max 1 size0.
Proof.
  intros (Hc & Hlen & Hnth). unfold set_buffer_size.
  assert (Hsz : (if Nat.eqb size0 0 then 1 else size0)%nat = Nat.max 1 size0)
    by (destruct (Nat.eqb_spec size0 0); lia).
  rewrite Hsz. set (size := Nat.max 1 size0) in *.
  set (w := write_index s) in *. set (buf := buffer s) in *.
  set (n := N.min w (N.min (N.of_nat (List.length buf)) (N.of_nat size))).
  cbn [buffer write_index].
  assert (Hl : List.length (copy_loop buf w n 0 (N.to_nat n) (repeat blank size)) = size)
    by (rewrite copy_loop_length; apply repeat_length).
  split; [|exact Hl].
  unfold ring. rewrite Hl, lastn_length.
  split; [lia|]. split; [lia|].
  intros i Hi. rewrite nth_lastn.
  rewrite Hnth by lia.
  rewrite copy_loop_nth by (rewrite repeat_length; lia).
  set (k := List.length items) in *.
  assert (Hn : N.of_nat (Nat.min size k) = n) by lia.
  rewrite Hn. replace (n - n + N.of_nat i)%N with (N.of_nat i) by lia.
  rewrite (N.mod_small (N.of_nat i) (N.of_nat size)) by lia. rewrite Nat2N.id.
  replace (Nat.leb 0 i && Nat.ltb i (0 + N.to_nat n))%bool with true by lia.
  replace (w - n + N.of_nat i)%N with (w - N.of_nat k + N.of_nat (k - size + i))%N by lia.
  reflexivity.
Qed.

Lemma ring_dump s items :
  ring (buffer s) (write_index s) items -> dump_entries s = items.
Proof.
  intros (Hc & Hlen & Hnth). unfold dump_entries.
  set (w := write_index s) in *. set (buf := buffer s) in *.
  apply (list_eq_nth blank).
  - rewrite map_length, seq_length. lia.
  - rewrite map_length, seq_length. intros i Hi.
    set (f := fun i0 => _).
    rewrite (nth_indep _ blank (f 0%nat)) by (rewrite map_length, seq_length; lia).
    rewrite map_nth, seq_nth by lia. rewrite Nat.add_0_l. unfold f.
    rewrite Hnth by lia.
    f_equal. f_equal.
    set (c := N.of_nat (List.length buf)) in *.
    destruct (N.ltb_spec c w) as [Hw|Hw].
    + replace (N.of_nat (List.length items)) with c by lia.
      rewrite N.add_mod_idemp_l by lia.
      replace (w + N.of_nat i)%N with (w - c + N.of_nat i + 1 * c)%N by lia.
      rewrite N.mod_add by lia. reflexivity.
    + f_equal. lia.
Qed.

(* Simulation relation *)
Definition sim (s : logger) (q : queue) : Prop :=
  ring (buffer s) (write_index s) (q_items q) /\
  List.length (buffer s) = q_cap q /\ min_level s = q_level q.

Lemma accepted_spec min e : level_ltb (e_level e) min = negb (accepted min e).
Proof. unfold level_ltb, accepted. lia. Qed.

Lemma step_sim s q o :
  sim s q -> (write_index s + (match o with OpLog _ => 1 | _ => 0 end) < word)%N ->
  exists s' d, step s o = Ok (s', d) /\ sim s' (q_step q o) /\
    (write_index s' <= write_index s + (match o with OpLog _ => 1 | _ => 0 end))%N /\
    d = deliveries (min_level s) (option_map sink_id (custom_sink s)) [o].
Proof.
  intros (Hr & Hcap & Hlev) Hw.
  destruct o as [l|e|n|k|]; cbn [step q_step].
  - eexists _, _. split; [reflexivity|]. split; [|split; [simpl; lia|reflexivity]].
    unfold sim, set_level; simpl. auto.
  - unfold log. rewrite accepted_spec.
    cbn [deliveries]. rewrite <- Hlev. destruct (accepted (min_level s) e) eqn:Ea; cbn [negb].
    + assert (Hne : Nat.eqb (List.length (buffer s)) 0 = false)
        by (destruct Hr as (H & _); lia).
      rewrite Hne.
      assert (Hwi : ((write_index s + 1) mod word = write_index s + 1)%N) by (apply N.mod_small; exact Hw).
      pose proof (ring_push _ _ _ e Hr) as Hp.
      assert (HS : forall cs, sim (Logger (upd (buffer s) (N.to_nat (write_index s mod N.of_nat (List.length (buffer s)))) e)
                        ((write_index s + 1) mod word) (min_level s) cs)
                 (Queue (q_cap q) (min_level s) (lastn (q_cap q) (q_items q ++ [e])))).
      { intros cs. unfold sim; cbn [buffer write_index min_level q_items q_cap q_level].
        rewrite Hwi, upd_length, <- Hcap. auto. }
      destruct (custom_sink s) as [k|]; cbn [option_map];
        [destruct (sink_throws k e)|]; cbn [obind lr_escaped lr_state lr_delivered];
        (eexists _, _; split; [reflexivity|]; split; [apply HS|]);
        cbn [write_index]; rewrite ?Hwi; (split; [lia|reflexivity]).
    + cbn [obind lr_escaped lr_state lr_delivered]. eexists _, _. split; [reflexivity|].
      split; [unfold sim; auto|]. split; [lia|].
      reflexivity.
  - eexists _, _. split; [reflexivity|].
    destruct (ring_resize s n _ Hr) as [H1 H2].
    split; [|split; [|reflexivity]].
    + unfold sim. cbn [q_items q_cap q_level]. split; [exact H1|]. split; [exact H2|exact Hlev].
    + unfold set_buffer_size. cbn [write_index]. lia.
  - eexists _, _. split; [reflexivity|]. split; [unfold sim; auto|]. split; [simpl; lia|reflexivity].
  - eexists _, _. split; [reflexivity|]. split; [unfold sim; auto|]. split; [simpl; lia|reflexivity].
Qed.

Lemma step_env s o s' d : step s o = Ok (s', d) ->
  forall r, deliveries (min_level s) (option_map sink_id (custom_sink s)) (o :: r) =
    deliveries (min_level s) (option_map sink_id (custom_sink s)) [o] ++
    deliveries (min_level s') (option_map sink_id (custom_sink s')) r.
Proof.
  intros H r. destruct o as [l|e|n|k|]; cbn [step] in H.
  - inversion H; subst. simpl. reflexivity.
  - unfold log in H. cbn [deliveries].
    destruct (level_ltb (e_level e) (min_level s)).
    + cbn [obind lr_escaped lr_state lr_delivered] in H. inversion H; subst. rewrite app_nil_r. reflexivity.
    + destruct (Nat.eqb (List.length (buffer s)) 0); [discriminate H|].
      destruct (custom_sink s) as [k|] eqn:Ek; [destruct (sink_throws k e)|];
        cbn [obind lr_escaped lr_state lr_delivered] in H; inversion H; subst; cbn [min_level custom_sink];
        rewrite app_nil_r; reflexivity.
  - inversion H; subst. simpl. reflexivity.
  - inversion H; subst. simpl. reflexivity.
  - inversion H; subst. simpl. reflexivity.
Qed.

Lemma run_sim os : forall s q,
  sim s q -> (write_index s + N.of_nat (num_logs os) < word)%N ->
  exists s' , run s os = Ok (s', deliveries (min_level s) (option_map sink_id (custom_sink s)) os) /\
    sim s' (fold_left q_step os q).
Proof.
  induction os as [|o os IH]; intros s q Hs Hw.
  - exists s. split; [reflexivity|exact Hs].
  - assert (Hnum : N.of_nat (num_logs (o :: os)) =
       ((match o with OpLog _ => 1 | _ => 0 end) + N.of_nat (num_logs os))%N).
    { unfold num_logs. destruct o; cbn [filter]; simpl List.length; lia. }
    rewrite Hnum in Hw.
    destruct (step_sim s q o Hs ltac:(lia)) as (s1 & d & Hst & Hs1 & Hw2 & Hd).
    destruct (IH s1 (q_step q o) Hs1 ltac:(lia)) as (s2 & Hrun & Hs2).
    exists s2. split; [|exact Hs2].
    cbn [run]. rewrite Hst. cbn [obind fst snd]. rewrite Hrun. cbn [obind fst snd].
    rewrite (step_env _ _ _ _ Hst os), Hd. reflexivity.
Qed.
