From Verif Require Import Common MediumStackModel MediumStackSpec.

Section P.
Variable medium : prim -> option med.

Definition wf (s : mstack) : Prop := List.length (entries s) = capacity /\ (size s <= capacity)%nat.

Lemma wf_empty : wf empty_stack.
Proof. split; [apply repeat_length|cbn; lia]. Qed.

Lemma toggle_wf s p : wf s -> exists s', toggle medium s p = Ok s' /\ wf s'.
Proof.
  intros [H1 H2]. unfold toggle. destruct p as [p|]; [|exists s; split; [auto|split; auto]].
  destruct (medium p) as [m|]; [|exists s; split; [auto|split; auto]].
  destruct (Nat.ltb_spec 0 (size s)) as [Hs|Hs].
  - destruct (nth_error (entries s) (size s - 1)) as [e|] eqn:E.
    + destruct (same_prim (en_prim e) p).
      * eexists. split; [reflexivity|]. split; cbn; [auto|lia].
      * destruct (Nat.ltb_spec (size s) capacity) as [Hc|Hc].
        -- replace (Nat.ltb (size s) (List.length (entries s))) with true by lia.
           eexists. split; [reflexivity|]. split; cbn [entries size]; [rewrite upd_length; auto|lia].
        -- exists s. split; [auto|split; auto].
    + apply nth_error_None in E. unfold capacity in *. lia.
  - destruct (Nat.ltb_spec (size s) capacity) as [Hc|Hc].
    + replace (Nat.ltb (size s) (List.length (entries s))) with true by lia.
      eexists. split; [reflexivity|]. split; cbn [entries size]; [rewrite upd_length; auto|lia].
    + exists s. split; [auto|split; auto].
Qed.

Lemma toggles_wf w : forall s, wf s -> exists s', toggles medium s w = Ok s' /\ wf s'.
Proof.
  induction w as [|p w IH]; intros s H; cbn [toggles]; [eauto|].
  destruct (toggle_wf s p H) as (s1 & E & H1). rewrite E. cbn [obind]. auto.
Qed.

Lemma toggles_app w1 w2 s : toggles medium s (w1 ++ w2) = obind (toggles medium s w1) (fun s' => toggles medium s' w2).
Proof. revert s; induction w1 as [|p w1 IH]; intros s; cbn [toggles app]; [reflexivity|].
  destruct (toggle medium s p); cbn [obind]; auto. Qed.

Lemma firstn_upd {A} (l : list A) n v : firstn n (upd l n v) = firstn n l.
Proof. revert n; induction l as [|x l IH]; intros [|n]; simpl; auto. rewrite IH. reflexivity. Qed.

Lemma firstn_S_upd {A} (l : list A) n v : (n < List.length l)%nat -> firstn (n + 1) (upd l n v) = firstn n l ++ [v].
Proof. revert n; induction l as [|x l IH]; intros [|n] H; simpl in *; try lia; auto. rewrite IH by lia. reflexivity. Qed.

Lemma firstn_S_nth {A} (l : list A) n x : nth_error l n = Some x -> firstn (n + 1) l = firstn n l ++ [x].
Proof. revert n; induction l as [|y l IH]; intros [|n] H; simpl in *; try discriminate; [congruence|].
  rewrite (IH n H). reflexivity. Qed.

(* Entering and leaving with respect to [contents] *)
Lemma toggle_enter s p m : wf s -> medium p = Some m -> ~ In p (prims_on s) ->
  exists s', toggle medium s (Some p) = Ok s' /\ wf s' /\
    ((size s < capacity)%nat /\ contents s' = contents s ++ [Entry (Some p) (Some m)] /\ size s' = (size s + 1)%nat \/
     size s = capacity /\ s' = s).
Proof.
  intros Hw Hm Hp. destruct (toggle_wf s (Some p) Hw) as (s' & E & Hw'). exists s'. split; [exact E|]. split; [exact Hw'|].
  destruct Hw as [H1 H2]. unfold toggle in E. rewrite Hm in E.
  assert (G : (if Nat.ltb 0 (size s) then
                   match nth_error (entries s) (size s - 1) with
                   | None => UB
                   | Some e => Ok (same_prim (en_prim e) p)
                   end
                 else Ok false) = Ok false).
  { destruct (Nat.ltb_spec 0 (size s)) as [Hs|Hs]; [|reflexivity].
    destruct (nth_error (entries s) (size s - 1)) as [e|] eqn:En.
    - unfold same_prim. destruct (en_prim e) as [q|] eqn:Eq; [|reflexivity].
      destruct (N.eqb_spec q p) as [->|]; [|reflexivity]. exfalso. apply Hp.
      unfold prims_on. apply in_flat_map. exists e. rewrite Eq. split; [|simpl; auto].
      unfold contents. replace (size s) with (size s - 1 + 1)%nat by lia.
      rewrite (firstn_S_nth _ _ _ En). apply in_or_app. simpl. auto.
    - apply nth_error_None in En. lia. }
  rewrite G in E. destruct (Nat.ltb_spec (size s) capacity) as [Hc|Hc].
  - left. split; [exact Hc|]. replace (Nat.ltb (size s) (List.length (entries s))) with true in E by lia.
    inversion E; subst s'. unfold contents. cbn [entries size]. split; [|reflexivity]. apply firstn_S_upd. lia.
  - right. split; [unfold wf in *; lia|]. inversion E; reflexivity.
Qed.

Lemma toggle_leave s p m e base : wf s -> medium p = Some m -> contents s = base ++ [e] -> en_prim e = Some p ->
  exists s', toggle medium s (Some p) = Ok s' /\ wf s' /\ contents s' = base /\ (size s' = size s - 1)%nat.
Proof.
  intros Hw Hm Hb He. destruct (toggle_wf s (Some p) Hw) as (s' & E & Hw'). exists s'. split; [exact E|]. split; [exact Hw'|].
  destruct Hw as [H1 H2]. unfold toggle in E. rewrite Hm in E.
  assert (Hlen : size s = S (List.length base)).
  { pose proof (f_equal (@List.length _) Hb) as L. unfold contents in L. rewrite app_length, firstn_length in L. simpl in L. lia. }
  replace (Nat.ltb 0 (size s)) with true in E by lia.
  assert (En : nth_error (entries s) (size s - 1) = Some e).
  { assert (X : nth_error (contents s) (size s - 1) = Some e).
    { rewrite Hb, nth_error_app2 by lia. replace (size s - 1 - List.length base)%nat with 0%nat by lia. reflexivity. }
    unfold contents in X. rewrite <- X. rewrite <- (firstn_skipn (size s) (entries s)) at 1.
    rewrite nth_error_app1; [reflexivity|]. rewrite firstn_length. lia. }
  rewrite En in E. cbv beta iota in E. unfold same_prim in E. rewrite He, N.eqb_refl in E.
  inversion E; subst s'. cbn [size entries]. split; [|reflexivity].
  unfold contents. cbn [size entries].
  assert (X : firstn (size s - 1 + 1) (entries s) = firstn (size s - 1) (entries s) ++ [e]) by (apply firstn_S_nth, En).
  replace (size s - 1 + 1)%nat with (size s) in X by lia. fold (contents s) in X. rewrite Hb in X.
  apply app_inj_tail in X. symmetry. tauto.
Qed.

Lemma prims_on_app s base e p : contents s = base ++ [e] -> en_prim e = Some p ->
  prims_on s = flat_map (fun e => match en_prim e with Some p => [p] | None => [] end) base ++ [p].
Proof. intros H He. unfold prims_on. rewrite H, flat_map_app. cbn. rewrite He. reflexivity. Qed.

(* Main lemma: a nested walk restores the stack, whatever its depth. *)
Lemma nested_restores O w : nested medium O w ->
  forall s, wf s -> (forall p, In p (prims_on s) -> In p O) ->
  exists s', toggles medium s w = Ok s' /\ wf s' /\ contents s' = contents s /\ size s' = size s.
Proof.
  induction 1 as [O|O w Hw IH|O p w Hm Hw IH|O p w1 w2 Hm HO Hw1 IH1 Hw2 IH2]; intros s Hs HsO.
  - exists s. auto.
  - cbn. auto.
  - cbn [toggles]. unfold toggle. rewrite Hm. cbn [obind]. auto.
  - destruct (medium p) as [m|] eqn:Em; [|congruence].
    cbn [toggles].
    destruct (toggle_enter s p m Hs Em) as (s1 & E1 & Hs1 & Hc1); [intros X; apply HO, HsO, X|].
    rewrite E1. cbn [obind]. rewrite toggles_app.
    destruct Hc1 as [(Hc & Hcon & Hsz)|[Hc ->]].
    + destruct (IH1 s1 Hs1) as (s2 & E2 & Hs2 & Hcon2 & Hsz2).
      { intros q Hq. rewrite (prims_on_app _ _ _ p Hcon eq_refl) in Hq. apply in_app_or in Hq.
        destruct Hq as [Hq|[<-|[]]]; simpl; auto. }
      rewrite E2. cbn [obind toggles].
      destruct (toggle_leave s2 p m (Entry (Some p) (Some m)) (contents s) Hs2 Em) as (s3 & E3 & Hs3 & Hcon3 & Hsz3);
        [congruence|reflexivity|].
      rewrite E3. cbn [obind].
      destruct (IH2 s3 Hs3) as (s4 & E4 & Hs4 & Hcon4 & Hsz4).
      { intros q Hq. apply HsO. unfold prims_on in *. rewrite <- Hcon3. exact Hq. }
      exists s4. split; [exact E4|]. split; [exact Hs4|]. split; [congruence|]. lia.
    + (* capacity reached: the push is dropped, and so is the pop *)
      destruct (IH1 s Hs) as (s2 & E2 & Hs2 & Hcon2 & Hsz2).
      { intros q Hq. simpl. auto. }
      rewrite E2. cbn [obind toggles].
      destruct (toggle_enter s2 p m Hs2 Em) as (s3 & E3 & Hs3 & Hc3).
      { intros X. apply HO, HsO. unfold prims_on in *. rewrite <- Hcon2. exact X. }
      rewrite E3. cbn [obind].
      destruct Hc3 as [(Hlt & _)|[_ ->]]; [lia|].
      destruct (IH2 s2 Hs2) as (s4 & E4 & Hs4 & Hcon4 & Hsz4).
      { intros q Hq. apply HsO. unfold prims_on in *. rewrite <- Hcon2. exact Hq. }
      exists s4. split; [exact E4|]. split; [exact Hs4|]. split; [congruence|]. lia.
Qed.

Definition entry_of (p : prim) : entry := Entry (Some p) (medium p).

Lemma inside_contents w path : inside medium w path -> (List.length path <= capacity)%nat ->
  exists s, toggles medium empty_stack w = Ok s /\ wf s /\ contents s = map entry_of (rev path) /\ size s = List.length path.
Proof.
  induction 1 as [w Hw|w1 path p w2 Hi IH Hm Hp Hw2]; intros Hlen.
  - destruct (nested_restores [] w Hw empty_stack wf_empty) as (s & E & Hs & Hc & Hz).
    { cbn. tauto. }
    exists s. split; [exact E|]. split; [exact Hs|]. split; [rewrite Hc; reflexivity|exact Hz].
  - cbn [List.length] in Hlen. destruct IH as (s & E & Hs & Hc & Hz); [lia|].
    rewrite toggles_app, E. cbn [obind toggles].
    destruct (medium p) as [m|] eqn:Em; [|congruence].
    assert (Hpr : prims_on s = rev path).
    { unfold prims_on. rewrite Hc, flat_map_concat_map, map_map. cbn.
      generalize (rev path). intros l. induction l as [|x l IHl]; cbn; [reflexivity|]. rewrite IHl. reflexivity. }
    destruct (toggle_enter s p m Hs Em) as (s1 & E1 & Hs1 & Hc1).
    { rewrite Hpr, <- in_rev. exact Hp. }
    rewrite E1. cbn [obind]. destruct Hc1 as [(Hlt & Hcon & Hsz)|[Hcap _]]; [|lia].
    destruct (nested_restores _ _ Hw2 s1 Hs1) as (s2 & E2 & Hs2 & Hcon2 & Hsz2).
    { intros q Hq. rewrite (prims_on_app _ _ _ p Hcon eq_refl) in Hq. apply in_app_or in Hq.
      fold (prims_on s) in Hq. rewrite Hpr, <- in_rev in Hq. simpl in Hq |- *. tauto. }
    exists s2. split; [exact E2|]. split; [exact Hs2|]. cbn [rev List.length]. rewrite map_app. cbn [map].
    split; [|lia]. rewrite Hcon2, Hcon, Hc. unfold entry_of. rewrite Em. reflexivity.
Qed.

Lemma top_contents s base e : wf s -> contents s = base ++ [e] -> top s = Ok (en_medium e).
Proof.
  intros [H1 H2] Hb. unfold top.
  assert (Hlen : size s = S (List.length base)).
  { pose proof (f_equal (@List.length _) Hb) as L. unfold contents in L. rewrite app_length, firstn_length in L. simpl in L. lia. }
  replace (Nat.eqb (size s) 0) with false by lia.
  assert (X : nth_error (contents s) (size s - 1) = Some e).
  { rewrite Hb, nth_error_app2 by lia. replace (size s - 1 - List.length base)%nat with 0%nat by lia. reflexivity. }
  unfold contents in X. rewrite <- (firstn_skipn (size s) (entries s)).
  rewrite nth_error_app1 by (rewrite firstn_length; lia). rewrite X. reflexivity.
Qed.
End P.
