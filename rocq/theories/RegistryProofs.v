(* Proofs about the name registry model. *)
From Coq Require Import DecimalString DecimalN FinFun.
From Verif Require Import Common RegistryModel RegistrySpec.

Lemma dec_inj a b : dec a = dec b -> a = b.
Proof.
  unfold dec. intros H.
  assert (E : Some (N.to_uint a) = Some (N.to_uint b)).
  { rewrite <- !NilEmpty.usu, H. reflexivity. }
  inversion E as [E']. apply DecimalN.Unsigned.to_uint_inj. exact E'.
Qed.

Lemma append_inj_l a b c : (a ++ b = a ++ c)%string -> b = c.
Proof. induction a as [|x a IH]; simpl; intros H; [exact H|]. inversion H. auto. Qed.

Lemma cand_inj base i j : (base ++ "_" ++ dec i = base ++ "_" ++ dec j)%string -> i = j.
Proof. intros H. apply append_inj_l in H. apply append_inj_l in H. apply dec_inj, H. Qed.

Definition cand (base : string) (i : N) : string := (base ++ "_" ++ dec i)%string.

Lemma find_in k m v : find k m = Some v -> In (k, v) m.
Proof. induction m as [|[k' v'] m IH]; simpl; [discriminate|].
  destruct (String.eqb_spec k k') as [->|]; intros H; [inversion H; auto|auto]. Qed.

Lemma contains_in k m : contains k m = true <-> In k (map fst m).
Proof.
  unfold contains. induction m as [|[k' v'] m IH]; simpl; [split; [discriminate|tauto]|].
  destruct (String.eqb_spec k k') as [->|Hne]; [split; auto|].
  rewrite IH. split; [auto|]. intros [H|H]; [congruence|exact H].
Qed.

(* Pigeonhole: if c, c+1, .., c+n-1 are all taken then the map has at least n names. *)
Lemma cands_bound base (m : list (string * obj)) n : forall c,
  (forall i, (i < n)%nat -> In (cand base (c + N.of_nat i)) (map fst m)) ->
  (n <= List.length m)%nat.
Proof.
  intros c H.
  set (l := map (fun i => cand base (c + N.of_nat i)) (seq 0 n)).
  assert (Hn : NoDup l).
  { subst l. apply FinFun.Injective_map_NoDup; [|apply seq_NoDup].
    intros a b E. apply cand_inj in E. lia. }
  assert (Hi : incl l (map fst m)).
  { intros x Hx. subst l. apply in_map_iff in Hx. destruct Hx as (i & <- & Hi). apply in_seq in Hi. apply H. lia. }
  pose proof (NoDup_incl_length Hn Hi) as Hl. subst l. rewrite !map_length, seq_length in Hl. exact Hl.
Qed.

Lemma unique_loop_spec base m : forall fuel c,
  (N.of_nat (List.length m) < int_max - 1)%N ->
  (1 <= c)%N ->
  (forall i, (1 <= i)%N -> (i < c)%N -> contains (cand base i) m = true) ->
  (N.to_nat c + fuel = S (S (List.length m)))%nat ->
  exists k, unique_loop base c m fuel = Ok (cand base k) /\ (1 <= k)%N /\
    contains (cand base k) m = false /\
    forall i, (1 <= i)%N -> (i < k)%N -> contains (cand base i) m = true.
Proof.
  induction fuel as [|f IH]; intros c Hm Hc Hall Hfuel; cbn [unique_loop].
  - exfalso. assert (S (List.length m) <= List.length m)%nat; [|lia].
    apply (cands_bound base m (S (List.length m)) 1). intros i Hi. apply contains_in. apply Hall; lia.
  - destruct (N.eqb_spec c int_max) as [E|E]; [exfalso; lia|].
    change (base ++ "_" ++ dec c)%string with (cand base c).
    destruct (contains (cand base c) m) eqn:Ec.
    + destruct (IH (c + 1)%N Hm ltac:(lia)) as (k & A & B & C & D).
      * intros i H1 H2. destruct (N.eq_dec i c) as [->|]; [exact Ec|apply Hall; lia].
      * lia.
      * exists k. auto.
    + exists c. auto.
Qed.

Lemma make_unique_spec m name :
  (N.of_nat (List.length m) < int_max - 1)%N ->
  (contains name m = false /\ make_unique_name m name = Ok name) \/
  (contains name m = true /\ exists k, make_unique_name m name = Ok (cand name k) /\ (1 <= k)%N /\
    contains (cand name k) m = false /\
    forall i, (1 <= i)%N -> (i < k)%N -> contains (cand name i) m = true).
Proof.
  intros Hm. unfold make_unique_name. destruct (contains name m) eqn:E; [right|left; auto].
  split; [reflexivity|]. apply unique_loop_spec; auto; try lia.
Qed.

Lemma make_unique_fresh m name :
  (N.of_nat (List.length m) < int_max - 1)%N ->
  exists n, make_unique_name m name = Ok n /\ contains n m = false.
Proof.
  intros Hm. destruct (make_unique_spec m name Hm) as [[A B]|(A & k & B & C & D & _)]; eauto.
Qed.

(* The registry invariant *)
Record rinv (r : registry) : Prop := {
  ri_nodup_obj : NoDup (objects r);
  ri_keys : NoDup (map fst (names r));
  ri_bij : forall o n, In (n, o) (names r) <-> In o (objects r) /\ name_of r o = n
}.

Lemma find_complete k v m : NoDup (map fst m) -> In (k, v) m -> find k m = Some v.
Proof.
  induction m as [|[k' v'] m IH]; simpl; intros Hn Hin; [tauto|].
  inversion Hn as [|? ? Hnot Hn']; subst.
  destruct Hin as [E|Hin].
  - inversion E; subst. rewrite String.eqb_refl. reflexivity.
  - destruct (String.eqb_spec k k') as [->|]; [|auto].
    exfalso. apply Hnot. change k' with (fst (k', v)). apply in_map, Hin.
Qed.

Lemma find_none k m : contains k m = false -> forall v, ~ In (k, v) m.
Proof. intros H v Hin. assert (contains k m = true); [|congruence].
  apply contains_in. change k with (fst (k, v)). apply in_map, Hin. Qed.

Lemma erase_in k m p : In p (erase k m) <-> In p m /\ fst p <> k.
Proof. unfold erase. rewrite filter_In.
  destruct (String.eqb_spec k (fst p)) as [->|H]; simpl; intuition congruence. Qed.

Lemma erase_keys_nodup k m : NoDup (map fst m) -> NoDup (map fst (erase k m)).
Proof.
  induction m as [|[k' v'] m IH]; simpl; intros H; [constructor|].
  inversion H as [|? ? Hnot Hn]; subst.
  destruct (String.eqb k k'); simpl; [auto|]. constructor; [|auto].
  intros Hin. apply Hnot. apply in_map_iff in Hin. destruct Hin as (p & Hp & Hin).
  apply erase_in in Hin. rewrite <- Hp. apply in_map. tauto.
Qed.

Lemma insert_in k v m p : In p (insert k v m) <-> p = (k, v) \/ (In p m /\ fst p <> k).
Proof. unfold insert. simpl. rewrite erase_in. intuition congruence. Qed.

Lemma insert_keys_nodup k v m : NoDup (map fst m) -> NoDup (map fst (insert k v m)).
Proof. intros H. unfold insert. simpl. constructor; [|apply erase_keys_nodup, H].
  intros Hin. apply in_map_iff in Hin. destruct Hin as (p & Hp & Hin). apply erase_in in Hin. tauto. Qed.

Lemma remove_first_in o l x : NoDup l -> (In x (remove_first o l) <-> In x l /\ x <> o).
Proof.
  induction l as [|y l IH]; simpl; intros H; [tauto|].
  inversion H as [|? ? Hnot Hn]; subst.
  destruct (N.eqb_spec y o) as [->|Hne].
  - split; [intros Hx; split; [auto|]; intros ->; auto|]. intros [[->|Hx] Hxo]; [congruence|exact Hx].
  - simpl. rewrite (IH Hn). split; [|tauto]. intros [->|Hx]; [split; auto|tauto].
Qed.

Lemma remove_first_nodup o l : NoDup l -> NoDup (remove_first o l).
Proof.
  induction l as [|y l IH]; simpl; intros H; [constructor|].
  inversion H as [|? ? Hnot Hn]; subst.
  destruct (N.eqb_spec y o) as [->|Hne]; [exact Hn|].
  constructor; [|auto]. rewrite remove_first_in by exact Hn. tauto.
Qed.

Lemma existsb_in o l : existsb (N.eqb o) l = true <-> In o l.
Proof. rewrite existsb_exists. split.
  - intros (x & Hx & E). apply N.eqb_eq in E. subst. exact Hx.
  - intros H. exists o. split; [exact H|apply N.eqb_refl]. Qed.

Lemma rinv_names_length r : rinv r -> List.length (names r) = List.length (objects r).
Proof.
  intros [H1 H2 H3].
  assert (Hs : NoDup (map snd (names r))).
  { assert (G : forall l, NoDup (map fst l) -> (forall p, In p l -> In p (names r)) -> NoDup (map snd l)).
    { induction l as [|[k v] l IH]; simpl; intros Hn Hin; [constructor|].
      inversion Hn as [|? ? Hnot Hn']; subst. constructor; [|apply IH; auto].
      intros Hv. apply in_map_iff in Hv. destruct Hv as ([k2 v2] & E & Hp). simpl in E. subst v2.
      apply Hnot. assert (A : In (k, v) (names r)) by auto. assert (B : In (k2, v) (names r)) by auto.
      apply H3 in A. apply H3 in B. destruct A as [_ <-]. destruct B as [_ <-].
      change (name_of r v) with (fst (name_of r v, v)) in *. 
      replace (name_of r v) with (fst (name_of r v, v)) by reflexivity.
      apply in_map. exact Hp. }
    apply G; auto. }
  rewrite <- (map_length snd). apply Nat.le_antisymm; apply NoDup_incl_length; auto.
  - intros o Ho. apply in_map_iff in Ho. destruct Ho as ([n o'] & E & Hp). simpl in E. subst. apply H3 in Hp. tauto.
  - intros o Ho. apply in_map_iff. exists (name_of r o, o). split; [reflexivity|]. apply H3. auto.
Qed.

Lemma rinv_empty : rinv empty_registry.
Proof. constructor; simpl; try constructor. intros; tauto. tauto. Qed.

Lemma fupd_eq {V} (f : obj -> V) o v : fupd f o v o = v.
Proof. unfold fupd. rewrite N.eqb_refl. reflexivity. Qed.
Lemma fupd_neq {V} (f : obj -> V) o v x : x <> o -> fupd f o v x = f x.
Proof. unfold fupd. intros H. destruct (N.eqb_spec x o); congruence. Qed.

Lemma rinv_add ty r o n :
  rinv r -> ~ In o (objects r) -> (N.of_nat (List.length (objects r)) < int_max - 1)%N ->
  exists r', add ty r o n = Ok r' /\ rinv r' /\ objects r' = objects r ++ [o] /\
    (forall x, x <> o -> name_of r' x = name_of r x) /\ (forall x, owned r' x = owned r x).
Proof.
  intros Hr Hnew Hsz. rewrite <- (rinv_names_length r Hr) in Hsz. unfold add.
  set (name1 := if String.eqb n "" then _ else n).
  destruct (make_unique_fresh (names r) name1 Hsz) as (name & Hn & Hfree).
  rewrite Hn. cbn [obind]. eexists. split; [reflexivity|].
  destruct Hr as [H1 H2 H3].
  split; [|split; [reflexivity|split; [intros x Hx; cbn; apply fupd_neq, Hx|reflexivity]]].
  constructor; cbn [objects names name_of].
  - apply NoDup_rev in H1. rewrite <- (rev_involutive (objects r ++ [o])). apply NoDup_rev.
    rewrite rev_app_distr. simpl. constructor; [rewrite <- in_rev; exact Hnew|exact H1].
  - apply insert_keys_nodup, H2.
  - intros x m. rewrite insert_in, in_app_iff. simpl.
    destruct (N.eq_dec x o) as [->|Hx].
    + rewrite fupd_eq. split.
      * intros [E|[E1 E2]]; [inversion E; subst; auto|]. apply H3 in E1. tauto.
      * intros [_ ->]. left. reflexivity.
    + rewrite fupd_neq by exact Hx. split.
      * intros [E|[E1 E2]]; [inversion E; congruence|]. apply H3 in E1. tauto.
      * intros [[Ho|[Ho|[]]] Hm]; [|congruence]. right. split; [apply H3; auto|].
        simpl. intros ->. apply (find_none _ _ Hfree x). apply H3. auto.
Qed.

Lemma rinv_remove r o :
  rinv r -> In o (objects r) ->
  exists r', remove r o = Ok r' /\ rinv r' /\ (forall x, In x (objects r') <-> In x (objects r) /\ x <> o) /\
    (forall x, name_of r' x = name_of r x) /\ owned r' o = false /\ (forall x, x <> o -> owned r' x = owned r x).
Proof.
  intros [H1 H2 H3] Ho. unfold remove.
  assert (E : existsb (N.eqb o) (objects r) = true) by (apply existsb_in, Ho). rewrite E.
  eexists. split; [reflexivity|].
  split; [|split; [intros x; apply remove_first_in, H1|split; [reflexivity|split;
     [cbn; apply fupd_eq|intros x Hx; cbn; apply fupd_neq, Hx]]]].
  constructor; cbn [objects names name_of].
  - apply remove_first_nodup, H1.
  - apply erase_keys_nodup, H2.
  - intros x m. rewrite erase_in, remove_first_in by exact H1. rewrite H3. simpl. split.
    + intros [[A B] C]. split; [split; [exact A|]|exact B]. intros ->. congruence.
    + intros [[A B] C]. split; [auto|]. intros D. subst m.
      assert (X : In (name_of r o, x) (names r)) by (apply H3; auto).
      assert (Y : In (name_of r o, o) (names r)) by (apply H3; auto).
      apply (find_complete _ _ _ H2) in X. apply (find_complete _ _ _ H2) in Y. congruence.
Qed.

Lemma rinv_rename r o n :
  rinv r -> In o (objects r) -> (N.of_nat (List.length (objects r)) < int_max - 1)%N ->
  exists r', set_name r o n = Ok r' /\ rinv r' /\ objects r' = objects r /\
    (forall x, x <> o -> name_of r' x = name_of r x) /\ owned r' = owned r.
Proof.
  intros Hr Ho Hsz. rewrite <- (rinv_names_length r Hr) in Hsz. unfold set_name.
  destruct (make_unique_fresh (names r) n Hsz) as (name & Hn & Hfree). rewrite Hn. cbn [obind].
  destruct (String.eqb_spec name (name_of r o)) as [E|E].
  - exists r. auto.
  - eexists. split; [reflexivity|]. destruct Hr as [H1 H2 H3].
    split; [|split; [reflexivity|split; [intros x Hx; cbn; apply fupd_neq, Hx|reflexivity]]].
    constructor; cbn [objects names name_of].
    + exact H1.
    + apply insert_keys_nodup, erase_keys_nodup, H2.
    + intros x m. rewrite insert_in, erase_in. simpl.
      destruct (N.eq_dec x o) as [->|Hx].
      * rewrite fupd_eq. split.
        -- intros [X|[[X1 X2] X3]]; [inversion X; subst; auto|]. apply H3 in X1. destruct X1. congruence.
        -- intros [_ ->]. left. reflexivity.
      * rewrite fupd_neq by exact Hx. split.
        -- intros [X|[[X1 X2] X3]]; [inversion X; congruence|]. apply H3 in X1. exact X1.
        -- intros [X1 X2]. right. assert (X : In (m, x) (names r)) by (apply H3; auto).
           split; [split; [exact X|]|].
           ++ intros D. subst m.
              assert (Y : In (name_of r o, o) (names r)) by (apply H3; auto).
              rewrite D in X.
              apply (find_complete _ _ _ H2) in X. apply (find_complete _ _ _ H2) in Y. congruence.
           ++ intros D. subst m. rewrite D in X. apply (find_none _ _ Hfree x). exact X.
Qed.

Lemma rinv_lookup r : rinv r ->
  (forall o, In o (objects r) -> lookup r (name_of r o) = Ok o) /\
  (forall n, (forall o, In o (objects r) -> name_of r o <> n) -> lookup r n = Throws) /\
  (forall a b, In a (objects r) -> In b (objects r) -> name_of r a = name_of r b -> a = b).
Proof.
  intros [H1 H2 H3]. split; [|split].
  - intros o Ho. unfold lookup. rewrite (find_complete (name_of r o) o); auto. apply H3. auto.
  - intros n Hn. unfold lookup. destruct (find n (names r)) as [o|] eqn:E; [|reflexivity].
    apply find_in in E. apply H3 in E. destruct E as [A B]. exfalso. eapply Hn; eauto.
  - intros a b Ha Hb E.
    assert (X : In (name_of r a, a) (names r)) by (apply H3; auto).
    assert (Y : In (name_of r a, b) (names r)) by (apply H3; auto).
    apply (find_complete _ _ _ H2) in X. apply (find_complete _ _ _ H2) in Y. congruence.
Qed.

Lemma rrun_inv cs : forall r ever live,
  rinv r -> (forall x, In x (objects r) <-> In x live) ->
  (forall x, In x live -> In x ever) -> (forall x, ~ In x ever -> owned r x = true) ->
  (forall x, In x ever -> (owned r x = true <-> In x live)) ->
  api_history ever live cs ->
  (N.of_nat (List.length (objects r) + num_adds cs) < int_max - 1)%N ->
  exists r', rrun r cs = Ok r' /\ rinv r' /\ (forall x, In x (objects r') <-> In x (live_after live cs)) /\
    (forall x, In x (live_after live cs) -> owned r' x = true) /\
    (forall x, In x ever \/ In x (added cs) -> ~ In x (live_after live cs) -> owned r' x = false).
Proof.
  induction cs as [|c cs IH]; intros r ever live Hr Hl Hle Hown1 Hown2 Hh Hsz.
  - exists r. cbn. split; [reflexivity|]. split; [exact Hr|]. split; [exact Hl|]. split.
    + intros x Hx. apply Hown2; auto.
    + intros x [He|[]] Hx. destruct (owned r x) eqn:E; [|reflexivity]. exfalso. apply Hx. apply Hown2; auto.
  - cbn [rrun live_after]. destruct c as [ty o n|o|o n]; cbn [api_history] in Hh; cbn [rstep].
    + destruct Hh as [Hnew Hh].
      assert (Hnum : num_adds (RAdd ty o n :: cs) = S (num_adds cs)) by reflexivity. rewrite Hnum in Hsz.
      assert (Hno : ~ In o (objects r)) by (rewrite Hl; auto).
      destruct (rinv_add ty r o n Hr Hno ltac:(lia)) as (r1 & E & Hr1 & Ho1 & _ & How).
      rewrite E. cbn [obind].
      destruct (IH r1 (o :: ever) (o :: live)) as (r' & A & B & C & D & F); auto.
      * intros x. rewrite Ho1, in_app_iff, Hl. simpl. tauto.
      * intros x [->|Hx]; simpl; auto.
      * intros x Hx. rewrite How. apply Hown1. simpl in Hx. tauto.
      * intros x [->|Hx]; rewrite How.
        -- split; [simpl; auto|]. intros _. apply Hown1; auto.
        -- rewrite (Hown2 x Hx). simpl. split; [auto|]. intros [->|H]; [exfalso; auto|exact H].
      * rewrite Ho1, app_length. cbn [List.length]. lia.
      * exists r'. repeat (split; auto). intros x Hx. apply F. simpl in Hx |- *; tauto.
    + destruct (in_dec N.eq_dec o live) as [Hin|Hout].
      * assert (Ho : In o (objects r)) by (apply Hl, Hin).
        destruct (rinv_remove r o Hr Ho) as (r1 & E & Hr1 & Ho1 & _ & Hof & How).
        rewrite E. cbn [obind].
        destruct (IH r1 ever (List.remove N.eq_dec o live)) as (r' & A & B & C & D & F); auto.
        -- intros x. rewrite Ho1, Hl. split.
           ++ intros [X Y]. apply in_in_remove; auto.
           ++ intros X. apply in_remove in X. exact X.
        -- intros x Hx. apply in_remove in Hx. apply Hle. tauto.
        -- intros x Hx. rewrite How; [apply Hown1, Hx|]. intros ->. auto.
        -- intros x Hx. destruct (N.eq_dec x o) as [->|Hne].
           ++ rewrite Hof. split; [discriminate|]. intros X. apply in_remove in X. tauto.
           ++ rewrite (How x Hne), (Hown2 x Hx). split.
              ** intros X. apply in_in_remove; auto.
              ** intros X. apply in_remove in X. tauto.
        -- change (num_adds (RRemove o :: cs)) with (num_adds cs) in Hsz.
           assert (List.length (objects r1) <= List.length (objects r))%nat; [|lia].
           apply NoDup_incl_length; [apply ri_nodup_obj, Hr1|]. intros x Hx. apply Ho1 in Hx. tauto.
        -- exists r'. repeat (split; auto).
      * assert (E : remove r o = Throws).
        { unfold remove. destruct (existsb (N.eqb o) (objects r)) eqn:X; [|reflexivity].
          apply existsb_in in X. apply Hl in X. tauto. }
        rewrite E. cbn [obind].
        assert (El : List.remove N.eq_dec o live = live) by (apply notin_remove, Hout).
        rewrite El in *. apply IH with (ever := ever); auto.
    + destruct Hh as [Hin Hh]. assert (Ho : In o (objects r)) by (apply Hl, Hin).
      change (num_adds (RRename o n :: cs)) with (num_adds cs) in Hsz.
      destruct (rinv_rename r o n Hr Ho ltac:(lia)) as (r1 & E & Hr1 & Ho1 & _ & How).
      rewrite E. cbn [obind]. apply IH with (ever := ever); auto.
      -- intros x. rewrite Ho1. apply Hl.
      -- rewrite How. exact Hown1.
      -- rewrite How. exact Hown2.
      -- rewrite Ho1. exact Hsz.
Qed.

Lemma rrun_reach cs :
  api_history [] [] cs -> (N.of_nat (num_adds cs) < int_max - 1)%N ->
  exists r, rrun empty_registry cs = Ok r /\ rinv r /\ (forall x, In x (objects r) <-> In x (live_after [] cs)) /\
    (forall x, In x (live_after [] cs) -> owned r x = true) /\
    (forall x, In x (added cs) -> ~ In x (live_after [] cs) -> owned r x = false).
Proof.
  intros Hh Hsz.
  destruct (rrun_inv cs empty_registry [] [] rinv_empty) as (r & A & B & C & D & E); cbn; auto; try tauto.
  exists r. repeat (split; auto).
Qed.

(* the registry never holds more objects than were added *)
Lemma live_after_bound cs : forall live,
  (List.length (live_after live cs) <= List.length live + num_adds cs)%nat.
Proof.
  induction cs as [|c cs IH]; intros live; cbn [live_after]; [lia|].
  destruct c as [ty o n|o|o n].
  - etransitivity; [apply IH|]. unfold num_adds. cbn [filter List.length]. lia.
  - etransitivity; [apply IH|]. unfold num_adds. cbn [filter].
    pose proof (remove_length_le N.eq_dec live o) as Hrl. unfold obj in *. lia.
  - etransitivity; [apply IH|]. unfold num_adds. cbn [filter]. lia.
Qed.

Lemma rinv_size cs r :
  rinv r -> (forall x, In x (objects r) <-> In x (live_after [] cs)) ->
  (List.length (objects r) <= num_adds cs)%nat.
Proof.
  intros Hr Hl. pose proof (live_after_bound cs []) as H. cbn [List.length] in H.
  assert (List.length (objects r) <= List.length (live_after [] cs))%nat; [|lia].
  apply NoDup_incl_length; [apply ri_nodup_obj, Hr|]. intros x Hx. apply Hl, Hx.
Qed.

Lemma taken_contains r n : rinv r -> (name_taken r n <-> contains n (names r) = true).
Proof.
  intros [H1 H2 H3]. rewrite contains_in, in_map_iff. split.
  - intros (o & Ho & E). exists (n, o). split; [reflexivity|]. apply H3. auto.
  - intros ([n' o] & E & Hin). simpl in E. subst. apply H3 in Hin. exists o. auto.
Qed.

Lemma add_name_spec ty r o n :
  rinv r -> ~ In o (objects r) -> (N.of_nat (List.length (objects r)) < int_max - 1)%N -> n <> EmptyString ->
  exists r', add ty r o n = Ok r' /\
    ((~ name_taken r n /\ name_of r' o = n) \/
     (name_taken r n /\ exists k, (1 <= k)%N /\ name_of r' o = (n ++ "_" ++ dec k)%string /\
        ~ name_taken r (n ++ "_" ++ dec k)%string /\
        forall i, (1 <= i)%N -> (i < k)%N -> name_taken r (n ++ "_" ++ dec i)%string)).
Proof.
  intros Hr Hnew Hsz Hne. unfold add.
  destruct (String.eqb_spec n "") as [E|_]; [congruence|].
  rewrite <- (rinv_names_length r Hr) in Hsz.
  destruct (make_unique_spec (names r) n Hsz) as [[A B]|(A & k & B & C & D & F)]; rewrite B; cbn [obind];
    eexists; (split; [reflexivity|]); cbn [name_of]; rewrite fupd_eq.
  - left. split; [|reflexivity]. rewrite (taken_contains r n Hr). congruence.
  - right. split; [apply taken_contains; auto|]. exists k. split; [exact C|]. split; [reflexivity|].
    split.
    + rewrite (taken_contains r _ Hr). unfold cand in D. congruence.
    + intros i H1 H2. apply taken_contains; [exact Hr|]. apply (F i H1 H2).
Qed.

Lemma add_default_name ty r o :
  rinv r -> (N.of_nat (List.length (objects r)) < int_max - 1)%N ->
  ~ name_taken r (ty ++ "." ++ dec o)%string ->
  exists r', add ty r o "" = Ok r' /\ name_of r' o = (ty ++ "." ++ dec o)%string.
Proof.
  intros Hr Hsz Hfree. unfold add. cbn [String.eqb].
  rewrite <- (rinv_names_length r Hr) in Hsz.
  rewrite (taken_contains r _ Hr) in Hfree. apply not_true_is_false in Hfree.
  unfold make_unique_name. rewrite Hfree. cbn [obind]. eexists. split; [reflexivity|]. cbn. apply fupd_eq.
Qed.

Lemma rename_own r o :
  rinv r -> In o (objects r) -> (N.of_nat (List.length (objects r)) < int_max - 1)%N ->
  exists r' k, set_name r o (name_of r o) = Ok r' /\ (1 <= k)%N /\
    name_of r' o = (name_of r o ++ "_" ++ dec k)%string /\ lookup r' (name_of r o) = Throws.
Proof.
  intros Hr Ho Hsz. unfold set_name.
  rewrite <- (rinv_names_length r Hr) in Hsz.
  assert (Ht : contains (name_of r o) (names r) = true) by (apply taken_contains; [exact Hr|exists o; auto]).
  destruct (make_unique_spec (names r) (name_of r o) Hsz) as [[A B]|(A & k & B & C & D & F)]; [congruence|].
  rewrite B. cbn [obind].
  destruct (String.eqb_spec (cand (name_of r o) k) (name_of r o)) as [E|E]; [congruence|].
  eexists _, k. split; [reflexivity|]. split; [exact C|]. cbn [name_of]. rewrite fupd_eq.
  split; [reflexivity|].
  unfold lookup. cbn [names]. unfold insert. cbn [find].
  destruct (String.eqb_spec (name_of r o) (cand (name_of r o) k)) as [E2|_]; [congruence|].
  destruct (find (name_of r o) _) as [x|] eqn:Ef; [|reflexivity].
  apply find_in in Ef. apply erase_in in Ef. destruct Ef as [Ef _]. apply erase_in in Ef. simpl in Ef. tauto.
Qed.

Lemma rename_free r o n :
  rinv r -> In o (objects r) -> (N.of_nat (List.length (objects r)) < int_max - 1)%N ->
  ~ name_taken r n ->
  exists r', set_name r o n = Ok r' /\ name_of r' o = n /\ lookup r' n = Ok o /\
    lookup r' (name_of r o) = Throws /\
    forall x, In x (objects r) -> x <> o -> name_of r' x = name_of r x /\ lookup r' (name_of r x) = Ok x.
Proof.
  intros Hr Ho Hsz Hfree.
  destruct (rinv_rename r o n Hr Ho Hsz) as (r' & E & Hr' & Ho' & Hn' & _).
  assert (Hname : name_of r' o = n).
  { unfold set_name, make_unique_name in E.
    assert (F : contains n (names r) = false) by (apply not_true_is_false; rewrite <- (taken_contains r n Hr); exact Hfree).
    rewrite F in E. cbn [obind] in E. destruct (String.eqb_spec n (name_of r o)) as [X|X].
    - exfalso. apply Hfree. exists o. auto.
    - inversion E; subst r'. cbn. apply fupd_eq. }
  destruct (rinv_lookup r' Hr') as (L1 & L2 & L3).
  exists r'. split; [exact E|]. split; [exact Hname|]. split; [|split].
  - rewrite <- Hname. apply L1. rewrite Ho'. exact Ho.
  - apply L2. intros x Hx. rewrite Ho' in Hx. destruct (N.eq_dec x o) as [->|Hne].
    + rewrite Hname. intros X. apply Hfree. exists o. auto.
    + rewrite (Hn' x Hne). intros X. apply Hne. eapply (rinv_lookup r Hr); eauto.
  - intros x Hx Hne. split; [apply Hn', Hne|]. rewrite <- (Hn' x Hne). apply L1. rewrite Ho'. exact Hx.
Qed.
