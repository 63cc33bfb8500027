(* Theorems about the scene graph: C08-C11, C73-C76. *)
From Verif Require Import Common RegistryModel SceneModel SceneSpec SceneProofs SceneViewProofs SceneCollectProofs.

(** C08: deleting a child *)
(* full claim, false: new_child and new_instance never register the node that delete_child wants to unregister, so in
   every scene built through the API deleting any child throws and the child stays *)
Theorem C08_refuted : forall s p c, reachable s -> in_graph s p -> child_of s p c ->
  sstep s (DeleteChild p c) = (s, Throws).
Proof.
  intros s p c R B (n & G & I). pose proof (reachable_wf s R) as W. destruct (in_graph_owned s W p B) as (np & GP & SP). rewrite G in GP. injection GP as <-.
  destruct (wf_child _ W _ _ _ G I) as (_ & nc & GC & _). cbn. rewrite (delete_child_throws s p c n nc W G SP GC). cbn. destruct (user_frame s p && user_node s c); auto.
Qed.
(* what does hold, in any graph where children are listed once: a call that returns removed exactly that child (and no
   other edge); a node of another parent is rejected and nothing changes *)
Theorem C08_delete_child_partial : forall s p c, (forall i n, get s i = Some n -> NoDup (n_children n)) -> child_of s p c ->
  match delete_child s p c with
  | Ok s' => ~ child_of s' p c /\ (forall i x, child_of s' i x <-> child_of s i x /\ ~ (i = p /\ x = c))
  | Throws => True
  | UB => exists n, get s p = Some n /\ n_scene n = false
  end.
Proof.
  intros s p c ND CO. destruct (delete_child s p c) as [s'| |] eqn:E; auto.
  - destruct CO as (np & GP & I). destruct (delete_child_ok s p c s' ND E) as (S & N & R & K); [eauto|]. split; auto. intros i x. split.
    + intros (n' & G & IX). destruct (shrinks_get _ _ _ _ S G) as (n & G0 & _ & J). split; [exists n; auto|]. intros (-> & ->). apply R. exists n'. auto.
    + intros (C & NE). auto.
  - unfold delete_child in E. destruct (get s p) as [np|]; [|discriminate]. destruct (get s c) as [nc|]; [|discriminate]. destruct (n_parent nc); [|discriminate]. destruct (Nat.eqb _ _); [|discriminate].
    destruct (existsb _ _); [|discriminate]. destruct (n_scene np) eqn:S; [|eauto]. unfold remove in E. destruct (existsb (N.eqb _) _); cbn in E; discriminate.
Qed.
Theorem C08_other_parent_partial : forall s p c, reachable s -> in_graph s p -> ~ child_of s p c -> sstep s (DeleteChild p c) = (s, Throws).
Proof.
  intros s p c R B NC. pose proof (reachable_wf s R) as W. destruct (in_graph_owned s W p B) as (np & GP & SP). cbn.
  destruct (user_frame s p && user_node s c) eqn:U; auto. apply andb_true_iff in U. destruct U as (_ & U). unfold user_node in U. destruct (get s c) as [nc|] eqn:GC; [|discriminate].
  rewrite (delete_child_throws s p c np nc W GP SP GC). auto.
Qed.
Print Assumptions C08_refuted.
Print Assumptions C08_delete_child_partial.
Print Assumptions C08_other_parent_partial.
Example C08_example : let s := srun [NewFrame 0; NewFrame 1] new_scene in child_of s 0 1 /\ child_of s 1 2 /\ in_graph s 1 /\ sstep s (DeleteChild 1 2) = (s, Throws).
Proof.
  cbn zeta. split; [eexists; split; [reflexivity|left; auto]|]. split; [eexists; split; [reflexivity|left; auto]|]. split; [|reflexivity].
  eapply below_child; [constructor; eexists; reflexivity|eexists; split; [reflexivity|left; auto]|eexists; reflexivity].
Qed.
(* a graph whose child is registered: delete_child removes it *)
Example C08_registered : let s := srun [NewFrame 0; NewFrame 0] new_scene in
  match add "FrameNode" (sc_nreg s) 1%N "a" with
  | Ok r => match delete_child (w_nreg r s) 0 1 with Ok s' => option_map n_children (get s' 0) = Some [2%nat] | _ => False end
  | _ => False end.
Proof. reflexivity. Qed.

(** C09: deleting assets *)
(* a deletion that returns leaves no node of the scene graph referring to the asset, and the asset is gone; one that
   throws changes nothing *)
Theorem C09_primitive_partial : forall s i s' r, reachable s -> sstep s (DeletePrimitive i) = (s', r) ->
  (r = Ok tt -> has_prim s' i = false /\ (forall j, in_graph s' j -> ~ refers s' j (APrim i)) /\ (forall j, j <> i -> has_prim s' j = has_prim s j)) /\ (r <> Ok tt -> s' = s) /\ r <> UB.
Proof.
  intros s i s' r R. pose proof (reachable_wf s R) as W. cbn. destruct (has_prim s i) eqn:HP; [|intros [= <- <-]; split; [discriminate|split; [auto|discriminate]]].
  unfold delete_primitive. destruct (prune_root_ok s (APrim i) W) as (q & -> & NU & CL). destruct q as [[]| |]; [|intros [= <- <-]; split; [discriminate|split; [auto|discriminate]]|congruence].
  rewrite HP. intros [= <- <-]. split; [|split; [congruence|discriminate]]. intros _. split; [|split].
  - unfold has_prim. cbn. destruct (existsb _ _) eqn:E; auto. apply existsb_exists in E. destruct E as (x & I & E). apply filter_In in I. destruct I as (_ & I). rewrite E in I. discriminate.
  - intros j B. apply (CL eq_refl j). unfold in_graph in *. clear -B. induction B as [X|q c B IH CO X]; [constructor; exact X|econstructor; [exact IH|exact CO|exact X]].
  - intros j NE. unfold has_prim. cbn. induction (sc_prims s) as [|x l IH]; cbn; auto. destruct (Nat.eqb_spec (fst x) i) as [E|E]; cbn; rewrite IH; auto. destruct (Nat.eqb_spec (fst x) j) as [E2|E2]; auto. congruence.
Qed.
Theorem C09_other_partial : forall s a s' r, reachable s -> sstep s (DeleteOther a) = (s', r) ->
  (r = Ok tt -> existsb (asset_eqb a) (sc_others s') = false /\ (forall j, in_graph s' j -> ~ refers s' j a)) /\ (r <> Ok tt -> s' = s) /\ r <> UB.
Proof.
  intros s a s' r R. pose proof (reachable_wf s R) as W. cbn. destruct (existsb (asset_eqb a) (sc_others s)) eqn:HP; [|intros [= <- <-]; split; [discriminate|split; [auto|discriminate]]].
  unfold delete_other. destruct (prune_root_ok s a W) as (q & -> & NU & CL). destruct q as [[]| |]; [|intros [= <- <-]; split; [discriminate|split; [auto|discriminate]]|congruence].
  rewrite HP. intros [= <- <-]. split; [|split; [congruence|discriminate]]. intros _. split.
  - cbn. destruct (existsb (asset_eqb a) (filter _ _)) eqn:E; auto. apply existsb_exists in E. destruct E as (x & I & E). apply filter_In in I. destruct I as (_ & I). rewrite E in I. discriminate.
  - intros j B. apply (CL eq_refl j). unfold in_graph in *. clear -B. induction B as [X|q c B IH CO X]; [constructor; exact X|econstructor; [exact IH|exact CO|exact X]].
Qed.
Lemma delete_all_ok ps : forall s, wf s -> snd (delete_all s ps) = Ok tt ->
  (forall i, In i ps -> has_prim (fst (delete_all s ps)) i = false) /\ incl (sc_prims (fst (delete_all s ps))) (sc_prims s) /\ sc_nodes (fst (delete_all s ps)) = sc_nodes s
  /\ (forall i j, In i ps -> in_graph s j -> ~ refers s j (APrim i)).
Proof.
  induction ps as [|i ps IH]; cbn; intros s W H; [split; [intros i []|]; split; [apply incl_refl|split; auto]|].
  pose proof (delete_primitive_wf s i W) as (W1 & _). pose proof (delete_primitive_nodes s i W) as NN. unfold delete_primitive in *. destruct (prune_root_ok s (APrim i) W) as (q & Q & NU & CL). rewrite Q in *.
  destruct q as [[]| |]; try discriminate. destruct (has_prim s i) eqn:HP; [|discriminate]. cbn in W1, NN. destruct (IH _ W1 H) as (A & B & C & D). cbn in B, C. split; [|split; [|split]].
  - intros j [<-|I]; auto. unfold has_prim. destruct (existsb _ _) eqn:E; auto. apply existsb_exists in E. destruct E as (x & IX & E). apply B in IX. apply filter_In in IX. destruct IX as (_ & IX). rewrite E in IX. discriminate.
  - intros x IX. apply B in IX. apply filter_In in IX. tauto.
  - exact C.
  - intros k j [<-|I] BJ; [apply (CL eq_refl j); auto|]. apply (D k j I). unfold in_graph in *. clear -BJ. induction BJ as [X|q c B IH CO X]; [constructor; exact X|econstructor; [exact IH|exact CO|exact X]].
Qed.
(* deleting a geometry: when it returns, no primitive uses it and no node of the scene graph refers to a primitive that did *)
Theorem C09_geometry_partial : forall s g s', reachable s -> sstep s (DeleteGeometry g) = (s', Ok tt) ->
  ~ In g (sc_geoms s') /\ (forall i, ~ In (i, g) (sc_prims s')) /\ (forall i j, In (i, g) (sc_prims s) -> in_graph s' j -> ~ refers s' j (APrim i)).
Proof.
  intros s g s' R. pose proof (reachable_wf s R) as W. cbn. destruct (existsb (Nat.eqb g) (sc_geoms s)) eqn:HG; [|discriminate]. unfold delete_geometry. set (ps := map fst (filter (fun x => Nat.eqb (snd x) g) (sc_prims s))).
  destruct (delete_all s ps) as (s1 & [[]| |]) eqn:DA; try discriminate. destruct (delete_all_ok ps s W) as (A & B & C & D); [rewrite DA; reflexivity|]. rewrite DA in A, B, C. cbn in A, B, C.
  assert (INP : forall i, In (i, g) (sc_prims s) -> In i ps). { intros i I. unfold ps. apply in_map_iff. exists (i, g). split; auto. apply filter_In. split; auto. cbn. apply Nat.eqb_refl. }
  destruct (existsb (Nat.eqb g) (sc_geoms s1)); [|discriminate]. intros [= <-]. cbn. split; [|split].
  - intros I. apply filter_In in I. destruct I as (_ & I). rewrite Nat.eqb_refl in I. discriminate.
  - intros i I. pose proof (A i (INP i (B _ I))) as X. assert (Y : has_prim s1 i = true) by (apply existsb_exists; exists (i, g); split; auto; cbn; apply Nat.eqb_refl). congruence.
  - intros i j I BJ RF. apply (D i j (INP i I)).
    + unfold in_graph in *. assert (E : forall k, get (w_geoms (filter (fun x => negb (Nat.eqb g x)) (sc_geoms s1)) s1) k = get s k) by (intros k; unfold get; cbn; rewrite C; auto).
      clear -BJ E. induction BJ as [(n & X)|q c B IH (n & G & IC) (nc & X)]; [constructor; exists n; rewrite <- E; auto|]. econstructor; [exact IH|exists n; rewrite <- E; auto|exists nc; rewrite <- E; auto].
    + destruct RF as (n & G & A0). exists n. split; auto. unfold get in *. cbn in G. rewrite C in G. auto.
Qed.
(* the pruning itself, in any graph whose children are listed once: when it returns, no child of a node of the graph refers to the asset *)
Theorem C09_prune_partial : forall s t s', (forall i n, get s i = Some n -> NoDup (n_children n)) -> prune_root t s = (s', Ok tt) ->
  forall p c, in_graph s' p -> child_of s' p c -> ~ refers s' c t.
Proof.
  intros s t s' ND H p c B CO (nc & G & A). destruct (prune_clean t _ s 0 s' ND H) as (_ & _ & C). exact (C p B c nc CO G A).
Qed.
(* full claim, false: model graphs are not pruned. Deleting the primitive of a loaded model returns, and the next view of
   a scene with an instance of that model dereferences the deleted primitive *)
Theorem C09_refuted_model : exists s i s', reachable s /\ sstep s (DeletePrimitive i) = (s', Ok tt) /\ (exists v, collect s = Ok v) /\ collect s' = UB.
Proof.
  exists (srun [LoadModel 1 [0%nat] []; NewInstance 0 (AModel 0)] new_scene), 2%nat, (fst (sstep (srun [LoadModel 1 [0%nat] []; NewInstance 0 (AModel 0)] new_scene) (DeletePrimitive 2))).
  split; [exists [LoadModel 1 [0%nat] []; NewInstance 0 (AModel 0)]; reflexivity|]. split; [vm_compute; reflexivity|].
  split; [exists (View [(2%nat, [[0; 3; 1; 2]%nat])] [] []); vm_compute; reflexivity|vm_compute; reflexivity].
Qed.
(* full claim, false: delete_geometry that throws may have deleted some of the primitives *)
Theorem C09_refuted_geometry_atomic : exists s g s', reachable s /\ sstep s (DeleteGeometry g) = (s', Throws) /\ List.length (sc_prims s') <> List.length (sc_prims s).
Proof.
  exists (srun [AddGeometry; AddPrimitive 0; AddPrimitive 0; NewInstance 0 (APrim 2)] new_scene), 0%nat, (fst (sstep (srun [AddGeometry; AddPrimitive 0; AddPrimitive 0; NewInstance 0 (APrim 2)] new_scene) (DeleteGeometry 0))).
  split; [exists [AddGeometry; AddPrimitive 0; AddPrimitive 0; NewInstance 0 (APrim 2)]; reflexivity|].
  split; [vm_compute; reflexivity|vm_compute; discriminate].
Qed.
(* and since delete_child always throws (C08), an asset that any node of the scene graph uses cannot be deleted *)
Theorem C09_refuted_used : forall s i j, reachable s -> in_graph s j -> refers s j (APrim i) -> sstep s (DeletePrimitive i) = (s, Throws).
Proof.
  intros s i j R B RF. pose proof (reachable_wf s R) as W. cbn. destruct (has_prim s i) eqn:HP; auto. unfold delete_primitive. destruct (prune_root_ok s (APrim i) W) as (q & -> & NU & CL).
  destruct q as [[]| |]; auto; [|congruence]. exfalso. apply (CL eq_refl j B RF).
Qed.
Print Assumptions C09_primitive_partial.
Print Assumptions C09_other_partial.
Print Assumptions C09_geometry_partial.
Print Assumptions C09_prune_partial.
Print Assumptions C09_refuted_model.
Print Assumptions C09_refuted_geometry_atomic.
Print Assumptions C09_refuted_used.
Example C09_example : let s := srun [AddGeometry; AddPrimitive 0; AddLight; AddPrimitive 0; NewInstance 0 (APrim 3); NewInstance 0 (ALight 2)] new_scene in
  snd (sstep s (DeletePrimitive 1)) = Ok tt /\ snd (sstep s (DeletePrimitive 3)) = Throws /\ snd (sstep s (DeleteOther (ALight 2))) = Throws.
Proof. repeat split. Qed.
Example C09_geometry_example : let s := srun [AddGeometry; AddPrimitive 0; AddPrimitive 0] new_scene in snd (sstep s (DeleteGeometry 0)) = Ok tt /\ sc_prims (fst (sstep s (DeleteGeometry 0))) = [].
Proof. repeat split. Qed.

(** C10: SPICE nodes *)
(* without callbacks: after any history a SPICE node hangs under a SPICE node *)
Theorem C10_spice_parent_partial : forall ops s p c, (forall i x, In (NodeOp i x) ops -> ~ is_callback x) -> s = srun ops new_scene ->
  in_graph s p -> child_of s p c -> (pmode s c = Some Spice -> pmode s p = Some Spice) /\ (rmode s c = Some Spice -> rmode s p = Some Spice).
Proof.
  intros ops s p c NC -> B (np & GP & I). pose proof (modes_run ops NC) as M. pose proof (srun_wf ops _ wf_new) as W. destruct (in_graph_owned _ W p B) as (np' & GP' & SP). rewrite GP in GP'. injection GP' as <-.
  destruct (wf_child _ W _ _ _ GP I) as (_ & nc & GC & _). destruct (M p np c nc GP SP I GC) as (M1 & M2). unfold pmode, rmode. rewrite GP, GC. cbn. split; intros [= E]; f_equal; auto.
Qed.
(* with any calls, while the root's mode is left alone: every node of the scene can be resolved *)
Theorem C10_resolves_partial : forall ops s i, (forall x, In (NodeOp 0 x) ops -> exists v, x = SetScale v) -> s = srun ops new_scene -> in_graph s i -> exists l, ssb_transform s i = Ok l.
Proof.
  intros ops s i NR -> B. pose proof (srun_wf ops _ wf_new) as W. destruct (in_graph_owned _ W i B) as (n & G & S0). unfold ssb_transform. eapply ssb_ok; eauto; [apply cb_run|apply root_spice_run; auto|]. pose proof (get_lt _ _ _ G). lia.
Qed.
(* full claim, false: a callback may be set on the parent of a SPICE node, for every parent and child *)
Theorem C10_refuted_callback : forall s p c k, reachable s -> in_graph s p -> child_of s p c -> pmode s c = Some Spice ->
  exists s', sstep s (NodeOp p (SetPosCallback k)) = (s', Ok tt) /\ child_of s' p c /\ pmode s' c = Some Spice /\ pmode s' p <> Some Spice.
Proof.
  intros s p c k R B (np & GP & I) M. pose proof (reachable_wf s R) as W. destruct (in_graph_owned s W p B) as (n & G & SP). rewrite GP in G. injection G as <-. cbn. rewrite GP, SP. cbn.
  destruct (wf_child _ W _ _ _ GP I) as (L & _). eexists. split; [reflexivity|]. unfold child_of, pmode in *. rewrite !(get_put s p _ _ np GP). rewrite Nat.eqb_refl.
  destruct (Nat.eqb_spec p c) as [E|NE]; [lia|]. split; [eexists; split; [reflexivity|exact I]|]. split; [exact M|]. cbn. discriminate.
Qed.
(* full claim, false: the root handle got from get_parent takes set_position once no child is driven by SPICE, and then no such child resolves *)
Theorem C10_refuted_root : exists s i, reachable s /\ in_graph s i /\ get_parent s i = Ok 0%nat /\ ssb_transform s i = Throws.
Proof.
  exists (srun [NewFrame 0; NodeOp 0 (SetPosition (0, 0, 0)%Z)] new_scene), 1%nat. split; [eexists; reflexivity|]. split; [|split; reflexivity].
  eapply below_child; [constructor; eexists; reflexivity|eexists; split; [reflexivity|left; auto]|eexists; reflexivity].
Qed.
Print Assumptions C10_spice_parent_partial.
Print Assumptions C10_resolves_partial.
Print Assumptions C10_refuted_callback.
Print Assumptions C10_refuted_root.
Example C10_example : let s := srun [NewFrame 0; NodeOp 1 (SetSpice "EARTH" "J2000"); NewFrame 1; NodeOp 2 (SetOrigin "MOON"); NodeOp 2 (SetRotCallback 7); NewFrame 2] new_scene in
  ssb_transform s 3 = Ok [(FromManual (0, 0, 0) (0, 0, 0), RFromManual (0, 0, 0, 1) (0, 0, 0) false); (FromSpice "MOON", RFromCallback 7); (FromSpice "EARTH", RFromSpice "J2000")]%Z
  /\ snd (sstep s (NodeOp 1 (SetPosition (0, 0, 0)%Z))) = Throws /\ snd (sstep s (NodeOp 3 (SetFrame "X"))) = Throws.
Proof. repeat split. Qed.

(** C11: getters and setters *)
(* the setters that determine each quantity *)
Definition sets_position (o : nop) := match o with SetPosition _ | SetManual _ _ _ _ _ | SetOrigin _ | SetSpice _ _ | SetPosCallback _ | SetStateCallback _ => True | _ => False end.
Definition sets_velocity (o : nop) := match o with SetVelocity _ | SetManual _ _ _ _ _ => True | _ => False end.
Definition sets_scale (o : nop) := match o with SetScale _ | SetManual _ _ _ _ _ => True | _ => False end.
Definition sets_rotation (o : nop) := match o with SetRotation _ | SetManual _ _ _ _ _ | SetFrame _ | SetSpice _ _ | SetRotCallback _ | SetStateCallback _ => True | _ => False end.
Definition sets_angular (o : nop) := match o with SetAngular _ | SetAngularUnits _ | SetBodyAngular _ | SetManual _ _ _ _ _ => True | _ => False end.
Ltac pres := let H := fresh in let N := fresh in intros ? ? o ? N H; destruct o; cbn in N, H; try tauto;
  repeat match type of H with (if ?b then _ else _) = _ => destruct b eqn:? end; try discriminate; injection H as <-; reflexivity.
Ltac sets := let H := fresh in intros ? ? H; cbn in H; repeat match type of H with (if ?b then _ else _) = _ => destruct b eqn:? end; try discriminate; injection H as <-; reflexivity.
(* a successful set_position is what get_position returns until some other call on that node replaces the position, whatever
   else is done to the scene or the node in between *)
Theorem C11_position_partial : forall s i v ops, reachable s -> snd (sstep s (NodeOp i (SetPosition v))) = Ok tt ->
  (forall x, In (NodeOp i x) ops -> ~ sets_position x) -> exists n, get (srun ops (fst (sstep s (NodeOp i (SetPosition v))))) i = Some n /\ get_position n = Ok v.
Proof.
  intros s i v ops R H N. destruct (set_then (fun n => (n_pmode n, n_pos n)) sets_position (Manual, v) s i (SetPosition v) ops) as (n & G & _ & E); auto; [pres|apply reachable_wf; auto|sets|].
  exists n. split; auto. injection E as E1 E2. unfold get_position. rewrite E1, E2. reflexivity.
Qed.
Theorem C11_scale_partial : forall s i v ops, reachable s -> snd (sstep s (NodeOp i (SetScale v))) = Ok tt ->
  (forall x, In (NodeOp i x) ops -> ~ sets_scale x) -> exists n, get (srun ops (fst (sstep s (NodeOp i (SetScale v))))) i = Some n /\ get_scale n = Ok v.
Proof.
  intros s i v ops R H N. destruct (set_then n_scale sets_scale v s i (SetScale v) ops) as (n & G & _ & E); auto; [pres|apply reachable_wf; auto|sets|].
  exists n. split; auto. unfold get_scale. rewrite E. reflexivity.
Qed.
(* the velocity of a node whose position is static *)
Theorem C11_velocity_partial : forall s i v ops, reachable s -> snd (sstep s (NodeOp i (SetVelocity v))) = Ok tt ->
  (forall x, In (NodeOp i x) ops -> ~ sets_velocity x) ->
  exists n, get (srun ops (fst (sstep s (NodeOp i (SetVelocity v))))) i = Some n /\ (n_pmode n = Manual -> get_velocity n = Ok v).
Proof.
  intros s i v ops R H N. destruct (set_then n_vel sets_velocity v s i (SetVelocity v) ops) as (n & G & _ & E); auto; [pres|apply reachable_wf; auto|sets|].
  exists n. split; auto. unfold get_velocity. intros ->. rewrite E. reflexivity.
Qed.
Theorem C11_origin_partial : forall s i o ops, reachable s -> snd (sstep s (NodeOp i (SetOrigin o))) = Ok tt ->
  (forall x, In (NodeOp i x) ops -> ~ sets_position x) -> exists n, get (srun ops (fst (sstep s (NodeOp i (SetOrigin o))))) i = Some n /\ get_origin n = Ok o.
Proof.
  intros s i v ops R H N. destruct (set_then (fun n => (n_pmode n, n_origin n)) sets_position (Spice, v) s i (SetOrigin v) ops) as (n & G & _ & E); auto; [pres|apply reachable_wf; auto|sets|].
  exists n. split; auto. injection E as E1 E2. unfold get_origin. rewrite E1, E2. reflexivity.
Qed.
(* rotation, angular velocity and frame: only while the position has the matching mode, and otherwise never *)
Theorem C11_rotation_partial : forall s i q ops, reachable s -> snd (sstep s (NodeOp i (SetRotation q))) = Ok tt ->
  (forall x, In (NodeOp i x) ops -> ~ sets_rotation x) -> exists n, get (srun ops (fst (sstep s (NodeOp i (SetRotation q))))) i = Some n /\
  get_rotation n = if tmode_eqb (n_pmode n) Manual then Ok q else Throws.
Proof.
  intros s i v ops R H N. destruct (set_then n_rot sets_rotation v s i (SetRotation v) ops) as (n & G & _ & E); auto; [pres|apply reachable_wf; auto|sets|].
  exists n. split; auto. unfold get_rotation. rewrite E. reflexivity.
Qed.
Theorem C11_angular_partial : forall s i v ops, reachable s -> snd (sstep s (NodeOp i (SetAngular v))) = Ok tt ->
  (forall x, In (NodeOp i x) ops -> ~ sets_angular x) -> exists n, get (srun ops (fst (sstep s (NodeOp i (SetAngular v))))) i = Some n /\
  get_angular n = if tmode_eqb (n_pmode n) Manual then Ok v else Throws.
Proof.
  intros s i v ops R H N. destruct (set_then n_ang sets_angular v s i (SetAngular v) ops) as (n & G & _ & E); auto; [pres|apply reachable_wf; auto|sets|].
  exists n. split; auto. unfold get_angular. rewrite E. reflexivity.
Qed.
Theorem C11_frame_partial : forall s i f ops, reachable s -> snd (sstep s (NodeOp i (SetFrame f))) = Ok tt ->
  (forall x, In (NodeOp i x) ops -> ~ sets_rotation x) -> exists n, get (srun ops (fst (sstep s (NodeOp i (SetFrame f))))) i = Some n /\
  get_frame n = if tmode_eqb (n_pmode n) Spice then Ok f else Throws.
Proof.
  intros s i v ops R H N. destruct (set_then n_frame sets_rotation v s i (SetFrame v) ops) as (n & G & _ & E); auto; [pres|apply reachable_wf; auto|sets|].
  exists n. split; auto. unfold get_frame. rewrite E. reflexivity.
Qed.
(* full claim, false in every state where the position is not static: the rotation just set cannot be read back *)
Theorem C11_refuted_rotation : forall s i q, reachable s -> pmode s i <> Some Manual -> snd (sstep s (NodeOp i (SetRotation q))) = Ok tt ->
  exists n, get (fst (sstep s (NodeOp i (SetRotation q)))) i = Some n /\ get_rotation n = Throws.
Proof.
  intros s i q R M H. destruct (setter_step _ _ _ H) as (n & n' & G & S & E & P & G' & S'). rewrite P. exists n'. split; auto. cbn in E. destruct (rot_must s n); [discriminate|]. injection E as <-.
  unfold get_rotation. cbn. unfold pmode in M. rewrite G in M. cbn in M. destruct (tmode_eqb_spec (n_pmode n) Manual); congruence.
Qed.
(* full claim, false: a frame set on a node with a static position cannot be read back *)
Theorem C11_refuted_frame : forall s i f, reachable s -> pmode s i <> Some Spice -> snd (sstep s (NodeOp i (SetFrame f))) = Ok tt ->
  exists n, get (fst (sstep s (NodeOp i (SetFrame f)))) i = Some n /\ get_frame n = Throws.
Proof.
  intros s i q R M H. destruct (setter_step _ _ _ H) as (n & n' & G & S & E & P & G' & S'). rewrite P. exists n'. split; auto. cbn in E. destruct (rot_can s n); [|discriminate]. injection E as <-.
  unfold get_frame. cbn. unfold pmode in M. rewrite G in M. cbn in M. destruct (tmode_eqb_spec (n_pmode n) Spice); congruence.
Qed.
(* full claim, false: a rotation driven by SPICE or a callback is still reported as the static rotation that was set before *)
Theorem C11_refuted_stale : exists s i n q, reachable s /\ get s i = Some n /\ rmode s i = Some RotCallback /\ get_rotation n = Ok q.
Proof. exists (srun [NewFrame 0; NodeOp 1 (SetRotCallback 5)] new_scene), 1%nat. eexists. eexists. split; [eexists; reflexivity|]. repeat split. Qed.
Print Assumptions C11_position_partial.
Print Assumptions C11_scale_partial.
Print Assumptions C11_velocity_partial.
Print Assumptions C11_origin_partial.
Print Assumptions C11_rotation_partial.
Print Assumptions C11_angular_partial.
Print Assumptions C11_frame_partial.
Print Assumptions C11_refuted_rotation.
Print Assumptions C11_refuted_frame.
Print Assumptions C11_refuted_stale.
Example C11_example : let s := srun [NewFrame 0; NodeOp 1 (SetPosition (1, 2, 3)%Z); NodeOp 1 (SetRotation (1, 0, 0, 0)%Z); NodeOp 1 (SetVelocity (4, 5, 6)%Z); NewFrame 1; NodeOp 1 (SetScale (2, 2, 2)%Z)] new_scene in
  match get s 1 with Some n => get_position n = Ok (1, 2, 3)%Z /\ get_rotation n = Ok (1, 0, 0, 0)%Z /\ get_velocity n = Ok (4, 5, 6)%Z /\ get_scale n = Ok (2, 2, 2)%Z /\ get_frame n = Throws | None => False end.
Proof. repeat split. Qed.

(** C73: the last setter decides what the scene uses *)
Definition psrc (n : node) := match local_sources n with Ok (p, _) => Some p | _ => None end.
Definition rsrc (n : node) := match local_sources n with Ok (_, r) => Some r | _ => None end.
Lemma psrc_ok n : cb_node n -> match n_pmode n with
  | Manual => psrc n = Some (FromManual (n_pos n) (n_vel n)) | Spice => psrc n = Some (FromSpice (n_origin n))
  | PosCallback => psrc n = option_map FromCallback (n_pcb n) | StateCallback => n_rmode n = StateCallback -> psrc n = option_map FromState (n_scb n) | RotCallback => False end.
Proof.
  intros (A & B & C & D & E). unfold psrc, local_sources. destruct (n_pmode n) eqn:P, (n_rmode n) eqn:R; cbn; try (exfalso; congruence); try discriminate;
  try (destruct (n_pcb n) eqn:?; [|exfalso; solve [apply A; auto]]); try (destruct (n_rcb n) eqn:?; [|exfalso; solve [apply B; auto]]); try (destruct (n_scb n) eqn:?; [|exfalso; solve [apply C; auto]]); cbn; auto.
Qed.
Lemma rsrc_ok n : cb_node n -> match n_rmode n with
  | Manual => rsrc n = Some (RFromManual (n_rot n) (n_ang n) (n_body n)) | Spice => rsrc n = Some (RFromSpice (n_frame n))
  | RotCallback => rsrc n = option_map RFromCallback (n_rcb n) | StateCallback => n_pmode n = StateCallback -> rsrc n = option_map RFromState (n_scb n) | PosCallback => False end.
Proof.
  intros (A & B & C & D & E). unfold rsrc, local_sources. destruct (n_pmode n) eqn:P, (n_rmode n) eqn:R; cbn; try (exfalso; congruence); try discriminate;
  try (destruct (n_pcb n) eqn:?; [|exfalso; solve [apply A; auto]]); try (destruct (n_rcb n) eqn:?; [|exfalso; solve [apply B; auto]]); try (destruct (n_scb n) eqn:?; [|exfalso; solve [apply C; auto]]); cbn; auto.
Qed.
Lemma cb_reachable s : reachable s -> cb_ok s. Proof. intros (ops & ->). apply cb_run. Qed.
Lemma srun_app a b s : srun (a ++ b) s = srun b (srun a s). Proof. unfold srun. apply fold_left_app. Qed.
Lemma reach_run s o ops : reachable s -> reachable (srun ops (fst (sstep s o))).
Proof. intros (a & ->). exists (a ++ o :: ops). rewrite srun_app. reflexivity. Qed.
(* the position source each position setter selects *)
Theorem C73_position_partial : forall s i o ops, reachable s -> snd (sstep s (NodeOp i o)) = Ok tt ->
  (forall x, In (NodeOp i x) ops -> ~ sets_position x) -> exists n, get (srun ops (fst (sstep s (NodeOp i o)))) i = Some n /\
  match o with
  | SetPosition v => exists w, psrc n = Some (FromManual v w)
  | SetOrigin b | SetSpice b _ => psrc n = Some (FromSpice b)
  | SetPosCallback c => psrc n = Some (FromCallback c)
  | SetStateCallback c => (forall x, In (NodeOp i x) ops -> ~ sets_rotation x) -> psrc n = Some (FromState c)
  | _ => True
  end.
Proof.
  intros s i o ops R H N. pose proof (reachable_wf s R) as W. pose proof (cb_reachable _ (reach_run s (NodeOp i o) ops R)) as CB.
  assert (X : forall Y (f : node -> Y) val, (forall c n, f (w_children c n) = f n) -> (forall s n o n', ~ sets_position o -> setter s n o = Ok n' -> f n' = f n) -> (forall n n', setter s n o = Ok n' -> f n' = val) ->
     exists n, get (srun ops (fst (sstep s (NodeOp i o)))) i = Some n /\ cb_node n /\ f n = val).
  { intros Y f val F1 F2 F3. destruct (set_then f sets_position val s i o ops F1 F2 W H F3 N) as (n & G & S & E). exists n. split; auto. split; auto. eapply CB; eauto. }
  destruct o as [v|q|v|v|v|v|v|p v q a sc|b|f|b f|c|c|c].
  - destruct (X _ (fun n => (n_pmode n, n_pos n)) (Manual, v)) as (n & G & C & E); [auto|pres|sets|]. exists n. split; auto. injection E as E1 E2. pose proof (psrc_ok n C) as Z. rewrite E1 in Z. rewrite Z, E2. eauto.
  - destruct (X unit (fun n => tt) tt) as (n & G & _); auto. exists n. auto.
  - destruct (X unit (fun n => tt) tt) as (n & G & _); auto. exists n. auto.
  - destruct (X unit (fun n => tt) tt) as (n & G & _); auto. exists n. auto.
  - destruct (X unit (fun n => tt) tt) as (n & G & _); auto. exists n. auto.
  - destruct (X unit (fun n => tt) tt) as (n & G & _); auto. exists n. auto.
  - destruct (X unit (fun n => tt) tt) as (n & G & _); auto. exists n. auto.
  - destruct (X unit (fun n => tt) tt) as (n & G & _); auto. exists n. auto.
  - destruct (X _ (fun n => (n_pmode n, n_origin n)) (Spice, b)) as (n & G & C & E); [auto|pres|sets|]. exists n. split; auto. injection E as E1 E2. pose proof (psrc_ok n C) as Z. rewrite E1 in Z. rewrite Z, E2. auto.
  - destruct (X unit (fun n => tt) tt) as (n & G & _); auto. exists n. auto.
  - destruct (X _ (fun n => (n_pmode n, n_origin n)) (Spice, b)) as (n & G & C & E); [auto|pres|sets|]. exists n. split; auto. injection E as E1 E2. pose proof (psrc_ok n C) as Z. rewrite E1 in Z. rewrite Z, E2. auto.
  - destruct (X _ (fun n => (n_pmode n, n_pcb n)) (PosCallback, Some c)) as (n & G & C & E); [auto|pres|sets|]. exists n. split; auto. injection E as E1 E2. pose proof (psrc_ok n C) as Z. rewrite E1 in Z. rewrite Z, E2. auto.
  - destruct (X unit (fun n => tt) tt) as (n & G & _); auto. exists n. auto.
  - destruct (X _ (fun n => (n_pmode n, n_scb n)) (StateCallback, Some c)) as (n & G & C & E); [auto|pres|sets|]. exists n. split; auto. injection E as E1 E2. pose proof (psrc_ok n C) as Z. rewrite E1 in Z. intros NR.
    destruct (set_then (fun n => n_rmode n) sets_rotation StateCallback s i (SetStateCallback c) ops) as (m & GM & _ & EM); auto; [pres|sets|]. rewrite G in GM. injection GM as <-. rewrite Z, E2; auto.
Qed.
Theorem C73_rotation_partial : forall s i o ops, reachable s -> snd (sstep s (NodeOp i o)) = Ok tt ->
  (forall x, In (NodeOp i x) ops -> ~ sets_rotation x) -> exists n, get (srun ops (fst (sstep s (NodeOp i o)))) i = Some n /\
  match o with
  | SetRotation q => exists w b, rsrc n = Some (RFromManual q w b)
  | SetFrame f | SetSpice _ f => rsrc n = Some (RFromSpice f)
  | SetRotCallback c => rsrc n = Some (RFromCallback c)
  | SetStateCallback c => (forall x, In (NodeOp i x) ops -> ~ sets_position x) -> rsrc n = Some (RFromState c)
  | _ => True
  end.
Proof.
  intros s i o ops R H N. pose proof (reachable_wf s R) as W. pose proof (cb_reachable _ (reach_run s (NodeOp i o) ops R)) as CB.
  assert (X : forall Y (f : node -> Y) val, (forall c n, f (w_children c n) = f n) -> (forall s n o n', ~ sets_rotation o -> setter s n o = Ok n' -> f n' = f n) -> (forall n n', setter s n o = Ok n' -> f n' = val) ->
     exists n, get (srun ops (fst (sstep s (NodeOp i o)))) i = Some n /\ cb_node n /\ f n = val).
  { intros Y f val F1 F2 F3. destruct (set_then f sets_rotation val s i o ops F1 F2 W H F3 N) as (n & G & S & E). exists n. split; auto. split; auto. eapply CB; eauto. }
  destruct o as [v|q|v|v|v|v|v|p v q a sc|b|f|b f|c|c|c].
  - destruct (X unit (fun n => tt) tt) as (n & G & _); auto. exists n. auto.
  - destruct (X _ (fun n => (n_rmode n, n_rot n)) (Manual, q)) as (n & G & C & E); [auto|pres|sets|]. exists n. split; auto. injection E as E1 E2. pose proof (rsrc_ok n C) as Z. rewrite E1 in Z. rewrite Z, E2. eauto.
  - destruct (X unit (fun n => tt) tt) as (n & G & _); auto. exists n. auto.
  - destruct (X unit (fun n => tt) tt) as (n & G & _); auto. exists n. auto.
  - destruct (X unit (fun n => tt) tt) as (n & G & _); auto. exists n. auto.
  - destruct (X unit (fun n => tt) tt) as (n & G & _); auto. exists n. auto.
  - destruct (X unit (fun n => tt) tt) as (n & G & _); auto. exists n. auto.
  - destruct (X unit (fun n => tt) tt) as (n & G & _); auto. exists n. auto.
  - destruct (X unit (fun n => tt) tt) as (n & G & _); auto. exists n. auto.
  - destruct (X _ (fun n => (n_rmode n, n_frame n)) (Spice, f)) as (n & G & C & E); [auto|pres|sets|]. exists n. split; auto. injection E as E1 E2. pose proof (rsrc_ok n C) as Z. rewrite E1 in Z. rewrite Z, E2. auto.
  - destruct (X _ (fun n => (n_rmode n, n_frame n)) (Spice, f)) as (n & G & C & E); [auto|pres|sets|]. exists n. split; auto. injection E as E1 E2. pose proof (rsrc_ok n C) as Z. rewrite E1 in Z. rewrite Z, E2. auto.
  - destruct (X unit (fun n => tt) tt) as (n & G & _); auto. exists n. auto.
  - destruct (X _ (fun n => (n_rmode n, n_rcb n)) (RotCallback, Some c)) as (n & G & C & E); [auto|pres|sets|]. exists n. split; auto. injection E as E1 E2. pose proof (rsrc_ok n C) as Z. rewrite E1 in Z. rewrite Z, E2. auto.
  - destruct (X _ (fun n => (n_rmode n, n_scb n)) (StateCallback, Some c)) as (n & G & C & E); [auto|pres|sets|]. exists n. split; auto. injection E as E1 E2. pose proof (rsrc_ok n C) as Z. rewrite E1 in Z. intros NR.
    destruct (set_then (fun n => n_pmode n) sets_position StateCallback s i (SetStateCallback c) ops) as (m & GM & _ & EM); auto; [pres|sets|]. rewrite G in GM. injection GM as <-. rewrite Z, E2; auto.
Qed.
(* full claim, false in every state: a rotation set on a node driven by a state callback drops the callback's position, and zero is used *)
Theorem C73_refuted_state_callback : forall s i c q, reachable s -> snd (sstep s (NodeOp i (SetStateCallback c))) = Ok tt ->
  let s1 := fst (sstep s (NodeOp i (SetStateCallback c))) in snd (sstep s1 (NodeOp i (SetRotation q))) = Ok tt ->
  exists n, get (fst (sstep s1 (NodeOp i (SetRotation q)))) i = Some n /\ psrc n = Some PZero.
Proof.
  intros s i c q R H s1 H1. destruct (setter_step _ _ _ H) as (n & n' & G & S & E & P & G' & S'). destruct (setter_step _ _ _ H1) as (m & m' & GM & SM & EM & PM & GM' & SM').
  unfold s1 in GM. rewrite P in GM. rewrite GM in G'. injection G' as ->. rewrite PM. exists m'. split; auto. cbn in E. injection E as <-. cbn [setter] in EM. match type of EM with (if ?b then _ else _) = _ => destruct b end; [discriminate|]. injection EM as <-. reflexivity.
Qed.
(* full claim, false: set_manual_transform on a node driven by SPICE returns and has no effect on the source *)
Theorem C73_refuted_manual : forall s i p v q a sc, reachable s -> snd (sstep s (NodeOp i (SetManual p v q a sc))) = Ok tt -> pmode s i = Some Spice ->
  exists n o, get (fst (sstep s (NodeOp i (SetManual p v q a sc)))) i = Some n /\ psrc n = Some (FromSpice o).
Proof.
  intros s i p v q a sc R H M. destruct (setter_step _ _ _ H) as (n & n' & G & S & E & P & G' & S'). rewrite P. exists n'. pose proof (cb_reachable s R i n G S) as CB. pose proof (setter_cb _ _ _ _ CB E) as CB'.
  unfold pmode in M. rewrite G in M. cbn in M. injection M as M. assert (M' : n_pmode n' = Spice). { cbn in E. destruct (rot_must s n || pos_must s n); [discriminate|]. injection E as <-. exact M. }
  pose proof (psrc_ok _ CB') as Z. rewrite M' in Z. eexists. split; [exact G'|exact Z].
Qed.
(* full claim, false: set_angular_velocity(Vec3) after set_body_angular_velocity keeps the body-frame reading *)
Theorem C73_refuted_body : forall s i v w, reachable s -> snd (sstep s (NodeOp i (SetBodyAngular v))) = Ok tt ->
  let s1 := fst (sstep s (NodeOp i (SetBodyAngular v))) in exists n q, get (fst (sstep s1 (NodeOp i (SetAngular w)))) i = Some n /\ rsrc n = Some (RFromManual q w true).
Proof.
  intros s i v w R H s1. destruct (setter_step _ _ _ H) as (n & n' & G & S & E & P & G' & S'). unfold s1. rewrite P. pose proof (cb_reachable s R i n G S) as CB. pose proof (setter_cb _ _ _ _ CB E) as CB'. cbn in E.
  destruct (tmode_eqb (n_rmode n) Manual) eqn:M; [|discriminate]. injection E as <-. cbn [sstep]. rewrite G', S'. cbn [setter n_rmode w_ang]. rewrite M. cbn [keep fst].
  eexists. exists (n_rot n). split; [eapply get_put_eq; eauto|]. assert (M' : n_rmode n = Manual) by (destruct (tmode_eqb_spec (n_rmode n) Manual); [auto|discriminate]).
  assert (CB2 : cb_node (w_ang w true n)). { exact CB'. }
  pose proof (rsrc_ok _ CB2) as Z. cbn in Z. rewrite M' in Z. exact Z.
Qed.
Print Assumptions C73_position_partial.
Print Assumptions C73_rotation_partial.
Print Assumptions C73_refuted_state_callback.
Print Assumptions C73_refuted_manual.
Print Assumptions C73_refuted_body.
Example C73_example : let s := srun [NewFrame 0; NodeOp 1 (SetStateCallback 4); NodeOp 1 (SetPosCallback 3); NodeOp 1 (SetFrame "J2000"); NodeOp 1 (SetScale (2, 2, 2)%Z)] new_scene in
  option_map psrc (get s 1) = Some (Some (FromCallback 3)) /\ option_map rsrc (get s 1) = Some (Some (RFromSpice "J2000")).
Proof. split; reflexivity. Qed.
Example C73_manual_example : let s := srun [NewFrame 0; NodeOp 1 (SetOrigin "MOON")] new_scene in pmode s 1 = Some Spice /\ snd (sstep s (NodeOp 1 (SetManual (1, 1, 1) (0, 0, 0) (0, 0, 0, 1) (0, 0, 0) (1, 1, 1))%Z)) = Ok tt.
Proof. split; reflexivity. Qed.

(** C74: a view holds every instance once *)
Theorem C74 : forall s v, reachable s -> collect s = Ok v ->
  (forall p path, (exists l, In (p, l) (v_batches v) /\ In path l) <-> exists i, occurs s path i /\ refers s i (APrim p)) /\
  NoDup (map fst (v_batches v)) /\ (forall p l, In (p, l) (v_batches v) -> NoDup l) /\
  (forall p path, In (p, path) (v_lights v) <-> exists i, occurs s path i /\ refers s i (ALight p)) /\ NoDup (v_lights v) /\
  (forall p path, In (p, path) (v_unresolved v) <-> exists i, occurs s path i /\ refers s i (AUnresolved p)) /\ NoDup (v_unresolved v).
Proof. intros s v R. apply collect_spec. apply reachable_wf; auto. Qed.
(* the view can be built whenever no occurring instance refers to a deleted primitive *)
Theorem C74_total : forall s, reachable s -> (forall path i p, occurs s path i -> refers s i (APrim p) -> has_prim s p = true) -> exists v, collect s = Ok v.
Proof. intros s R. apply collect_total. apply reachable_wf; auto. Qed.
Print Assumptions C74.
Print Assumptions C74_total.
Example C74_example : let s := srun [AddGeometry; AddPrimitive 0; AddLight; LoadModel 1 [] [MNode "a" [0%nat; 0%nat] []]; NewFrame 0; NewInstance 0 (APrim 1); NewInstance 0 (AModel 3);
    NewInstance 0 (APrim 1); NewInstance 0 (ALight 2); NewInstance 0 (AModel 3)] new_scene in
  option_map (fun n => n_children n) (get s 0) = Some [5%nat; 6%nat; 7%nat; 8%nat; 9%nat; 10%nat] /\
  match collect s with Ok v => v_batches v = [(1%nat, [[0; 6]; [0; 8]]); (5%nat, [[0; 7; 1; 2; 3]; [0; 7; 1; 2; 4]; [0; 10; 1; 2; 3]; [0; 10; 1; 2; 4]])]%nat /\ v_lights v = [(2%nat, [0; 9])]%nat | _ => False end.
Proof. vm_compute. repeat split. Qed.

(** C75: get_parent *)
Theorem C75 : forall s i, reachable s -> in_graph s i -> i <> 0%nat -> exists p, get_parent s i = Ok p /\ child_of s p i /\ in_graph s p.
Proof. intros s i R. apply get_parent_ok. apply reachable_wf; auto. Qed.
Theorem C75_root : forall s, reachable s -> get_parent s 0 = Throws.
Proof. intros s R. destruct (wf_root _ (reachable_wf s R)) as (n & G & _ & P & _). unfold get_parent. rewrite G, P. reflexivity. Qed.
Print Assumptions C75.
Print Assumptions C75_root.
Example C75_example : let s := srun [NewFrame 0; NewFrame 0; NewFrame 1; NewFrame 2; NewFrame 4] new_scene in map (get_parent s) [0; 1; 2; 3; 4; 5]%nat = [Throws; Ok 0; Ok 0; Ok 1; Ok 2; Ok 4]%nat.
Proof. reflexivity. Qed.

(** C76: materials of a model *)
Theorem C76 : forall s mat id m r, reachable s -> model_root s m = Some r -> (forall i p, below s r i -> refers s i (APrim p) -> has_prim s p = true) ->
  match get_material_by_id s mat id r with
  | Ok p => mat p = id /\ exists i, below s r i /\ refers s i (APrim p)
  | Throws => forall i p, below s r i -> refers s i (APrim p) -> mat p <> id
  | UB => False
  end.
Proof.
  intros s mat id m r R M PR. pose proof (reachable_wf s R) as W. destruct (wf_model _ W m r (model_root_in _ _ _ M)) as (n & G & _).
  destruct (get_material_ok s mat id r W (ex_intro _ n G) PR) as [(p & i & -> & B & H1 & H2)|(-> & N)]; [split; eauto|]. intros i p B RF E. apply (N i p B). split; auto.
Qed.
Print Assumptions C76.
Example C76_example : let s := srun [LoadModel 2 [] [MNode "a" [0%nat] [MNode "b" [1%nat] []]; MNode "c" [1%nat] []]] new_scene in
  model_root s 0 = Some 1%nat /\ get_material_by_id s (fun p => p) 4 1 = Ok 4%nat /\ get_material_by_id s (fun p => p) 9 1 = Throws.
Proof. repeat split. Qed.
