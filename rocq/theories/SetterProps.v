(* Which node setters are accepted, and that a refused one changes nothing (C106). *)
From Verif Require Import Common RegistryModel SceneModel SceneSpec SceneProofs.

(* the English rules: a position (rotation) may not be set by hand while a child's comes from SPICE; a velocity (angular velocity) only belongs to
   a node whose position (rotation) was set by hand; a SPICE origin (frame) needs a parent that has one too *)
Definition spice_child_pos (s : scene) (i : nat) : Prop := exists c, child_of s i c /\ pmode s c = Some Spice.
Definition spice_child_rot (s : scene) (i : nat) : Prop := exists c, child_of s i c /\ rmode s c = Some Spice.
Definition spice_parent_pos (s : scene) (i : nat) : Prop := forall p, child_of s p i -> pmode s p = Some Spice.
Definition spice_parent_rot (s : scene) (i : nat) : Prop := forall p, child_of s p i -> rmode s p = Some Spice.
Definition allowed (s : scene) (i : nat) (o : nop) : Prop :=
  match o with
  | SetPosition _ => ~ spice_child_pos s i
  | SetRotation _ => ~ spice_child_rot s i
  | SetManual _ _ _ _ _ => ~ spice_child_pos s i /\ ~ spice_child_rot s i
  | SetVelocity _ => pmode s i = Some Manual
  | SetAngular _ | SetAngularUnits _ | SetBodyAngular _ => rmode s i = Some Manual
  | SetOrigin _ => spice_parent_pos s i
  | SetFrame _ => spice_parent_rot s i
  | SetSpice _ _ => spice_parent_pos s i /\ spice_parent_rot s i
  | SetScale _ | SetPosCallback _ | SetRotCallback _ | SetStateCallback _ => True
  end.

Lemma must_iff (f : node -> tmode) s i n : get s i = Some n ->
  (existsb (fun c => match get s c with Some m => tmode_eqb (f m) Spice | None => false end) (n_children n) = true <->
   exists c, child_of s i c /\ option_map f (get s c) = Some Spice).
Proof.
  intros G. rewrite existsb_exists. split.
  - intros (c & I & E). exists c. split; [exists n; auto|]. destruct (get s c) as [m|]; [|discriminate]. cbn. destruct (tmode_eqb_spec (f m) Spice); congruence.
  - intros (c & (n' & G' & I) & E). rewrite G in G'. injection G' as <-. exists c. split; auto. destruct (get s c) as [m|]; [|discriminate]. cbn in E. injection E as E. rewrite E. reflexivity.
Qed.
Lemma can_iff (f : node -> tmode) s i n : wf s -> get s i = Some n ->
  (match n_parent n with Some p => match get s p with Some m => tmode_eqb (f m) Spice | None => true end | None => true end = true <->
   forall p, child_of s p i -> option_map f (get s p) = Some Spice).
Proof.
  intros W G. split.
  - intros E p (np & Gp & I). destruct (wf_child _ W _ _ _ Gp I) as (_ & nc & Gc & P & _). rewrite G in Gc. injection Gc as <-. rewrite P, Gp in E. rewrite Gp. cbn.
    destruct (tmode_eqb_spec (f np) Spice); congruence.
  - intros H. destruct (n_parent n) as [p|] eqn:P; auto. destruct (wf_parent _ W _ _ _ G P) as (np & Gp & I). rewrite Gp.
    specialize (H p (ex_intro _ np (conj Gp I))). rewrite Gp in H. cbn in H. injection H as H. rewrite H. reflexivity.
Qed.
Lemma manual_iff (f : node -> tmode) s i n : get s i = Some n -> (tmode_eqb (f n) Manual = true <-> option_map f (get s i) = Some Manual).
Proof. intros G. rewrite G. cbn. destruct (tmode_eqb_spec (f n) Manual); split; congruence. Qed.

(* for every scene a program can have built, every node of it and every setter: accepted exactly when the rules allow it; when refused the whole scene
   is as before; when accepted no other node, and no child list, parent or asset of the node itself, changes *)
Theorem C106 : forall s i o, reachable s -> in_graph s i ->
  (allowed s i o -> snd (sstep s (NodeOp i o)) = Ok tt) /\ (~ allowed s i o -> sstep s (NodeOp i o) = (s, Throws)) /\
  (forall j, j <> i -> get (fst (sstep s (NodeOp i o))) j = get s j) /\
  (forall p c, child_of (fst (sstep s (NodeOp i o))) p c <-> child_of s p c) /\ (forall j a, refers (fst (sstep s (NodeOp i o))) j a <-> refers s j a).
Proof.
  intros s i o R I. pose proof (reachable_wf s R) as W. destruct (in_graph_owned _ W _ I) as (n & G & SC).
  cbn [sstep]. rewrite G, SC.
  assert (D : (allowed s i o <-> exists n', setter s n o = Ok n') /\ setter s n o <> UB).
  { pose proof (must_iff n_pmode s i n G) as P1. pose proof (must_iff n_rmode s i n G) as P2. pose proof (can_iff n_pmode s i n W G) as P3. pose proof (can_iff n_rmode s i n W G) as P4.
    pose proof (manual_iff n_pmode s i n G) as P5. pose proof (manual_iff n_rmode s i n G) as P6.
    fold (pos_must s n) in P1. fold (rot_must s n) in P2. fold (pos_can s n) in P3. fold (rot_can s n) in P4.
    assert (YES : forall {A} (x : A), exists y, Ok x = Ok y) by eauto. assert (NO : forall {A}, ~ exists y : A, Throws = Ok y) by (intros A (y & E); discriminate).
    destruct o; cbn [allowed setter]; unfold spice_child_pos, spice_child_rot, spice_parent_pos, spice_parent_rot, pmode, rmode; rewrite <- ?P1, <- ?P2, <- ?P3, <- ?P4, <- ?P5, <- ?P6;
    destruct (pos_must s n), (rot_must s n), (pos_can s n), (rot_can s n), (tmode_eqb (n_pmode n) Manual), (tmode_eqb (n_rmode n) Manual); cbn [orb];
      (split; [split; [intros; try apply YES; try (exfalso; intuition congruence)|intros Q; try (exfalso; exact (NO _ Q)); intuition congruence]|discriminate]). }
  destruct D as (D & U).
  destruct (setter s n o) as [n'| |] eqn:E; [| |congruence]; cbn [keep fst snd].
  - split; [auto|]. split; [intros N; exfalso; apply N, D; eauto|]. destruct (setter_skel s n o n' E) as (K1 & K2 & K3 & K4).
    split; [intros j N; apply get_put_neq; auto|]. split.
    + intros p c. unfold child_of. rewrite (get_put s i p n' n G). destruct (Nat.eqb_spec i p) as [->|N]; [|reflexivity].
      split; intros (m & Gm & Im); [injection Gm as <-; exists n; split; auto; congruence|]. rewrite G in Gm. injection Gm as <-. exists n'. split; auto. congruence.
    + intros j a. unfold refers. rewrite (get_put s i j n' n G). destruct (Nat.eqb_spec i j) as [->|N]; [|reflexivity].
      split; intros (m & Gm & Im); [injection Gm as <-; exists n; split; auto; congruence|]. rewrite G in Gm. injection Gm as <-. exists n'. split; auto. congruence.
  - split; [intros A; apply D in A as (n' & A); discriminate|]. split; [auto|]. repeat split; auto.
Qed.
Print Assumptions C106.
(* a frame under the root, with an instance below it whose origin comes from SPICE *)
Example C106_case : let s := srun [NewFrame 0; NodeOp 1 (SetOrigin "EARTH"); NewFrame 1; NodeOp 2 (SetOrigin "MOON")] new_scene in
  in_graph s 1 /\ spice_child_pos s 1 /\ ~ allowed s 1 (SetPosition (1, 2, 3)%Z) /\ ~ allowed s 2 (SetVelocity (1, 2, 3)%Z) /\ allowed s 2 (SetPosition (1, 2, 3)%Z) /\
  snd (sstep s (NodeOp 2 (SetPosition (1, 2, 3)%Z))) = Ok tt.
Proof.
  cbn zeta. set (s := srun _ _). assert (C : child_of s 1 2) by (eexists; split; [reflexivity|left; reflexivity]).
  assert (S1 : spice_child_pos s 1) by (exists 2%nat; split; auto).
  split. { apply (below_child s 0 0 1); [apply below_here; eexists; reflexivity|eexists; split; [reflexivity|left; reflexivity]|eexists; reflexivity]. }
  split; auto. split; [intros H; exact (H S1)|]. split; [discriminate|]. split; [|reflexivity].
  intros (c & (n & G & Ic) & _). cbn in G. injection G as <-. destruct Ic.
Qed.
