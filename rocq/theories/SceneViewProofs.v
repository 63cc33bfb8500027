(* Lemmas: deletion in arbitrary graphs, node modes, graph searches, the collected view. *)
From Verif Require Import Common RegistryModel SceneModel SceneSpec SceneProofs.

(** prune in any graph without repeated children *)
Definition nodups (s : scene) := forall i n, get s i = Some n -> NoDup (n_children n).
Definition shrinks (s s' : scene) := forall i, match get s i, get s' i with
  | Some n, Some n' => n_asset n' = n_asset n /\ n_scene n' = n_scene n /\ n_parent n' = n_parent n /\ incl (n_children n') (n_children n)
  | None, None => True | _, _ => False end.
Lemma shrinks_refl s : shrinks s s.
Proof. intros i. destruct (get s i); auto. repeat split. apply incl_refl. Qed.
Lemma shrinks_trans a b c : shrinks a b -> shrinks b c -> shrinks a c.
Proof.
  intros X Y i. specialize (X i). specialize (Y i). destruct (get a i), (get b i), (get c i); try tauto.
  destruct X as (X1 & X2 & X3 & X4), Y as (Y1 & Y2 & Y3 & Y4). repeat split; try congruence. eapply incl_tran; eauto.
Qed.
Lemma shrinks_get s s' i n' : shrinks s s' -> get s' i = Some n' -> exists n, get s i = Some n /\ n_asset n' = n_asset n /\ incl (n_children n') (n_children n).
Proof. intros H E. specialize (H i). rewrite E in H. destruct (get s i) as [n|]; [|tauto]. exists n. tauto. Qed.
Lemma erase1_incl c l : incl (erase1 c l) l.
Proof. induction l as [|x l IH]; cbn; [apply incl_refl|]. destruct (Nat.eqb x c); [apply incl_tl, incl_refl|]. intros y [->|I]; [left; auto|right; apply IH; auto]. Qed.
Lemma erase1_nodup c l : NoDup l -> NoDup (erase1 c l) /\ ~ In c (erase1 c l).
Proof.
  induction l as [|x l IH]; cbn; intros N; [split; [constructor|auto]|]. inversion N; subst. destruct (IH H2) as (A & B). destruct (Nat.eqb_spec x c) as [->|X]; [auto|].
  split; [constructor; auto; intros I; apply H1; eapply erase1_incl; eauto|]. intros [E|I]; [congruence|auto].
Qed.
Lemma erase1_other c l x : In x l -> x <> c -> In x (erase1 c l).
Proof.
  intros I N. induction l as [|z l IH]; cbn in *; auto. destruct (Nat.eqb_spec z c) as [Z|Z].
  - destruct I as [I|I]; [congruence|auto].
  - destruct I as [I|I]; [left; auto|right; auto].
Qed.
Lemma delete_child_ok s p c s' : nodups s -> delete_child s p c = Ok s' -> (exists np, get s p = Some np /\ In c (n_children np)) ->
  shrinks s s' /\ nodups s' /\ ~ child_of s' p c
  /\ (forall i x, child_of s i x -> ~ (i = p /\ x = c) -> child_of s' i x).
Proof.
  intros ND H (np & P & I). unfold delete_child in H. rewrite P in H. destruct (get s c) as [nc|] eqn:C; [|discriminate]. destruct (n_parent nc) as [q|]; [|discriminate].
  destruct (Nat.eqb q p); [|discriminate]. assert (X : existsb (Nat.eqb c) (n_children np) = true) by (apply existsb_exists; exists c; split; auto; apply Nat.eqb_refl). rewrite X in H.
  destruct (n_scene np); [|discriminate]. destruct (remove (sc_nreg s) (N.of_nat c)) as [r| |]; try discriminate. cbn in H. injection H as <-.
  assert (G : forall i, get (put (w_nreg r s) p (w_children (erase1 c (n_children np)) np)) i = if Nat.eqb p i then Some (w_children (erase1 c (n_children np)) np) else get s i).
  { intros i. rewrite (get_put (w_nreg r s) p i _ np) by exact P. reflexivity. }
  destruct (erase1_nodup c (n_children np) (ND _ _ P)) as (N1 & N2). split; [|split; [|split]].
  - intros i. rewrite G. destruct (Nat.eqb_spec p i) as [<-|N]; [rewrite P; cbn; repeat split; apply erase1_incl|]. apply (shrinks_refl s i).
  - intros i n. rewrite G. destruct (Nat.eqb_spec p i) as [<-|N]; [intros [= <-]; auto|apply ND].
  - intros (n & E & IN). rewrite G, Nat.eqb_refl in E. injection E as <-. auto.
  - intros i x (n & E & IN) NE. unfold child_of. rewrite G. destruct (Nat.eqb_spec p i) as [<-|N]; [|eauto]. rewrite P in E. injection E as <-. eexists. split; [reflexivity|]. cbn. apply erase1_other; [exact IN|]. intros Z. apply NE. split; [reflexivity|exact Z].
Qed.
Lemma delete_child_ok' s p c s' : nodups s -> delete_child s p c = Ok s' -> shrinks s s' /\ nodups s' /\ ~ child_of s' p c.
Proof.
  intros ND H. destruct (get s p) as [np|] eqn:P.
  - destruct (in_dec Nat.eq_dec c (n_children np)) as [I|I].
    + destruct (delete_child_ok s p c s' ND H) as (A & B & C & _); eauto.
    + unfold delete_child in H. rewrite P in H. destruct (get s c) as [nc|]; [|discriminate]. destruct (n_parent nc) as [q|]; [|discriminate]. destruct (Nat.eqb _ _); [|discriminate].
      destruct (existsb (Nat.eqb c) (n_children np)) eqn:X; [apply existsb_exists in X; destruct X as (y & Y & E); apply Nat.eqb_eq in E; congruence|].
      injection H as <-. split; [apply shrinks_refl|]. split; auto. intros (n & E & IN). congruence.
  - unfold delete_child in H. rewrite P in H. discriminate.
Qed.
Definition clean (s : scene) (t : asset) (q : nat) := forall c nc, child_of s q c -> get s c = Some nc -> n_asset nc <> Some t.
Lemma clean_shrinks s s' t q : shrinks s s' -> clean s t q -> clean s' t q.
Proof.
  intros S C c nc (n' & G & I) GC. destruct (shrinks_get _ _ _ _ S G) as (n & G0 & A & B). destruct (shrinks_get _ _ _ _ S GC) as (nc0 & GC0 & AC & BC).
  rewrite AC. apply (C c); auto. exists n. auto.
Qed.
Lemma below_shrinks s s' p q : shrinks s s' -> below s' p q -> below s p q.
Proof.
  intros S B. induction B as [(n & G)|q c B IH (n & G & I) (nc & GC)].
  - destruct (shrinks_get _ _ _ _ S G) as (n0 & ? & _). constructor. eauto.
  - destruct (shrinks_get _ _ _ _ S G) as (n0 & G0 & _ & J). destruct (shrinks_get _ _ _ _ S GC) as (nc0 & ? & _). econstructor; eauto. exists n0. auto.
Qed.
Lemma below_split s p q : below s p q -> q = p \/ exists c, child_of s p c /\ below s c q.
Proof.
  intros B. induction B as [H|q k B IHB CO X]; auto. right. destruct IHB as [->|(c & IC & BC)]; [exists k; split; auto; constructor; auto|].
  exists c. split; auto. econstructor; eauto.
Qed.
Lemma prune_clean t : forall f s p s', nodups s -> prune f t s p = (s', Ok tt) -> shrinks s s' /\ nodups s' /\ forall q, below s' p q -> clean s' t q.
Proof.
  induction f as [|f IH]; cbn; intros s p s' ND H; [discriminate|]. destruct (get s p) as [np|] eqn:P; [|discriminate].
  assert (L : forall cs s, nodups s -> prune_list (prune f t) t p s cs = (s', Ok tt) -> shrinks s s' /\ nodups s' /\
    forall c, In c cs -> (~ child_of s' p c \/ (forall nc, get s' c = Some nc -> n_asset nc <> Some t)) /\ (~ child_of s' p c \/ forall q, below s' c q -> clean s' t q)).
  { clear H P ND s. induction cs as [|c cs IHc]; cbn; intros s ND H.
    - injection H as <-. split; [apply shrinks_refl|]. split; [auto|intros c []].
    - destruct (get s c) as [nc|] eqn:C; [|discriminate].
      destruct (match n_asset nc with Some a => asset_eqb a t | None => false end) eqn:B.
      + destruct (delete_child s p c) as [s1| |] eqn:D; try discriminate. destruct (delete_child_ok' _ _ _ _ ND D) as (S1 & N1 & R1).
        destruct (IHc s1 N1 H) as (S2 & N2 & C2). split; [eapply shrinks_trans; eauto|]. split; auto.
        assert (X : ~ child_of s' p c). { intros (n' & G & I). destruct (shrinks_get _ _ _ _ S2 G) as (n & G0 & _ & J). apply R1. exists n. auto. }
        intros c' [<-|I]; auto.
      + destruct (prune f t s c) as (s1 & [[]| |]) eqn:R; try discriminate. destruct (IH _ _ _ ND R) as (S1 & N1 & C1). destruct (IHc s1 N1 H) as (S2 & N2 & C2).
        split; [eapply shrinks_trans; eauto|]. split; auto. intros c' [<-|I]; auto. split; right.
        * intros nc' G'. destruct (shrinks_get _ _ _ _ (shrinks_trans _ _ _ S1 S2) G') as (n0 & G0 & A & _). rewrite C in G0. injection G0 as <-. rewrite A. intros E. rewrite E, asset_eqb_refl in B. discriminate.
        * intros q Bq. eapply clean_shrinks; eauto. apply C1. eapply below_shrinks; eauto. }
  destruct (L _ _ ND H) as (S & N & C). split; auto. split; auto. intros q B.
  assert (CI : forall c, child_of s' p c -> In c (n_children np)).
  { intros c (n' & G & I). destruct (shrinks_get _ _ _ _ S G) as (n & G0 & _ & J). rewrite P in G0. injection G0 as <-. auto. }
  destruct (below_split _ _ _ B) as [->|(c & CO & BC)].
  - intros c nc CO G. destruct (C c (CI c CO)) as ([X|X] & _); [tauto|]. eauto.
  - destruct (C c (CI c CO)) as (_ & [X|X]); [tauto|]. eauto.
Qed.

(** only the scene's own nodes *)
Definition same_scene (s s' : scene) := forall i n, n_scene n = true -> (get s i = Some n <-> get s' i = Some n).
Lemma same_scene_refl s : same_scene s s. Proof. intros i n _. tauto. Qed.
Lemma same_scene_trans a b c : same_scene a b -> same_scene b c -> same_scene a c.
Proof. intros X Y i n S. rewrite (X i n S). apply Y; auto. Qed.
Lemma attach_same s p np a s' c : get s p = Some np -> n_scene np = false -> attach s p a = Ok (s', c) -> same_scene s s'.
Proof.
  intros P S A. destruct (attach_get _ _ _ _ _ _ P A) as (-> & R & L & GP & GC & GO). intros i n SN.
  destruct (Nat.eq_dec i p) as [->|N]; [split; intros G; [rewrite P in G; injection G as <-|rewrite GP in G; injection G as <-; cbn in SN]; congruence|].
  destruct (Nat.eq_dec i (List.length (sc_nodes s))) as [->|N2].
  - split; intros G; [apply get_lt in G; lia|]. rewrite GC in G. injection G as <-. cbn in SN. congruence.
  - rewrite GO by auto. tauto.
Qed.
Lemma add_meshes_same prims ms : forall s p np, get s p = Some np -> n_scene np = false -> forall s', add_meshes prims s p ms = Ok s' -> same_scene s s'.
Proof.
  induction ms as [|m ms IH]; cbn; intros s p np G S s' E; [injection E as <-; apply same_scene_refl|].
  destruct (nth_error prims m) as [i|]; [|discriminate]. destruct (attach s p (Some (APrim i))) as [(s1 & c)| |] eqn:A; try discriminate. cbn in E.
  destruct (attach_keeps _ _ _ _ _ A) as (K & _). destruct (K _ _ G) as (np1 & G1 & S1).
  eapply same_scene_trans; [eapply attach_same; eauto|]. apply (IH s1 p np1); auto. congruence.
Qed.
Lemma process_node_same prims t : forall s p np, wf s -> get s p = Some np -> n_scene np = false -> forall s', process_node prims s p t = Ok s' -> same_scene s s'.
Proof.
  induction t as [name ms kids IH] using mtree_ind'. intros s p np W G S s' E. cbn in E.
  destruct (attach s p None) as [(s1 & c)| |] eqn:A; try discriminate. cbn in E.
  destruct (attach_keeps _ _ _ _ _ A) as (K1 & nc & GC & np' & G' & SC). rewrite G in G'. injection G' as <-.
  assert (W1 : wf s1) by (eapply wf_attach; eauto; intros x; discriminate).
  destruct (add "FrameNode" (sc_nreg s1) (N.of_nat c) name) as [r| |] eqn:AD; try discriminate. cbn in E.
  assert (W2 : wf (w_nreg r s1)). { eapply wf_register; eauto. rewrite Nnat.Nat2N.id. exists nc. split; auto. congruence. }
  destruct (add_meshes prims (w_nreg r s1) c ms) as [s2| |] eqn:AM; try discriminate. cbn in E.
  destruct (add_meshes_wf prims ms (w_nreg r s1) c nc W2) with (s' := s2) as (W3 & K3); auto; [congruence|].
  assert (SS : same_scene s s2).
  { eapply same_scene_trans; [eapply attach_same; eauto|]. apply (add_meshes_same prims ms (w_nreg r s1) c nc GC) with (s' := s2); auto. congruence. }
  destruct (K3 c nc GC) as (nc2 & GC2 & SC2). assert (SF : n_scene nc2 = false) by congruence. clear AM AD A W1 W2 K3 GC SC SC2.
  revert s2 nc2 W3 SS GC2 SF s' E. induction IH as [|k kids IHk IHks IHl]; cbn; intros s2 nc2 W3 SS GC2 SF s' E; [injection E as <-; auto|].
  destruct (process_node prims s2 c k) as [s3| |] eqn:PN; try discriminate. cbn in E. destruct (process_node_wf prims k s2 c nc2 W3 GC2 SF s3 PN) as (W4 & K4).
  destruct (K4 _ _ GC2) as (nc3 & GC3 & SC3). apply (IHl s3 nc3); auto; [|congruence]. eapply same_scene_trans; eauto.
Qed.
Lemma process_list_same prims p kids : forall s np, wf s -> get s p = Some np -> n_scene np = false -> forall s', process_list (fun s k => process_node prims s p k) s kids = Ok s' -> same_scene s s'.
Proof.
  induction kids as [|k kids IH]; cbn; intros s np W G S s' E; [injection E as <-; apply same_scene_refl|].
  destruct (process_node prims s p k) as [s1| |] eqn:PN; try discriminate. cbn in E. destruct (process_node_wf prims k s p np W G S s1 PN) as (W1 & K1).
  destruct (K1 _ _ G) as (np1 & G1 & S1). eapply same_scene_trans; [eapply process_node_same; eauto|]. apply (IH s1 np1); auto. congruence.
Qed.
(* a call either leaves the scene's own nodes alone, or adds one child, or runs one setter *)
Inductive node_change (Q : nat -> nop -> Prop) (s s' : scene) : Prop :=
| nc_same : same_scene s s' -> node_change Q s s'
| nc_attach p np a c : get s p = Some np -> n_scene np = true -> attach s p a = Ok (s', c) -> node_change Q s s'
| nc_set i n o n' : Q i o -> get s i = Some n -> n_scene n = true -> setter s n o = Ok n' -> s' = put s i n' -> node_change Q s s'.
Lemma same_nodes s s' : sc_nodes s' = sc_nodes s -> same_scene s s'.
Proof. intros E i n _. unfold get. rewrite E. tauto. Qed.
Lemma load_model_same s nm rm kids s' : wf s -> load_model s nm rm kids = Ok s' -> same_scene s s'.
Proof.
  intros W E. destruct (load_model_split _ _ _ _ _ W E) as (s2 & s3 & prims & root & W2 & GR & O2 & I2 & PL & AM). clear E.
  destruct (process_list_wf prims root kids s2 _ W2 GR eq_refl s3 PL) as (W3 & K3). destruct (K3 _ _ GR) as (nr & GR3 & SR3).
  assert (S2 : same_scene s s2). { intros i n S. split; auto. intros G. destruct (I2 _ _ G) as [(-> & ->)|]; auto. discriminate. }
  eapply same_scene_trans; [exact S2|]. eapply same_scene_trans; [eapply process_list_same; eauto|]. eapply add_meshes_same; eauto.
Qed.
Lemma delete_primitive_nodes s i : wf s -> sc_nodes (fst (delete_primitive s i)) = sc_nodes s.
Proof. intros W. unfold delete_primitive. destruct (prune_root_ok s (APrim i) W) as (r & -> & _). destruct r as [[]| |]; auto. destruct (has_prim s i); auto. Qed.
Lemma delete_other_nodes s a : wf s -> sc_nodes (fst (delete_other s a)) = sc_nodes s.
Proof. intros W. unfold delete_other. destruct (prune_root_ok s a W) as (r & -> & _). destruct r as [[]| |]; auto. destruct (existsb _ _); auto. Qed.
Lemma delete_all_nodes ps : forall s, wf s -> sc_nodes (fst (delete_all s ps)) = sc_nodes s.
Proof.
  induction ps as [|i ps IH]; cbn; intros s W; auto. pose proof (delete_primitive_nodes s i W) as E. destruct (delete_primitive_wf s i W) as (W' & _).
  destruct (delete_primitive s i) as (s' & [[]| |]); cbn in *; auto. rewrite IH; auto.
Qed.
Lemma delete_geometry_nodes s g : wf s -> sc_nodes (fst (delete_geometry s g)) = sc_nodes s.
Proof.
  intros W. unfold delete_geometry. pose proof (delete_all_nodes (map fst (filter (fun x => Nat.eqb (snd x) g) (sc_prims s))) s W) as E.
  destruct (delete_all _ _) as (s' & [[]| |]); cbn in *; auto. destruct (existsb _ _); auto.
Qed.
Lemma sstep_change s o : wf s -> node_change (fun i x => o = NodeOp i x) s (fst (sstep s o)).
Proof.
  intros W. assert (R : node_change (fun i x => o = NodeOp i x) s s) by (apply nc_same, same_scene_refl). destruct o as [p|p a|i o|p c| |g| | | |nmesh root_meshes kids|i|a|g]; cbn.
  - unfold user_frame. destruct (get s p) as [np|] eqn:P; auto. destruct (n_scene np) eqn:S; cbn; auto. destruct (n_asset np); auto. destruct (attach s p None) as [(s' & c)| |] eqn:A; cbn; auto. eapply nc_attach; eauto.
  - unfold user_frame. destruct (get s p) as [np|] eqn:P; auto. destruct (n_scene np) eqn:S; cbn; auto. destruct (n_asset np); cbn; auto. destruct (known s a); auto.
    destruct (attach s p (Some a)) as [(s' & c)| |] eqn:A; cbn; auto. eapply nc_attach; eauto.
  - destruct (get s i) as [n|] eqn:G; auto. destruct (n_scene n) eqn:S; auto. destruct (setter s n o) as [n'| |] eqn:E; cbn; auto. eapply nc_set; eauto.
  - destruct (user_frame s p) eqn:P; cbn; auto. destruct (user_node s c) eqn:C; auto. unfold user_frame in P. unfold user_node in C.
    destruct (get s p) as [np|] eqn:GP; [|discriminate]. destruct (get s c) as [nc|] eqn:GC; [|discriminate]. apply andb_true_iff in P. destruct P as (P & _).
    rewrite (delete_child_throws s p c np nc W GP P GC). auto.
  - apply nc_same, same_nodes. reflexivity.
  - destruct (existsb _ _); apply nc_same, same_nodes; reflexivity.
  - apply nc_same, same_nodes. reflexivity.
  - apply nc_same, same_nodes. reflexivity.
  - apply nc_same, same_nodes. reflexivity.
  - destruct (load_model s nmesh root_meshes kids) as [s'| |] eqn:E; cbn; auto. apply nc_same. eapply load_model_same; eauto.
  - destruct (has_prim s i); auto. apply nc_same, same_nodes, delete_primitive_nodes; auto.
  - destruct (existsb _ _); auto. apply nc_same, same_nodes, delete_other_nodes; auto.
  - destruct (existsb _ _); auto. apply nc_same, same_nodes, delete_geometry_nodes; auto.
Qed.

(** modes *)
(* a SPICE node hangs under a SPICE node *)
Definition modes_ok (s : scene) := forall p np c nc, get s p = Some np -> n_scene np = true -> In c (n_children np) -> get s c = Some nc ->
  (n_pmode nc = Spice -> n_pmode np = Spice) /\ (n_rmode nc = Spice -> n_rmode np = Spice).
Definition is_callback (o : nop) : Prop := match o with SetPosCallback _ | SetRotCallback _ | SetStateCallback _ => True | _ => False end.
Lemma existsb_false_In {A} (f : A -> bool) l x : existsb f l = false -> In x l -> f x = false.
Proof. intros H I. destruct (f x) eqn:E; auto. assert (existsb f l = true) by (apply existsb_exists; eauto). congruence. Qed.
Lemma setter_modes s n o n' : setter s n o = Ok n' -> ~ is_callback o ->
  (n_pmode n' = n_pmode n \/ (n_pmode n' = Manual /\ pos_must s n = false) \/ (n_pmode n' = Spice /\ pos_can s n = true)) /\
  (n_rmode n' = n_rmode n \/ (n_rmode n' = Manual /\ rot_must s n = false) \/ (n_rmode n' = Spice /\ rot_can s n = true)).
Proof.
  intros H NC. destruct o; cbn in H, NC; try tauto;
  repeat match type of H with (if ?b then _ else _) = _ => destruct b eqn:? end; try discriminate; injection H as <-; cbn; auto 6.
Qed.
Lemma modes_step QP s s' : wf s -> modes_ok s -> node_change QP s s' -> (forall i o, QP i o -> ~ is_callback o) -> modes_ok s'.
Proof.
  intros W M C NC. destruct C as [SS|p np a c P S A|i n o n' QO G S E ->].
  - intros p np c nc P S I C. apply (SS p np S) in P. destruct (wf_child _ W _ _ _ P I) as (_ & nc0 & C0 & _ & S0). assert (SC : n_scene nc0 = true) by congruence.
    apply (SS c nc0 SC) in C0 as C1. rewrite C in C1. injection C1 as <-. eapply (M p np c nc); eauto.
  - destruct (attach_get _ _ _ _ _ _ P A) as (-> & R & L & GP & GC & GO). set (c := List.length (sc_nodes s)) in *.
    intros q nq k nk Q SQ I K. destruct (Nat.eq_dec q c) as [->|NQ]; [rewrite GC in Q; injection Q as <-; destruct I|].
    assert (Q0 : exists nq0, get s q = Some nq0 /\ n_scene nq0 = true /\ n_pmode nq = n_pmode nq0 /\ n_rmode nq = n_rmode nq0 /\ (In k (n_children nq0) \/ k = c)).
    { destruct (Nat.eq_dec q p) as [->|NP].
      - rewrite GP in Q. injection Q as <-. exists np. cbn in *. repeat split; auto. apply in_app_or in I. destruct I as [I|[<-|[]]]; auto.
      - rewrite GO in Q by auto. exists nq. auto 10. }
    destruct Q0 as (nq0 & Q0 & S0 & E1 & E2 & [I0| ->]); [|rewrite GC in K; injection K as <-; cbn; split; discriminate].
    destruct (wf_child _ W _ _ _ Q0 I0) as (_ & nk0 & K0 & _). pose proof (get_lt _ _ _ K0) as LK. fold c in LK. rewrite E1, E2.
    assert (X : n_pmode nk = n_pmode nk0 /\ n_rmode nk = n_rmode nk0).
    { destruct (Nat.eq_dec k p) as [->|NK]; [rewrite GP in K; injection K as <-; rewrite P in K0; injection K0 as <-; auto|]. rewrite GO in K by lia. rewrite K in K0. injection K0 as <-. auto. }
    destruct X as (-> & ->). eapply (M q nq0 k nk0); eauto.
  - pose proof (NC i o QO) as NCB. destruct (setter_modes _ _ _ _ E NCB) as (PM & RM). pose proof (setter_skel _ _ _ _ E) as (K1 & K2 & K3 & K4).
    intros p np c nc P SP I C. rewrite (get_put s i p n' n G) in P. rewrite (get_put s i c n' n G) in C.
    assert (PC : exists np0, get s p = Some np0 /\ n_scene np0 = true /\ In c (n_children np0)).
    { destruct (Nat.eqb_spec i p) as [->|]; [injection P as <-; exists n; rewrite K3 in I; auto|exists np; auto]. }
    destruct PC as (np0 & P0 & SP0 & I0). destruct (wf_child _ W _ _ _ P0 I0) as (Lt & nc0 & C0 & CP & CS). pose proof (M p np0 c nc0 P0 SP0 I0 C0) as (M1 & M2).
    destruct (Nat.eqb_spec i p) as [->|N1].
    + destruct (Nat.eqb_spec p c) as [->|N2]; [lia|]. injection P as <-. rewrite C in C0. injection C0 as <-. rewrite G in P0. injection P0 as <-. split.
      * intros SC. destruct PM as [->|[(_ & U)|(-> & _)]]; auto. unfold pos_must in U. apply existsb_false_In with (x := c) in U; auto. rewrite C in U. rewrite SC in U. discriminate.
      * intros SC. destruct RM as [->|[(_ & U)|(-> & _)]]; auto. unfold rot_must in U. apply existsb_false_In with (x := c) in U; auto. rewrite C in U. rewrite SC in U. discriminate.
    + rewrite P in P0. injection P0 as <-. destruct (Nat.eqb_spec i c) as [->|N2].
      * injection C as <-. rewrite G in C0. injection C0 as <-. split.
        -- intros SC. destruct PM as [X|[(X & _)|(_ & U)]]; [apply M1; congruence|congruence|]. unfold pos_can in U. rewrite CP, P in U. destruct (tmode_eqb_spec (n_pmode np) Spice); [auto|discriminate].
        -- intros SC. destruct RM as [X|[(X & _)|(_ & U)]]; [apply M2; congruence|congruence|]. unfold rot_can in U. rewrite CP, P in U. destruct (tmode_eqb_spec (n_rmode np) Spice); [auto|discriminate].
      * rewrite C in C0. injection C0 as <-. auto.
Qed.
Lemma srun_inv (Inv : scene -> Prop) (QP : sop -> Prop) :
  (forall s o, wf s -> Inv s -> QP o -> Inv (fst (sstep s o))) -> forall ops s, wf s -> Inv s -> (forall o, In o ops -> QP o) -> Inv (srun ops s).
Proof.
  intros H. induction ops as [|o ops IH]; cbn; intros s W I Q; auto. apply IH; [apply sstep_wf; auto|apply H; auto|auto].
Qed.
Lemma new_modes : modes_ok new_scene.
Proof. intros p np c nc P S I C. destruct p as [|p]; cbn in P; [injection P as <-; destruct I|]. unfold get in P. cbn in P. destruct p; discriminate. Qed.
Lemma modes_run ops : (forall i x, In (NodeOp i x) ops -> ~ is_callback x) -> modes_ok (srun ops new_scene).
Proof.
  intros H. apply (srun_inv modes_ok (fun o => forall i x, o = NodeOp i x -> ~ is_callback x)); [|apply wf_new|apply new_modes|intros o I i x ->; eauto].
  intros s o W M N. exact (modes_step (fun i x => o = NodeOp i x) s _ W M (sstep_change s o W) N).
Qed.
(* one field of one node along a history *)
Lemma keep_field {X} (f : node -> X) (bad : nop -> Prop) :
  (forall c n, f (w_children c n) = f n) -> (forall s n o n', ~ bad o -> setter s n o = Ok n' -> f n' = f n) ->
  forall ops s i n, wf s -> get s i = Some n -> n_scene n = true -> (forall x, In (NodeOp i x) ops -> ~ bad x) ->
  exists n', get (srun ops s) i = Some n' /\ n_scene n' = true /\ f n' = f n.
Proof.
  intros HC HS. induction ops as [|o ops IH]; cbn; intros s i n W G S N; [eauto|].
  assert (ST : exists n', get (fst (sstep s o)) i = Some n' /\ n_scene n' = true /\ f n' = f n).
  { destruct (sstep_change s o W) as [SS|p np a c P SP A|j m x m' QO GJ SJ E Z].
    - exists n. split; auto. apply SS; auto.
    - destruct (attach_get _ _ _ _ _ _ P A) as (-> & R & L & GP & GC & GO). destruct (Nat.eq_dec i p) as [->|NP].
      + rewrite P in G. injection G as <-. eexists. split; [exact GP|]. auto.
      + pose proof (get_lt _ _ _ G). rewrite GO by lia. eauto.
    - rewrite Z. rewrite (get_put s j i m' m GJ). destruct (Nat.eqb_spec j i) as [->|NE]; [|eauto]. rewrite G in GJ. injection GJ as <-.
      pose proof (setter_skel _ _ _ _ E) as (K1 & _). exists m'. split; auto. split; [congruence|]. eapply HS; [|exact E]. apply N. left. auto. }
  destruct ST as (n1 & G1 & S1 & E1). destruct (IH _ i n1 (sstep_wf _ o W) G1 S1) as (n2 & G2 & S2 & E2); [intros x I; apply N; auto|].
  exists n2. split; auto. split; auto. congruence.
Qed.
Lemma setter_step s i o : snd (sstep s (NodeOp i o)) = Ok tt -> exists n n', get s i = Some n /\ n_scene n = true /\ setter s n o = Ok n' /\ fst (sstep s (NodeOp i o)) = put s i n' /\ get (put s i n') i = Some n' /\ n_scene n' = true.
Proof.
  cbn. destruct (get s i) as [n|] eqn:G; [|discriminate]. destruct (n_scene n) eqn:S; [|discriminate]. destruct (setter s n o) as [n'| |] eqn:E; try discriminate. cbn. intros _.
  exists n, n'. pose proof (setter_skel _ _ _ _ E) as (K1 & _). repeat split; auto; [|congruence]. eapply get_put_eq; eauto.
Qed.
(* a successful setter followed by a history that leaves the field alone *)
Lemma set_then {X} (f : node -> X) (bad : nop -> Prop) (val : X) s i o ops :
  (forall c n, f (w_children c n) = f n) -> (forall s n o n', ~ bad o -> setter s n o = Ok n' -> f n' = f n) ->
  wf s -> snd (sstep s (NodeOp i o)) = Ok tt -> (forall n n', setter s n o = Ok n' -> f n' = val) -> (forall x, In (NodeOp i x) ops -> ~ bad x) ->
  exists n, get (srun ops (fst (sstep s (NodeOp i o)))) i = Some n /\ n_scene n = true /\ f n = val.
Proof.
  intros HC HS W OKK V N. destruct (setter_step _ _ _ OKK) as (n & n' & G & S & E & P & G' & S').
  pose proof (sstep_wf _ (NodeOp i o) W) as W'. rewrite P in *. destruct (keep_field f bad HC HS ops (put s i n') i n' W' G' S' N) as (m & GM & SM & FM).
  exists m. split; auto. split; auto. rewrite FM. eauto.
Qed.

(** resolving a node against the solar system barycentre *)
Definition cb_node (n : node) := (n_pmode n = PosCallback -> n_pcb n <> None) /\ (n_rmode n = RotCallback -> n_rcb n <> None) /\ (n_pmode n = StateCallback -> n_scb n <> None)
  /\ n_pmode n <> RotCallback /\ n_rmode n <> PosCallback.
Definition cb_ok (s : scene) := forall i n, get s i = Some n -> n_scene n = true -> cb_node n.
Lemma setter_cb s n o n' : cb_node n -> setter s n o = Ok n' -> cb_node n'.
Proof.
  intros (A & B & C & D & E0) H. destruct o; cbn in H;
  repeat match type of H with (if ?b then _ else _) = _ => destruct b eqn:? end; try discriminate; injection H as <-; unfold cb_node; cbn; repeat split; auto; discriminate.
Qed.
Lemma cb_step s o : wf s -> cb_ok s -> cb_ok (fst (sstep s o)).
Proof.
  intros W M. destruct (sstep_change s o W) as [SS|p np a c P SP A|j m x m' QO GJ SJ E Z].
  - intros i n G S. apply (M i n); auto. apply SS; auto.
  - destruct (attach_get _ _ _ _ _ _ P A) as (-> & R & L & GP & GC & GO). intros i n G S. destruct (Nat.eq_dec i p) as [->|NP].
    + rewrite GP in G. injection G as <-. exact (M p np P SP).
    + destruct (Nat.eq_dec i (List.length (sc_nodes s))) as [->|NL]; [rewrite GC in G; injection G as <-; unfold cb_node; cbn; repeat split; discriminate|].
      rewrite GO in G by auto. eauto.
  - rewrite Z. intros i n. rewrite (get_put s j i m' m GJ). destruct (Nat.eqb_spec j i) as [->|NE]; [|apply M]. intros [= <-] S. eapply setter_cb; eauto.
Qed.
Lemma cb_run ops : cb_ok (srun ops new_scene).
Proof.
  apply (srun_inv cb_ok (fun _ => True)); auto; [intros; apply cb_step; auto|apply wf_new|].
  intros i n G S. destruct i as [|[|]]; cbn in G; try discriminate. injection G as <-. unfold cb_node; cbn; repeat split; discriminate.
Qed.
Lemma local_sources_ok n : cb_node n -> exists l, local_sources n = Ok l.
Proof.
  intros (A & B & C & D & E). unfold local_sources. destruct (n_pmode n) eqn:P, (n_rmode n) eqn:R; cbn; try (exfalso; congruence);
  try (destruct (n_pcb n) eqn:?; [|exfalso; solve [apply A; auto]]); try (destruct (n_rcb n) eqn:?; [|exfalso; solve [apply B; auto]]); try (destruct (n_scb n) eqn:?; [|exfalso; solve [apply C; auto]]); cbn; eauto.
Qed.
Definition root_spice (s : scene) := exists n, get s 0 = Some n /\ n_pmode n = Spice /\ n_rmode n = Spice.
Lemma root_spice_run ops : (forall x, In (NodeOp 0 x) ops -> exists v, x = SetScale v) -> root_spice (srun ops new_scene).
Proof.
  intros H. destruct (keep_field (fun n => (n_pmode n, n_rmode n)) (fun o => ~ exists v, o = SetScale v)) with (ops := ops) (s := new_scene) (i := 0%nat) (n := match get new_scene 0 with Some n => n | None => fresh true None None end)
    as (n & G & _ & E); auto.
  - intros s n o n' ND E. destruct o; try (exfalso; apply ND; intros (? & X); discriminate X). cbn in E. injection E as <-. reflexivity.
  - apply wf_new.
  - exists n. cbn in E. injection E as -> ->. auto.
Qed.
Lemma ssb_ok s : wf s -> cb_ok s -> root_spice s -> forall f i n, get s i = Some n -> n_scene n = true -> (i < f)%nat -> exists l, ssb f s i = Ok l.
Proof.
  intros W C (n0 & G0 & P0 & R0). induction f as [|f IH]; intros i n G S L; [lia|]. cbn. rewrite G. destruct (local_sources_ok n (C _ _ G S)) as (l & EL).
  destruct (tmode_eqb (n_pmode n) Spice && tmode_eqb (n_rmode n) Spice) eqn:X; [rewrite EL; cbn; eauto|].
  destruct (n_parent n) as [p|] eqn:PN.
  - destruct (wf_parent _ W _ _ _ G PN) as (np & GP & I). destruct (wf_child _ W _ _ _ GP I) as (Lt & nc & GC & _ & SC). rewrite G in GC. injection GC as <-.
    destruct (IH p np GP) as (up & ->); [congruence|lia|]. cbn. rewrite EL. cbn. eauto.
  - assert (i = 0%nat) by (eapply wf_one; eauto). subst i. rewrite G0 in G. injection G as <-. rewrite P0, R0 in X. discriminate.
Qed.

(** searches *)
Lemma below_get s p q : below s p q -> exists n, get s q = Some n.
Proof. intros B. destruct B; auto. Qed.
Lemma find_ok s t : wf s -> forall f cur n, get s cur = Some n -> (List.length (sc_nodes s) < cur + f)%nat ->
  exists r, find_in_tree f s t cur = Ok r /\ ((below s cur t /\ r = Some t) \/ (~ below s cur t /\ r = None)).
Proof.
  intros W. induction f as [|f IH]; intros cur n G L; [pose proof (get_lt _ _ _ G); lia|]. cbn [find_in_tree].
  destruct (Nat.eqb_spec cur t) as [->|NE]; [exists (Some t); split; auto; left; split; auto; constructor; eauto|]. rewrite G.
  assert (FL : forall cs, (forall c, In c cs -> In c (n_children n)) -> exists r, find_list (find_in_tree f s t) t cs = Ok r /\
     ((r = Some t /\ exists c, In c cs /\ below s c t) \/ (r = None /\ forall c, In c cs -> ~ below s c t))).
  { induction cs as [|c cs IHc]; cbn; intros IN; [exists None; split; [reflexivity|right; split; [reflexivity|intros c []]]|].
    destruct (wf_child _ W _ _ _ G (IN c (or_introl eq_refl))) as (Lt & nc & GC & _).
    destruct (Nat.eqb_spec c t) as [->|NC]; [exists (Some t); split; auto; left; split; auto; exists t; split; auto; constructor; eauto|].
    destruct (IH c nc GC ltac:(lia)) as (r & -> & [(B & ->)|(B & ->)]); cbn; [exists (Some t); split; auto; left; eauto|].
    destruct IHc as (r & -> & [(-> & c' & I' & B')|(-> & NB)]); auto.
    - exists (Some t). split; auto. left. eauto.
    - exists None. split; auto. right. split; auto. intros c' [<-|I']; auto. }
  destruct (FL (n_children n) (fun c I => I)) as (r & -> & [(-> & c & I & B)|(-> & NB)]).
  - exists (Some t). split; auto. left. split; auto. clear -G I B. assert (CO : child_of s cur c) by (exists n; auto).
    induction B as [X|q k B IHB CK X]; [econstructor; eauto; constructor; eauto|econstructor; eauto].
  - exists None. split; auto. right. split; auto. intros B. destruct (below_split _ _ _ B) as [E|(c & (n' & G' & I) & BC)]; [congruence|]. rewrite G in G'. injection G' as <-. eapply NB; eauto.
Qed.
Lemma get_parent_ok s i : wf s -> in_graph s i -> i <> 0%nat -> exists p, get_parent s i = Ok p /\ child_of s p i /\ in_graph s p.
Proof.
  intros W B N. destruct (in_graph_owned s W i B) as (n & G & SN). unfold get_parent. rewrite G. destruct (n_parent n) as [p|] eqn:PN; [|exfalso; apply N; eapply wf_one; eauto].
  destruct (wf_parent _ W _ _ _ G PN) as (np & GP & I). destruct (wf_child _ W _ _ _ GP I) as (Lt & nc & GC & _ & SC). rewrite G in GC. injection GC as <-.
  assert (BP : in_graph s p) by (eapply owned_in_graph; eauto; congruence). assert (CO : child_of s p i) by (exists np; auto).
  destruct (Nat.eqb_spec 0 p) as [<-|NP]; [eauto|]. destruct (wf_root _ W) as (n0 & G0 & _).
  destruct (find_ok s p W (S (List.length (sc_nodes s))) 0 n0 G0 ltac:(lia)) as (r & -> & [(_ & ->)|(NB & ->)]); [|tauto]. cbn. eauto.
Qed.
