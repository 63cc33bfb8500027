(* Lemmas about the scene graph model. *)
From Verif Require Import Common RegistryModel SceneModel SceneSpec.

Lemma tmode_eqb_spec a b : reflect (a = b) (tmode_eqb a b).
Proof. destruct a, b; cbn; constructor; congruence. Qed.
Lemma asset_eqb_spec a b : reflect (a = b) (asset_eqb a b).
Proof. destruct a as [i|i|i|i|i], b as [j|j|j|j|j]; cbn; try (constructor; congruence); destruct (Nat.eqb_spec i j); constructor; congruence. Qed.

Lemma asset_eqb_true a b : asset_eqb a b = true -> a = b.
Proof. destruct (asset_eqb_spec a b); congruence. Qed.
Lemma asset_eqb_refl a : asset_eqb a a = true.
Proof. destruct (asset_eqb_spec a a); congruence. Qed.

(** heap *)
Lemma get_lt s i n : get s i = Some n -> (i < List.length (sc_nodes s))%nat.
Proof. intros H. apply nth_error_Some. unfold get in H. congruence. Qed.
Lemma get_put_eq s i n m : get s i = Some m -> get (put s i n) i = Some n.
Proof. intros H. apply nth_error_upd_eq. eapply get_lt; eauto. Qed.
Lemma get_put_neq s i j n : i <> j -> get (put s i n) j = get s j.
Proof. intros H. apply nth_error_upd_neq; auto. Qed.
Lemma get_put s i j n m : get s i = Some m -> get (put s i n) j = if Nat.eqb i j then Some n else get s j.
Proof. intros H. destruct (Nat.eqb_spec i j) as [->|N]; [eapply get_put_eq; eauto|apply get_put_neq; auto]. Qed.
Lemma put_length s i n : List.length (sc_nodes (put s i n)) = List.length (sc_nodes s).
Proof. apply upd_length. Qed.

(** structural invariant *)
Record wf (s : scene) : Prop := {
  wf_child : forall i n c, get s i = Some n -> In c (n_children n) -> (i < c)%nat /\ exists nc, get s c = Some nc /\ n_parent nc = Some i /\ n_scene nc = n_scene n;
  wf_nodup : forall i n, get s i = Some n -> NoDup (n_children n);
  wf_parent : forall i n p, get s i = Some n -> n_parent n = Some p -> exists np, get s p = Some np /\ In i (n_children np);
  wf_root : exists n, get s 0 = Some n /\ n_scene n = true /\ n_parent n = None /\ n_asset n = None;
  wf_one : forall i n, get s i = Some n -> n_scene n = true -> n_parent n = None -> i = 0%nat;
  wf_reg : forall o, In o (objects (sc_nreg s)) -> exists n, get s (N.to_nat o) = Some n /\ n_scene n = false;
  wf_model : forall m r, In (m, r) (sc_models s) -> exists n, get s r = Some n /\ n_scene n = false;
  wf_inner : forall i n a, get s i = Some n -> n_scene n = false -> n_asset n = Some a -> exists p, a = APrim p;
  wf_known : forall i n a, get s i = Some n -> n_scene n = true -> n_asset n = Some a -> known s a = true;
  wf_mroot : forall m, known s (AModel m) = true -> exists r, model_root s m = Some r
}.

Lemma wf_new : wf new_scene.
Proof.
  split.
  - intros [|i] n c H; cbn in H; [injection H as <-; intros []|destruct i; discriminate].
  - intros [|i] n H; cbn in H; [injection H as <-; constructor|destruct i; discriminate].
  - intros [|i] n p H; cbn in H; [injection H as <-; discriminate|destruct i; discriminate].
  - eexists. split; [reflexivity|]. auto.
  - intros [|i] n H; cbn in H; auto. destruct i; discriminate.
  - intros o [].
  - intros m r [].
  - intros [|i] n a H; cbn in H; [injection H as <-; discriminate|destruct i; discriminate].
  - intros [|i] n a H; cbn in H; [injection H as <-; discriminate|destruct i; discriminate].
  - intros m H. discriminate.
Qed.

(* two nodes with the same place in the graph *)
Definition same_skel (n n' : node) := n_scene n' = n_scene n /\ n_parent n' = n_parent n /\ n_children n' = n_children n /\ n_asset n' = n_asset n.
Lemma setter_skel s n o n' : setter s n o = Ok n' -> same_skel n n'.
Proof.
  unfold same_skel. destruct o; cbn; intros H;
  repeat match type of H with (if ?b then _ else _) = _ => destruct b end; try discriminate; injection H as <-; cbn; auto.
Qed.
Definition same_rest (s s' : scene) := sc_nreg s' = sc_nreg s /\ sc_prims s' = sc_prims s /\ sc_geoms s' = sc_geoms s /\ sc_others s' = sc_others s /\ sc_models s' = sc_models s.
(* any change of the heap that keeps every skeleton keeps the invariant *)
Lemma wf_skel s s' : wf s -> same_rest s s' ->
  (forall i, match get s i, get s' i with Some n, Some n' => same_skel n n' | None, None => True | _, _ => False end) -> wf s'.
Proof.
  intros W (R1 & R2 & R3 & R4 & R5) H.
  assert (F : forall i n', get s' i = Some n' -> exists n, get s i = Some n /\ same_skel n n').
  { intros i n' E. specialize (H i). rewrite E in H. destruct (get s i) as [n|]; [|tauto]. eauto. }
  assert (B : forall i n, get s i = Some n -> exists n', get s' i = Some n' /\ same_skel n n').
  { intros i n E. specialize (H i). rewrite E in H. destruct (get s' i) as [n'|]; [|tauto]. eauto. }
  assert (K : forall a, known s' a = known s a) by (intros a; unfold known, has_prim; rewrite R2, R4; reflexivity).
  split.
  - intros i n' c E I. destruct (F _ _ E) as (n & E0 & A1 & A2 & A3 & A4). rewrite A3 in I. destruct (wf_child _ W _ _ _ E0 I) as (L & nc & C1 & C2 & C3).
    split; auto. destruct (B _ _ C1) as (nc' & D & B1 & B2 & B3 & B4). exists nc'. rewrite B2, B1, A1. auto.
  - intros i n' E. destruct (F _ _ E) as (n & E0 & A1 & A2 & A3 & A4). rewrite A3. eapply wf_nodup; eauto.
  - intros i n' p E P. destruct (F _ _ E) as (n & E0 & A1 & A2 & A3 & A4). rewrite A2 in P. destruct (wf_parent _ W _ _ _ E0 P) as (np & C1 & C2).
    destruct (B _ _ C1) as (np' & D & B1 & B2 & B3 & B4). exists np'. rewrite B3. auto.
  - destruct (wf_root _ W) as (n & E & A & P & Q). destruct (B _ _ E) as (n' & D & B1 & B2 & B3 & B4). exists n'. rewrite B1, B2, B4. auto.
  - intros i n' E A P. destruct (F _ _ E) as (n & E0 & A1 & A2 & A3 & A4). rewrite A1 in A. rewrite A2 in P. eapply wf_one; eauto.
  - intros o I. rewrite R1 in I. destruct (wf_reg _ W _ I) as (n & E & A). destruct (B _ _ E) as (n' & D & B1 & B2 & B3 & B4). exists n'. rewrite B1. auto.
  - intros m r I. rewrite R5 in I. destruct (wf_model _ W _ _ I) as (n & E & A). destruct (B _ _ E) as (n' & D & B1 & B2 & B3 & B4). exists n'. rewrite B1. auto.
  - intros i n' a E A Q. destruct (F _ _ E) as (n & E0 & A1 & A2 & A3 & A4). rewrite A1 in A. rewrite A4 in Q. eapply wf_inner; eauto.
  - intros i n' a E A Q. destruct (F _ _ E) as (n & E0 & A1 & A2 & A3 & A4). rewrite A1 in A. rewrite A4 in Q. rewrite K. eapply wf_known; eauto.
  - intros m Q. rewrite K in Q. unfold model_root. rewrite R5. apply (wf_mroot _ W _ Q).
Qed.
Lemma put_skel s i n n' : wf s -> get s i = Some n -> same_skel n n' -> wf (put s i n').
Proof.
  intros W E S. apply (wf_skel s); auto; [repeat split|]. intros j. rewrite (get_put s i j n' n E). destruct (Nat.eqb_spec i j) as [->|N].
  - rewrite E. auto.
  - destruct (get s j); auto. repeat split.
Qed.

(** attach *)
Lemma get_app s l i n : get s i = Some n -> nth_error (sc_nodes s ++ l) i = Some n.
Proof. intros H. rewrite nth_error_app1; auto. eapply get_lt; eauto. Qed.
Lemma attach_get s p np a s' c : get s p = Some np -> attach s p a = Ok (s', c) ->
  c = List.length (sc_nodes s) /\ same_rest s s' /\ List.length (sc_nodes s') = S (List.length (sc_nodes s))
  /\ get s' p = Some (w_children (n_children np ++ [c]) np) /\ get s' c = Some (fresh (n_scene np) (Some p) a)
  /\ (forall i, i <> p -> i <> c -> get s' i = get s i).
Proof.
  intros E H. unfold attach in H. rewrite E in H. injection H as <- <-. set (c := List.length (sc_nodes s)).
  assert (L : (p < c)%nat) by (eapply get_lt; eauto).
  set (s1 := w_nodes (sc_nodes s ++ [fresh (n_scene np) (Some p) a]) s).
  assert (E1 : get s1 p = Some np) by (apply get_app; auto).
  split; auto. split; [repeat split|]. split; [rewrite put_length; unfold s1; cbn; rewrite app_length; cbn; lia|].
  split; [eapply get_put_eq; eauto|]. split.
  - rewrite get_put_neq by lia. unfold get, s1. cbn. rewrite nth_error_app2 by (fold c; lia). fold c. rewrite Nat.sub_diag. reflexivity.
  - intros i N1 N2. rewrite get_put_neq by auto. unfold get, s1. cbn. destruct (Nat.lt_ge_cases i c) as [I|I].
    + rewrite nth_error_app1; auto.
    + rewrite nth_error_app2 by auto. fold c. destruct (i - c)%nat as [|k] eqn:Z; [lia|]. cbn. destruct k; cbn; symmetry; apply nth_error_None; fold c; lia.
Qed.
Lemma wf_attach s p np a s' c : wf s -> get s p = Some np ->
  (forall x, a = Some x -> if n_scene np then known s x = true else exists q, x = APrim q) ->
  attach s p a = Ok (s', c) -> wf s'.
Proof.
  intros W E A H. destruct (attach_get _ _ _ _ _ _ E H) as (-> & (R1 & R2 & R3 & R4 & R5) & L & GP & GC & GO). set (c := List.length (sc_nodes s)) in *.
  assert (LP : (p < c)%nat) by (eapply get_lt; eauto).
  assert (OLD : forall i n, get s i = Some n -> exists n', get s' i = Some n' /\ n_scene n' = n_scene n /\ n_parent n' = n_parent n /\ n_asset n' = n_asset n /\ (incl (n_children n) (n_children n'))).
  { intros i n G. destruct (Nat.eq_dec i p) as [->|N].
    - rewrite E in G. injection G as <-. eexists. split; [exact GP|]. cbn. repeat split; auto. apply incl_appl, incl_refl.
    - exists n. rewrite GO; auto; [repeat split; auto; apply incl_refl|]. apply get_lt in G. fold c in G. lia. }
  assert (NEW : forall i n', get s' i = Some n' -> (i = c /\ n' = fresh (n_scene np) (Some p) a) \/ (i <> c /\ exists n, get s i = Some n /\ n_scene n' = n_scene n /\ n_parent n' = n_parent n /\ n_asset n' = n_asset n /\ n_children n' = n_children n ++ (if Nat.eqb i p then [c] else []))).
  { intros i n' G. destruct (Nat.eq_dec i c) as [->|N]; [left; split; auto; congruence|right; split; auto].
    destruct (Nat.eqb_spec i p) as [->|N2].
    - rewrite GP in G. injection G as <-. exists np. cbn. auto.
    - rewrite GO in G by auto. exists n'. rewrite app_nil_r. auto. }
  assert (K : forall x, known s' x = known s x) by (intros x; unfold known, has_prim; rewrite R2, R4; reflexivity).
  split.
  - intros i n' k G I. destruct (NEW _ _ G) as [(-> & ->)|(N & n & G0 & B1 & B2 & B3 & B4)]; [destruct I|].
    rewrite B4 in I. apply in_app_or in I. destruct I as [I|I].
    + destruct (wf_child _ W _ _ _ G0 I) as (Lt & nc & C1 & C2 & C3). split; auto. destruct (OLD _ _ C1) as (nc' & D1 & D2 & D3 & D4 & D5). exists nc'. rewrite D3, D2, B1. auto.
    + destruct (Nat.eqb_spec i p) as [->|]; [|destruct I]. destruct I as [<-|[]]. split; auto. eexists. split; [exact GC|]. cbn. rewrite B1. rewrite E in G0. injection G0 as <-. auto.
  - intros i n' G. destruct (NEW _ _ G) as [(-> & ->)|(N & n & G0 & B1 & B2 & B3 & B4)]; [constructor|]. rewrite B4. pose proof (wf_nodup _ W _ _ G0) as ND.
    destruct (Nat.eqb i p); [|rewrite app_nil_r; auto]. apply NoDup_Add with (a := c) (l := n_children n).
    { rewrite <- (app_nil_r (n_children n)) at 1. apply Add_app. }
    split; auto. intros I. destruct (wf_child _ W _ _ _ G0 I) as (_ & nc & C1 & _). apply get_lt in C1. fold c in C1. lia.
  - intros i n' q G P. destruct (NEW _ _ G) as [(-> & ->)|(N & n & G0 & B1 & B2 & B3 & B4)].
    + cbn in P. injection P as <-. eexists. split; [exact GP|]. cbn. apply in_or_app. right. left. auto.
    + rewrite B2 in P. destruct (wf_parent _ W _ _ _ G0 P) as (nq & C1 & C2). destruct (OLD _ _ C1) as (nq' & D1 & D2 & D3 & D4 & D5). exists nq'. auto.
  - destruct (wf_root _ W) as (n & G & A1 & A2 & A3). destruct (OLD _ _ G) as (n' & D1 & D2 & D3 & D4 & D5). exists n'. rewrite D2, D3, D4. auto.
  - intros i n' G S P. destruct (NEW _ _ G) as [(-> & ->)|(N & n & G0 & B1 & B2 & B3 & B4)]; [discriminate|]. rewrite B1 in S. rewrite B2 in P. eapply wf_one; eauto.
  - intros o I. rewrite R1 in I. destruct (wf_reg _ W _ I) as (n & G & S). destruct (OLD _ _ G) as (n' & D1 & D2 & _). exists n'. rewrite D2. auto.
  - intros m r I. rewrite R5 in I. destruct (wf_model _ W _ _ I) as (n & G & S). destruct (OLD _ _ G) as (n' & D1 & D2 & _). exists n'. rewrite D2. auto.
  - intros i n' x G S Q. destruct (NEW _ _ G) as [(-> & ->)|(N & n & G0 & B1 & B2 & B3 & B4)].
    + cbn in S, Q. subst a. specialize (A x eq_refl). rewrite S in A. auto.
    + rewrite B1 in S. rewrite B3 in Q. eapply wf_inner; eauto.
  - intros i n' x G S Q. rewrite K. destruct (NEW _ _ G) as [(-> & ->)|(N & n & G0 & B1 & B2 & B3 & B4)].
    + cbn in S, Q. subst a. specialize (A x eq_refl). rewrite S in A. auto.
    + rewrite B1 in S. rewrite B3 in Q. eapply wf_known; eauto.
  - intros m Q. rewrite K in Q. unfold model_root. rewrite R5. apply (wf_mroot _ W _ Q).
Qed.

(** deletion in a reachable scene *)
Lemma not_registered s c n : wf s -> get s c = Some n -> n_scene n = true -> remove (sc_nreg s) (N.of_nat c) = Throws.
Proof.
  intros W G S. unfold remove. destruct (existsb (N.eqb (N.of_nat c)) (objects (sc_nreg s))) eqn:X; auto.
  apply existsb_exists in X. destruct X as (o & I & Q). apply N.eqb_eq in Q. subst o. destruct (wf_reg _ W _ I) as (m & G' & S').
  rewrite Nnat.Nat2N.id in G'. congruence.
Qed.
Lemma delete_child_throws s p c np nc : wf s -> get s p = Some np -> n_scene np = true -> get s c = Some nc -> delete_child s p c = Throws.
Proof.
  intros W P S C. unfold delete_child. rewrite P, C. destruct (n_parent nc) as [q|] eqn:Q; auto. destruct (Nat.eqb_spec q p) as [->|]; auto.
  destruct (wf_parent _ W _ _ _ C Q) as (np' & P' & I). rewrite P in P'. injection P' as <-.
  assert (X : existsb (Nat.eqb c) (n_children np) = true) by (apply existsb_exists; exists c; split; auto; apply Nat.eqb_refl).
  rewrite X, S. destruct (wf_child _ W _ _ _ P I) as (_ & nc' & C' & _ & S'). rewrite C in C'. injection C' as <-.
  rewrite (not_registered s c nc W C) by congruence. reflexivity.
Qed.
(* prune changes nothing, runs to its end, and succeeds exactly when nothing refers to the asset *)
Lemma prune_list_ok rec t p s cs :
  (forall c, In c cs -> exists nc, get s c = Some nc) ->
  (forall c, In c cs -> exists r, rec s c = (s, r) /\ r <> UB) -> (forall c, In c cs -> delete_child s p c = Throws) ->
  exists r, prune_list rec t p s cs = (s, r) /\ r <> UB /\ (r = Ok tt -> forall c nc, In c cs -> get s c = Some nc -> n_asset nc <> Some t /\ rec s c = (s, Ok tt)).
Proof.
  intros G R D. induction cs as [|c cs IH]; cbn.
  - exists (Ok tt). split; auto. split; [discriminate|]. intros _ c nc [].
  - destruct (G c (or_introl eq_refl)) as (nc & E). rewrite E.
    destruct IH as (r & IH & RU & IHC); [intros; apply G; right; auto|intros; apply R; right; auto|intros; apply D; right; auto|].
    destruct (match n_asset nc with Some a => asset_eqb a t | None => false end) eqn:B.
    + rewrite (D c (or_introl eq_refl)). exists Throws. split; auto. split; discriminate.
    + destruct (R c (or_introl eq_refl)) as (q & Q & QU). rewrite Q. destruct q as [[]| |].
      * exists r. split; auto. split; auto. intros O c' nc' [<-|I] G'.
        -- rewrite E in G'. injection G' as <-. split; auto. intros X. rewrite X in B. destruct (asset_eqb_spec t t); congruence.
        -- eapply IHC; eauto.
      * exists Throws. split; auto. split; discriminate.
      * congruence.
Qed.
Lemma prune_ok s t : wf s -> forall f p np, get s p = Some np -> n_scene np = true -> (List.length (sc_nodes s) < p + f)%nat ->
  exists r, prune f t s p = (s, r) /\ r <> UB /\ (r = Ok tt -> forall q nq, below s p q -> q <> p -> get s q = Some nq -> n_asset nq <> Some t).
Proof.
  intros W. induction f as [|f IH]; intros p np P S L. { pose proof (get_lt _ _ _ P). lia. }
  cbn. rewrite P.
  assert (CH : forall c, In c (n_children np) -> exists nc, get s c = Some nc /\ n_scene nc = true /\ (p < c)%nat).
  { intros c I. destruct (wf_child _ W _ _ _ P I) as (Lt & nc & C & _ & S'). exists nc. rewrite S'. auto. }
  destruct (prune_list_ok (prune f t) t p s (n_children np)) as (r & E & U & C).
  - intros c I. destruct (CH c I) as (nc & ? & _). eauto.
  - intros c I. destruct (CH c I) as (nc & G & S' & Lt). destruct (IH c nc G S') as (q & ? & ? & _); [lia|]. eauto.
  - intros c I. destruct (CH c I) as (nc & G & S' & Lt). eapply delete_child_throws; eauto.
  - exists r. split; auto. split; auto. intros -> q nq B N G. specialize (C eq_refl).
    assert (X : forall q, below s p q -> q = p \/ exists c, In c (n_children np) /\ below s c q).
    { clear - P. intros q B. induction B as [H|q k B IHB (n & G & I) X]; auto. right. destruct IHB as [->|(c & IC & BC)].
      - rewrite P in G. injection G as <-. exists k. split; auto. constructor. auto.
      - exists c. split; auto. econstructor; eauto. exists n. auto. }
    destruct (X q B) as [->|(c & IC & BC)]; [congruence|]. destruct (CH c IC) as (nc & GC & SC & Lt). destruct (C c nc IC GC) as (NA & RC).
    destruct (Nat.eq_dec q c) as [->|NQ]; [congruence|].
    destruct (IH c nc GC SC) as (r' & E' & _ & C'); [lia|]. rewrite RC in E'. injection E' as <-. eapply C'; eauto.
Qed.
Lemma prune_root_ok s t : wf s -> exists r, prune_root t s = (s, r) /\ r <> UB /\ (r = Ok tt -> forall q, in_graph s q -> ~ refers s q t).
Proof.
  intros W. destruct (wf_root _ W) as (n & G & SN & _ & A). destruct (prune_ok s t W (S (List.length (sc_nodes s))) 0 n G SN) as (r & E & U & C); [lia|].
  exists r. split; auto. split; auto. intros O q B (m & GM & AM). destruct (Nat.eq_dec q 0) as [->|N]; [congruence|]. eapply (C O q m); eauto.
Qed.

Lemma owned_in_graph s : wf s -> forall i n, get s i = Some n -> n_scene n = true -> in_graph s i.
Proof.
  intros W. induction i as [i IH] using lt_wf_ind. intros n G S. destruct (n_parent n) as [p|] eqn:P.
  - destruct (wf_parent _ W _ _ _ G P) as (np & GP & I). destruct (wf_child _ W _ _ _ GP I) as (Lt & nc & GC & _ & SC). rewrite G in GC. injection GC as <-.
    eapply below_child; [apply (IH p Lt np GP); congruence|exists np; auto|eauto].
  - pose proof (wf_one _ W _ _ G S P) as Z. subst i. constructor. eauto.
Qed.
Lemma in_graph_owned s : wf s -> forall i, in_graph s i -> exists n, get s i = Some n /\ n_scene n = true.
Proof.
  intros W i B. induction B as [H|q c B IH (n & G & I) X].
  - destruct (wf_root _ W) as (n & G & S & _). eauto.
  - destruct IH as (m & GM & SM). rewrite G in GM. injection GM as <-. destruct (wf_child _ W _ _ _ G I) as (_ & nc & GC & _ & SC). exists nc. split; auto. congruence.
Qed.
(* registries change, the graph does not *)
Lemma wf_assets s s' : wf s -> sc_nodes s' = sc_nodes s -> sc_nreg s' = sc_nreg s ->
  (forall m r, In (m, r) (sc_models s') -> In (m, r) (sc_models s)) ->
  (forall i n a, get s i = Some n -> n_scene n = true -> n_asset n = Some a -> known s a = true -> known s' a = true) ->
  (forall m, known s' (AModel m) = true -> exists r, model_root s' m = Some r) -> wf s'.
Proof.
  intros W N R M K MR. assert (G : forall i, get s' i = get s i) by (intros i; unfold get; rewrite N; auto).
  split; intros *; rewrite ?G, ?R.
  - intros E I. destruct (wf_child _ W _ _ _ E I) as (L & nc & C). split; auto. exists nc. rewrite ?G. auto.
  - apply wf_nodup; auto.
  - intros E P. destruct (wf_parent _ W _ _ _ E P) as (np & C). exists np. rewrite ?G. auto.
  - destruct (wf_root _ W) as (n & C). exists n. rewrite ?G. auto.
  - apply wf_one; auto.
  - intros I. destruct (wf_reg _ W _ I) as (n & C). exists n. rewrite ?G. auto.
  - intros I. destruct (wf_model _ W _ _ (M _ _ I)) as (n & C). exists n. rewrite ?G. auto.
  - apply wf_inner; auto.
  - intros E S A. eapply K; eauto. eapply wf_known; eauto.
  - intros Q. apply (MR _ Q).
Qed.
Lemma existsb_filter_ne {A} (f g : A -> bool) l : existsb f (filter g l) = true -> existsb f l = true.
Proof. intros H. apply existsb_exists in H. destruct H as (x & I & F). apply filter_In in I. apply existsb_exists. exists x. tauto. Qed.

Lemma delete_primitive_wf s i : wf s -> wf (fst (delete_primitive s i)) /\ snd (delete_primitive s i) <> UB.
Proof.
  intros W. unfold delete_primitive. destruct (prune_root_ok s (APrim i) W) as (r & -> & U & C).
  destruct r as [[]| |]; [|split; auto; discriminate|congruence]. destruct (has_prim s i); [|split; auto; discriminate].
  split; [|discriminate]. cbn. apply (wf_assets s); auto.
  - intros k n a G S A K. destruct (asset_eqb_spec a (APrim i)) as [->|N].
    + exfalso. eapply (C eq_refl k); [eapply owned_in_graph; eauto|exists n; auto].
    + destruct a as [j|j|j|j|j]; auto. cbn in *. unfold has_prim in *. cbn. apply existsb_exists in K. destruct K as (x & I & E). apply existsb_exists. exists x. split; auto.
      apply filter_In. split; auto. apply Nat.eqb_eq in E. rewrite E. destruct (Nat.eqb_spec j i); [congruence|reflexivity].
  - intros m Q. apply (wf_mroot _ W m Q).
Qed.
Lemma delete_other_wf s a : wf s -> wf (fst (delete_other s a)) /\ snd (delete_other s a) <> UB.
Proof.
  intros W. unfold delete_other. destruct (prune_root_ok s a W) as (r & -> & U & C).
  destruct r as [[]| |]; [|split; auto; discriminate|congruence]. destruct (existsb (asset_eqb a) (sc_others s)) eqn:KA; [|split; auto; discriminate].
  split; [|discriminate]. cbn. apply (wf_assets s); auto; cbn.
  - intros m r I. apply filter_In in I. tauto.
  - intros k n b G S A K. destruct (asset_eqb_spec a b) as [->|N].
    + exfalso. eapply (C eq_refl k); [eapply owned_in_graph; eauto|exists n; auto].
    + assert (X : forall x, existsb (asset_eqb b) (sc_others s) = true -> b = x -> existsb (asset_eqb b) (filter (fun x => negb (asset_eqb a x)) (sc_others s)) = true).
      { intros x H _. apply existsb_exists in H. destruct H as (y & I & E). apply existsb_exists. exists y. split; auto. apply filter_In. split; auto.
        apply asset_eqb_true in E. subst y. destruct (asset_eqb_spec a b); [congruence|reflexivity]. }
      destruct b; cbn in *; eauto.
  - intros m Q. assert (N : a <> AModel m).
    { intros ->. cbn in Q. apply existsb_exists in Q. destruct Q as (x & I & E). apply filter_In in I. apply asset_eqb_true in E. subst x. destruct I as (_ & I). cbn in I. rewrite Nat.eqb_refl in I. discriminate. }
    destruct (wf_mroot _ W m) as (r & R). { cbn in *. eapply existsb_filter_ne; eauto. }
    unfold model_root in *. cbn. destruct (List.find _ (sc_models s)) as [[m' r']|] eqn:F; [|discriminate]. pose proof F as F2. apply find_some in F2. destruct F2 as (_ & E). cbn in E. apply Nat.eqb_eq in E. subst m'.
    assert (Y : forall l, List.find (fun x => Nat.eqb (fst x) m) (filter (fun x => negb (asset_eqb a (AModel (fst x)))) l) = List.find (fun x : nat * nat => Nat.eqb (fst x) m) l).
    { induction l as [|y l IHl]; cbn; auto. destruct (Nat.eqb_spec (fst y) m) as [E|NE].
      - rewrite E. destruct (asset_eqb_spec a (AModel m)); [congruence|]. cbn. rewrite E, Nat.eqb_refl. reflexivity.
      - destruct (negb _); cbn; auto. destruct (Nat.eqb_spec (fst y) m); [congruence|auto]. }
    rewrite Y, F. cbn. eauto.
Qed.
Lemma delete_all_wf ps : forall s, wf s -> wf (fst (delete_all s ps)) /\ snd (delete_all s ps) <> UB.
Proof.
  induction ps as [|i ps IH]; cbn; intros s W; [split; auto; discriminate|]. pose proof (delete_primitive_wf s i W) as (A & B).
  destruct (delete_primitive s i) as (s' & [[]| |]); cbn in *; auto; split; auto; discriminate.
Qed.
Lemma delete_geometry_wf s g : wf s -> wf (fst (delete_geometry s g)) /\ snd (delete_geometry s g) <> UB.
Proof.
  intros W. unfold delete_geometry. pose proof (delete_all_wf (map fst (filter (fun x => Nat.eqb (snd x) g) (sc_prims s))) s W) as (A & B).
  destruct (delete_all _ _) as (s' & [[]| |]); cbn in *; auto.
  destruct (existsb _ _); cbn; split; auto; try discriminate. apply (wf_assets s'); auto. intros m Q. apply (wf_mroot _ A m Q).
Qed.

(** models *)
Section MInd.
  Variable P : mtree -> Prop.
  Hypothesis H : forall name ms kids, Forall P kids -> P (MNode name ms kids).
  Fixpoint mtree_ind' (t : mtree) : P t :=
    match t with MNode name ms kids => H name ms kids ((fix go (l : list mtree) : Forall P l := match l with [] => Forall_nil P | k :: r => Forall_cons k (mtree_ind' k) (go r) end) kids) end.
End MInd.
Definition keeps (s s' : scene) := forall i n, get s i = Some n -> exists n', get s' i = Some n' /\ n_scene n' = n_scene n.
Lemma keeps_refl s : keeps s s. Proof. intros i n; eauto. Qed.
Lemma keeps_trans a b c : keeps a b -> keeps b c -> keeps a c.
Proof. intros X Y i n G. destruct (X _ _ G) as (m & GM & SM). destruct (Y _ _ GM) as (k & GK & SK). exists k. split; auto. congruence. Qed.
Lemma attach_keeps s p a s' c : attach s p a = Ok (s', c) -> keeps s s' /\ exists n, get s' c = Some n /\ exists np, get s p = Some np /\ n_scene n = n_scene np.
Proof.
  intros H. destruct (get s p) as [np|] eqn:P; [|unfold attach in H; rewrite P in H; discriminate].
  destruct (attach_get _ _ _ _ _ _ P H) as (-> & R & L & GP & GC & GO). split.
  - intros i n G. destruct (Nat.eq_dec i p) as [->|N]; [eexists; split; [exact GP|]; rewrite P in G; injection G as <-; reflexivity|].
    exists n. rewrite GO; auto. apply get_lt in G. lia.
  - eexists. split; [exact GC|]. exists np. auto.
Qed.
Lemma wf_register s o ty name r : wf s -> (exists n, get s (N.to_nat o) = Some n /\ n_scene n = false) -> add ty (sc_nreg s) o name = Ok r -> wf (w_nreg r s).
Proof.
  intros W O A. unfold add in A. destruct (make_unique_name _ _) as [nm| |]; try discriminate. cbn in A. injection A as <-.
  destruct W as [w1 w2 w3 w4 w5 w6 w7 w8 w9 w10]. constructor; [exact w1|exact w2|exact w3|exact w4|exact w5| |exact w7|exact w8|exact w9|exact w10]. cbn. intros o' I. apply in_app_or in I. destruct I as [I|[<-|[]]]; [exact (w6 _ I)|exact O].
Qed.
Lemma add_meshes_wf prims ms : forall s p np, wf s -> get s p = Some np -> n_scene np = false -> forall s', add_meshes prims s p ms = Ok s' -> wf s' /\ keeps s s'.
Proof.
  induction ms as [|m ms IH]; cbn; intros s p np W G S s' E; [injection E as <-; split; auto; apply keeps_refl|].
  destruct (nth_error prims m) as [i|]; [|discriminate]. destruct (attach s p (Some (APrim i))) as [(s1 & c)| |] eqn:A; try discriminate. cbn in E.
  destruct (attach_keeps _ _ _ _ _ A) as (K & _). destruct (K _ _ G) as (np1 & G1 & S1).
  destruct (IH s1 p np1) with (s' := s') as (W' & K'); auto; [|congruence|split; auto; eapply keeps_trans; eauto].
  eapply wf_attach; eauto. intros x [= <-]. rewrite S. eauto.
Qed.
Lemma process_node_wf prims t : forall s p np, wf s -> get s p = Some np -> n_scene np = false -> forall s', process_node prims s p t = Ok s' -> wf s' /\ keeps s s'.
Proof.
  induction t as [name ms kids IH] using mtree_ind'. intros s p np W G S s' E. cbn in E.
  destruct (attach s p None) as [(s1 & c)| |] eqn:A; try discriminate. cbn in E.
  destruct (attach_keeps _ _ _ _ _ A) as (K1 & nc & GC & np' & G' & SC). rewrite G in G'. injection G' as <-.
  assert (W1 : wf s1) by (eapply wf_attach; eauto; intros x; discriminate).
  destruct (add "FrameNode" (sc_nreg s1) (N.of_nat c) name) as [r| |] eqn:AD; try discriminate. cbn in E.
  assert (W2 : wf (w_nreg r s1)). { eapply wf_register; eauto. rewrite Nnat.Nat2N.id. exists nc. split; auto. congruence. }
  destruct (add_meshes prims (w_nreg r s1) c ms) as [s2| |] eqn:AM; try discriminate. cbn in E.
  destruct (add_meshes_wf prims ms (w_nreg r s1) c nc W2) with (s' := s2) as (W3 & K3); auto; [congruence|].
  assert (K13 : keeps s s2) by (intros i n GI; destruct (K1 _ _ GI) as (m & GM & SM); destruct (K3 i m GM) as (k & GK & SK); exists k; split; auto; congruence).
  destruct (K3 c nc GC) as (nc2 & GC2 & SC2). assert (SF : n_scene nc2 = false) by congruence. clear AM AD A W1 W2 K3 GC SC SC2.
  revert s2 nc2 W3 K13 GC2 SF s' E. induction IH as [|k kids IHk IHks IHl]; cbn; intros s2 nc2 W3 K13 GC2 SF s' E; [injection E as <-; auto|].
  destruct (process_node prims s2 c k) as [s3| |] eqn:PN; try discriminate. cbn in E. destruct (IHk s2 c nc2 W3 GC2 SF s3 PN) as (W4 & K4).
  destruct (K4 _ _ GC2) as (nc3 & GC3 & SC3). apply (IHl s3 nc3); auto; [eapply keeps_trans; eauto|congruence].
Qed.
Lemma process_list_wf prims p kids : forall s np, wf s -> get s p = Some np -> n_scene np = false -> forall s', process_list (fun s k => process_node prims s p k) s kids = Ok s' -> wf s' /\ keeps s s'.
Proof.
  induction kids as [|k kids IH]; cbn; intros s np W G S s' E; [injection E as <-; split; auto; apply keeps_refl|].
  destruct (process_node prims s p k) as [s1| |] eqn:PN; try discriminate. cbn in E. destruct (process_node_wf prims k s p np W G S s1 PN) as (W1 & K1).
  destruct (K1 _ _ G) as (np1 & G1 & S1). destruct (IH s1 np1 W1 G1) with (s' := s') as (W2 & K2); auto; [congruence|]. split; auto. eapply keeps_trans; eauto.
Qed.
Lemma load_meshes_same n s : let s' := fst (load_meshes n s) in sc_nodes s' = sc_nodes s /\ sc_nreg s' = sc_nreg s /\ sc_others s' = sc_others s /\ sc_models s' = sc_models s /\ incl (sc_prims s) (sc_prims s').
Proof.
  induction n as [|n IH]; cbn; [repeat split; auto; apply incl_refl|]. destruct (load_meshes n s) as (s1 & l). cbn in *. destruct IH as (A & B & C & D & F). repeat split; auto. apply incl_appl; auto.
Qed.
Lemma has_prim_incl s s' i : incl (sc_prims s) (sc_prims s') -> has_prim s i = true -> has_prim s' i = true.
Proof. unfold has_prim. intros I H. apply existsb_exists in H. destruct H as (x & X & E). apply existsb_exists. exists x. auto. Qed.
Lemma load_model_split s nm rm kids s' : wf s -> load_model s nm rm kids = Ok s' -> exists s2 s3 prims root, wf s2 /\ get s2 root = Some (fresh false None None)
  /\ (forall i n, get s i = Some n -> get s2 i = Some n) /\ (forall i n, get s2 i = Some n -> (i = root /\ n = fresh false None None) \/ get s i = Some n)
  /\ process_list (fun s k => process_node prims s root k) s2 kids = Ok s3 /\ add_meshes prims s3 root rm = Ok s'.
Proof.
  intros W E. unfold load_model in E. pose proof (load_meshes_same nm (w_others (sc_others s ++ [AModel (sc_next s)]) (bump s))) as LM.
  destruct (load_meshes nm _) as (s1 & prims). cbn in LM. destruct LM as (N1 & R1 & O1 & M1 & P1). set (root := List.length (sc_nodes s1)) in *. set (m := sc_next s) in *.
  set (s2 := w_models _ _) in E. assert (LN : root = List.length (sc_nodes s)) by (unfold root; rewrite N1; auto).
  assert (G2 : forall i, get s2 i = if Nat.eqb i root then Some (fresh false None None) else get s i).
  { intros i. unfold get, s2. cbn. rewrite N1. destruct (Nat.eqb_spec i root) as [->|N].
    - rewrite nth_error_app2 by lia. rewrite LN, Nat.sub_diag. reflexivity.
    - destruct (Nat.lt_ge_cases i root); [apply nth_error_app1; lia|]. rewrite nth_error_app2 by lia. destruct (i - _)%nat as [|k] eqn:Z; [lia|]. cbn. destruct k; cbn; symmetry; apply nth_error_None; lia. }
  assert (O2 : forall i n, get s i = Some n -> get s2 i = Some n).
  { intros i n G. rewrite G2. pose proof (get_lt _ _ _ G). destruct (Nat.eqb_spec i root); [lia|auto]. }
  assert (I2 : forall i n, get s2 i = Some n -> (i = root /\ n = fresh false None None) \/ get s i = Some n).
  { intros i n. rewrite G2. destruct (Nat.eqb_spec i root) as [->|]; auto. intros [= <-]. auto. }
  assert (KN : forall a, known s a = true -> known s2 a = true).
  { intros a. destruct a; cbn; rewrite ?O1; try (intros H; rewrite existsb_app, H; reflexivity). apply has_prim_incl. cbn. auto. }
  assert (W2 : wf s2).
  { split.
    - intros i n c G I. destruct (I2 _ _ G) as [(-> & ->)|G0]; [destruct I|]. destruct (wf_child _ W _ _ _ G0 I) as (L & nc & C1 & C2). split; auto. exists nc. auto.
    - intros i n G. destruct (I2 _ _ G) as [(-> & ->)|G0]; [constructor|]. eapply wf_nodup; eauto.
    - intros i n p G P. destruct (I2 _ _ G) as [(-> & ->)|G0]; [discriminate|]. destruct (wf_parent _ W _ _ _ G0 P) as (np & C1 & C2). exists np. auto.
    - destruct (wf_root _ W) as (n & G & C). exists n. auto.
    - intros i n G S P. destruct (I2 _ _ G) as [(-> & ->)|G0]; [discriminate|]. eapply wf_one; eauto.
    - intros o I. cbn in I. rewrite R1 in I. destruct (wf_reg _ W _ I) as (n & G & S). exists n. auto.
    - intros x r I. cbn in I. rewrite M1 in I. apply in_app_or in I. destruct I as [I|[[= <- <-]|[]]].
      + destruct (wf_model _ W _ _ I) as (n & G & S). exists n. auto.
      + eexists. rewrite G2, Nat.eqb_refl. split; reflexivity.
    - intros i n a G S A. destruct (I2 _ _ G) as [(-> & ->)|G0]; [discriminate|]. eapply wf_inner; eauto.
    - intros i n a G S A. destruct (I2 _ _ G) as [(-> & ->)|G0]; [discriminate|]. apply KN. eapply wf_known; eauto.
    - intros x Q. unfold model_root. cbn in *. rewrite M1. rewrite O1, existsb_app in Q.
      assert (FA : forall l z, List.find (fun y : nat * nat => Nat.eqb (fst y) x) (l ++ [z]) = match List.find (fun y => Nat.eqb (fst y) x) l with Some y => Some y | None => if Nat.eqb (fst z) x then Some z else None end).
      { clear. induction l as [|y l IH]; cbn; intros z; auto. destruct (Nat.eqb (fst y) x); auto. }
      rewrite FA. destruct (List.find _ (sc_models s)) as [y|] eqn:F; [cbn; eauto|]. apply orb_true_iff in Q. destruct Q as [Q|Q].
      + destruct (wf_mroot _ W x Q) as (r & R). unfold model_root in R. rewrite F in R. discriminate.
      + cbn in Q. rewrite orb_false_r in Q. apply Nat.eqb_eq in Q. subst x. cbn. rewrite Nat.eqb_refl. cbn. eauto. }
  destruct (process_list _ s2 kids) as [s3| |] eqn:PL; try discriminate. cbn in E.
  assert (GR : get s2 root = Some (fresh false None None)) by (rewrite G2, Nat.eqb_refl; auto).
  exists s2, s3, prims, root. split; [exact W2|]. split; [exact GR|]. split; [exact O2|]. split; [exact I2|]. split; [exact PL|exact E].
Qed.
Lemma load_model_wf s nm rm kids s' : wf s -> load_model s nm rm kids = Ok s' -> wf s' /\ keeps s s'.
Proof.
  intros W E. destruct (load_model_split _ _ _ _ _ W E) as (s2 & s3 & prims & root & W2 & GR & O2 & I2 & PL & AM). clear E.
  destruct (process_list_wf prims root kids s2 _ W2 GR eq_refl s3 PL) as (W3 & K3). destruct (K3 _ _ GR) as (nr & GR3 & SR3).
  destruct (add_meshes_wf prims rm s3 root nr W3 GR3 SR3 s' AM) as (W4 & K4). split; auto.
  intros i n G. destruct (K3 _ _ (O2 _ _ G)) as (n3 & G3 & S3). destruct (K4 _ _ G3) as (n4 & G4 & S4). exists n4. split; auto. congruence.
Qed.

(* every call keeps the invariant *)
Lemma sstep_wf s o : wf s -> wf (fst (sstep s o)).
Proof.
  intros W. destruct o; cbn.
  - unfold user_frame. destruct (get s p) as [np|] eqn:P; auto. destruct (n_scene np && _); auto. destruct (attach s p None) as [(s' & c)| |] eqn:A; cbn; auto.
    eapply wf_attach; eauto. intros x; discriminate.
  - unfold user_frame. destruct (get s p) as [np|] eqn:P; auto. destruct (n_scene np) eqn:S; cbn; auto. destruct (n_asset np); cbn; auto. destruct (known s a) eqn:K; auto.
    destruct (attach s p (Some a)) as [(s' & c)| |] eqn:A; cbn; auto. eapply wf_attach; eauto. intros x [= <-]. rewrite S. auto.
  - destruct (get s i) as [n|] eqn:G; auto. destruct (n_scene n); auto. destruct (setter s n o) as [n'| |] eqn:E; cbn; auto. eapply put_skel; eauto. eapply setter_skel; eauto.
  - destruct (user_frame s p) eqn:P; cbn; auto. destruct (user_node s c) eqn:C; auto. unfold user_frame in P. unfold user_node in C.
    destruct (get s p) as [np|] eqn:GP; [|discriminate]. destruct (get s c) as [nc|] eqn:GC; [|discriminate]. apply andb_true_iff in P. destruct P as (P & _).
    rewrite (delete_child_throws s p c np nc W GP P GC). auto.
  - apply (wf_assets s); auto. intros m Q. apply (wf_mroot _ W m Q).
  - destruct (existsb _ _); cbn; auto. apply (wf_assets s); auto.
    + intros i n a _ _ _ K. destruct a; auto. eapply has_prim_incl; [|exact K]. cbn. apply incl_appl, incl_refl.
    + intros m Q. apply (wf_mroot _ W m Q).
  - apply (wf_assets s); auto.
    + intros i n a _ _ _ K. destruct a; auto; cbn in *; rewrite existsb_app, K; reflexivity.
    + intros m Q. apply (wf_mroot _ W m). cbn in *. rewrite existsb_app in Q. cbn in Q. rewrite !orb_false_r in Q. auto.
  - apply (wf_assets s); auto.
    + intros i n a _ _ _ K. destruct a; auto; cbn in *; rewrite existsb_app, K; reflexivity.
    + intros m Q. apply (wf_mroot _ W m). cbn in *. rewrite existsb_app in Q. cbn in Q. rewrite !orb_false_r in Q. auto.
  - apply (wf_assets s); auto.
    + intros i n a _ _ _ K. destruct a; auto; cbn in *; rewrite existsb_app, K; reflexivity.
    + intros m Q. apply (wf_mroot _ W m). cbn in *. rewrite existsb_app in Q. cbn in Q. rewrite !orb_false_r in Q. auto.
  - destruct (load_model s nmesh root_meshes kids) as [s'| |] eqn:E; cbn; auto. apply (load_model_wf _ _ _ _ _ W E).
  - destruct (has_prim s i); auto. apply delete_primitive_wf; auto.
  - destruct (existsb _ _); auto. apply delete_other_wf; auto.
  - destruct (existsb _ _); auto. apply delete_geometry_wf; auto.
Qed.
Lemma srun_wf ops : forall s, wf s -> wf (srun ops s).
Proof. induction ops as [|o ops IH]; intros s W; auto. apply IH. apply sstep_wf; auto. Qed.
Lemma reachable_wf s : reachable s -> wf s.
Proof. intros (ops & ->). apply srun_wf, wf_new. Qed.
