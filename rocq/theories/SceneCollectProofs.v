(* Lemmas: what a scene view collects, and the material search. *)
From Verif Require Import Common RegistryModel SceneModel SceneSpec SceneProofs SceneViewProofs.
From Coq Require Import Permutation.

(** the traversal as a list of visited nodes; None marks a failed visit *)
Fixpoint flat (fuel : nat) (s : scene) (path : list nat) (i : nat) {struct fuel} : list (option (nat * list nat)) :=
  match fuel with O => [None] | S f =>
  match get s i with None => [None] | Some n =>
    let path' := path ++ [i] in
    Some (i, path') :: (match n_asset n with Some (AModel m) => match model_root s m with Some r => flat f s path' r | None => [None] end | _ => [] end)
      ++ flat_map (flat f s path') (n_children n)
  end end.
Definition add_node (s : scene) (v : view) (e : nat * list nat) : outcome view :=
  match get s (fst e) with None => UB | Some n =>
    match n_asset n with
    | None | Some (ACamera _) | Some (AModel _) => Ok v
    | Some (APrim p) => if has_prim s p then Ok (View (add_batch p (snd e) (v_batches v)) (v_lights v) (v_unresolved v)) else UB
    | Some (ALight l) => if existsb (asset_eqb (ALight l)) (sc_others s) then Ok (View (v_batches v) (v_lights v ++ [(l, snd e)]) (v_unresolved v)) else UB
    | Some (AUnresolved l) => if existsb (asset_eqb (AUnresolved l)) (sc_others s) then Ok (View (v_batches v) (v_lights v) (v_unresolved v ++ [(l, snd e)])) else UB
    end end.
Fixpoint go (s : scene) (l : list (option (nat * list nat))) (v : view) : outcome view :=
  match l with [] => Ok v | None :: _ => UB | Some e :: r => obind (add_node s v e) (go s r) end.
Lemma go_app s l : forall r v, go s (l ++ r) v = obind (go s l v) (go s r).
Proof. induction l as [|[e|] l IH]; cbn; intros r v; auto. destruct (add_node s v e); cbn; auto. Qed.
Lemma visit_go s : forall f path v i, visit f s path v i = go s (flat f s path i) v.
Proof.
  induction f as [|f IH]; cbn; intros path v i; auto. destruct (get s i) as [n|] eqn:G; auto. cbn. unfold add_node. cbn [fst snd]. rewrite G.
  assert (VL : forall cs w, visit_list (visit f s (path ++ [i])) w cs = go s (flat_map (flat f s (path ++ [i])) cs) w).
  { induction cs as [|c cs IHc]; cbn; intros w; auto. rewrite go_app, IH. destruct (go s (flat f s (path ++ [i]) c) w); cbn; auto. }
  destruct (n_asset n) as [[p|l|l|l|m]|]; cbn.
  - destruct (has_prim s p); cbn; auto.
  - destruct (existsb _ _); cbn; auto.
  - destruct (existsb _ _); cbn; auto.
  - auto.
  - destruct (model_root s m) as [r|]; cbn; auto. rewrite go_app, IH. destruct (go s (flat f s (path ++ [i]) r) v); cbn; auto.
  - auto.
Qed.

Definition budget (s : scene) (i : nat) (n : node) := if n_scene n then (2 * List.length (sc_nodes s) - i)%nat else (List.length (sc_nodes s) - i)%nat.
Lemma model_root_in s m r : model_root s m = Some r -> In (m, r) (sc_models s).
Proof.
  unfold model_root. destruct (List.find _ _) as [[m' r']|] eqn:F; cbn; [|discriminate]. intros [= <-]. apply find_some in F. destruct F as (I & E). apply Nat.eqb_eq in E. cbn in E. subst m'. auto.
Qed.
Lemma child_budget s i n c : wf s -> get s i = Some n -> In c (n_children n) -> exists nc, get s c = Some nc /\ (budget s c nc < budget s i n)%nat.
Proof.
  intros W G I. destruct (wf_child _ W _ _ _ G I) as (L & nc & GC & _ & SC). exists nc. split; auto. pose proof (get_lt _ _ _ G). pose proof (get_lt _ _ _ GC).
  unfold budget. rewrite SC. destruct (n_scene n); lia.
Qed.
Lemma model_budget s i n m : wf s -> get s i = Some n -> n_asset n = Some (AModel m) -> exists r nr, model_root s m = Some r /\ get s r = Some nr /\ n_scene nr = false /\ n_scene n = true /\ (budget s r nr < budget s i n)%nat.
Proof.
  intros W G A. destruct (n_scene n) eqn:S.
  - destruct (wf_mroot _ W m) as (r & R); [apply (wf_known _ W i n); auto|]. destruct (wf_model _ W m r (model_root_in _ _ _ R)) as (nr & GR & SR). exists r, nr. repeat split; auto.
    pose proof (get_lt _ _ _ G). pose proof (get_lt _ _ _ GR). unfold budget. rewrite S, SR. lia.
  - destruct (wf_inner _ W _ _ _ G S A) as (p & X). discriminate.
Qed.
Lemma flat_total s : wf s -> forall f path i n, get s i = Some n -> (budget s i n < f)%nat -> ~ In None (flat f s path i).
Proof.
  intros W. induction f as [|f IH]; intros path i n G L; [lia|]. cbn. rewrite G. intros [X|X]; [discriminate|]. apply in_app_or in X. destruct X as [X|X].
  - destruct (n_asset n) as [[p|l|l|l|m]|] eqn:A; try destruct X. destruct (model_budget s i n m W G A) as (r & nr & R & GR & SR & SN & B). rewrite R in X. eapply IH; [exact GR| |exact X]. lia.
  - apply in_flat_map in X. destruct X as (c & I & X). destruct (child_budget s i n c W G I) as (nc & GC & B). eapply IH; [exact GC| |exact X]. lia.
Qed.
Lemma flat_head f s path i n : get s i = Some n -> In (Some (i, path ++ [i])) (flat (S f) s path i).
Proof. intros G. cbn. rewrite G. left. auto. Qed.
Lemma flat_sound s : forall f path i j q, (occurs s (path ++ [i]) i) -> In (Some (j, q)) (flat f s path i) -> occurs s q j.
Proof.
  induction f as [|f IH]; cbn; intros path i j q O I; [destruct I as [I|[]]; discriminate|]. destruct (get s i) as [n|] eqn:G; [|destruct I as [I|[]]; discriminate].
  destruct I as [I|I]; [injection I as <- <-; auto|]. apply in_app_or in I. destruct I as [I|I].
  - destruct (n_asset n) as [[p|l|l|l|m]|] eqn:A; try destruct I. destruct (model_root s m) as [r|] eqn:R; [|destruct I as [I|[]]; discriminate].
    eapply IH; [|exact I]. eapply occ_model; eauto. exists n. auto.
  - apply in_flat_map in I. destruct I as (c & IC & I). eapply IH; [|exact I]. eapply occ_child; eauto. exists n. auto.
Qed.
Lemma flat_children s : wf s -> forall f path i n j q c, get s i = Some n -> (budget s i n < f)%nat -> In (Some (j, q)) (flat f s path i) ->
  (child_of s j c \/ exists m, refers s j (AModel m) /\ model_root s m = Some c) -> In (Some (c, q ++ [c])) (flat f s path i).
Proof.
  intros W. induction f as [|f IH]; intros path i n j q c G L I H; [lia|]. cbn in I |- *. rewrite G in *.
  destruct I as [I|I].
  - injection I as <- <-. right. apply in_or_app. destruct H as [(n' & G' & IC)|(m & (n' & G' & A) & R)]; rewrite G in G'; injection G' as <-.
    + right. apply in_flat_map. exists c. split; auto. destruct (child_budget s i n c W G IC) as (nc & GC & B). destruct f; [lia|]. eapply flat_head; eauto.
    + left. rewrite A, R. destruct (model_budget s i n m W G A) as (r & nr & R' & GR & SR & SN & B). rewrite R in R'. injection R' as <-. destruct f; [lia|]. eapply flat_head; eauto.
  - right. apply in_app_or in I. apply in_or_app. destruct I as [I|I].
    + left. destruct (n_asset n) as [[p|l|l|l|m]|] eqn:A; try destruct I. destruct (model_budget s i n m W G A) as (r & nr & R & GR & SR & SN & B). rewrite R in *. eapply IH; eauto; lia.
    + right. apply in_flat_map in I. destruct I as (k & IK & I). apply in_flat_map. exists k. split; auto. destruct (child_budget s i n k W G IK) as (nk & GK & B). eapply IH; eauto; lia.
Qed.
Definition all_nodes (s : scene) := flat (2 * List.length (sc_nodes s) + 2) s [] 0.
Lemma flat_occurs s q j : wf s -> In (Some (j, q)) (all_nodes s) <-> occurs s q j.
Proof.
  intros W. destruct (wf_root _ W) as (n0 & G0 & S0 & _). assert (B : (budget s 0 n0 < 2 * List.length (sc_nodes s) + 2)%nat) by (unfold budget; rewrite S0; lia). unfold all_nodes. split.
  - apply flat_sound. apply (occ_root s).
  - intros O. induction O as [|path i c O IH CO|path i m r O IH RF MR].
    + replace (2 * List.length (sc_nodes s) + 2)%nat with (S (2 * List.length (sc_nodes s) + 1)) by lia. apply (flat_head _ s [] 0 n0 G0).
    + eapply flat_children; eauto.
    + eapply flat_children; eauto.
Qed.
(* every path below a node starts with the path of the node *)
Lemma flat_prefix s : forall f path i j q, In (Some (j, q)) (flat f s path i) -> exists t, q = path ++ i :: t.
Proof.
  induction f as [|f IH]; cbn; intros path i j q I; [destruct I as [I|[]]; discriminate|]. destruct (get s i) as [n|] eqn:G; [|destruct I as [I|[]]; discriminate].
  destruct I as [I|I]; [injection I as <- <-; exists []; auto|]. apply in_app_or in I.
  assert (X : exists k, In (Some (j, q)) (flat f s (path ++ [i]) k)).
  { destruct I as [I|I].
    - destruct (n_asset n) as [[p|l|l|l|m]|]; try destruct I. destruct (model_root s m) as [r|]; [eauto|destruct I as [I|[]]; discriminate].
    - apply in_flat_map in I. destruct I as (c & _ & I). eauto. }
  destruct X as (k & X). destruct (IH _ _ _ _ X) as (t & ->). exists (k :: t). rewrite <- app_assoc. auto.
Qed.
Lemma nodup_app {A} (l r : list A) : NoDup l -> NoDup r -> (forall x, In x l -> ~ In x r) -> NoDup (l ++ r).
Proof.
  intros N1 N2 D. induction l as [|x l IH]; cbn; auto. inversion N1; subst. constructor.
  - intros I. apply in_app_or in I. destruct I as [I|I]; [auto|]. apply (D x); [left; auto|auto].
  - apply IH; auto. intros y I. apply D. right. auto.
Qed.
Lemma prefix_inj (path t u : list nat) (i j : nat) : path ++ i :: t = path ++ j :: u -> i = j.
Proof. intros E. apply app_inv_head in E. congruence. Qed.
Lemma flat_nodup s : wf s -> forall f path i n, get s i = Some n -> (budget s i n < f)%nat -> NoDup (map (option_map snd) (flat f s path i)).
Proof.
  intros W. induction f as [|f IH]; intros path i n G L; [lia|]. cbn. rewrite G. cbn. rewrite map_app.
  assert (PF : forall k x, In x (map (option_map snd) (flat f s (path ++ [i]) k)) -> x <> None -> exists t, x = Some ((path ++ [i]) ++ k :: t)).
  { intros k x I N. apply in_map_iff in I. destruct I as ([(j & q)|] & <- & I); [|cbn in N; congruence]. destruct (flat_prefix s _ _ _ _ _ I) as (t & ->). exists t. auto. }
  assert (LONG : forall k t, Some (path ++ [i]) <> Some ((path ++ [i]) ++ k :: t)).
  { intros k t E. injection E as E. apply (f_equal (@List.length nat)) in E. rewrite !app_length in E. cbn in E. lia. }
  assert (TOT : forall k nk, get s k = Some nk -> (budget s k nk < f)%nat -> ~ In None (map (option_map snd) (flat f s (path ++ [i]) k))).
  { intros k nk GK B I. apply in_map_iff in I. destruct I as ([(j & q)|] & E & I); [discriminate|]. eapply flat_total; eauto. }
  assert (KIDS : forall cs, (forall c, In c cs -> In c (n_children n)) -> NoDup cs -> NoDup (map (option_map snd) (flat_map (flat f s (path ++ [i])) cs))
     /\ forall x, In x (map (option_map snd) (flat_map (flat f s (path ++ [i])) cs)) -> exists c t, In c cs /\ x = Some ((path ++ [i]) ++ c :: t)).
  { induction cs as [|c cs IHc]; cbn; intros IN ND; [split; [constructor|intros x []]|]. inversion ND; subst. destruct IHc as (N2 & P2); auto.
    destruct (child_budget s i n c W G (IN c (or_introl eq_refl))) as (nc & GC & B). rewrite map_app.
    assert (P1 : forall x, In x (map (option_map snd) (flat f s (path ++ [i]) c)) -> exists t, x = Some ((path ++ [i]) ++ c :: t)).
    { intros x I. apply PF; auto. intros ->. eapply TOT; eauto. lia. }
    split.
    - apply nodup_app; auto; [eapply IH; eauto; lia|]. intros x I1 I2. destruct (P1 x I1) as (t & E1). destruct (P2 x I2) as (c' & u & IC & E2). rewrite E1 in E2. injection E2 as E2. apply prefix_inj in E2. subst c'. auto.
    - intros x I. apply in_app_or in I. destruct I as [I|I]; [destruct (P1 x I) as (t & E); eauto|]. destruct (P2 x I) as (c' & u & IC & E2). eauto. }
  destruct (KIDS (n_children n) (fun c I => I) (wf_nodup _ W _ _ G)) as (NK & PK).
  constructor.
  - intros I. apply in_app_or in I. destruct I as [I|I].
    + destruct (n_asset n) as [[p|l|l|l|m]|] eqn:A; try destruct I. destruct (model_budget s i n m W G A) as (r & nr & R & GR & SR & SN & B). rewrite R in I. destruct (PF r _ I) as (t & E); [discriminate|]. eapply LONG; eauto.
    + destruct (PK _ I) as (c & t & _ & E). eapply LONG; eauto.
  - apply nodup_app; auto.
    + destruct (n_asset n) as [[p|l|l|l|m]|] eqn:A; try constructor. destruct (model_budget s i n m W G A) as (r & nr & R & GR & SR & SN & B). rewrite R. eapply IH; eauto. lia.
    + intros x I1 I2. destruct (n_asset n) as [[p|l|l|l|m]|] eqn:A; try destruct I1. destruct (model_budget s i n m W G A) as (r & nr & R & GR & SR & SN & B). rewrite R in I1.
      destruct (PK _ I2) as (c & t & IC & E). destruct (PF r x I1) as (u & E'); [rewrite E; discriminate|]. rewrite E in E'. injection E' as E'. apply prefix_inj in E'. subst c.
      destruct (wf_child _ W _ _ _ G IC) as (_ & nc & GC & _ & SC). rewrite GR in GC. injection GC as <-. congruence.
Qed.

(** what the batches hold *)
Definition pairs (b : list (nat * list (list nat))) : list (nat * list nat) := flat_map (fun x => map (pair (fst x)) (snd x)) b.
Lemma in_pairs b p q : In (p, q) (pairs b) <-> exists l, In (p, l) b /\ In q l.
Proof.
  unfold pairs. rewrite in_flat_map. split.
  - intros ((p' & l) & I & J). cbn in J. apply in_map_iff in J. destruct J as (q' & E & J). injection E as <- <-. eauto.
  - intros (l & I & J). exists (p, l). split; auto. cbn. apply in_map. auto.
Qed.
Lemma add_batch_pairs p q b : Permutation (pairs (add_batch p q b)) ((p, q) :: pairs b).
Proof.
  induction b as [|(j & l) b IH]; cbn; auto. destruct (Nat.eqb_spec p j) as [->|N]; cbn.
  - rewrite map_app. cbn. rewrite <- app_assoc. cbn. symmetry. apply Permutation_middle.
  - fold (pairs (add_batch p q b)). rewrite IH. symmetry. apply Permutation_middle.
Qed.
Lemma add_batch_keys p q b x : In x (map fst (add_batch p q b)) <-> x = p \/ In x (map fst b).
Proof.
  induction b as [|(j & l) b IH]; cbn; [intuition|]. destruct (Nat.eqb_spec p j) as [->|N]; cbn; [intuition|]. rewrite IH. intuition.
Qed.
Lemma add_batch_nodup p q b : NoDup (map fst b) -> NoDup (map fst (add_batch p q b)).
Proof.
  induction b as [|(j & l) b IH]; cbn; intros N; [constructor; auto; constructor|]. inversion N; subst. destruct (Nat.eqb_spec p j) as [->|NE]; cbn; auto.
  constructor; auto. rewrite add_batch_keys. intros [E|I]; auto.
Qed.
Definition asset_at (s : scene) (i : nat) := match get s i with Some n => n_asset n | None => None end.
Definition sel_prim (s : scene) (e : option (nat * list nat)) := match e with Some (i, q) => match asset_at s i with Some (APrim p) => [(p, q)] | _ => [] end | None => [] end.
Definition sel_light (s : scene) (e : option (nat * list nat)) := match e with Some (i, q) => match asset_at s i with Some (ALight p) => [(p, q)] | _ => [] end | None => [] end.
Definition sel_unres (s : scene) (e : option (nat * list nat)) := match e with Some (i, q) => match asset_at s i with Some (AUnresolved p) => [(p, q)] | _ => [] end | None => [] end.
Lemma go_spec s : forall l v v', NoDup (map fst (v_batches v)) -> go s l v = Ok v' ->
  Permutation (pairs (v_batches v')) (pairs (v_batches v) ++ flat_map (sel_prim s) l) /\ NoDup (map fst (v_batches v')) /\
  v_lights v' = v_lights v ++ flat_map (sel_light s) l /\ v_unresolved v' = v_unresolved v ++ flat_map (sel_unres s) l.
Proof.
  induction l as [|[(i & q)|] l IH]; cbn; intros v v' N H; [injection H as <-; rewrite !app_nil_r; auto| |discriminate].
  unfold add_node in H. cbn [fst snd] in H. unfold asset_at. destruct (get s i) as [n|] eqn:G; [|discriminate].
  destruct (n_asset n) as [[p|p|p|p|m]|]; cbn in H |- *.
  - destruct (has_prim s p); [|discriminate]. cbn in H. apply IH in H; [|cbn; apply add_batch_nodup; auto]. cbn in H. destruct H as (A & B & C & D). split; auto.
    rewrite A, add_batch_pairs. cbn. apply Permutation_middle.
  - destruct (existsb _ _); [|discriminate]. cbn in H. apply IH in H; [|auto]. cbn in H. destruct H as (A & B & C & D). rewrite C, <- app_assoc. auto.
  - destruct (existsb _ _); [|discriminate]. cbn in H. apply IH in H; [|auto]. cbn in H. destruct H as (A & B & C & D). rewrite D, <- app_assoc. auto.
  - apply IH; auto.
  - apply IH; auto.
  - apply IH; auto.
Qed.
Lemma go_ok s : forall l v, (forall e, In e l -> exists i q n, e = Some (i, q) /\ get s i = Some n /\ match n_asset n with Some (APrim p) => has_prim s p = true | Some a => known s a = true | None => True end) -> exists v', go s l v = Ok v'.
Proof.
  induction l as [|e l IH]; cbn; intros v H; [eauto|]. destruct (H e (or_introl eq_refl)) as (i & q & n & -> & G & K). unfold add_node. cbn [fst snd]. rewrite G.
  destruct (n_asset n) as [[p|p|p|p|m]|]; cbn in K |- *; try rewrite K; cbn; apply IH; auto.
Qed.
(* selections keep distinct paths apart *)
Lemma sel_in s (sel : scene -> option (nat * list nat) -> list (nat * list nat)) (mk : nat -> asset) :
  (forall e p q, In (p, q) (sel s e) <-> exists i, e = Some (i, q) /\ refers s i (mk p)) -> (forall e, NoDup (sel s e)) ->
  forall l, NoDup (map (option_map snd) l) -> NoDup (flat_map (sel s) l) /\ forall p q, In (p, q) (flat_map (sel s) l) <-> exists i, In (Some (i, q)) l /\ refers s i (mk p).
Proof.
  intros HS HN. induction l as [|e l IH]; cbn; intros N; [split; [constructor|intros p q; split; [intros []|intros (i & [] & _)]]|]. inversion N; subst. destruct (IH H2) as (N2 & I2). split.
  - apply nodup_app; auto. intros (p & q) I1 IL. apply HS in I1. destruct I1 as (i & -> & _). apply I2 in IL. destruct IL as (j & IJ & _). apply H1. apply in_map_iff. exists (Some (j, q)). auto.
  - intros p q. rewrite in_app_iff, HS, I2. split.
    + intros [(i & -> & R)|(i & I & R)]; eauto.
    + intros (i & [->|I] & R); eauto.
Qed.
Lemma sel_prim_in s e p q : In (p, q) (sel_prim s e) <-> exists i, e = Some (i, q) /\ refers s i (APrim p).
Proof.
  unfold sel_prim, asset_at, refers. destruct e as [(i & q')|]; [|split; [intros []|intros (i & X & _); discriminate]]. destruct (get s i) as [n|] eqn:G.
  - destruct (n_asset n) as [[x|x|x|x|x]|] eqn:A; cbn; split; try tauto; try (intros (j & E & n' & G' & A'); injection E as <- <-; rewrite G in G'; injection G' as <-; congruence).
    + intros [E|[]]. injection E as <- <-. eauto.
    + intros (j & E & n' & G' & A'). injection E as <- <-. rewrite G in G'. injection G' as <-. left. congruence.
  - split; [intros []|]. intros (j & E & n' & G' & A'). injection E as <- <-. congruence.
Qed.
Lemma sel_light_in s e p q : In (p, q) (sel_light s e) <-> exists i, e = Some (i, q) /\ refers s i (ALight p).
Proof.
  unfold sel_light, asset_at, refers. destruct e as [(i & q')|]; [|split; [intros []|intros (i & X & _); discriminate]]. destruct (get s i) as [n|] eqn:G.
  - destruct (n_asset n) as [[x|x|x|x|x]|] eqn:A; cbn; split; try tauto; try (intros (j & E & n' & G' & A'); injection E as <- <-; rewrite G in G'; injection G' as <-; congruence).
    + intros [E|[]]. injection E as <- <-. eauto.
    + intros (j & E & n' & G' & A'). injection E as <- <-. rewrite G in G'. injection G' as <-. left. congruence.
  - split; [intros []|]. intros (j & E & n' & G' & A'). injection E as <- <-. congruence.
Qed.
Lemma sel_unres_in s e p q : In (p, q) (sel_unres s e) <-> exists i, e = Some (i, q) /\ refers s i (AUnresolved p).
Proof.
  unfold sel_unres, asset_at, refers. destruct e as [(i & q')|]; [|split; [intros []|intros (i & X & _); discriminate]]. destruct (get s i) as [n|] eqn:G.
  - destruct (n_asset n) as [[x|x|x|x|x]|] eqn:A; cbn; split; try tauto; try (intros (j & E & n' & G' & A'); injection E as <- <-; rewrite G in G'; injection G' as <-; congruence).
    + intros [E|[]]. injection E as <- <-. eauto.
    + intros (j & E & n' & G' & A'). injection E as <- <-. rewrite G in G'. injection G' as <-. left. congruence.
  - split; [intros []|]. intros (j & E & n' & G' & A'). injection E as <- <-. congruence.
Qed.
Lemma sel_nd s e : NoDup (sel_prim s e) /\ NoDup (sel_light s e) /\ NoDup (sel_unres s e).
Proof.
  unfold sel_prim, sel_light, sel_unres. destruct e as [(i & q)|]; [|repeat split; constructor]. destruct (asset_at s i) as [[x|x|x|x|x]|]; repeat split; repeat constructor; auto.
Qed.
Lemma batch_nodup b p l : NoDup (pairs b) -> In (p, l) b -> NoDup l.
Proof.
  induction b as [|(j & m) b IH]; cbn; intros N I; [destruct I|]. destruct I as [I|I].
  - injection I as -> ->. clear IH. induction l as [|x l IHl]; [constructor|]. cbn in N. inversion N; subst. constructor; auto. intros I. apply H1. apply in_or_app. left. apply in_map. auto.
  - apply IH; auto. fold (pairs b) in N. clear -N. induction (map (pair j) m); auto. inversion N; auto.
Qed.
Lemma all_nodup s : wf s -> NoDup (map (option_map snd) (all_nodes s)).
Proof.
  intros W. destruct (wf_root _ W) as (n0 & G0 & S0 & _). eapply flat_nodup; eauto. unfold budget. rewrite S0. lia.
Qed.
Lemma collect_spec s v : wf s -> collect s = Ok v ->
  (forall p path, (exists l, In (p, l) (v_batches v) /\ In path l) <-> exists i, occurs s path i /\ refers s i (APrim p)) /\
  NoDup (map fst (v_batches v)) /\ (forall p l, In (p, l) (v_batches v) -> NoDup l) /\
  (forall p path, In (p, path) (v_lights v) <-> exists i, occurs s path i /\ refers s i (ALight p)) /\ NoDup (v_lights v) /\
  (forall p path, In (p, path) (v_unresolved v) <-> exists i, occurs s path i /\ refers s i (AUnresolved p)) /\ NoDup (v_unresolved v).
Proof.
  intros W H. unfold collect in H. rewrite visit_go in H. fold (all_nodes s) in H. destruct (go_spec s (all_nodes s) (View [] [] []) v) as (A & B & C & D); [constructor|exact H|]. cbn in A, C, D.
  pose proof (all_nodup s W) as N.
  destruct (sel_in s sel_prim APrim (sel_prim_in s) (fun e => proj1 (sel_nd s e)) _ N) as (NP & IP).
  destruct (sel_in s sel_light ALight (sel_light_in s) (fun e => proj1 (proj2 (sel_nd s e))) _ N) as (NL & IL).
  destruct (sel_in s sel_unres AUnresolved (sel_unres_in s) (fun e => proj2 (proj2 (sel_nd s e))) _ N) as (NU & IU).
  assert (OC : forall mk path, (exists i, In (Some (i, path)) (all_nodes s) /\ refers s i mk) <-> exists i, occurs s path i /\ refers s i mk).
  { intros mk path. split; intros (i & I & R); exists i; split; auto; apply flat_occurs; auto. }
  split; [|split; [exact B|split; [|split; [|split; [|split]]]]].
  - intros p path. rewrite <- in_pairs, <- OC, <- IP. split; intros I; [eapply Permutation_in; [exact A|auto]|eapply Permutation_in; [symmetry; exact A|auto]].
  - intros p l I. eapply batch_nodup; [|exact I]. eapply Permutation_NoDup; [symmetry; exact A|auto].
  - intros p path. rewrite C, <- OC. apply IL.
  - rewrite C. auto.
  - intros p path. rewrite D, <- OC. apply IU.
  - rewrite D. auto.
Qed.
Lemma collect_total s : wf s -> (forall path i p, occurs s path i -> refers s i (APrim p) -> has_prim s p = true) -> exists v, collect s = Ok v.
Proof.
  intros W H. unfold collect. rewrite visit_go. fold (all_nodes s). apply go_ok. intros e I. destruct e as [(i & q)|].
  - apply flat_occurs in I as O; auto. assert (G : exists n, get s i = Some n).
    { clear I. destruct O as [|path i c O (n & G & I)|path i m r O R MR].
      - destruct (wf_root _ W) as (n & G & _). eauto.
      - destruct (wf_child _ W _ _ _ G I) as (_ & nc & GC & _). eauto.
      - destruct (wf_model _ W m r (model_root_in _ _ _ MR)) as (n & G & _). eauto. }
    destruct G as (n & G). exists i, q, n. split; auto. split; auto. destruct (n_asset n) as [a|] eqn:A; auto.
    assert (K : known s a = true). { destruct (n_scene n) eqn:S; [apply (wf_known _ W i n); auto|]. destruct (wf_inner _ W _ _ _ G S A) as (p & ->). cbn. eapply H; eauto. exists n. auto. }
    destruct a; auto.
  - exfalso. destruct (wf_root _ W) as (n0 & G0 & S0 & _). eapply (flat_total s W); [exact G0| |exact I]. unfold budget. rewrite S0. lia.
Qed.

(** the material search *)
Fixpoint pre (fuel : nat) (s : scene) (i : nat) {struct fuel} : list nat :=
  match fuel with O => [] | S f => i :: match get s i with Some n => flat_map (pre f s) (n_children n) | None => [] end end.
Lemma pre_below s : forall f i j, (exists n, get s i = Some n) -> wf s -> In j (pre f s i) -> below s i j.
Proof.
  induction f as [|f IH]; cbn; intros i j (n & G) W I; [destruct I|]. rewrite G in I. destruct I as [->|I]; [constructor; eauto|]. apply in_flat_map in I. destruct I as (c & IC & I).
  destruct (wf_child _ W _ _ _ G IC) as (_ & nc & GC & _). assert (B : below s c j) by (apply IH; eauto). clear -B G IC GC.
  induction B as [X|q k B IHB CK X]; [econstructor; [constructor; eauto|exists n; auto|eauto]|econstructor; eauto].
Qed.
Lemma pre_in s : wf s -> forall f i n j, get s i = Some n -> (List.length (sc_nodes s) < i + f)%nat -> below s i j -> In j (pre f s i).
Proof.
  intros W. induction f as [|f IH]; intros i n j G L B; [pose proof (get_lt _ _ _ G); lia|]. cbn. rewrite G. destruct (below_split _ _ _ B) as [->|(c & (n' & G' & IC) & BC)]; [left; auto|].
  rewrite G in G'. injection G' as <-. right. apply in_flat_map. exists c. split; auto. destruct (wf_child _ W _ _ _ G IC) as (Lt & nc & GC & _). eapply IH; eauto. lia.
Qed.
Lemma below_le s i j : wf s -> below s i j -> (i <= j)%nat.
Proof. intros W B. induction B as [|q c B IH (n & G & I) X]; auto. destruct (wf_child _ W _ _ _ G I) as (L & _). lia. Qed.
(* two ancestors of a node lie on one path *)
Lemma below_linear s i k j : wf s -> below s i j -> below s k j -> (i <= k)%nat -> below s i k.
Proof.
  intros W B1. revert k. induction B1 as [X|q c B1 IH (n & G & I) X]; intros k B2 L.
  - pose proof (below_le _ _ _ W B2). assert (k = i) by lia. subst k. constructor; auto.
  - destruct B2 as [X2|q2 c B2 (n2 & G2 & I2) X2]; [econstructor; eauto; exists n; auto|]. destruct (wf_child _ W _ _ _ G I) as (_ & nc & GC & PC & _). destruct (wf_child _ W _ _ _ G2 I2) as (_ & nc2 & GC2 & PC2 & _).
    assert (q2 = q) by congruence. subst q2. apply IH; auto.
Qed.
Lemma pre_nodup s : wf s -> forall f i, (exists n, get s i = Some n) -> NoDup (pre f s i).
Proof.
  intros W. induction f as [|f IH]; intros i (n & G); cbn; [constructor|]. rewrite G.
  assert (K : forall cs, (forall c, In c cs -> In c (n_children n)) -> NoDup cs -> NoDup (flat_map (pre f s) cs)).
  { induction cs as [|c cs IHc]; cbn; intros IN ND; [constructor|]. inversion ND; subst. destruct (wf_child _ W _ _ _ G (IN c (or_introl eq_refl))) as (L & nc & GC & PC & _). apply nodup_app; eauto.
    intros j I1 I2. apply in_flat_map in I2. destruct I2 as (d & ID & I2). destruct (wf_child _ W _ _ _ G (IN d (or_intror ID))) as (L2 & nd & GD & PD & _).
    apply pre_below in I1; eauto. apply pre_below in I2; eauto.
    assert (X : below s c d \/ below s d c). { destruct (Nat.le_ge_cases c d); [left; apply (below_linear s c d j)|right; apply (below_linear s d c j)]; auto. }
    assert (Y : forall a b na nb, get s a = Some na -> get s b = Some nb -> n_parent nb = Some i -> (i < a)%nat -> a <> b -> ~ below s a b).
    { clear -W. intros a b na nb GA GB PB L NE B. destruct B as [|q c B (n & G & I) X]; auto. destruct (wf_child _ W _ _ _ G I) as (_ & nc & GC & PC & _). assert (q = i) by congruence. subst q. pose proof (below_le _ _ _ W B). lia. }
    assert (NE : c <> d) by (intros ->; auto). destruct X as [X|X]; [eapply (Y c d); eauto|eapply (Y d c); eauto]. }
  constructor; [|apply K; auto; apply (wf_nodup _ W _ _ G)]. intros I. apply in_flat_map in I. destruct I as (c & IC & I). destruct (wf_child _ W _ _ _ G IC) as (L & nc & GC & _). apply pre_below in I; eauto. apply below_le in I; auto. lia.
Qed.
Lemma nodup_lt_length l : forall N, NoDup l -> (forall x, In x l -> (x < N)%nat) -> (List.length l <= N)%nat.
Proof.
  intros N ND B. rewrite <- (seq_length N 0). apply NoDup_incl_length; auto. intros x I. apply in_seq. specialize (B x I). lia.
Qed.
Lemma pre_length s f i : wf s -> (exists n, get s i = Some n) -> (List.length (pre f s i) <= List.length (sc_nodes s))%nat.
Proof.
  intros W G. apply nodup_lt_length; [apply pre_nodup; auto|]. intros x I. apply pre_below in I; auto. destruct (below_get _ _ _ I) as (n & GX). eapply get_lt; eauto.
Qed.
Lemma pre_fuel s : wf s -> forall f g i, (exists n, get s i = Some n) -> (List.length (sc_nodes s) < i + f)%nat -> (List.length (sc_nodes s) < i + g)%nat -> pre f s i = pre g s i.
Proof.
  intros W. induction f as [|f IH]; intros g i (n & G) L1 L2; pose proof (get_lt _ _ _ G); [lia|]. destruct g as [|g]; [lia|]. cbn. rewrite G. f_equal.
  assert (K : forall cs, (forall c, In c cs -> In c (n_children n)) -> flat_map (pre f s) cs = flat_map (pre g s) cs).
  { induction cs as [|c cs IHc]; cbn; intros IN; auto. destruct (wf_child _ W _ _ _ G (IN c (or_introl eq_refl))) as (L & nc & GC & _). f_equal; [apply IH; eauto; lia|auto]. }
  apply K; auto.
Qed.
Definition subtree (s : scene) (i : nat) := pre (S (List.length (sc_nodes s))) s i.
Lemma subtree_unfold s i n : wf s -> get s i = Some n -> subtree s i = i :: flat_map (subtree s) (n_children n).
Proof.
  intros W G. unfold subtree at 1. cbn [pre]. rewrite G. f_equal.
  assert (K : forall cs, (forall c, In c cs -> In c (n_children n)) -> flat_map (pre (List.length (sc_nodes s)) s) cs = flat_map (subtree s) cs).
  { induction cs as [|c cs IHc]; cbn [flat_map]; intros IN; auto. destruct (wf_child _ W _ _ _ G (IN c (or_introl eq_refl))) as (L & nc & GC & _). f_equal; [apply pre_fuel; eauto; lia|apply IHc; intros x I; apply IN; right; auto]. }
  apply K; auto.
Qed.
Definition hit (s : scene) (mat : nat -> nat) (id : nat) (i p : nat) := refers s i (APrim p) /\ mat p = id.
Lemma find_material_ok s mat id : wf s -> forall f stack, (forall x, In x stack -> exists n, get s x = Some n) ->
  (forall i p, In i (flat_map (subtree s) stack) -> refers s i (APrim p) -> has_prim s p = true) ->
  (List.length (flat_map (subtree s) stack) < f)%nat ->
  (exists p i, find_material f s mat id stack = Ok p /\ In i (flat_map (subtree s) stack) /\ hit s mat id i p) \/
  (find_material f s mat id stack = Throws /\ forall i p, In i (flat_map (subtree s) stack) -> ~ hit s mat id i p).
Proof.
  intros W. induction f as [|f IH]; intros stack EX PR L; [lia|]. cbn [find_material]. destruct (rev stack) as [|cur rest] eqn:R.
  - apply (f_equal (@rev nat)) in R. rewrite rev_involutive in R. cbn in R. subst stack. right. split; [auto|intros i p []].
  - apply (f_equal (@rev nat)) in R. rewrite rev_involutive in R. cbn in R. subst stack.
    destruct (EX cur) as (n & G); [apply in_or_app; right; left; auto|]. rewrite G.
    rewrite !flat_map_app in *. cbn [flat_map] in *. rewrite app_nil_r in *. rewrite (subtree_unfold s cur n W G) in *.
    assert (EX' : forall x, In x (rev rest ++ n_children n) -> exists m, get s x = Some m).
    { intros x I. apply in_app_or in I. destruct I as [I|I]; [apply EX; apply in_or_app; auto|]. destruct (wf_child _ W _ _ _ G I) as (_ & nc & GC & _). eauto. }
    assert (PERM : forall i, In i (flat_map (subtree s) (rev rest ++ n_children n)) -> In i (flat_map (subtree s) (rev rest) ++ cur :: flat_map (subtree s) (n_children n))).
    { intros i. rewrite flat_map_app, !in_app_iff. intros [I|I]; auto. right. right. auto. }
    assert (SPLIT : forall i, In i (flat_map (subtree s) (rev rest) ++ cur :: flat_map (subtree s) (n_children n)) -> i = cur \/ In i (flat_map (subtree s) (rev rest ++ n_children n))).
    { intros i. rewrite flat_map_app, !in_app_iff. intros [I|[<-|I]]; auto. }
    assert (LEN : (List.length (flat_map (subtree s) (rev rest ++ n_children n)) < f)%nat).
    { rewrite flat_map_app. rewrite app_length in *. cbn in L. lia. }
    assert (GO : (forall p, ~ hit s mat id cur p) ->
      (exists p i, find_material f s mat id (rev rest ++ n_children n) = Ok p /\ In i (flat_map (subtree s) (rev rest) ++ cur :: flat_map (subtree s) (n_children n)) /\ hit s mat id i p) \/
      (find_material f s mat id (rev rest ++ n_children n) = Throws /\ forall i p, In i (flat_map (subtree s) (rev rest) ++ cur :: flat_map (subtree s) (n_children n)) -> ~ hit s mat id i p)).
    { intros NH. destruct (IH _ EX' (fun i p I => PR i p (PERM i I)) LEN) as [(p & i & F & I & H)|(F & NO)]; [left; exists p, i; auto|].
      right. split; auto. intros i p I. destruct (SPLIT i I) as [->|I']; auto. }
    assert (ID : forall p, hit s mat id cur p -> n_asset n = Some (APrim p)). { intros p ((n' & G' & A) & _). rewrite G in G'. injection G' as <-. auto. }
    destruct (n_asset n) as [[p|p|p|p|p]|] eqn:A; try (apply GO; intros q H; apply ID in H; discriminate).
    assert (RF : refers s cur (APrim p)) by (exists n; auto). rewrite (PR cur p); [cbn [negb]| apply in_or_app; right; left; auto|auto].
    destruct (Nat.eqb_spec (mat p) id) as [E|NE].
    + left. exists p, cur. split; auto. split; [apply in_or_app; right; left; auto|split; auto].
    + apply GO. intros q H. pose proof (ID _ H) as X. injection X as ->. destruct H. auto.
Qed.
Lemma get_material_ok s mat id r : wf s -> (exists n, get s r = Some n) -> (forall i p, below s r i -> refers s i (APrim p) -> has_prim s p = true) ->
  (exists p i, get_material_by_id s mat id r = Ok p /\ below s r i /\ hit s mat id i p) \/ (get_material_by_id s mat id r = Throws /\ forall i p, below s r i -> ~ hit s mat id i p).
Proof.
  intros W (n & G) PR. unfold get_material_by_id.
  assert (B : forall i, In i (flat_map (subtree s) [r]) <-> below s r i).
  { intros i. cbn [flat_map]. rewrite app_nil_r. split; [apply pre_below; eauto|]. apply (pre_in s W _ r n); auto. lia. }
  destruct (find_material_ok s mat id W (S (List.length (sc_nodes s))) [r]) as [(p & i & F & I & H)|(F & N)].
  - intros x [<-|[]]; eauto.
  - intros i p I. apply PR. apply B; auto.
  - cbn [flat_map]. rewrite app_nil_r. pose proof (pre_length s (S (List.length (sc_nodes s))) r W (ex_intro _ n G)). unfold subtree. lia.
  - left. exists p, i. split; auto. split; auto. apply B; auto.
  - right. split; auto. intros i p I. apply N. apply B; auto.
Qed.
