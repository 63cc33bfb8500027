From Verif Require Import Common FrameBufferModel FrameBufferSpec.

Definition fwf (f : fb) : Prop :=
  (0 < res_w f * res_h f)%nat /\
  forall s, (im_w (img f s) = 0 /\ im_h (img f s) = 0 /\ im_data (img f s) = [])%nat \/
            (im_w (img f s) = res_w f /\ im_h (img f s) = res_h f /\ List.length (im_data (img f s)) = res_w f * res_h f)%nat.

Lemma storage_eqb_eq a b : storage_eqb a b = true <-> a = b.
Proof. destruct a, b; simpl; split; intros H; congruence. Qed.

Lemma set_img_wf f s i : fwf f ->
  ((im_w i = 0 /\ im_h i = 0 /\ im_data i = [])%nat \/
   (im_w i = res_w f /\ im_h i = res_h f /\ List.length (im_data i) = res_w f * res_h f)%nat) -> fwf (set_img f s i).
Proof.
  intros [H0 H] Hi. split; [exact H0|]. intros t. cbn. destruct (storage_eqb s t); auto.
Qed.

Lemma enable_storage_wf f s b : fwf f -> fwf (enable_storage f s b).
Proof.
  intros H. unfold enable_storage. destruct b; cbn [negb].
  - destruct (_ || _)%bool; [|exact H]. apply set_img_wf; [exact H|]. right. cbn. rewrite repeat_length. auto.
  - apply set_img_wf; [exact H|]. left. auto.
Qed.

Lemma enable_wf f c b : fwf f -> fwf (enable f c b).
Proof. intros H. destruct c; cbn [enable]; auto using enable_storage_wf. Qed.

Lemma zero_not_has f i : (0 < res_w f * res_h f)%nat -> im_w i = 0%nat -> im_h i = 0%nat -> has_img f i = true -> False.
Proof.
  unfold has_img. intros H0 X Y E. apply andb_prop in E. destruct E as [E _]. apply Nat.eqb_eq in E.
  rewrite <- E, X in H0. simpl in H0. lia.
Qed.

Lemma clear_storage_wf f s : fwf f -> fwf (clear_storage f s).
Proof.
  intros H. unfold clear_storage. destruct (has_img f (img f s)) eqn:E; [|exact H].
  apply set_img_wf; [exact H|]. unfold fill. cbn. rewrite map_length.
  destruct H as [H0 H]. destruct (H s) as [(A & B & C)|X]; [left|right; exact X].
  rewrite C. auto.
Qed.

Lemma clear_wf f : fwf f -> fwf (clear f).
Proof. intros H. unfold clear. cbn [fold_left]. repeat apply clear_storage_wf. exact H. Qed.

Lemma fstep_wf f o : fwf f -> fwf (fstep f o).
Proof.
  intros H. destruct o as [c b| |c k v]; cbn [fstep]; auto using enable_wf, clear_wf.
  unfold write. destruct (Nat.ltb_spec k (List.length (im_data (img f (storage_of c))))) as [Hk|Hk]; [|exact H].
  apply set_img_wf; [exact H|]. cbn. rewrite upd_length. destruct H as [H0 H].
  destruct (H (storage_of c)) as [(A & B & C)|X]; [|right; exact X].
  rewrite C in Hk. simpl in Hk. lia.
Qed.

Lemma enable_storage_res f s b : res_w (enable_storage f s b) = res_w f /\ res_h (enable_storage f s b) = res_h f.
Proof. unfold enable_storage. destruct b; cbn [negb]; [destruct (_ || _)%bool|]; auto. Qed.
Lemma enable_res f c b : res_w (enable f c b) = res_w f /\ res_h (enable f c b) = res_h f.
Proof. destruct c; cbn [enable]; try apply enable_storage_res.
  destruct (enable_storage_res (enable_storage f SPower b) SSensor b) as [A B].
  destruct (enable_storage_res f SPower b) as [C D]. split; congruence. Qed.
Lemma clear_storage_res f s : res_w (clear_storage f s) = res_w f /\ res_h (clear_storage f s) = res_h f.
Proof. unfold clear_storage. destruct (has_img f (img f s)); auto. Qed.

Lemma enable_storage_img f s b t :
  img (enable_storage f s b) t =
  if storage_eqb s t then
    (if b then if has_img f (img f s) then img f s else filled (res_w f) (res_h f) (default_of s) else no_image)
  else img f t.
Proof.
  unfold enable_storage, has_img. destruct b; cbn [negb].
  - rewrite <- negb_andb. destruct (Nat.eqb _ _ && Nat.eqb _ _)%bool eqn:E; cbn [negb].
    + destruct (storage_eqb s t) eqn:Es; [|reflexivity]. apply storage_eqb_eq in Es. subst. reflexivity.
    + reflexivity.
  - reflexivity.
Qed.

Lemma clear_storage_img f s t :
  img (clear_storage f s) t =
  if storage_eqb s t then (if has_img f (img f s) then fill (img f s) (default_of s) else img f s) else img f t.
Proof.
  unfold clear_storage. destruct (has_img f (img f s)) eqn:E.
  - reflexivity.
  - destruct (storage_eqb s t) eqn:Es; [|reflexivity]. apply storage_eqb_eq in Es. subst. reflexivity.
Qed.

Lemma has_img_res f g i : res_w f = res_w g -> res_h f = res_h g -> has_img f i = has_img g i.
Proof. unfold has_img. intros -> ->. reflexivity. Qed.

Lemma clear_img f t :
  img (clear f) t = (if has_img f (img f t) then fill (img f t) (default_of t) else img f t) /\
  res_w (clear f) = res_w f /\ res_h (clear f) = res_h f.
Proof.
  unfold clear. cbn [fold_left].
  assert (G : forall l f0, NoDup l ->
    img (fold_left clear_storage l f0) t =
      (if existsb (fun s => storage_eqb s t) l then
        (if has_img f0 (img f0 t) then fill (img f0 t) (default_of t) else img f0 t) else img f0 t) /\
    res_w (fold_left clear_storage l f0) = res_w f0 /\ res_h (fold_left clear_storage l f0) = res_h f0).
  { induction l as [|s l IH]; intros f0 Hn; cbn [fold_left existsb]; [auto|].
    inversion Hn as [|? ? Hnot Hn']; subst.
    destruct (clear_storage_res f0 s) as [Rw Rh].
    destruct (IH (clear_storage f0 s) Hn') as (A & B & C). rewrite A, B, C, Rw, Rh. split; [|auto].
    rewrite (has_img_res (clear_storage f0 s) f0) by auto.
    rewrite clear_storage_img.
    destruct (storage_eqb s t) eqn:Es.
    - apply storage_eqb_eq in Es. subst t. cbn [orb].
      assert (Hx : existsb (fun s0 => storage_eqb s0 s) l = false).
      { destruct (existsb _ l) eqn:Ex; [|reflexivity]. apply existsb_exists in Ex. destruct Ex as (y & Hy & Ey).
        apply storage_eqb_eq in Ey. subst. tauto. }
      rewrite Hx. reflexivity.
    - cbn [orb]. reflexivity. }
  destruct (G [SDepth; SAlbedo; SIds; SCamN; SWorldN; SPower; SSensor] f) as (A & B & C).
  - repeat constructor; simpl; intuition discriminate.
  - cbn [fold_left] in A, B, C. split; [|auto]. rewrite A. destruct t; reflexivity.
Qed.

Lemma map_const {A B} (v : B) (l : list A) : map (fun _ => v) l = repeat v (List.length l).
Proof. induction l as [|x l IH]; simpl; [reflexivity|]. rewrite IH. reflexivity. Qed.

(* Channels that own their storage exclusively *)
Definition exclusive (c : channel) : bool :=
  match c with Depth | Albedo | GeometryIds | CameraNormals | WorldNormals => true | _ => false end.

(* no call in the history names a channel that shares received_power_ with c *)
Definition no_alias (c : channel) (o : fop) : bool :=
  match o with
  | FEnable d _ =>
      match c with
      | Power => match d with DirectPower | IndirectPower | SensorResponse => false | _ => true end
      | DirectPower => match d with Power | IndirectPower | SensorResponse => false | _ => true end
      | IndirectPower => match d with Power | DirectPower | SensorResponse => false | _ => true end
      | _ => true end
  | FWrite d _ _ =>
      match c with
      | Power => match d with DirectPower | IndirectPower => false | _ => true end
      | DirectPower => match d with Power | IndirectPower => false | _ => true end
      | IndirectPower => match d with Power | DirectPower => false | _ => true end
      | _ => true end
  | FClear => true
  end.

Lemma observe_img f c : observe f c = if has_img f (img f (storage_of c)) then Some (im_data (img f (storage_of c))) else None.
Proof. reflexivity. Qed.

Lemma no_image_has f : (0 < res_w f * res_h f)%nat -> has_img f no_image = false.
Proof. intros H. destruct (has_img f no_image) eqn:E; [|reflexivity]. exfalso. eapply zero_not_has; eauto; reflexivity. Qed.

Lemma filled_has f v : has_img f (filled (res_w f) (res_h f) v) = true.
Proof. unfold has_img, filled. cbn. rewrite !Nat.eqb_refl. reflexivity. Qed.

Lemma chan_default_storage c : chan_default c = default_of (storage_of c).
Proof. destruct c; reflexivity. Qed.

(* observation of a storage through one enable *)
Lemma enable_storage_obs f s b t : fwf f ->
  (if has_img (enable_storage f s b) (img (enable_storage f s b) t) then Some (im_data (img (enable_storage f s b) t)) else None) =
  if storage_eqb s t then
    (if b then match (if has_img f (img f t) then Some (im_data (img f t)) else None) with
               | None => Some (repeat (default_of t) (res_w f * res_h f)) | Some p => Some p end else None)
  else (if has_img f (img f t) then Some (im_data (img f t)) else None).
Proof.
  intros Hf. destruct (enable_storage_res f s b) as [Rw Rh].
  rewrite (has_img_res (enable_storage f s b) f) by auto. rewrite enable_storage_img.
  destruct (storage_eqb s t) eqn:Es; [|reflexivity]. apply storage_eqb_eq in Es. subst t.
  destruct b.
  - destruct (has_img f (img f s)) eqn:E; [rewrite E; reflexivity|]. rewrite filled_has. reflexivity.
  - rewrite no_image_has by apply Hf. reflexivity.
Qed.

Lemma fstep_observe f c o : fwf f -> no_alias c o = true ->
  observe (fstep f o) c = chan_step (res_w f * res_h f) c (observe f c) o /\
  res_w (fstep f o) = res_w f /\ res_h (fstep f o) = res_h f.
Proof.
  intros Hf Hna. destruct o as [d b| |d k v]; cbn [fstep chan_step].
  - destruct (enable_res f d b) as [Rw Rh]. split; [|auto].
    rewrite !observe_img.
    destruct (channel_eqb c d) eqn:Ec.
    + assert (c = d) by (destruct c, d; simpl in Ec; congruence). subst d.
      rewrite chan_default_storage.
      destruct c; cbn [enable];
        try (rewrite (enable_storage_obs _ _ _ _ Hf); cbn [storage_of storage_eqb]; reflexivity).
      rewrite (enable_storage_obs _ _ _ _ (enable_storage_wf f SPower b Hf)). cbn [storage_of storage_eqb].
      rewrite (enable_storage_obs f SPower b SSensor Hf). cbn [storage_eqb].
      destruct (enable_storage_res f SPower b) as [R1 R2]. rewrite R1, R2. reflexivity.
    + destruct c, d; simpl in Ec; try discriminate Ec; simpl in Hna; try discriminate Hna; cbn [enable];
        rewrite ?(enable_storage_obs _ _ _ _ (enable_storage_wf f SPower b Hf));
        rewrite ?(enable_storage_obs _ _ _ _ Hf); cbn [storage_of storage_eqb]; reflexivity.
  - destruct (clear_img f (storage_of c)) as (A & B & C). split; [|auto].
    rewrite !observe_img. rewrite (has_img_res (clear f) f) by auto. rewrite A.
    destruct (has_img f (img f (storage_of c))) eqn:E; [|rewrite E; reflexivity].
    assert (E2 : has_img f (fill (img f (storage_of c)) (default_of (storage_of c))) = true) by exact E.
    rewrite E2. cbn [fill im_data]. rewrite map_const, chan_default_storage. f_equal. f_equal.
    destruct Hf as [H0 H]. destruct (H (storage_of c)) as [(X & Y & Z)|(X & Y & Z)]; [|exact Z].
    exfalso. eapply zero_not_has; eauto.
  - assert (R : res_w (match write f d k v with Ok f' => f' | _ => f end) = res_w f /\
                res_h (match write f d k v with Ok f' => f' | _ => f end) = res_h f)
      by (unfold write; destruct (Nat.ltb k _); auto).
    split; [|exact R]. rewrite !observe_img.
    unfold write. destruct (Nat.ltb_spec k (List.length (im_data (img f (storage_of d))))) as [Hk|Hk].
    + cbn [img set_img].
      destruct (channel_eqb c d) eqn:Ec.
      * assert (c = d) by (destruct c, d; simpl in Ec; congruence). subst d.
        assert (Es : storage_eqb (storage_of c) (storage_of c) = true) by (apply storage_eqb_eq; reflexivity).
        rewrite Es. unfold has_img. cbn [im_w im_h im_data res_w res_h].
        destruct (Nat.eqb _ _ && Nat.eqb _ _)%bool eqn:E; [|reflexivity].
        f_equal. destruct Hf as [H0 H]. destruct (H (storage_of c)) as [(X & Y & Z)|(X & Y & Z)].
        -- rewrite Z in Hk. simpl in Hk. lia.
        -- replace (Nat.ltb k (res_w f * res_h f)) with true by lia. reflexivity.
      * destruct (storage_eqb (storage_of d) (storage_of c)) eqn:Es; [|reflexivity].
        exfalso. destruct c, d; simpl in Es, Ec, Hna; congruence.
    + destruct (channel_eqb c d) eqn:Ec; [|reflexivity].
      assert (c = d) by (destruct c, d; simpl in Ec; congruence). subst d.
      destruct (has_img f (img f (storage_of c))) eqn:E; [|reflexivity].
      destruct Hf as [H0 H]. destruct (H (storage_of c)) as [(X & Y & Z)|(X & Y & Z)].
      -- exfalso. eapply zero_not_has; eauto.
      -- replace (Nat.ltb k (res_w f * res_h f)) with false by lia. reflexivity.
Qed.

Lemma frun_observe os c : forall f, fwf f -> forallb (no_alias c) os = true ->
  observe (frun f os) c = fold_left (chan_step (res_w f * res_h f) c) os (observe f c).
Proof.
  induction os as [|o os IH]; intros f Hf Hna; [reflexivity|].
  cbn [forallb] in Hna. apply andb_prop in Hna. destruct Hna as [H1 H2].
  cbn. destruct (fstep_observe f c o Hf H1) as (A & B & C).
  change (fold_left fstep os (fstep f o)) with (frun (fstep f o) os).
  rewrite IH; [|apply fstep_wf, Hf|exact H2]. rewrite A, B, C. reflexivity.
Qed.

Lemma new_fb_wf w h : (0 < w * h)%nat -> fwf (new_fb w h).
Proof. intros H. split; [exact H|]. intros s. left. auto. Qed.
