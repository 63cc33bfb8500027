(* C110: nodes set by hand move as their velocities say.  C111: nodes given a SPICE origin or frame are where SPICE says.  C112: the SPICE frame wrapper. *)
From Verif Require Import Vec3 TransformModel TransformSpec TransformProofs TransformProps SpectralModel MotionModel LightTimeProps MotionProofs.
From Coq Require Import String.
From Coquelicot Require Import Coquelicot.
Open Scope R_scope.

Lemma true_iff eps e chain epoch f : true_state eps e chain epoch f <-> forall t, ssb_transform eps e chain epoch t 0 = Ok (f t).
Proof.
  unfold true_state, apparent_transform, geometric_state. split; intros H t.
  - specialize (H t t_default). destruct (ssb_transform eps e chain epoch t 0); cbn in H; congruence.
  - intros o. rewrite H. reflexivity.
Qed.
Lemma t_mul_proper a b c : t_mul a b = Ok c -> proper c.
Proof. unfold t_mul, rot_mul. destruct (set_matrix _) eqn:E; cbn; try discriminate. intros [= <-]. eapply set_matrix_rotation; eauto. Qed.
Lemma t_mul_scale a b c : t_mul a b = Ok c -> t_scale c = vmul (t_scale a) (t_scale b).
Proof. unfold t_mul, rot_mul. destruct (set_matrix _) eqn:E; cbn; try discriminate. intros [= <-]. reflexivity. Qed.
Lemma t_mul_ok a b : proper a -> proper b -> t_mul a b = Ok (T (to_point a (t_pos b)) (mmul (t_rot a) (t_rot b)) (vmul (t_scale a) (t_scale b))
   (vadd (vadd (t_vel a) (mapply (t_rot a) (vmul (t_scale a) (t_vel b)))) (cross (t_ang a) (mapply (t_rot a) (vmul (t_scale a) (t_pos b))))) (vadd (t_ang a) (mapply (t_rot a) (t_ang b)))).
Proof. intros A B. unfold t_mul, rot_mul. rewrite set_matrix_id by (apply mmul_rotation; auto). cbn [obind]. unfold to_point. rewrite (vmul_comm (t_pos b)). f_equal. f_equal. vec. Qed.
Lemma sxform_proper e f t r w : sxform e f t = Ok (r, w) -> is_rotation r.
Proof. unfold sxform. destruct (e_sx e f t) as [[m d]|]; [|discriminate]. cbn. unfold from_parent_matrix. destruct (set_matrix _) eqn:E; cbn; try discriminate. intros [= <- <-]. eapply set_matrix_rotation; eauto. Qed.
Lemma local_scale eps e n p epoch t dt l : local_state eps e n p epoch t dt = Ok l -> t_scale l = t_scale (m_local n).
Proof. unfold local_state. intros H. repeat match goal with H : obind ?x _ = Ok _ |- _ => destruct x eqn:?; cbn [obind] in H; try discriminate end. injection H as <-. reflexivity. Qed.
(* the scale of a node's state is the product of the scales up to the first fully SPICE-driven node: constant *)
Lemma ssb_facts eps e chain epoch : exists s, forall t dt c, ssb_transform eps e chain epoch t dt = Ok c -> proper c /\ t_scale c = s.
Proof.
  induction chain as [|n up (s & IH)]; [exists vzero; cbn; discriminate|].
  assert (SP : forall t dt c, obind (spkezr e (m_origin n) (t - dt)) (fun pv => obind (sxform e (m_frame n) (t - dt)) (fun rw => Ok (T (fst pv) (fst rw) (t_scale (m_local n)) (snd pv) (snd rw)))) = Ok c -> proper c /\ t_scale c = t_scale (m_local n)).
  { intros t dt c H. destruct (spkezr _ _ _); cbn in H; try discriminate. destruct (sxform _ _ _) as [[r w]| |] eqn:E; cbn in H; try discriminate. injection H as <-. split; [eapply sxform_proper; eauto|reflexivity]. }
  assert (MX : forall (g : R -> R -> transform -> outcome transform), (forall t dt p l, g t dt p = Ok l -> t_scale l = t_scale (m_local n)) ->
    forall t dt c, match up with [] => Throws | _ :: _ => obind (ssb_transform eps e up epoch t dt) (fun p => obind (g t dt p) (t_mul p)) end = Ok c -> proper c /\ t_scale c = vmul s (t_scale (m_local n))).
  { intros g G t dt c H. destruct up as [|u up]; [discriminate|]. destruct (ssb_transform eps e (u :: up) epoch t dt) as [p| |] eqn:E; cbn [obind] in H; try discriminate. destruct (g t dt p) as [l| |] eqn:E'; cbn [obind] in H; try discriminate.
    split; [eapply t_mul_proper; eauto|]. rewrite (t_mul_scale _ _ _ H), (G _ _ _ _ E'). destruct (IH _ _ _ E) as (_ & ->). auto. }
  assert (LS : forall t dt p l, local_state eps e n p epoch t dt = Ok l -> t_scale l = t_scale (m_local n)) by (intros; eapply local_scale; eauto).
  cbn [ssb_transform]. destruct (m_pmode n) eqn:PM, (m_rmode n) eqn:RM;
    try (exists (vmul s (t_scale (m_local n))); apply (MX (fun t dt p => local_state eps e n p epoch t dt) LS)); try (exists (t_scale (m_local n)); apply SP).
  exists (vmul s (t_scale (m_local n))). intros t dt c H. apply (MX (fun t dt p => Ok (let l := m_scb n (t - dt) in T (t_pos l) (t_rot l) (t_scale (m_local n)) (t_vel l) (t_ang l)))) with (t := t) (dt := dt); [intros ? ? ? ? [= <-]; reflexivity|exact H].
Qed.

(* the state of a node set by hand, at every time *)
Theorem C110_manual : forall eps e n up epoch P, 0 < eps <= 1 -> true_state eps e up epoch P -> m_pmode n = Manual -> m_rmode n = Manual -> is_rotation (t_rot (m_local n)) ->
  exists f, true_state eps e (n :: up) epoch f /\ forall t,
    let p0 := t_pos (m_local n) in let v0 := t_vel (m_local n) in let r0 := mapply (t_rot (m_local n)) in let w0 := t_ang (m_local n) in
    t_pos (f t) = to_point (P t) (vadd p0 (vscale (t - epoch) v0)) /\
    near (/ 10 ^ 12) (mapply (t_rot (f t))) (fun v => mapply (t_rot (P t)) (if m_body n then r0 (spun w0 (t - epoch) v) else spun w0 (t - epoch) (r0 v))) /\
    t_scale (f t) = vmul (t_scale (P t)) (t_scale (m_local n)).
Proof.
  intros eps e n up epoch P HE TS PM RM R0. rewrite true_iff in TS. destruct (ssb_facts eps e up epoch) as (s & SF).
  set (rot := fun t => match local_rotation_at eps n epoch t 0 with Ok (r, _) => r | _ => ident end).
  assert (RP : forall t, local_rotation_at eps n epoch t 0 = Ok (rot t, t_ang (m_local n)) /\ is_rotation (rot t) /\ near (/ 10 ^ 12) (mapply (rot t)) (fun v => if m_body n then mapply (t_rot (m_local n)) (spun (t_ang (m_local n)) (t - epoch) v) else spun (t_ang (m_local n)) (t - epoch) (mapply (t_rot (m_local n)) v))).
  { intros t. destruct (local_rotation_near eps n epoch t 0 HE R0) as (r & E1 & E2 & E3). cbv zeta in E3. rewrite Rminus_0_r in E3. unfold rot. rewrite E1. auto. }
  set (loc := fun t => T (vadd (t_pos (m_local n)) (vscale (t - epoch) (t_vel (m_local n)))) (rot t) (t_scale (m_local n)) (t_vel (m_local n)) (t_ang (m_local n))).
  assert (E : forall t, ssb_transform eps e (n :: up) epoch t 0 = t_mul (P t) (loc t)).
  { intros t. cbn [ssb_transform]. rewrite PM; try rewrite RM. destruct up as [|u up']; [specialize (TS t); discriminate|]. rewrite TS. cbn [obind]. unfold local_state, local_position_at. rewrite PM; try rewrite RM. cbn [obind]. destruct (RP t) as (-> & _). cbn [obind fst snd]. rewrite Rminus_0_r. reflexivity. }
  assert (PP : forall t, proper (P t)) by (intros t; destruct (SF _ _ _ (TS t)); auto). assert (PL : forall t, proper (loc t)) by (intros t; apply RP).
  eexists. split.
  - rewrite true_iff. intros t. rewrite E. apply t_mul_ok; auto.
  - intros t. cbn [t_pos t_rot t_scale loc]. split; [reflexivity|]. split; [|reflexivity]. intros v. rewrite mapply_mmul, <- mapply_sub, mapply_len by apply PP. destruct (RP t) as (_ & _ & N). apply N.
Qed.

(* a chain of nodes set by hand (inertial rates) hanging from a fully SPICE-driven node whose ephemeris is consistent, at a time at which each node that spins has turned at
   least 1e-12 rad since the epoch *)
Inductive steady (eps : R) (e : ephemeris) (epoch t : R) : list mnode -> Prop :=
| steady_spice n up f : m_pmode n = Spice -> m_rmode n = Spice -> true_state eps e (n :: up) epoch f -> moves f t -> steady eps e epoch t (n :: up)
| steady_manual n up : m_pmode n = Manual -> m_rmode n = Manual -> m_body n = false -> is_rotation (t_rot (m_local n)) ->
    (t_ang (m_local n) = vzero \/ / 10 ^ 12 < Rabs (vlen (t_ang (m_local n)) * (t - epoch))) -> steady eps e epoch t up -> steady eps e epoch t (n :: up).

Lemma true_unique eps e chain epoch f g : true_state eps e chain epoch f -> true_state eps e chain epoch g -> forall t, f t = g t.
Proof. rewrite !true_iff. intros F G t. specialize (F t). specialize (G t). congruence. Qed.
Lemma moves_ext f g t : (forall x, f x = g x) -> moves f t -> moves g t.
Proof.
  intros E (A & B). split; [|intros v]; rewrite <- (E t).
  - apply (vderive_ext (fun x => t_pos (f x))); [intros x; rewrite (E x); reflexivity|exact A].
  - apply (vderive_ext (fun x => mapply (t_rot (f x)) v)); [intros x; rewrite (E x); reflexivity|apply B].
Qed.
(* what the state of a manual node is made of *)
Lemma manual_split eps e n up epoch f : 0 < eps <= 1 -> m_pmode n = Manual -> m_rmode n = Manual -> is_rotation (t_rot (m_local n)) -> true_state eps e (n :: up) epoch f ->
  exists P rot, true_state eps e up epoch P /\ (forall t, proper (P t)) /\ (exists s, forall t, t_scale (P t) = s) /\
   let loc w := fun t => T (vadd (t_pos (m_local n)) (vscale (t - epoch) (t_vel (m_local n)))) (rot t) (t_scale (m_local n)) (t_vel (m_local n)) w in
   (forall t, t_mul (P t) (loc (t_ang (m_local n)) t) = Ok (f t)) /\ (forall t, is_rotation (rot t)) /\
   forall t, (t_ang (m_local n) = vzero \/ / 10 ^ 12 < Rabs (vlen (t_ang (m_local n)) * (t - epoch))) ->
     locally t (fun x => forall v, mapply (rot x) v = if m_body n then mapply (t_rot (m_local n)) (spun (t_ang (m_local n)) (x - epoch) v) else spun (t_ang (m_local n)) (x - epoch) (mapply (t_rot (m_local n)) v)).
Proof.
  intros HE PM RM R0 TF. rewrite true_iff in TF.
  set (P := fun t => match ssb_transform eps e up epoch t 0 with Ok p => p | _ => t_default end). set (rot := fun t => match local_rotation_at eps n epoch t 0 with Ok (r, _) => r | _ => ident end).
  assert (TS : forall t, ssb_transform eps e up epoch t 0 = Ok (P t)).
  { intros t. specialize (TF t). cbn [ssb_transform] in TF. rewrite PM in TF; try rewrite RM in TF. destruct up as [|u up']; [discriminate|]. unfold P. destruct (ssb_transform eps e (u :: up') epoch t 0); cbn in TF; try discriminate. reflexivity. }
  destruct (ssb_facts eps e up epoch) as (s & SF). exists P, rot. split; [apply true_iff; auto|]. split; [intros t; destruct (SF _ _ _ (TS t)); auto|]. split; [exists s; intros t; destruct (SF _ _ _ (TS t)); auto|]. cbv zeta.
  assert (RP := fun t => local_rotation_exact eps n epoch t 0 HE R0). cbv zeta in RP.
  split; [|split].
  - intros t. specialize (TF t). cbn [ssb_transform] in TF. rewrite PM in TF; try rewrite RM in TF. destruct up as [|u up']; [discriminate|]. rewrite TS in TF. cbn [obind] in TF. unfold local_state, local_position_at in TF. rewrite PM in TF; try rewrite RM in TF. cbn [obind] in TF.
    destruct (RP t) as (r & E & _). unfold rot. rewrite E in *. cbn [obind fst snd] in TF. rewrite Rminus_0_r in TF. exact TF.
  - intros t. destruct (RP t) as (r & E & E2 & _). unfold rot. rewrite E. auto.
  - intros t HT.
    assert (G : forall x, (t_ang (m_local n) = vzero \/ / 10 ^ 12 < Rabs (vlen (t_ang (m_local n)) * (x - epoch))) -> forall v, mapply (rot x) v = if m_body n then mapply (t_rot (m_local n)) (spun (t_ang (m_local n)) (x - epoch) v) else spun (t_ang (m_local n)) (x - epoch) (mapply (t_rot (m_local n)) v)).
    { intros x Hx v. destruct (RP x) as (r & E & _ & E3 & _). unfold rot. rewrite E. rewrite Rminus_0_r in E3. apply E3. destruct Hx; [right; auto|left; lra]. }
    destruct HT as [Z|HT]; [exists (mkposreal 1 Rlt_0_1); intros x _; apply G; auto|].
    set (w := vlen (t_ang (m_local n))) in *. set (d := Rabs (w * (t - epoch)) - / 10 ^ 12). assert (D : 0 < d / (w + 1)). { apply Rdiv_lt_0_compat; [unfold d; lra|]. pose proof (vlen_nonneg (t_ang (m_local n))). unfold w. lra. }
    exists (mkposreal _ D). intros x Hx. apply G. right. change (Rabs (x - t) < d / (w + 1)) in Hx. assert (W : 0 <= w) by apply vlen_nonneg.
    assert (X : w * Rabs (x - t) < d). { assert (Rabs (x - t) * (w + 1) < d). { apply (Rmult_lt_compat_r (w + 1)) in Hx; [|lra]. unfold Rdiv in Hx. rewrite Rmult_assoc, Rinv_l in Hx by lra. lra. } pose proof (Rabs_pos (x - t)). nra. }
    assert (Y : Rabs (w * (t - epoch)) <= Rabs (w * (x - epoch)) + w * Rabs (x - t)).
    { rewrite <- (Rabs_pos_eq w) at 3 by auto. rewrite <- Rabs_mult, <- (Rabs_Ropp (w * (x - t))). eapply Rle_trans; [|apply Rabs_triang]. apply Req_le. f_equal. ring. } unfold d in X. lra.
Qed.
Theorem C110_moves : forall eps e epoch t chain, 0 < eps <= 1 -> steady eps e epoch t chain -> forall f, true_state eps e chain epoch f -> moves f t.
Proof.
  intros eps e epoch t chain HE S. induction S as [n up g PM RM TG MG|n up PM RM B R0 W S IH]; intros f TF.
  - eapply moves_ext; [|exact MG]. intros x. eapply true_unique; eauto.
  - destruct (manual_split eps e n up epoch f HE PM RM R0 TF) as (P & rot & TP & PP & (s & SP) & E & RR & RL). cbv zeta in *.
    eapply (C77 P _ f t s PP); [|exact SP|exact E|apply IH; auto|]; [intros x; apply RR|]. split; cbn [t_pos t_vel t_rot t_ang].
    + apply vderive_lin.
    + specialize (RL t W). rewrite B in RL. pose proof (locally_singleton _ _ RL) as E0. intros v. rewrite E0. eapply vderive_loc; [|apply vderive_spun]. eapply filter_imp; [|exact RL]. cbn. intros x Hx. symmetry. apply Hx.
Qed.
(* Body-frame rates: the node turns as asked, but the angular velocity it reports is the one in its own frame. It moves as it says only if that makes no difference. *)
Theorem C110_body_refuted : forall eps e n up epoch t P f, 0 < eps <= 1 -> m_pmode n = Manual -> m_rmode n = Manual -> m_body n = true -> is_rotation (t_rot (m_local n)) ->
  (t_ang (m_local n) = vzero \/ / 10 ^ 12 < Rabs (vlen (t_ang (m_local n)) * (t - epoch))) -> true_state eps e up epoch P -> moves P t -> true_state eps e (n :: up) epoch f ->
  (moves f t <-> mapply (t_rot (m_local n)) (t_ang (m_local n)) = t_ang (m_local n)).
Proof.
  intros eps e n up epoch t P' f HE PM RM B R0 W TP' MP TF. destruct (manual_split eps e n up epoch f HE PM RM R0 TF) as (P & rot & TP & PP & (s & SP) & E & RR & RL). cbv zeta in *.
  assert (MP2 : moves P t) by (eapply moves_ext; [|exact MP]; intros x; eapply true_unique; eauto). clear P' TP' MP. set (w := t_ang (m_local n)) in *. set (r0 := t_rot (m_local n)) in *.
  set (loc := fun a t => T (vadd (t_pos (m_local n)) (vscale (t - epoch) (t_vel (m_local n)))) (rot t) (t_scale (m_local n)) (t_vel (m_local n)) a).
  assert (PL : forall a x, proper (loc a x)) by (intros; apply RR).
  set (c := fun x => T (to_point (P x) (t_pos (loc w x))) (mmul (t_rot (P x)) (rot x)) (vmul (t_scale (P x)) (t_scale (m_local n))) (vadd (vadd (t_vel (P x)) (mapply (t_rot (P x)) (vmul (t_scale (P x)) (t_vel (m_local n))))) (cross (t_ang (P x)) (mapply (t_rot (P x)) (vmul (t_scale (P x)) (t_pos (loc w x)))))) (vadd (t_ang (P x)) (mapply (t_rot (P x)) (mapply r0 w)))).
  assert (MC : moves c t).
  { eapply (C77 P (loc (mapply r0 w)) c t s PP); [apply PL|exact SP| |exact MP2|].
    - intros x. rewrite t_mul_ok by (auto; apply PL). reflexivity.
    - split; cbn [t_pos t_vel t_rot t_ang loc]; [apply vderive_lin|]. specialize (RL t W). rewrite B in RL. pose proof (locally_singleton _ _ RL) as E0. intros v. cbn in E0. rewrite E0. rewrite cross_rot by auto.
      eapply vderive_loc; [|apply vderive_mat, vderive_spun]. eapply filter_imp; [|exact RL]. cbn. intros x Hx. symmetry. apply Hx. }
  assert (F : forall x, f x = T (t_pos (c x)) (t_rot (c x)) (t_scale (c x)) (t_vel (c x)) (vadd (t_ang (P x)) (mapply (t_rot (P x)) w))).
  { intros x. specialize (E x). change (t_mul (P x) (loc w x) = Ok (f x)) in E. rewrite t_mul_ok in E by (auto; apply PL). injection E as <-. reflexivity. }
  assert (MF : moves f t <-> moves (fun x => T (t_pos (c x)) (t_rot (c x)) (t_scale (c x)) (t_vel (c x)) (vadd (t_ang (P x)) (mapply (t_rot (P x)) w))) t) by (split; apply moves_ext; auto).
  rewrite MF. clear MF F. destruct MC as (C1 & C2). split.
  - intros (_ & G2). cbn [t_rot t_ang] in G2. set (q := mapply (t_rot (P t)) (vsub (mapply r0 w) w)).
    assert (Q : forall v, cross q (mapply (t_rot (c t)) v) = vzero).
    { intros v. pose proof (vderive_unique _ _ _ _ (C2 v) (G2 v)) as U. cbn [c t_ang] in U. unfold q. rewrite mapply_sub. set (y := mapply (t_rot (c t)) v) in *. apply v3_eq.
      - apply (f_equal vx) in U. cbn in U |- *. fold y in U. lra.
      - apply (f_equal vy) in U. cbn in U |- *. fold y in U. lra.
      - apply (f_equal vz) in U. cbn in U |- *. fold y in U. lra. }
    assert (RC : is_rotation (t_rot (c t))) by (apply mmul_rotation; [apply PP|apply RR]).
    assert (Q' : forall v, cross q v = vzero) by (intros v; rewrite <- (rotation_cancel' (t_rot (c t)) v RC); apply Q).
    assert (QZ : q = vzero). { pose proof (Q' ex) as A. pose proof (Q' ey) as A'. apply v3_eq; [apply (f_equal vz) in A'|apply (f_equal vz) in A|apply (f_equal vy) in A]; cbn in *; lra. }
    unfold q in QZ. assert (Z : vsub (mapply r0 w) w = vzero) by (apply (rotation_inj (t_rot (P t))); [apply PP|]; rewrite QZ; vec).
    apply v3_eq; [apply (f_equal vx) in Z|apply (f_equal vy) in Z|apply (f_equal vz) in Z]; cbn in Z |- *; lra.
  - intros Z. split; [exact C1|]. intros v. specialize (C2 v). cbn [c t_ang t_rot] in *. rewrite Z in C2. exact C2.
Qed.

(** C111 *)
(* uniform non-zero scale of the parent (C51: with another the inverse of a transform is wrong) *)
Lemma uniform_inverse a s : proper a -> t_scale a = V3 s s s -> s <> 0 -> t_inverse a = Ok (T (mapply (transpose (t_rot a)) (vscale (- / s) (t_pos a))) (transpose (t_rot a)) (V3 (/ s) (/ s) (/ s)) (mapply (transpose (t_rot a)) (vscale (- / s) (t_vel a))) (mapply (transpose (t_rot a)) (vopp (t_ang a)))).
Proof.
  intros P S N. unfold t_inverse, rot_inverse. rewrite set_matrix_id by (apply transpose_rotation; auto). cbn [obind]. rewrite S. cbn [vx vy vz].
  assert (V : forall u, vmul (vopp u) (V3 (1 / s) (1 / s) (1 / s)) = vscale (- / s) u) by (intros u; apply v3_eq; cbn; field; auto). rewrite !V. unfold Rdiv. rewrite Rmult_1_l. reflexivity.
Qed.
(* the velocity, carried along by its own frame, of the point p *)
Theorem C111_position : forall eps e n up epoch P f s t, true_state eps e up epoch P -> true_state eps e (n :: up) epoch f -> t_scale (P t) = V3 s s s -> s <> 0 -> m_pmode n = Spice ->
  exists km kms, e_spk e (m_origin n) t = Some (km, kms) /\ t_pos (f t) = vscale 1000 km /\
   (m_rmode n = Spice -> t_vel (f t) = vscale 1000 kms) /\
   (m_rmode n <> Spice -> t_vel (f t) = vadd (vscale 1000 kms) (velocity_of_point (P t) (vscale 1000 km))).
Proof.
  intros eps e n up epoch P f s t TP TF S N PM. rewrite true_iff in TP, TF. specialize (TF t). pose proof (TP t) as TPt. destruct (ssb_facts eps e up epoch) as (s' & SF). destruct (SF _ _ _ TPt) as (PP & _).
  cbn [ssb_transform] in TF. rewrite PM, Rminus_0_r in TF. unfold spkezr in TF.
  assert (MIX : obind (local_state eps e n (P t) epoch t 0) (t_mul (P t)) = Ok (f t) -> exists km kms, e_spk e (m_origin n) t = Some (km, kms) /\ t_pos (f t) = vscale 1000 km /\ t_vel (f t) = vadd (vscale 1000 kms) (velocity_of_point (P t) (vscale 1000 km))).
  { clear TF. intros TF. unfold local_state in TF. rewrite PM, Rminus_0_r in TF. unfold spkezr in TF. destruct (e_spk e (m_origin n) t) as [[km kms]|]; cbn [obind] in TF; try discriminate. exists km, kms. split; auto.
    rewrite (uniform_inverse _ _ PP S N) in TF. cbn [obind fst snd] in TF. unfold to_point, to_direction in TF. cbn [t_pos t_rot t_scale] in TF.
    match type of TF with obind (obind ?rw ?g) _ = _ => destruct rw as [[r w]| |] eqn:ER; cbn [obind] in TF; try discriminate end.
    match type of TF with obind (obind ?rw ?g) _ = _ => destruct rw as [[r' w']| |] eqn:ER'; cbn [obind] in TF; try discriminate end.
    cbn [fst snd] in TF. unfold t_mul in TF. destruct (rot_mul _ _) as [rr| |]; cbn [obind] in TF; try discriminate. injection TF as <-. cbn [t_pos t_vel t_scale]. rewrite S.
    assert (X : forall u, mapply (t_rot (P t)) (vmul (V3 s s s) (mapply (transpose (t_rot (P t))) (vmul u (V3 (/ s) (/ s) (/ s))))) = u).
    { intros u. replace (vmul (V3 s s s) (mapply (transpose (t_rot (P t))) (vmul u (V3 (/ s) (/ s) (/ s))))) with (mapply (transpose (t_rot (P t))) u); [apply rotation_cancel'; auto|]. apply v3_eq; cbn; field; auto. }
    assert (Y : vmul (V3 s s s) (vadd (mapply (transpose (t_rot (P t))) (vmul (vscale 1000 km) (V3 (/ s) (/ s) (/ s)))) (mapply (transpose (t_rot (P t))) (vscale (- / s) (t_pos (P t))))) = vmul (V3 s s s) (mapply (transpose (t_rot (P t))) (vmul (vsub (vscale 1000 km) (t_pos (P t))) (V3 (/ s) (/ s) (/ s))))).
    { f_equal. rewrite <- mapply_add. f_equal. vec. }
    rewrite Y, !X. unfold velocity_of_point. split; vec. }
  destruct (m_rmode n) eqn:RM.
  1, 3, 4, 5: destruct up as [|u up']; [discriminate|]; rewrite TPt in TF; cbn [obind] in TF; destruct (MIX TF) as (km & kms & E1 & E2 & E3); exists km, kms; repeat split; auto; congruence.
  destruct (e_spk e (m_origin n) t) as [[km kms]|]; cbn [obind] in TF; try discriminate. exists km, kms. split; auto. destruct (sxform e (m_frame n) t) as [rw| |]; cbn [obind] in TF; try discriminate. injection TF as <-. repeat split; auto. congruence.
Qed.
(* so the velocity of a node that takes only its position from SPICE is right exactly when its parent's frame stands still at that point *)
Theorem C111_refuted_velocity : forall eps e n up epoch P f s t km kms, true_state eps e up epoch P -> true_state eps e (n :: up) epoch f -> t_scale (P t) = V3 s s s -> s <> 0 -> m_pmode n = Spice -> m_rmode n <> Spice ->
  e_spk e (m_origin n) t = Some (km, kms) -> (t_vel (f t) = vscale 1000 kms <-> velocity_of_point (P t) (vscale 1000 km) = vzero).
Proof.
  intros eps e n up epoch P f s t km kms TP TF S N PM RM E. destruct (C111_position eps e n up epoch P f s t TP TF S N PM) as (km' & kms' & E' & _ & _ & V). rewrite E in E'. injection E' as <- <-. rewrite (V RM).
  set (a := vscale 1000 kms). set (b := velocity_of_point _ _). split; intros H.
  - apply v3_eq; [apply (f_equal vx) in H|apply (f_equal vy) in H|apply (f_equal vz) in H]; cbn in H |- *; lra.
  - rewrite H. vec.
Qed.
(* rotation: a node given a SPICE frame is oriented as SPICE says, whatever its parents *)
Theorem C111_rotation : forall eps e n up epoch P f s t r dr, true_state eps e up epoch P -> true_state eps e (n :: up) epoch f -> t_scale (P t) = V3 s s s -> s <> 0 -> m_rmode n = Spice ->
  e_sx e (m_frame n) t = Some (r, dr) -> is_rotation r -> t_rot (f t) = transpose r.
Proof.
  intros eps e n up epoch P f s t r dr TP TF S N RM E RR. rewrite true_iff in TP, TF. specialize (TF t). pose proof (TP t) as TPt. destruct (ssb_facts eps e up epoch) as (s' & SF). destruct (SF _ _ _ TPt) as (PP & _).
  assert (SX : sxform e (m_frame n) t = Ok (transpose r, mapply (transpose r) (snd (xf2rav r dr)))).
  { unfold sxform. rewrite E. cbn [xf2rav]. unfold from_parent_matrix. rewrite set_matrix_id by (apply transpose_rotation; auto). reflexivity. }
  assert (MIX : obind (local_state eps e n (P t) epoch t 0) (t_mul (P t)) = Ok (f t) -> t_rot (f t) = transpose r).
  { clear TF. intros TF. unfold local_state in TF. rewrite RM, Rminus_0_r, SX in TF. rewrite (uniform_inverse _ _ PP S N) in TF. cbn [obind fst snd t_rot] in TF.
    match type of TF with obind (obind ?x _) _ = _ => destruct x as [pv| |]; cbn [obind] in TF; try discriminate end.
    unfold rot_mul in TF at 1. rewrite set_matrix_id in TF by (apply mmul_rotation; apply transpose_rotation; auto). cbn [obind fst snd] in TF. unfold t_mul, rot_mul in TF. cbn [t_rot] in TF.
    assert (X : mmul (t_rot (P t)) (mmul (transpose (t_rot (P t))) (transpose r)) = transpose r) by (apply mat_eq; intros v; rewrite !mapply_mmul; apply rotation_cancel'; auto).
    rewrite X, set_matrix_id in TF by (apply transpose_rotation; auto). cbn [obind] in TF. injection TF as <-. reflexivity. }
  cbn [ssb_transform] in TF. rewrite RM, Rminus_0_r in TF. destruct (m_pmode n) eqn:PM.
  1, 3, 4, 5: destruct up as [|u up']; [discriminate|]; rewrite TPt in TF; cbn [obind] in TF; auto.
  destruct (spkezr e (m_origin n) t); cbn [obind] in TF; try discriminate. rewrite SX in TF. cbn [obind] in TF. injection TF as <-. reflexivity.
Qed.

(** C112 *)
(* Let a(t) be the rotation from a SPICE frame to J2000, turning with angular velocity w (in J2000 coordinates), and let CSPICE answer as documented: R = transpose a and R' its
   derivative. Then sxform returns the right rotation, and as angular velocity a w, not w. *)
Theorem C112_partial : forall e f t (a : R -> mat3) w dr, (forall x, is_rotation (a x)) -> (forall v, vderive (fun x => mapply (a x) v) t (cross w (mapply (a t) v))) ->
  (forall v, vderive (fun x => mapply (transpose (a x)) v) t (mapply dr v)) -> e_sx e f t = Some (transpose (a t), dr) -> sxform e f t = Ok (a t, mapply (a t) w).
Proof.
  intros e f t a w dr RA DA DR E. unfold sxform. rewrite E. cbn [xf2rav]. unfold from_parent_matrix.
  assert (TT : transpose (transpose (a t)) = a t) by (destruct (a t) as [[] [] []]; reflexivity). rewrite TT, set_matrix_id by auto. cbn [obind]. f_equal. f_equal. f_equal.
  (* R' v has the components (w x a_i) . v *)
  assert (D : forall v, mapply dr v = V3 (dot (cross w (c0 (a t))) v) (dot (cross w (c1 (a t))) v) (dot (cross w (c2 (a t))) v)).
  { intros v. eapply vderive_unique; [apply DR|]. eapply vderive_ext; [intros x; symmetry; apply mapply_transpose|].
    assert (K : forall c (k : R -> vec3), vderive k t c -> is_derive (fun x => dot (k x) v) t (dot c v)).
    { intros c k (A & B & C). unfold dot. apply D_plus; [apply D_plus|]; (eapply D_eq; [|apply D_mult; [eassumption|apply D_const]]); cbn; ring. }
    assert (C : forall i m, (forall x, mapply (a x) i = m x) -> vderive m t (cross w (m t))) by (intros i m H; rewrite <- H; eapply vderive_ext; [exact H|apply DA]).
    split; [|split]; cbn [vx vy vz]; (apply K).
    - apply (C ex). intros x; vec. - apply (C ey). intros x; vec. - apply (C ez). intros x; vec. }
  pose proof (D ex) as D0. pose proof (D ey) as D1. pose proof (D ez) as D2.
  assert (M : mmul (transpose dr) (transpose (a t)) = M3 (cross w (V3 1 0 0)) (cross w (V3 0 1 0)) (cross w (V3 0 0 1))).
  { assert (X : transpose dr = M3 (cross w (c0 (a t))) (cross w (c1 (a t))) (cross w (c2 (a t)))).
    { unfold transpose. unfold dot in D0, D1, D2. cbn in D0, D1, D2. injection D0 as A1 A2 A3. injection D1 as B1 B2 B3. injection D2 as F1 F2 F3. cbn. f_equal; apply v3_eq; cbn; lra. }
    rewrite X. apply mat_eq. intros v. rewrite mapply_mmul. assert (Y : forall u, mapply (M3 (cross w (c0 (a t))) (cross w (c1 (a t))) (cross w (c2 (a t)))) u = cross w (mapply (a t) u)) by (intros; vec).
    rewrite Y, rotation_cancel' by auto. vec. }
  rewrite M. apply v3_eq; cbn; ring.
Qed.
