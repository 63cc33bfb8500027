(* Concrete cases for C109-C112: a scene with a root at the solar system barycentre, a body moving at 30 km/s, and things that hang from them. *)
From Verif Require Import Vec3 TransformModel TransformSpec TransformProofs TransformProps SpectralModel MotionModel LightTimeProps MotionProofs MotionProps.
From Coq Require Import String.
From Coquelicot Require Import Coquelicot.
Open Scope R_scope.

Definition zero_mat : mat3 := M3 vzero vzero vzero.
Definition eph : ephemeris := Eph (fun o t => if String.eqb o "SSB" then Some (vzero, vzero) else Some (V3 (30 * t) 150000000 0, V3 30 0 0)) (fun _ _ => Some (ident, zero_mat)).
Definition no_pcb (_ : R) (_ : mat3) (_ : vec3) : vec3 * vec3 := (vzero, vzero).
Definition no_rcb (_ : R) (_ _ : vec3) : outcome (mat3 * vec3) := Ok (ident, vzero).
Definition no_scb (_ : R) : transform := t_default.
Definition root : mnode := MNode Spice Spice "SSB" "J2000" t_default false no_pcb no_rcb no_scb.
Definition ship (w : vec3) (r : mat3) (body : bool) : mnode := MNode Manual Manual "" "" (T (V3 300000000 0 0) r (V3 1 1 1) (V3 1000 0 0) w) body no_pcb no_rcb no_scb.
Definition earth : mnode := MNode Spice Manual "EARTH" "" t_default false no_pcb no_rcb no_scb.
Definition probe : mnode := MNode Spice Manual "PROBE" "" t_default false no_pcb no_rcb no_scb.

Lemma root_state eps epoch : true_state eps eph (root :: nil) epoch (fun _ => t_default).
Proof.
  apply true_iff. intros t. cbn. unfold from_parent_matrix. assert (E : transpose ident = ident) by reflexivity. rewrite E, set_matrix_id by apply ident_rotation. cbn. f_equal. unfold t_default. f_equal; vec.
Qed.
Lemma root_moves t : moves (fun _ => t_default) t.
Proof. split; [apply vderive_const|]. intros v. cbn. eapply vderive_eq; [|apply vderive_const]. vec. Qed.
Lemma to_point_default p : to_point t_default p = p. Proof. vec. Qed.
Example C109_case : forall eps epoch, 0 < eps <= 1 -> exists f, true_state eps eph (ship vzero ident false :: root :: nil) epoch f /\ no_faster (fun s => t_pos (f s)) 1000 /\ 0 <= 1000 < SPEED_OF_LIGHT /\ t_pos (f (epoch + 1)) = V3 300001000 0 0.
Proof.
  intros eps epoch HE. destruct (C110_manual eps eph (ship vzero ident false) (root :: nil) epoch _ HE (root_state eps epoch) eq_refl eq_refl ident_rotation) as (f & TF & H). exists f. split; auto.
  assert (P : forall t, t_pos (f t) = V3 (300000000 + (t - epoch) * 1000) 0 0). { intros t. destruct (H t) as (A & _). cbv zeta in A. rewrite A, to_point_default. apply v3_eq; cbn; ring. }
  split; [|split; [unfold SPEED_OF_LIGHT; lra|rewrite P; apply v3_eq; cbn; ring]]. intros s t. rewrite !P. unfold vlen, dot, vsub. cbn.
  match goal with |- sqrt ?x <= _ => replace x with (Rsqr (1000 * (s - t))) by (unfold Rsqr; ring) end. rewrite sqrt_Rsqr_abs, Rabs_mult, (Rabs_pos_eq 1000) by lra. lra.
Qed.
Lemma len_ex : vlen ex = 1. Proof. unfold vlen, dot; cbn. replace (_ + _ + _) with 1 by ring. apply sqrt_1. Qed.
Example C110_case : forall eps epoch, 0 < eps <= 1 -> steady eps eph epoch (epoch + 1) (ship ex quarter false :: root :: nil).
Proof.
  intros eps epoch HE. apply steady_manual; try reflexivity; [apply quarter_rotation| |eapply steady_spice; try reflexivity; [apply root_state|apply root_moves]].
  right. cbn [m_local ship t_ang]. rewrite len_ex. replace (1 * (epoch + 1 - epoch)) with 1 by ring. rewrite Rabs_R1. assert (1 < 10 ^ 12) by (cbn; lra). rewrite <- Rinv_1. apply Rinv_lt_contravar; lra.
Qed.
(* a ship whose body rates are (1, 0, 0) rad/s after a quarter turn about z: it reports the wrong angular velocity *)
Example C110_body_case : forall eps epoch, 0 < eps <= 1 -> exists f, true_state eps eph (ship ex quarter true :: root :: nil) epoch f /\ ~ moves f (epoch + 1).
Proof.
  intros eps epoch HE. destruct (C110_manual eps eph (ship ex quarter true) (root :: nil) epoch _ HE (root_state eps epoch) eq_refl eq_refl quarter_rotation) as (f & TF & _). exists f. split; auto.
  rewrite (C110_body_refuted eps eph (ship ex quarter true) (root :: nil) epoch (epoch + 1) (fun _ => t_default) f HE eq_refl eq_refl eq_refl quarter_rotation); [| |apply root_state|apply root_moves|exact TF].
  - intros H. apply (f_equal vx) in H. cbn in H. lra.
  - right. cbn [m_local ship t_ang]. rewrite len_ex. replace (1 * (epoch + 1 - epoch)) with 1 by ring. rewrite Rabs_R1. assert (1 < 10 ^ 12) by (cbn; lra). rewrite <- Rinv_1. apply Rinv_lt_contravar; lra.
Qed.
Lemma manual_rot_zero eps n epoch t : t_ang (m_local n) = vzero -> local_rotation_at eps n epoch t 0 = Ok (t_rot (m_local n), vzero).
Proof. intros Z. unfold local_rotation_at. rewrite Z, vlen_zero, Rmult_0_l, Rabs_R0. rewrite (proj2 (Rltb_true _ _)) by (apply Rinv_0_lt_compat, pow_lt; lra). reflexivity. Qed.
Definition earth_state (t : R) : transform := T (V3 (30000 * t) 150000000000 0) ident (V3 1 1 1) (V3 30000 0 0) vzero.
Lemma mmul_ident : mmul ident ident = ident. Proof. apply mat_eq. intros v. rewrite mapply_mmul, !mapply_ident. auto. Qed.
Lemma default_inverse : t_inverse t_default = Ok t_default.
Proof. rewrite (uniform_inverse t_default 1 ident_rotation eq_refl R1_neq_R0). f_equal. unfold t_default. cbn. f_equal; try (apply v3_eq; cbn; field). Qed.
Lemma earth_true eps epoch : true_state eps eph (earth :: root :: nil) epoch earth_state.
Proof.
  apply true_iff. intros t. pose proof (root_state eps epoch) as R. rewrite true_iff in R. specialize (R t). change (ssb_transform eps eph (earth :: root :: nil) epoch t 0) with (obind (ssb_transform eps eph (root :: nil) epoch t 0) (fun p => obind (local_state eps eph earth p epoch t 0) (t_mul p))).
  rewrite R. cbn [obind]. unfold local_state. cbn [m_pmode m_rmode earth]. rewrite (manual_rot_zero eps earth epoch t eq_refl), default_inverse. unfold spkezr. cbn [eph e_spk m_origin earth String.eqb obind]. cbn [obind fst snd Ascii.eqb Bool.eqb].
  unfold t_mul, rot_mul. cbn [t_rot t_default m_local earth]. rewrite mmul_ident, set_matrix_id by apply ident_rotation. cbn [obind]. f_equal. unfold earth_state. rewrite Rminus_0_r. f_equal; try (apply v3_eq; cbn; ring).
Qed.
(* the probe hangs from the earth: it is reported 30 km/s too fast *)
Example C111_case : forall eps epoch t, exists f, true_state eps eph (probe :: earth :: root :: nil) epoch f /\ t_pos (f t) = V3 (30000 * t) 150000000000 0 /\ t_vel (f t) = V3 60000 0 0.
Proof.
  intros eps epoch t.
  set (f := fun t => T (V3 (30000 * t) 150000000000 0) ident (V3 1 1 1) (V3 60000 0 0) vzero). assert (TF : true_state eps eph (probe :: earth :: root :: nil) epoch f).
  { apply true_iff. intros x. pose proof (earth_true eps epoch) as R. rewrite true_iff in R. specialize (R x). change (ssb_transform eps eph (probe :: earth :: root :: nil) epoch x 0) with (obind (ssb_transform eps eph (earth :: root :: nil) epoch x 0) (fun p => obind (local_state eps eph probe p epoch x 0) (t_mul p))).
    rewrite R. cbn [obind]. unfold local_state. cbn [m_pmode m_rmode probe]. rewrite (manual_rot_zero eps probe epoch x eq_refl). rewrite (uniform_inverse (earth_state x) 1 ident_rotation eq_refl R1_neq_R0). unfold spkezr. cbn [eph e_spk m_origin probe String.eqb obind]. cbn [obind fst snd Ascii.eqb Bool.eqb].
    unfold t_mul, rot_mul. cbn [t_rot earth_state t_default m_local probe]. rewrite mmul_ident, set_matrix_id by apply ident_rotation. cbn [obind]. f_equal. unfold f. rewrite Rminus_0_r. f_equal; try (apply v3_eq; cbn; field). }
  exists f. repeat split; auto.
Qed.
Print Assumptions C110_manual.
Print Assumptions C110_moves.
Print Assumptions C110_body_refuted.
Print Assumptions C111_position.
Print Assumptions C111_refuted_velocity.
Print Assumptions C111_rotation.
Print Assumptions C112_partial.
(* a frame turning about the z axis of J2000 after a quarter turn about x (its pole is not its own z axis): sxform reports the wrong axis *)
Definition tilted (x : R) : mat3 := mmul (rot_z x) (rot_x (PI / 2)).
Example C112_case : exists dr, (forall x, is_rotation (tilted x)) /\ (forall v, vderive (fun x => mapply (tilted x) v) 0 (cross ez (mapply (tilted 0) v))) /\
  (forall v, vderive (fun x => mapply (transpose (tilted x)) v) 0 (mapply dr v)) /\ mapply (tilted 0) ez <> ez.
Proof.
  exists (M3 (V3 0 0 1) (V3 1 0 0) (V3 0 0 0)). split; [intros x; apply mmul_rotation; [apply rot_z_rotation|apply rot_x_rotation]|]. split; [|split].
  - intros v. unfold tilted. rewrite mapply_mmul. eapply vderive_ext; [intros x; symmetry; apply mapply_mmul|]. set (u := mapply (rot_x (PI / 2)) v). split; [|split]; cbn; auto_derive; auto; ring.
  - intros v. split; [|split]; cbn; auto_derive; auto; rewrite ?cos_0, ?sin_0, ?cos_PI2, ?sin_PI2; ring.
  - intros H. apply (f_equal vz) in H. cbn in H. rewrite cos_PI2, ?cos_0, ?sin_0 in H. lra.
Qed.
