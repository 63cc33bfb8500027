(* Rotations and transforms: C50, C51, C77, C78. *)
From Verif Require Import Vec3 TransformModel TransformSpec TransformProofs.
From Coq Require Import Ascii String.
From Coquelicot Require Import Coquelicot.
Open Scope R_scope.

(** C50: rotations stay rotations *)
Theorem C50_rotation : forall eps r, built eps r -> is_rotation r.
Proof.
  intros eps r B. induction B; try (eapply set_matrix_rotation; eauto; fail).
  - apply ident_rotation.
  - unfold from_axis_angle in H. destruct (Rltb _ _); eapply set_matrix_rotation; eauto.
  - unfold from_parent_axis_angle, from_axis_angle in H. destruct (Rltb _ _); eapply set_matrix_rotation; eauto.
  - destruct s as [|k1 [|k2 [|k3 [|]]]]; try discriminate. cbn in H. destruct (axis_matrix k1 a) as [b0| |], (axis_matrix k2 b) as [b1| |], (axis_matrix k3 c) as [b2| |]; try discriminate. eapply set_matrix_rotation; eauto.
  - destruct s as [|k1 [|k2 [|k3 [|]]]]; try discriminate. cbn in H. destruct (axis_matrix k1 a) as [b0| |], (axis_matrix k2 b) as [b1| |], (axis_matrix k3 c) as [b2| |]; try discriminate. eapply set_matrix_rotation; eauto.
Qed.
(* a rotation matrix is taken over unchanged; a matrix whose determinant is off by more than 1/1000 is rejected *)
Theorem C50_matrix : forall m, (is_rotation m -> set_matrix m = Ok m) /\ (set_matrix m = Throws <-> / 1000 < Rabs (det m - 1)).
Proof.
  intros m. split; [apply set_matrix_id|]. unfold set_matrix. destruct (Rltb _ _) eqn:E; rb; split; auto; intros; try discriminate; lra.
Qed.
(* axis and angle: the right-handed rotation about the normalized axis *)
Theorem C50_axis_angle : forall eps axis angle, 0 < eps -> eps <= vlen axis ->
  exists m, from_axis_angle eps axis angle = Ok m /\ forall v, mapply m v = turned (vscale (/ vlen axis) axis) angle v.
Proof.
  intros eps axis angle E L. exists (rodrigues (vscale (/ vlen axis) axis) (cos angle) (sin angle)). split.
  - unfold from_axis_angle. destruct (Rltb _ _) eqn:X; rb; [lra|]. apply set_matrix_id. apply rodrigues_rotation. apply normalize_unit. intros ->. unfold vlen, dot in L. cbn in L.
    replace (0 * 0 + 0 * 0 + 0 * 0) with 0 in L by ring. rewrite sqrt_0 in L. lra.
  - intros v. rewrite rodrigues_turned, turned_formula. auto.
Qed.
(* an axis shorter than eps gives the identity without a diagnostic *)
Theorem C50_short_axis : forall eps axis angle, vlen axis < eps -> from_axis_angle eps axis angle = Ok ident.
Proof. intros eps axis angle L. unfold from_axis_angle. destruct (Rltb _ _) eqn:X; rb; [|lra]. apply set_matrix_id, ident_rotation. Qed.
(* the quaternion (cos a/2, sin a/2 n) is the rotation by a about n *)
Theorem C50_quaternion : forall n a, dot n n = 1 ->
  exists m, from_quat (cos (a / 2), sin (a / 2) * vx n, sin (a / 2) * vy n, sin (a / 2) * vz n) = Ok m /\ forall v, mapply m v = turned n a v.
Proof.
  intros n a N. pose proof (cs (a / 2)) as CS. set (c := cos (a / 2)) in *. set (s := sin (a / 2)) in *.
  assert (C : cos a = c * c - s * s). { replace a with (2 * (a / 2)) at 1 by field. rewrite cos_2a. reflexivity. }
  assert (S' : sin a = 2 * s * c). { replace a with (2 * (a / 2)) at 1 by field. rewrite sin_2a. reflexivity. }
  eexists. split; [apply set_matrix_id, mat3_cast_rotation|].
  - unfold dot in N. replace (c * c + s * vx n * (s * vx n) + s * vy n * (s * vy n) + s * vz n * (s * vz n)) with (c * c + s * s * (vx n * vx n + vy n * vy n + vz n * vz n)) by ring. rewrite N. lra.
  - intros v. rewrite turned_formula, C, S'. clearbody c s. destruct n as [x y z], v as [p q r]. unfold dot in *. cbn [vx vy vz] in *.
    assert (N' : z * z = 1 - x * x - y * y) by lra. assert (CS' : c * c = 1 - s * s) by lra. apply v3_eq; cbn; ring [N' CS'].
Qed.
(* Euler angles: three turns about the named axes; fixed axes apply the first angle first, moving axes the last angle first *)
Lemma axis_named_ok ch n a : axis_named ch = Some n -> exists m, axis_matrix ch a = Ok m /\ is_rotation m /\ forall v, mapply m v = turned n a v.
Proof.
  intros H. assert (X : exists m, axis_matrix ch a = Ok m /\ ((n = ex /\ m = rot_x a) \/ (n = ey /\ m = rot_y a) \/ (n = ez /\ m = rot_z a))).
  { destruct ch as [[] [] [] [] [] [] [] []]; try discriminate H; injection H as <-; cbn; rewrite of_deg_deg; eexists; split; eauto; tauto. }
  destruct X as (m & E & [(-> & ->)|[(-> & ->)|(-> & ->)]]); eexists; (split; [exact E|]); split; auto using rot_x_rotation, rot_y_rotation, rot_z_rotation, rot_x_turned, rot_y_turned, rot_z_turned.
Qed.
Lemma axis_named_none ch a : axis_named ch = None -> axis_matrix ch a = Throws.
Proof. intros H. destruct ch as [[] [] [] [] [] [] [] []]; try discriminate H; reflexivity. Qed.
Theorem C50_euler : forall k1 k2 k3 n1 n2 n3 a1 a2 a3, axis_named k1 = Some n1 -> axis_named k2 = Some n2 -> axis_named k3 = Some n3 ->
  (exists m, extrinsic a1 a2 a3 (String k1 (String k2 (String k3 EmptyString))) = Ok m /\ forall v, mapply m v = turned n3 a3 (turned n2 a2 (turned n1 a1 v))) /\
  (exists m, intrinsic a1 a2 a3 (String k1 (String k2 (String k3 EmptyString))) = Ok m /\ forall v, mapply m v = turned n1 a1 (turned n2 a2 (turned n3 a3 v))).
Proof.
  intros k1 k2 k3 n1 n2 n3 a1 a2 a3 H1 H2 H3. destruct (axis_named_ok k1 n1 a1 H1) as (b0 & E0 & R0 & T0), (axis_named_ok k2 n2 a2 H2) as (b1 & E1 & R1 & T1), (axis_named_ok k3 n3 a3 H3) as (b2 & E2 & R2 & T2).
  unfold extrinsic, intrinsic. rewrite E0, E1, E2. cbn [obind]. split; (eexists; split; [apply set_matrix_id; auto using mmul_rotation|]); intros v; rewrite !mapply_mmul, ?T0, ?T1, ?T2; auto.
Qed.
Theorem C50_euler_throws : forall a1 a2 a3 s, (forall k1 k2 k3, s = String k1 (String k2 (String k3 EmptyString)) -> axis_named k1 = None \/ axis_named k2 = None \/ axis_named k3 = None) ->
  extrinsic a1 a2 a3 s = Throws /\ intrinsic a1 a2 a3 s = Throws.
Proof.
  intros a1 a2 a3 s H. destruct s as [|k1 [|k2 [|k3 [|]]]]; try (split; reflexivity). specialize (H _ _ _ eq_refl). unfold extrinsic, intrinsic.
  assert (T : forall k a, (exists m, axis_matrix k a = Ok m) \/ axis_matrix k a = Throws).
  { intros k a. destruct (axis_named k) as [n|] eqn:E; [destruct (axis_named_ok k n a E) as (m & X & _); eauto|right; apply axis_named_none; auto]. }
  destruct (T k1 a1) as [(m1 & M1)|M1], (T k2 a2) as [(m2 & M2)|M2], (T k3 a3) as [(m3 & M3)|M3]; rewrite M1, ?M2, ?M3; cbn [obind]; rewrite ?M2; cbn [obind]; rewrite ?M3; auto.
  exfalso. destruct H as [H|[H|H]]; [rewrite (axis_named_none k1 a1 H) in M1|rewrite (axis_named_none k2 a2 H) in M2|rewrite (axis_named_none k3 a3 H) in M3]; discriminate.
Qed.
(* fixed-axis angles equal moving-axis angles in reverse order, for every string *)
Theorem C50_reverse : forall a1 a2 a3 k1 k2 k3, extrinsic a1 a2 a3 (String k1 (String k2 (String k3 EmptyString))) = intrinsic a3 a2 a1 (String k3 (String k2 (String k1 EmptyString))).
Proof.
  intros. unfold extrinsic, intrinsic. destruct (axis_named k1) as [n1|] eqn:H1, (axis_named k2) as [n2|] eqn:H2, (axis_named k3) as [n3|] eqn:H3;
  repeat match goal with H : axis_named ?k = Some ?n |- context[axis_matrix ?k ?a] => let m := fresh "m" in let E := fresh "E" in destruct (axis_named_ok k n a H) as (m & E & _ & _); rewrite E
  | H : axis_named ?k = None |- context[axis_matrix ?k ?a] => rewrite (axis_named_none k a H) end; cbn [obind]; auto.
Qed.
(* the inverse undoes, composition composes, and the parent-to-local constructors are the inverses of the local-to-parent ones *)
Theorem C50_inverse : forall r, is_rotation r -> exists i, rot_inverse r = Ok i /\ is_rotation i /\ (forall v, mapply i (mapply r v) = v) /\ (forall v, mapply r (mapply i v) = v).
Proof. intros r H. exists (transpose r). unfold rot_inverse. split; [apply set_matrix_id|split; [|split; intros]]; auto using transpose_rotation, rotation_cancel, rotation_cancel'. Qed.
Theorem C50_compose : forall a b, is_rotation a -> is_rotation b -> exists c, rot_mul a b = Ok c /\ is_rotation c /\ forall v, mapply c v = mapply a (mapply b v).
Proof. intros a b A B. exists (mmul a b). split; [apply set_matrix_id|split; [|intros; apply mapply_mmul]]; auto using mmul_rotation. Qed.
Definition undoes (a b : mat3) : Prop := forall v, mapply a (mapply b v) = v.
Theorem C50_parent : forall eps,
  (forall n a i r, 0 < eps -> from_parent_axis_angle eps n a = Ok i -> from_axis_angle eps n a = Ok r -> undoes i r) /\
  (forall m, is_rotation m -> exists i, from_parent_matrix m = Ok i /\ undoes i m) /\
  (forall w x y z, w * w + x * x + y * y + z * z = 1 -> exists i r, from_parent_quat (w, x, y, z) = Ok i /\ from_quat (w, x, y, z) = Ok r /\ undoes i r).
Proof.
  intros eps. split; [|split].
  - intros n a i r EP I Q v. unfold from_parent_axis_angle, from_axis_angle in I, Q. destruct (Rltb _ _) eqn:E.
    + rewrite (set_matrix_id _ ident_rotation) in I, Q. injection I as <-. injection Q as <-. rewrite !mapply_ident. auto.
    + rb. assert (N : dot (vscale (/ vlen n) n) (vscale (/ vlen n) n) = 1).
      { apply normalize_unit. intros ->. unfold vlen, dot in E. cbn in E. replace (0 * 0 + 0 * 0 + 0 * 0) with 0 in E by ring. rewrite sqrt_0 in E. lra. }
      set (u := vscale (/ vlen n) n) in *. rewrite set_matrix_id in I, Q by (apply rodrigues_rotation; auto). injection I as <-. injection Q as <-.
      assert (T : rodrigues u (cos (- a)) (sin (- a)) = transpose (rodrigues u (cos a) (sin a))). { rewrite cos_neg, sin_neg. unfold rodrigues, transpose. cbn. f_equal; f_equal; ring. }
      rewrite T. apply rotation_cancel. apply rodrigues_rotation; auto.
  - intros m M. exists (transpose m). split; [apply set_matrix_id, transpose_rotation; auto|]. intros v. apply rotation_cancel; auto.
  - intros w x y z N. pose proof (mat3_cast_rotation (w, x, y, z) N) as A. exists (transpose (mat3_cast (w, x, y, z))), (mat3_cast (w, x, y, z)). split; [|split; [apply set_matrix_id; auto|intros v; apply rotation_cancel; auto]].
    unfold from_parent_quat, from_quat. cbn [qinverse]. rewrite N. replace (mat3_cast _) with (transpose (mat3_cast (w, x, y, z))); [apply set_matrix_id, transpose_rotation; auto|].
    unfold transpose. cbn. f_equal; f_equal; field.
Qed.
Print Assumptions C50_rotation.
Print Assumptions C50_matrix.
Print Assumptions C50_axis_angle.
Print Assumptions C50_short_axis.
Print Assumptions C50_quaternion.
Print Assumptions C50_euler.
Print Assumptions C50_euler_throws.
Print Assumptions C50_reverse.
Print Assumptions C50_inverse.
Print Assumptions C50_compose.
Print Assumptions C50_parent.
(* a quarter turn about z: x goes to y, and the axis (0,0,2) is accepted *)
Example C50_example : exists m, from_axis_angle (/ 1000) (V3 0 0 2) (PI / 2) = Ok m /\ mapply m ex = ey.
Proof.
  assert (L : vlen (V3 0 0 2) = 2). { unfold vlen, dot. cbn. replace (0 * 0 + 0 * 0 + 2 * 2) with (2 * 2) by ring. apply sqrt_square. lra. }
  destruct (C50_axis_angle (/ 1000) (V3 0 0 2) (PI / 2)) as (m & E & H); [lra|rewrite L; lra|]. exists m. split; auto. rewrite H, L. unfold turned, dot. rewrite cos_PI2, sin_PI2. apply v3_eq; cbn; field.
Qed.
Example C50_matrix_example : is_rotation (rot_x 1) /\ set_matrix (M3 ex ez ey) = Throws.
Proof. split; [apply rot_x_rotation|]. apply C50_matrix. unfold det; cbn. replace (1 * (0 * 0 - 1 * 1) - 0 * (0 * 0 - 1 * 0) + 0 * (0 * 1 - 0 * 0) - 1) with (-2) by ring. rewrite Rabs_left; lra. Qed.
Example C50_euler_example : axis_named "z" = Some ez /\ axis_named "1" = Some ex /\ extrinsic 1 2 3 "zyq" = Throws /\ extrinsic 1 2 3 "zy" = Throws.
Proof. split; [reflexivity|split; [reflexivity|split; apply C50_euler_throws; intros k1 k2 k3 E; inversion E; subst; auto]]. Qed.

(** C51: composition, inverse and matrix of a transform *)
Lemma vmul_uniform s m v : uniform s -> vmul s (mapply m v) = mapply m (vmul s v).
Proof. intros (A & B). destruct s as [a b c]. cbn in A, B. subst. vec. Qed.
Lemma vmul_comm a b : vmul a b = vmul b a. Proof. vec. Qed.
Lemma vmul_add a u v : vmul a (vadd u v) = vadd (vmul a u) (vmul a v). Proof. vec. Qed.
Lemma vmul_assoc a b c : vmul (vmul a b) c = vmul a (vmul b c). Proof. vec. Qed.
(* composing is applying in turn, whenever the outer scale commutes with the inner rotation; in particular for a uniform outer scale *)
Theorem C51_compose_partial : forall a b, proper a -> proper b -> uniform (t_scale a) ->
  exists c, t_mul a b = Ok c /\ proper c /\ (forall p, to_point c p = to_point a (to_point b p)) /\ forall d, to_direction c d = to_direction a (to_direction b d).
Proof.
  intros a b A B U. unfold t_mul. destruct (C50_compose _ _ A B) as (r & E & RR & H). rewrite E. cbn [obind]. eexists. split; [reflexivity|].
  assert (D : forall p, mapply r (vmul p (vmul (t_scale a) (t_scale b))) = mapply (t_rot a) (vmul (mapply (t_rot b) (vmul p (t_scale b))) (t_scale a))).
  { intros p. rewrite H. f_equal. rewrite (vmul_comm (mapply _ _)), vmul_uniform by auto. f_equal. vec. }
  split; [exact RR|split]; intros p; unfold to_point, to_direction; cbn [t_rot t_pos t_scale].
  - rewrite D. rewrite (vmul_comm (vadd _ _)), vmul_add, mapply_add, (vmul_comm (mapply (t_rot b) _)). vec.
  - rewrite D. auto.
Qed.
(* hence the product of any chain of uniformly scaled transforms applies them in turn (the world transform of a node) *)
Theorem C51_chain_partial : forall l t, List.Forall proper l -> List.Forall (fun x => uniform (t_scale x)) l -> proper t ->
  exists c, fold_right (fun a r => obind r (t_mul a)) (Ok t) l = Ok c /\ proper c /\ forall p, to_point c p = in_turn l (to_point t p).
Proof.
  induction l as [|a l IH]; intros t A U T; [exists t; split; [auto|split; auto]|]. apply Forall_cons_iff in A, U. destruct A as (A1 & A2), U as (U1 & U2). destruct (IH t) as (c & E & P & H); auto. cbn [fold_right]. rewrite E. cbn [obind].
  destruct (C51_compose_partial a c) as (d & E' & P' & H' & _); auto. exists d. split; auto. split; auto. intros p. rewrite H', H. reflexivity.
Qed.
Theorem C51_inverse_partial : forall a s, proper a -> t_scale a = V3 s s s -> s <> 0 -> exists i, t_inverse a = Ok i /\ (forall p, to_point i (to_point a p) = p) /\ forall p, to_point a (to_point i p) = p.
Proof.
  intros a s A S0 NZ. unfold t_inverse. destruct (C50_inverse _ A) as (r & E & RR & H1 & H2). rewrite E. cbn [obind]. rewrite S0. cbn [vx vy vz]. eexists. split; [reflexivity|].
  unfold to_point. cbn [t_rot t_pos t_scale]. rewrite S0. assert (V : forall v k, vmul v (V3 k k k) = vscale k v) by (intros; vec). split; intros p; rewrite !V.
  - unfold vopp. rewrite !mapply_scale, mapply_add, !mapply_scale, H1. apply v3_eq; cbn; field; auto.
  - unfold vopp. rewrite !mapply_scale, mapply_add, !mapply_scale, H2, H2. apply v3_eq; cbn; field; auto.
Qed.
Definition quarter : mat3 := M3 (V3 0 1 0) (V3 (-1) 0 0) (V3 0 0 1).
Lemma quarter_rotation : is_rotation quarter.
Proof. replace quarter with (M3 (V3 0 1 0) (V3 (-1) 0 0) (cross (V3 0 1 0) (V3 (-1) 0 0))) by (unfold quarter; f_equal; vec). apply frame_rotation; unfold dot; cbn; ring. Qed.
(* a non-uniform scale breaks both laws *)
Theorem C51_refuted_compose : forall s : vec3, vx s <> vy s -> exists a b c p, t_scale a = s /\ proper a /\ proper b /\ t_mul a b = Ok c /\ to_point c p <> to_point a (to_point b p).
Proof.
  intros s N. set (a := T vzero ident s vzero vzero). set (b := T vzero quarter (V3 1 1 1) vzero vzero). destruct (C50_compose ident quarter ident_rotation quarter_rotation) as (r & E & RR & H).
  unfold t_mul. exists a, b. cbn [t_rot a b]. rewrite E. cbn [obind]. eexists. exists ex. split; [auto|]. split; [apply ident_rotation|]. split; [apply quarter_rotation|]. split; [reflexivity|].
  unfold to_point. cbn [t_rot t_pos t_scale a b]. rewrite H. intros X. apply (f_equal vy) in X. cbn in X. apply N. lra.
Qed.
Theorem C51_refuted_inverse : exists a i p, proper a /\ t_scale a = V3 1 2 1 /\ t_inverse a = Ok i /\ to_point i (to_point a p) <> p.
Proof.
  set (a := T vzero quarter (V3 1 2 1) vzero vzero). destruct (C50_inverse quarter quarter_rotation) as (r & E & RR & H1 & H2).
  exists a. unfold t_inverse. cbn [t_rot a]. rewrite E. cbn [obind]. eexists. exists ex. split; [apply quarter_rotation|]. split; auto. split; [reflexivity|].
  unfold to_point. cbn [t_rot t_pos t_scale a vx vy vz]. intros X. replace (vmul (vadd (mapply quarter (vmul ex (V3 1 2 1))) vzero) (V3 (1 / 1) (1 / 2) (1 / 1))) with (mapply quarter (vscale (/ 2) ex)) in X by (apply v3_eq; cbn; field).
  rewrite H1 in X. replace (vmul (vopp vzero) _) with vzero in X by (apply v3_eq; cbn; field). replace (mapply r vzero) with vzero in X by vec. apply (f_equal vx) in X. cbn in X. lra.
Qed.
(* the 4x4 matrix acts on points as the transform does only if the position is zero and the scale commutes with the rotation *)
Theorem C51_refuted_matrix : forall t, same_action (to_matrix t) (to_point t) -> t_pos t = vzero /\ forall p, vmul (t_scale t) (mapply (t_rot t) p) = mapply (t_rot t) (vmul (t_scale t) p).
Proof.
  intros t H. assert (Z : t_pos t = vzero).
  { assert (X := H ex). assert (Y := H ey). assert (W := H ez). unfold mat4_point, to_matrix in X, Y, W. cbn in X, Y, W. apply v3_eq; cbn; lra. }
  split; auto. intros p. destruct (H p) as (X & Y & W & _). unfold mat4_point, to_matrix, to_point in X, Y, W. rewrite Z in X, Y, W. cbn in X, Y, W. apply v3_eq; cbn; lra.
Qed.
Theorem C51_matrix_partial : forall t, t_pos t = vzero -> (forall p, vmul (t_scale t) (mapply (t_rot t) p) = mapply (t_rot t) (vmul (t_scale t) p)) -> same_action (to_matrix t) (to_point t).
Proof.
  intros t Z C p. specialize (C p). unfold mat4_point, to_matrix, to_point. rewrite Z. rewrite (vmul_comm p), <- C. cbn. repeat split; try ring.
Qed.
Print Assumptions C51_compose_partial.
Print Assumptions C51_chain_partial.
Print Assumptions C51_inverse_partial.
Print Assumptions C51_refuted_compose.
Print Assumptions C51_refuted_inverse.
Print Assumptions C51_refuted_matrix.
Print Assumptions C51_matrix_partial.
Example C51_example : let a := T (V3 1 2 3) quarter (V3 2 2 2) vzero vzero in proper a /\ uniform (t_scale a) /\ to_point a ex = V3 1 4 3 /\ ~ same_action (to_matrix a) (to_point a).
Proof.
  cbv zeta. split; [apply quarter_rotation|]. split; [split; reflexivity|]. split; [vec|]. intros H. apply C51_refuted_matrix in H. destruct H as (H & _). apply (f_equal vx) in H. cbn in H. lra.
Qed.

(** C77: velocities and angular velocities compose as time derivatives *)
Ltac vd := split; [|split].
Lemma D_mult f g t a b : is_derive f t a -> is_derive g t b -> is_derive (fun x => f x * g x) t (a * g t + f t * b).
Proof. intros F G. apply is_derive_Reals. apply is_derive_Reals in F, G. apply (derivable_pt_lim_mult f g t a b F G). Qed.
Lemma D_plus f g t a b : is_derive f t a -> is_derive g t b -> is_derive (fun x => f x + g x) t (a + b).
Proof. intros F G. apply is_derive_Reals. apply is_derive_Reals in F, G. apply (derivable_pt_lim_plus f g t a b F G). Qed.
Lemma D_const k t : is_derive (fun _ : R => k) t 0.
Proof. apply is_derive_Reals. apply derivable_pt_lim_const. Qed.
Lemma D_eq (f : R -> R) t (a b : R) : a = b -> is_derive f t a -> is_derive f t b. Proof. intros ->. auto. Qed.
Lemma vderive_eq f t a b : a = b -> vderive f t a -> vderive f t b. Proof. intros ->. auto. Qed.
Lemma vderive_ext f g t a : (forall x, f x = g x) -> vderive f t a -> vderive g t a.
Proof.
  intros E (A & B & C). split; [|split].
  - apply (is_derive_ext (fun x => vx (f x))); auto. intros x. rewrite E. auto.
  - apply (is_derive_ext (fun x => vy (f x))); auto. intros x. rewrite E. auto.
  - apply (is_derive_ext (fun x => vz (f x))); auto. intros x. rewrite E. auto.
Qed.
Lemma vderive_add f g t a b : vderive f t a -> vderive g t b -> vderive (fun x => vadd (f x) (g x)) t (vadd a b).
Proof. intros (A & B & C) (A' & B' & C'). vd; apply D_plus; auto. Qed.
Lemma vderive_vmul k f t a : vderive f t a -> vderive (fun x => vmul k (f x)) t (vmul k a).
Proof. intros (A & B & C). vd; cbn; (eapply D_eq; [|apply D_mult; [apply D_const|eassumption]]); cbn; ring. Qed.
Lemma vderive_const k t : vderive (fun _ => k) t vzero. Proof. vd; apply D_const. Qed.
Lemma vderive_mapply (M : R -> mat3) p w t p' : (forall v, vderive (fun x => mapply (M x) v) t (cross w (mapply (M t) v))) -> vderive p t p' ->
  vderive (fun x => mapply (M x) (p x)) t (vadd (cross w (mapply (M t) (p t))) (mapply (M t) p')).
Proof.
  intros H (P1 & P2 & P3). assert (C0 : vderive (fun x => c0 (M x)) t (cross w (c0 (M t)))). { eapply vderive_eq; [|eapply vderive_ext; [|apply (H ex)]]; [f_equal; vec|intros; vec]. }
  assert (C1 : vderive (fun x => c1 (M x)) t (cross w (c1 (M t)))). { eapply vderive_eq; [|eapply vderive_ext; [|apply (H ey)]]; [f_equal; vec|intros; vec]. }
  assert (C2 : vderive (fun x => c2 (M x)) t (cross w (c2 (M t)))). { eapply vderive_eq; [|eapply vderive_ext; [|apply (H ez)]]; [f_equal; vec|intros; vec]. }
  destruct C0 as (A1 & A2 & A3), C1 as (B1 & B2 & B3), C2 as (D1 & D2 & D3).
  vd; cbn; (eapply D_eq; [|apply D_plus; [apply D_plus|]; apply D_mult; eassumption]); cbn; ring.
Qed.
Lemma cross_rot r u v : is_rotation r -> cross (mapply r u) (mapply r v) = mapply r (cross u v). Proof. intros (_ & H). auto. Qed.
(* if two frames move with the velocities and angular velocities they carry, so does their product *)
Theorem C77 : forall (a b c : R -> transform) t s, (forall x, proper (a x)) -> (forall x, proper (b x)) -> (forall x, t_scale (a x) = s) -> (forall x, t_mul (a x) (b x) = Ok (c x)) ->
  moves a t -> moves b t -> moves c t.
Proof.
  intros a b c t s A B SA E (PA & RA) (PB & RB).
  assert (C : forall x, c x = T (vadd (t_pos (a x)) (mapply (t_rot (a x)) (vmul s (t_pos (b x))))) (mmul (t_rot (a x)) (t_rot (b x))) (vmul s (t_scale (b x)))
     (vadd (vadd (t_vel (a x)) (mapply (t_rot (a x)) (vmul s (t_vel (b x))))) (cross (t_ang (a x)) (mapply (t_rot (a x)) (vmul s (t_pos (b x)))))) (vadd (t_ang (a x)) (mapply (t_rot (a x)) (t_ang (b x))))).
  { intros x. specialize (E x). unfold t_mul, rot_mul in E. rewrite (set_matrix_id _ (mmul_rotation _ _ (A x) (B x))) in E. cbn [obind] in E. injection E as <-. rewrite SA. reflexivity. }
  split.
  - eapply vderive_ext; [intros x; rewrite (C x); reflexivity|]. rewrite (C t). cbn [t_pos t_vel]. eapply vderive_eq; [|apply vderive_add; [exact PA|apply (vderive_mapply (fun x => t_rot (a x))); [exact RA|apply vderive_vmul; exact PB]]]. vec.
  - intros v. apply (vderive_ext (fun x => mapply (t_rot (a x)) (mapply (t_rot (b x)) v))); [intros x; rewrite (C x); cbn [t_rot]; rewrite mapply_mmul; reflexivity|]. rewrite (C t). cbn [t_rot t_ang]. rewrite mapply_mmul.
    eapply vderive_eq; [|apply (vderive_mapply (fun x => t_rot (a x))); [exact RA|apply RB]]. cbn beta. destruct (A t) as (_ & X). rewrite X. vec.
Qed.
(* the velocity of a point fixed in a moving frame of constant scale is the derivative of its position *)
Theorem C77_point : forall (a : R -> transform) t s, (forall x, t_scale (a x) = s) -> moves a t -> forall p,
  vderive (fun x => to_point (a x) p) t (velocity_of_local_point (a t) p) /\ velocity_of_local_point (a t) p = velocity_of_point (a t) (to_point (a t) p).
Proof.
  intros a t s SA (PA & RA) p. split; [|reflexivity]. unfold to_point, velocity_of_local_point, velocity_of_point, to_point. eapply vderive_eq; [|apply vderive_add; [|exact PA]].
  2:{ apply (vderive_ext (fun x => mapply (t_rot (a x)) (vmul p s))); [intros x; rewrite SA; reflexivity|apply RA]. } rewrite SA. vec.
Qed.
Print Assumptions C77.
Print Assumptions C77_point.
(* a frame turning about z at unit rate and moving along x: it moves as it says *)
Definition spinning (x : R) : transform := T (V3 x 2 0) (rot_z x) (V3 1 1 1) (V3 1 0 0) (V3 0 0 1).
Lemma spinning_moves t : moves spinning t.
Proof.
  assert (Mv : forall k, vderive (fun x => mapply (rot_z x) k) t (cross (V3 0 0 1) (mapply (rot_z t) k))).
  { intros k. vd; cbn; auto_derive; auto; ring. }
  split; cbn [spinning t_pos t_vel t_rot t_ang]; [|exact Mv]. vd; cbn; try apply D_const. apply is_derive_Reals. apply derivable_pt_lim_id.
Qed.
Example C77_example : (forall x, proper (spinning x)) /\ (forall x, t_scale (spinning x) = V3 1 1 1) /\ moves spinning 0 /\ forall x, exists c, t_mul (spinning x) (spinning x) = Ok c.
Proof.
  split; [intros x; apply rot_z_rotation|]. split; [reflexivity|]. split; [apply spinning_moves|]. intros x. unfold t_mul, rot_mul. rewrite set_matrix_id by (apply mmul_rotation; apply rot_z_rotation). cbn. eauto.
Qed.

(** C78: the inverse of a moving frame *)
(* for a frame of constant uniform scale the inverse carries its true velocity exactly when the angular velocity is parallel to the position *)
Lemma vderive_unique f t a b : vderive f t a -> vderive f t b -> a = b.
Proof.
  intros (A & B & C) (A' & B' & C'). apply v3_eq.
  - rewrite <- (is_derive_unique _ _ _ A). apply is_derive_unique; auto.
  - rewrite <- (is_derive_unique _ _ _ B). apply is_derive_unique; auto.
  - rewrite <- (is_derive_unique _ _ _ C). apply is_derive_unique; auto.
Qed.
Lemma vderive_transpose (M : R -> mat3) w t : (forall x, is_rotation (M x)) -> (forall v, vderive (fun x => mapply (M x) v) t (cross w (mapply (M t) v))) ->
  forall v, vderive (fun x => mapply (transpose (M x)) v) t (cross (vscale (-1) (mapply (transpose (M t)) w)) (mapply (transpose (M t)) v)).
Proof.
  intros RM H v. assert (C0 : vderive (fun x => c0 (M x)) t (cross w (c0 (M t)))). { eapply vderive_eq; [|eapply vderive_ext; [|apply (H ex)]]; [f_equal; vec|intros; vec]. }
  assert (C1 : vderive (fun x => c1 (M x)) t (cross w (c1 (M t)))). { eapply vderive_eq; [|eapply vderive_ext; [|apply (H ey)]]; [f_equal; vec|intros; vec]. }
  assert (C2 : vderive (fun x => c2 (M x)) t (cross w (c2 (M t)))). { eapply vderive_eq; [|eapply vderive_ext; [|apply (H ez)]]; [f_equal; vec|intros; vec]. }
  assert (Dt : forall f d, vderive f t d -> is_derive (fun x => dot (f x) v) t (dot d v)).
  { intros f d (A & B & C). unfold dot. eapply D_eq; [|apply D_plus; [apply D_plus|]; apply D_mult; try eassumption; apply D_const]. cbn. ring. }
  apply (vderive_ext (fun x => V3 (dot (c0 (M x)) v) (dot (c1 (M x)) v) (dot (c2 (M x)) v))); [intros x; rewrite mapply_transpose; auto|].
  assert (X : cross (vscale (-1) (mapply (transpose (M t)) w)) (mapply (transpose (M t)) v) = mapply (transpose (M t)) (vscale (-1) (cross w v))).
  { rewrite <- mapply_scale, cross_rot by (apply transpose_rotation; auto). f_equal. vec. }
  rewrite X, mapply_transpose. vd; cbn [vx vy vz]; (eapply D_eq; [|apply Dt; eassumption]); unfold dot; cbn; ring.
Qed.
Theorem C78_partial : forall (a i : R -> transform) t s, s <> 0 -> (forall x, proper (a x)) -> (forall x, t_scale (a x) = V3 s s s) -> (forall x, t_inverse (a x) = Ok (i x)) -> moves a t ->
  (forall v, vderive (fun x => mapply (t_rot (i x)) v) t (cross (t_ang (i t)) (mapply (t_rot (i t)) v))) /\
  (moves i t <-> cross (t_ang (a t)) (t_pos (a t)) = vzero).
Proof.
  intros a i t s NZ A SA E (PA & RA).
  assert (C : forall x, i x = T (mapply (transpose (t_rot (a x))) (vscale (- / s) (t_pos (a x)))) (transpose (t_rot (a x))) (V3 (/ s) (/ s) (/ s)) (mapply (transpose (t_rot (a x))) (vscale (- / s) (t_vel (a x)))) (mapply (transpose (t_rot (a x))) (vscale (-1) (t_ang (a x))))).
  { intros x. specialize (E x). unfold t_inverse, rot_inverse in E. rewrite (set_matrix_id _ (transpose_rotation _ (A x))) in E. cbn [obind] in E. injection E as <-. rewrite SA. cbn [vx vy vz]. f_equal; first [solve [f_equal; apply v3_eq; cbn; field; auto] | solve [apply v3_eq; cbn; field; auto]]. }
  pose proof (vderive_transpose (fun x => t_rot (a x)) _ t A RA) as RT.
  assert (R1 : forall v, vderive (fun x => mapply (t_rot (i x)) v) t (cross (t_ang (i t)) (mapply (t_rot (i t)) v))).
  { intros v. apply (vderive_ext (fun x => mapply (transpose (t_rot (a x))) v)); [intros x; rewrite (C x); reflexivity|]. rewrite (C t). cbn [t_rot t_ang]. rewrite mapply_scale. apply RT. }
  split; auto.
  assert (P1 : vderive (fun x => t_pos (i x)) t (vadd (t_vel (i t)) (vscale (/ s) (mapply (transpose (t_rot (a t))) (cross (t_ang (a t)) (t_pos (a t))))))).
  { apply (vderive_ext (fun x => mapply (transpose (t_rot (a x))) (vscale (- / s) (t_pos (a x))))); [intros x; rewrite (C x); reflexivity|]. rewrite (C t). cbn [t_vel t_pos].
    eapply vderive_eq; [|eapply (vderive_mapply (fun x => transpose (t_rot (a x))) (fun x => vscale (- / s) (t_pos (a x))) _ _ (vscale (- / s) (t_vel (a t)))); [exact RT|]].
    2:{ apply (vderive_ext (fun x => vmul (V3 (- / s) (- / s) (- / s)) (t_pos (a x)))); [intros; vec|]. eapply vderive_eq; [|apply vderive_vmul; exact PA]. vec. }
    cbv beta. rewrite <- (mapply_scale (transpose _) (-1)), cross_rot by (apply transpose_rotation; apply A).
    rewrite <- mapply_add, <- mapply_scale, <- mapply_add. f_equal. vec. }
  split.
  - intros (P2 & _). pose proof (vderive_unique _ _ _ _ P1 P2) as X.
    assert (Y : mapply (transpose (t_rot (a t))) (cross (t_ang (a t)) (t_pos (a t))) = vzero).
    { assert (Z : vscale (/ s) (mapply (transpose (t_rot (a t))) (cross (t_ang (a t)) (t_pos (a t)))) = vzero).
      { apply v3_eq; [apply (f_equal vx) in X|apply (f_equal vy) in X|apply (f_equal vz) in X]; cbn in X |- *; lra. }
      set (q := mapply (transpose (t_rot (a t))) (cross (t_ang (a t)) (t_pos (a t)))) in *. clearbody q. assert (Q : q = vscale s (vscale (/ s) q)) by (apply v3_eq; cbn; field; auto). rewrite Q, Z. vec. }
    apply (rotation_inj (transpose (t_rot (a t)))); [apply transpose_rotation; apply A|]. rewrite Y. vec.
  - intros Z. split; auto. rewrite Z in P1. eapply vderive_eq; [|exact P1]. vec.
Qed.
(* the spinning frame above: its inverse claims a velocity that is not the derivative of its position *)
Theorem C78_refuted : exists (a i : R -> transform) t, (forall x, proper (a x)) /\ (forall x, t_scale (a x) = V3 1 1 1) /\ (forall x, t_inverse (a x) = Ok (i x)) /\ moves a t /\ ~ moves i t.
Proof.
  set (i := fun x => match t_inverse (spinning x) with Ok y => y | _ => spinning x end). assert (I : forall x, t_inverse (spinning x) = Ok (i x)).
  { intros x. unfold i. unfold t_inverse at 1 2. unfold rot_inverse. rewrite set_matrix_id by (apply transpose_rotation, rot_z_rotation). reflexivity. }
  exists spinning, i, 0. split; [intros x; apply rot_z_rotation|]. split; [reflexivity|]. split; [exact I|]. split; [apply spinning_moves|].
  intros H. apply (C78_partial spinning i 0 1) in H; auto; try lra; try (intros x; apply rot_z_rotation); try apply spinning_moves.
  apply (f_equal vx) in H. cbn in H. lra.
Qed.
Print Assumptions C78_partial.
Print Assumptions C78_refuted.
Example C78_example : (forall x, proper (spinning x)) /\ moves spinning 1 /\ cross (t_ang (spinning 1)) (t_pos (spinning 1)) <> vzero.
Proof. split; [intros x; apply rot_z_rotation|]. split; [apply spinning_moves|]. intros H. apply (f_equal vx) in H. cbn in H. lra. Qed.
