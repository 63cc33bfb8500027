(** * C97-C103: hits on ellipsoids and meshes, their normals and shading frames, node matrices of model files. *)
From Coq Require Import Nsatz.
From Verif Require Import Common Vec3 TransformModel TransformSpec TransformProofs SurfaceModel SurfaceSpec SurfaceProofs.
Open Scope R_scope.

(** C97: a ray is reported to hit an ellipsoid exactly when it meets it in the asked range, at the nearest such point *)
Theorem C97_nearest_hit : forall r O D tfar, positive3 r -> D <> vzero -> (forall f, tfar = Some f -> 0 <= f) ->
  match ellipsoid_intersect r O D 0 tfar with
  | Some (Some h) => on_ellipsoid r (along O D (e_t h)) /\ asked tfar (e_t h) /\ (forall t, asked tfar t -> on_ellipsoid r (along O D t) -> e_t h <= t)
  | Some None => False
  | None => forall t, asked tfar t -> ~ on_ellipsoid r (along O D t)
  end.
Proof.
  intros r O D tfar HR HD HF. pose proof (L_pos r D HR HD) as LP. pose proof (level_quad r O D HR HD) as LQ.
  unfold ellipsoid_intersect. cbv zeta. 
  set (Os := vmul O (vinv r)) in *. set (Ds := vmul D (vinv r)) in *. set (L := vlen Ds) in *. set (Du := vscale (/ L) Ds) in *.
  pose proof (roots r O D) as RT. cbv zeta in RT. fold Os Ds L Du in RT.
  set (B := 2 * dot Os Du) in *. set (C := dot Os Os - 1) in *. clearbody Os Ds Du B C L.
  assert (ON: forall t, on_ellipsoid r (along O D t) <-> (t * L) * (t * L) + B * (t * L) + C = 0). { intros t. unfold on_ellipsoid. specialize (LQ t). split; intros; lra. }
  destruct (Rltb (B * B - 4 * C) 0) eqn:ED; rb.
  - intros t _ H. apply ON in H. pose proof (Rle_0_sqr (2 * (t * L) + B)) as Q. unfold Rsqr in Q. nra.
  - set (d := sqrt (B * B - 4 * C)) in *. assert (DD: d * d = B * B - 4 * C) by (apply sqrt_sqrt; lra). assert (D0: 0 <= d) by apply sqrt_pos.
    set (q := - (1 / 2) * (B + copysign d B)) in *.
    assert (QQ: q = - (1 / 2) * (B + d) \/ q = - (1 / 2) * (B + - d)) by (unfold q, copysign; destruct (Rltb B 0); auto).
    assert (QZ: q = 0 -> B = 0 /\ C = 0). { unfold q, copysign. destruct (Rltb B 0) eqn:EB; rb; intros E. - lra. - assert (B = 0 /\ d = 0) by lra. nra. }
    destruct (Req_EM_T q 0) as [Q0|Q0].
    + destruct (QZ Q0) as (-> & ->). replace (q / L) with 0 by (rewrite Q0; field; lra).
      assert (A0: asked tfar 0). { split; [lra|]. destruct tfar as [f|]; auto. }
      rewrite (proj2 (in_range_asked tfar 0) A0). cbn [e_t ellipsoid_hit]. split; [apply ON; ring|]. split; auto. intros t (T & _) _. auto.
    + specialize (RT d DD q Q0 QQ).
      assert (RX: forall t, on_ellipsoid r (along O D t) <-> t = q / L \/ t = C / q / L).
      { intros t. rewrite ON, RT. split.
        - intros E. apply Rmult_integral in E. destruct E as [E|E]; [left|right]; apply (Rmult_eq_reg_r L); try lra; unfold Rdiv at 1; rewrite Rmult_assoc, Rinv_l by lra; lra.
        - intros [->| ->]; [replace (q / L * L) with q by (field; lra)|replace (C / q / L * L) with (C / q) by (field; split; lra)]; ring. }
      set (x0 := if Rltb (C / q) q then C / q else q). set (x1 := if Rltb (C / q) q then q else C / q).
      assert (RY: forall t, on_ellipsoid r (along O D t) <-> t = x0 / L \/ t = x1 / L). { intros t. rewrite RX. unfold x0, x1. destruct (Rltb (C / q) q); tauto. }
      assert (X01: x0 / L <= x1 / L). { apply Rmult_le_compat_r; [left; apply Rinv_0_lt_compat; auto|]. unfold x0, x1. destruct (Rltb (C / q) q) eqn:E; rb; lra. }
      destruct (in_range 0 tfar (x0 / L)) eqn:R0.
      * cbn [e_t ellipsoid_hit]. apply in_range_asked in R0. split; [apply RY; auto|]. split; auto. intros t At H. apply RY in H. destruct H; subst; lra.
      * apply in_range_no in R0. destruct (in_range 0 tfar (x1 / L)) eqn:R1.
        -- cbn [e_t ellipsoid_hit]. apply in_range_asked in R1. split; [apply RY; auto|]. split; auto. intros t At H. apply RY in H. destruct H; subst; [contradiction|lra].
        -- apply in_range_no in R1. intros t At H. apply RY in H. destruct H; subst; contradiction.
Qed.
Print Assumptions C97_nearest_hit.
(* the box announced to the ray-tracing kernel contains the whole ellipsoid, and is the smallest such box *)
Theorem C97_bounds : forall r, positive3 r -> (forall p, on_ellipsoid r p -> inside_box (ellipsoid_bounds r) p) /\
  forall b, (forall p, on_ellipsoid r p -> inside_box b p) -> inside_box b (fst (ellipsoid_bounds r)) /\ inside_box b (snd (ellipsoid_bounds r)).
Proof.
  intros r (X & Y & Z). split.
  - intros p H. unfold on_ellipsoid, level in H.
    assert (K: forall a c, 0 < c -> (a / c) ^ 2 <= 1 -> -1 * c <= a <= c). { intros a c Hc Hs. assert (a = a / c * c) by (field; lra). set (k := a / c) in *. assert (-1 <= k <= 1) by (split; nra). rewrite H0. nra. }
    assert (S: forall a, 0 <= a ^ 2) by (intros; apply pow2_ge_0).
    pose proof (S (vx p / vx r)); pose proof (S (vy p / vy r)); pose proof (S (vz p / vz r)).
    unfold inside_box, ellipsoid_bounds; cbn [fst snd vscale vx vy vz]. split; [|split]; apply K; auto; lra.
  - intros b H. assert (E: forall s, s * s = 1 -> on_ellipsoid r (V3 (s * vx r) 0 0) /\ on_ellipsoid r (V3 0 (s * vy r) 0) /\ on_ellipsoid r (V3 0 0 (s * vz r))).
    { intros s Hs. unfold on_ellipsoid, level. cbn [vx vy vz]. repeat split; match goal with |- ?e = 1 => replace e with (s * s) by (field; lra) end; auto. }
    destruct (E 1 ltac:(ring)) as (A1 & A2 & A3). destruct (E (-1) ltac:(ring)) as (B1 & B2 & B3). apply H in A1, A2, A3, B1, B2, B3.
    unfold inside_box, ellipsoid_bounds in *; cbn [fst snd vscale vx vy vz] in *. lra.
Qed.
(* the unit sphere seen from (3, 0, 0) looking down -x is hit at distance 2; looking along y it is missed; from the centre it is hit from inside *)
Example C97_case : (exists h, ellipsoid_intersect (V3 1 1 1) (V3 3 0 0) (V3 (-1) 0 0) 0 None = Some (Some h) /\ e_t h = 2) /\
  ellipsoid_intersect (V3 1 1 1) (V3 3 0 0) (V3 0 1 0) 0 None = None /\ (exists h, ellipsoid_intersect (V3 1 1 1) (V3 0 0 0) (V3 0 0 2) 0 None = Some (Some h) /\ e_t h = / 2).
Proof.
  assert (P: positive3 (V3 1 1 1)) by (unfold positive3; cbn; lra).
  assert (Q: forall f, @None R = Some f -> 0 <= f) by discriminate.
  pose proof (C97_nearest_hit (V3 1 1 1) (V3 3 0 0) (V3 (-1) 0 0) None P ltac:(intros E; injection E; lra) Q) as H1.
  pose proof (C97_nearest_hit (V3 1 1 1) (V3 3 0 0) (V3 0 1 0) None P ltac:(intros E; injection E; lra) Q) as H2.
  pose proof (C97_nearest_hit (V3 1 1 1) (V3 0 0 0) (V3 0 0 2) None P ltac:(intros E; injection E; lra) Q) as H3.
  unfold on_ellipsoid, level, asked, along in *. cbn in H1, H2, H3. split; [|split].
  - destruct (ellipsoid_intersect (V3 1 1 1) (V3 3 0 0) (V3 (-1) 0 0) 0 None) as [[h|]|].
    + exists h. split; auto. destruct H1 as (E & A & M). specialize (M 2 ltac:(lra) ltac:(field)).
      assert ((e_t h - 2) * (e_t h - 4) = 0) by (field_simplify in E; nra). apply Rmult_integral in H. destruct H; lra.
    + destruct H1. 
    + exfalso. apply (H1 2); [lra|field].
  - destruct (ellipsoid_intersect (V3 1 1 1) (V3 3 0 0) (V3 0 1 0) 0 None) as [[h|]|]; auto; [|contradiction].
    exfalso. destruct H2 as (E & _). field_simplify in E. nra.
  - destruct (ellipsoid_intersect (V3 1 1 1) (V3 0 0 0) (V3 0 0 2) 0 None) as [[h|]|].
    + exists h. split; auto. destruct H3 as (E & A & M). specialize (M (/ 2) ltac:(lra) ltac:(field)).
      assert ((2 * e_t h - 1) * (2 * e_t h + 1) = 0) by (field_simplify in E; nra). apply Rmult_integral in H. destruct H; lra.
    + destruct H3. 
    + exfalso. apply (H3 (/ 2)); [lra|field].
Qed.

(** C98: the surface data computed from a hit on an ellipsoid *)
(* the hit's texture coordinates are in [0,1], and the position, the normals and the hit agree *)
Theorem C98_hit_data : forall r O D t, positive3 r -> D <> vzero -> on_ellipsoid r (along O D t) ->
  let h := ellipsoid_hit r O D t in let l := ellipsoid_surface r (e_u h) (e_v h) in
  0 <= e_u h <= 1 /\ 0 <= e_v h <= 1 /\ lo_pos l = along O D t /\
  same_direction (e_ng h) (outward r (along O D t)) /\ same_direction (lo_ns l) (outward r (along O D t)) /\ dot (lo_ns l) (lo_ns l) = 1.
Proof.
  intros r O D t HR HD HO. pose proof (L_pos r D HR HD) as LP. pose proof (along_scaled r O D HR HD t) as AS. pose proof (rmax3_pos r HR) as RM.
  pose proof (level_dot r HR (along O D t)) as LV. unfold on_ellipsoid in HO. rewrite HO in LV. pose proof PI_RGT_0 as PP.
  cbv zeta. unfold ellipsoid_hit. cbv zeta. cbn [e_u e_v e_ng e_t].
  rewrite <- AS. set (P := vmul (along O D t) (vinv r)) in *. symmetry in LV. rewrite (normalize_id P LV).
  destruct (sphere_angles P LV) as (AX & AY & AZ & AR). pose proof (atan2_range (vx P) (vy P)) as PR.
  set (phi := atan2 (vy P) (vx P)) in *. set (theta := acos (vz P)) in *.
  assert (EP: vx P = vx (along O D t) / vx r /\ vy P = vy (along O D t) / vy r /\ vz P = vz (along O D t) / vz r). { unfold P; destruct HR as (?&?&?); cbn; repeat split; field; lra. }
  set (p := along O D t) in *. clearbody p P phi theta. destruct EP as (PX & PY & PZ).
  assert (U: forall z a, 0 < a -> 0 <= z <= a -> 0 <= z / a <= 1). { intros z a A Z. assert (z = z / a * a) by (field; lra). set (k := z / a) in *. split; nra. }
  split; [apply U; lra|]. split; [apply U; lra|].
  unfold ellipsoid_surface. cbv zeta. cbn [lo_pos lo_ns].
  replace ((phi + PI) / (2 * PI) * 2 * PI - PI) with phi by (field; lra). replace (theta / PI * PI) with theta by (field; lra).
  rewrite AX, AY, AZ. destruct HR as (RX & RY & RZ).
  assert (ND: vscale (rmax3 r) (vmul P (vinv r)) = V3 (vx P * (rmax3 r / vx r)) (vy P * (rmax3 r / vy r)) (vz P * (rmax3 r / vz r))) by (apply v3_eq; cbn; field; lra).
  assert (GD: V3 (vx P * (rmax3 r / vx r)) (vy P * (rmax3 r / vy r)) (vz P * (rmax3 r / vz r)) = vscale (rmax3 r / 2) (outward r p)) by (apply v3_eq; cbn [vx vy vz vscale outward]; rewrite ?PX, ?PY, ?PZ; field; lra).
  assert (NZ: vscale (rmax3 r / 2) (outward r p) <> vzero).
  { rewrite <- GD. intros E. injection E as E1 E2 E3. assert (K: forall a c, 0 < c -> a * (rmax3 r / c) = 0 -> a = 0). { intros a c C E. apply Rmult_integral in E. destruct E as [|E]; auto. assert (0 < rmax3 r / c) by (apply Rdiv_lt_0_compat; auto). lra. }
    apply K in E1, E2, E3; auto. unfold dot in LV. rewrite E1, E2, E3 in LV. lra. }
  split; [|split; [|split]].
  - apply v3_eq; cbn [vx vy vz]; [transitivity (vx r * (sin theta * cos phi)); [ring|rewrite AX, PX; field; lra]|transitivity (vy r * (sin theta * sin phi)); [ring|rewrite AY, PY; field; lra]|rewrite PZ; field; lra].
  - rewrite ND, GD. exists (rmax3 r / 2). split; auto. lra.
  - rewrite GD, normalize_scale by lra. apply normalize_dir. intros E. apply NZ. rewrite E. apply v3_eq; cbn; ring.
  - rewrite GD. apply normalize_unit; auto.
Qed.
(* away from the poles the tangent frame is right-handed and orthonormal, and the tangent points along increasing u *)
Theorem C98_frame : forall r u v, positive3 r ->
  let phi := u * 2 * PI - PI in let theta := v * PI in let du := V3 (- vx r * sin theta * sin phi) (vy r * sin theta * cos phi) 0 in
  / 10 ^ 8 <= dot du du ->
  exists t b, lo_t (ellipsoid_surface r u v) = Some t /\ lo_b (ellipsoid_surface r u v) = Some b /\ frame t b (lo_ns (ellipsoid_surface r u v)) /\ same_direction t du.
Proof.
  intros r u v HR phi theta du HP. unfold ellipsoid_surface. cbv zeta. fold phi theta du. cbn [lo_t lo_b lo_ns].
  rewrite (proj2 (Rltb_false _ _) HP). assert (DN: du <> vzero). { intros E. rewrite E in HP. unfold dot in HP. cbn in HP. assert (0 < / 10 ^ 8) by (apply Rinv_0_lt_compat, pow_lt; lra). cbn in H. lra. }
  rewrite (onorm_some du DN). pose proof (rmax3_pos r HR) as RM. destruct HR as (RX & RY & RZ).
  set (g := V3 (sin theta * cos phi * (rmax3 r / vx r)) (sin theta * sin phi * (rmax3 r / vy r)) (cos theta * (rmax3 r / vz r))).
  assert (DG: dot g du = 0) by (unfold dot, g, du; cbn; field; lra).
  assert (ST: sin theta <> 0). { intros E. apply DN. unfold du. rewrite E. apply v3_eq; cbn; ring. }
  assert (GN: g <> vzero). { intros E. unfold g in E. injection E as E1 E2 E3. assert (K: forall a c, 0 < c -> sin theta * a * (rmax3 r / c) = 0 -> a = 0). { intros a c C E. apply Rmult_integral in E. destruct E as [E|E]; [apply Rmult_integral in E; destruct E; [contradiction|auto]|]. assert (0 < rmax3 r / c) by (apply Rdiv_lt_0_compat; auto). lra. }
    apply K in E1, E2; auto. pose proof (cs phi). rewrite E1, E2 in H. lra. }
  pose proof (normalize_unit g GN) as N1. pose proof (normalize_unit du DN) as T1.
  assert (NT: dot (normalize g) (normalize du) = 0). { unfold normalize. rewrite dot_scale, dot_comm, dot_scale, (dot_comm du g), DG. ring. }
  set (n := normalize g) in *. set (t := normalize du) in *.
  assert (CU: dot (cross n t) (cross n t) = 1). { rewrite lagrange, N1, T1, NT. ring. }
  assert (CN: cross n t <> vzero). { intros E. rewrite E in CU. unfold dot in CU; cbn in CU. lra. }
  exists t, (cross n t). split; auto. split; [rewrite (onorm_some _ CN), normalize_id by auto; auto|]. split; [|apply normalize_dir; auto].
  unfold frame. split; [exact T1|]. split; [exact CU|]. split; [exact N1|]. split; [apply cross_perp_r|]. split; [rewrite dot_comm; exact NT|]. split; [rewrite dot_comm; apply cross_perp_l|].
  rewrite cross_cross, T1, (dot_comm t n), NT. apply v3_eq; cbn; ring.
Qed.
(* full statement: every point off the poles of every ellipsoid has a tangent frame. Refuted: no sphere with a radius below 0.1 mm has one at
   the point (r, 0, 0): the threshold on the length of the tangent is absolute, and the fallback tangent is the normal there *)
Theorem C98_small_sphere_refuted : forall r, 0 < r < / 10 ^ 4 ->
  let l := ellipsoid_surface (V3 r r r) (1 / 2) (1 / 2) in lo_pos l = V3 r 0 0 /\ lo_ns l = V3 1 0 0 /\ lo_b l = None.
Proof.
  intros r (R0 & R1). unfold ellipsoid_surface. cbv zeta. cbn [lo_pos lo_ns lo_b vx vy vz].
  replace (1 / 2 * 2 * PI - PI) with 0 by field. replace (1 / 2 * PI) with (PI / 2) by field. rewrite sin_0, cos_0, sin_PI2, cos_PI2.
  assert (M: rmax3 (V3 r r r) = r) by (unfold rmax3; cbn; rewrite !(Rmax_left r r) by lra; auto). rewrite M.
  assert (N: normalize (V3 (1 * 1 * (r / r)) (1 * 0 * (r / r)) (0 * (r / r))) = V3 1 0 0).
  { replace (V3 (1 * 1 * (r / r)) (1 * 0 * (r / r)) (0 * (r / r))) with (V3 1 0 0) by (apply v3_eq; cbn; field; lra). apply normalize_id. unfold dot; cbn; ring. }
  rewrite N; split; [apply v3_eq; cbn; ring|]. split; auto.
  assert (S: Rltb (dot (V3 (- r * 1 * 0) (r * 1 * 1) 0) (V3 (- r * 1 * 0) (r * 1 * 1) 0)) (/ 10 ^ 8) = true).
  { apply Rltb_true. unfold dot. cbn [vx vy vz]. replace (/ 10 ^ 8) with (/ 10 ^ 4 * / 10 ^ 4) by field. nra. }
  rewrite S. rewrite (onorm_some (V3 1 0 0)) by (intros E; injection E; lra). rewrite (normalize_id (V3 1 0 0)) by (unfold dot; cbn; ring).
  replace (cross (V3 1 0 0) (V3 1 0 0)) with vzero by (apply v3_eq; cbn; ring). apply onorm_zero.
Qed.
(* the unit sphere hit from (3, 0, 0): u = v = 1/2, normal +x *)
Example C98_case : let h := ellipsoid_hit (V3 1 1 1) (V3 3 0 0) (V3 (-1) 0 0) 2 in
  on_ellipsoid (V3 1 1 1) (along (V3 3 0 0) (V3 (-1) 0 0) 2) /\ lo_pos (ellipsoid_surface (V3 1 1 1) (e_u h) (e_v h)) = V3 1 0 0 /\
  / 10 ^ 8 <= dot (V3 (- 1 * sin (1 / 2 * PI) * sin (1 / 2 * 2 * PI - PI)) (1 * sin (1 / 2 * PI) * cos (1 / 2 * 2 * PI - PI)) 0) (V3 (- 1 * sin (1 / 2 * PI) * sin (1 / 2 * 2 * PI - PI)) (1 * sin (1 / 2 * PI) * cos (1 / 2 * 2 * PI - PI)) 0).
Proof.
  intros h. assert (O: on_ellipsoid (V3 1 1 1) (along (V3 3 0 0) (V3 (-1) 0 0) 2)) by (unfold on_ellipsoid, level, along; cbn; field).
  split; auto. split.
  - destruct (C98_hit_data (V3 1 1 1) (V3 3 0 0) (V3 (-1) 0 0) 2) as (_ & _ & E & _); auto; [unfold positive3; cbn; lra|intros E; injection E; lra|]. unfold h. rewrite E. apply v3_eq; cbn; ring.
  - replace (1 / 2 * 2 * PI - PI) with 0 by field. replace (1 / 2 * PI) with (PI / 2) by field. rewrite sin_0, cos_0, sin_PI2. unfold dot. cbn [vx vy vz]. assert (/ 10 ^ 8 <= 1) by (apply Rmult_le_reg_r with (10 ^ 8); [apply pow_lt; lra|rewrite Rinv_l; [|apply pow_nonzero; lra]; cbn; lra]). nra.
Qed.

(** C99: a resolved hit is the point where the ray met the surface *)
(* [X0] is the pose stored first for the instance, [X] the pose at which the ray met it (they are equal when the instance does not move during
   the exposure); in the instance's own space the ray is (O', D') and met the surface at parameter t. Exactly when it is placed correctly: *)
Theorem C99_position_iff : forall X0 X O' D' t ng l, lo_pos l = along O' D' t ->
  (i_pos (resolve_hit X0 (to_direction X D') ng l) = along (to_point X O') (to_direction X D') t <-> to_point X0 (along O' D' t) = to_point X (along O' D' t)).
Proof. intros X0 X O' D' t ng l E. unfold resolve_hit. cbn [i_pos]. rewrite E, (along_to_point X). tauto. Qed.
Theorem C99_static_instance : forall X O' D' t ng l, lo_pos l = along O' D' t ->
  i_pos (resolve_hit X (to_direction X D') ng l) = along (to_point X O') (to_direction X D') t.
Proof. intros. apply C99_position_iff; auto. Qed.
Print Assumptions C99_static_instance.
(* full statement: also for moving instances. Refuted: an instance that has moved by v since the first pose gets every hit displaced by -v *)
Theorem C99_moving_instance_refuted : forall X0 v O' D' t ng l, lo_pos l = along O' D' t ->
  let X := T (vadd (t_pos X0) v) (t_rot X0) (t_scale X0) (t_vel X0) (t_ang X0) in
  i_pos (resolve_hit X0 (to_direction X D') ng l) = vsub (along (to_point X O') (to_direction X D') t) v.
Proof. intros X0 v O' D' t ng l E X. unfold resolve_hit. cbn [i_pos]. rewrite E, along_to_point. unfold X, to_point, to_direction, along. apply v3_eq; cbn; ring. Qed.
(* a sphere of radius 1, at rest at 10 along x, seen from the origin: the resolved point is (9, 0, 0) *)
Example C99_case : let X := T (V3 10 0 0) ident (V3 1 1 1) vzero vzero in let h := ellipsoid_hit (V3 1 1 1) (V3 (-10) 0 0) (V3 1 0 0) 9 in
  to_point X (V3 (-10) 0 0) = vzero /\ i_pos (resolve_hit X (V3 1 0 0) (e_ng h) (ellipsoid_surface (V3 1 1 1) (e_u h) (e_v h))) = V3 9 0 0.
Proof.
  intros X h. split; [apply v3_eq; cbn; ring|].
  assert (E: lo_pos (ellipsoid_surface (V3 1 1 1) (e_u h) (e_v h)) = along (V3 (-10) 0 0) (V3 1 0 0) 9).
  { apply C98_hit_data; [unfold positive3; cbn; lra|intros E; injection E; lra|unfold on_ellipsoid, level, along; cbn; field]. }
  pose proof (C99_static_instance X (V3 (-10) 0 0) (V3 1 0 0) 9 (e_ng h) _ E) as H.
  replace (to_direction X (V3 1 0 0)) with (V3 1 0 0) in H by (apply v3_eq; cbn; ring). rewrite H. apply v3_eq; cbn; ring.
Qed.

(** C100: normals face the viewer and are perpendicular to the surface *)
Theorem C100_faces_viewer : forall xf dir ng l, is_rotation (t_rot xf) -> nonzero3 (t_scale xf) -> ng <> vzero -> lo_ns l <> vzero ->
  exists n s, i_ng (resolve_hit xf dir ng l) = Some n /\ i_ns (resolve_hit xf dir ng l) = Some s /\ dot n n = 1 /\ dot s s = 1 /\ dot dir n <= 0 /\ 0 <= dot s n /\ vadd (i_wo (resolve_hit xf dir ng l)) dir = vzero.
Proof.
  intros xf dir ng l HR HS NG NS. pose proof (to_direction_nz xf ng HR HS NG) as A. pose proof (to_direction_nz xf _ HR HS NS) as B.
  unfold resolve_hit. cbn [i_ng i_ns i_wo]. assert (WO : vadd (vopp dir) dir = vzero) by (apply v3_eq; cbn; ring). rewrite (onorm_some _ A), (onorm_some _ B). pose proof (normalize_unit _ A) as UA. pose proof (normalize_unit _ B) as UB.
  set (n := normalize (to_direction xf ng)) in *. set (s := normalize (to_direction xf (lo_ns l))) in *. cbn [odot olt omap option_map].
  destruct (Rltb (dot dir n) 0) eqn:E1; rb.
  - cbn [odot olt]. destruct (Rltb (dot s n) 0) eqn:E2; rb; [exists n, (vopp s)|exists n, s]; cbn [omap option_map]; rewrite ?dot_opp, ?dot_opp_l, ?dot_opp; repeat split; auto; lra.
  - cbn [odot olt]. destruct (Rltb (dot s (vopp n)) 0) eqn:E2; rb; rewrite dot_opp in E2; [exists (vopp n), (vopp s)|exists (vopp n), s]; cbn [omap option_map]; rewrite ?dot_opp, ?dot_opp_l, ?dot_opp; repeat split; auto; lra.
Qed.
Print Assumptions C100_faces_viewer.
(* exactly when the geometric normal is perpendicular to the transformed surface: the local normal is an eigenvector of the squared scale *)
Theorem C100_perpendicular_iff : forall xf dir ng l n, is_rotation (t_rot xf) -> i_ng (resolve_hit xf dir ng l) = Some n ->
  (normal_to_image xf ng n <-> cross (vmul (vmul (t_scale xf) (t_scale xf)) ng) ng = vzero).
Proof.
  intros xf dir ng l n HR H. unfold resolve_hit in H. cbn [i_ng] in H.
  destruct (onorm (to_direction xf ng)) as [m|] eqn:E; [|cbn in H; discriminate].
  apply onorm_spec in E. destruct E as (NZ & _ & k & K & ->).
  assert (G: ng <> vzero). { intros ->. apply NZ. apply v3_eq; cbn; ring. }
  assert (EN: exists k', k' <> 0 /\ n = vscale k' (to_direction xf ng)).
  { cbn [odot olt omap option_map] in H. destruct (Rltb _ 0); injection H as <-; [exists k; split; [lra|auto]|exists (- k); split; [lra|apply v3_eq; cbn; ring]]. }
  destruct EN as (k' & K' & ->). rewrite (parallel _ ng G). unfold normal_to_image.
  split; intros Q t T; specialize (Q t T); rewrite dot_scale, to_direction_dot in * by auto.
  - apply Rmult_integral in Q. tauto.
  - rewrite Q. ring.
Qed.
Print Assumptions C100_perpendicular_iff.
Theorem C100_uniform_scale_partial : forall xf dir ng l n, is_rotation (t_rot xf) -> uniform (t_scale xf) -> i_ng (resolve_hit xf dir ng l) = Some n -> normal_to_image xf ng n.
Proof.
  intros xf dir ng l n HR (U1 & U2) H. apply (C100_perpendicular_iff xf dir ng l n HR H). apply v3_eq; cbn; rewrite ?U1, ?U2; ring.
Qed.
(* full statement: for every scale. Refuted: for every pose whose x and y scales differ, at the points of a surface with local normal (1, 1, 0) *)
Theorem C100_nonuniform_scale_refuted : forall xf dir l, is_rotation (t_rot xf) -> nonzero3 (t_scale xf) -> vx (t_scale xf) * vx (t_scale xf) <> vy (t_scale xf) * vy (t_scale xf) ->
  exists n, i_ng (resolve_hit xf dir (V3 1 1 0) l) = Some n /\ ~ normal_to_image xf (V3 1 1 0) n.
Proof.
  intros xf dir l HR HS N. assert (G: V3 1 1 0 <> vzero) by (intros E; injection E; lra).
  assert (EX: exists n, i_ng (resolve_hit xf dir (V3 1 1 0) l) = Some n).
  { unfold resolve_hit. cbn [i_ng]. rewrite (onorm_some _ (to_direction_nz xf _ HR HS G)). cbn [odot olt omap option_map]. destruct (Rltb _ 0); eauto. }
  destruct EX as (n & E). exists n. split; auto. intros Q. apply (C100_perpendicular_iff xf dir (V3 1 1 0) l n HR E) in Q. injection Q as Q1 Q2 Q3. apply N. lra.
Qed.
Example C100_case : let xf := T vzero ident (V3 1 2 1) vzero vzero in is_rotation (t_rot xf) /\ nonzero3 (t_scale xf) /\ vx (t_scale xf) * vx (t_scale xf) <> vy (t_scale xf) * vy (t_scale xf) /\ uniform (V3 3 3 3).
Proof. cbn. split; [apply ident_rotation|]. unfold nonzero3, uniform; cbn. lra. Qed.

(** C101: the shading frame is orthonormal *)
Theorem C101_frame : forall f w i n t, i_ns i = Some n -> i_t i = Some t -> dot n n = 1 -> cross n t <> vzero ->
  exists t' b', i_t (shading_frame false f w i) = Some t' /\ i_b (shading_frame false f w i) = Some b' /\ i_ns (shading_frame false f w i) = Some n /\ frame t' b' n.
Proof.
  intros f w i n t EN ET N1 CN. unfold shading_frame. rewrite EN, ET. cbn [odot omap osub oscale option_map onorm' i_t i_b i_ns ocross].
  set (v := vsub t (vscale (dot t n) n)).
  assert (VN: v <> vzero). { intros E. apply CN. unfold v in E. injection E as E1 E2 E3. replace t with (vscale (dot t n) n) by (apply v3_eq; cbn; lra). apply v3_eq; cbn; ring. }
  assert (VP: dot v n = 0). { unfold v. rewrite dot_comm, dot_sub, dot_scale, N1, (dot_comm t n). ring. }
  rewrite (onorm_some v VN). set (t' := normalize v).
  assert (T1: dot t' t' = 1) by (apply normalize_unit; auto). assert (TP: dot t' n = 0) by (unfold t', normalize; rewrite dot_comm, dot_scale, dot_comm, VP; ring).
  exists t', (cross n t'). repeat split; auto. all: rewrite ?lagrange, ?N1, ?T1, ?(dot_comm n t'), ?TP; try ring.
  - apply cross_perp_r.
  - rewrite dot_comm. apply cross_perp_l.
  - rewrite cross_cross, T1, TP. apply v3_eq; cbn; ring.
Qed.
Print Assumptions C101_frame.
(* with a normal map: from an orthonormal frame and a map value that points out of the surface, an orthonormal frame around a normal on the same side *)
Theorem C101_frame_mapped : forall f w i t b n, i_t i = Some t -> i_b i = Some b -> i_ns i = Some n -> frame t b n -> 0 < vz w ->
  exists t' b' n', i_t (shading_frame true f w i) = Some t' /\ i_b (shading_frame true f w i) = Some b' /\ i_ns (shading_frame true f w i) = Some n' /\ frame t' b' n' /\ 0 < dot n' n.
Proof.
  intros f w i t b n ET EB EN (T1 & B1 & N1 & TB & TN & BN & CR) W.
  assert (WN: w <> vzero) by (intros ->; cbn in W; lra).
  pose proof (normalize_dir w WN) as (k & K & KE).
  set (w1 := V3 (vx (normalize w) * f) (vy (normalize w) * f) (vz (normalize w))).
  assert (Z1: 0 < vz w1) by (unfold w1; rewrite KE; cbn [vx vy vz vscale]; apply Rmult_lt_0_compat; auto).
  assert (W1N: w1 <> vzero) by (intros E; rewrite E in Z1; cbn in Z1; lra).
  pose proof (normalize_dir w1 W1N) as (k1 & K1 & KE1). set (m := normalize w1) in *. assert (MZ: 0 < vz m) by (rewrite KE1; cbn [vz vscale]; apply Rmult_lt_0_compat; auto).
  set (v := vadd (vadd (vscale (vx m) t) (vscale (vy m) b)) (vscale (vz m) n)).
  assert (VN: dot v n = vz m). { unfold v. rewrite dot_comm, !dot_add, !dot_scale, N1, (dot_comm n t), TN, (dot_comm n b), BN. ring. }
  assert (VB: dot v b = vy m). { unfold v. rewrite dot_comm, !dot_add, !dot_scale, B1, (dot_comm b t), TB, BN. ring. }
  assert (VZ: v <> vzero) by (intros E; rewrite E, dot_z_l in VN; lra).
  pose proof (normalize_dir v VZ) as (k2 & K2 & KE2). pose proof (normalize_unit v VZ) as U2. set (n' := normalize v) in *.
  assert (MN: mapped_normal f w i = Some n').
  { unfold mapped_normal. replace (is_zero (i_t i)) with false.
    2:{ rewrite ET. unfold is_zero. destruct (Req_EM_T (vx t) 0) as [X|]; auto. destruct (Req_EM_T (vy t) 0) as [Y|]; auto. destruct (Req_EM_T (vz t) 0) as [Z|]; auto. exfalso. unfold dot in T1. rewrite X, Y, Z in T1. lra. }
    rewrite (onorm_some w WN). cbn [omap option_map onorm']. fold w1. rewrite (onorm_some w1 W1N). fold m. rewrite ET, EB, EN. cbn [oscale omap option_map oadd onorm']. fold v. apply onorm_some; auto. }
  destruct (C101_frame f w (Is (i_pos i) (i_ng i) (Some n') (i_t i) (i_b i) (i_wo i)) n' t) as (t' & b' & A1 & A2 & A3 & A4); auto.
  { intros E. assert (D: dot (cross n' t) (cross n' t) = 0) by (rewrite E; apply dot_z_l). rewrite lagrange, U2, T1 in D.
    assert (NT: dot n' t = vx m * k2). { rewrite KE2, dot_comm, dot_scale. unfold v. rewrite !dot_add, !dot_scale, T1, TB, TN. ring. }
    assert (NN: dot n' n = k2 * vz m) by (rewrite KE2, dot_comm, dot_scale, (dot_comm n v), VN; ring).
    assert (VV: dot v v = vx m * vx m + vy m * vy m + vz m * vz m). { unfold v at 2. rewrite !dot_add, !dot_scale, VB, VN. assert (dot v t = vx m) by (unfold v; rewrite dot_comm, !dot_add, !dot_scale, T1, TB, TN; ring). rewrite H. ring. }
    assert (k2 * k2 * dot v v = 1). { rewrite <- U2. rewrite KE2 at 1 2. rewrite dot_scale, (dot_comm (vscale k2 v) v), dot_scale. ring. }
    rewrite NT, VV in *. assert (0 < k2 * k2) by nra. assert (0 < vz m * vz m) by nra. assert (0 < k2 * k2 * (vz m * vz m)) by nra. assert (0 <= k2 * k2 * (vy m * vy m)) by nra. nra. }
  exists t', b', n'. unfold shading_frame in *. cbn [i_t i_b i_ns] in *. rewrite MN. repeat split; auto; try apply A4.
  rewrite KE2, dot_comm, dot_scale, dot_comm, VN. nra.
Qed.
Print Assumptions C101_frame_mapped.
(* the unused helper build_default_tangent_frame would complete every unit normal *)
Theorem C101_default_tangent_frame : forall n, dot n n = 1 -> frame (fst (default_tangent_frame n)) (snd (default_tangent_frame n)) n.
Proof.
  intros [x y z] N. unfold dot in N. cbn [vx vy vz] in N. unfold default_tangent_frame. cbn [fst snd vx vy vz]. unfold copysign.
  assert (exists s a, (if Rltb z 0 then - (1) else 1) = s /\ - 1 / (s + z) = a /\ s * s = 1 /\ a * (s + z) = - 1) as (s & a & -> & -> & S & A).
  { destruct (Rltb z 0) eqn:E; rb; [exists (- (1)), (- 1 / (- (1) + z))|exists 1, (- 1 / (1 + z))]; repeat split; try ring; field; lra. }
  unfold frame, dot, cross. cbn [vx vy vz].
  repeat split; try (apply v3_eq; cbn [vx vy vz]).
  all: nsatz.
Qed.
(* full statement: every mesh hit has an orthonormal shading frame. Refuted: for every mesh built without a tangent buffer no hit has a tangent
   or a bitangent, and with a normal map it has no normal either (all NaN) *)
Theorem C101_mesh_without_tangents_refuted : forall idx vs m prim u v l xf dir ng f w, new_mesh idx vs [] = Ok m -> mesh_surface m prim u v = Ok l ->
  let i := resolve_hit xf dir ng l in
  i_t (shading_frame false f w i) = None /\ i_b (shading_frame false f w i) = None /\ i_ns (shading_frame true f w i) = None.
Proof.
  intros idx vs m prim u v l xf dir ng f w HM HL.
  assert (ME: m_tangent m = []). { unfold new_mesh in HM. destruct (existsb _ _); [discriminate|]. cbn in HM. injection HM as <-. auto. }
  assert (LT: lo_t l = Some vzero).
  { unfold mesh_surface in HL. rewrite ME in HL. unfold obind, at_ in HL. repeat match type of HL with match match ?e with _ => _ end with _ => _ end = _ => destruct e; try discriminate | match ?e with _ => _ end = _ => destruct e; try discriminate end. all: injection HL as <-; auto. }
  assert (IT: i_t (resolve_hit xf dir ng l) = None).
  { unfold resolve_hit. cbn [i_t]. rewrite LT. cbn [omap option_map onorm']. replace (to_direction xf vzero) with vzero by (apply v3_eq; cbn; ring). apply onorm_zero. }
  cbv zeta. unfold shading_frame. cbn [i_t i_b i_ns]. rewrite IT. cbn [odot osub onorm']. split; auto. split; [destruct (i_ns _); auto|].
  unfold mapped_normal. rewrite IT. cbn [is_zero]. destruct (onorm' _); auto.
Qed.
Example C101_case : frame (V3 1 0 0) (V3 0 1 0) (V3 0 0 1) /\ 0 < vz (V3 1 1 1) /\ exists m l, new_mesh [0; 1; 2]%nat [Vx vzero [] (V3 0 0 1) 0 0; Vx (V3 1 0 0) [] (V3 0 0 1) 1 0; Vx (V3 0 1 0) [] (V3 0 0 1) 0 1] [] = Ok m /\ mesh_surface m 0 (1 / 4) (1 / 4) = Ok l.
Proof. split; [unfold frame, dot, cross; cbn; repeat split; try ring; apply v3_eq; cbn; ring|]. split; [cbn; lra|]. eexists. eexists. split; reflexivity. Qed.

(** C102: mesh hits stay inside the buffers and inside the triangle *)
Theorem C102_construction : forall idx vs ts, (exists m, new_mesh idx vs ts = Ok m) <-> (forall i, In i idx -> (i < List.length vs)%nat) /\ (ts = [] \/ List.length ts = List.length vs).
Proof.
  intros idx vs ts. unfold new_mesh. destruct (existsb (fun i => Nat.leb (List.length vs) i) idx) eqn:E.
  - apply existsb_exists in E. destruct E as (i & I & L). apply Nat.leb_le in L. split; [intros (m & H); discriminate|]. intros (H & _). specialize (H i I). lia.
  - assert (G: forall i, In i idx -> (i < List.length vs)%nat). { intros i I. destruct (Nat.leb_spec (List.length vs) i); auto. assert (existsb (fun i => Nat.leb (List.length vs) i) idx = true); [|congruence]. apply existsb_exists. exists i. split; auto. apply Nat.leb_le; auto. }
    destruct ts as [|x ts]; [cbn [List.length Nat.eqb negb andb]; split; eauto|].
    change (List.length (x :: ts)) with (S (List.length ts)). cbn [Nat.eqb negb andb]. change (match List.length vs with O => false | S m' => Nat.eqb (List.length ts) m' end) with (Nat.eqb (S (List.length ts)) (List.length vs)). destruct (Nat.eqb_spec (S (List.length ts)) (List.length vs)) as [Q|Q]; cbn.
    + split; [intros _; split; [exact G|right; exact Q]|intros _; eexists; reflexivity].
    + split; [intros (m & H); discriminate|]. intros (_ & [H|H]); [discriminate|exfalso; apply Q, H].
Qed.
Theorem C102_hit_in_triangle : forall idx vs ts m prim u v, new_mesh idx vs ts = Ok m -> (prim < triangle_count m)%nat -> 0 <= u -> 0 <= v -> u + v <= 1 ->
  exists a b c l, nth_error vs (nth (3 * prim) idx 0%nat) = Some a /\ nth_error vs (nth (3 * prim + 1) idx 0%nat) = Some b /\ nth_error vs (nth (3 * prim + 2) idx 0%nat) = Some c /\
  mesh_surface m prim u v = Ok l /\ in_triangle (vt_pos a) (vt_pos b) (vt_pos c) (lo_pos l) /\
  (u = 0 -> v = 0 -> lo_pos l = vt_pos a /\ lo_ns l = vt_normal a /\ lo_u l = vt_u a /\ lo_v l = vt_v a) /\
  (u = 1 -> v = 0 -> lo_pos l = vt_pos b /\ lo_ns l = vt_normal b /\ lo_u l = vt_u b /\ lo_v l = vt_v b) /\
  (u = 0 -> v = 1 -> lo_pos l = vt_pos c /\ lo_ns l = vt_normal c /\ lo_u l = vt_u c /\ lo_v l = vt_v c).
Proof.
  intros idx vs ts m prim u v HM HP HU HV HS.
  destruct (proj1 (C102_construction idx vs ts) (ex_intro _ m HM)) as (GI & GT).
  assert (M: m = Mesh idx vs ts). { unfold new_mesh in HM. destruct (existsb _ _); [discriminate|]. destruct (negb _ && negb _); [discriminate|]. injection HM as <-. auto. }
  subst m. unfold triangle_count in HP. cbn [m_index] in HP.
  assert (LI: (3 * prim + 2 < List.length idx)%nat). { pose proof (Nat.div_mod_eq (List.length idx) 3). pose proof (Nat.mod_upper_bound (List.length idx) 3). lia. }
  assert (AT: forall k, (k < List.length idx)%nat -> at_ idx k = Ok (nth k idx 0%nat)). { intros k K. unfold at_. rewrite (nth_error_nth' idx 0%nat K). auto. }
  assert (GV: forall (A : Type) (l : list A), List.length l = List.length vs -> forall k, (k < List.length idx)%nat -> exists x, nth_error l (nth k idx 0%nat) = Some x).
  { intros A l LL k K. destruct (nth_error l (nth k idx 0%nat)) eqn:E; eauto. apply nth_error_None in E. pose proof (GI _ (nth_In idx 0%nat K)). lia. }
  destruct (GV _ vs eq_refl (3 * prim)%nat ltac:(lia)) as (a & EA). destruct (GV _ vs eq_refl (3 * prim + 1)%nat ltac:(lia)) as (b & EB). destruct (GV _ vs eq_refl (3 * prim + 2)%nat ltac:(lia)) as (c & EC).
  exists a, b, c. unfold mesh_surface. cbn [m_index m_vertex m_tangent].
  replace (prim * 3 + 0)%nat with (3 * prim)%nat by lia. replace (prim * 3 + 1)%nat with (3 * prim + 1)%nat by lia. replace (prim * 3 + 2)%nat with (3 * prim + 2)%nat by lia.
  rewrite !AT by lia. cbn [obind]. unfold at_ at 1 2 3. rewrite EA, EB, EC. cbn [obind].
  match goal with |- context [obind ?e (fun tb : vec3 * vec3 => _)] => assert (TB: exists tb, e = Ok tb) end.
  { destruct ts as [|x ts]; eauto. destruct GT as [GT|GT]; [discriminate|].
    destruct (GV _ _ GT (3 * prim)%nat ltac:(lia)) as (t0 & E0). destruct (GV _ _ GT (3 * prim + 1)%nat ltac:(lia)) as (t1 & E1). destruct (GV _ _ GT (3 * prim + 2)%nat ltac:(lia)) as (t2 & E2).
    unfold at_. rewrite E0, E1, E2. cbn [obind]. eauto. }
  destruct TB as (tb & ET). rewrite ET. cbn [obind]. eexists. repeat (split; [eassumption || reflexivity|]). cbn [lo_pos lo_ns lo_u lo_v]. split.
  - exists (1 - u - v), u, v. repeat split; auto; lra.
  - unfold mix3, mix1. repeat split; intros; subst; try ring; apply v3_eq; cbn; ring.
Qed.
Print Assumptions C102_hit_in_triangle.
Example C102_case : exists m, new_mesh [0; 1; 2]%nat [Vx vzero [] (V3 0 0 1) 0 0; Vx (V3 1 0 0) [] (V3 0 0 1) 1 0; Vx (V3 0 1 0) [] (V3 0 0 1) 0 1] [] = Ok m /\ (0 < triangle_count m)%nat /\ 0 <= 1 / 4 /\ 1 / 4 + 1 / 4 <= 1.
Proof. eexists. split; [reflexivity|]. split; [cbn; lia|lra]. Qed.

(** C103: node matrices of model files *)
(* the affine map of a matrix with columns a, b, c and translation t *)
Definition affine (a b c t p : vec3) : vec3 := vadd (vadd (vadd (vscale (vx p) a) (vscale (vy p) b)) (vscale (vz p) c)) t.
Theorem C103_faithful_partial : forall m s t, is_rotation m -> / 10 ^ 10 < vx s -> / 10 ^ 10 < vy s -> / 10 ^ 10 < vz s ->
  exists x, convert_transform (vscale (vx s) (c0 m)) (vscale (vy s) (c1 m)) (vscale (vz s) (c2 m)) t = Ok x /\
  forall p, to_point x p = affine (vscale (vx s) (c0 m)) (vscale (vy s) (c1 m)) (vscale (vz s) (c2 m)) t p.
Proof.
  intros m s t HR SX SY SZ. assert (E0: 0 < / 10 ^ 10) by (apply Rinv_0_lt_compat, pow_lt; lra).
  destruct (rotation_cols m HR) as (A & B & AB & C1 & C2 & C3).
  assert (C: dot (c2 m) (c2 m) = 1) by (rewrite <- C1, lagrange, A, B, AB; ring).
  assert (LEN: forall k v, / 10 ^ 10 < k -> dot v v = 1 -> vlen (vscale k v) = k). { intros k v K V. unfold vlen. replace (dot (vscale k v) (vscale k v)) with (k * k * dot v v) by (unfold dot; cbn; ring). rewrite V, Rmult_1_r. apply sqrt_square. lra. }
  assert (UC: forall k v, / 10 ^ 10 < k -> dot v v = 1 -> unit_column (vscale k v) = v). { intros k v K V. unfold unit_column. rewrite LEN by auto. rewrite (proj2 (Rltb_true _ _) K). apply v3_eq; cbn -[pow]; field; lra. }
  unfold convert_transform. rewrite !UC, !LEN by auto. replace (M3 (c0 m) (c1 m) (c2 m)) with m by (destruct m; auto).
  rewrite (set_matrix_id m HR). cbn [obind]. eexists. split; [reflexivity|]. intros p. unfold to_point, affine. apply v3_eq; cbn -[pow]; ring.
Qed.
Print Assumptions C103_faithful_partial.
(* mirroring nodes cannot be loaded, and neither can nodes that flatten an axis *)
Theorem C103_mirrored_throws_partial : forall a b c t, / 10 ^ 10 < vlen a -> / 10 ^ 10 < vlen b -> / 10 ^ 10 < vlen c -> dot a (cross b c) <= 0 -> convert_transform a b c t = Throws.
Proof.
  intros a b c t A B C D. assert (E0: 0 < / 10 ^ 10) by (apply Rinv_0_lt_compat, pow_lt; lra).
  unfold convert_transform, unit_column. rewrite !(proj2 (Rltb_true _ _)) by auto. unfold set_matrix.
  set (d := det _). assert (DD: d = / (vlen a * vlen b * vlen c) * dot a (cross b c)) by (unfold d, det, dot, cross; cbn -[pow]; field; lra).
  assert (d <= 0). { rewrite DD. assert (0 < / (vlen a * vlen b * vlen c)) by (apply Rinv_0_lt_compat; repeat apply Rmult_lt_0_compat; lra). nra. }
  rewrite (proj2 (Rltb_true _ _)); auto. rewrite Rabs_left by lra. lra.
Qed.
(* full statement: a node is placed by its matrix or rejected. Refuted: a shear within the tolerance on the determinant is accepted and dropped *)
Theorem C103_shear_refuted : exists a b c x, convert_transform a b c vzero = Ok x /\ exists p, to_point x p <> affine a b c vzero p.
Proof.
  set (b := V3 (1 / 25) (sqrt (1 - 1 / 625)) 0). set (q := sqrt (1 - 1 / 625)) in *.
  assert (QQ: q * q = 1 - 1 / 625) by (apply sqrt_sqrt; lra). assert (Q0: 0 <= q) by apply sqrt_pos. assert (QB: 999 / 1000 < q < 1) by nra.
  assert (E1: / 10 ^ 10 < 1) by (rewrite <- Rinv_1; apply Rinv_lt_contravar; [rewrite Rmult_1_l; apply pow_lt; lra|cbn; lra]).
  assert (L1: forall v, dot v v = 1 -> vlen v = 1) by (intros v V; unfold vlen; rewrite V; apply sqrt_1).
  assert (U1: forall v, dot v v = 1 -> unit_column v = v). { intros v V. unfold unit_column. rewrite L1 by auto. rewrite (proj2 (Rltb_true _ _) E1). apply v3_eq; cbn -[pow]; field. }
  assert (X: dot (V3 1 0 0) (V3 1 0 0) = 1) by (unfold dot; cbn; ring). assert (B: dot b b = 1) by (unfold dot, b; cbn; lra). assert (Z: dot (V3 0 0 1) (V3 0 0 1) = 1) by (unfold dot; cbn; ring).
  assert (SM: set_matrix (M3 (V3 1 0 0) b (V3 0 0 1)) = Ok (orthonormalize (M3 (V3 1 0 0) b (V3 0 0 1)))).
  { unfold set_matrix. rewrite (proj2 (Rltb_false _ _)); auto. unfold det, b. cbn [c0 c1 c2 vx vy vz]. replace (1 * (q * 1 - 0 * 0) - 1 / 25 * (0 * 1 - 0 * 0) + 0 * (0 * 0 - q * 0) - 1) with (q - 1) by ring. rewrite Rabs_left by lra. lra. }
  exists (V3 1 0 0), b, (V3 0 0 1). unfold convert_transform. rewrite !U1, !L1 by auto. rewrite SM. cbn [obind]. eexists. split; [reflexivity|].
  exists (V3 0 1 0). unfold to_point, affine. cbn [t_rot t_scale t_pos]. intros H. apply (f_equal vx) in H. revert H. unfold orthonormalize. cbn [c0 c1 c2]. rewrite (normalize_id (V3 1 0 0) X).
  unfold normalize. set (n := vlen _). unfold b. cbn [mapply vadd vscale vsub vmul cross dot vx vy vz c0 c1 c2 vzero]. unfold dot. cbn [vx vy vz]. intros H. ring_simplify in H. lra.
Qed.
Example C103_case : exists a b c, / 10 ^ 10 < vlen a /\ / 10 ^ 10 < vlen b /\ / 10 ^ 10 < vlen c /\ dot a (cross b c) <= 0.
Proof.
  exists (V3 (-1) 0 0), (V3 0 1 0), (V3 0 0 1). unfold vlen, dot. cbn [vx vy vz cross].
  replace (-1 * -1 + 0 * 0 + 0 * 0) with 1 by ring. replace (0 * 0 + 1 * 1 + 0 * 0) with 1 by ring. replace (0 * 0 + 0 * 0 + 1 * 1) with 1 by ring. rewrite sqrt_1.
  assert (E1: / 10 ^ 10 < 1) by (rewrite <- Rinv_1 at 1; apply Rinv_lt_contravar; [rewrite Rmult_1_l; apply pow_lt; lra|cbn; lra]). lra.
Qed.
