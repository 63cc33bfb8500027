(* Lemmas about surface hits. *)
From Verif Require Import Common Vec3 TransformModel TransformSpec TransformProofs SurfaceModel SurfaceSpec.
Open Scope R_scope.

(** atan2 *)
Lemma sqrt_ratio x y : x <> 0 -> sqrt (1 + (y / x)²) = sqrt (x * x + y * y) / Rabs x.
Proof.
  intros X. assert (0 < x * x) by (destruct (Rtotal_order x 0) as [|[|]]; nra).
  replace (1 + (y / x)²) with ((x * x + y * y) / (x * x)) by (unfold Rsqr; field; auto).
  rewrite sqrt_div_alt by auto. f_equal. rewrite <- (sqrt_Rsqr_abs x). unfold Rsqr. reflexivity.
Qed.
Lemma sqrt_pos2 x y : x <> 0 \/ y <> 0 -> 0 < sqrt (x * x + y * y).
Proof. intros H. apply sqrt_lt_R0. destruct H as [H|H]; [assert (0 < x * x) by (destruct (Rtotal_order x 0) as [|[|]]; nra)|assert (0 < y * y) by (destruct (Rtotal_order y 0) as [|[|]]; nra)]; nra. Qed.
Lemma atan2_cs x y : x <> 0 \/ y <> 0 -> cos (atan2 y x) = x / sqrt (x * x + y * y) /\ sin (atan2 y x) = y / sqrt (x * x + y * y).
Proof.
  intros N. pose proof (sqrt_pos2 x y N) as SP. unfold atan2.
  destruct (Rltb 0 x) eqn:E1; rb.
  - rewrite cos_atan, sin_atan, sqrt_ratio, Rabs_pos_eq by lra. split; field; lra.
  - destruct (Rltb x 0) eqn:E2; rb.
    + assert (C: cos (atan (y / x) + PI) = x / sqrt (x * x + y * y)) by (rewrite neg_cos, cos_atan, sqrt_ratio, Rabs_left by lra; field; lra).
      assert (S: sin (atan (y / x) + PI) = y / sqrt (x * x + y * y)) by (rewrite neg_sin, sin_atan, sqrt_ratio, Rabs_left by lra; field; lra).
      destruct (Rleb 0 y); auto.
      replace (atan (y / x) - PI) with (atan (y / x) + PI - 2 * PI) by ring.
      rewrite <- (cos_period (atan (y/x) + PI - 2 * PI) 1), <- (sin_period (atan (y/x) + PI - 2 * PI) 1). cbn [INR].
      replace (atan (y / x) + PI - 2 * PI + 2 * 1 * PI) with (atan (y / x) + PI) by ring. auto.
    + assert (x = 0) by lra. subst x. replace (0 * 0 + y * y) with (Rsqr y) in * by (unfold Rsqr; ring). rewrite sqrt_Rsqr_abs in *.
      destruct (Rltb 0 y) eqn:E3; rb.
      * rewrite cos_PI2, sin_PI2, Rabs_pos_eq by lra. split; field; lra.
      * destruct (Rltb y 0) eqn:E4; rb.
        -- rewrite cos_neg, sin_neg, cos_PI2, sin_PI2, Rabs_left by lra. split; field; lra.
        -- lra.
Qed.
Lemma atan2_range x y : - PI <= atan2 y x <= PI.
Proof.
  unfold atan2. pose proof PI_RGT_0. pose proof (atan_bound (y / x)).
  destruct (Rltb 0 x) eqn:E1; rb; [lra|]. destruct (Rltb x 0) eqn:E2; rb.
  - destruct (Rleb 0 y) eqn:E3; rb.
    + assert (y / x <= 0). { unfold Rdiv. assert (/ x < 0) by (apply Rinv_lt_0_compat; lra). nra. }
      assert (atan (y / x) <= 0). { rewrite <- atan_0. destruct (Req_dec (y / x) 0) as [->|]; [lra|]. left. apply atan_increasing. lra. } lra.
    + assert (0 < y / x). { unfold Rdiv. assert (/ x < 0) by (apply Rinv_lt_0_compat; lra). nra. }
      assert (0 < atan (y / x)). { rewrite <- atan_0. apply atan_increasing. lra. } lra.
  - destruct (Rltb 0 y); [lra|]. destruct (Rltb y 0); lra.
Qed.

(** the quadratic of the ellipsoid *)
Section Quad.
Variables r O D : vec3.
Hypothesis HR : positive3 r.
Hypothesis HD : D <> vzero.
Let Os := vmul O (vinv r).
Let Ds := vmul D (vinv r).
Let L := vlen Ds.
Let Du := vscale (/ L) Ds.
Let B := 2 * dot Os Du.
Let C := dot Os Os - 1.
Lemma Ds_nz : Ds <> vzero.
Proof.
  destruct HR as (X & Y & Z). intros E. apply HD. unfold Ds, vmul, vinv in E. cbn in E. injection E as E1 E2 E3.
  assert (forall a b, 0 < b -> a * (1 / b) = 0 -> a = 0) as K. { intros a b Hb H. unfold Rdiv in H. rewrite Rmult_1_l in H. apply Rmult_integral in H. destruct H; auto. pose proof (Rinv_0_lt_compat b Hb). lra. }
  apply v3_eq; cbn; [exact (K _ _ X E1)|exact (K _ _ Y E2)|exact (K _ _ Z E3)].
Qed.
Lemma L_pos : 0 < L.
Proof. unfold L, vlen. apply sqrt_lt_R0. destruct (dot_pos Ds) as [|H]; auto. exfalso. apply Ds_nz, dot_zero. auto. Qed.
Lemma L_sq : L * L = dot Ds Ds. Proof. unfold L, vlen. apply sqrt_sqrt, dot_pos. Qed.
Lemma along_scaled t : vmul (along O D t) (vinv r) = vadd Os (vscale (t * L) Du).
Proof. pose proof L_pos. unfold along, Du, Os. apply v3_eq; unfold Ds; cbn; field; destruct HR as (?&?&?); repeat split; lra. Qed.
Lemma level_dot p : level r p = dot (vmul p (vinv r)) (vmul p (vinv r)).
Proof. destruct HR as (?&?&?). unfold level, dot, vmul, vinv; cbn. field. repeat split; lra. Qed.
Lemma level_quad t : level r (along O D t) - 1 = (t * L) * (t * L) + B * (t * L) + C.
Proof.
  rewrite level_dot, along_scaled. assert (DU: dot Du Du = 1). { unfold Du. rewrite dot_scale, dot_comm, dot_scale, <- L_sq. pose proof L_pos. field. lra. }
  unfold B, C. rewrite dot_add, dot_scale. rewrite (dot_comm _ Os), (dot_comm _ Du), !dot_add, !dot_scale, DU, (dot_comm Du Os). ring.
Qed.
Lemma roots d : d * d = B * B - 4 * C -> forall q, q <> 0 -> (q = - (1 / 2) * (B + d) \/ q = - (1 / 2) * (B + - d)) -> forall x, x * x + B * x + C = (x - q) * (x - C / q).
Proof.
  intros Hd q Hq Hqq x. assert (q * q + B * q + C = 0) by (destruct Hqq as [->| ->]; nra).
  assert (C / q = - B - q). { apply (Rmult_eq_reg_r q); auto. unfold Rdiv. rewrite Rmult_assoc, Rinv_l by auto. nra. }
  rewrite H0. nra.
Qed.
End Quad.

Lemma in_range_asked tfar t : in_range 0 tfar t = true <-> asked tfar t.
Proof.
  unfold in_range, asked. rewrite andb_true_iff, negb_true_iff, Rltb_false. destruct tfar as [f|]; [rewrite negb_true_iff, Rltb_false|]; tauto.
Qed.
Lemma in_range_no tfar t : in_range 0 tfar t = false -> ~ asked tfar t.
Proof. intros H A. apply in_range_asked in A. congruence. Qed.

(** points of the ellipsoid and their angles *)
Lemma sphere_angles P : dot P P = 1 -> let phi := atan2 (vy P) (vx P) in let theta := acos (vz P) in
  sin theta * cos phi = vx P /\ sin theta * sin phi = vy P /\ cos theta = vz P /\ 0 <= theta <= PI.
Proof.
  intros H. cbv zeta. unfold dot in H. assert (ZB: -1 <= vz P <= 1) by nra.
  assert (ST: sin (acos (vz P)) = sqrt (vx P * vx P + vy P * vy P)). { rewrite sin_acos by auto. f_equal. unfold Rsqr. lra. }
  rewrite ST, cos_acos by auto. split; [|split; [|split; [auto|apply acos_bound]]].
  - destruct (Req_dec (vx P) 0) as [X|X]; [destruct (Req_dec (vy P) 0) as [Y|Y]|].
    + rewrite X, Y. replace (0 * 0 + 0 * 0) with 0 by ring. rewrite sqrt_0. ring.
    + destruct (atan2_cs (vx P) (vy P) (or_intror Y)) as (-> & _). pose proof (sqrt_pos2 _ _ (or_intror Y : vx P <> 0 \/ vy P <> 0)). field. lra.
    + destruct (atan2_cs (vx P) (vy P) (or_introl X)) as (-> & _). pose proof (sqrt_pos2 _ _ (or_introl X : vx P <> 0 \/ vy P <> 0)). field. lra.
  - destruct (Req_dec (vx P) 0) as [X|X]; [destruct (Req_dec (vy P) 0) as [Y|Y]|].
    + rewrite X, Y. replace (0 * 0 + 0 * 0) with 0 by ring. rewrite sqrt_0. ring.
    + destruct (atan2_cs (vx P) (vy P) (or_intror Y)) as (_ & ->). pose proof (sqrt_pos2 _ _ (or_intror Y : vx P <> 0 \/ vy P <> 0)). field. lra.
    + destruct (atan2_cs (vx P) (vy P) (or_introl X)) as (_ & ->). pose proof (sqrt_pos2 _ _ (or_introl X : vx P <> 0 \/ vy P <> 0)). field. lra.
Qed.
Lemma rmax3_pos r : positive3 r -> 0 < rmax3 r.
Proof. intros (X & Y & Z). unfold rmax3. eapply Rlt_le_trans; [exact Z|apply Rmax_r]. Qed.
Lemma onorm_some v : v <> vzero -> onorm v = Some (normalize v).
Proof. intros H. unfold onorm, normalize. destruct (Req_EM_T (dot v v) 0) as [E|E]; auto. exfalso. apply H, dot_zero, E. Qed.
Lemma onorm_zero : onorm vzero = None.
Proof. unfold onorm. destruct (Req_EM_T _ 0) as [E|E]; auto. exfalso. apply E. unfold dot; cbn; ring. Qed.
Lemma onorm_spec v x : onorm v = Some x -> v <> vzero /\ dot x x = 1 /\ exists k, 0 < k /\ x = vscale k v.
Proof.
  intros H. assert (N: v <> vzero). { intros ->. rewrite onorm_zero in H. discriminate. }
  rewrite onorm_some in H by auto. injection H as <-. split; auto. split; [apply normalize_unit; auto|].
  exists (/ vlen v). split; auto. apply Rinv_0_lt_compat. unfold vlen. apply sqrt_lt_R0. destruct (dot_pos v) as [|E]; auto. exfalso. apply N, dot_zero. auto.
Qed.
Lemma normalize_scale k v : 0 < k -> normalize (vscale k v) = normalize v.
Proof.
  intros K. unfold normalize, vlen. replace (dot (vscale k v) (vscale k v)) with (k * k * dot v v) by (unfold dot; cbn; ring).
  rewrite sqrt_mult, sqrt_square by (try apply dot_pos; nra). destruct (Req_dec (dot v v) 0) as [E|E].
  - apply dot_zero in E. subst. apply v3_eq; cbn; ring.
  - assert (0 < sqrt (dot v v)). { apply sqrt_lt_R0. pose proof (dot_pos v). lra. } apply v3_eq; cbn; field; lra.
Qed.
Lemma normalize_dir v : v <> vzero -> same_direction (normalize v) v.
Proof. intros N. exists (/ vlen v). split; auto. apply Rinv_0_lt_compat. unfold vlen. apply sqrt_lt_R0. destruct (dot_pos v) as [|E]; auto. exfalso. apply N, dot_zero. auto. Qed.

(** transforms of directions *)
Definition nonzero3 (s : vec3) : Prop := vx s <> 0 /\ vy s <> 0 /\ vz s <> 0.
Lemma to_direction_nz xf v : is_rotation (t_rot xf) -> nonzero3 (t_scale xf) -> v <> vzero -> to_direction xf v <> vzero.
Proof.
  intros HR (SX & SY & SZ) N E. apply N. unfold to_direction in E. assert (Z: mapply (t_rot xf) vzero = vzero) by (apply v3_eq; cbn; ring).
  rewrite <- Z in E. apply rotation_inj in E; auto. unfold vmul, vzero in E. injection E as E1 E2 E3.
  apply v3_eq; cbn; [apply Rmult_integral in E1|apply Rmult_integral in E2|apply Rmult_integral in E3]; tauto.
Qed.
Lemma to_direction_scale xf k v : to_direction xf (vscale k v) = vscale k (to_direction xf v). Proof. unfold to_direction. apply v3_eq; cbn; ring. Qed.
Lemma to_direction_dot xf u v : is_rotation (t_rot xf) -> dot (to_direction xf u) (to_direction xf v) = dot u (vmul (vmul (t_scale xf) (t_scale xf)) v).
Proof. intros (HD & _). unfold to_direction. rewrite HD. unfold dot; cbn; ring. Qed.
Lemma along_to_point xf O D t : to_point xf (along O D t) = along (to_point xf O) (to_direction xf D) t.
Proof. unfold to_point, to_direction, along. apply v3_eq; cbn; ring. Qed.
Lemma dot_z_l a : dot vzero a = 0. Proof. unfold dot; cbn; ring. Qed.
Lemma dot_z_r a : dot a vzero = 0. Proof. unfold dot; cbn; ring. Qed.
Lemma dot_opp a b : dot a (vopp b) = - dot a b. Proof. unfold dot, vopp; cbn; ring. Qed.
Lemma dot_opp_l a b : dot (vopp a) b = - dot a b. Proof. unfold dot, vopp; cbn; ring. Qed.
(* parallel vectors *)
Lemma parallel w g : g <> vzero -> (cross w g = vzero <-> forall t, dot t g = 0 -> dot t w = 0).
Proof.
  intros G. assert (GG: dot g g <> 0) by (intros E; apply G, dot_zero, E). split.
  - intros C t T. assert (E: vscale (dot g g) w = vscale (dot g w) g).
    { assert (K: cross g (cross w g) = vzero) by (rewrite C; apply v3_eq; cbn; ring). rewrite cross_cross in K. injection K as K1 K2 K3. apply v3_eq; cbn; lra. }
    assert (dot t (vscale (dot g g) w) = 0) by (rewrite E, dot_scale, T; ring). rewrite dot_scale in H. apply Rmult_integral in H. tauto.
  - intros H. assert (P: dot (cross w g) g = 0) by (rewrite dot_comm; apply cross_perp_r).
    set (t := vsub (vscale (dot g g) w) (vscale (dot w g) g)).
    assert (T0: dot t g = 0) by (unfold t; rewrite dot_comm, dot_sub, !dot_scale, (dot_comm w g); ring).
    assert (TT: dot t t = 0). { unfold t at 2. rewrite dot_sub, !dot_scale, T0, (H t T0). ring. }
    apply dot_zero in TT. apply dot_zero. rewrite lagrange.
    assert (E: dot w t = 0) by (rewrite TT; unfold dot; cbn; ring). unfold t in E. rewrite dot_sub, !dot_scale in E. lra.
Qed.
