(* C113: nadir pointing.  C114: stars and objects in one direction coincide.  C115: proper motion. *)
From Verif Require Import Vec3 TransformModel TransformSpec TransformProofs TransformProps SpectralModel PhysicsProps MotionModel LightTimeProps MotionProofs MotionProps.
From Coq Require Import String.
From Coquelicot Require Import Coquelicot.
Open Scope R_scope.

(** C113 *)
(* r points its z axis along the unit vector z, its y axis forward: in the half plane of z and v that contains v *)
Definition points (z v : vec3) (r : mat3) : Prop :=
  is_rotation r /\ mapply r ez = z /\ dot (mapply r ey) z = 0 /\ 0 < dot (mapply r ey) v /\ (exists a b, mapply r ey = vadd (vscale a v) (vscale b z)).
Definition parallel (a b : vec3) : Prop := cross a b = vzero.
Lemma is_zero_iff v : is_zero v = true <-> v = vzero.
Proof. unfold is_zero. destruct (Req_EM_T (dot v v) 0) as [E|E]; split; intros H; auto; try discriminate; [apply dot_zero; auto|]. exfalso. apply E. rewrite H. unfold dot; cbn; ring. Qed.
Lemma is_zero_false v : is_zero v = false <-> v <> vzero.
Proof. destruct (is_zero v) eqn:E; split; intros H; try discriminate; auto; [exfalso; apply H, is_zero_iff; auto|]. intros Z. apply is_zero_iff in Z. congruence. Qed.
Lemma nadir_ok sign p v : sign * sign = 1 -> ~ parallel p v -> exists r, nadir sign p v = Ok (r, vzero) /\ points (vscale sign (normalize p)) v r.
Proof.
  intros S NP. assert (P0 : p <> vzero) by (intros ->; apply NP; vec). assert (V0 : v <> vzero) by (intros ->; apply NP; vec).
  unfold nadir. rewrite (proj2 (is_zero_false p) P0), (proj2 (is_zero_false v) V0). cbn [orb]. set (z := vscale sign (normalize p)). set (y := normalize v).
  assert (ZZ : dot z z = 1). { unfold z. rewrite dot_scale, dot_comm, dot_scale. rewrite normalize_unit by auto. lra. } assert (YY : dot y y = 1) by (apply normalize_unit; auto).
  pose proof (vlen_pos p P0) as LP. pose proof (vlen_pos v V0) as LV.
  assert (C0 : cross y z <> vzero).
  { intros Z. apply NP. unfold parallel. assert (X : cross y z = vscale (- sign * / vlen v * / vlen p) (cross p v)) by (unfold y, z, normalize; vec). rewrite X in Z.
    assert (K : - sign * / vlen v * / vlen p <> 0). { apply Rmult_integral_contrapositive_currified; [apply Rmult_integral_contrapositive_currified|]; [nra|apply Rinv_neq_0_compat; lra|apply Rinv_neq_0_compat; lra]. }
    apply v3_eq; [apply (f_equal vx) in Z|apply (f_equal vy) in Z|apply (f_equal vz) in Z]; cbn [vscale vx vy vz vzero] in *; apply Rmult_integral in Z; destruct Z; auto; contradiction. }
  rewrite (proj2 (is_zero_false _) C0). set (x := normalize (cross y z)). assert (XX : dot x x = 1) by (apply normalize_unit; auto).
  pose proof (vlen_pos _ C0) as LC. assert (XZ : dot x z = 0). { unfold x, normalize. unfold dot; cbn; ring. } assert (XV : dot x y = 0). { unfold x, normalize. unfold dot; cbn; ring. }
  assert (UY : dot (cross z x) (cross z x) = 1). { rewrite lagrange, ZZ, XX, (dot_comm z x), XZ. ring. } rewrite (normalize_id (cross z x)) by auto.
  assert (ZX : cross x (cross z x) = z). { rewrite cross_cross, XX, XZ. vec. }
  assert (RR : is_rotation (M3 x (cross z x) z)). { rewrite <- ZX at 2. apply frame_rotation; auto. unfold dot; cbn; ring. }
  unfold from_basis. rewrite set_matrix_id by auto. cbn [obind]. eexists. split; [reflexivity|]. split; [exact RR|]. split; [vec|].
  assert (EY : mapply (M3 x (cross z x) z) ey = cross z x) by vec. rewrite EY. split; [unfold dot; cbn; ring|].
  (* cross z x = (y - (y.z) z) / |y x z| *)
  assert (ZX2 : cross z x = vscale (/ vlen (cross y z)) (vsub y (vscale (dot y z) z))).
  { unfold x, normalize at 1. assert (Q : cross z (vscale (/ vlen (cross y z)) (cross y z)) = vscale (/ vlen (cross y z)) (cross z (cross y z))) by vec. rewrite Q, cross_cross, ZZ, (dot_comm z y). f_equal. vec. }
  assert (VY : v = vscale (vlen v) y) by (symmetry; apply normalize_scale; auto). split.
  - assert (L2 : 0 < 1 - dot y z * dot y z). { pose proof (lagrange y z) as L. rewrite YY, ZZ in L. assert (0 < dot (cross y z) (cross y z)). { rewrite <- vlen_sq. nra. } lra. }
    rewrite VY, dot_scale. apply Rmult_lt_0_compat; auto. rewrite ZX2. assert (Q : dot (vscale (/ vlen (cross y z)) (vsub y (vscale (dot y z) z))) y = / vlen (cross y z) * (dot y y - dot y z * dot y z)) by (unfold dot; cbn; ring). rewrite Q, YY. apply Rmult_lt_0_compat; [apply Rinv_0_lt_compat; auto|auto].
  - exists (/ vlen (cross y z) * / vlen v), (- (/ vlen (cross y z) * dot y z)). rewrite ZX2. unfold y at 2, normalize. vec.
Qed.
Theorem C113 : forall t p v, ~ parallel p v ->
  (exists r, z_up t p v = Ok (r, vzero) /\ points (normalize p) v r) /\ (exists r, z_down t p v = Ok (r, vzero) /\ points (vscale (-1) (normalize p)) v r).
Proof.
  intros t p v NP. split; [|apply nadir_ok; [ring|auto]]. destruct (nadir_ok 1 p v) as (r & E & H); [ring|auto|]. rewrite vscale_1 in H. exists r. auto.
Qed.
(* the axes leave no choice *)
Theorem C113_unique : forall z v r r', dot z z = 1 -> points z v r -> points z v r' -> r = r'.
Proof.
  intros z v r r' ZZ (R & Z & O & F & a & b & E) (R' & Z' & O' & F' & a' & b' & E').
  assert (EY : mapply r ey = mapply r' ey).
  { destruct R as (D & _), R' as (D' & _). pose proof (D ey ey) as N. pose proof (D' ey ey) as N'. set (y := mapply r ey) in *. set (y' := mapply r' ey) in *. assert (X : dot ey ey = 1) by (unfold dot; cbn; ring). rewrite X in N, N'.
    (* both are unit, orthogonal to z, in the plane of z and v, on the side of v *)
    set (k := dot v z). assert (B : b = - a * k). { assert (Q : dot y z = a * k + b * dot z z) by (rewrite E; unfold k, dot; cbn; ring). rewrite O, ZZ in Q. lra. }
    assert (B' : b' = - a' * k). { assert (Q : dot y' z = a' * k + b' * dot z z) by (rewrite E'; unfold k, dot; cbn; ring). rewrite O', ZZ in Q. lra. }
    set (q := vsub v (vscale k z)). assert (Y : y = vscale a q) by (rewrite E, B; unfold q; vec). assert (Y' : y' = vscale a' q) by (rewrite E', B'; unfold q; vec).
    assert (QV : dot q v = dot q q). { unfold q, k. assert (W : dot (vsub v (vscale (dot v z) z)) (vsub v (vscale (dot v z) z)) = dot (vsub v (vscale (dot v z) z)) v - dot v z * (dot v z - dot v z * dot z z)) by (unfold dot; cbn; ring). rewrite W, ZZ. ring. }
    assert (A : a * a * dot q q = 1). { rewrite <- N, Y. unfold dot; cbn; ring. } assert (A' : a' * a' * dot q q = 1). { rewrite <- N', Y'. unfold dot; cbn; ring. }
    assert (G : 0 < a * dot q q). { rewrite <- QV. replace (a * dot q v) with (dot y v) by (rewrite Y; unfold dot; cbn; ring). auto. }
    assert (G' : 0 < a' * dot q q). { rewrite <- QV. replace (a' * dot q v) with (dot y' v) by (rewrite Y'; unfold dot; cbn; ring). auto. }
    pose proof (dot_pos q). assert (a = a'). { assert (0 < dot q q) by nra. assert (0 < a) by nra. assert (0 < a') by nra. nra. } rewrite Y, Y'. congruence. }
  assert (EX : mapply r ex = mapply r' ex). { assert (XX : ex = cross ey ez) by vec. rewrite XX. destruct R as (_ & C), R' as (_ & C'). rewrite C, C', EY, Z, Z'. auto. }
  apply mat_eq. intros w. assert (W : w = vadd (vadd (vscale (vx w) ex) (vscale (vy w) ey)) (vscale (vz w) ez)) by (apply v3_eq; cbn; ring). rewrite W, !mapply_add, !mapply_scale, EX, EY, Z, Z'. auto.
Qed.
(* position and velocity along one line: there is no such frame and the rotation is not a number *)
Theorem C113_parallel : forall t p v, parallel p v -> z_up t p v = UB /\ z_down t p v = UB.
Proof.
  intros t p v H. assert (G : forall s, nadir s p v = UB).
  { intros s. unfold nadir. destruct (is_zero p) eqn:P; [reflexivity|]. destruct (is_zero v) eqn:V; [reflexivity|]. cbn [orb]. rewrite (proj2 (is_zero_iff _)); [reflexivity|].
    unfold normalize. assert (X : cross (vscale (/ vlen v) v) (vscale s (vscale (/ vlen p) p)) = vscale (- (s * / vlen p * / vlen v)) (cross p v)) by vec. rewrite X, H. vec. }
  split; apply G.
Qed.
(* the angular velocity it reports is zero, although the frame turns as the object goes round *)
Definition orbit_pos (t : R) : vec3 := V3 (cos t) (sin t) 0.
Definition orbit_vel (t : R) : vec3 := V3 (- sin t) (cos t) 0.
Theorem C113_refuted_rate : exists f : R -> transform, (forall t, exists w, z_up t (orbit_pos t) (orbit_vel t) = Ok (t_rot (f t), w) /\ t_ang (f t) = w /\ t_pos (f t) = orbit_pos t /\ t_vel (f t) = orbit_vel t) /\
  (forall t, vderive (fun x => t_pos (f x)) t (t_vel (f t))) /\ forall t, ~ moves f t.
Proof.
  assert (NP : forall t, ~ parallel (orbit_pos t) (orbit_vel t)). { intros t H. apply (f_equal vz) in H. cbn in H. pose proof (cs t). lra. }
  set (rot := fun t => match z_up t (orbit_pos t) (orbit_vel t) with Ok (r, _) => r | _ => ident end).
  assert (RP : forall t, z_up t (orbit_pos t) (orbit_vel t) = Ok (rot t, vzero) /\ mapply (rot t) ez = orbit_pos t).
  { intros t. destruct (C113 t _ _ (NP t)) as ((r & E & H) & _). unfold rot. rewrite E. split; auto. destruct H as (_ & H & _). rewrite H. apply normalize_id. unfold dot; cbn. pose proof (cs t). lra. }
  exists (fun t => T (orbit_pos t) (rot t) (V3 1 1 1) (orbit_vel t) vzero). split; [|split].
  - intros t. exists vzero. repeat split; auto. apply RP.
  - intros t. cbn. split; [|split]; cbn; auto_derive; auto; ring.
  - intros t (_ & H). specialize (H ez). cbn [t_rot t_ang] in H. assert (D : vderive (fun x => mapply (rot x) ez) t (orbit_vel t)).
    { eapply vderive_ext; [intros x; symmetry; apply RP|]. split; [|split]; cbn; auto_derive; auto; ring. }
    pose proof (vderive_unique _ _ _ _ H D) as U. assert (Z : cross vzero (mapply (rot t) ez) = vzero) by vec. rewrite Z in U. pose proof (cs t). pose proof (f_equal vx U). pose proof (f_equal vy U). cbn in *. nra.
Qed.
Print Assumptions C113.
Print Assumptions C113_unique.
Print Assumptions C113_parallel.
Print Assumptions C113_refuted_rate.
Example C113_case : ~ parallel (V3 7000 0 0) (V3 1 7 0). Proof. intros H. apply (f_equal vz) in H. cbn in H. lra. Qed.

(** C114 *)
(* the camera: its state at one time, unscaled *)
Definition camera (obs : transform) : Prop := proper obs /\ t_scale obs = V3 1 1 1.
Lemma unit_inverse obs : camera obs -> exists inv, t_inverse obs = Ok inv /\ proper inv /\ (forall p, to_point inv p = mapply (transpose (t_rot obs)) (vsub p (t_pos obs))).
Proof.
  intros (P & S). rewrite (uniform_inverse obs 1 P S R1_neq_R0). eexists. split; [reflexivity|]. split; [apply transpose_rotation; auto|]. intros p. unfold to_point. cbn [t_rot t_scale t_pos].
  rewrite <- mapply_add. f_equal. rewrite Rinv_1. vec.
Qed.
(* an instance is drawn, in camera coordinates, at its apparent position relative to the camera *)
Lemma render_position eps e chain mode epoch t obs rt : camera obs -> render_transform eps e chain mode epoch t obs = Ok rt ->
  exists st, apparent_transform eps e chain mode epoch t obs = Ok st /\ t_pos rt = mapply (transpose (t_rot obs)) (vsub (t_pos st) (t_pos obs)).
Proof.
  intros C H. destruct (unit_inverse obs C) as (inv & E & _ & TP). unfold render_transform in H. rewrite E in H. cbn [obind] in H. destruct (apparent_transform eps e chain mode epoch t obs) as [st| |]; cbn [obind] in H; try discriminate.
  exists st. split; auto. rewrite <- TP. unfold t_mul in H. destruct (rot_mul _ _); cbn [obind] in H; try discriminate. injection H as <-. cbn [t_pos]. unfold to_point. rewrite (vmul_comm (t_pos st)). vec.
Qed.
Lemma vlen_scale k v : 0 <= k -> vlen (vscale k v) = k * vlen v.
Proof. intros K. unfold vlen. assert (X : dot (vscale k v) (vscale k v) = k * k * dot v v) by (unfold dot; cbn; ring). rewrite X, sqrt_mult_alt, sqrt_square by nra. auto. Qed.
Lemma normalize_pos k v : 0 < k -> v <> vzero -> normalize (vscale k v) = normalize v.
Proof. intros K V. unfold normalize. rewrite vlen_scale by lra. pose proof (vlen_pos v V). apply v3_eq; cbn; field; lra. Qed.
Lemma normalize_rot m v : is_rotation m -> mapply m (normalize v) = normalize (mapply m v).
Proof. intros H. unfold normalize. rewrite mapply_scale, mapply_len by auto. auto. Qed.
(* With aberration, an object and a star in the same geometric direction u are drawn in the same direction. *)
Theorem C114_aberrated : forall eps e chain epoch t obs geo rt u d star, camera obs -> apparent_transform eps e chain Geometric epoch t obs = Ok geo ->
  vsub (t_pos geo) (t_pos obs) = vscale d u -> dot u u = 1 -> / 10 ^ 8 < d -> render_transform eps e chain Aberrated epoch t obs = Ok rt -> render_star u Aberrated obs = Ok star ->
  normalize (t_pos rt) = star.
Proof.
  intros eps e chain epoch t obs geo rt u d star C G D U HD H S. pose proof C as (P & _). assert (P8 : 0 < / 10 ^ 8) by (apply Rinv_0_lt_compat, pow_lt; lra).
  destruct (render_position _ _ _ _ _ _ _ _ C H) as (st & A & ->).
  assert (L : vlen (vscale d u) = d) by (rewrite vlen_scale by lra; unfold vlen; rewrite U, sqrt_1; ring).
  unfold apparent_transform in A, G. destruct (geometric_state eps e chain epoch t obs true (/ 10 ^ 12)) as [[g dt]| |]; cbn [obind fst] in A, G; try discriminate. injection G as ->. rewrite D, L in A. rewrite (proj2 (Rltb_true _ _) HD) in A.
  replace (vscale (/ d) (vscale d u)) with u in A by (apply v3_eq; cbn; field; lra). unfold render_star in S. destruct (aberrated u (t_vel obs)) as [w| |] eqn:AB; cbn [obind] in A, S; try discriminate. injection A as <-. cbn [set_pos t_pos].
  unfold rot_inverse in S. rewrite set_matrix_id in S by (apply transpose_rotation; auto). cbn [obind] in S. injection S as <-.
  replace (vsub (vadd (t_pos obs) (vscale d w)) (t_pos obs)) with (vscale d w) by vec. rewrite mapply_scale. apply normalize_pos; [lra|]. intros Z.
  assert (W : w = vzero) by (apply (rotation_inj (transpose (t_rot obs))); [apply transpose_rotation; auto|rewrite Z; vec]).
  (* the aberrated direction is never zero: it points towards the velocity at least as much as u does, and is u when the velocity is zero *)
  clear - AB W U. unfold aberrated in AB. set (beta := vscale (/ SPEED_OF_LIGHT) (t_vel obs)) in *. destruct (Rltb (dot beta beta) _) eqn:E; [|discriminate]. rb. injection AB as AB. rewrite W in AB.
  set (g := 1 / sqrt (1 - dot beta beta)) in *. set (k := dot u beta) in *. assert (B : dot beta beta < 1) by lra. pose proof (dot_pos beta) as B0. assert (SQ : 0 < sqrt (1 - dot beta beta)) by (apply sqrt_lt_R0; lra).
  assert (G : 0 < g) by (apply Rdiv_lt_0_compat; lra). assert (K : k * k <= dot beta beta). { pose proof (lagrange u beta) as Q. pose proof (dot_pos (cross u beta)). rewrite U in Q. fold k in Q. lra. } assert (K1 : -1 < k) by nra.
  assert (F : forall x, / (g * (1 + k)) * x = 0 -> x = 0). { intros x Hx. apply Rmult_integral in Hx. destruct Hx as [Hx|]; auto. exfalso. assert (0 < / (g * (1 + k))) by (apply Rinv_0_lt_compat; nra). lra. }
  assert (N : vadd (vadd u beta) (vscale (g / (1 + g) * k) beta) = vzero).
  { apply v3_eq; [apply (f_equal vx) in AB|apply (f_equal vy) in AB|apply (f_equal vz) in AB]; apply F in AB; exact AB. }
  set (h := g / (1 + g)) in *. assert (HH : 0 < h < 1). { unfold h. split; [apply Rdiv_lt_0_compat; lra|]. apply (Rmult_lt_reg_r (1 + g)); [lra|]. unfold Rdiv. rewrite Rmult_assoc, Rinv_l by lra. lra. }
  (* u = -(1 + h k) beta, so 1 = |u|^2 = (1 + h k)^2 b and k = -(1 + h k) b *)
  assert (U1 : u = vscale (- (1 + h * k)) beta). { apply v3_eq; [apply (f_equal vx) in N|apply (f_equal vy) in N|apply (f_equal vz) in N]; cbn in N |- *; lra. }
  assert (A1 : (1 + h * k) * (1 + h * k) * dot beta beta = 1). { transitivity (dot u u); [|exact U]. rewrite U1. clearbody k h. unfold dot; cbn; ring. } assert (A2 : k = - (1 + h * k) * dot beta beta). { unfold k at 1. rewrite U1. clearbody k h. unfold dot; cbn; ring. }
  assert (0 < 1 + h * k) by nra. assert (k <= 0) by nra. nra.
Qed.
(* In the two other modes the object is drawn where it is (or was), but the star is still moved by aberration: they part for every camera that moves across the line of sight. *)
Theorem C114_refuted : forall eps e chain mode epoch t obs st rt u d star, mode <> Aberrated -> camera obs -> apparent_transform eps e chain mode epoch t obs = Ok st ->
  vsub (t_pos st) (t_pos obs) = vscale d u -> dot u u = 1 -> 0 < d -> dot u (t_vel obs) = 0 -> t_vel obs <> vzero -> render_transform eps e chain mode epoch t obs = Ok rt -> render_star u mode obs = Ok star ->
  normalize (t_pos rt) <> star.
Proof.
  intros eps e chain mode epoch t obs st rt u d star M C A D U HD UV V0 H S. pose proof C as (P & _). destruct (render_position _ _ _ _ _ _ _ _ C H) as (st' & A' & ->). rewrite A in A'. injection A' as <-. rewrite D.
  unfold render_star in S. destruct (aberrated u (t_vel obs)) as [w| |] eqn:AB; cbn [obind] in S; try discriminate. unfold rot_inverse in S. rewrite set_matrix_id in S by (apply transpose_rotation; auto). cbn [obind] in S. injection S as <-.
  rewrite <- !normalize_rot by (apply transpose_rotation; auto). intros E. apply rotation_inj in E; [|apply transpose_rotation; auto]. rewrite normalize_pos, (normalize_id u U) in E; auto; [|intros Z; rewrite Z in U; unfold dot in U; cbn in U; lra].
  unfold aberrated in AB. set (beta := vscale (/ SPEED_OF_LIGHT) (t_vel obs)) in *. assert (K : dot u beta = 0) by (unfold beta; rewrite dot_scale, UV; ring). destruct (Rltb (dot beta beta) _) eqn:EB; [|discriminate]. rb. injection AB as AB. rewrite K in AB.
  assert (B0 : 0 < dot beta beta). { destruct (Rtotal_order (dot beta beta) 0) as [L|[L|L]]; auto; [pose proof (dot_pos beta); lra|]. apply dot_zero in L. exfalso. apply V0. pose proof c_pos. apply v3_eq; [apply (f_equal vx) in L|apply (f_equal vy) in L|apply (f_equal vz) in L]; cbn in L |- *; apply Rmult_integral in L; destruct L as [L|]; auto; exfalso; pose proof (Rinv_0_lt_compat _ c_pos); lra. }
  assert (SQ : 0 < sqrt (1 - dot beta beta)) by (apply sqrt_lt_R0; lra). set (g := 1 / sqrt (1 - dot beta beta)) in *. assert (G : 0 < g) by (apply Rdiv_lt_0_compat; lra).
  assert (W : w = vscale (/ g) (vadd u beta)). { rewrite <- AB. replace (g * (1 + 0)) with g by ring. apply v3_eq; cbn [vx vy vz vscale vadd]; ring. }
  assert (N0 : vadd u beta <> vzero). { intros Z. assert (X : dot u (vadd u beta) = 0) by (rewrite Z; unfold dot; cbn; ring). rewrite dot_add, K, U in X. lra. }
  rewrite W, normalize_pos in E by (auto; apply Rinv_0_lt_compat; auto). assert (X : dot beta u = dot beta (normalize (vadd u beta))) by congruence. rewrite (dot_comm beta u), K in X. unfold normalize in X. rewrite dot_scale, dot_add, (dot_comm beta u), K in X.
  pose proof (Rinv_0_lt_compat _ (vlen_pos _ N0)). nra.
Qed.
(* Aberration also changes the distance: for every moving camera there is a direction in which objects are drawn nearer than they are *)
Theorem C114_refuted_distance : forall obs, camera obs -> t_vel obs <> vzero -> dot (vscale (/ SPEED_OF_LIGHT) (t_vel obs)) (vscale (/ SPEED_OF_LIGHT) (t_vel obs)) < 999999 / 1000000 ->
  exists u, dot u u = 1 /\ forall eps e chain epoch t geo rt d, apparent_transform eps e chain Geometric epoch t obs = Ok geo -> vsub (t_pos geo) (t_pos obs) = vscale d u -> / 10 ^ 8 < d ->
    render_transform eps e chain Aberrated epoch t obs = Ok rt -> vlen (t_pos rt) < d.
Proof.
  intros obs C V0 VB. destruct (C53_refuted_unit (t_vel obs) VB V0) as (u & w & U & AB & W & _). exists u. split; auto. intros eps e chain epoch t geo rt d G D HD H. pose proof C as (P & _). assert (P8 : 0 < / 10 ^ 8) by (apply Rinv_0_lt_compat, pow_lt; lra).
  destruct (render_position _ _ _ _ _ _ _ _ C H) as (st & A & ->). assert (L : vlen (vscale d u) = d) by (rewrite vlen_scale by lra; unfold vlen; rewrite U, sqrt_1; ring).
  unfold apparent_transform in A, G. destruct (geometric_state eps e chain epoch t obs true (/ 10 ^ 12)) as [[g dt]| |]; cbn [obind fst] in A, G; try discriminate. injection G as ->. rewrite D, L in A. rewrite (proj2 (Rltb_true _ _) HD) in A.
  replace (vscale (/ d) (vscale d u)) with u in A by (apply v3_eq; cbn; field; lra). rewrite AB in A. cbn [obind] in A. injection A as <-. cbn [set_pos t_pos]. rewrite mapply_len by (apply transpose_rotation; auto).
  replace (vsub (vadd (t_pos obs) (vscale d w)) (t_pos obs)) with (vscale d w) by vec. rewrite vlen_scale by lra. assert (vlen w < 1). { unfold vlen. rewrite <- sqrt_1. apply sqrt_lt_1_alt. split; [apply dot_pos|auto]. } nra.
Qed.
Print Assumptions C114_aberrated.
Print Assumptions C114_refuted.
Print Assumptions C114_refuted_distance.

(** C115 *)
(* the unit vectors at right ascension a and declination d: to the object, to the east, to the north *)
Definition sky (a d : R) : vec3 := V3 (cos d * cos a) (cos d * sin a) (sin d).
Definition east (a d : R) : vec3 := V3 (- sin a) (cos a) 0.
Definition north (a d : R) : vec3 := V3 (- sin d * cos a) (- sin d * sin a) (cos d).
Definition mas : R := PI / 180 / 3600 / 1000. (* a milliarcsecond in radians *)
Lemma sky_unit a d : dot (sky a d) (sky a d) = 1.
Proof. unfold dot, sky; cbn. pose proof (cs a). pose proof (cs d). nra. Qed.
Lemma star_sky ra dec pm_ra pm_dec y : star_direction ra dec pm_ra pm_dec y = sky (ra + pm_ra * MAS_TO_RAD * y / cos (dec + pm_dec * MAS_TO_RAD * y)) (dec + pm_dec * MAS_TO_RAD * y).
Proof. unfold star_direction. cbv zeta. apply normalize_id. apply sky_unit. Qed.
(* a star's direction has length one at all times, is the catalogue position at the catalogue epoch, and leaves it with the catalogue proper motion (pm_ra counts milliarcseconds along the
   parallel, that is times cos(dec)); its declination changes at the constant rate pm_dec for ever *)
Theorem C115 : forall ra dec pm_ra pm_dec, cos dec <> 0 -> let dir := star_direction ra dec pm_ra pm_dec in
  (forall y, vlen (dir y) = 1) /\ dir 0 = sky ra dec /\ vderive dir 0 (vadd (vscale (pm_ra * mas) (east ra dec)) (vscale (pm_dec * mas) (north ra dec))) /\
  forall y, vz (dir y) = sin (dec + pm_dec * mas * y).
Proof.
  intros ra dec pm_ra pm_dec C. cbv zeta. assert (M : MAS_TO_RAD = mas) by (unfold MAS_TO_RAD, mas; field). split; [|split; [|split]].
  - intros y. rewrite star_sky. unfold vlen. rewrite sky_unit. apply sqrt_1.
  - rewrite star_sky. rewrite !Rmult_0_r, Rplus_0_r. unfold Rdiv. rewrite Rmult_0_l, Rplus_0_r. reflexivity.
  - eapply vderive_ext; [intros y; symmetry; apply star_sky|]. rewrite M. split; [|split]; cbn; auto_derive; repeat split; auto; rewrite ?Rmult_0_r, ?Rplus_0_r; auto; unfold Rdiv; rewrite ?Rmult_0_l, ?Rplus_0_r; try field; auto.
  - intros y. rewrite star_sky, M. reflexivity.
Qed.
Print Assumptions C115.
Example C115_case : cos 1 <> 0. Proof. pose proof PI2_1. pose proof (cos_gt_0 1 ltac:(lra) ltac:(lra)). lra. Qed.
