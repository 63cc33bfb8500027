(* C118: the solid angle of a pixel, which scales the power it collects, is the solid angle of its square as seen through the pinhole. *)
From Verif Require Import Common Vec3 DistortionModel FrustumModel CameraModel CameraSpec CameraProofs CameraProps.
From Coquelicot Require Import Coquelicot.
From Coq Require Import Reals Lra ZArith List Lia. 
Open Scope R_scope.

(** Specification *)
(* solid angle per unit area at the point (a, b) of the plane at distance 1: cosine over squared distance *)
Definition plane_density (a b : R) : R := / sqrt (1 + a ^ 2 + b ^ 2) ^ 3.
(* w is the solid angle of the rectangle [a0,a1] x [b0,b1] of that plane *)
Definition rectangle_solid_angle (a0 a1 b0 b1 w : R) : Prop :=
  (forall b, ex_RInt (fun a => plane_density a b) a0 a1) /\ is_RInt (fun b => RInt (fun a => plane_density a b) a0 a1) b0 b1 w.

(** Proofs *)
(* angle between two vectors *)
Definition angle (U V : vec3) : R := acos (dot U V / (vlen U * vlen V)).
Lemma vlen_pos U : U <> vzero -> 0 < vlen U.
Proof. intros H. unfold vlen. apply sqrt_lt_R0. destruct (Rle_lt_or_eq_dec 0 (dot U U)) as [|E]; auto; [unfold dot; nra|]. exfalso. apply H, dot_zero; auto. Qed.
Lemma vlen_sq U : vlen U * vlen U = dot U U.
Proof. unfold vlen. apply sqrt_sqrt. unfold dot. nra. Qed.
Lemma vlen_pscale k U : 0 < k -> vlen (vscale k U) = k * vlen U.
Proof. intros H. unfold vlen. replace (dot (vscale k U) (vscale k U)) with (k * k * dot U U) by (unfold dot, vscale; cbn; ring). rewrite sqrt_mult by (try nra; unfold dot; nra). rewrite sqrt_square by lra. auto. Qed.
Lemma nonzero_scale k U : 0 < k -> U <> vzero -> vscale k U <> vzero.
Proof. intros K N E. apply N. unfold vscale, vzero in *. destruct U as [a b c]; cbn in *. injection E as A B C. apply Rmult_integral in A, B, C. f_equal; intuition lra. Qed.
Lemma angle_scale k l U V : 0 < k -> 0 < l -> U <> vzero -> V <> vzero -> angle (vscale k U) (vscale l V) = angle U V.
Proof.
  intros K L NU NV. unfold angle. f_equal. rewrite !vlen_pscale by auto. replace (dot (vscale k U) (vscale l V)) with (k * l * dot U V) by (unfold dot, vscale; cbn; ring).
  pose proof (vlen_pos U NU). pose proof (vlen_pos V NV). field. repeat split; lra.
Qed.
Lemma normalize_is U : U <> vzero -> normalize U = Some (vscale (/ vlen U) U).
Proof. intros H. unfold normalize. destruct (Req_EM_T (dot U U) 0) as [E|]; auto. apply dot_zero in E. contradiction. Qed.
Lemma corner_angle_is P Q R : cross P Q <> vzero -> cross P R <> vzero -> corner_angle P Q R = Some (angle (cross P Q) (cross P R)).
Proof.
  intros A B. assert (Hp : P <> vzero). { intros ->. apply A. unfold vzero. apply v3_eq; unfold cross; cbn; ring. }
  assert (E : forall X, cross P (vsub X P) = cross P X) by (intros X; apply v3_eq; unfold cross, vsub; cbn; ring).
  unfold corner_angle, tangent. rewrite !E. set (U := cross P Q) in *. set (V := cross P R) in *.
  assert (O1 : dot U P = 0) by (unfold U, dot, cross; cbn; ring). assert (O2 : dot V P = 0) by (unfold V, dot, cross; cbn; ring).
  pose proof (cross_perp_nonzero U P O1 A Hp) as N1. pose proof (cross_perp_nonzero V P O2 B Hp) as N2. rewrite !normalize_is by auto. cbn [obind2]. f_equal. unfold angle. f_equal.
  assert (LP : forall W, dot W P = 0 -> vlen (cross W P) = vlen W * vlen P).
  { intros W OW. unfold vlen. rewrite <- sqrt_mult by (unfold dot; nra). f_equal. transitivity (dot W W * dot P P - dot W P * dot W P); [unfold dot, cross; cbn; ring|rewrite OW; ring]. }
  rewrite !LP by auto. replace (dot (vscale (/ (vlen U * vlen P)) (cross U P)) (vscale (/ (vlen V * vlen P)) (cross V P))) with (/ (vlen U * vlen P) * / (vlen V * vlen P) * dot (cross U P) (cross V P)) by (unfold dot, vscale; cbn; ring).
  replace (dot (cross U P) (cross V P)) with (dot U V * (vlen P * vlen P)) by (rewrite vlen_sq; transitivity (dot U V * dot P P - dot U P * dot V P); [rewrite O1; ring|unfold dot, cross; cbn; ring]).
  pose proof (vlen_pos P Hp). pose proof (vlen_pos U A). pose proof (vlen_pos V B). field. repeat split; lra.
Qed.
Definition vplus (U V : vec3) : vec3 := V3 (vx U + vx V) (vy U + vy V) (vz U + vz V).
Lemma cauchy U V : - (vlen U * vlen V) <= dot U V <= vlen U * vlen V.
Proof.
  assert (S : dot U V * dot U V <= (vlen U * vlen V) * (vlen U * vlen V)).
  { replace (vlen U * vlen V * (vlen U * vlen V)) with (vlen U * vlen U * (vlen V * vlen V)) by ring. rewrite !vlen_sq. assert (0 <= dot (cross U V) (cross U V)) by (unfold dot; nra).
    assert (dot (cross U V) (cross U V) = dot U U * dot V V - dot U V * dot U V) by (unfold dot, cross; cbn; ring). lra. }
  assert (0 <= vlen U * vlen V) by (apply Rmult_le_pos; apply sqrt_pos). split; nra.
Qed.
Lemma cos_angle U V : U <> vzero -> V <> vzero -> cos (angle U V) = dot U V / (vlen U * vlen V).
Proof.
  intros A B. unfold angle. apply cos_acos. pose proof (vlen_pos U A). pose proof (vlen_pos V B). pose proof (cauchy U V). assert (0 < vlen U * vlen V) by (apply Rmult_lt_0_compat; auto).
  split; apply (Rmult_le_reg_r (vlen U * vlen V)); auto; unfold Rdiv; rewrite Rmult_assoc, Rinv_l by lra; lra.
Qed.
Lemma angle_bounds U V : 0 <= angle U V <= PI.
Proof. apply acos_bound. Qed.
Lemma sin_angle U V : U <> vzero -> V <> vzero -> sin (angle U V) = vlen (cross U V) / (vlen U * vlen V).
Proof.
  intros A B. pose proof (vlen_pos U A) as LU. pose proof (vlen_pos V B) as LV. assert (0 < vlen U * vlen V) by (apply Rmult_lt_0_compat; auto).
  assert (S0 : 0 <= sin (angle U V)) by (apply sin_ge_0; apply angle_bounds). assert (T0 : 0 <= vlen (cross U V) / (vlen U * vlen V)) by (apply Rmult_le_pos; [apply sqrt_pos|apply Rlt_le, Rinv_0_lt_compat; auto]).
  apply Rsqr_inj; auto. pose proof (sin2_cos2 (angle U V)) as SC. rewrite cos_angle in SC by auto. unfold Rsqr in *.
  assert (Q : vlen (cross U V) * vlen (cross U V) = (vlen U * vlen U) * (vlen V * vlen V) - dot U V * dot U V) by (rewrite !vlen_sq; unfold dot, cross; cbn; ring).
  replace (vlen (cross U V) / (vlen U * vlen V) * (vlen (cross U V) / (vlen U * vlen V))) with (vlen (cross U V) * vlen (cross U V) / (vlen U * vlen U * (vlen V * vlen V))) by (field; lra). rewrite Q.
  transitivity (1 - dot U V / (vlen U * vlen V) * (dot U V / (vlen U * vlen V))); [lra|]. field. lra.
Qed.
(* the diagonal splits the angle *)
Lemma angle_split U V : cross U V <> vzero -> angle U (vplus U V) + angle (vplus U V) V = angle U V.
Proof.
  intros N. set (W := vplus U V).
  assert (NU : U <> vzero) by (intros ->; apply N; apply v3_eq; unfold cross, vzero; cbn; ring).
  assert (NV : V <> vzero) by (intros ->; apply N; apply v3_eq; unfold cross, vzero; cbn; ring).
  assert (CU : cross U W = cross U V) by (apply v3_eq; unfold W, vplus, cross; cbn; ring).
  assert (CV : cross W V = cross U V) by (apply v3_eq; unfold W, vplus, cross; cbn; ring).
  assert (NW : W <> vzero) by (intros E; rewrite E in CU; apply N; rewrite <- CU; apply v3_eq; unfold cross, vzero; cbn; ring).
  pose proof (vlen_pos U NU) as LU. pose proof (vlen_pos V NV) as LV. pose proof (vlen_pos W NW) as LW. pose proof (vlen_pos _ N) as LG.
  pose proof (cos_angle U W NU NW) as C1. pose proof (cos_angle W V NW NV) as C2. pose proof (sin_angle U W NU NW) as S1. pose proof (sin_angle W V NW NV) as S2. rewrite CU in S1. rewrite CV in S2.
  assert (QG : vlen (cross U V) * vlen (cross U V) = dot U U * dot V V - dot U V * dot U V) by (rewrite vlen_sq; unfold dot, cross; cbn; ring).
  assert (QW : vlen W * vlen W = dot U U + 2 * dot U V + dot V V) by (rewrite vlen_sq; unfold W, vplus, dot; cbn; ring).
  assert (DU : dot U W = dot U U + dot U V) by (unfold W, vplus, dot; cbn; ring). assert (DV : dot W V = dot U V + dot V V) by (unfold W, vplus, dot; cbn; ring).
  pose proof (angle_bounds U W). pose proof (angle_bounds W V). 
  assert (CS : cos (angle U W + angle W V) = dot U V / (vlen U * vlen V)).
  { rewrite cos_plus, C1, C2, S1, S2, DU, DV. replace ((dot U U + dot U V) / (vlen U * vlen W) * ((dot U V + dot V V) / (vlen W * vlen V)) - vlen (cross U V) / (vlen U * vlen W) * (vlen (cross U V) / (vlen W * vlen V)))
      with (((dot U U + dot U V) * (dot U V + dot V V) - vlen (cross U V) * vlen (cross U V)) / (vlen U * vlen V * (vlen W * vlen W))) by (field; lra).
    rewrite QG. replace ((dot U U + dot U V) * (dot U V + dot V V) - (dot U U * dot V V - dot U V * dot U V)) with (dot U V * (dot U U + 2 * dot U V + dot V V)) by ring. rewrite <- QW. field. lra. }
  assert (SN : 0 < sin (angle U W + angle W V)).
  { rewrite sin_plus, C1, C2, S1, S2, DU, DV. replace (vlen (cross U V) / (vlen U * vlen W) * ((dot U V + dot V V) / (vlen W * vlen V)) + (dot U U + dot U V) / (vlen U * vlen W) * (vlen (cross U V) / (vlen W * vlen V)))
      with (vlen (cross U V) * (dot U U + 2 * dot U V + dot V V) / (vlen U * vlen V * (vlen W * vlen W))) by (field; lra).
    rewrite <- QW. apply Rdiv_lt_0_compat; repeat apply Rmult_lt_0_compat; auto. }
  assert (LE : angle U W + angle W V <= PI).
  { destruct (Rle_dec (angle U W + angle W V) PI); auto. exfalso. assert (sin (angle U W + angle W V) <= 0); [|lra]. apply sin_le_0; lra. }
  rewrite <- (acos_cos (angle U W + angle W V)) by lra. unfold angle at 3. f_equal. exact CS.
Qed.
(* the corner term *)
Definition corner (a b : R) : R := atan (a * b / sqrt (1 + a ^ 2 + b ^ 2)).
Lemma sq_pos a b : 0 < 1 + a ^ 2 + b ^ 2.
Proof. nra. Qed.
Lemma acos_corner a b : acos (- (a * b) / (sqrt (1 + b ^ 2) * sqrt (1 + a ^ 2))) = PI / 2 + corner a b.
Proof.
  pose proof (sq_pos a b) as P. assert (S : 0 < sqrt (1 + a ^ 2 + b ^ 2)) by (apply sqrt_lt_R0; auto). assert (Q : sqrt (1 + a ^ 2 + b ^ 2) * sqrt (1 + a ^ 2 + b ^ 2) = 1 + a ^ 2 + b ^ 2) by (apply sqrt_sqrt; lra).
  pose proof (atan_bound (a * b / sqrt (1 + a ^ 2 + b ^ 2))) as B. fold (corner a b) in B. rewrite <- (acos_cos (PI / 2 + corner a b)) by lra. f_equal.
  replace (PI / 2 + corner a b) with (PI / 2 - - corner a b) by ring. rewrite cos_shift, sin_neg. unfold corner. rewrite sin_atan.
  set (s := sqrt (1 + a ^ 2 + b ^ 2)) in *. assert (E : 1 + (a * b / s)² = (1 + b ^ 2) * (1 + a ^ 2) / (s * s)). { unfold Rsqr. replace (a * b / s * (a * b / s)) with (a ^ 2 * b ^ 2 / (s * s)) by (field; lra). replace (1 + a ^ 2 * b ^ 2 / (s * s)) with ((s * s + a ^ 2 * b ^ 2) / (s * s)) by (field; lra). f_equal. rewrite Q. ring. }
  rewrite E. rewrite sqrt_div by nra. rewrite sqrt_square by lra. rewrite sqrt_mult by nra. assert (0 < sqrt (1 + b ^ 2)) by (apply sqrt_lt_R0; nra). assert (0 < sqrt (1 + a ^ 2)) by (apply sqrt_lt_R0; nra).
  field. lra.
Qed.
Lemma acos_corner' a b : acos (a * b / (sqrt (1 + b ^ 2) * sqrt (1 + a ^ 2))) = PI / 2 - corner a b.
Proof.
  pose proof (acos_corner (- a) b) as H. unfold corner in *. replace ((- a) ^ 2) with (a ^ 2) in H by ring. replace (- (- a * b)) with (a * b) in H by ring. rewrite H.
  replace (- a * b / sqrt (1 + a ^ 2 + b ^ 2)) with (- (a * b / sqrt (1 + a ^ 2 + b ^ 2))) by (unfold Rdiv; ring). rewrite atan_opp. ring.
Qed.
(* the four corners of a rectangle of the plane, looking along +z or -z *)
Definition ray_to (b : bool) (x y : R) : vec3 := if b then V3 x (- y) (-1) else V3 x y 1.
Lemma corner_scaled k l m P Q R : 0 < k -> 0 < l -> 0 < m -> cross P Q <> vzero -> cross P R <> vzero ->
  corner_angle (vscale k P) (vscale l Q) (vscale m R) = Some (angle (cross P Q) (cross P R)).
Proof.
  intros K L M A B. assert (E : forall j X, cross (vscale k P) (vscale j X) = vscale (k * j) (cross P X)) by (intros; apply v3_eq; unfold cross, vscale; cbn; ring).
  assert (0 < k * l) by nra. assert (0 < k * m) by nra. rewrite corner_angle_is by (rewrite E; apply nonzero_scale; auto). rewrite !E, angle_scale by auto. reflexivity.
Qed.
Lemma angle_sym U V : angle U V = angle V U.
Proof. unfold angle. f_equal. rewrite (Rmult_comm (vlen U)). f_equal. unfold dot; ring. Qed.
(* edges of constant y and of constant x *)
Definition h_edge (b : bool) (y : R) : vec3 := if b then V3 0 (-1) y else V3 0 1 (- y).
Definition v_edge (b : bool) (x : R) : vec3 := if b then V3 (-1) 0 (- x) else V3 (-1) 0 x.
Lemma h_nonzero b y : h_edge b y <> vzero.
Proof. unfold h_edge, vzero. destruct b; intros E; injection E; lra. Qed.
Lemma v_nonzero b x : v_edge b x <> vzero.
Proof. unfold v_edge, vzero. destruct b; intros E; injection E; lra. Qed.
Lemma h_len b y : vlen (h_edge b y) = sqrt (1 + y ^ 2).
Proof. unfold vlen. f_equal. unfold h_edge, dot; destruct b; cbn; ring. Qed.
Lemma v_len b x : vlen (v_edge b x) = sqrt (1 + x ^ 2).
Proof. unfold vlen. f_equal. unfold v_edge, dot; destruct b; cbn; ring. Qed.
Lemma hv_dot b x y : dot (h_edge b y) (v_edge b x) = - (x * y).
Proof. unfold h_edge, v_edge, dot; destruct b; cbn; ring. Qed.
Lemma hv_angle b x y : angle (h_edge b y) (v_edge b x) = PI / 2 + corner x y.
Proof. unfold angle. rewrite hv_dot, h_len, v_len. apply acos_corner. Qed.
Lemma hv_angle' b x y : angle (vscale (-1) (h_edge b y)) (v_edge b x) = PI / 2 - corner x y.
Proof.
  unfold angle. replace (dot (vscale (-1) (h_edge b y)) (v_edge b x)) with (x * y) by (unfold h_edge, v_edge, vscale, dot; destruct b; cbn; ring).
  replace (vlen (vscale (-1) (h_edge b y))) with (sqrt (1 + y ^ 2)) by (unfold vlen; f_equal; unfold h_edge, vscale, dot; destruct b; cbn; ring). rewrite v_len. apply acos_corner'.
Qed.
Lemma angle_flip U V : angle (vscale (-1) U) (vscale (-1) V) = angle U V.
Proof. unfold angle. f_equal. assert (L : forall X, vlen (vscale (-1) X) = vlen X) by (intros; unfold vlen; f_equal; unfold dot, vscale; cbn; ring). rewrite !L. f_equal. unfold dot, vscale; cbn; ring. Qed.
Section Quad.
Variables (b : bool) (x0 x1 y0 y1 : R).
Hypothesis (X : x0 < x1) (Y : y0 < y1).
Let c0 := ray_to b x0 y0. Let c1 := ray_to b x1 y0. Let c2 := ray_to b x1 y1. Let c3 := ray_to b x0 y1.
Ltac geo := unfold c0, c1, c2, c3, ray_to, h_edge, v_edge, vplus; destruct b; apply v3_eq; unfold cross, vscale; cbn; ring.
Lemma x01 : cross c0 c1 = vscale (x1 - x0) (h_edge b y0). Proof. geo. Qed.
Lemma x03 : cross c0 c3 = vscale (y1 - y0) (v_edge b x0). Proof. geo. Qed.
Lemma x02 : cross c0 c2 = vplus (cross c0 c1) (cross c0 c3). Proof. geo. Qed.
Lemma x10 : cross c1 c0 = vscale (x1 - x0) (vscale (-1) (h_edge b y0)). Proof. geo. Qed.
Lemma x12 : cross c1 c2 = vscale (y1 - y0) (v_edge b x1). Proof. geo. Qed.
Lemma x21 : cross c2 c1 = vscale (y1 - y0) (vscale (-1) (v_edge b x1)). Proof. geo. Qed.
Lemma x23 : cross c2 c3 = vscale (x1 - x0) (vscale (-1) (h_edge b y1)). Proof. geo. Qed.
Lemma x20 : cross c2 c0 = vplus (cross c2 c1) (cross c2 c3). Proof. geo. Qed.
Lemma x30 : cross c3 c0 = vscale (y1 - y0) (vscale (-1) (v_edge b x0)). Proof. geo. Qed.
Lemma x32 : cross c3 c2 = vscale (x1 - x0) (h_edge b y1). Proof. geo. Qed.
Lemma neg_nonzero U : U <> vzero -> vscale (-1) U <> vzero.
Proof. intros N E. apply N. destruct U as [p q r]; unfold vscale, vzero in *; cbn in *. injection E as A B C. f_equal; lra. Qed.
Lemma cross_nonzero_split U V : cross U V <> vzero -> vplus U V <> vzero.
Proof. intros N E. apply N. assert (C : cross U V = cross U (vplus U V)) by (apply v3_eq; unfold vplus, cross; cbn; ring). rewrite C, E. apply v3_eq; unfold cross, vzero; cbn; ring. Qed.
Lemma diag0 : cross (cross c0 c1) (cross c0 c3) <> vzero.
Proof.
  replace (cross (cross c0 c1) (cross c0 c3)) with (vscale ((x1 - x0) * (y1 - y0)) c0) by (unfold c0, c1, c3, ray_to; destruct b; apply v3_eq; unfold cross, vscale; cbn; ring).
  apply nonzero_scale; [apply Rmult_lt_0_compat; lra|]. unfold c0, ray_to, vzero. destruct b; intros E; injection E; lra.
Qed.
Lemma diag2 : cross (cross c2 c1) (cross c2 c3) <> vzero.
Proof.
  replace (cross (cross c2 c1) (cross c2 c3)) with (vscale (-1) (vscale ((x1 - x0) * (y1 - y0)) c2)) by (unfold c1, c2, c3, ray_to; destruct b; apply v3_eq; unfold cross, vscale; cbn; ring).
  apply neg_nonzero, nonzero_scale; [apply Rmult_lt_0_compat; lra|]. unfold c2, ray_to, vzero. destruct b; intros E; injection E; lra.
Qed.
Lemma quad_angle k0 k1 k2 k3 : 0 < k0 -> 0 < k1 -> 0 < k2 -> 0 < k3 ->
  obind2 Rplus (triangle_solid_angle (vscale k0 c0) (vscale k1 c1) (vscale k2 c2)) (triangle_solid_angle (vscale k0 c0) (vscale k2 c2) (vscale k3 c3)) =
  Some (corner x1 y1 - corner x0 y1 - corner x1 y0 + corner x0 y0).
Proof.
  intros K0 K1 K2 K3. assert (DX : 0 < x1 - x0) by lra. assert (DY : 0 < y1 - y0) by lra.
  assert (N01 : cross c0 c1 <> vzero) by (rewrite x01; apply nonzero_scale; auto using h_nonzero). assert (N03 : cross c0 c3 <> vzero) by (rewrite x03; apply nonzero_scale; auto using v_nonzero).
  assert (N10 : cross c1 c0 <> vzero) by (rewrite x10; apply nonzero_scale; auto using h_nonzero, neg_nonzero). assert (N12 : cross c1 c2 <> vzero) by (rewrite x12; apply nonzero_scale; auto using v_nonzero).
  assert (N21 : cross c2 c1 <> vzero) by (rewrite x21; apply nonzero_scale; auto using v_nonzero, neg_nonzero). assert (N23 : cross c2 c3 <> vzero) by (rewrite x23; apply nonzero_scale; auto using h_nonzero, neg_nonzero).
  assert (N30 : cross c3 c0 <> vzero) by (rewrite x30; apply nonzero_scale; auto using v_nonzero, neg_nonzero). assert (N32 : cross c3 c2 <> vzero) by (rewrite x32; apply nonzero_scale; auto using h_nonzero).
  assert (N02 : cross c0 c2 <> vzero) by (rewrite x02; apply cross_nonzero_split, diag0). assert (N20 : cross c2 c0 <> vzero) by (rewrite x20; apply cross_nonzero_split, diag2).
  unfold triangle_solid_angle. rewrite !corner_scaled by auto. cbn [obind2]. f_equal.
  pose proof (angle_split _ _ diag0) as A0. rewrite <- x02 in A0. pose proof (angle_split _ _ diag2) as A2. rewrite <- x20 in A2.
  assert (B0 : angle (cross c0 c1) (cross c0 c3) = PI / 2 + corner x0 y0) by (rewrite x01, x03, angle_scale by auto using h_nonzero, v_nonzero; apply hv_angle).
  assert (B1 : angle (cross c1 c0) (cross c1 c2) = PI / 2 - corner x1 y0) by (rewrite x10, x12, angle_scale by auto using h_nonzero, v_nonzero, neg_nonzero; apply hv_angle').
  assert (B2 : angle (cross c2 c1) (cross c2 c3) = PI / 2 + corner x1 y1) by (rewrite x21, x23, angle_scale by auto using h_nonzero, v_nonzero, neg_nonzero; rewrite angle_flip, angle_sym; apply hv_angle).
  assert (B3 : angle (cross c3 c0) (cross c3 c2) = PI / 2 - corner x0 y1). { rewrite x30, x32, angle_scale by auto using h_nonzero, v_nonzero, neg_nonzero. rewrite angle_sym, <- angle_flip. replace (vscale (-1) (vscale (-1) (v_edge b x0))) with (v_edge b x0) by (apply v3_eq; unfold vscale; cbn; ring). apply hv_angle'. }
  rewrite (angle_sym (cross c2 c0) (cross c2 c1)). lra.
Qed.
End Quad.
(* the corner terms are the integral *)
Lemma inner_integral b a0 a1 : is_RInt (fun a => plane_density a b) a0 a1 (a1 / ((1 + b ^ 2) * sqrt (1 + a1 ^ 2 + b ^ 2)) - a0 / ((1 + b ^ 2) * sqrt (1 + a0 ^ 2 + b ^ 2))).
Proof.
  set (F := fun a => a / ((1 + b ^ 2) * sqrt (1 + a ^ 2 + b ^ 2))). change (is_RInt (fun a => plane_density a b) a0 a1 (minus (F a1) (F a0))).
  assert (DD : forall a, ex_derive (fun a => plane_density a b) a).
  { intros a. unfold plane_density. pose proof (sq_pos a b) as P. assert (S : 0 < sqrt (1 + a ^ 2 + b ^ 2)) by (apply sqrt_lt_R0; auto). auto_derive. split; [exact P|]. split; [|auto]. apply Rgt_not_eq. repeat apply Rmult_lt_0_compat; try lra; exact S. }
  apply (is_RInt_derive F); intros a _; [|apply (ex_derive_continuous (fun a => plane_density a b)); apply DD].
  unfold F, plane_density. pose proof (sq_pos a b) as P. assert (S : 0 < sqrt (1 + a ^ 2 + b ^ 2)) by (apply sqrt_lt_R0; auto). assert (0 < 1 + b ^ 2) by nra.
  auto_derive; [split; [exact P|]; split; [apply Rgt_not_eq, Rmult_lt_0_compat; [lra|exact S]|auto]|].
  replace (a * (a * 1)) with (a ^ 2) by ring. replace (b * (b * 1)) with (b ^ 2) by ring. replace (a * 1) with a by ring.
  set (s := sqrt (1 + a ^ 2 + b ^ 2)) in *. assert (Q : s * s = 1 + a ^ 2 + b ^ 2) by (apply sqrt_sqrt; lra). clearbody s.
  assert (E : b ^ 2 = s * s - 1 - a ^ 2) by lra. rewrite E in *. field. lra.
Qed.
Lemma corner_derive a b : is_derive (fun y => corner a y) b (a / ((1 + b ^ 2) * sqrt (1 + a ^ 2 + b ^ 2))).
Proof.
  unfold corner. pose proof (sq_pos a b) as P. assert (S : 0 < sqrt (1 + a ^ 2 + b ^ 2)) by (apply sqrt_lt_R0; auto). assert (0 < 1 + b ^ 2) by nra.
  auto_derive; [split; [exact P|]; split; [apply Rgt_not_eq; exact S|auto]|].
  replace (a * (a * 1)) with (a ^ 2) by ring. replace (b * (b * 1)) with (b ^ 2) by ring. unfold Rsqr.
  set (s := sqrt (1 + a ^ 2 + b ^ 2)) in *. assert (Q : s * s = 1 + a ^ 2 + b ^ 2) by (apply sqrt_sqrt; lra). clearbody s.
  assert (0 < s * s + (a * b) * (a * b)) by nra. transitivity (a * (s * s - b ^ 2) / (s * (s * s + a ^ 2 * b ^ 2))).
  - field. split; [nra|lra].
  - replace (s * s - b ^ 2) with (1 + a ^ 2) by lra. replace (s * s + a ^ 2 * b ^ 2) with ((1 + a ^ 2) * (1 + b ^ 2)) by (rewrite Q; ring). field. repeat split; nra.
Qed.
Lemma edge_continuous a b : continuous (fun y => a / ((1 + y ^ 2) * sqrt (1 + a ^ 2 + y ^ 2))) b.
Proof.
  apply (ex_derive_continuous (fun y => a / ((1 + y ^ 2) * sqrt (1 + a ^ 2 + y ^ 2)))). pose proof (sq_pos a b) as P. assert (S : 0 < sqrt (1 + a ^ 2 + b ^ 2)) by (apply sqrt_lt_R0; auto). assert (0 < 1 + b ^ 2) by nra.
  auto_derive. split; [exact P|]. split; [apply Rgt_not_eq, Rmult_lt_0_compat; [lra|exact S]|auto].
Qed.
Lemma rectangle_is a0 a1 b0 b1 : rectangle_solid_angle a0 a1 b0 b1 (corner a1 b1 - corner a0 b1 - corner a1 b0 + corner a0 b0).
Proof.
  split; [intros b; eexists; apply inner_integral|].
  apply (is_RInt_ext (fun b => a1 / ((1 + b ^ 2) * sqrt (1 + a1 ^ 2 + b ^ 2)) - a0 / ((1 + b ^ 2) * sqrt (1 + a0 ^ 2 + b ^ 2)))); [intros b _; symmetry; apply is_RInt_unique, inner_integral|].
  replace (corner a1 b1 - corner a0 b1 - corner a1 b0 + corner a0 b0) with (minus ((corner a1 b1) - corner a0 b1) (corner a1 b0 - corner a0 b0)) by (unfold minus, plus, opp; cbn; ring).
  apply (is_RInt_derive (fun b => corner a1 b - corner a0 b)); intros b _.
  - apply (is_derive_minus (V:=R_NormedModule) (corner a1) (corner a0)); apply corner_derive.
  - apply (continuous_minus (V:=R_NormedModule)); apply edge_continuous.
Qed.
Lemma rectangle_unique a0 a1 b0 b1 w : rectangle_solid_angle a0 a1 b0 b1 w -> w = corner a1 b1 - corner a0 b1 - corner a1 b0 + corner a0 b0.
Proof. intros (_ & H). destruct (rectangle_is a0 a1 b0 b1) as (_ & K). apply is_RInt_unique in H, K. congruence. Qed.
Lemma rectangle_pos a0 a1 b0 b1 w : a0 < a1 -> b0 < b1 -> rectangle_solid_angle a0 a1 b0 b1 w -> 0 < w.
Proof.
  intros A B (E & H). apply is_RInt_unique in H as W. subst w. apply RInt_gt_0; auto.
  - intros b Hb. apply RInt_gt_0; auto; intros a Ha; [apply Rinv_0_lt_compat, pow_lt, sqrt_lt_R0, sq_pos|].
    apply (ex_derive_continuous (fun a => plane_density a b)). unfold plane_density. pose proof (sq_pos a b) as P. assert (S : 0 < sqrt (1 + a ^ 2 + b ^ 2)) by (apply sqrt_lt_R0; auto). auto_derive. split; [exact P|]. split; [|auto]. apply Rgt_not_eq. repeat apply Rmult_lt_0_compat; try lra; exact S.
  - intros b Hb. apply (continuous_ext (fun b => a1 / ((1 + b ^ 2) * sqrt (1 + a1 ^ 2 + b ^ 2)) - a0 / ((1 + b ^ 2) * sqrt (1 + a0 ^ 2 + b ^ 2)))); [intros y; symmetry; apply is_RInt_unique, inner_integral|].
    apply (continuous_minus (V:=R_NormedModule)); apply edge_continuous.
Qed.
(* the sum of a map over the pixels of a w x h image *)
Fixpoint upto (n : nat) (f : Z -> R) : R := match n with O => 0 | S k => upto k f + f (Z.of_nat k) end.
Definition value (a : option R) : R := match a with Some w => w | None => 0 end.
Lemma upto_ext n f g : (forall z, f z = g z) -> upto n f = upto n g.
Proof. intros H. induction n; cbn; rewrite ?IHn, ?H; auto. Qed.
Lemma upto_tel n F : upto n (fun z => F (z + 1)%Z - F z) = F (Z.of_nat n) - F 0%Z.
Proof. induction n as [|n IH]; cbn [upto]; [change (Z.of_nat 0) with 0%Z; ring|]. rewrite IH. replace (Z.of_nat (S n)) with (Z.of_nat n + 1)%Z by lia. ring. Qed.
Section Camera.
Variables (c : camera) (f g u v : R).
Hypothesis (Ef : fx c = Fin f) (Eg : fy c = Fin g) (Eu : cx c = Fin u) (Ev : cy c = Fin v) (Hf : 0 < f) (Hg : 0 < g) (Hd : CameraModel.dist c = None) (Hs : solid c = solid_of c).
(* every pixel of the map is the solid angle of the square between its corners, and positive *)
Theorem C118_pixel : forall x y, exists w, ipix (solid c) x y = Some w /\ 0 < w /\
  rectangle_solid_angle ((IZR x - u) / f) ((IZR (x + 1) - u) / f) ((IZR y - v) / g) ((IZR (y + 1) - v) / g) w.
Proof.
  intros x y. assert (X : (IZR x - u) / f < (IZR (x + 1) - u) / f) by (apply Rmult_lt_compat_r; [apply Rinv_0_lt_compat; auto|rewrite plus_IZR; lra]). assert (Y : (IZR y - v) / g < (IZR (y + 1) - v) / g) by (apply Rmult_lt_compat_r; [apply Rinv_0_lt_compat; auto|rewrite plus_IZR; lra]).
  exists (corner ((IZR (x + 1) - u) / f) ((IZR (y + 1) - v) / g) - corner ((IZR x - u) / f) ((IZR (y + 1) - v) / g) - corner ((IZR (x + 1) - u) / f) ((IZR y - v) / g) + corner ((IZR x - u) / f) ((IZR y - v) / g)).
  split; [|split; [eapply rectangle_pos; [exact X|exact Y|apply rectangle_is]|apply rectangle_is]].
  rewrite Hs. unfold solid_of. cbn [ipix]. unfold pixel_solid_angle.
  assert (D : forall i j, exists k, 0 < k /\ onorm (pix_dir c (zpix i j)) = Some (vscale k (ray_to (blender c) ((IZR i - u) / f) ((IZR j - v) / g)))).
  { intros i j. destruct (onorm_dir c f g u v (zpix i j) Ef Eg Eu Ev) as (k & K & E); try lra; auto; exists k; split; auto. }
  destruct (D x y) as (k0 & K0 & ->). destruct (D (x + 1)%Z y) as (k1 & K1 & ->). destruct (D (x + 1)%Z (y + 1)%Z) as (k2 & K2 & ->). destruct (D x (y + 1)%Z) as (k3 & K3 & ->).
  apply quad_angle; auto.
Qed.
(* the pixels add up to the solid angle of the whole image, which is less than a hemisphere *)
Theorem C118_image : forall W H : nat, let all := upto H (fun y => upto W (fun x => value (ipix (solid c) x y))) in
  rectangle_solid_angle ((0 - u) / f) ((INR W - u) / f) ((0 - v) / g) ((INR H - v) / g) all /\ all < 2 * PI.
Proof.
  intros W H. cbv zeta. set (K := fun x y => corner ((IZR x - u) / f) ((IZR y - v) / g)).
  assert (E : forall x y, value (ipix (solid c) x y) = (K (x + 1)%Z (y + 1)%Z - K (x + 1)%Z y) - (K x (y + 1)%Z - K x y)).
  { intros x y. destruct (C118_pixel x y) as (w & -> & _ & Q). cbn [value]. apply rectangle_unique in Q. unfold K. lra. }
  assert (T : upto H (fun y => upto W (fun x => value (ipix (solid c) x y))) = (K (Z.of_nat W) (Z.of_nat H) - K 0%Z (Z.of_nat H)) - (K (Z.of_nat W) 0%Z - K 0%Z 0%Z)).
  { rewrite (upto_ext _ _ (fun y => (K (Z.of_nat W) (y + 1)%Z - K 0%Z (y + 1)%Z) - (K (Z.of_nat W) y - K 0%Z y))).
    - rewrite (upto_tel H (fun y => K (Z.of_nat W) y - K 0%Z y)). reflexivity.
    - intros y. rewrite (upto_ext _ _ (fun x => (K (x + 1)%Z (y + 1)%Z - K (x + 1)%Z y) - (K x (y + 1)%Z - K x y))) by (intros; apply E). rewrite (upto_tel W (fun x => K x (y + 1)%Z - K x y)). ring. }
  rewrite T. unfold K. rewrite <- !INR_IZR_INZ. split.
  - replace (_ - _ - _) with (corner ((INR W - u) / f) ((INR H - v) / g) - corner ((0 - u) / f) ((INR H - v) / g) - corner ((INR W - u) / f) ((0 - v) / g) + corner ((0 - u) / f) ((0 - v) / g)) by ring. apply rectangle_is.
  - unfold corner. repeat match goal with |- context [atan ?t] => pose proof (atan_bound t); generalize dependent (atan t); intros end. lra.
Qed.
End Camera.
Print Assumptions C118_pixel.
Print Assumptions C118_image.
(* a camera as set up by set_intrinsics *)
Example C118_case : let c := small_camera in fx c = Fin 2 /\ fy c = Fin 2 /\ cx c = Fin 2 /\ cy c = Fin 2 /\ CameraModel.dist c = None /\ solid c = solid_of c.
Proof. destruct small_camera_ok as (OK & A & B & C & D & E & _). cbv zeta.
  destruct (plain_history any_sample (SetIntrinsics (Fin 2) (Fin 2) (Fin 2) (Fin 2) 4 4 (Fin 1) :: nil) (camera0 any_sample)) as ((_ & _ & _ & _ & S) & _); [apply camera0_fresh|reflexivity|repeat constructor|split; [exact OK|exact I]|].
  split; [exact A|split; [exact B|split; [exact C|split; [exact D|split; [exact E|exact S]]]]].
Qed.
(* the square [-1,1] x [-1,1] at distance 1 is a face of the cube: a sixth of the sphere *)
Example C118_cube : rectangle_solid_angle (-1) 1 (-1) 1 (4 * PI / 6).
Proof.
  assert (T : corner 1 1 = PI / 6 /\ corner (-1) 1 = - (PI / 6) /\ corner 1 (-1) = - (PI / 6) /\ corner (-1) (-1) = PI / 6).
  { assert (E : atan (1 / sqrt 3) = PI / 6) by (rewrite <- tan_PI6; apply atan_tan; pose proof PI_RGT_0; lra). unfold corner. replace (1 + 1 ^ 2 + 1 ^ 2) with 3 by ring. replace (1 + (-1) ^ 2 + 1 ^ 2) with 3 by ring. replace (1 + 1 ^ 2 + (-1) ^ 2) with 3 by ring. replace (1 + (-1) ^ 2 + (-1) ^ 2) with 3 by ring.
    replace (1 * 1 / sqrt 3) with (1 / sqrt 3) by (unfold Rdiv; ring). replace (-1 * 1 / sqrt 3) with (- (1 / sqrt 3)) by (unfold Rdiv; ring). replace (1 * -1 / sqrt 3) with (- (1 / sqrt 3)) by (unfold Rdiv; ring). replace (-1 * -1 / sqrt 3) with (1 / sqrt 3) by (unfold Rdiv; ring). rewrite atan_opp, E. auto. }
  destruct T as (A & B & C & D). pose proof (rectangle_is (-1) 1 (-1) 1) as H. rewrite A, B, C, D in H. replace (4 * PI / 6) with (PI / 6 - - (PI / 6) - - (PI / 6) + PI / 6) by field. exact H.
Qed.
