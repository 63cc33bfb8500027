(* C122: the background image surrounds the scene as an equirectangular panorama. *)
From Verif Require Import Common Vec3 TransformModel ImageModel ImageSpec ImageProofs ImageProps SurfaceModel SurfaceProofs EnvModel.
Open Scope R_scope.

(** Specification *)
(* the direction with longitude lon (from +x towards +z) and latitude lat (from the xz plane towards +y), times any length k *)
Definition looking (k lon lat : R) : vec3 := vscale k (V3 (cos lat * cos lon) (sin lat) (cos lat * sin lon)).
(* s is the image at the real position (x, y), by bilinear interpolation between the four pixels around it *)
Definition interpolated (im : img R) (x y s : R) : Prop := exists x0 y0 a b c d, IZR x0 <= x < IZR x0 + 1 /\ IZR y0 <= y < IZR y0 + 1 /\
  pix im x0 y0 = Ok a /\ pix im (x0 + 1) y0 = Ok b /\ pix im x0 (y0 + 1) = Ok c /\ pix im (x0 + 1) (y0 + 1) = Ok d /\
  let fx := x - IZR x0 in let fy := y - IZR y0 in s = (1 - fy) * ((1 - fx) * a + fx * b) + fy * ((1 - fx) * c + fx * d).
(* longitude -180..180 degrees spans the columns left to right, latitude 90..-90 degrees the rows top to bottom *)
Definition column (w : Z) (lon : R) : R := (lon + PI) / (2 * PI) * IZR (w - 1).
Definition row (h : Z) (lat : R) : R := (PI / 2 - lat) / PI * IZR (h - 1).

(** Proofs *)
Lemma looking_normal k lon lat : 0 < k -> normalize (looking k lon lat) = V3 (cos lat * cos lon) (sin lat) (cos lat * sin lon).
Proof.
  intros K. assert (L : vlen (looking k lon lat) = k).
  { unfold vlen. replace (dot (looking k lon lat) (looking k lon lat)) with (Rsqr k); [rewrite sqrt_Rsqr; lra|]. unfold looking, dot, vscale, Rsqr; cbn. pose proof (sin2_cos2 lon). pose proof (sin2_cos2 lat). unfold Rsqr in *.
    transitivity (k * k * (cos lat * cos lat * (sin lon * sin lon + cos lon * cos lon) + sin lat * sin lat)); [|ring]. rewrite H. replace (cos lat * cos lat * 1 + sin lat * sin lat) with 1 by lra. ring. }
  unfold normalize. rewrite L. unfold looking, vscale; cbn. apply v3_eq; cbn; field; lra.
Qed.
Lemma angle_unique a b : cos a = cos b -> sin a = sin b -> Rabs (a - b) < 2 * PI -> a = b.
Proof.
  intros C S B. assert (E : cos (a - b) = 1). { rewrite cos_minus, C, S. pose proof (sin2_cos2 b). unfold Rsqr in *. lra. }
  assert (H : sin ((a - b) / 2) = 0). { replace (a - b) with (2 * ((a - b) / 2)) in E by field. rewrite cos_2a_sin in E. nra. }
  assert (B2 : - PI < (a - b) / 2 < PI) by (apply Rabs_def2 in B; lra). destruct (Req_dec (a - b) 0) as [|N]; [lra|]. exfalso.
  destruct (Rlt_dec 0 ((a - b) / 2)) as [P|P]; [pose proof (sin_gt_0 _ P (proj2 B2)); lra|]. assert (Q : 0 < - ((a - b) / 2)) by lra.
  pose proof (sin_gt_0 _ Q ltac:(lra)) as G. rewrite sin_neg in G. lra.
Qed.
Lemma atan2_polar r t : 0 < r -> - PI < t < PI -> atan2 (r * sin t) (r * cos t) = t.
Proof.
  intros R0 T. assert (N : r * cos t <> 0 \/ r * sin t <> 0). { destruct (Req_dec (cos t) 0) as [E|E]; [right|left]; apply Rmult_integral_contrapositive; split; try lra. intros S. pose proof (sin2_cos2 t). unfold Rsqr in *. rewrite E, S in H. lra. }
  destruct (atan2_cs _ _ N) as (C & S). assert (Q : sqrt (r * cos t * (r * cos t) + r * sin t * (r * sin t)) = r). { replace (r * cos t * (r * cos t) + r * sin t * (r * sin t)) with (Rsqr r); [apply sqrt_Rsqr; lra|]. pose proof (sin2_cos2 t). unfold Rsqr in *. transitivity (r * r * (sin t * sin t + cos t * cos t)); [rewrite H; ring|ring]. }
  rewrite Q in *. apply angle_unique; [rewrite C; field; lra|rewrite S; field; lra|]. pose proof (atan2_range (r * cos t) (r * sin t)). apply Rabs_def1; lra.
Qed.
Lemma clamp11_sin x : clamp11 (sin x) = sin x.
Proof. pose proof (SIN_bound x). unfold clamp11. destruct (Rltb (sin x) (-1)) eqn:E; rb; [lra|]. destruct (Rltb 1 (sin x)) eqn:F; rb; lra. Qed.
Lemma env_v_looking k lon lat : 0 < k -> - (PI / 2) <= lat <= PI / 2 -> env_v (looking k lon lat) = (PI / 2 - lat) / PI.
Proof. intros K L. unfold env_v. rewrite looking_normal by auto. cbn [vy]. rewrite clamp11_sin, asin_sin by auto. pose proof PI_RGT_0. field. lra. Qed.
Lemma env_u_looking k lon lat : 0 < k -> - PI < lon < PI -> - (PI / 2) < lat < PI / 2 -> env_u (looking k lon lat) = (lon + PI) / (2 * PI).
Proof. intros K O L. unfold env_u. rewrite looking_normal by auto. cbn [vx vz]. rewrite atan2_polar; auto; [pose proof PI_RGT_0; field; lra|apply cos_gt_0; lra]. Qed.
Lemma unit_ratio a b : 0 < b -> 0 <= a < b -> 0 <= a / b < 1.
Proof. intros B A. split; [apply Rmult_le_pos; [lra|left; apply Rinv_0_lt_compat; lra]|]. apply (Rmult_lt_reg_r b); auto. unfold Rdiv. rewrite Rmult_assoc, Rinv_l by lra. lra. Qed.
Lemma bilinear_inside (im : img R) u v : valid im -> (2 <= im_w im)%Z -> (2 <= im_h im)%Z -> 0 <= u < 1 -> 0 <= v < 1 ->
  exists s, sample_bilinear exact Repeat im u v = Ok s /\ interpolated im (u * IZR (im_w im - 1)) (v * IZR (im_h im - 1)) s.
Proof.
  intros V W H U V'. set (px := u * IZR (im_w im - 1)). set (py := v * IZR (im_h im - 1)).
  assert (W1 : 1 <= IZR (im_w im - 1)) by (apply (IZR_le 1); lia). assert (H1 : 1 <= IZR (im_h im - 1)) by (apply (IZR_le 1); lia).
  assert (PX : 0 <= px < IZR (im_w im - 1)) by (unfold px; nra). assert (PY : 0 <= py < IZR (im_h im - 1)) by (unfold py; nra).
  pose proof (flr_spec px) as FX. pose proof (flr_spec py) as FY. pose proof (flr_nonneg px ltac:(lra)) as NX. pose proof (flr_nonneg py ltac:(lra)) as NY.
  assert (LX : (flr px < im_w im - 1)%Z) by (apply lt_IZR; lra). assert (LY : (flr py < im_h im - 1)%Z) by (apply lt_IZR; lra).
  set (x0 := flr px) in *. set (y0 := flr py) in *. pose proof V as (_ & _ & LEN & SM).
  destruct (pix_ok im x0 y0 V) as (a & _ & PA); [split; lia|]. destruct (pix_ok im (x0 + 1) y0 V) as (b & _ & PB); [split; lia|].
  destruct (pix_ok im x0 (y0 + 1) V) as (c & _ & PC); [split; lia|]. destruct (pix_ok im (x0 + 1) (y0 + 1) V) as (d & _ & PD); [split; lia|].
  exists (blend exact (px - IZR x0) (py - IZR y0) a b c d). split.
  - unfold sample_bilinear. destruct (im_data im) as [|p l] eqn:D; [cbn in LEN; nia|]. unfold bilinear_taps. rewrite (wrap_unit Repeat u) by lra. rewrite (wrap_unit Repeat v) by lra. cbn [obind].
    change (texel exact u (im_w im)) with px. change (texel exact v (im_h im)) with py. rewrite !truncz_pos by lra. fold x0 y0. rewrite !cast_ok by nia. cbn [obind].
    rewrite !Z.min_l by lia. rewrite PA, PB, PC, PD. cbn [obind]. reflexivity.
  - exists x0, y0, a, b, c, d. repeat split; auto; try lra. unfold blend, exact. ring.
Qed.
(* every direction that is neither a pole nor on the seam shows the panorama at its longitude and latitude *)
Theorem C122_panorama_partial : forall im k lon lat, valid im -> (2 <= im_w im)%Z -> (2 <= im_h im)%Z -> 0 < k -> - PI < lon < PI -> - (PI / 2) < lat < PI / 2 ->
  exists s, env_radiance im (looking k lon lat) = Ok s /\ interpolated im (column (im_w im) lon) (row (im_h im) lat) s.
Proof.
  intros im k lon lat V W H K O L. pose proof PI_RGT_0. unfold env_radiance, column, row. rewrite env_u_looking, env_v_looking by (auto; lra). apply bilinear_inside; auto; apply unit_ratio; lra.
Qed.
(* no direction falls outside the image: whatever the direction, the radiance lies between those of the image *)
Theorem C122_bounds : forall im dir lo hi, valid im -> im_data im <> [] -> (im_w im <= 2 ^ 24 + 1)%Z -> (im_h im <= 2 ^ 24 + 1)%Z -> Forall (fun p => lo <= p <= hi) (im_data im) ->
  exists s, env_radiance im dir = Ok s /\ lo <= s <= hi.
Proof. intros im dir lo hi V NE W H F. apply C41_bilinear_between; auto; exact I. Qed.
(* a uniform background is uniform *)
Theorem C122_uniform : forall value dir, exists im, uniform_background value = Ok im /\ env_radiance im dir = Ok value.
Proof.
  intros value dir. eexists. split; [reflexivity|]. set (im := Img 1 1 _). assert (V : valid im) by (unfold valid, im; repeat split; reflexivity || discriminate).
  destruct (C122_bounds im dir value value V ltac:(discriminate) ltac:(cbn; lia) ltac:(cbn; lia)) as (s & E & B); [constructor; [lra|constructor]|]. rewrite E. f_equal. lra.
Qed.
(* on the seam, longitude 180 degrees, the first column is shown ... *)
Lemma wrap_one : wrap_coordinate exact Repeat 1 = wrap_coordinate exact Repeat 0.
Proof. cbn [wrap_coordinate]. unfold fmod1. rewrite !truncz_pos by lra. rewrite (flr_unique 1 1), (flr_unique 0 0) by lra. replace (1 - 1) with (0 - 0) by lra. reflexivity. Qed.
Lemma sample_wrap im u u' v v' : wrap_coordinate exact Repeat u = wrap_coordinate exact Repeat u' -> wrap_coordinate exact Repeat v = wrap_coordinate exact Repeat v' -> sample_bilinear exact Repeat im u v = sample_bilinear exact Repeat im u' v'.
Proof. intros U V. unfold sample_bilinear, bilinear_taps. rewrite U, V. reflexivity. Qed.
Lemma env_u_seam k lat : 0 < k -> - (PI / 2) < lat < PI / 2 -> env_u (looking k PI lat) = 1.
Proof.
  intros K L. unfold env_u. rewrite looking_normal by auto. cbn [vx vz]. rewrite sin_PI, cos_PI. pose proof (cos_gt_0 lat ltac:(lra) ltac:(lra)) as C. unfold atan2.
  destruct (Rltb 0 (cos lat * -1)) eqn:E1; rb; [lra|]. destruct (Rltb (cos lat * -1) 0) eqn:E2; rb; [|lra]. destruct (Rleb 0 (cos lat * 0)) eqn:E3; rb; [|lra].
  replace (cos lat * 0 / (cos lat * -1)) with 0 by (field; lra). rewrite atan_0. pose proof PI_RGT_0. field. lra.
Qed.
Theorem C122_seam : forall im k lat, valid im -> (2 <= im_w im)%Z -> (2 <= im_h im)%Z -> 0 < k -> - (PI / 2) < lat < PI / 2 ->
  exists s, env_radiance im (looking k PI lat) = Ok s /\ interpolated im 0 (row (im_h im) lat) s.
Proof.
  intros im k lat V W H K L. pose proof PI_RGT_0. unfold env_radiance. rewrite env_u_seam, env_v_looking by (auto; lra). rewrite (sample_wrap im 1 0 _ _ wrap_one eq_refl).
  destruct (bilinear_inside im 0 ((PI / 2 - lat) / PI) V W H ltac:(lra) ltac:(apply unit_ratio; lra)) as (s & E & P). exists s. split; auto. rewrite Rmult_0_l in P. exact P.
Qed.
(* ... while from the east the last column is approached: unless the two columns agree, the background jumps there. The jump is visible: for every pair of
   directions' distance delta there are a direction on the seam and one closer than delta to it whose radiances differ by more than half the columns' difference *)
Lemma interpolated_unique im x y s s' : interpolated im x y s -> interpolated im x y s' -> s = s'.
Proof.
  intros (x0 & y0 & a & b & c & d & X & Y & PA & PB & PC & PD & E) (x1 & y1 & a1 & b1 & c1 & d1 & X1 & Y1 & PA1 & PB1 & PC1 & PD1 & E1).
  assert (x1 = x0). { rewrite <- (flr_unique x x0), <- (flr_unique x x1); auto. } assert (y1 = y0). { rewrite <- (flr_unique y y0), <- (flr_unique y y1); auto. } subst x1 y1. cbv zeta in *.
  rewrite E, E1. congruence.
Qed.
Theorem C122_seam_refuted : forall im j first last, valid im -> (2 <= im_w im)%Z -> (2 <= im_h im)%Z -> (0 < j < im_h im - 1)%Z ->
  pix im 0 j = Ok first -> pix im (im_w im - 1) j = Ok last -> first <> last ->
  forall delta, 0 < delta -> exists lon lat s s', PI - delta < lon < PI /\ - (PI / 2) < lat < PI / 2 /\
    env_radiance im (looking 1 PI lat) = Ok s /\ env_radiance im (looking 1 lon lat) = Ok s' /\ s = first /\ Rabs (s' - s) > Rabs (last - first) / 2.
Proof.
  intros im j first last V W H J PF PL NE delta DL. pose proof PI_RGT_0 as PP. set (lat := PI / 2 - IZR j / IZR (im_h im - 1) * PI).
  assert (HP : 0 < IZR (im_h im - 1)) by (apply IZR_lt; lia). assert (WP : 0 < IZR (im_w im - 1)) by (apply IZR_lt; lia). assert (JR : 0 < IZR j < IZR (im_h im - 1)) by (split; apply IZR_lt; lia).
  assert (RJ : 0 < IZR j / IZR (im_h im - 1) < 1). { split; [apply Rdiv_lt_0_compat; lra|apply unit_ratio; lra]. }
  assert (LT : - (PI / 2) < lat < PI / 2) by (unfold lat; nra). assert (ROW : row (im_h im) lat = IZR j) by (unfold row, lat; field; lra).
  destruct (pix_ok im (im_w im - 2) j V) as (b & _ & PB); [split; lia|].
  set (D := Rabs (last - first)). assert (DP : 0 < D) by (apply Rabs_pos_lt; lra). set (M := Rabs (b - last) + 1). assert (MP : 1 <= M) by (unfold M; pose proof (Rabs_pos (b - last)); lra).
  set (q := D / (4 * M)). assert (QP : 0 < q) by (apply Rdiv_lt_0_compat; lra). set (step := 2 * PI / IZR (im_w im - 1)). assert (SP : 0 < step) by (apply Rdiv_lt_0_compat; lra).
  set (f := Rmin (1 / 2) (Rmin q (delta / (2 * step)))). assert (FP : 0 < f). { unfold f. repeat apply Rmin_glb_lt; try lra. apply Rdiv_lt_0_compat; lra. }
  assert (F1 : f <= 1 / 2) by apply Rmin_l. assert (F2 : f <= q) by (eapply Rle_trans; [apply Rmin_r|apply Rmin_l]). assert (F3 : f <= delta / (2 * step)) by (eapply Rle_trans; [apply Rmin_r|apply Rmin_r]).
  set (lon := PI - f * step). assert (FD : f * step <= delta / 2). { apply (Rmult_le_compat_r step) in F3; [|lra]. replace (delta / (2 * step) * step) with (delta / 2) in F3 by (field; lra). exact F3. }
  assert (ST : step <= 2 * PI). { unfold step. assert (1 <= IZR (im_w im - 1)) by (apply (IZR_le 1); lia). apply (Rmult_le_reg_r (IZR (im_w im - 1))); auto. unfold Rdiv. rewrite Rmult_assoc, Rinv_l by lra. nra. }
  assert (FS : 0 < f * step) by (apply Rmult_lt_0_compat; auto). assert (LN : - PI < lon < PI) by (unfold lon; nra).
  assert (COL : column (im_w im) lon = IZR (im_w im - 1) - f) by (unfold column, lon, step; field; lra).
  destruct (C122_seam im 1 lat V W H ltac:(lra) LT) as (s & E & P). destruct (C122_panorama_partial im 1 lon lat V W H ltac:(lra) LN LT) as (s' & E' & P'). rewrite ROW in P, P'. rewrite COL in P'.
  exists lon, lat, s, s'. split; [split; unfold lon; lra|]. split; auto. split; auto. split; auto.
  assert (SE : s = first). { destruct P as (x0 & y0 & a & b0 & c & d & X & Y & PA & _ & _ & _ & Es). assert (x0 = 0%Z) by (rewrite <- (flr_unique 0 x0), (flr_unique 0 0); auto; lra). assert (y0 = j) by (rewrite <- (flr_unique (IZR j) y0), flr_IZR; auto). subst x0 y0.
    cbv zeta in Es. replace (0 - 0) with 0 in Es by ring. replace (IZR j - IZR j) with 0 in Es by ring. rewrite Es. rewrite PF in PA. injection PA as <-. ring. }
  split; auto. assert (SE' : s' = last + f * (b - last)). { destruct P' as (x0 & y0 & a & b0 & c & d & X & Y & PA & PB0 & _ & _ & Es).
    assert (x0 = (im_w im - 2)%Z). { rewrite <- (flr_unique (IZR (im_w im - 1) - f) x0) by auto. apply flr_unique. replace (im_w im - 2)%Z with (im_w im - 1 - 1)%Z by lia. rewrite (minus_IZR (im_w im - 1) 1). lra. }
    assert (y0 = j) by (rewrite <- (flr_unique (IZR j) y0), flr_IZR; auto). subst x0 y0. replace (im_w im - 2 + 1)%Z with (im_w im - 1)%Z in PB0 by lia. rewrite PL in PB0. rewrite PB in PA. injection PB0 as <-. injection PA as <-.
    cbv zeta in Es. rewrite Es. replace (im_w im - 2)%Z with (im_w im - 1 - 1)%Z by lia. rewrite (minus_IZR (im_w im - 1) 1). ring. }
  rewrite SE, SE'. fold D. assert (B : Rabs (f * (b - last)) <= D / 4). { rewrite Rabs_mult, (Rabs_pos_eq f) by lra. pose proof (Rabs_pos (b - last)). apply Rle_trans with (q * M); [unfold M; nra|]. unfold q. right. field. lra. }
  pose proof (Rabs_triang (last + f * (b - last) - first) (- (f * (b - last)))) as T. replace (last + f * (b - last) - first + - (f * (b - last))) with (last - first) in T by ring. rewrite Rabs_Ropp in T. fold D in T. lra.
Qed.
(* straight down shows what straight up shows, not the last row *)
Theorem C122_down_refuted : forall im k k', 0 < k -> 0 < k' -> env_radiance im (V3 0 (- k) 0) = env_radiance im (V3 0 k' 0).
Proof.
  intros im k k' K K'. pose proof PI_RGT_0. assert (N : forall a, a <> 0 -> normalize (V3 0 a 0) = V3 0 (a / Rabs a) 0).
  { intros a A. unfold normalize. replace (vlen (V3 0 a 0)) with (Rabs a); [apply v3_eq; unfold vscale; cbn; field; apply Rabs_no_R0; auto|]. unfold vlen, dot; cbn. rewrite <- sqrt_Rsqr_abs. f_equal. unfold Rsqr. ring. }
  unfold env_radiance. apply sample_wrap.
  - unfold env_u. rewrite !N by lra. reflexivity.
  - unfold env_v. rewrite !N by lra. cbn [vy]. rewrite (Rabs_left (- k)), (Rabs_pos_eq k') by lra. replace (- k / - - k) with (-1) by (field; lra). replace (k' / k') with 1 by (field; lra).
    unfold clamp11. destruct (Rltb (-1) (-1)) eqn:A; rb; [lra|]. destruct (Rltb 1 (-1)) eqn:B; rb; [lra|]. destruct (Rltb 1 1) eqn:C; rb; [lra|]. destruct (Rltb 1 (-1)) eqn:G; rb; [lra|].
    replace (-1) with (- (1)) by lra. rewrite asin_opp, asin_1. replace (1 / 2 - - (PI / 2) * (1 / PI)) with 1 by (field; lra). replace (1 / 2 - PI / 2 * (1 / PI)) with 0 by (field; lra). apply wrap_one.
Qed.
Print Assumptions C122_panorama_partial.
Print Assumptions C122_bounds.
Print Assumptions C122_uniform.
Print Assumptions C122_seam.
Print Assumptions C122_seam_refuted.
Print Assumptions C122_down_refuted.
Example C122_case : let im := Img 3 3 [1; 2; 3; 4; 5; 6; 7; 8; 9] in valid im /\ pix im 0 1 = Ok 4 /\ pix im (im_w im - 1) 1 = Ok 6 /\ interpolated im (column 3 0) (row 3 0) 5.
Proof.
  cbv zeta. split; [unfold valid; repeat split; reflexivity || discriminate|]. split; [reflexivity|]. split; [reflexivity|]. pose proof PI_RGT_0. exists 1%Z, 1%Z, 5, 6, 8, 9.
  replace (column 3 0) with 1 by (unfold column; cbn; field; lra). replace (row 3 0) with 1 by (unfold row; cbn; field; lra). repeat split; try reflexivity; try lra.
Qed.
