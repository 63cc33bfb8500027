(* C55: sphere lights and emitters. *)
From Coq Require Import Reals List Lra Lia Psatz.
From Verif Require Import Common Vec3 SpectralModel SpectralSpec SpectralProofs2 LightModel LightSpec LightProofs.
From Coquelicot Require Import Coquelicot.
Import ListNotations.
Open Scope R_scope.

Definition made_light (l : sphere_light) : Prop :=
  (exists r P, l = sphere_light_spectral r P) \/ (exists n r P, sphere_light_scalar n r P = Ok l) \/ (exists r L, l = sphere_light_radiance r L).
Lemma made_pos l : made_light l -> 0 < sl_radius l.
Proof.
  intros [(r & P & ->)|[(n & r & P & H)|(r & L & ->)]]; try apply stored_pos.
  unfold sphere_light_scalar in H. destruct (Rltb P 0); inversion H. apply stored_pos.
Qed.

(* light samples: a point sees the light iff it is outside the sphere; the sampled direction is a unit vector along which the first point of the sphere
   is at the reported distance, and both interfaces report the same positive density *)
Theorem C55_sample : forall l center p u1 u2, made_light l -> 0 <= u1 <= 1 ->
  match sample_li l center p u1 u2 with
  | None => dist center p <= sl_radius l
  | Some s =>
      sl_radius l < dist center p /\ dot (ls_wi s) (ls_wi s) = 1 /\ ls_Li s = sl_radiance l /\
      0 < ls_pdf s /\ ls_pdf s = pdf_li l center p (ls_wi s) /\
      0 < ls_distance s /\ dist (along p (ls_wi s) (ls_distance s)) center = sl_radius l /\
      (forall t, 0 <= t < ls_distance s -> sl_radius l < dist (along p (ls_wi s) t) center)
  end.
Proof.
  intros l center p u1 u2 HM Hu. pose proof (made_pos l HM) as Hr.
  destruct (Rlt_dec (sl_radius l) (dist center p)) as [Ho|Ho].
  - destruct (sample_facts l center p Hr Ho u1 u2 Hu) as (wi & E & HU & HW & HC & HD & HB & _). rewrite E. cbn [ls_wi ls_Li ls_pdf ls_distance].
    pose proof (out_sq l center p Hr Ho) as HO. pose proof (cone_sa_pos _ _ Hr HO) as SP.
    set (wc := vsub center p) in *. set (d2 := dot wc wc) in *. set (d := sqrt d2) in *. set (r := sl_radius l) in *.
    set (ct := 1 - u1 + u1 * cone_cos r d2) in *. set (b := d * ct) in *. set (q := b * b - d2 + r * r) in *.
    assert (HQ: sqrt q * sqrt q = q) by (apply sqrt_sqrt; auto). pose proof (sqrt_pos q) as HQP.
    assert (HBW: dot wc wi = b). { unfold b. etransitivity; [exact (wc_w l center p Hr Ho wi)|]. rewrite (dot_comm _ wi). apply f_equal. exact HW. }
    assert (HAL: forall t, dot (vsub (along p wi t) center) (vsub (along p wi t) center) = (t - b) * (t - b) - q + r * r).
    { intros t. etransitivity; [exact (along_dist_sq center p wi t HU)|]. change (vsub center p) with wc. rewrite HBW. change (dot wc wc) with d2. unfold q. ring. }
    assert (HSB: sqrt q < b) by (unfold q in *; nra).
    split; [auto|]. split; [auto|]. split; [auto|]. split; [|split; [|split; [|split]]].
    + apply Rdiv_lt_0_compat; lra.
    + rewrite (pdf_cases l center p Hr Ho). cbv zeta. rewrite (proj2 (Rltb_false _ _)); [reflexivity|]. eapply Rle_trans; [apply HC|]. apply Req_le. symmetry. exact HW.
    + lra.
    + rewrite dist_dot, HAL. replace ((b - sqrt q - b) * (b - sqrt q - b) - q + r * r) with (r * r) by (rewrite <- HQ at 3; ring). apply sqrt_square. lra.
    + intros t (Ht1 & Ht2). apply Rnot_le_lt. intros HX. apply dist_le_sq in HX; [|lra]. rewrite HAL in HX.
      assert (sqrt q < b - t) by lra. nra.
  - unfold sample_li. rewrite (proj2 (Rleb_true _ _)); [lra|]. rewrite <- dist_dot. lra.
Qed.
Print Assumptions C55_sample.

(* the sampled directions are uniform over the cone under which the sphere is seen: the share of u1 that falls within any angle of the axis is the share
   of solid angle, the azimuth about the axis is 2 pi u2, and the reported density is the reciprocal of the cone's solid angle, up to 1 part in 10^8 and
   exactly if that solid angle is at least 1e-7 *)
Theorem C55_density : forall l center p, made_light l -> sl_radius l < dist center p ->
  let c := seen_cos (sl_radius l) (dist center p) in
  exists e1 e2, dot e1 e1 = 1 /\ dot e2 e2 = 1 /\ dot e1 e2 = 0 /\ dot e1 (vsub center p) = 0 /\ dot e2 (vsub center p) = 0 /\
  forall u1 u2, 0 <= u1 <= 1 -> exists s, sample_li l center p u1 u2 = Some s /\
    (forall z, c <= z <= 1 -> (z * dist center p <= dot (ls_wi s) (vsub center p) <-> u1 * cap_solid_angle c <= cap_solid_angle z)) /\
    (exists k, 0 <= k /\ dot (ls_wi s) e1 = k * cos (2 * PI * u2) /\ dot (ls_wi s) e2 = k * sin (2 * PI * u2)) /\
    Rabs (ls_pdf s * cap_solid_angle c - 1) <= / 10 ^ 8 /\
    (/ 10 ^ 7 <= cap_solid_angle c -> ls_pdf s * cap_solid_angle c = 1).
Proof.
  intros l center p HM Ho c. pose proof (made_pos l HM) as Hr.
  pose proof (out_sq l center p Hr Ho) as HO. pose proof (w_unit l center p Hr Ho) as WU. pose proof (d_pos l center p Hr Ho) as DP.
  set (wc := vsub center p) in *. set (d2 := dot wc wc) in *.
  assert (Hd: dist center p = sqrt d2) by (rewrite dist_dot; reflexivity).
  assert (Hc: c = cone_cos (sl_radius l) d2) by (unfold c; rewrite Hd; symmetry; apply cone_cos_seen; auto).
  pose proof (cone_cos_bounds (sl_radius l) d2 Hr HO) as CB. rewrite <- Hc in CB. pose proof PI_RGT_0 as PP.
  set (w := vscale (/ sqrt d2) wc) in *. destruct (frame_u w WU) as (F1 & F2).
  assert (Hwc: forall x, dot x wc = sqrt d2 * dot x w) by (intros x; rewrite (dot_comm x wc), (dot_comm x w); apply (wc_w l center p Hr Ho x)).
  exists (light_frame_u w), (cross w (light_frame_u w)). split; [auto|]. split; [rewrite cross_len, WU, F1, (dot_comm w), F2; ring|].
  split; [rewrite dot_comm; apply cross_self_r|]. split; [rewrite Hwc, F2; ring|]. split; [rewrite Hwc, cross_self_l; ring|].
  intros u1 u2 Hu. destruct (sample_facts l center p Hr Ho u1 u2 Hu) as (wi & E & HU & HW & HC & HD & HB & HA1 & HA2).
  rewrite E. eexists. split; [reflexivity|]. cbn [ls_wi ls_pdf]. change (vsub center p) with wc in HW, HC, HA1, HA2 |- *. change (dot wc wc) with d2 in HW, HC, HA1, HA2 |- *. rewrite <- Hc in *. change (vscale (/ sqrt d2) wc) with w in HW, HA1, HA2.
  split; [|split; [|split]].
  - intros z Hz. rewrite Hwc, Hd, HW. unfold cap_solid_angle. split; intros H.
    + assert (z <= 1 - u1 + u1 * c) by nra. nra.
    + assert (u1 * (1 - c) <= 1 - z) by nra. nra.
  - exists (sqrt (1 - (1 - u1 + u1 * c) * (1 - u1 + u1 * c))). split; [apply sqrt_pos|]. split; auto.
  - rewrite Hc. apply cone_sa_close; auto.
  - unfold cone_solid_angle. rewrite <- Hc. unfold cap_solid_angle. intros H. cbv zeta. rewrite (proj2 (Rltb_false _ _)) by auto. field. split; lra.
Qed.
Print Assumptions C55_density.

(* pdf_li is positive exactly for the directions in which the light is hit *)
Theorem C55_pdf_support : forall l center p wi, made_light l -> sl_radius l < dist center p -> dot wi wi = 1 ->
  (0 < pdf_li l center p wi <-> exists t, 0 <= t /\ dist (along p wi t) center <= sl_radius l) /\ 0 <= pdf_li l center p wi.
Proof.
  intros l center p wi HM Ho HU. pose proof (made_pos l HM) as Hr. rewrite (pdf_cases l center p Hr Ho), <- (hit_iff l center p Hr Ho wi HU).
  pose proof (cone_sa_pos _ _ Hr (out_sq l center p Hr Ho)) as SP.
  assert (0 < 1 / cone_solid_angle (sl_radius l) (dot (vsub center p) (vsub center p))) by (apply Rdiv_lt_0_compat; lra).
  destruct (Rltb _ _) eqn:E; rb; split; try split; intros; lra.
Qed.
Print Assumptions C55_pdf_support.

(* a spectral power is emitted in full: in every bin, what passes through any sphere around the light is that bin's power *)
Theorem C55_spectral_power : forall radius power center p i, let l := sphere_light_spectral radius power in
  sl_radius l < dist center p -> (i < List.length power)%nat ->
  List.length (irradiance_at l p center) = List.length power /\
  flux_through_sphere (dist center p) (nth i (irradiance_at l p center) 0) = nth i power 0.
Proof.
  intros radius power center p i l Ho Hi. assert (Hr: 0 < sl_radius l) by apply stored_pos.
  pose proof (out_sq l center p Hr Ho) as HO. unfold irradiance_at. rewrite (proj2 (Rleb_false _ _)) by auto.
  unfold l in *. unfold sphere_light_spectral in *. cbn [sl_radiance sl_radius] in *. split; [unfold each; rewrite !map_length; auto|].
  unfold each. rewrite map_map. rewrite (nth_map_any _ 0 0) by auto. unfold flux_through_sphere. rewrite dist_dot.
  set (d2 := dot _ _) in *. assert (Hd: 0 < d2) by nra. replace (sqrt d2 ^ 2) with d2 by (cbn; rewrite Rmult_1_r; symmetry; apply sqrt_sqrt; lra).
  unfold surface_area. pose proof PI_RGT_0. field. repeat split; lra.
Qed.
Print Assumptions C55_spectral_power.

(* refuted: a total power given as a number is emitted once per bin *)
Theorem C55_refuted_total_power : forall n radius power center p, (0 < n)%nat -> 0 < power -> exists l, sphere_light_scalar n radius power = Ok l /\
  (sl_radius l < dist center p -> flux_through_sphere (dist center p) (rsum (irradiance_at l p center)) = INR n * power /\
   ((2 <= n)%nat -> flux_through_sphere (dist center p) (rsum (irradiance_at l p center)) <> power)).
Proof.
  intros n radius power center p Hn Hp. unfold sphere_light_scalar. cbv zeta. rewrite (proj2 (Rltb_false _ _)) by lra. eexists. split; [reflexivity|].
  intros Ho. cbn [sl_radius] in Ho. set (r := stored_radius radius) in *. assert (Hr: 0 < r) by apply stored_pos.
  set (l := SL r (repeat (power / (PI * surface_area r)) n)).
  pose proof (out_sq l center p Hr Ho) as HO. cbn [sl_radius l] in HO. unfold irradiance_at. cbn [sl_radius sl_radiance l]. rewrite (proj2 (Rleb_false _ _)) by auto.
  assert (HS: forall (x : R) (f : R -> R) k, rsum (each f (repeat x k)) = INR k * f x).
  { intros x f. induction k as [|k IH]; [cbn; ring|]. unfold each in *. cbn [repeat map rsum]. rewrite IH, S_INR. ring. }
  rewrite HS. assert (E: flux_through_sphere (dist center p) (INR n * (power / (PI * surface_area r) * PI * (r * r / dot (vsub center p) (vsub center p)))) = INR n * power).
  { unfold flux_through_sphere. rewrite dist_dot. set (d2 := dot _ _) in *. assert (Hd: 0 < d2) by nra.
    replace (sqrt d2 ^ 2) with d2 by (cbn; rewrite Rmult_1_r; symmetry; apply sqrt_sqrt; lra). unfold surface_area. pose proof PI_RGT_0. field. repeat split; lra. }
  rewrite E. split; [reflexivity|]. intros H2. apply le_INR in H2. cbn [INR] in H2. nra.
Qed.
Print Assumptions C55_refuted_total_power.
Theorem C55_negative_power : forall n radius power, power < 0 <-> sphere_light_scalar n radius power = Throws.
Proof. intros. unfold sphere_light_scalar. cbv zeta. destruct (Rltb power 0) eqn:E; rb; split; intros; auto; try discriminate; lra. Qed.
Print Assumptions C55_negative_power.

(* an unresolved emitter spreads its total power right, and all of it passes through any sphere around it *)
Theorem C55_emitter : forall n args bins power position, (0 < n)%nat -> init_bins n args = Ok bins -> position <> vzero ->
  (power < 0 <-> emitter_scalar bins power = Throws) /\
  (0 <= power -> exists e, emitter_scalar bins power = Ok e /\ flux_through_sphere (dist position vzero) (rsum (emitter_irradiance e position)) = power /\
     forall x, In x (emitter_irradiance e position) -> 0 <= x).
Proof.
  intros n args bins power position Hn HB HP. destruct (init_bins_ok n args bins HB) as (HL & HW & _).
  unfold emitter_scalar. split; [destruct (Rltb power 0) eqn:E; rb; split; intros; auto; try discriminate; lra|].
  intros H0. rewrite (proj2 (Rltb_false _ _)) by lra. eexists. split; [reflexivity|].
  assert (HD: 0 < vlen position * vlen position).
  { rewrite vlen_sq. destruct (Rlt_dec 0 (dot position position)); auto. exfalso. apply HP. apply v3_eq; unfold dot in *; cbn; nra. }
  assert (HDI: dist position vzero ^ 2 = vlen position * vlen position).
  { rewrite dist_dot. cbn. rewrite Rmult_1_r. rewrite sqrt_sqrt by apply dot_self_nonneg. rewrite vlen_sq. unfold dot, vsub; cbn. ring. }
  pose proof PI_RGT_0. set (q := vlen position * vlen position) in *. split.
  - unfold flux_through_sphere. rewrite HDI. unfold emitter_irradiance, each. fold q.
    rewrite (map_ext _ (Rmult (/ (4 * PI * q)))) by (intros; unfold Rdiv; ring). rewrite rsum_scale, from_total_sum; auto; [field; lra|]. destruct bins; cbn in HL; [lia|discriminate].
  - intros x Hx. unfold emitter_irradiance, each in Hx. apply in_map_iff in Hx. destruct Hx as (y & <- & Hy). fold q. pose proof (from_total_nonneg bins power y HW H0 Hy).
    apply Rmult_le_pos; auto. apply Rlt_le, Rinv_0_lt_compat. nra.
Qed.
Print Assumptions C55_emitter.
Example C55_case : exists l s, made_light l /\ sphere_light_scalar 3 1 10 = Ok l /\ sample_li l (V3 0 0 5) vzero (1 / 2) (1 / 4) = Some s.
Proof.
  eexists. assert (H: sphere_light_scalar 3 1 10 = Ok (SL (stored_radius 1) (repeat (10 / (PI * surface_area (stored_radius 1))) 3))).
  { unfold sphere_light_scalar. rewrite (proj2 (Rltb_false _ _)) by lra. reflexivity. }
  unfold sample_li. cbn [sl_radius]. assert (E: Rleb (sqrt (dot (vsub (V3 0 0 5) vzero) (vsub (V3 0 0 5) vzero))) (stored_radius 1) = false).
  { apply Rleb_false. unfold stored_radius. rewrite Rmax_left by lra. unfold dot, vsub; cbn. replace (_ + _) with (5 * 5) by ring. rewrite sqrt_square; lra. }
  eexists. split; [|split; [exact H|]]; [right; left; exists 3%nat, 1, 10; exact H|]. cbn [sl_radius]. rewrite E. reflexivity.
Qed.
