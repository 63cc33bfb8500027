(* Theorems about the sensor, the aperture and the focus: properties C54 and C66-C69, and the sensor part of C34. *)
From Verif Require Import Vec3 DistortionModel CameraModel SensorModel SensorSpec SensorProofs.

(* C34, sensor part: for every setter, every state and every argument, a call that throws changes nothing. *)
Theorem C34_sensor_electronics_unchanged_partial : forall k s,
  snd (sensor_do k s) = true -> fst (sensor_do k s) = s.
Proof. exact sensor_throw. Qed.
Print Assumptions C34_sensor_electronics_unchanged_partial.
Example C34_sensor_instance : snd (sensor_do (GainAdu (Fin (-1))) sensor0) = true /\ snd (sensor_do (GainAdu (Fin 2)) sensor0) = false.
Proof.
  assert (A : Rleb (-1) 0 = true) by (apply Rleb_true; lra). assert (B : Rleb 2 0 = false) by (apply Rleb_false; lra).
  cbn [sensor_do]. unfold set_gain_adu, pos_finite. rewrite A, B. split; reflexivity.
Qed.

(* C54: after every history of sensor setter calls (rejected ones included) the sensor is valid, and every
   read-out of every frame, with or without noise and whatever the random draws, gives one value in [0,1]
   per pixel. *)
Theorem C54_readout_in_unit_interval : forall (rng : Type) (gen : R -> rng -> R * rng) l dt frame st,
  let s := sensor_run l sensor0 in
  valid_sensor s
  /\ List.length (fst (readout_frame gen s dt frame st)) = List.length frame
  /\ (forall x, In x (fst (readout_frame gen s dt frame st)) -> 0 <= x <= 1).
Proof.
  intros rng gen l dt frame st s. assert (V : valid_sensor s) by (apply sensor_run_valid, sensor0_valid).
  split; auto. split; [unfold readout_frame; rewrite readout_length, map_length; auto|].
  intros x H. unfold readout_frame in H. eapply readout_range; eauto.
Qed.
Print Assumptions C54_readout_in_unit_interval.

(* Without noise every output value is the response to the pixel's electrons ... *)
Theorem C54_quiet_readout_is_response : forall (rng : Type) (gen : R -> rng -> R * rng) s dt frame st,
  simulate_noise s = false ->
  fst (readout_frame gen s dt frame st) = map (fun px => response s (electrons dt px)) frame.
Proof.
  intros rng gen s dt frame st Hn. unfold readout_frame. rewrite readout_quiet by auto. cbn [fst].
  unfold dark_electrons. rewrite Hn, map_map. reflexivity.
Qed.
Print Assumptions C54_quiet_readout_is_response.

(* ... and the response is monotone, linear up to saturation, strictly increasing there, and constant from
   saturation on (in particular from the full well on). *)
Theorem C54_response_shape : forall s, valid_sensor s -> simulate_noise s = false ->
  (forall e e', e <= e' -> response s e <= response s e')
  /\ (forall e, 0 <= e <= saturation s -> response s e = e / (gain s * max_dn s))
  /\ (forall e e', 0 <= e < e' -> e < saturation s -> response s e < response s e')
  /\ (forall e, saturation s <= e -> response s e = response s (saturation s))
  /\ (forall e, full_well s <= e -> response s e = response s (full_well s))
  /\ (response s (saturation s) = 1 <-> gain s * max_dn s <= full_well s)
  /\ (forall e, e <= 0 -> response s e = 0).
Proof.
  intros s V Hn. assert (V' := V). destruct V' as (Hf & Hr & Hd & Hb & Hbit & Hg). pose proof (max_dn_pos s Hbit) as M.
  assert (GM : 0 < gain s * max_dn s) by nra.
  assert (S0 : 0 < saturation s) by (apply Rmin_pos; auto).
  assert (C : forall e, 0 <= e -> response s e = Rmin e (saturation s) * / (gain s * max_dn s)).
  { intros e He. rewrite response_closed by auto. field. lra. }
  assert (IGM : 0 < / (gain s * max_dn s)) by (apply Rinv_0_lt_compat; auto).
  assert (L : forall e, 0 <= e <= saturation s -> response s e = e / (gain s * max_dn s)).
  { intros e He. rewrite C by lra. rewrite Rmin_left by lra. reflexivity. }
  split; [intros; apply adc_mono; auto|]. split; [exact L|]. split.
  - intros e e' He Hs. rewrite !C by lra. apply Rmult_lt_compat_r; auto. rewrite (Rmin_left e) by lra. apply Rmin_glb_lt; lra.
  - split.
    + intros e He. rewrite !C by lra. rewrite !Rmin_right by lra. reflexivity.
    + split.
      * intros e He. assert (Hsf : saturation s <= full_well s) by apply Rmin_l. rewrite !C by lra. rewrite !Rmin_right by lra. reflexivity.
      * split.
        -- rewrite L by lra. split; intros H.
           ++ apply (f_equal (fun x => x * (gain s * max_dn s))) in H. unfold Rdiv in H. rewrite Rmult_assoc, Rinv_l in H by lra.
              assert (Hsf : saturation s <= full_well s) by apply Rmin_l. lra.
           ++ assert (E : saturation s = gain s * max_dn s) by (apply Rmin_right; auto). rewrite E. field. lra.
        -- intros e He. unfold response, noise_and_adc. rewrite Hn, !Rplus_0_r. unfold clampR.
           assert (Hle : Rmin e (full_well s) / gain s <= 0).
           { assert (Rmin e (full_well s) <= 0) by (eapply Rle_trans; [apply Rmin_l|auto]).
             assert (0 < / gain s) by (apply Rinv_0_lt_compat; auto). unfold Rdiv. nra. }
           destruct (Rltb _ 0) eqn:A; rb; [unfold Rdiv; ring|].
           assert (Z : Rmin e (full_well s) / gain s = 0) by lra. rewrite Z.
           replace (Rltb (max_dn s) 0) with false by (symmetry; apply Rltb_false; lra). unfold Rdiv; ring.
Qed.
Print Assumptions C54_response_shape.
Example C54_instance : let s := sensor_run [SimulateNoise false; BitDepth 8; GainAdu (Fin 2)] sensor0 in
  valid_sensor s /\ simulate_noise s = false /\ saturation s = 510 /\ response s 255 = / 2.
Proof.
  assert (B : Rleb 2 0 = false) by (apply Rleb_false; lra).
  intros s. assert (V : valid_sensor s) by (apply sensor_run_valid, sensor0_valid).
  assert (E : s = {| full_well := 20000; simulate_noise := false; read_noise := 10; dark_current := 1; bias_dn := 10; bit_depth := 8; gain := 2; unity_db := 0 |}).
  { unfold s. cbn [sensor_run sensor_do fst]. unfold set_gain_adu, pos_finite. rewrite B. reflexivity. }
  split; auto. clearbody s. subst s. split; [reflexivity|].
  assert (M : max_dn {| full_well := 20000; simulate_noise := false; read_noise := 10; dark_current := 1; bias_dn := 10; bit_depth := 8; gain := 2; unity_db := 0 |} = 255)
    by (unfold max_dn; cbn [bit_depth]; change (Z.to_nat 8) with 8%nat; cbn [pow]; lra).
  assert (S : saturation {| full_well := 20000; simulate_noise := false; read_noise := 10; dark_current := 1; bias_dn := 10; bit_depth := 8; gain := 2; unity_db := 0 |} = 510).
  { unfold saturation. rewrite M. cbn [full_well gain]. rewrite Rmin_right by lra. lra. }
  split; auto. rewrite response_closed; auto; [|lra]. rewrite S, M. cbn [gain]. rewrite Rmin_left by lra. field.
Qed.

(* C66: the output is quantised to the converter's levels - false of the code, which does not round: for every
   valid noiseless sensor there is a signal whose output is none of the levels. *)
Theorem C66_refuted_output_not_quantised : forall s, valid_sensor s -> simulate_noise s = false ->
  exists e, 0 < e < saturation s /\ ~ is_level s (response s e).
Proof.
  intros s V Hn. assert (V' := V). destruct V' as (Hf & Hr & Hd & Hb & Hbit & Hg). pose proof (max_dn_pos s Hbit) as M.
  assert (GM : 0 < gain s * max_dn s) by nra. assert (S0 : 0 < saturation s) by (apply Rmin_pos; auto).
  set (e := Rmin (saturation s) (gain s) / 2). assert (P : 0 < Rmin (saturation s) (gain s)) by (apply Rmin_pos; auto).
  assert (A := Rmin_l (saturation s) (gain s)). assert (B := Rmin_r (saturation s) (gain s)).
  exists e. split; [unfold e; lra|]. intros (n & En). fold (max_dn s) in En.
  rewrite (proj1 (proj2 (C54_response_shape s V Hn))) in En by (unfold e; lra).
  replace (e / (gain s * max_dn s) * max_dn s) with (e / gain s) in En by (field; lra).
  assert (0 < e / gain s) by (apply Rdiv_lt_0_compat; unfold e; lra).
  assert (e / gain s < 1). { apply Rmult_lt_reg_r with (gain s); auto. unfold Rdiv. rewrite Rmult_assoc, Rinv_l by lra. unfold e; lra. }
  rewrite En in *. assert (0 < n)%Z by (apply lt_IZR; auto). assert (n < 1)%Z by (apply lt_IZR; auto). lia.
Qed.
Print Assumptions C66_refuted_output_not_quantised.
(* what holds: exact multiples of the gain below saturation give exact levels *)
Theorem C66_whole_steps_give_levels_partial : forall s n, valid_sensor s -> simulate_noise s = false ->
  (0 <= n)%Z -> IZR n * gain s <= saturation s -> is_level s (response s (IZR n * gain s)).
Proof.
  intros s n V Hn Hz Hs. assert (V' := V). destruct V' as (Hf & Hr & Hd & Hb & Hbit & Hg). pose proof (max_dn_pos s Hbit) as M.
  exists n. fold (max_dn s). rewrite (proj1 (proj2 (C54_response_shape s V Hn))).
  - field. lra.
  - split; auto. apply Rmult_le_pos; [apply IZR_le; auto | lra].
Qed.
Print Assumptions C66_whole_steps_give_levels_partial.

(* C67: reading the same frame out twice gives the same image. True without noise ... *)
Theorem C67_quiet_readout_reproducible_partial : forall (rng : Type) (gen : R -> rng -> R * rng) s dt frame st st',
  simulate_noise s = false -> fst (readout_frame gen s dt frame st) = fst (readout_frame gen s dt frame st').
Proof. intros. rewrite !C54_quiet_readout_is_response by auto. reflexivity. Qed.
Print Assumptions C67_quiet_readout_reproducible_partial.
(* ... and with noise it is false: the generator is shared by all read-outs of the process, so a second
   read-out starts where the first one left it. For the default sensor, and a generator that returns
   0 for its first two draws and the standard deviation afterwards, the two images differ. *)
Theorem C67_refuted_noisy_readout : exists (gen : R -> nat -> R * nat) frame,
  let first := readout_frame gen sensor0 1 frame 0%nat in
  fst (readout_frame gen sensor0 1 frame (snd first)) <> fst first.
Proof.
  exists (fun sd n => (if Nat.ltb n 2 then 0 else sd, S n)), [[(99, 1, 1)]].
  cbv zeta. assert (Q : electrons 1 [(99, 1, 1)] = 99) by (cbn; unfold bin_electrons; cbn; field).
  assert (D : dark_electrons sensor0 1 = 1) by (unfold dark_electrons; cbn; ring).
  unfold readout_frame. cbn [map readout sensor0 simulate_noise Nat.ltb Nat.leb]. rewrite Q, D.
  replace (99 + 1) with (10 * 10) by ring. rewrite sqrt_square by lra. cbn [fst snd Nat.ltb Nat.leb].
  intros E. injection E as E. revert E. unfold noise_and_adc. cbn [simulate_noise sensor0 bias_dn full_well gain read_noise].
  assert (M : max_dn sensor0 = 4095) by (unfold max_dn; cbn [bit_depth sensor0]; change (Z.to_nat 12) with 12%nat; cbn [pow]; lra). rewrite M.
  rewrite !Rmin_left by lra. unfold clampR.
  repeat match goal with |- context [Rltb ?a ?b] => let H := fresh in destruct (Rltb a b) eqn:H; rb; try lra end.
Qed.
Print Assumptions C67_refuted_noisy_readout.

(* C68: decibel gain, f-stop and diopter settings read back as set *)
Theorem C68_gain_db_round_trip : forall s g, gain_db (fst (set_gain_db (Fin g) s)) = g /\ snd (set_gain_db (Fin g) s) = false.
Proof. intros. split; [apply gain_db_round | reflexivity]. Qed.
Print Assumptions C68_gain_db_round_trip.
Theorem C68_fstop_round_trip : forall f n, 0 < f -> 0 < n ->
  fstop f (set_fstop f n) = n
  /\ ap_diameter (set_fstop f n) = f / n
  /\ PI * (ap_radius (set_fstop f n) * ap_radius (set_fstop f n)) = ap_area (set_fstop f n).
Proof.
  intros f n Hf Hn. split; [apply fstop_round; auto|]. pose proof PI_RGT_0.
  assert (0 < f / n) by (apply Rdiv_lt_0_compat; auto). split.
  - unfold set_fstop, set_area; cbn. replace (4 * (PI * (f / n * (f / n)) / 4) / PI) with (f / n * (f / n)) by (field; lra). apply sqrt_square. lra.
  - apply area_radius. apply Rmult_le_pos; [|lra]. apply Rmult_le_pos; nra.
Qed.
Print Assumptions C68_fstop_round_trip.
Theorem C68_diopters_round_trip : forall x, / 1000000000000 <= Rabs x <= 1000000000000 ->
  exists d, set_diopters x = Some d /\ get_diopters d = x.
Proof.
  intros x Hx. assert (N : x <> 0) by (intros ->; rewrite Rabs_R0 in Hx; lra).
  unfold set_diopters. replace (Rltb (Rabs x) (/ 1000000000000)) with false by (symmetry; apply Rltb_false; lra).
  unfold set_focus_distance. replace (Rltb (Rabs (1 / x)) (/ 1000000000000)) with false.
  - eexists. split; [reflexivity|]. cbn. field. auto.
  - symmetry. apply Rltb_false. unfold Rdiv. rewrite Rmult_1_l, Rabs_Rinv by auto. apply Rinv_le_contravar; [apply Rabs_pos_lt; auto | lra].
Qed.
Print Assumptions C68_diopters_round_trip.
(* below 1e-12 diopters the camera focuses at infinity and reports 0; a rejected distance is never stored *)
Theorem C68_diopters_tiny : forall x, Rabs x < / 1000000000000 -> exists d, set_diopters x = Some d /\ get_diopters d = 0.
Proof.
  intros x Hx. unfold set_diopters. replace (Rltb (Rabs x) (/ 1000000000000)) with true by (symmetry; apply Rltb_true; auto).
  eexists. split; reflexivity.
Qed.
Print Assumptions C68_diopters_tiny.

(* C69: depth of field. Aperture samples lie on the aperture's disc ... *)
Theorem C69_samples_on_aperture : forall ap u, 0 <= fst u <= 1 -> 0 <= snd u <= 1 -> on_disc (ap_radius ap) (aperture_sample ap u).
Proof. exact sample_on_disc. Qed.
Print Assumptions C69_samples_on_aperture.
(* ... and without distortion all rays of a pixel, whatever the aperture sample, start on the lens plane and
   meet ahead of the camera in the one point of that pixel's pinhole ray whose depth is the focus distance. *)
Theorem C69_rays_meet_at_focus_distance : forall fx fy cx cy blender p d ap,
  0 < d -> let dir := pixel_to_direction fx fy cx cy None blender p in
  let '(origin, direction) := dof_ray dir (Fin d) ap in
  vz origin = 0
  /\ exists u, normalize direction = Some u
  /\ exists t, 0 < t /\ vadd origin (vscale t u) = vscale d dir
  /\ (if blender then - vz (vscale d dir) else vz (vscale d dir)) = d.
Proof.
  intros fx fy cx cy blender p d ap Hd dir. unfold dof_ray. split; [reflexivity|].
  set (D := vsub (vscale d dir) (V3 (fst ap) (snd ap) 0)).
  assert (Z : vz dir = if blender then -1 else 1) by (unfold dir, pixel_to_direction; destruct blender; reflexivity).
  assert (N : dot D D <> 0).
  { intros E. unfold dot in E. assert (vz D = 0) by nra. unfold D, vsub, vscale in H. cbn [vz] in H. rewrite Z in H. destruct blender; lra. }
  unfold normalize. destruct (Req_EM_T (dot D D) 0); [contradiction|]. eexists. split; [reflexivity|].
  assert (L : 0 < vlen D). { apply sqrt_lt_R0. assert (0 <= dot D D) by (unfold dot; nra). lra. }
  exists (vlen D). split; auto. split.
  - assert (Q : vscale (vlen D) (vscale (/ vlen D) D) = D).
    { apply v3_eq; unfold vscale; cbn [vx vy vz]; rewrite <- Rmult_assoc, Rinv_r, Rmult_1_l by lra; reflexivity. }
    rewrite Q. apply v3_eq; unfold D, vadd, vsub; cbn [vx vy vz]; ring.
  - unfold vscale; cbn [vz]. rewrite Z. destruct blender; ring.
Qed.
Print Assumptions C69_rays_meet_at_focus_distance.
(* With distortion the direction comes from the (normalised) distortion field, so off axis the focal point is at
   the focus distance from the lens centre instead of at that depth: sharp focus is on a sphere. *)
Theorem C69_refuted_with_distortion : forall dir d, 0 < d -> dot dir dir = 1 -> 0 < vz dir < 1 ->
  vz (vscale d dir) < d /\ dot (vscale d dir) (vscale d dir) = d * d.
Proof.
  intros dir d Hd H1 Hz. split.
  - unfold vscale; cbn [vz]. nra.
  - replace (dot (vscale d dir) (vscale d dir)) with (d * d * dot dir dir) by (unfold dot, vscale; cbn; ring). rewrite H1. ring.
Qed.
Print Assumptions C69_refuted_with_distortion.
(* the area seen from a direction is never more than the aperture's area *)
Theorem C69_projected_area_bounded : forall ap dir, 0 <= ap_area ap -> dot dir dir = 1 -> 0 <= projected_area ap dir <= ap_area ap.
Proof.
  intros ap dir Ha H. unfold projected_area. assert (Rabs (vz dir) <= 1) by (apply Rabs_le; unfold dot in H; nra).
  pose proof (Rabs_pos (vz dir)). split; nra.
Qed.
Print Assumptions C69_projected_area_bounded.
Example C69_instance : on_disc (ap_radius (set_diameter 2)) (aperture_sample (set_diameter 2) (1, 1/2)) /\ aperture_sample (set_diameter 2) (1, / 2) = (1, 0).
Proof.
  split; [apply sample_on_disc; cbn; lra|]. unfold aperture_sample. cbn [fst snd].
  replace (Rltb _ _) with true by (symmetry; apply Rltb_true; lra). cbn [ap_radius set_diameter].
  replace (PI / 4 * ((2 * / 2 - 1) / (2 * 1 - 1))) with 0 by field. rewrite cos_0, sin_0. f_equal; field.
Qed.
