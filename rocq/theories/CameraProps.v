(* Theorems about the camera: properties C22, C33, C34, C35 and C36. *)
From Verif Require Import Vec3 DistortionModel FrustumModel CameraModel CameraSpec CameraProofs.

(* ---- C33 ---- *)
Theorem C33_project_of_direction : forall fx fy cx cy blender p k,
  fx <> 0 -> fy <> 0 -> k <> 0 ->
  project_point fx fy cx cy None blender (vscale k (pixel_to_direction fx fy cx cy None blender p)) = p.
Proof. intros. apply project_direction; auto. discriminate. Qed.
Print Assumptions C33_project_of_direction.

Theorem C33_direction_of_projection : forall fx fy cx cy blender p,
  fx <> 0 -> fy <> 0 -> 0 < depth blender p ->
  vscale (depth blender p) (pixel_to_direction fx fy cx cy None blender (project_point fx fy cx cy None blender p)) = p.
Proof. intros. apply direction_project; auto. discriminate. Qed.
Print Assumptions C33_direction_of_projection.

(* the same with any distortion that is undone exactly at the point in question *)
Theorem C33_with_distortion : forall fx fy cx cy d blender,
  fx <> 0 -> fy <> 0 ->
  (forall p k, k <> 0 -> (forall n, d_distort d (d_undistort d n) = n) ->
     project_point fx fy cx cy (Some d) blender (vscale k (pixel_to_direction fx fy cx cy (Some d) blender p)) = p)
  /\ (forall p, 0 < depth blender p -> (forall n, d_undistort d (d_distort d n) = n) ->
     vscale (depth blender p) (pixel_to_direction fx fy cx cy (Some d) blender (project_point fx fy cx cy (Some d) blender p)) = p).
Proof.
  intros fx fy cx cy d blender Hf Hg. split.
  - intros p k Hk Hd. apply project_direction; auto. intros d' E. inversion E; subst. apply Hd.
  - intros p Hz Hd. apply direction_project; auto. intros d' E. inversion E; subst. cbv zeta. apply Hd.
Qed.
Print Assumptions C33_with_distortion.
Example C33_instance : project_point 100 200 10 20 None true (V3 1 2 (-4)) = (35, -80) /\ 0 < depth true (V3 1 2 (-4)).
Proof. unfold project_point, depth. cbn. split; [f_equal; field | lra]. Qed.

(* ---- C22 ---- *)
(* Exact extent of the frustum of an undistorted camera with up-to-date frustum and at least three
   rows: a point in front of the camera passes iff it projects between the outermost pixel positions. *)
Theorem C22_frustum_is_exactly_the_pixel_rectangle_partial : forall sample c f g u v p,
  fx c = Fin f -> fy c = Fin g -> cx c = Fin u -> cy c = Fin v -> 0 < f -> 0 < g -> dist c = None ->
  frustum c = frustum_of sample c -> (1 <= res_x c)%Z -> (3 <= res_y c)%Z ->
  0 < depth (blender c) p -> / 1000000000000 <= dot p p ->
  (in_fov c p = true <-> between_pixels (res_x c) (res_y c) (project_point f g u v None (blender c) p)).
Proof.
  intros sample c f g u v p E1 E2 E3 E4 Hf Hg Hd Hfr Hw Hh Hz Hl. unfold in_fov.
  replace (Rltb (dot p p) (/ 1000000000000)) with false by (symmetry; apply Rltb_false; auto).
  rewrite Hfr. apply frustum_exact; auto.
Qed.
Print Assumptions C22_frustum_is_exactly_the_pixel_rectangle_partial.

(* For every resolution nothing inside that rectangle is culled. Missing from the full claim: the last
   pixel column and row, refuted next, and distorted cameras. *)
Theorem C22_nothing_between_pixels_is_culled_partial : forall sample c f g u v p,
  fx c = Fin f -> fy c = Fin g -> cx c = Fin u -> cy c = Fin v -> 0 < f -> 0 < g -> dist c = None ->
  frustum c = frustum_of sample c -> (1 <= res_x c)%Z ->
  0 < depth (blender c) p -> / 1000000000000 <= dot p p ->
  between_pixels (res_x c) (res_y c) (project_point f g u v None (blender c) p) -> in_fov c p = true.
Proof.
  intros sample c f g u v p E1 E2 E3 E4 Hf Hg Hd Hfr Hw Hz Hl Hb. unfold in_fov.
  replace (Rltb (dot p p) (/ 1000000000000)) with false by (symmetry; apply Rltb_false; auto).
  rewrite Hfr. eapply frustum_keeps; eauto.
Qed.
Print Assumptions C22_nothing_between_pixels_is_culled_partial.

(* The full claim is false: every camera as above culls every point that projects inside the last
   pixel column beyond its left edge. *)
Theorem C22_refuted_last_column_is_culled : forall sample c f g u v p,
  fx c = Fin f -> fy c = Fin g -> cx c = Fin u -> cy c = Fin v -> 0 < f -> 0 < g -> dist c = None ->
  frustum c = frustum_of sample c -> (1 <= res_x c)%Z -> (3 <= res_y c)%Z ->
  0 < depth (blender c) p -> / 1000000000000 <= dot p p ->
  inside_image (res_x c) (res_y c) (project_point f g u v None (blender c) p) ->
  IZR (res_x c - 1) < fst (project_point f g u v None (blender c) p) ->
  in_fov c p = false.
Proof.
  intros sample c f g u v p E1 E2 E3 E4 Hf Hg Hd Hfr Hw Hh Hz Hl Hi Hc.
  destruct (in_fov c p) eqn:E; auto. exfalso.
  apply (C22_frustum_is_exactly_the_pixel_rectangle_partial sample c f g u v p) in E; auto. destruct E as ((_ & A) & _). lra.
Qed.
Print Assumptions C22_refuted_last_column_is_culled.

(* a camera and a point that meet these hypotheses *)
Definition any_sample : image (option vec3) -> R -> R -> option vec3 := fun _ _ _ => None.
Definition small_camera : camera := fst (set_intrinsics any_sample (Fin 2) (Fin 2) (Fin 2) (Fin 2) 4 4 (Fin 1) (camera0 any_sample)).
Lemma small_camera_ok : snd (set_intrinsics any_sample (Fin 2) (Fin 2) (Fin 2) (Fin 2) 4 4 (Fin 1) (camera0 any_sample)) = false
  /\ fx small_camera = Fin 2 /\ fy small_camera = Fin 2 /\ cx small_camera = Fin 2 /\ cy small_camera = Fin 2
  /\ dist small_camera = None /\ blender small_camera = false /\ res_x small_camera = 4%Z /\ res_y small_camera = 4%Z
  /\ frustum small_camera = frustum_of any_sample small_camera.
Proof.
  unfold small_camera, set_intrinsics. cbv zeta. unfold sensor_set_resolution. cbn [Z.ltb Z.compare orb thn snd fst].
  assert (P : forall c, sensor_set_pitch (fdiv (Fin 1) (Fin 2)) (fdiv (Fin 1) (Fin 2)) c = (set_pitch c (Fin (1 / 2)) (Fin (1 / 2)), false)).
  { intros c. unfold sensor_set_pitch, fdiv, bad_length. destruct (Req_EM_T 2 0); [lra|]. cbn [le0 is_inf is_nan].
    replace (Rleb (1 / 2) 0) with false by (symmetry; apply Rleb_false; lra). reflexivity. }
  cbn [focal fx fy set_focal set_intr set_res]. rewrite P. cbn [thn snd fst].
  assert (Q : forall c, res_x c = 4%Z -> res_y c = 4%Z -> sensor_set_size (fmulz (fdiv (Fin 1) (Fin 2)) 4) (fmulz (fdiv (Fin 1) (Fin 2)) 4) c
     = (set_pitch c (Fin (1 / 2 * 4 / 4)) (Fin (1 / 2 * 4 / 4)), false)).
  { intros c H1 H2. unfold sensor_set_size. rewrite H1, H2. unfold fdiv at 1 2. destruct (Req_EM_T 2 0); [lra|]. cbn [fmulz].
    unfold bad_length at 1 2. cbn [le0 is_inf is_nan]. replace (Rleb (1 / 2 * 4) 0) with false by (symmetry; apply Rleb_false; lra). cbn [orb].
    unfold fdiv. destruct (Req_EM_T 2 0); [lra|]. destruct (Req_EM_T 4 0); [lra|]. cbn [fmulz]. unfold sensor_set_pitch, bad_length. cbn [le0 is_inf is_nan].
    replace (Rleb (1 / 2 * 4 / 4) 0) with false by (symmetry; apply Rleb_false; lra). reflexivity. }
  rewrite Q by reflexivity. cbn [thn snd fst]. repeat split; reflexivity.
Qed.
Example C22_instance : in_fov small_camera (V3 (3 / 4) 0 1) = false
  /\ inside_image 4 4 (project_point 2 2 2 2 None false (V3 (3 / 4) 0 1)).
Proof.
  destruct small_camera_ok as (_ & A & B & C & D & E & F & G & H & I).
  assert (X : inside_image 4 4 (project_point 2 2 2 2 None false (V3 (3 / 4) 0 1))).
  { unfold inside_image, project_point. cbn [fst snd vx vy vz]. split; lra. }
  split; auto. eapply (C22_refuted_last_column_is_culled any_sample); eauto; rewrite ?F, ?G, ?H; try lra; try lia; auto; unfold depth, dot, project_point; cbn [fst snd vx vy vz]; try lra.
  rewrite minus_IZR. lra.
Qed.
Example C22_instance_kept : in_fov small_camera (V3 (1 / 4) 0 1) = true.
Proof.
  destruct small_camera_ok as (_ & A & B & C & D & E & F & G & H & I).
  eapply (C22_nothing_between_pixels_is_culled_partial any_sample); eauto; rewrite ?F, ?G, ?H; try lra; try lia; unfold depth, dot, project_point, between_pixels; cbn [fst snd vx vy vz]; try lra.
  rewrite minus_IZR. split; split; lra.
Qed.

(* ---- C35 ---- *)
(* A successful set_intrinsics makes the camera project with the pinhole matrix of its arguments. *)
Theorem C35_set_intrinsics_projects_with_K_partial : forall sample c f g u v w h anchor p,
  let r := set_intrinsics sample (Fin f) (Fin g) (Fin u) (Fin v) w h anchor c in
  snd r = false -> vz p <> 0 ->
  fx (fst r) = Fin f /\ fy (fst r) = Fin g /\ cx (fst r) = Fin u /\ cy (fst r) = Fin v
  /\ res_x (fst r) = w /\ res_y (fst r) = h
  /\ project_point f g u v None false p = matrix_project (pinhole_matrix f g u v) p.
Proof.
  intros sample c f g u v w h anchor p r Hr Hz.
  assert (E : project_point f g u v None false p = matrix_project (pinhole_matrix f g u v) p).
  { unfold project_point, matrix_project, pinhole_matrix. cbn [fst snd]. f_equal; field; auto. }
  rewrite E. unfold r, set_intrinsics in *. apply thn_ok in Hr as H1. destruct H1 as (Hq & E1). rewrite E1 in *.
  apply res_ok in Hq. destruct Hq as (Er & _). rewrite Er in *. apply thn_ok in Hr as H2. destruct H2 as (Hq & E2). rewrite E2 in *.
  apply pitch_ok in Hq. rewrite Hq in *. apply thn_ok in Hr as H3. destruct H3 as (Hs & E3). rewrite E3. apply size_ok in Hs. rewrite Hs.
  cbn [fst]. repeat split; reflexivity.
Qed.
Print Assumptions C35_set_intrinsics_projects_with_K_partial.

(* set_intrinsic_matrix reads the principal point from the wrong entries: with the matrix K stored as glm
   stores it (m[column][row]) the principal point that the camera uses is always (0, 0), so every visible
   point is projected to the wrong pixel unless K's principal point is (0, 0). *)
Theorem C35_refuted_principal_point_lost : forall sample c f g u v w h anchor p,
  let K := pinhole_matrix f g u v in
  let m := fun column row => Fin (K row column) in
  let r := set_intrinsic_matrix sample m w h anchor c in
  snd r = false -> vz p <> 0 ->
  cx (fst r) = Fin 0 /\ cy (fst r) = Fin 0 /\ fx (fst r) = Fin f /\ fy (fst r) = Fin g
  /\ project_point f g 0 0 None false p = psub (matrix_project K p) (u, v).
Proof.
  intros sample c f g u v w h anchor p K m r Hr Hz.
  assert (E : project_point f g 0 0 None false p = psub (matrix_project K p) (u, v)).
  { unfold K, psub, project_point, matrix_project, pinhole_matrix. cbn [fst snd]. f_equal; field; auto. }
  unfold r, set_intrinsic_matrix in *.
  destruct (C35_set_intrinsics_projects_with_K_partial sample c f g 0 0 w h anchor p Hr Hz) as (A & B & C & D & _).
  auto.
Qed.
Print Assumptions C35_refuted_principal_point_lost.
Example C35_instance : snd (set_intrinsics any_sample (Fin 2) (Fin 2) (Fin 2) (Fin 2) 4 4 (Fin 1) (camera0 any_sample)) = false.
Proof. apply small_camera_ok. Qed.

(* ---- C34 ---- *)
(* set_focal_length stores before it checks: for every camera and every invalid value, the call throws
   and the invalid value is what focal_length() reports afterwards. *)
Theorem C34_refuted_set_focal_length : forall sample c f, bad_length f = true ->
  let r := set_focal_length sample f c in
  snd r = true /\ focal (fst r) = f /\ (focal c <> f -> observables (fst r) <> observables c).
Proof.
  intros sample c f Hb r. unfold r, set_focal_length. rewrite Hb. cbn [fst snd]. split; auto. split; [reflexivity|].
  intros N E. apply N. unfold observables in E. cbn [focal set_focal] in E. congruence.
Qed.
Print Assumptions C34_refuted_set_focal_length.
(* configure_sensor_from_pitch with a valid resolution and an invalid pitch throws and keeps the new resolution *)
Theorem C34_refuted_configure_sensor : forall sample c w h px u v,
  (0 <= w)%Z -> (0 <= h)%Z -> bad_length px = true ->
  let r := configure_from_pitch sample w h px None u v c in
  snd r = true /\ res_x (fst r) = w /\ res_y (fst r) = h.
Proof.
  intros sample c w h px u v Hw Hh Hb r. unfold r, configure_from_pitch, sensor_set_resolution.
  replace ((w <? 0) || (h <? 0))%bool%Z with false by lia. cbn [thn fst snd].
  unfold sensor_set_pitch. rewrite Hb. cbn [orb thn fst snd]. repeat split; reflexivity.
Qed.
Print Assumptions C34_refuted_configure_sensor.
(* set_intrinsics with a zero focal length in pixels throws and keeps the new (unusable) intrinsics *)
Theorem C34_refuted_set_intrinsics : forall sample c g u v w h anchor, (0 <= w)%Z -> (0 <= h)%Z ->
  let r := set_intrinsics sample (Fin 0) g u v w h anchor c in
  snd r = true /\ fx (fst r) = Fin 0.
Proof.
  intros sample c g u v w h anchor Hw Hh r. unfold r, set_intrinsics, sensor_set_resolution.
  replace ((w <? 0) || (h <? 0))%bool%Z with false by lia. cbn [thn fst snd].
  assert (B : bad_length (fdiv anchor (Fin 0)) = true).
  { assert (Z : Rltb 0 0 = false) by (apply Rltb_false; lra).
    unfold fdiv. destruct anchor; rewrite ?Z; try reflexivity. destruct (Req_EM_T 0 0); [reflexivity|lra]. }
  cbn [focal fx fy set_focal set_intr set_res]. unfold sensor_set_pitch. rewrite B. cbn [orb thn fst snd]. split; reflexivity.
Qed.
Print Assumptions C34_refuted_set_intrinsics.
(* What does hold: the sensor's own setters leave the camera unchanged when they throw. *)
Theorem C34_sensor_setters_unchanged_partial : forall c w h a b,
  (snd (sensor_set_resolution w h c) = true -> fst (sensor_set_resolution w h c) = c)
  /\ (snd (sensor_set_pitch a b c) = true -> fst (sensor_set_pitch a b c) = c)
  /\ (snd (sensor_set_size a b c) = true -> fst (sensor_set_size a b c) = c).
Proof.
  intros c w h a b. unfold sensor_set_size, sensor_set_resolution, sensor_set_pitch.
  repeat split; repeat match goal with |- context [if ?x then _ else _] => destruct x end; cbn; auto; discriminate.
Qed.
Print Assumptions C34_sensor_setters_unchanged_partial.
Example C34_instance : bad_length (Fin (-1)) = true /\ bad_length NaN = true /\ bad_length (Fin (1 / 20)) = false.
Proof. unfold bad_length; cbn.
  assert (A : Rleb (-1) 0 = true) by (apply Rleb_true; lra). assert (B : Rleb (1 / 20) 0 = false) by (apply Rleb_false; lra).
  rewrite A, B. auto. Qed.

(* ---- C36 ---- *)
(* After every history of calls that return normally and change neither the distortion nor the axis
   convention, starting from a new camera, all cached data are up to date. *)
Theorem C36_plain_histories_are_fresh_partial : forall sample l,
  Forall plain_call l -> all_return sample l (camera0 sample) -> fresh sample (run sample l (camera0 sample)).
Proof. intros sample l Hp Ha. apply (plain_history sample l (camera0 sample)); auto. apply camera0_fresh. Qed.
Print Assumptions C36_plain_histories_are_fresh_partial.

(* With distortion: after any history whatsoever (throwing calls included), installing a distortion, making
   any plain call that returns, and installing the same distortion again brings everything up to date. *)
Theorem C36_reinstalling_distortion_refreshes_partial : forall sample l d k,
  plain_call k ->
  let c := run sample (l ++ [SetDistortion d]) (camera0 sample) in
  snd (do_call sample k c) = false ->
  fresh sample (run sample (l ++ [SetDistortion d; k; SetDistortion d]) (camera0 sample)).
Proof.
  intros sample l d k Hp c Hk.
  assert (Happ : forall l1 l2 x, run sample (l1 ++ l2) x = run sample l2 (run sample l1 x)) by (induction l1; intros; cbn; auto).
  unfold c in Hk. rewrite Happ in Hk |- *. set (c1 := run sample l (camera0 sample)) in *. clearbody c1. cbn [run] in *.
  destruct (plain_computes sample k _ Hp Hk) as (c2 & E & Ed & _). cbn [do_call] in *. rewrite E. clear E Hk.
  unfold set_distortion in *. cbn [fst] in Ed. cbn [dist set_frustum set_field set_dist] in Ed.
  unfold fresh. cbn [fst]. split; [|split; [|split; [|split]]].
  - unfold compute_intrinsics. destruct (is_explicit (set_rxy c2 _ _)); reflexivity.
  - unfold compute_intrinsics. destruct (is_explicit (set_rxy c2 _ _)); reflexivity.
  - intros _. reflexivity.
  - reflexivity.
  - unfold compute_intrinsics. destruct c2 as [q1 q2 q3 q4 q5 q6 q7 q8 q9 q10 q11 q12 q13 q14 q15 q16 q17]. cbn [dist] in Ed. subst q13. destruct q12; reflexivity.
Qed.
Print Assumptions C36_reinstalling_distortion_refreshes_partial.

(* The full claim is false. 1: switching the axis convention leaves the old frustum ... *)
Theorem C36_refuted_axis_convention : forall sample,
  ~ fresh sample (run sample [UseBlender true] (camera0 sample)).
Proof.
  intros sample (_ & _ & _ & F & _). cbn [run do_call use_blender_convention fst] in F.
  apply (f_equal (fun l => nth 0 l None)) in F.
  assert (A : nth 0 (frustum (set_blender (camera0 sample) true)) None = Some (V3 0 0 1)) by reflexivity.
  assert (B : nth 0 (frustum_of sample (set_blender (camera0 sample) true)) None = Some (V3 0 0 (-1))) by reflexivity.
  rewrite A, B in F. inversion F. lra.
Qed.
Print Assumptions C36_refuted_axis_convention.
(* ... so that right after use_blender_convention() on a new camera nothing in front of it is in view. *)
Theorem C36_refuted_axis_convention_culls_everything : forall sample p,
  let c := run sample [UseBlender true] (camera0 sample) in
  0 < depth (blender c) p -> in_fov c p = false.
Proof.
  intros sample p c Hz. cbn [run do_call use_blender_convention fst] in c. unfold in_fov.
  destruct (Rltb (dot p p) _); auto. destruct (contains _ p) eqn:E; auto. exfalso. rewrite contains_iff in E.
  specialize (E (V3 0 0 1)). assert (I : In (V3 0 0 1) (real_planes (frustum c))) by (apply real_planes_in; left; reflexivity).
  specialize (E I). unfold depth, dot in *. cbn [vx vy vz] in E. change (blender c) with true in Hz. cbn iota in Hz. lra.
Qed.
Print Assumptions C36_refuted_axis_convention_culls_everything.
(* 2: reconfiguring the sensor leaves the distortion field at the old resolution. *)
Theorem C36_refuted_distortion_field : forall sample d,
  let l := [SetDistortion d; ConfigurePitch 10 10 (Fin 1) None None None] in
  all_return sample l (camera0 sample) /\ ~ fresh sample (run sample l (camera0 sample)).
Proof.
  intros sample d l.
  assert (P : forall c, sensor_set_pitch (Fin 1) (Fin 1) c = (set_pitch c (Fin 1) (Fin 1), false)).
  { intros c. unfold sensor_set_pitch, bad_length. cbn [le0 is_inf is_nan].
    replace (Rleb 1 0) with false by (symmetry; apply Rleb_false; lra). reflexivity. }
  assert (E : forall c, do_call sample (ConfigurePitch 10 10 (Fin 1) None None None) c
     = (compute_intrinsics sample (set_intr (set_pitch (set_res (set_focal c (focal c) false) 10 10) (Fin 1) (Fin 1)) (fx c) (fy c) (Fin (10 * / 2)) (Fin (10 * / 2)) false), false)).
  { intros c. cbn [do_call]. unfold configure_from_pitch, sensor_set_resolution. cbn [Z.ltb Z.compare orb thn fst snd]. rewrite P. reflexivity. }
  unfold l. cbn [all_return run]. rewrite !E. cbn [fst snd]. split; [repeat split|].
  intros (_ & _ & F & _). assert (N : iw (field_of (run sample l (camera0 sample))) = 10%Z) by (unfold l; cbn [run]; rewrite E; reflexivity).
  unfold l in N. cbn [run] in N. rewrite E in N. cbn [fst] in N.
  rewrite <- F in N; [discriminate N|]. discriminate.
Qed.
Print Assumptions C36_refuted_distortion_field.
(* 3: installing a distortion never recomputes the solid angles, whatever the camera and the distortion ... *)
Theorem C36_refuted_solid_angles_not_recomputed : forall sample d c, solid (fst (set_distortion sample d c)) = solid c.
Proof. reflexivity. Qed.
Print Assumptions C36_refuted_solid_angles_not_recomputed.
(* ... which leaves them wrong, for instance for a lens that images one direction everywhere. *)
Lemma stale_solid : forall sample d c f g u v,
  fx c = Fin f -> fy c = Fin g -> cx c = Fin u -> cy c = Fin v -> f <> 0 -> g <> 0 -> dist c = None ->
  solid c = solid_of c -> (forall p, d_undistort d p = (0, 0)) ->
  solid (fst (set_distortion sample d c)) <> solid_of (fst (set_distortion sample d c)).
Proof.
  intros sample d c f g u v E1 E2 Eu Ev H1 H2 Ed S0 Hd F.
  rewrite C36_refuted_solid_angles_not_recomputed in F. apply (f_equal (fun i => ipix i 0%Z 0%Z)) in F. rewrite S0 in F.
  unfold solid_of in F. cbn [ipix] in F.
  destruct (solid_some c f g u v 0 0 E1 E2 Eu Ev H1 H2 Ed) as (a & Ha). rewrite Ha in F.
  assert (N : pixel_solid_angle (fst (set_distortion sample d c)) 0 0 = None).
  { unfold pixel_solid_angle.
    assert (D : exists r, forall q, onorm (pix_dir (fst (set_distortion sample d c)) q) = r).
    { eexists. intros q. unfold pix_dir. cbn [set_distortion fst fx fy cx cy dist blender set_frustum set_field set_dist]. rewrite E1, E2, Eu, Ev.
      destruct (Req_EM_T f 0); [contradiction|]. destruct (Req_EM_T g 0); [contradiction|]. unfold pixel_to_direction. rewrite Hd. reflexivity. }
    destruct D as (r & D). rewrite !D. destruct r as [n|]; auto. unfold triangle_solid_angle, corner_angle.
    assert (T : tangent n n = None).
    { unfold tangent. replace (cross (cross n (vsub n n)) n) with vzero by (apply v3_eq; unfold vzero, cross, vsub; cbn; ring). apply normalize_zero. }
    rewrite !T. reflexivity. }
  rewrite N in F. discriminate F.
Qed.
Lemma camera0_fx sample : exists f, fx (camera0 sample) = Fin f /\ f <> 0.
Proof.
  eexists; split; [unfold camera0, compute_intrinsics; cbn [is_explicit set_rxy set_intr set_frustum set_solid fx focal pitch_x fdiv];
    destruct (Req_EM_T (85 / 10000000) 0); [lra|reflexivity] | lra].
Qed.
Lemma camera0_fy sample : exists f, fy (camera0 sample) = Fin f /\ f <> 0.
Proof.
  eexists; split; [unfold camera0, compute_intrinsics; cbn [is_explicit set_rxy set_intr set_frustum set_solid fy focal pitch_y fdiv];
    destruct (Req_EM_T (85 / 10000000) 0); [lra|reflexivity] | lra].
Qed.
Theorem C36_refuted_solid_angles : forall sample,
  let d := {| d_distort := fun p => p; d_undistort := fun _ => (0, 0) |} in
  ~ fresh sample (run sample [SetDistortion d] (camera0 sample)).
Proof.
  intros sample d (_ & _ & _ & _ & F). cbn [run do_call] in F.
  destruct (camera0_fx sample) as (f & E1 & H1), (camera0_fy sample) as (g & E2 & H2).
  pose proof (camera0_fresh sample) as (_ & _ & _ & _ & S0).
  assert (Eu : cx (camera0 sample) = Fin (1024 * / 2)) by reflexivity.
  assert (Ev : cy (camera0 sample) = Fin (1024 * / 2)) by reflexivity.
  assert (Ed : dist (camera0 sample) = None) by reflexivity.
  assert (Hd : forall p, d_undistort d p = (0, 0)) by reflexivity.
  exact (stale_solid sample d (camera0 sample) _ _ _ _ E1 E2 Eu Ev H1 H2 Ed S0 Hd F).
Qed.
Print Assumptions C36_refuted_solid_angles.
(* 4: a call that throws leaves a solid angle map of the wrong size. *)
Theorem C36_refuted_after_exception : forall sample,
  ~ fresh sample (run sample [ConfigurePitch 10 10 NaN None None None] (camera0 sample)).
Proof.
  intros sample (_ & _ & _ & _ & F). apply (f_equal iw) in F. cbn in F. discriminate F.
Qed.
Print Assumptions C36_refuted_after_exception.

Example C36_instance : Forall plain_call [SetFocalLength (Fin (1 / 10)); SetSensor 20 10 1 1]
  /\ all_return any_sample [SetFocalLength (Fin (1 / 10)); SetSensor 20 10 1 1] (camera0 any_sample)
  /\ res_x (run any_sample [SetFocalLength (Fin (1 / 10)); SetSensor 20 10 1 1] (camera0 any_sample)) = 20%Z.
Proof.
  assert (B : bad_length (Fin (1 / 10)) = false).
  { unfold bad_length; cbn. replace (Rleb (1 / 10) 0) with false by (symmetry; apply Rleb_false; lra). reflexivity. }
  split; [repeat constructor|]. cbn [all_return run do_call]. unfold set_focal_length. rewrite B. repeat split; reflexivity.
Qed.
