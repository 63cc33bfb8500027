(* C137: blur kernels of a defocused aperture. *)
From Verif Require Import Vec3 PsfModel PsfProofs PsfProps DistortionModel CameraModel SensorModel SensorProps DefocusModel.
Open Scope R_scope.

Lemma Rltb_spec a b : reflect (a < b) (Rltb a b).
Proof. unfold Rltb. destruct (Rlt_dec a b); constructor; auto. Qed.

Definition sumR (l : list R) : R := fold_right Rplus 0 l.
(* distance on the sensor, in pixels *)
Definition pdist (a b : R * R) : R := sqrt ((fst a - fst b) * (fst a - fst b) + (snd a - snd b) * (snd a - snd b)).
(* the pixel grid the kernel covers *)
Definition grid_pixels (n : Z) : list (Z * Z) := flat_map (fun y => map (fun x => (x, y)) (zlist 0 n)) (zlist 0 n).

Lemma ceil_spec x : IZR (ceil x) - 1 < x <= IZR (ceil x).
Proof. unfold ceil. destruct (base_Int_part (- x)) as [A B]. rewrite opp_IZR. lra. Qed.
Lemma clampR_range x : 0 <= clampR x 0 1 <= 1.
Proof. unfold clampR. destruct (Rltb_spec x 0); [lra|]. destruct (Rltb_spec 1 x); lra. Qed.
Lemma clampR_pos x : 0 < clampR x 0 1 <-> 0 < x.
Proof. unfold clampR. destruct (Rltb_spec x 0); [lra|]. destruct (Rltb_spec 1 x); lra. Qed.
Lemma clampR_one x : 1 <= x -> clampR x 0 1 = 1.
Proof. unfold clampR. intros. destruct (Rltb_spec x 0); [lra|]. destruct (Rltb_spec 1 x); lra. Qed.
Lemma in_window d p : In p (window d) <-> (0 <= fst p < d)%Z /\ (0 <= snd p < d)%Z.
Proof.
  unfold window. rewrite in_flat_map. destruct p as [a b]. cbn [fst snd]. split.
  - intros (y & Hy & H). apply in_map_iff in H as (x & E & Hx). injection E as <- <-. apply in_zlist in Hy, Hx. lia.
  - intros [A B]. exists b. split; [apply in_zlist; lia|]. apply in_map_iff. exists a. split; auto. apply in_zlist. lia.
Qed.
Lemma fold_sum (A : Type) (f : A -> R) l a : fold_left (fun s p => s + f p) l a = a + sumR (map f l).
Proof. revert a. induction l as [|x l IH]; intros a; cbn; [lra|]. rewrite IH. fold (sumR (map f l)). lra. Qed.
Lemma sumR_scale l c : sumR (map (fun x => x * c) l) = sumR l * c.
Proof. induction l as [|x l IH]; cbn; [lra|]. fold (sumR l). unfold sumR in IH at 1. rewrite IH. fold (sumR l). lra. Qed.
Lemma sumR_ge l x : (forall y, In y l -> 0 <= y) -> In x l -> x <= sumR l.
Proof.
  induction l as [|y l IH]; intros H I0; [destruct I0|]. destruct I0 as [ -> | I ]; cbn; fold (sumR l).
  - assert (0 <= sumR l). { clear IH. induction l as [|z l IH]; cbn; [lra|]. fold (sumR l). assert (0 <= z) by (apply H; cbn; auto). assert (0 <= sumR l) by (apply IH; intros; apply H; cbn in *; tauto). lra. }
    lra.
  - assert (0 <= y) by (apply H; cbn; auto). assert (x <= sumR l) by (apply IH; auto; intros; apply H; cbn; auto). lra.
Qed.

Definition cov_dist (h : Z) (ox oy : R) (x y : Z) : R := pdist (IZR x, IZR y) (IZR h + ox, IZR h + oy).
Lemma coverage_eq r h ox oy x y : (0 <= h)%Z -> coverage r (2 * h + 1) ox oy x y = clampR (r - cov_dist h ox oy x y + 1 / 2) 0 1.
Proof.
  intros H. unfold coverage, cov_dist, pdist. cbn [fst snd]. replace ((2 * h + 1) / 2)%Z with h by (rewrite Z.mul_comm, Z.div_add_l by lia; cbn; lia).
  f_equal. f_equal. f_equal. f_equal. ring.
Qed.
Lemma near_pixel h o : (1 <= h)%Z -> 0 <= o < 1 -> exists x, (0 <= x < 2 * h + 1)%Z /\ - (1 / 2) <= IZR x - (IZR h + o) <= 1 / 2.
Proof.
  intros H O. destruct (Rlt_le_dec o (1 / 2)).
  - exists h. split; [lia|lra].
  - exists (h + 1)%Z. split; [lia|]. rewrite plus_IZR. lra.
Qed.
Lemma raw_sum_eq r d ox oy : raw_sum r d ox oy = sumR (map (fun p => coverage r d ox oy (fst p) (snd p)) (window d)).
Proof. unfold raw_sum. rewrite (fold_sum _ (fun p => coverage r d ox oy (fst p) (snd p))). lra. Qed.
Lemma raw_sum_pos r h ox oy : 1 / 2 <= r -> (1 <= h)%Z -> 0 <= ox < 1 -> 0 <= oy < 1 -> 0 < raw_sum r (2 * h + 1) ox oy.
Proof.
  intros Hr Hh Ox Oy. rewrite raw_sum_eq.
  destruct (near_pixel h ox Hh Ox) as (x & X1 & X2). destruct (near_pixel h oy Hh Oy) as (y & Y1 & Y2).
  apply Rlt_le_trans with (coverage r (2 * h + 1) ox oy x y).
  - rewrite coverage_eq by lia. apply clampR_pos. unfold cov_dist, pdist. cbn [fst snd].
    set (a := IZR x - _) in *. set (b := IZR y - _) in *.
    assert (sqrt (a * a + b * b) < 1). { clearbody a b. assert (a * a <= 1 / 4) by nra. assert (b * b <= 1 / 4) by nra. assert (0 <= a * a) by nra. assert (0 <= b * b) by nra. rewrite <- sqrt_1. apply sqrt_lt_1; lra. }
    lra.
  - apply sumR_ge.
    + intros z Hz. apply in_map_iff in Hz as (p & <- & _). unfold coverage. apply clampR_range.
    + apply in_map_iff. exists (x, y). split; auto. apply in_window. cbn [fst snd]. lia.
Qed.
Lemma offset_range b i : (0 < b)%Z -> (0 <= i < b)%Z -> 0 <= offset b i < 1.
Proof.
  intros Hb Hi. unfold offset. assert (0 < IZR b) by (apply IZR_lt; lia). assert (0 <= IZR i) by (apply IZR_le; lia). assert (IZR i < IZR b) by (apply IZR_lt; lia).
  split; [apply Rmult_le_pos; [lra|]; left; apply Rinv_0_lt_compat; lra|]. apply Rmult_lt_reg_r with (IZR b); [lra|]. unfold Rdiv. rewrite Rmult_assoc, Rinv_l by lra. lra.
Qed.

(* the built cache *)
Lemma build_blur old D f ra px py banks : (0 < banks)%Z -> 1 / 2 <= blur_radius D f ra px py ->
  let c := build old D f ra px py banks in
  c_radius c = blur_radius D f ra px py /\ (1 <= c_half c)%Z /\ IZR (c_half c) - 1 < blur_radius D f ra px py <= IZR (c_half c) /\ c_banks c = banks /\ c_dim c = (2 * c_half c + 1)%Z /\ c_built c = true.
Proof.
  intros Hb Hr. unfold build. destruct (Rltb_spec (blur_radius D f ra px py) (1 / 2)); [lra|]. cbn [c_radius c_half c_banks c_dim c_built].
  set (r := blur_radius D f ra px py) in *. pose proof (ceil_spec r) as [A B].
  assert (1 <= ceil r)%Z. { destruct (Z_lt_le_dec (ceil r) 1); auto. assert (IZR (ceil r) <= 0) by (apply IZR_le; lia). lra. }
  rewrite Z.max_r by lia. split; [reflexivity|]. split; [lia|]. split; [lra|]. split; [reflexivity|]. split; [reflexivity|]. destruct (Z.eqb_spec (banks * banks) 0); auto. nia.
Qed.
Lemma get_kernel_ok c u v : c_built c = true -> (0 < c_banks c)%Z ->
  get_defocus_kernel c u v = Ok (bank_kernel c (bank_of (c_banks c) u) (bank_of (c_banks c) v)).
Proof.
  intros Hb Hk. unfold get_defocus_kernel. rewrite Hb. cbn [negb]. destruct (Z.ltb_spec (c_banks c) 1); [lia|].
  pose proof (bank_range (c_banks c) u Hk). pose proof (bank_range (c_banks c) v Hk).
  set (a := bank_of _ u) in *. set (b := bank_of _ v) in *. set (n := c_banks c) in *.
  assert (((0 <=? b * n + a) && (b * n + a <? n * n))%Z = true) as ->. { apply andb_true_intro. split; [apply Z.leb_le|apply Z.ltb_lt]; nia. }
  f_equal. f_equal.
  - rewrite Z.add_comm, Z.mod_add by lia. apply Z.mod_small. lia.
  - rewrite Z.div_add_l by lia. rewrite Z.div_small by lia. lia.
Qed.

(* C137: after the focus is set, every point source has a kernel: its entries are non-negative, add up to one, vanish outside the blur spot enlarged
   by half a pixel and are all equal, and largest, inside the spot reduced by half a pixel. The spot is centred within a bank width of the source.
   A spot of radius below half a pixel switches the blur off. *)
Theorem C137_kernels : forall old D f ra px py banks u v, (0 < banks)%Z -> 0 <= u < 1 -> 0 <= v < 1 ->
  let r := Rabs D * f * ra / Rmin px py in
  let c := build old D f ra px py banks in
  (r < 1 / 2 -> has_defocus c = false /\ get_defocus_kernel c u v = Throws) /\
  (1 / 2 <= r -> has_defocus c = true /\
     exists k ox oy, get_defocus_kernel c u v = Ok k /\ (ox <= u < ox + 1 / IZR banks) /\ (oy <= v < oy + 1 / IZR banks) /\
     let n := (2 * c_half c + 1)%Z in
     let centre := (IZR (c_half c) + ox, IZR (c_half c) + oy) in
     (forall x y, 0 <= k x y) /\
     sumR (map (fun p => k (fst p) (snd p)) (grid_pixels n)) = 1 /\
     (forall x y, r + 1 / 2 <= pdist (IZR x, IZR y) centre -> k x y = 0) /\
     (forall x y, pdist (IZR x, IZR y) centre < r + 1 / 2 -> 0 < k x y) /\
     (forall x y x' y', pdist (IZR x, IZR y) centre <= r - 1 / 2 -> k x' y' <= k x y)).
Proof.
  intros old D f ra px py banks u v Hb Hu Hv r c. fold (blur_radius D f ra px py) in r. split.
  - intros Hr. unfold c, build. fold r. destruct (Rltb_spec r (1 / 2)); [|lra]. unfold has_defocus, get_defocus_kernel. cbn [c_radius c_built negb].
    split; auto. destruct (Rltb_spec 0 0); auto. lra.
  - intros Hr. destruct (build_blur old D f ra px py banks Hb Hr) as (R1 & R2 & R3 & R4 & R5 & R6). fold c in R1, R2, R3, R4, R5, R6. fold r in R1, R3.
    split. { unfold has_defocus. rewrite R1. destruct (Rltb_spec 0 r); auto. lra. }
    exists (bank_kernel c (bank_of banks u) (bank_of banks v)), (offset banks (bank_of banks u)), (offset banks (bank_of banks v)).
    split. { rewrite get_kernel_ok by (auto; lia). rewrite R4. reflexivity. }
    assert (B : 0 < IZR banks) by (apply IZR_lt; lia).
    split. { pose proof (bank_near banks u Hb Hu) as [X Y]. unfold offset. split; auto. unfold Rdiv in *. lra. }
    split. { pose proof (bank_near banks v Hb Hv) as [X Y]. unfold offset. split; auto. unfold Rdiv in *. lra. }
    cbv zeta. unfold bank_kernel. rewrite R1, R4, R5. set (h := c_half c) in *.
    set (ox := offset banks (bank_of banks u)). set (oy := offset banks (bank_of banks v)).
    assert (Ox : 0 <= ox < 1) by (apply offset_range, bank_range; auto). assert (Oy : 0 <= oy < 1) by (apply offset_range, bank_range; auto).
    pose proof (raw_sum_pos r h ox oy Hr R2 Ox Oy) as S. set (s := raw_sum r (2 * h + 1) ox oy) in *.
    assert (I : 0 < 1 / s) by (apply Rdiv_lt_0_compat; lra).
    split; [|split; [|split; [|split]]].
    + intros x y. apply Rmult_le_pos; [|lra]. unfold coverage. apply clampR_range.
    + change (grid_pixels (2 * h + 1)) with (window (2 * h + 1)).
      pose proof (sumR_scale (map (fun p => coverage r (2 * h + 1) ox oy (fst p) (snd p)) (window (2 * h + 1))) (1 / s)) as Q. rewrite map_map in Q. rewrite Q, <- raw_sum_eq. fold s. field. lra.
    + intros x y H. rewrite coverage_eq by lia. fold (cov_dist h ox oy x y) in H.
      assert (clampR (r - cov_dist h ox oy x y + 1 / 2) 0 1 = 0) as ->; [|lra].
      pose proof (clampR_range (r - cov_dist h ox oy x y + 1 / 2)). pose proof (clampR_pos (r - cov_dist h ox oy x y + 1 / 2)). destruct (Rle_lt_or_eq_dec 0 _ (proj1 H0)); [|auto]. apply H1 in r0. lra.
    + intros x y H. rewrite coverage_eq by lia. fold (cov_dist h ox oy x y) in H. apply Rmult_lt_0_compat; [|lra]. apply clampR_pos. lra.
    + intros x y x' y' H. rewrite !coverage_eq by lia. fold (cov_dist h ox oy x y) in H. apply Rmult_le_compat_r; [lra|]. rewrite (clampR_one (r - cov_dist h ox oy x y + 1 / 2)) by lra. apply clampR_range.
Qed.

(* The kernel holds the whole spot exactly when it fits to the right and below: the left and upper sides always fit. *)
Lemma pdist_ge a b c d : Rabs (a - c) <= pdist (a, b) (c, d).
Proof. unfold pdist. cbn [fst snd]. rewrite <- sqrt_Rsqr_abs. apply sqrt_le_1_alt. unfold Rsqr. pose proof (Rle_0_sqr (a - c)). pose proof (Rle_0_sqr (b - d)). unfold Rsqr in *. lra. Qed.
Lemma pdist_ge2 a b c d : Rabs (b - d) <= pdist (a, b) (c, d).
Proof. unfold pdist. cbn [fst snd]. rewrite <- sqrt_Rsqr_abs. apply sqrt_le_1_alt. unfold Rsqr. pose proof (Rle_0_sqr (a - c)). pose proof (Rle_0_sqr (b - d)). unfold Rsqr in *. lra. Qed.
Lemma pdist_flat a c d : pdist (a, d) (c, d) = Rabs (a - c).
Proof. unfold pdist. cbn [fst snd]. rewrite <- sqrt_Rsqr_abs. f_equal. unfold Rsqr. ring. Qed.
(* The last column is cut off exactly when the source lies so far to the right inside its pixel that the spot, rounded up, passes the window. *)
Theorem C137_fits : forall old D f ra px py banks ox y, (0 < banks)%Z -> 0 <= ox < 1 ->
  let r := Rabs D * f * ra / Rmin px py in
  let c := build old D f ra px py banks in
  let n := (2 * c_half c + 1)%Z in
  1 / 2 <= r ->
  (r + ox <= IZR (c_half c) + 1 / 2 -> forall x oy, pdist (IZR x, IZR y) (IZR (c_half c) + ox, IZR (c_half c) + oy) < r + 1 / 2 -> (0 <= x < n)%Z) /\
  (IZR (c_half c) + 1 / 2 < r + ox -> exists x oy, (n <= x)%Z /\ pdist (IZR x, IZR y) (IZR (c_half c) + ox, IZR (c_half c) + oy) < r + 1 / 2).
Proof.
  intros old D f ra px py banks ox y Hb Ho r c n Hr. fold (blur_radius D f ra px py) in r.
  destruct (build_blur old D f ra px py banks Hb Hr) as (R1 & R2 & R3 & R4 & R5 & R6). fold c in R1, R2, R3, R4, R5, R6. fold r in R1, R3. set (h := c_half c) in *. split.
  - intros F x oy H. pose proof (pdist_ge (IZR x) (IZR y) (IZR h + ox) (IZR h + oy)) as G.
    split.
    + destruct (Z_lt_le_dec x 0); auto. assert (IZR x <= -1) by (apply IZR_le; lia). rewrite Rabs_left in G; lra.
    + destruct (Z_lt_le_dec x n); auto. unfold n in *. assert (IZR (2 * h + 1) <= IZR x) by (apply IZR_le; lia). rewrite plus_IZR, mult_IZR in H0. assert (1 <= IZR h) by (apply IZR_le; lia). rewrite Rabs_right in G; lra.
  - intros F. exists n, (IZR y - IZR h). split; [lia|]. replace (IZR h + (IZR y - IZR h)) with (IZR y) by ring. rewrite pdist_flat. unfold n. rewrite plus_IZR, mult_IZR. assert (1 <= IZR h) by (apply IZR_le; lia). rewrite Rabs_right; lra.
Qed.

(* Refuted: "the kernel holds the whole blur spot". A spot of radius one pixel, around a source 15/16 of the way across its pixel, puts light on
   the second pixel to the right (its centre is at (x, y), it reaches from x - 1/2 to x + 1/2), which the kernel does not have. *)
Theorem C137_refuted_cut : exists D f ra px py u v, 0 < D /\ 0 < f /\ 0 < ra /\ 0 < px /\ 0 < py /\ 0 <= u < 1 /\ 0 <= v < 1 /\
  let r := Rabs D * f * ra / Rmin px py in
  let c := build cache0 D f ra px py 16 in
  1 / 2 <= r /\ exists x y, (2 * c_half c + 1 <= x)%Z /\
     (* three eighths of the pixel's width is in the spot around the very source position *)
     pdist (IZR x - 1 / 8, IZR y) (IZR (c_half c) + u, IZR (c_half c) + v) < r.
Proof.
  exists 1, 1, 1, (1), (1), (15 / 16), 0. do 7 (split; [lra|]).
  assert (E : Rabs 1 * 1 * 1 / Rmin 1 1 = 1). { rewrite Rabs_right by lra. rewrite Rmin_left by lra. field. }
  cbv zeta. rewrite E. split; [lra|].
  destruct (build_blur cache0 1 1 1 1 1 16) as (R1 & R2 & R3 & R4 & R5 & R6); [lia|unfold blur_radius; lra|]. unfold blur_radius in R3. rewrite E in R3.
  set (h := c_half _) in *. assert (h = 1)%Z. { assert (IZR h < 2) by lra. apply lt_IZR in H. lia. }
  exists 3%Z, 1%Z. split; [lia|]. rewrite H. replace (IZR 1 + 0) with 1 by ring. rewrite pdist_flat. rewrite Rabs_right; lra.
Qed.

(* The blur spot is the one the ray tracer draws: with square pixels, depth of field and focus distance d, the pixel position p has a ray through the
   aperture that runs towards a source at infinity in direction s exactly when p is within the blur radius of the image of s. *)
Theorem C137_agrees_with_rays : forall f pitch cx cy ra d (blender : bool) s (p : R * R), 0 < f -> 0 < pitch -> 0 < ra -> 0 < d ->
  (if blender then vz s < 0 else 0 < vz s) ->
  let fx := f / pitch in
  (pdist p (project_point fx fx cx cy None blender s) <= Rabs (1 / d) * f * ra / Rmin pitch pitch <->
   exists ap : R * R, fst ap * fst ap + snd ap * snd ap <= ra * ra /\
     exists t, 0 < t /\ snd (dof_ray (pixel_to_direction fx fx cx cy None blender p) (Fin d) ap) = vscale t s).
Proof.
  intros f pitch cx cy ra d blender s p Hf Hp Ha Hd Hs fx.
  assert (Fx : 0 < fx) by (apply Rdiv_lt_0_compat; lra).
  assert (B : Rabs (1 / d) * f * ra / Rmin pitch pitch = fx * ra / d).
  { rewrite Rabs_right by (apply Rle_ge, Rlt_le, Rdiv_lt_0_compat; lra). rewrite Rmin_left by lra. unfold fx. field. lra. }
  rewrite B. assert (B0 : 0 <= fx * ra / d) by (apply Rlt_le, Rdiv_lt_0_compat; nra).
  set (w := if blender then - vz s else vz s). assert (W : 0 < w) by (unfold w; destruct blender; lra).
  set (sg := if blender then -1 else 1). assert (SG : sg * sg = 1) by (unfold sg; destruct blender; lra).
  assert (P : pdist p (project_point fx fx cx cy None blender s) <= fx * ra / d <->
    (fst p - (fx * (vx s / w) + cx)) * (fst p - (fx * (vx s / w) + cx)) + (snd p - (fx * (sg * vy s / w) + cy)) * (snd p - (fx * (sg * vy s / w) + cy)) <= (fx * ra / d) * (fx * ra / d)).
  { unfold pdist, project_point. cbn [fst snd]. fold w sg. match goal with |- sqrt ?X <= _ <-> _ => assert (Q : 0 <= X) by (apply Rplus_le_le_0_compat; apply Rle_0_sqr); set (q := X) in * end. split; intros H.
    - rewrite <- (sqrt_sqrt q Q). pose proof (sqrt_pos q). nra.
    - rewrite <- (sqrt_Rsqr (fx * ra / d)) by auto. unfold Rsqr. apply sqrt_le_1; nra. }
  rewrite P. clear P. unfold dof_ray. cbn [snd].
  set (dir := pixel_to_direction fx fx cx cy None blender p).
  assert (Dx : vx dir = (fst p - cx) / fx) by (unfold dir, pixel_to_direction; destruct blender; reflexivity).
  assert (Dy : vy dir = sg * ((snd p - cy) / fx)). { unfold dir, pixel_to_direction, sg; destruct blender; cbn [vy fst snd]; lra. }
  assert (Dz : vz dir = sg) by (unfold dir, pixel_to_direction, sg; destruct blender; reflexivity).
  assert (Sz : vz s = sg * w) by (unfold sg, w; destruct blender; lra).
  set (ax := d / fx * (fst p - (fx * (vx s / w) + cx))). set (ay := sg * (d / fx * (snd p - (fx * (sg * vy s / w) + cy)))).
  assert (K : forall a, (exists t, 0 < t /\ vsub (vscale d dir) (V3 (fst a) (snd a) 0) = vscale t s) <-> (fst a = ax /\ snd a = ay)).
  { intros a. split.
    - intros (t & T & E). pose proof (f_equal vx E) as Ex. pose proof (f_equal vy E) as Ey. pose proof (f_equal vz E) as Ez. unfold vsub, vscale in Ex, Ey, Ez. cbn [vx vy vz] in Ex, Ey, Ez.
      rewrite Dz, Sz in Ez. rewrite Dx in Ex. rewrite Dy in Ey.
      assert (t = d / w). { apply Rmult_eq_reg_r with w; [|lra]. replace (d / w * w) with d by (field; lra). assert (sg <> 0) by (intro; nra). apply Rmult_eq_reg_l with sg; auto. lra. }
      subst t. split.
      + unfold ax. replace (fst a) with (d * ((fst p - cx) / fx) - d / w * vx s) by lra. field. lra.
      + unfold ay. replace (snd a) with (d * (sg * ((snd p - cy) / fx)) - d / w * vy s) by lra.
        replace (d / w * vy s) with (sg * sg * (d / w * vy s)) by (rewrite SG; ring). field. lra.
    - intros [E1 E2]. exists (d / w). split; [apply Rdiv_lt_0_compat; lra|]. apply v3_eq; unfold vsub, vscale; cbn [vx vy vz].
      + rewrite E1, Dx. unfold ax. field. lra.
      + rewrite E2, Dy. unfold ay. replace (d / w * vy s) with (sg * sg * (d / w * vy s)) by (rewrite SG; ring). field. lra.
      + rewrite Dz, Sz. field. lra. }
  assert (A : ax * ax + ay * ay = (d / fx) * (d / fx) * ((fst p - (fx * (vx s / w) + cx)) * (fst p - (fx * (vx s / w) + cx)) + (snd p - (fx * (sg * vy s / w) + cy)) * (snd p - (fx * (sg * vy s / w) + cy)))).
  { unfold ay. match goal with |- _ + sg * ?X * (sg * ?X) = _ => replace (sg * X * (sg * X)) with (sg * sg * (X * X)) by ring end. rewrite SG. unfold ax. ring. }
  match type of A with _ = _ * ?X => set (q := X) in * end.
  assert (M : ra * ra = (d / fx) * (d / fx) * ((fx * ra / d) * (fx * ra / d))) by (field; lra).
  assert (DD : 0 < (d / fx) * (d / fx)) by (assert (0 < d / fx) by (apply Rdiv_lt_0_compat; lra); nra).
  split.
  - intros H. exists (ax, ay). split; [cbn [fst snd]; rewrite A, M; apply Rmult_le_compat_l; lra|]. apply K. auto.
  - intros (a & Ha1 & Ha2). apply K in Ha2 as [E1 E2]. rewrite E1, E2, A, M in Ha1. apply Rmult_le_reg_l with (2 := Ha1). auto.
Qed.

(* Refuted for pixels that are not square: the kernels are round in pixels, with the radius of the narrower pitch. The position straight below the image
   of the source at that radius is lit by the kernel, but no ray from it through the aperture runs towards the source. *)
Theorem C137_refuted_not_square : forall f px py cx cy ra d s, 0 < f -> 0 < px -> px < py -> 0 < ra -> 0 < d -> 0 < vz s ->
  let r := Rabs (1 / d) * f * ra / Rmin px py in
  let q := project_point (f / px) (f / py) cx cy None false s in
  forall ap : R * R, fst ap * fst ap + snd ap * snd ap <= ra * ra ->
  forall t, snd (dof_ray (pixel_to_direction (f / px) (f / py) cx cy None false (fst q, snd q + r)) (Fin d) ap) <> vscale t s.
Proof.
  intros f px py cx cy ra d s Hf Hx Hy Ha Hd Hs r q ap Hap t E.
  assert (Er : r = f * ra / (d * px)). { unfold r. rewrite Rabs_right by (apply Rle_ge, Rlt_le, Rdiv_lt_0_compat; lra). rewrite Rmin_left by lra. field. lra. }
  unfold dof_ray, pixel_to_direction in E. cbn [fst snd] in E.
  pose proof (f_equal vy E) as Ey. pose proof (f_equal vz E) as Ez. unfold vsub, vscale in Ey, Ez. cbn [vx vy vz] in Ey, Ez.
  unfold q, project_point in Ey. cbn [fst snd] in Ey.
  assert (T : t = d / vz s). { apply Rmult_eq_reg_r with (vz s); [|lra]. replace (d / vz s * vz s) with d by (field; lra). lra. }
  assert (A : snd ap = ra * (py / px)).
  { replace (snd ap) with (d * ((f / py * (1 * vy s / vz s) + cy + r - cy) / (f / py)) - t * vy s) by lra. rewrite T, Er. field. lra. }
  assert (1 < py / px). { apply Rmult_lt_reg_r with px; [lra|]. unfold Rdiv. rewrite Rmult_assoc, Rinv_l by lra. lra. }
  assert (ra < snd ap) by (rewrite A; nra). nra.
Qed.

(* Refuted: "every accepted focus distance focuses ahead of the camera". A negative one is accepted, and every ray then leaves towards the back. *)
Theorem C137_refuted_negative : forall d fx fy cx cy blender p ap, d <= -1 -> set_focus_distance (Fin d) = Some (Fin d) /\
  vz (snd (dof_ray (pixel_to_direction fx fy cx cy None blender p) (Fin d) ap)) * vz (pixel_to_direction fx fy cx cy None blender p) < 0.
Proof.
  intros d fx fy cx cy blender p ap Hd. split.
  - unfold set_focus_distance. destruct (Rltb_spec (Rabs d) (/ 1000000000000)); auto. rewrite Rabs_left in r by lra. lra.
  - unfold dof_ray, pixel_to_direction. cbn [snd fst]. destruct blender; unfold vsub, vscale; cbn [vz]; lra.
Qed.

(* The hypotheses are met: a 50 mm lens at f/2 with 5 micrometre pixels, focused at 10 m, blurs a star over 12.5 pixels. *)
Example C137_case : let r := Rabs (1 / 10) * (5 / 100) * (125 / 10000) / Rmin (5 / 1000000) (5 / 1000000) in r = 25 / 2 /\
  forall u v, 0 <= u < 1 -> 0 <= v < 1 -> exists k, get_defocus_kernel (build cache0 (1 / 10) (5 / 100) (125 / 10000) (5 / 1000000) (5 / 1000000) 16) u v = Ok k /\
  c_half (build cache0 (1 / 10) (5 / 100) (125 / 10000) (5 / 1000000) (5 / 1000000) 16) = 13%Z.
Proof.
  cbv zeta. assert (E : Rabs (1 / 10) * (5 / 100) * (125 / 10000) / Rmin (5 / 1000000) (5 / 1000000) = 25 / 2).
  { rewrite Rabs_right by lra. rewrite Rmin_left by lra. field. }
  split; auto. intros u v Hu Hv.
  destruct (C137_kernels cache0 (1 / 10) (5 / 100) (125 / 10000) (5 / 1000000) (5 / 1000000) 16 u v) as [_ H]; [lia|auto|auto|]. rewrite E in H.
  destruct H as (_ & k & ox & oy & K & _); [lra|]. exists k. split; auto.
  unfold build. unfold blur_radius. rewrite E. destruct (Rltb_spec (25 / 2) (1 / 2)); [lra|]. cbn [c_half].
  pose proof (ceil_spec (25 / 2)) as [A B]. assert (ceil (25 / 2) = 13)%Z; [|lia].
  assert (12 < ceil (25 / 2))%Z by (apply lt_IZR; lra). assert (ceil (25 / 2) < 14)%Z by (apply lt_IZR; lra). lia.
Qed.
Print Assumptions C137_kernels.
Print Assumptions C137_fits.
Print Assumptions C137_refuted_cut.
Print Assumptions C137_agrees_with_rays.
Print Assumptions C137_refuted_not_square.
Print Assumptions C137_refuted_negative.
