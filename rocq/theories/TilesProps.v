(* The properties of tiled rendering (C24, C27, C28, C62). *)
From Verif Require Import Vec3 TilesModel TilesSpec TilesProofs.
From Coq Require Import Permutation.
Open Scope Z_scope.

(* C24: whatever order the scheduler picks for the tiles, path tracing visits each pixel of the image exactly once
   and no other pixel *)
Theorem C24_tiles_partition_image : forall w h order, 0 <= w -> 0 <= h ->
  Permutation order (zrange 0 (num_tiles 16 w h)) ->
  NoDup (path_visits w h order) /\ forall p, In p (path_visits w h order) <-> inside w h p.
Proof. exact path_partition. Qed.
Print Assumptions C24_tiles_partition_image.

(* each projected sample is put in exactly one existing tile of the unresolved-object pass *)
Theorem C24_samples_binned_once : forall w h it, 0 < w -> 0 < h ->
  exists! idx, 0 <= idx < num_tiles TILE w h /\ In it (bin w h [it] idx).
Proof.
  intros w h it Hw Hh. exists (bin_of w h it). split.
  - split; [apply bin_range; auto|]. unfold bin. cbn. rewrite Z.eqb_refl. left; auto.
  - intros idx [_ H]. unfold bin in H. cbn in H. destruct (Z.eqb_spec (bin_of w h it) idx); auto. destruct H.
Qed.
Print Assumptions C24_samples_binned_once.

(* C28: for every image size, every set of samples on the image with every kernel and radius, stamping makes no
   access outside a buffer or a kernel, and the image it produces is the plain sum over the samples of their kernels,
   independently of how samples are distributed over tiles *)
Theorem C28_stamping_is_safe_and_exact : forall w h Rs items, 0 < w -> 0 < h -> 0 < Rs ->
  (forall it, In it items -> on_image w h it /\ 0 <= er it <= Rs) ->
  exists img, render_unresolved w h Rs None items = Some img /\ bsize img = (w, h) /\
    forall x y, 0 <= x < w -> 0 <= y < h -> bdata img x y = stamped_image Rs items x y.
Proof.
  intros w h Rs items Hw Hh HR Hit.
  apply (pipeline w h Rs None items (fun it => stamp_grid Rs (local_rect w h Rs (bin_of w h it)) it) (fun it x y => stamp_at Rs it x y)); auto; try lia.
  intros it Hi. destruct (Hit it Hi) as [H1 H2]. destruct (stamp_writes_ok w h Rs it Hw Hh H1 H2) as (ws & A & B).
  cbv zeta. assert (E : ws = stamp_grid Rs (local_rect w h Rs (bin_of w h it)) it) by (rewrite stamp_writes_grid in A by auto; congruence).
  subst ws. destruct (local_rect w h Rs (bin_of w h it)) as [[[x0 y0] x1] y1] eqn:Er.
  destruct B as [B1 B2]. split; [|split]; auto.
  unfold item_writes, unobstructed. replace (0 <? Rs) with true by lia. auto.
Qed.
Print Assumptions C28_stamping_is_safe_and_exact.

(* the same with a depth channel: hidden samples drop out, for samples strictly inside the image *)
Theorem C28_stamping_with_occlusion : forall w h Rs isinf items, 0 < w -> 0 < h -> 0 < Rs ->
  (forall it, In it items -> in_image w h it /\ 0 <= er it <= Rs) ->
  exists img, render_unresolved w h Rs (Some isinf) items = Some img /\
    forall x y, 0 <= x < w -> 0 <= y < h ->
      bdata img x y = stamped_image Rs (filter (unhidden w (Some isinf)) items) x y.
Proof.
  intros w h Rs isinf items Hw Hh HR Hit.
  destruct (pipeline w h Rs (Some isinf) items
    (fun it => if unhidden w (Some isinf) it then stamp_grid Rs (local_rect w h Rs (bin_of w h it)) it else [])
    (fun it x y => if unhidden w (Some isinf) it then stamp_at Rs it x y else 0%R)) as (img & A & _ & B); auto; try lia.
  - intros it Hi. destruct (Hit it Hi) as [[H1 H1'] H2].
    destruct (stamp_writes_ok w h Rs it Hw Hh) as (ws & A & B); auto. { unfold on_image; lia. }
    cbv zeta. assert (E : ws = stamp_grid Rs (local_rect w h Rs (bin_of w h it)) it) by (rewrite stamp_writes_grid in A by auto; congruence).
    subst ws. destruct (local_rect w h Rs (bin_of w h it)) as [[[x0 y0] x1] y1] eqn:Er.
    destruct B as [B1 B2]. unfold item_writes, unobstructed, unhidden.
    assert (Q : ((0 <=? fy it * w + fx it) && (fy it * w + fx it <? w * h))%bool = true).
    { apply andb_true_iff. rewrite Z.leb_le, Z.ltb_lt. split; nia. }
    rewrite Q. destruct (isinf (fy it * w + fx it)).
    + replace (0 <? Rs) with true by lia. split; [|split]; auto.
    + split; auto. split; [intros ? ? ? []|]. intros. unfold wsum. cbn. destruct (_ && _ && _ && _)%bool; auto.
  - exists img. split; auto. intros x y Hx Hy. rewrite B by auto. unfold stamped_image.
    clear - items. induction items as [|it l IH]; cbn [map filter sumR]; auto.
    destruct (unhidden w (Some isinf) it); cbn [map sumR]; rewrite IH; ring.
Qed.
Print Assumptions C28_stamping_with_occlusion.

(* C62: the occlusion test reads only stored depths. False: samples on the far edge of the image pass the range test
   (p.x > res_x is false for p.x = res_x) and are looked up beyond the end of the depth buffer. Witness: a sample at
   position (w, h) for every image size, and also at (0, h) *)
Theorem C62_depth_read_out_of_range : forall w h isinf Rs, 0 < w -> 0 < h ->
  exists it, on_image w h it /\ unobstructed w h (Some isinf) it = None /\
    render_unresolved w h Rs (Some isinf) [it] = None.
Proof.
  intros w h isinf Rs Hw Hh.
  set (it := {| fx := w; fy := h; rx := w; ry := h; pw := 1%R; kern := fun _ _ => 0%R; er := 0 |}).
  assert (U : unobstructed w h (Some isinf) it = None).
  { unfold unobstructed, it. cbn. destruct (andb (0 <=? h * w + w) (h * w + w <? w * h)) eqn:E; auto. nia. }
  exists it. split; [unfold on_image, it; cbn; lia|]. split; auto.
  unfold render_unresolved.
  assert (T : render_tile w h Rs (Some isinf) [it] (bin_of w h it) = None).
  { unfold render_tile, bin. cbn [filter]. rewrite Z.eqb_refl.
    destruct (local_rect w h Rs (bin_of w h it)) as [[[x0 y0] x1] y1].
    cbn [map]. unfold item_writes. rewrite U. reflexivity. }
  assert (I : In (bin_of w h it) (zrange 0 (num_tiles TILE w h))) by (apply zrange_in, bin_range; auto).
  clearbody it. revert I. generalize (zrange 0 (num_tiles TILE w h)). intros l I.
  assert (S : sequence (map (render_tile w h Rs (Some isinf) [it]) l) = None).
  { induction l as [|a l IH]; [destruct I|]. destruct I as [->|I]; cbn [map sequence]; [rewrite T; auto|].
    destruct (render_tile w h Rs (Some isinf) [it] a); auto. rewrite IH; auto. }
  rewrite S. auto.
Qed.
Print Assumptions C62_depth_read_out_of_range.
(* and it is safe for samples strictly inside *)
Theorem C62_depth_read_partial : forall w h isinf it, in_image w h it ->
  unobstructed w h (Some isinf) it = Some (isinf (fy it * w + fx it)).
Proof.
  intros w h isinf it [H1 H2]. unfold unobstructed.
  assert (Q : ((0 <=? fy it * w + fx it) && (fy it * w + fx it <? w * h))%bool = true).
  { apply andb_true_iff. rewrite Z.leb_le, Z.ltb_lt. split; nia. }
  rewrite Q. auto.
Qed.
Print Assumptions C62_depth_read_partial.

(* C27, full statement: without PSF, for samples on the image, the image is point_image (every sample deposits its
   power on its nearest pixel). Proved when the nearest pixel lies in the same 64 x 64 tile as the floor of the
   position or outside the image; false otherwise *)
Theorem C27_points_deposited_partial : forall w h items, 0 < w -> 0 < h ->
  (forall it, In it items -> on_image w h it /\ rounded it /\
     (rx it / TILE = fx it / TILE \/ w <= rx it) /\ (ry it / TILE = fy it / TILE \/ h <= ry it)) ->
  exists img, render_unresolved w h 0 None items = Some img /\
    forall x y, 0 <= x < w -> 0 <= y < h -> bdata img x y = point_image items x y.
Proof.
  intros w h items Hw Hh Hit.
  destruct (pipeline w h 0 None items
     (fun it => match delta_writes (local_rect w h 0 (bin_of w h it)) it with Some ws => ws | None => [] end)
     (fun it x y => if in_rect (local_rect w h 0 (bin_of w h it)) (rx it) (ry it) then point_at it x y else 0%R))
    as (img & A & _ & B); auto; try lia.
  - intros it Hi. destruct (delta_writes_ok w h it Hw Hh) as (ws & C & D).
    cbv zeta. rewrite C. destruct (local_rect w h 0 (bin_of w h it)) as [[[x0 y0] x1] y1] eqn:Er.
    destruct D as [D1 D2]. split; [|split]; auto.
  - exists img. split; auto. intros x y Hx Hy. rewrite B by auto. unfold point_image. apply sumR_ext.
    intros it Hi. destruct (Hit it Hi) as ([O1 O2] & [R1 R2] & T1 & T2).
    destruct (in_rect (local_rect w h 0 (bin_of w h it)) (rx it) (ry it)) eqn:E; auto.
    unfold point_at. destruct ((x =? rx it) && (y =? ry it))%bool eqn:E2; auto. exfalso.
    apply andb_true_iff in E2 as [E2a E2b]. apply Z.eqb_eq in E2a, E2b. subst x y.
    destruct (clamp_tile w (fx it) Hw O1) as (X1 & X2 & _). destruct (clamp_tile h (fy it) Hh O2) as (Y1 & Y2 & _).
    cbv zeta in *. rewrite (rect_of_bin w h 0 it Hw Hh) in E. unfold in_rect in E. unfold TILE in *.
    assert (G : forall n f r t, 0 <= r < n -> (r = f \/ r = f + 1) -> r / 64 = f / 64 -> t * 64 <= f ->
        (f < t * 64 + 64 \/ f = n /\ n <= t * 64 + 64) -> Z.max 0 (t * 64 - 0) <= r < Z.min n (t * 64 + 64 + 0)) by (clear; intros; lia).
    pose proof (G w (fx it) (rx it) _ Hx R1 ltac:(destruct T1; [assumption|clear - Hx H; lia]) X1 X2) as GX.
    pose proof (G h (fy it) (ry it) _ Hy R2 ltac:(destruct T2; [assumption|clear - Hy H; lia]) Y1 Y2) as GY.
    rewrite !andb_false_iff, !Z.leb_gt, !Z.ltb_ge in E. clear - E GX GY.
    destruct GX, GY. destruct E as [[[E|E]|E]|E]; match goal with | A : ?a < ?b, B : ?b <= ?a |- _ => exact (Z.lt_irrefl _ (Z.lt_le_trans _ _ _ A B)) end.
Qed.
Print Assumptions C27_points_deposited_partial.

(* the real position 63.7: floor 63, nearest pixel 64 *)
Lemma Int_part_eq : forall r z, (IZR z <= r < IZR z + 1)%R -> Int_part r = z.
Proof.
  intros r z H. pose proof (base_Int_part r) as [A B].
  assert (IZR (Int_part r) < IZR (z + 1))%R by (rewrite plus_IZR; lra). apply lt_IZR in H0.
  assert (IZR z < IZR (Int_part r + 1))%R by (rewrite plus_IZR; lra). apply lt_IZR in H1. lia.
Qed.

Theorem C27_point_lost_at_tile_boundary :
  ~ (forall w h px py power, 0 < w -> 0 < h -> (0 <= px <= IZR w)%R -> (0 <= py <= IZR h)%R ->
       exists img, render_unresolved w h 0 None [sample_at px py power] = Some img /\
         forall x y, 0 <= x < w -> 0 <= y < h -> bdata img x y = point_image [sample_at px py power] x y).
Proof.
  intros H. destruct (H 128 64 (637 / 10)%R 10%R 1%R) as (img & A & B); try lia; try lra.
  assert (E : sample_at (637 / 10) 10 1 = {| fx := 63; fy := 10; rx := 64; ry := 10; pw := 1%R; kern := fun _ _ => 0%R; er := 0 |}).
  { unfold sample_at. f_equal; apply Int_part_eq; lra. }
  rewrite E in *. specialize (B 64 10 ltac:(lia) ltac:(lia)).
  unfold point_image in B. cbn [map sumR] in B. unfold point_at in B. cbn [rx ry pw] in B.
  change (64 =? 64) with true in B. change (10 =? 10) with true in B. cbn [andb] in B.
  destruct (pipeline 128 64 0 None [{| fx := 63; fy := 10; rx := 64; ry := 10; pw := 1%R; kern := fun _ _ => 0%R; er := 0 |}]
    (fun _ => []) (fun _ _ _ => 0%R)) as (img' & A' & _ & B'); try lia.
  - intros it [<-|[]]. cbn. split; auto. split; [intros ? ? ? []|]. intros.
    destruct (_ && _ && _ && _)%bool; reflexivity.
  - assert (img' = img) by congruence. subst img'. rewrite B' in B by lia. cbn in B. lra.
Qed.
Print Assumptions C27_point_lost_at_tile_boundary.

(** Non-vacuity *)
(* a 100 x 70 image is cut in 35 path tiles, whose natural order meets the hypothesis of C24 *)
Example C24_ex : Permutation (zrange 0 (num_tiles 16 100 70)) (zrange 0 (num_tiles 16 100 70)) /\ num_tiles 16 100 70 = 35.
Proof. split; [apply Permutation_refl | reflexivity]. Qed.
(* a stamp of radius 5 next to a tile corner *)
Example C28_ex : let it := {| fx := 62; fy := 64; rx := 62; ry := 64; pw := 2%R; kern := fun _ _ => 1%R; er := 3 |} in
  on_image 100 70 it /\ 0 <= er it <= 5 /\ stamped_image 5 [it] 65 67 = 2%R /\ stamped_image 5 [it] 66 67 = 0%R.
Proof. cbn. unfold on_image, stamped_image, stamp_at. cbn. repeat split; try lia; lra. Qed.
Example C27_ex : let it := sample_at (30 + 7 / 10) 10 1 in on_image 128 64 it /\ rounded it /\ rx it / TILE = fx it / TILE.
Proof.
  assert (E : sample_at (30 + 7 / 10) 10 1 = {| fx := 30; fy := 10; rx := 31; ry := 10; pw := 1%R; kern := fun _ _ => 0%R; er := 0 |}).
  { unfold sample_at. f_equal; apply Int_part_eq; lra. }
  cbv zeta. rewrite E. unfold on_image, rounded. cbn. repeat split; try lia; auto.
Qed.
